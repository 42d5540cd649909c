(** Properties C50 and C51: the size of the search structure and the length of searches in it. *)
From Coq Require Import QArith Lqa List Arith Lia Bool Permutation.
From Verif Require Import Base Coord Trap Runs Plane Geo ValidB TrapInv Polygons Build Locate Count Orders Random RandomSize ValidRuns PropTri.
Import ListNotations.
Local Open Scope nat_scope.

(** Sum over a list of orders. *)
Fixpoint total (f : list nat -> nat) (L : list (list nat)) : nat := match L with [] => 0 | o :: L => f o + total f L end.

(** [L] lists the orders of [n] segments, each once. *)
Definition all_orders (n : nat) (L : list (list nat)) : Prop := NoDup L /\ forall o, In o L <-> Permutation o (seq 0 n).

Lemma total_nsum f L : total f L = nsum f L.
Proof. unfold nsum. induction L; cbn; auto. Qed.

Lemma all_arrs n L (f : list nat -> nat) : all_orders n L -> length L = length (arrs n (seq 0 n)) /\ total f L = nsum f (arrs n (seq 0 n)).
Proof.
  intros (H1 & H2). pose proof (arrs_any n L H1 H2) as K. split; [now apply Permutation_length|]. rewrite total_nsum. unfold nsum. clear - K. induction K; cbn; lia.
Qed.

Section Props.
Context {I : Type}.
Variables (gv : I -> point) (ieqb : I -> I -> bool) (dbg : bool) (math_n : nat -> nat -> nat).
Hypothesis Hieq : forall a b, ieqb a b = true <-> a = b.

(** C50: on every valid list of polygons, with every order of insertion: the capacities reserved for nexuses, segments and trapezoids are what is used;
    the query nodes, whose number the code leaves open, are at most (3 n^2 + 9 n + 2) / 2. *)
Theorem C50_worst (shuf : nat -> nat -> list nat) (elems : list (element I)) : (forall k n, Permutation (shuf k n) (seq 0 n)) ->
  valid (map (map gv) (groups elems)) -> let n := length (concat (groups elems)) in
  exists st N, (forall fuel, N <= fuel -> trapezoidize ieqb gv dbg fuel math_n shuf elems = Ok st) /\
    length (st_ns st) = n /\ length (st_ss st) = n /\ length (st_ts st) = 2 * n + 1 /\ 2 * length (st_qs st) <= 3 * (n * n) + 9 * n + 2.
Proof.
  intros Hs HV n. destruct (trapezoidize_sized gv ieqb dbg Hieq math_n shuf Hs elems HV) as (st & E & S1 & S2).
  destruct (trapezoidize_done gv ieqb dbg Hieq math_n shuf Hs elems HV) as (st' & E' & HD). pose proof (evt_eq _ _ _ E E') as <-.
  destruct (shear_exists (concat (map (map gv) (groups elems)) ++ [])) as (M & HM). destruct (HD [] M) as [_ _ _ Pe Pp _]; auto. { split; [|split]; easy. }
  destruct E as (N & HN). exists st, N. split; auto.
  assert (Ep : length (points st) = n). { rewrite (Permutation_length Pp), <- concat_map, map_length. reflexivity. }
  assert (Ee : length (st_ss st) = n).
  { apply Permutation_length in Pe. unfold medges in Pe. rewrite map_length in Pe. rewrite Pe. unfold n. clear. induction (groups elems) as [|g l IH]; auto. cbn [map]. rewrite uedges_cons, app_length, IH. cbn [concat]. rewrite app_length. f_equal.
    unfold uedges. cbn. rewrite app_nil_r, map_length. pose proof (edges_length (map gv g)) as Z. rewrite map_length in Z. exact Z. }
  assert (En : length (st_ns st) = n) by (rewrite <- Ep; unfold points; now rewrite map_length).
  repeat split; auto; [lia|]. rewrite Ep, Ee in S2. nia.
Qed.

Variable poly : list I.
Notation n := (length poly).
Notation V := (map gv poly).

Lemma single_run fuel o : valid [V] -> trapezoidize ieqb gv dbg fuel math_n (fun _ _ => o) (map (@Continue I) poly) =
  bind (map_err TrapInternal (ploop gv ieqb dbg math_n poly fuel o)) (fun x => Ok (fst x)).
Proof.
  intros HV. pose proof (hlen gv poly HV) as Hl. unfold trapezoidize. rewrite build_poly. cbn [app build_loop]. rewrite map_length.
  assert (Nat.ltb 0 n = true) as -> by (apply Nat.ltb_lt; lia). assert (Nat.ltb n 3 = false) as -> by (apply Nat.ltb_ge; lia). unfold add_polygon, ploop, pend1. rewrite map_length.
  destruct (polygon_loop _ _ _ _ _ _ _ _ _ _ _ _ _) as [[? ?]| |]; reflexivity.
Qed.

Lemma ploop_run fuel o st vls : valid [V] -> ploop gv ieqb dbg math_n poly fuel o = Ok (st, vls) -> trapezoidize ieqb gv dbg fuel math_n (fun _ _ => o) (map (@Continue I) poly) = Ok st.
Proof. intros HV H. rewrite single_run, H; auto. Qed.

Lemma order_good o : Permutation o (seq 0 n) -> good poly o.
Proof. intros H. eapply good_perm; [symmetry; exact H|]. split; [apply seq_NoDup|]. intros j Hj. apply in_seq in Hj. lia. Qed.

(** C50: averaged over all orders of insertion the search structure for a valid polygon with n vertices has at most 10 n + 1 nodes. *)
Theorem C50_average (L : list (list nat)) : valid [V] -> all_orders n L ->
  exists (fuel : nat) (size : list nat -> nat),
    (forall o k, In o L -> fuel <= k -> exists st, trapezoidize ieqb gv dbg k math_n (fun _ _ => o) (map (@Continue I) poly) = Ok st /\ length (st_qs st) = size o) /\
    total size L <= (10 * n + 1) * length L.
Proof.
  intros HV HL. destruct (size_average gv ieqb dbg Hieq math_n poly HV) as (fuel & size & H1 & H2). exists fuel, size. split.
  - intros o k Ho Hk. apply HL in Ho. destruct (H1 o k (order_good o Ho) Hk) as (st & vls & E & Es). exists st. split; auto. eapply ploop_run; eauto.
  - destruct (all_arrs n L size HL) as (E1 & E2). rewrite E1, E2. rewrite qsum_nat in H2. rewrite Nat2Z.inj_le, Zle_Qle. eapply Qle_trans; [exact H2|].
    rewrite !Nat2Z.inj_mul, Nat2Z.inj_add, Nat2Z.inj_mul, inject_Z_mult, inject_Z_plus, inject_Z_mult. apply Qmult_le_compat_r; [|change 0%Q with (inject_Z 0); rewrite <- Zle_Qle; lia].
    pose proof (harmonic_le n). change (inject_Z (Z.of_nat 10)) with 10%Q. change (inject_Z (Z.of_nat 1)) with 1%Q. lra.
Qed.

(** C51: for every point off the polygon, averaged over all orders of insertion, the search for it visits at most 13 + 12 log2 n nodes. *)
Theorem C51_average (p : point) (L : list (list nat)) : valid [V] -> all_orders n L ->
  (forall v, In v V -> ~ peq p v) -> (forall e, In e (edges V) -> ~ on_segment (fst e) (snd e) p) ->
  exists (fuel : nat) (cost : list nat -> nat),
    (forall o k, In o L -> fuel <= k -> exists st x, trapezoidize ieqb gv dbg k math_n (fun _ _ => o) (map (@Continue I) poly) = Ok st /\ find (cost o) (st_qs st) p 0 = Ok x) /\
    total cost L <= (13 + 12 * Nat.log2 n) * length L.
Proof.
  intros HV HL Hp1 Hp2. assert (Hp : xtra gv poly [p]).
  { split; [|split]; intros q r [<-|[]]; auto. intros [<-|[]] _. reflexivity. }
  destruct (search_average gv ieqb dbg Hieq math_n poly HV p Hp) as (fuel & cost & H1 & H2). exists fuel, cost. split.
  - intros o k Ho Hk. apply HL in Ho. destruct (H1 o k (order_good o Ho) Hk) as (st & vls & x & E & Ex). exists st, x. split; auto. eapply ploop_run; eauto.
  - destruct (all_arrs n L cost HL) as (E1 & E2). rewrite E1, E2. rewrite qsum_nat in H2. rewrite Nat2Z.inj_le, Zle_Qle. eapply Qle_trans; [exact H2|].
    rewrite !Nat2Z.inj_mul, Nat2Z.inj_add, Nat2Z.inj_mul, inject_Z_mult, inject_Z_plus, inject_Z_mult. apply Qmult_le_compat_r; [|change 0%Q with (inject_Z 0); rewrite <- Zle_Qle; lia].
    pose proof (harmonic_log n). change (inject_Z (Z.of_nat 13)) with 13%Q. change (inject_Z (Z.of_nat 12)) with 12%Q. lra.
Qed.
End Props.

(** The orders can be listed. *)
Example orders_listed n : all_orders n (arrs n (seq 0 n)).
Proof. split; [apply arrs_nd; auto using seq_NoDup, seq_length|intros o; apply arrs_spec; [apply seq_NoDup|apply seq_length]]. Qed.

(** A quadrilateral, all 24 orders: 440 nodes in all, less than 24 * 41; the search for (1, 1) visits 132 nodes in all, less than 24 * 37. *)
Definition quad : list point := [pt 0 0; pt 3 1; pt 2 3; pt 0 2].
Definition quad_run (o : list nat) := trapezoidize Nat.eqb (gv_of quad) true 100 never (fun _ _ => o) (map (@Continue nat) (seq 0 4)).

Example quad_valid : valid [map (gv_of quad) (seq 0 4)].
Proof. apply validb_valid. vm_compute. reflexivity. Qed.

Example C50_case : length (arrs 4 (seq 0 4)) = 24 /\ total (fun o => match quad_run o with Ok st => length (st_qs st) | _ => 0 end) (arrs 4 (seq 0 4)) = 440.
Proof. split; vm_compute; reflexivity. Qed.

Example C51_case : (forall v, In v (map (gv_of quad) (seq 0 4)) -> ~ peq (pt 1 1) v) /\ (forall e, In e (edges (map (gv_of quad) (seq 0 4))) -> ~ on_segment (fst e) (snd e) (pt 1 1)) /\
  total (fun o => match quad_run o with Ok st => vis 100 (st_qs st) (pt 1 1) 0 | _ => 0 end) (arrs 4 (seq 0 4)) = 132.
Proof.
  split; [|split].
  - intros v Hv (H1 & H2). repeat (destruct Hv as [<-|Hv]; [vm_compute in H1; discriminate H1|]). destruct Hv.
  - intros e He (t & T1 & T2 & E1 & E2). repeat (destruct He as [<-|He]; [cbn [gv_of quad nth fst snd cx cy pt inject_Z] in E1, E2; unfold inject_Z in *; lra|]). destruct He.
  - vm_compute. reflexivity.
Qed.

(** The holed quadrilateral: 7 vertices, 15 trapezoids. *)
Example C50_worst_case : match trapezoidize Nat.eqb (gv_of holed) true 100 never in_order holed_elems with Ok st => (length (st_ns st), length (st_ss st), length (st_ts st), length (st_qs st)) = (7, 7, 15, 31) | _ => False end.
Proof. vm_compute. reflexivity. Qed.

(** The capacity reserved for query nodes, four per vertex, does not always do: the vector grows. *)
Theorem C50_capacity_refuted : exists o st, Permutation o (seq 0 4) /\ valid [map (gv_of quad) (seq 0 4)] /\ quad_run o = Ok st /\ 4 * 4 < length (st_qs st).
Proof. exists [0; 1; 2; 3]. eexists. split; [reflexivity|]. split; [exact quad_valid|]. split; [vm_compute; reflexivity|]. vm_compute. lia. Qed.

Print Assumptions C50_worst.
Print Assumptions C50_average.
Print Assumptions C50_capacity_refuted.
Print Assumptions C51_average.
