(** Property C60: the consistency check that debug builds make after every insertion (src/trapezoidation.rs 467, 555, 560-592) walks the search structure as if
    it were a tree; the number of nodes it visits is not bounded by any polynomial in the number of vertices. *)
From Coq Require Import QArith List Arith Lia Bool Permutation.
From Verif Require Import Base Coord Trap Plane Geo TrapInv Polygons Build SlowFam Visits Grown Stage Wave.
Import ListNotations.
Local Open Scope nat_scope.
Local Open Scope res_scope.

(** The state a debug run ends with is one that it has checked. *)
Section Checked.
Context {C : Type} {OC : CoordOps C} {I : Type}.
Variables (ieqb : I -> I -> bool) (gv : I -> coords C) (fuel : nat) (math_n : nat -> nat -> nat) (shuf : nat -> nat -> list nat).

Lemma seg_checked st a b c d st' : add_segment ieqb true fuel st a b c d = Ok st' -> check_query fuel st' 0 = Ok tt.
Proof.
  unfold add_segment. intros H. repeat match type of H with
  | bind ?r _ = Ok _ => destruct r eqn:?; cbn [bind] in H; [|discriminate H|discriminate H]
  | (let (_, _) := ?x in _) = Ok _ => destruct x
  | (if ?x then _ else _) = Ok _ => destruct x; try discriminate H
  | (match ?x with _ => _ end) = Ok _ => destruct x; try discriminate H
  end. injection H as <-. match goal with E : check_consistency true _ _ = Ok _ |- _ => unfold check_consistency in E; rename E into K end.
  repeat match type of K with bind ?r _ = Ok _ => destruct r; cbn [bind] in K; [|discriminate K|discriminate K] end. match goal with u : unit |- _ => destruct u; exact K end.
Qed.

Lemma nth_checked st vls j st' vls' ad : add_nth_segment ieqb gv true fuel st vls j = Ok (st', vls', ad) -> check_query fuel st' 0 = Ok tt.
Proof.
  unfold add_nth_segment. intros H.
  repeat match type of H with
  | bind ?r _ = Ok _ => destruct r eqn:?; cbn [bind] in H; [|discriminate H|discriminate H]
  | (let (_, _) := ?x in _) = Ok _ => destruct x
  end. injection H as <- _ _. match goal with E : (if ?b then _ else _) = Ok _ |- _ => destruct b; eapply seg_checked; exact E end.
Qed.

Lemma loop_checked len order : forall i st vls pd uc nu st' vls', order <> [] ->
  polygon_loop ieqb gv true fuel math_n len order i st vls pd uc nu = Ok (st', vls') -> check_query fuel st' 0 = Ok tt.
Proof.
  induction order as [|j order IH]; intros i st vls pd uc nu st' vls' Hne H; [easy|]. cbn [polygon_loop] in H.
  destruct (add_nth_segment ieqb gv true fuel st vls j) as [[[st1 vls1] ad]| |] eqn:Ea; cbn [bind] in H; try discriminate. apply nth_checked in Ea.
  assert (G : forall vls pd uc nu, polygon_loop ieqb gv true fuel math_n len order (i + 1) st1 vls pd uc nu = Ok (st', vls') -> check_query fuel st' 0 = Ok tt).
  { intros. destruct order as [|j' order']; [|eapply IH; eauto; discriminate]. cbn in H0. injection H0 as <- _. exact Ea. }
  destruct (Nat.eqb i nu); [|eapply G; eauto]. destruct (relocate fuel fuel st1 vls1 (pd - ad) j (LNexus 0) coords_zero); cbn [bind] in H; try discriminate. eapply G; eauto.
Qed.
End Checked.

Theorem C60_checked : forall (C : Type) (OC : CoordOps C) (I : Type) ieqb (gv : I -> coords C) f math_n shuf (poly : list I) st,
  (forall k n, Permutation (shuf k n) (seq 0 n)) -> poly <> [] ->
  trapezoidize ieqb gv true f math_n shuf (map (@Continue I) poly) = Ok st -> exists n, check_count f st 0 = Ok n.
Proof.
  intros C OC I ieqb gv f math_n shuf poly st Hshuf Hne H. unfold trapezoidize in H.
  assert (B : forall l vl, build_loop ieqb gv true f math_n shuf (map (@Continue I) l ++ [NewPolygon]) 0 state_new vl = build_loop ieqb gv true f math_n shuf [NewPolygon] 0 state_new (vl ++ map (fun i => Pending (gv i) i 0) l)).
  { induction l as [|x l IH]; intros vl; cbn; [now rewrite app_nil_r|]. rewrite IH, <- app_assoc. reflexivity. }
  rewrite B in H. cbn [app build_loop] in H. rewrite map_length in H. destruct poly as [|a poly]; [easy|]. cbn [length Nat.ltb Nat.leb] in H.
  match type of H with context [if ?b then _ else _] => destruct b eqn:?; [discriminate H|] end. unfold add_polygon in H. cbn [length map] in H.
  match type of H with context [map_err TrapInternal ?r] => destruct r as [[st1 vls1]| |] eqn:E; cbn [map_err bind] in H; try discriminate H end. injection H as <-.
  apply loop_checked in E.
  - rewrite check_count_query in E. destruct (check_count f st1 0) as [n| |]; cbn [bind] in E; try discriminate. now exists n.
  - intros K. specialize (Hshuf 0 (S (length poly))). rewrite K in Hshuf. apply Permutation_nil in Hshuf. discriminate.
Qed.

(** The tall edges first, from left to right. *)
Definition wave_order (k : nat) : list nat := map (fun i => 2 * i) (seq 0 k) ++ map (fun i => 2 * i + 1) (seq 0 k) ++ [2 * k].

Lemma wave_perm k : Permutation (wave_order k) (seq 0 (2 * k + 1)).
Proof.
  unfold wave_order. rewrite seq_app, app_assoc. apply Permutation_app_tail. induction k as [|k IH]; [constructor|].
  rewrite seq_S, !map_app. cbn [map]. replace (2 * S k) with (2 * k + 2) by lia. rewrite (seq_app (2 * k) 2). cbn [seq Nat.add]. replace (2 * k + 1) with (S (2 * k)) by lia.
  rewrite <- IH. rewrite <- !app_assoc. apply Permutation_app_head. cbn [app]. apply Permutation_middle.
Qed.

Lemma flat_nth {A} (f g : nat -> A) n : forall s i, i < n -> nth_error (flat_map (fun i => [f i; g i]) (seq s n)) (2 * i) = Some (f (s + i)) /\ nth_error (flat_map (fun i => [f i; g i]) (seq s n)) (S (2 * i)) = Some (g (s + i)).
Proof.
  induction n as [|n IH]; intros s i Hi; [lia|]. cbn [seq flat_map app]. destruct i as [|i]; [rewrite Nat.add_0_r; split; reflexivity|].
  replace (2 * S i) with (S (S (2 * i))) by lia. cbn [nth_error]. replace (s + S i) with (S s + i) by lia. apply IH. lia.
Qed.

Section Order.
Variables (k : nat) (Hk : 1 <= k).
Context {I : Type}.
Variables (gv : I -> point) (poly : list I).
Hypothesis HP : map gv poly = wave k.

Lemma wave_sedge i e : i < k -> sedge_at gv poly (2 * i) e -> e = tall k (S i).
Proof.
  intros Hi (a & b & Ha & Hb & ->). assert (L : length poly = 2 * k + 1) by (rewrite <- (map_length gv), HP; now apply wave_len).
  rewrite L, Nat.mod_small in Hb by lia. apply (map_nth_error gv) in Ha, Hb. rewrite HP in Ha, Hb. unfold wave in Ha, Hb.
  assert (Lf : length (flat_map (fun i => [lo k i; hi k i]) (seq 1 k)) = 2 * k) by (rewrite (flat_len _ 2) by reflexivity; now rewrite seq_length).
  rewrite nth_error_app1 in Ha, Hb by lia. destruct (flat_nth (lo k) (hi k) k 1 i Hi) as (F1 & F2). replace (2 * i + 1) with (S (2 * i)) in Hb by lia. rewrite F1 in Ha. rewrite F2 in Hb. injection Ha as <-. injection Hb as <-. change (1 + i) with (S i).
  unfold orient, tall. pose proof (lo_hi k Hk (S i) ltac:(lia) ltac:(lia)) as H. assert (E : coords_lt (lo k (S i)) (hi k (S i)) = true). { apply coords_lt_spec. now left. } now rewrite E.
Qed.

Lemma wave_edges es : Forall2 (sedge_at gv poly) (wave_order k) es -> exists es', es = map (tall k) (seq 1 k) ++ es'.
Proof.
  unfold wave_order. intros H. apply Forall2_app_inv_l in H. destruct H as (l1 & l2 & H1 & _ & ->). exists l2. f_equal.
  assert (G : forall n s l, s + n <= k -> Forall2 (sedge_at gv poly) (map (fun i => 2 * i) (seq s n)) l -> l = map (tall k) (seq (S s) n)).
  { induction n as [|n IH]; intros s l Hs HF; cbn [seq map] in *; inversion HF; subst; auto. f_equal; [apply (wave_sedge s); auto; lia|apply IH; auto; lia]. }
  apply (G k 0); auto.
Qed.
End Order.

(** C60: for every [k] there is a valid polygon of 2 k + 1 vertices, and an order of its segments, such that the check of the final state visits at
    least 2 ^ (k / 2) nodes, whatever the relocation schedule. *)
Theorem C60_exponential_refuted : forall k, 1 <= k -> exists (l : list point) (order : list nat),
  valid [l] /\ length l = 2 * k + 1 /\ Permutation order (seq 0 (length l)) /\
  forall (I : Type) (gv : I -> point) ieqb dbg math_n shuf (poly : list I), (forall x y, ieqb x y = true <-> x = y) -> (forall j n, Permutation (shuf j n) (seq 0 n)) ->
    shuf 0 (length l) = order -> map gv poly = l ->
    exists st n fuel, forall f, fuel <= f -> trapezoidize ieqb gv dbg f math_n shuf (map (@Continue I) poly) = Ok st /\ check_count f st 0 = Ok n /\ 2 ^ (k / 2) <= n.
Proof.
  intros k Hk. exists (wave k), (wave_order k). split; [now apply wave_valid|]. rewrite (wave_len k Hk). split; auto. split; [apply wave_perm|].
  intros I gv ieqb dbg math_n shuf poly Hieq Hshuf Ho HP. destruct (shear_exists (wave k ++ ex k)) as (M & HM). destruct (ex_ok k Hk) as (X1 & X2 & X3).
  assert (L : length poly = 2 * k + 1) by (rewrite <- (map_length gv), HP; now apply wave_len).
  destruct (one_grown gv ieqb dbg Hieq math_n shuf Hshuf poly (ex k) M) as (st & es & (N1 & E1) & E2 & E3 & E4); rewrite ?HP; auto. { now apply wave_valid. }
  rewrite L, Ho in E3. rewrite HP in E2, E4. destruct (wave_edges k Hk gv poly HP es E3) as (es' & ->).
  pose proof (all_stages k Hk M gv E2 HM es' st E4) as (q & _ & Hm).
  destruct (grown_rest k M gv _ _ _ E4) as (_ & R). pose proof (f_core _ _ _ _ _ (r_full _ _ _ _ _ _ R)) as HC.
  destruct (wfq_count st 0) as (n & N2 & E5).
  { intros q' i Hq. destruct (c_q2 _ _ _ _ _ HC q' i Hq) as (t & Ht & _). eapply nth_lt; eauto. }
  { apply (c_wq _ _ _ _ _ HC), (c_q0 _ _ _ _ _ HC). }
  exists st, n, (max N1 N2). intros f Hf. split; [apply E1; lia|]. specialize (E5 f ltac:(lia)). split; auto. etransitivity; [|eapply many_count; eauto].
  destruct (fib_pow (k / 2)) as (F1 & F2). pose proof (Nat.div_mod k 2 ltac:(lia)) as D. pose proof (Nat.mod_upper_bound k 2 ltac:(lia)) as B.
  destruct (Nat.eq_dec (k mod 2) 0); [replace (2 * (k / 2)) with k in F1 by lia; exact F1|replace (S (2 * (k / 2))) with k in F2 by lia; exact F2].
Qed.

(** Polynomials grow more slowly. *)
Lemma pow_ge s : S s <= 2 ^ s.
Proof. induction s as [|s IH]; [cbn; lia|]. rewrite Nat.pow_succ_r'. lia. Qed.

Lemma outgrows c d : exists m, 1 <= m /\ c * (4 * m + 1) ^ d < 2 ^ m.
Proof.
  set (s := c + 2 * d + 3). set (t := s + s). exists (2 ^ t). assert (H1 : 1 <= 2 ^ t) by (pose proof (pow_ge t); lia). split; auto.
  assert (A : 4 * 2 ^ t + 1 <= 2 ^ (t + 3)). { rewrite Nat.pow_add_r. change (2 ^ 3) with 8. lia. }
  assert (B : c + d * (t + 3) < 2 ^ t). { unfold t. rewrite Nat.pow_add_r. pose proof (pow_ge s) as P. assert (S s * S s <= 2 ^ s * 2 ^ s) by (now apply Nat.mul_le_mono). unfold s in *. nia. }
  apply Nat.le_lt_trans with (2 ^ c * 2 ^ (d * (t + 3))).
  - apply Nat.mul_le_mono; [pose proof (pow_ge c); lia|]. rewrite (Nat.mul_comm d), Nat.pow_mul_r. now apply Nat.pow_le_mono_l.
  - rewrite <- Nat.pow_add_r. apply Nat.pow_lt_mono_r; lia.
Qed.

(** C60: no polynomial bounds the number of nodes the check visits. *)
Theorem C60_polynomial_refuted : ~ exists c d, forall (gv : nat -> point) math_n shuf (poly : list nat) f st n,
  (forall j m, Permutation (shuf j m) (seq 0 m)) -> valid [map gv poly] ->
  trapezoidize Nat.eqb gv true f math_n shuf (map (@Continue nat) poly) = Ok st -> check_count f st 0 = Ok n -> n <= c * length poly ^ d.
Proof.
  intros (c & d & H). destruct (outgrows c d) as (m & Hm & Ho). destruct (C60_exponential_refuted (2 * m) ltac:(lia)) as (l & order & V & L & P & R).
  set (shuf := fun (_ n : nat) => if Nat.eqb n (length l) then order else seq 0 n).
  assert (Hs : forall j n, Permutation (shuf j n) (seq 0 n)). { intros j n. unfold shuf. destruct (Nat.eqb_spec n (length l)) as [->|]; [exact P|reflexivity]. }
  set (gv := fun i => nth i l (0%Q, 0%Q)). assert (HP : map gv (seq 0 (length l)) = l).
  { apply nth_ext with (d := (0%Q, 0%Q)) (d' := (0%Q, 0%Q)). { now rewrite map_length, seq_length. } intros i Hi. rewrite map_length, seq_length in Hi. rewrite (nth_indep _ _ (gv 0)) by (rewrite map_length, seq_length; lia). rewrite map_nth, seq_nth by lia. reflexivity. }
  destruct (R nat gv Nat.eqb true (fun _ _ => 1) shuf (seq 0 (length l)) Nat.eqb_eq Hs) as (st & n & fuel & F); auto. { unfold shuf. now rewrite Nat.eqb_refl. }
  destruct (F fuel (le_n _)) as (F1 & F2 & F3). assert (V' : valid [map gv (seq 0 (length l))]) by now rewrite HP. pose proof (H gv (fun _ _ => 1) shuf (seq 0 (length l)) fuel st n Hs V' F1 F2) as K.
  rewrite seq_length, L in K. replace (2 * (2 * m) + 1) with (4 * m + 1) in K by lia. replace (2 * m / 2) with m in F3 by (rewrite Nat.mul_comm, Nat.div_mul; lia). lia.
Qed.

(** Nine, seventeen and twenty-five vertices; the last polygon with every seventh segment in turn. *)
Definition visits_of (k : nat) (order : list nat) : option nat :=
  match trapezoidize Nat.eqb (fun i => nth i (wave k) (0%Q, 0%Q)) true 1000 (fun _ _ => 100) (fun _ _ => order) (map (@Continue nat) (seq 0 (2 * k + 1))) with
  | Ok st => match check_count 1000 st 0 with Ok n => Some n | _ => None end
  | _ => None
  end.
Example C60_case : visits_of 4 (wave_order 4) = Some 93 /\ visits_of 8 (wave_order 8) = Some 701 /\ visits_of 12 (wave_order 12) = Some 4869 /\
  visits_of 12 (map (fun i => (i * 7) mod 25) (seq 0 25)) = Some 447.
Proof. vm_compute. repeat split. Qed.

(** [C60_checked] on the first of them. *)
Example C60_hyp : exists st, trapezoidize Nat.eqb (fun i => nth i (wave 4) (0%Q, 0%Q)) true 1000 (fun _ _ => 3) (fun _ n => seq 0 n) (map (@Continue nat) (seq 0 9)) = Ok st.
Proof. eexists. vm_compute. reflexivity. Qed.

Print Assumptions C60_checked.
Print Assumptions C60_exponential_refuted.
Print Assumptions C60_polynomial_refuted.
