(** The contribution of a vertex to the number of triangles, from the corner of its polygon. *)
From Coq Require Import QArith Lqa List Arith Lia Bool ZArith Permutation.
From Verif Require Import Base Coord Trap Mono Tri Lanes Plane MonoProof MonoGeom Geo Region TrapInv Polygons Build Faces Open Traverse Sweep Tile Outline EvenOdd Graph Count Single.
Import ListNotations.
Local Open Scope nat_scope.

(** ** Left and right at a vertex *)
Section Left.
Context {I : Type}.
Variables (W : list point) (Es : list edge) (M : Q) (gv : I -> point) (st : state Q I).
Hypothesis HG : geo W Es.
Hypothesis HM : shear M W.
Hypothesis HF : full W Es M gv st.
Hypothesis HD : forall v n, nth_error (st_ns st) v = Some n -> deg n = 2.
Notation ts := (st_ts st).
Notation colour := (Faces.colour M st).
Notation scol := (Faces.scol M st).
Let HC : core W Es M gv st := f_core _ _ _ _ _ HF.

Lemma between i e f g g' : Faces.tl st i = Some e -> Faces.tr st i = Some f -> nth_error (st_ss st) e = Some g -> nth_error (st_ss st) f = Some g' ->
  exists h, (within M (sedge g) h /\ within M (sedge g') h /\ X M (sedge g) h < X M (sedge g') h)%Q.
Proof.
  intros El Er Hg Hg'. destruct (tl_spans W Es M gv st HG HM HF i e El) as (g1 & d & u & Hg1 & Hd & Hu & K1 & K2 & K3).
  destruct (tr_spans W Es M gv st HG HM HF i f Er) as (g2 & d' & u' & Hg2 & Hd' & Hu' & J1 & J2 & J3).
  assert (d' = d) by congruence. assert (u' = u) by congruence. assert (g1 = g) by congruence. assert (g2 = g') by congruence. subst d' u' g1 g2.
  unfold Faces.tl, Faces.tr, Faces.td, Faces.tu in *. destruct (nth_error ts i) as [t|] eqn:Hi; [|discriminate].
  destruct (reg_l W Es M gv st i t e HC Hi El) as (g1 & Hg1' & E1). destruct (reg_r W Es M gv st i t f HC Hi Er) as (g2 & Hg2' & E2). assert (g1 = g) by congruence. assert (g2 = g') by congruence. subst g1 g2.
  set (h := ((Faces.hv M st d + Faces.hv M st u) * (1 # 2))%Q). assert (H1 : (Faces.hv M st d < h)%Q) by (unfold h; lra). assert (H2 : (h < Faces.hv M st u)%Q) by (unfold h; lra). clearbody h.
  destruct (seg_at W Es M gv st HG HM HF e g Hg) as (_ & _ & P1 & P2 & _). destruct (seg_at W Es M gv st HG HM HF f g' Hg') as (_ & _ & P3 & P4 & _).
  exists h. unfold within, sedge. cbn [fst snd]. rewrite <- P1, <- P2, <- P3, <- P4. unfold Faces.hv in *. split; [split; lra|]. split; [split; lra|].
  rewrite P1, P2, P3, P4. change (X M (sedge g) h < X M (sedge g') h)%Q.
  apply (a_lr _ _ _ _ (c_ag _ _ _ _ _ HC i t Hi)); auto. unfold ahas, reg, rg. cbn. rewrite Hd, Hu. cbn. unfold Faces.pnt in *. auto.
Qed.

Lemma turn_A v L R s0 s1 up dl dc dr : Faces.nodeA st v L R s0 s1 up dl dc dr ->
  (0 < cross (Faces.pnt st (Faces.smin st s1)) (Faces.pnt st v) (Faces.pnt st (Faces.smin st s0)))%Q.
Proof.
  intros [_ _ _ (_ & B1 & B2 & _) _ S0 S1 _ _].
  destruct (tl_spans W Es M gv st HG HM HF dc s0 B1) as (g & _ & _ & Hg & _). destruct (tr_spans W Es M gv st HG HM HF dc s1 B2) as (g' & _ & _ & Hg' & _).
  destruct (between dc s0 s1 g g' B1 B2 Hg Hg') as (h & Q1 & Q2 & Q3).
  destruct (seg_at W Es M gv st HG HM HF s0 g Hg) as (_ & _ & P1 & P2 & I1 & _). destruct (seg_at W Es M gv st HG HM HF s1 g' Hg') as (_ & _ & P3 & P4 & I2 & _).
  rewrite P1, P3, <- S1, P4. apply (cross_pos W Es M HG HM (sedge g') (s_cmin g) I2).
  apply (left_share_max W Es M HG HM (sedge g') (sedge g) h); auto. cbn. rewrite <- P2, <- P4. congruence.
Qed.

Lemma turn_V v L R s0 s1 ul uc ur dn : Faces.nodeV st v L R s0 s1 ul uc ur dn ->
  (0 < cross (Faces.pnt st v) (Faces.pnt st (Faces.smax st s1)) (Faces.pnt st (Faces.smax st s0)))%Q.
Proof.
  intros [_ _ (_ & B1 & B2 & _) _ _ S0 S1 _ _].
  destruct (tl_spans W Es M gv st HG HM HF uc s0 B1) as (g & _ & _ & Hg & _). destruct (tr_spans W Es M gv st HG HM HF uc s1 B2) as (g' & _ & _ & Hg' & _).
  destruct (between uc s0 s1 g g' B1 B2 Hg Hg') as (h & Q1 & Q2 & Q3).
  destruct (seg_at W Es M gv st HG HM HF s0 g Hg) as (_ & _ & P1 & P2 & I1 & _). destruct (seg_at W Es M gv st HG HM HF s1 g' Hg') as (_ & _ & P3 & P4 & I2 & _).
  rewrite P2, P4, <- S1, P3. apply (cross_pos W Es M HG HM (sedge g') (s_cmax g) I2).
  apply (left_share_min W Es M HG HM (sedge g') (sedge g) h); auto. cbn. rewrite <- P1, <- P3. congruence.
Qed.

Lemma delta_V v L R s0 s1 ul uc ur dn : Faces.nodeV st v L R s0 s1 ul uc ur dn -> delta M st v = (if scol s0 then -1 else 0)%Z.
Proof.
  intros N. unfold delta, et, nt, vedges. destruct (V_at st _ _ _ _ _ _ _ _ _ N) as (-> & -> & _). destruct (col_V W Es M gv st HG HM HF HD _ _ _ _ _ _ _ _ _ N) as (C1 & C2 & C3).
  destruct N as [_ (_ & _ & B1 & _) _ _ _ _ _ _ _]. pose proof (colour_r W Es M gv st HG HM HF HD ul s0 B1) as K. cbn [tyedges sumz fst]. rewrite C1, C2. destruct (colour ul), (scol s0); try discriminate; reflexivity.
Qed.

Lemma delta_I v L R s s' ul ur dl dr : Faces.nodeI st v L R s s' ul ur dl dr -> delta M st v = 0%Z.
Proof. intros N. unfold delta, et, nt, vedges. destruct (I_at st _ _ _ _ _ _ _ _ _ N) as (-> & -> & _). cbn [tyedges sumz fst]. lia. Qed.

Lemma delta_A v L R s0 s1 up dl dc dr : Faces.nodeA st v L R s0 s1 up dl dc dr -> delta M st v = (if scol s0 then 0 else 1)%Z.
Proof.
  intros N. unfold delta, et, nt, vedges. destruct (A_at st _ _ _ _ _ _ _ _ _ N) as (-> & -> & _). destruct (col_A W Es M gv st HG HM HF HD _ _ _ _ _ _ _ _ _ N) as (C1 & C2 & C3).
  destruct N as [_ _ (_ & _ & B1 & _) _ _ _ _ _ _]. pose proof (colour_r W Es M gv st HG HM HF HD dl s0 B1) as K. cbn [tyedges sumz fst]. destruct (colour up), (colour dl), (scol s0); try discriminate; reflexivity.
Qed.
End Left.

(** ** Corners of a polygon *)

Definition bend (d d' : edge) : Q := cross (fst d) (snd d) (snd d').

(** A vertex above both its neighbours counts when the coloured side is outside the turn, one below both when it is inside. *)
Definition phi (b : bool) (d d' : edge) : Z :=
  match up d, up d' with
  | true, false => if Bool.eqb b (Qltb 0 (bend d d')) then 0 else 1
  | false, true => if Bool.eqb b (Qltb 0 (bend d d')) then -1 else 0
  | _, _ => 0
  end.
Definition phis (b : bool) (p : list point) : Z := sumz (fun c => phi b (fst c) (snd c)) (edges (edges p)).

Lemma edges_fst {A} (l : list A) : map fst (edges l) = l.
Proof.
  destruct l as [|a l]; auto. cbn [edges]. assert (G : forall (x y : list A), length x = length y -> map fst (combine x y) = x); [|apply G; rewrite app_length; cbn; lia].
  induction x as [|u x IH]; intros [|w y] H; cbn in *; try lia; auto. f_equal. apply IH. lia.
Qed.
Lemma edges_snd {A} (l : list A) : Permutation (map snd (edges l)) l.
Proof.
  destruct l as [|a l]; auto. cbn [edges]. assert (G : forall (x y : list A), length x = length y -> map snd (combine x y) = y).
  { induction x as [|u x IH]; intros [|w y] H; cbn in *; try lia; auto. f_equal. apply IH. lia. }
  rewrite G by (rewrite app_length; cbn; lia). change (a :: l) with ([a] ++ l). apply Permutation_app_comm.
Qed.

Lemma sumz_round {A} (f : A -> Z) (l : list A) : sumz (fun c => f (fst c) - f (snd c))%Z (edges l) = 0%Z.
Proof.
  rewrite (sumz_ext _ (fun c => f (fst c) + -1 * f (snd c))%Z) by (intros; lia). rewrite sumz_plus, sumz_scale, <- (sumz_map f fst), <- (sumz_map f snd), edges_fst.
  rewrite (sumz_perm f _ _ (edges_snd l)). lia.
Qed.

Lemma phis_neg p : (phis true p + phis false p = 0)%Z.
Proof.
  unfold phis. rewrite <- sumz_plus, <- (sumz_round (fun d => b1 (up d)) (edges p)). apply sumz_ext. intros c _. unfold phi, b1.
  destruct (up (fst c)), (up (snd c)); try reflexivity; destruct (Qltb 0 (bend (fst c) (snd c))); reflexivity.
Qed.

Section Corner.
Context {I : Type}.
Variables (ps : list (list point)) (ex : list point) (M : Q) (gv : I -> point) (st : state Q I).
Hypothesis HV : valid ps.
Notation W := (concat ps ++ ex).
Notation Es := (uedges ps).
Notation D := (concat (map edges ps)).
Hypothesis HG : geo W Es.
Hypothesis HM : shear M W.
Hypothesis HF : full W Es M gv st.
Hypothesis HE : Permutation (medges st) Es.
Hypothesis HP : Permutation (points st) (concat ps).
Hypothesis HD : forall v n, nth_error (st_ns st) v = Some n -> deg n = 2.
Notation ss := (st_ss st).
Notation ns := (st_ns st).
Notation scol := (Faces.scol M st).
Let HC : core W Es M gv st := f_core _ _ _ _ _ HF.

Lemma corner d1 d2 : In d1 D -> In d2 D -> snd d1 = fst d2 -> oedge d1 <> oedge d2 ->
  exists v, v < length ns /\ Faces.pnt st v = snd d1 /\ delta M st v = phi (inn M st d1) d1 d2.
Proof.
  intros H1 H2 Ev Hne. destruct (at_end ps ex M gv st HF HE d1 H1) as (e1 & g1 & k1 & n1 & Hg1 & Hs1 & Hn1 & Hc1 & Hi1 & ->). destruct (at_start ps ex M gv st HF HE d2 H2) as (e2 & g2 & k2 & n2 & Hg2 & Hs2 & Hn2 & Hc2 & Hi2 & _).
  assert (Hk : k1 = k2). { apply (nodup_nth (points st) k1 k2 (n_c n1)); [apply (c_nd _ _ _ _ _ HC)|now apply points_nth|]. rewrite Hc1, Ev, <- Hc2. now apply points_nth. }
  subst k2. assert (n2 = n1) by congruence. subst n2. assert (He : e1 <> e2). { intros ->. apply Hne. rewrite <- Hs1, <- Hs2. f_equal. congruence. }
  assert (Hp : Faces.pnt st k1 = snd d1) by (rewrite (pnt_n st k1 n1 Hn1); auto). exists k1. split; [eapply nth_lt; eauto|]. split; auto.
  destruct (seg_at W Es M gv st HG HM HF e1 g1 Hg1) as (_ & _ & A1 & A2 & _). destruct (seg_at W Es M gv st HG HM HF e2 g2 Hg2) as (_ & _ & A3 & A4 & _).
  change (s_cmin g1) with (fst (sedge g1)) in A1. change (s_cmax g1) with (snd (sedge g1)) in A2. change (s_cmin g2) with (fst (sedge g2)) in A3. change (s_cmax g2) with (snd (sedge g2)) in A4.
  rewrite Hs1 in A1, A2. rewrite Hs2 in A3, A4. unfold oedge, orient in A1, A2, A3, A4. fold (up d1) in A1, A2. fold (up d2) in A3, A4.
  unfold phi, bend. destruct (node_cases W Es M gv st HG HM HF HD _ n1 Hn1) as [(L & R & s0 & s1 & ul & uc & ur & dn & N)|[(L & R & s & s' & ul & ur & dl & dr & N)|(L & R & s0 & s1 & u & dl & dc & dr & N)]].
  - pose proof (nv_n _ _ _ _ _ _ _ _ _ _ N) as (n' & Hn' & _ & Sa & Sd & _). assert (n' = n1) by congruence. subst n'.
    assert (K : scol s0 = negb (scol s1)). { destruct N as [_ _ (_ & B1 & B2 & _) _ _ _ _ _ _]. rewrite <- (colour_l W Es M gv st HG HM HF HD uc s0 B1). now apply (colour_r W Es M gv st HG HM HF HD). }
    rewrite (delta_V W Es M gv st HG HM HF HD _ _ _ _ _ _ _ _ _ N). pose proof (turn_V W Es M gv st HG HM HF _ _ _ _ _ _ _ _ _ N) as T.
    destruct (up d1); [rewrite Sd in Hi1; easy|]. destruct (up d2); [|rewrite Sd in Hi2; easy]. rewrite Sa in Hi1, Hi2. cbn in Hi1, Hi2. cbn [fst snd] in *.
    destruct Hi1 as [<-|[<-|[]]], Hi2 as [<-|[<-|[]]]; try congruence; rewrite Hp, A2, A4 in T.
    + assert (Qltb 0 (cross (fst d1) (snd d1) (snd d2)) = true) as ->. { apply Qltb_spec. unfold cross in *. lra. } destruct (scol s0); reflexivity.
    + assert (Qltb 0 (cross (fst d1) (snd d1) (snd d2)) = false) as ->. { apply Qltb_false. unfold cross in *. lra. } rewrite K. destruct (scol s1); reflexivity.
  - pose proof (ni_n _ _ _ _ _ _ _ _ _ _ N) as (n' & Hn' & _ & Sa & Sd & _). assert (n' = n1) by congruence. subst n'. rewrite (delta_I M st _ _ _ _ _ _ _ _ _ N).
    destruct (up d1), (up d2); try reflexivity; rewrite ?Sa, ?Sd in Hi1, Hi2; cbn in Hi1, Hi2; destruct Hi1 as [<-|[]], Hi2 as [<-|[]]; congruence.
  - pose proof (na_n _ _ _ _ _ _ _ _ _ _ N) as (n' & Hn' & _ & Sa & Sd & _). assert (n' = n1) by congruence. subst n'.
    assert (K : scol s0 = negb (scol s1)). { destruct N as [_ _ _ (_ & B1 & B2 & _) _ _ _ _ _]. rewrite <- (colour_l W Es M gv st HG HM HF HD dc s0 B1). now apply (colour_r W Es M gv st HG HM HF HD). }
    rewrite (delta_A W Es M gv st HG HM HF HD _ _ _ _ _ _ _ _ _ N). pose proof (turn_A W Es M gv st HG HM HF _ _ _ _ _ _ _ _ _ N) as T.
    destruct (up d1); [|rewrite Sa in Hi1; easy]. destruct (up d2); [rewrite Sa in Hi2; easy|]. rewrite Sd in Hi1, Hi2. cbn in Hi1, Hi2. cbn [fst snd] in *.
    destruct Hi1 as [<-|[<-|[]]], Hi2 as [<-|[<-|[]]]; try congruence; rewrite Hp, A1, A3 in T.
    + assert (Qltb 0 (cross (fst d1) (snd d1) (snd d2)) = false) as ->. { apply Qltb_false. unfold cross in *. lra. } destruct (scol s0); reflexivity.
    + assert (Qltb 0 (cross (fst d1) (snd d1) (snd d2)) = true) as ->. { apply Qltb_spec. exact T. } rewrite K. destruct (scol s1); reflexivity.
Qed.

Definition dpoint (x : point) : Z := sumz (fun v => if pt_dec (Faces.pnt st v) x then delta M st v else 0%Z) (seq 0 (length ns)).

Lemma dpoint_at v : v < length ns -> dpoint (Faces.pnt st v) = delta M st v.
Proof.
  intros Hv. unfold dpoint. destruct (in_split v (seq 0 (length ns))) as (l1 & l2 & El); [apply in_seq; lia|]. pose proof (seq_NoDup (length ns) 0) as Nd. rewrite El in Nd |- *. rewrite sumz_app. cbn [sumz].
  apply NoDup_remove_2 in Nd. destruct (pt_dec (Faces.pnt st v) (Faces.pnt st v)) as [_|]; [|congruence].
  assert (Z0 : forall x, In x (l1 ++ l2) -> (if pt_dec (Faces.pnt st x) (Faces.pnt st v) then delta M st x else 0%Z) = 0%Z).
  { intros x Hx. destruct (pt_dec _ _) as [E|]; auto. exfalso. apply Nd. replace v with x; auto.
    assert (Hxl : x < length ns). { assert (Hs : In x (seq 0 (length ns))) by (rewrite El; apply in_or_app; apply in_app_or in Hx; cbn; tauto). apply in_seq in Hs. lia. }
    destruct (lt_nth _ _ _ Hv) as (n & Hn). destruct (lt_nth _ _ _ Hxl) as (m & Hm). apply (nodup_nth (points st) x v (n_c m)); [apply (c_nd _ _ _ _ _ HC)|now apply points_nth|].
    rewrite <- (pnt_n st x m Hm), E, (pnt_n st v n Hn). now apply points_nth. }
  rewrite !sumz_zero; [lia| |]; intros x Hx; apply Z0; apply in_or_app; auto.
Qed.

Lemma dpoint_sum : sumz (delta M st) (seq 0 (length ns)) = sumz (fun p => sumz dpoint p) ps.
Proof.
  rewrite <- (sumz_concat dpoint), <- (sumz_perm dpoint _ _ HP). transitivity (sumz dpoint (map (Faces.pnt st) (seq 0 (length ns)))).
  - rewrite sumz_map. apply sumz_ext. intros v Hv. apply in_seq in Hv. rewrite dpoint_at; auto. lia.
  - f_equal. unfold Faces.pnt. assert (Hl : length ns = length (points st)) by (unfold points; now rewrite map_length). rewrite Hl. generalize (points st). intros l. clear.
    assert (G : forall (a : list point), map (fun v => nth v (a ++ l) dpt) (seq (length a) (length l)) = l); [|exact (G [])].
    induction l as [|x l IH]; intros a; auto. cbn [length seq map]. f_equal.
    + rewrite app_nth2, Nat.sub_diag by lia. reflexivity.
    + specialize (IH (a ++ [x])). rewrite app_length in IH. cbn in IH. rewrite Nat.add_1_r in IH. rewrite <- app_assoc in IH. exact IH.
Qed.

Lemma dpoint_poly p : In p ps -> sumz dpoint p = phis (pinn M st p) p.
Proof.
  intros Hp. assert (H3 : 3 <= length p). { destruct HV as (H & _). rewrite Forall_forall in H. now apply H. }
  rewrite <- (sumz_perm dpoint _ _ (edges_snd p)), <- (edges_fst (edges p)), !sumz_map. unfold phis. apply sumz_ext. intros [d1 d2] Hc. cbn [fst snd].
  apply In_nth_error in Hc. destruct Hc as (j & Hj). apply edges_nth in Hj. destruct Hj as (J1 & J2). rewrite edges_length in J2.
  assert (Hjl : j < length p) by (rewrite <- edges_length; eapply nth_lt; eauto).
  assert (I1 : In d1 (edges p)) by (eapply nth_error_In; eauto). assert (I2 : In d2 (edges p)) by (eapply nth_error_In; eauto).
  destruct (corner d1 d2) as (v & Hv & Pv & Dv).
  - now apply (edges_in ps p).
  - now apply (edges_in ps p).
  - destruct d1 as [a b], d2 as [a' b']. apply edges_nth in J1, J2. destruct J1 as (_ & J1), J2 as (J2 & _). cbn. congruence.
  - intros E. assert (Hm : j = (j + 1) mod length p). { apply (nodup_nth (map oedge (edges p)) _ _ (oedge d1)); [now apply (oedges_nd ps HV)|exact (map_nth_error oedge _ _ J1)|rewrite E; exact (map_nth_error oedge _ _ J2)]. }
    destruct (Nat.eq_dec (j + 1) (length p)) as [E1|]; [rewrite E1, Nat.mod_same in Hm; lia|rewrite Nat.mod_small in Hm; lia].
  - rewrite <- Pv, dpoint_at, Dv by auto. f_equal. now apply (pinn_at ps ex M gv st HV HG HM HF HE HD).
Qed.

Lemma delta_polys : sumz (delta M st) (seq 0 (length ns)) = sumz (fun p => phis (pinn M st p) p) ps.
Proof. rewrite dpoint_sum. apply sumz_ext. intros p Hp. now apply dpoint_poly. Qed.
End Corner.
