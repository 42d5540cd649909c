(** Inserting a segment keeps the invariants. *)
From Coq Require Import QArith Lqa List Arith Lia Bool.
From Verif Require Import Base Coord Trap Lanes Plane Geo Region TrapInv AddVertex Recut Cuts LaneOps SegStep Depth.
Import ListNotations.
Local Open Scope nat_scope.

Lemma lane_pos' ts d v L E1 E2 R ids1 ids2 i : lane ts d v (bnd L (E1 ++ E2) R) (ids1 ++ i :: ids2) -> length E1 = length ids1 ->
  exists t, nth_error ts i = Some t /\ t_l t = last (map Some E1) L /\ t_r t = hd R (map Some E2) /\ tend (opp d) t = Some v.
Proof.
  intros H Hl. destruct (@exists_last _ (L :: map Some E1)) as (bs1 & b0 & Eb); [discriminate|].
  assert (Hl1 : length bs1 = length ids1).
  { apply (f_equal (@length _)) in Eb. cbn in Eb. rewrite app_length, map_length in Eb. cbn in Eb. lia. }
  assert (K1 : bnd L (E1 ++ E2) R = bs1 ++ b0 :: map Some E2 ++ [R]).
  { unfold bnd. rewrite map_app, <- app_assoc. change (L :: map Some E1 ++ map Some E2 ++ [R]) with ((L :: map Some E1) ++ map Some E2 ++ [R]).
    rewrite Eb, <- app_assoc. reflexivity. }
  rewrite K1 in H. apply lane_app in H; auto. destruct H as (_ & H). apply lane_inv in H.
  destruct H as (b & b' & bs' & Ec & (t & T1 & T2 & T3 & T4) & _). injection Ec as <- Ec. exists t. split; auto. split; [|split; auto].
  - rewrite T2. symmetry in Eb. eapply last_snoc; eauto.
  - rewrite T3. destruct E2; cbn in Ec |- *; congruence.
Qed.

Section Seg.
Context {I : Type}.
Variables (W : list point) (Es : list edge) (M : Q) (gv : I -> point).
Hypothesis HG : geo W Es.
Hypothesis HM : shear M W.
Notation stt := (state Q I).
Notation ht := (ht M).
Notation X := (X M).
Notation within := (within M).
Notation inside := (inside M).
Notation agood := (agood W Es M).
Notation core := (core W Es M gv).
Notation full := (full W Es M gv).
Notation loc := (loc M).
Notation mid := (mid W Es M gv).

(** ** Order of edges with a common end *)

Lemma common_max e f : In e Es -> In f Es -> snd e = snd f -> exists h, within e h /\ within f h.
Proof.
  intros He Hf E. pose proof (e_lt W Es M HG HM e He). pose proof (e_lt W Es M HG HM f Hf).
  destruct (qmax_spec (ht (fst e)) (ht (fst f))) as (Q1 & Q2 & Q3).
  assert (K : (qmax (ht (fst e)) (ht (fst f)) < ht (snd e))%Q). { destruct Q3 as [-> | ->]; [|rewrite E]; auto. }
  destruct (Region.mid _ _ K) as (K1 & K2). eexists. unfold Geo.within. rewrite <- E. split; split; try exact K2; lra.
Qed.

Lemma common_min e f : In e Es -> In f Es -> fst e = fst f -> exists h, within e h /\ within f h.
Proof.
  intros He Hf E. pose proof (e_lt W Es M HG HM e He). pose proof (e_lt W Es M HG HM f Hf).
  destruct (qmin_spec (ht (snd e)) (ht (snd f))) as (Q1 & Q2 & Q3).
  assert (K : (ht (fst e) < qmin (ht (snd e)) (ht (snd f)))%Q). { destruct Q3 as [-> | ->]; [|rewrite E]; auto. }
  destruct (Region.mid _ _ K) as (K1 & K2). eexists. unfold Geo.within. rewrite <- E. split; split; try exact K1; lra.
Qed.

Lemma ord_max e f : In e Es -> In f Es -> e <> f -> snd e = snd f ->
  (is_left (fst e) (snd e) (fst f) = true /\ is_left (fst f) (snd f) (fst e) = false /\ forall h, within e h -> within f h -> (X f h < X e h)%Q) \/
  (is_left (fst e) (snd e) (fst f) = false /\ is_left (fst f) (snd f) (fst e) = true /\ forall h, within e h -> within f h -> (X e h < X f h)%Q).
Proof.
  intros He Hf Hne E. destruct (common_max e f He Hf E) as (h & W1 & W2).
  pose proof (share_max W Es M HG HM e f He Hf Hne E) as N1. pose proof (share_max W Es M HG HM f e Hf He (not_eq_sym Hne) (eq_sym E)) as N2.
  pose proof (left_share_max W Es M HG HM e f h He Hf E W1 W2) as L1. pose proof (left_share_max W Es M HG HM f e h Hf He (eq_sym E) W2 W1) as L2.
  destruct (Q_dec (X f h) (X e h)) as [[K|K]|K].
  - left. split; [|split].
    + apply (left_X W Es M HG HM e (fst f) He N1). tauto.
    + apply (left_X_false W Es M HG HM f (fst e) Hf N2). destruct (Q_dec (cx (fst e)) (X f (ht (fst e)))) as [[J|J]|J]; auto; [|contradiction].
      apply L2 in J. lra.
    + intros h' W3 W4. apply (order_const W Es M HG HM f e h); auto.
  - right. split; [|split].
    + apply (left_X_false W Es M HG HM e (fst f) He N1). destruct (Q_dec (cx (fst f)) (X e (ht (fst f)))) as [[J|J]|J]; auto; [|contradiction].
      apply L1 in J. lra.
    + apply (left_X W Es M HG HM f (fst e) Hf N2). tauto.
    + intros h' W3 W4. apply (order_const W Es M HG HM e f h); auto.
  - exfalso. apply (no_meet W Es M HG HM f e h); auto.
Qed.

Lemma ord_min e f : In e Es -> In f Es -> e <> f -> fst e = fst f ->
  (is_left (fst e) (snd e) (snd f) = true /\ is_left (fst f) (snd f) (snd e) = false /\ forall h, within e h -> within f h -> (X f h < X e h)%Q) \/
  (is_left (fst e) (snd e) (snd f) = false /\ is_left (fst f) (snd f) (snd e) = true /\ forall h, within e h -> within f h -> (X e h < X f h)%Q).
Proof.
  intros He Hf Hne E. destruct (common_min e f He Hf E) as (h & W1 & W2).
  pose proof (share_min W Es M HG HM e f He Hf Hne E) as N1. pose proof (share_min W Es M HG HM f e Hf He (not_eq_sym Hne) (eq_sym E)) as N2.
  pose proof (left_share_min W Es M HG HM e f h He Hf E W1 W2) as L1. pose proof (left_share_min W Es M HG HM f e h Hf He (eq_sym E) W2 W1) as L2.
  destruct (Q_dec (X f h) (X e h)) as [[K|K]|K].
  - left. split; [|split].
    + apply (left_X W Es M HG HM e (snd f) He N1). tauto.
    + apply (left_X_false W Es M HG HM f (snd e) Hf N2). destruct (Q_dec (cx (snd e)) (X f (ht (snd e)))) as [[J|J]|J]; auto; [|contradiction].
      apply L2 in J. lra.
    + intros h' W3 W4. apply (order_const W Es M HG HM f e h); auto.
  - right. split; [|split].
    + apply (left_X_false W Es M HG HM e (snd f) He N1). destruct (Q_dec (cx (snd f)) (X e (ht (snd f)))) as [[J|J]|J]; auto; [|contradiction].
      apply L1 in J. lra.
    + apply (left_X W Es M HG HM f (snd e) Hf N2). tauto.
    + intros h' W3 W4. apply (order_const W Es M HG HM e f h); auto.
  - exfalso. apply (no_meet W Es M HG HM f e h); auto.
Qed.

(** ** The outer sides at a nexus pass it *)

Lemma outer_left st v n L R l : full st -> nth_error (st_ns st) v = Some n ->
  (forall d, lane (st_ts st) d v (bnd L (seps n d) R) (iter_trapezoids n d)) -> L = Some l ->
  exists g, nth_error (st_ss st) l = Some g /\ within (sedge g) (ht (n_c n)) /\ (X (sedge g) (ht (n_c n)) < cx (n_c n))%Q.
Proof.
  intros Hf Hn HL ->. pose proof (f_core _ _ _ _ _ Hf) as Hc.
  destruct (first_lane _ _ _ _ _ _ _ (HL Asc)) as (tu & Hu & U1 & _ & U2); [discriminate|]. destruct (first_lane _ _ _ _ _ _ _ (HL Desc)) as (td & Hd & D1 & _ & D2); [discriminate|].
  cbn [opp tend] in U2, D2. destruct (reg_l W Es M gv st _ tu l Hc Hu U1) as (g & Hg & A1). destruct (reg_l W Es M gv st _ td l Hc Hd D1) as (g' & Hg' & A2).
  assert (g' = g) by congruence. subst g'. exists g. split; auto.
  destruct (reg_end W Es M gv st _ tu Desc v Hc Hu U2) as (n1 & Hn1 & B1). assert (n1 = n) by congruence. subst n1.
  destruct (reg_end W Es M gv st _ td Asc v Hc Hd D2) as (n1 & Hn2 & B2). assert (n1 = n) by congruence. subst n1. cbn [aend] in B1, B2.
  pose proof (c_ag _ _ _ _ _ Hc _ tu Hu) as G1. pose proof (c_ag _ _ _ _ _ Hc _ td Hd) as G2.
  destruct (a_l _ _ _ _ G1 _ A1) as (He & S1). destruct (a_l _ _ _ _ G2 _ A2) as (_ & S2). unfold spans in S1, S2. rewrite B1 in S1. rewrite B2 in S2.
  destruct (au (reg st tu)) as [u|] eqn:Eu; [|easy]. destruct (ad (reg st td)) as [d|] eqn:Ed; [|easy].
  pose proof (a_du _ _ _ _ G1 _ _ B1 Eu) as J1. pose proof (a_du _ _ _ _ G2 _ _ Ed B2) as J2.
  change (ht (n_c n) < ht u)%Q in J1. change (ht d < ht (n_c n))%Q in J2.
  assert (Hw : within (sedge g) (ht (n_c n))). { change (ht (fst (sedge g)) <= ht (n_c n) /\ ht u <= ht (snd (sedge g)))%Q in S1. change (ht (fst (sedge g)) <= ht d /\ ht (n_c n) <= ht (snd (sedge g)))%Q in S2. split; [change (ht (fst (sedge g)) < ht (n_c n))%Q|change (ht (n_c n) < ht (snd (sedge g)))%Q]; lra. }
  split; auto. pose proof (proj1 (c_tu _ _ _ _ _ Hc _ td Hd)) as T. rewrite A2, B2 in T. cbn in T. change (X (sedge g) (ht (n_c n)) <= cx (n_c n))%Q in T.
  assert (HnW : In (n_c n) W). { apply (c_W _ _ _ _ _ Hc). eapply nth_error_In. apply points_nth. eauto. }
  pose proof (off_edge W Es M HG HM (sedge g) (n_c n) He HnW (proj1 Hw) (proj2 Hw)) as N. destruct (Q_dec (cx (n_c n)) (X (sedge g) (ht (n_c n)))) as [[J|J]|J]; auto; [lra|contradiction].
Qed.

Lemma outer_right st v n L R l : full st -> nth_error (st_ns st) v = Some n ->
  (forall d, lane (st_ts st) d v (bnd L (seps n d) R) (iter_trapezoids n d)) -> R = Some l ->
  exists g, nth_error (st_ss st) l = Some g /\ within (sedge g) (ht (n_c n)) /\ (cx (n_c n) < X (sedge g) (ht (n_c n)))%Q.
Proof.
  intros Hf Hn HL ->. pose proof (f_core _ _ _ _ _ Hf) as Hc. pose proof (x_nd _ _ _ _ (f_n _ _ _ _ _ Hf v n Hn)) as HND.
  destruct (last_lane _ _ _ _ _ _ _ (HL Asc) (iter_ne n Asc) (HND Asc)) as (tu & Hu & U1 & U2). destruct (last_lane _ _ _ _ _ _ _ (HL Desc) (iter_ne n Desc) (HND Desc)) as (td & Hd & D1 & D2).
  cbn [opp tend] in U2, D2. destruct (reg_r W Es M gv st _ tu l Hc Hu U1) as (g & Hg & A1). destruct (reg_r W Es M gv st _ td l Hc Hd D1) as (g' & Hg' & A2).
  assert (g' = g) by congruence. subst g'. exists g. split; auto.
  destruct (reg_end W Es M gv st _ tu Desc v Hc Hu U2) as (n1 & Hn1 & B1). assert (n1 = n) by congruence. subst n1.
  destruct (reg_end W Es M gv st _ td Asc v Hc Hd D2) as (n1 & Hn2 & B2). assert (n1 = n) by congruence. subst n1. cbn [aend] in B1, B2.
  pose proof (c_ag _ _ _ _ _ Hc _ tu Hu) as G1. pose proof (c_ag _ _ _ _ _ Hc _ td Hd) as G2.
  destruct (a_r _ _ _ _ G1 _ A1) as (He & S1). destruct (a_r _ _ _ _ G2 _ A2) as (_ & S2). unfold spans in S1, S2. rewrite B1 in S1. rewrite B2 in S2.
  destruct (au (reg st tu)) as [u|] eqn:Eu; [|easy]. destruct (ad (reg st td)) as [d|] eqn:Ed; [|easy].
  pose proof (a_du _ _ _ _ G1 _ _ B1 Eu) as J1. pose proof (a_du _ _ _ _ G2 _ _ Ed B2) as J2.
  change (ht (n_c n) < ht u)%Q in J1. change (ht d < ht (n_c n))%Q in J2.
  assert (Hw : within (sedge g) (ht (n_c n))). { change (ht (fst (sedge g)) <= ht (n_c n) /\ ht u <= ht (snd (sedge g)))%Q in S1. change (ht (fst (sedge g)) <= ht d /\ ht (n_c n) <= ht (snd (sedge g)))%Q in S2. split; [change (ht (fst (sedge g)) < ht (n_c n))%Q|change (ht (n_c n) < ht (snd (sedge g)))%Q]; lra. }
  split; auto. pose proof (proj2 (c_tu _ _ _ _ _ Hc _ td Hd)) as T. rewrite A2, B2 in T. cbn in T. change (cx (n_c n) <= X (sedge g) (ht (n_c n)))%Q in T.
  assert (HnW : In (n_c n) W). { apply (c_W _ _ _ _ _ Hc). eapply nth_error_In. apply points_nth. eauto. }
  pose proof (off_edge W Es M HG HM (sedge g) (n_c n) He HnW (proj1 Hw) (proj2 Hw)) as N. destruct (Q_dec (cx (n_c n)) (X (sedge g) (ht (n_c n)))) as [[J|J]|J]; auto; [lra|contradiction].
Qed.

(** An edge leaving a nexus passes through the trapezoid between the dividers around it. *)
Lemma start_ok st v n d ids1 ids2 E1 E2 i t e : full st -> nth_error (st_ns st) v = Some n ->
  iter_trapezoids n d = ids1 ++ i :: ids2 -> seps n d = E1 ++ E2 -> length E1 = length ids1 -> nth_error (st_ts st) i = Some t ->
  In e Es -> eend (opp d) e = n_c n ->
  (forall x g h, In x E1 -> nth_error (st_ss st) x = Some g -> within (sedge g) h -> within e h -> (X (sedge g) h < X e h)%Q) ->
  (forall x g h, In x E2 -> nth_error (st_ss st) x = Some g -> within (sedge g) h -> within e h -> (X e h < X (sedge g) h)%Q) ->
  through M e (reg st t).
Proof.
  intros Hf Hn Ei Ee Hl Ht He Hend H1 H2. pose proof (f_core _ _ _ _ _ Hf) as Hc.
  destruct (x_lane _ _ _ _ (f_n _ _ _ _ _ Hf v n Hn)) as (L & R & HL). pose proof (HL d) as Hd. rewrite Ei, Ee in Hd.
  destruct (lane_pos' _ _ _ _ _ _ _ _ _ _ Hd Hl) as (t' & Ht' & Tl & Tr & Te). assert (t' = t) by congruence. subst t'. clear Ht'.
  destruct (reg_end W Es M gv st i t (opp d) v Hc Ht Te) as (n1 & Hn1 & B1). assert (n1 = n) by congruence. subst n1.
  pose proof (eend_X W Es M HG HM (opp d) e He) as EX. pose proof (eend_c W Es M HG HM (opp d) e He) as EC. rewrite Hend in EX, EC.
  apply (enter_start W Es M HG HM d e (reg st t)); auto. { now apply (c_ag _ _ _ _ _ Hc i). } { now rewrite Hend. }
  - intros l h Hal Wl We. destruct (t_l t) as [x|] eqn:Etl; [|unfold reg, rg in Hal; cbn in Hal; rewrite Etl in Hal; discriminate].
    destruct (reg_l W Es M gv st i t x Hc Ht Etl) as (g & Hg & A1). assert (l = sedge g) by congruence. subst l.
    destruct E1 as [|y E1'].
    + cbn in Tl. destruct (outer_left st v n L R x Hf Hn HL) as (g' & Hg' & O1 & O2); [congruence|]. assert (g' = g) by congruence. subst g'.
      apply (order_open W Es M HG HM (sedge g) e (ht (n_c n))); auto. { now apply (c_ss _ _ _ _ _ Hc x). } { now apply within_c. }
      change (X (sedge g) (ht (n_c n)) < X e (ht (n_c n)))%Q. change (X e (ht (n_c n)) == cx (n_c n))%Q in EX. lra.
    + apply (H1 x g); auto. destruct (@exists_last _ (y :: E1')) as (l & z & Ez); [discriminate|]. rewrite Ez in *. rewrite map_app in Tl. cbn [map] in Tl. rewrite last_last in Tl.
      injection Tl as ->. apply in_or_app. right. now left.
  - intros l h Hal Wl We. destruct (t_r t) as [x|] eqn:Etl; [|unfold reg, rg in Hal; cbn in Hal; rewrite Etl in Hal; discriminate].
    destruct (reg_r W Es M gv st i t x Hc Ht Etl) as (g & Hg & A1). assert (l = sedge g) by congruence. subst l.
    destruct E2 as [|y E2'].
    + cbn in Tr. destruct (outer_right st v n L R x Hf Hn HL) as (g' & Hg' & O1 & O2); [congruence|]. assert (g' = g) by congruence. subst g'.
      apply (order_open W Es M HG HM e (sedge g) (ht (n_c n))); auto. { now apply (c_ss _ _ _ _ _ Hc x). } { now apply within_c. }
      change (X e (ht (n_c n)) < X (sedge g) (ht (n_c n)))%Q. change (X e (ht (n_c n)) == cx (n_c n))%Q in EX. lra.
    + apply (H2 x g); auto. cbn in Tr. injection Tr as ->. now left.
Qed.

(** ** A new segment in the list *)

Definition with_seg (st : stt) (s : seg Q) : stt := mkState (st_ns st) (st_ss st ++ [s]) (st_ts st) (st_qs st).

Lemma reg_seg st s i t : core st -> nth_error (st_ts st) i = Some t -> reg (with_seg st s) t = reg st t.
Proof.
  intros Hc Ht. unfold reg, medges, with_seg. cbn [st_ss]. rewrite map_app. change (points {| st_ns := st_ns st; st_ss := st_ss st ++ [s]; st_ts := st_ts st; st_qs := st_qs st |}) with (points st).
  rewrite <- (app_nil_r (points st)) at 1. apply rg_ext. apply (c_in _ _ _ _ _ Hc i t Ht).
Qed.

Lemma loc_seg st s p q : core st -> loc st p q -> loc (with_seg st s) p q.
Proof. intros Hc (i & t & H1 & H2 & H3). exists i, t. rewrite (reg_seg st s i t Hc H1). auto. Qed.

Lemma core_seg st s : core st -> nth_error (points st) (s_min s) = Some (s_cmin s) -> nth_error (points st) (s_max s) = Some (s_cmax s) ->
  In (sedge s) Es -> ~ In (sedge s) (medges st) -> core (with_seg st s).
Proof.
  intros Hc P1 P2 He Hni. pose proof Hc as [C1 C2 C3 C4 C5 C6 C7 C8 C9 C10 C11 C12 C13 C14 C15 C16].
  change (points st) with (points (with_seg st s)) in *.
  assert (Hm : medges (with_seg st s) = medges st ++ [sedge s]). { unfold medges, with_seg. cbn. now rewrite map_app. }
  split; auto; try exact C2.
  - intros i g Hg. cbn in Hg. apply nth_snoc_cases in Hg. destruct Hg as [(_ & Hg)|(_ & Hg)]; [subst g; auto|now apply (C4 i)].
  - rewrite Hm. apply NoDup_snoc; auto.
  - intros i t Ht. rewrite Hm, app_length. eapply tin_ext; [| |apply (C6 i t Ht)]; cbn; lia.
  - intros i t Ht. rewrite (reg_seg st s i t Hc Ht). eauto.
  - intros i t p Ht Hp. rewrite (reg_seg st s i t Hc Ht). eauto.
  - intros i t Ht. rewrite (reg_seg st s i t Hc Ht). eauto.
  - intros p i j t t' Hp Hn Hi Hj. rewrite (reg_seg st s i t Hc Hi), (reg_seg st s j t' Hc Hj). eauto.
  - intros p Hp Hn. apply loc_seg; auto.
Qed.

(** ** Following the segment down to its lower end *)

Variable ieqb : I -> I -> bool.
Hypothesis Hieq : forall a b, ieqb a b = true <-> a = b.

Lemma same_ns_trans (a b c : list (nexus Q I)) : same_ns a b -> same_ns b c -> same_ns a c.
Proof. unfold same_ns. intros (H1 & H2) (H3 & H4). split; congruence. Qed.

Lemma seg_loop_ok dg st si s ni tl tr : mid dg st si s ni tl tr ->
  (forall v n, nth_error (st_ns st) v = Some n -> v <> s_min s -> v <> s_max s -> 1 <= dg v) ->
  exists st' tl' tr', evt (fun k => seg_loop ieqb k st si (s_min s) (s_cmin s) (s_cmax s) ni tl tr) (st', tr') /\
    mid dg st' si s (s_min s) tl' tr' /\ st_ss st' = st_ss st /\ same_ns (st_ns st) (st_ns st') /\
    (forall p q, In p W -> ~ In p (points st') -> loc st p q -> loc st' p q) /\ grow si st st'.
Proof.
  intros Hm Hdg. destruct (m_n _ _ _ _ _ _ _ _ _ _ _ Hm) as (n & Hn & _).
  assert (G : forall p, In p W -> forall st ni tl tr n, mid dg st si s ni tl tr ->
    (forall v n, nth_error (st_ns st) v = Some n -> v <> s_min s -> v <> s_max s -> 1 <= dg v) -> nth_error (st_ns st) ni = Some n -> n_c n = p ->
    exists st' tl' tr', evt (fun k => seg_loop ieqb k st si (s_min s) (s_cmin s) (s_cmax s) ni tl tr) (st', tr') /\
    mid dg st' si s (s_min s) tl' tr' /\ st_ss st' = st_ss st /\ same_ns (st_ns st) (st_ns st') /\
    (forall p q, In p W -> ~ In p (points st') -> loc st p q -> loc st' p q) /\ grow si st st').
  2:{ apply (G (n_c n)) with (n := n); auto. apply (c_W _ _ _ _ _ (m_core _ _ _ _ _ _ _ _ _ _ _ Hm)). eapply nth_error_In. apply points_nth. eauto. }
  clear st ni tl tr n Hm Hdg Hn. intros p Hp. pattern p. revert p Hp. apply ht_ind with (M := M). intros p Hp IH st ni tl tr n Hm Hdg Hn Ep.
  destruct (Nat.eq_dec ni (s_min s)) as [Hmin|Hmin].
  { subst ni. exists st, tl, tr. split. { exists 1. intros [|k] Hk; [lia|]. cbn. now rewrite Nat.eqb_refl. }
    split; auto. split; auto. split; [split; auto|]. split; [auto|]. split; auto. split; auto. apply once_refl. }
  pose proof (m_core _ _ _ _ _ _ _ _ _ _ _ Hm) as Hc. destruct (m_n _ _ _ _ _ _ _ _ _ _ _ Hm) as (n0 & Hn0 & Hw & Hat). assert (n0 = n) by congruence. subst n0.
  destruct Hw as [Hw|Hw]; [contradiction|].
  destruct (c_ss _ _ _ _ _ Hc si s (m_s _ _ _ _ _ _ _ _ _ _ _ Hm)) as (_ & Pmax & He).
  assert (Hmax : ni <> s_max s). { intros E. rewrite <- E, (points_nth _ _ _ Hn) in Pmax. injection Pmax as E'. destruct Hw as (_ & Hw). rewrite E' in Hw. cbn in Hw. lra. }
  assert (Hfin : forall st' ni' tl' tr' n1, mid dg st' si s ni' tl' tr' -> st_ss st' = st_ss st -> same_ns (st_ns st) (st_ns st') ->
    (forall p q, In p W -> ~ In p (points st') -> loc st p q -> loc st' p q) -> nth_error (st_ns st') ni' = Some n1 -> (ht (n_c n1) < ht (n_c n))%Q -> grow si st st' ->
    (forall k, seg_loop ieqb (S k) st si (s_min s) (s_cmin s) (s_cmax s) ni tl tr = seg_loop ieqb k st' si (s_min s) (s_cmin s) (s_cmax s) ni' tl' tr') ->
    exists st' tl' tr', evt (fun k => seg_loop ieqb k st si (s_min s) (s_cmin s) (s_cmax s) ni tl tr) (st', tr') /\
    mid dg st' si s (s_min s) tl' tr' /\ st_ss st' = st_ss st /\ same_ns (st_ns st) (st_ns st') /\
    (forall p q, In p W -> ~ In p (points st') -> loc st p q -> loc st' p q) /\ grow si st st').
  { intros st' ni' tl' tr' n1 Hm' S1 S2 S3 Hn1 Hlt (G1 & G2 & G5) Hk.
    destruct (IH (n_c n1)) with (st := st') (ni := ni') (tl := tl') (tr := tr') (n := n1) as (st2 & tl2 & tr2 & (N & HN) & B1 & B2 & B3 & B4 & (G3 & G4 & G6)); auto.
    - apply (c_W _ _ _ _ _ (m_core _ _ _ _ _ _ _ _ _ _ _ Hm')). eapply nth_error_In. apply points_nth. eauto.
    - now rewrite <- Ep.
    - intros v m Hv. destruct (nth_error (st_ns st) v) as [m0|] eqn:Em; [eapply Hdg; eauto|]. exfalso. destruct S2 as (S2 & _).
      apply nth_error_None in Em. apply nth_lt in Hv. apply (f_equal (@length _)) in S2. rewrite !map_length in S2. lia.
    - exists st2, tl2, tr2. split. { exists (S N). intros [|k] Hk'; [lia|]. rewrite Hk. apply HN. lia. }
      split; auto. split; [congruence|]. split; [eapply same_ns_trans; eauto|].
      split. { intros q r Hq Hnq Hlq. apply B4; auto. apply S3; auto. rewrite <- (same_ns_c st' st2); auto. } split; [congruence|]. split; [lia|]. eapply once_trans; eauto. }
  destruct (use_left_x W Es M HG HM (sedge s) (n_c n) He) as [(U & K)|(U & K)]; auto. { apply (c_W _ _ _ _ _ Hc). eapply nth_error_In. apply points_nth. eauto. }
  - destruct (step_left W Es M gv HG HM ieqb Hieq dg st si s ni tl tr n Hm Hn Hmin K) as (st' & ni' & tl' & n1 & B1 & B2 & B3 & B4 & B5 & B6 & B7 & B8).
    eapply Hfin; eauto.
  - destruct (step_right W Es M gv HG HM ieqb Hieq dg st si s ni tl tr n Hm Hn Hmin K) as (st' & ni' & tl' & n1 & B1 & B2 & B3 & B4 & B5 & B6 & B7 & B8).
    { eapply Hdg; eauto. }
    eapply Hfin; eauto.
Qed.

End Seg.
