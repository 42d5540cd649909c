(** Two runs of the model on related inputs: other index type, other coordinate type, other error type.  If all
    comparisons, side tests and index comparisons agree then the runs agree step by step. *)
From Coq Require Import List Arith Bool Lia.
From Verif Require Import Base Coord Trap Mono Tri Trace Protocol.
Import ListNotations.

(** Related outcomes. *)
Definition rres {E1 E2 A1 A2} (RE : E1 -> E2 -> Prop) (RA : A1 -> A2 -> Prop) (r1 : res E1 A1) (r2 : res E2 A2) : Prop :=
  match r1, r2 with
  | Ok a1, Ok a2 => RA a1 a2
  | Err e1, Err e2 => RE e1 e2
  | Crash c1, Crash c2 => c1 = c2
  | _, _ => False
  end.

Section Gen.
Context {E1 E2 : Type} (RE : E1 -> E2 -> Prop).

Lemma rr_bind {A1 A2 B1 B2} (RA : A1 -> A2 -> Prop) (RB : B1 -> B2 -> Prop) r1 r2 (f1 : A1 -> res E1 B1) (f2 : A2 -> res E2 B2) :
  rres RE RA r1 r2 -> (forall a1 a2, RA a1 a2 -> rres RE RB (f1 a1) (f2 a2)) -> rres RE RB (bind r1 f1) (bind r2 f2).
Proof. destruct r1, r2; simpl; intros; auto; contradiction. Qed.

Lemma rr_rdu {A1 A2} (R : A1 -> A2 -> Prop) l1 l2 i : Forall2 R l1 l2 -> rres RE R (rdu l1 i) (rdu l2 i).
Proof.
  intros H. revert i. induction H; intros [|i]; try (simpl; auto; fail). apply IHForall2.
Qed.
Lemma rr_rd {A1 A2} (R : A1 -> A2 -> Prop) l1 l2 i : Forall2 R l1 l2 -> rres RE R (rd l1 i) (rd l2 i).
Proof.
  intros H. revert i. induction H; intros [|i]; try (simpl; auto; fail). apply IHForall2.
Qed.

Lemma f2_upd {A1 A2} (R : A1 -> A2 -> Prop) l1 l2 i a1 a2 : Forall2 R l1 l2 -> R a1 a2 -> Forall2 R (upd l1 i a1) (upd l2 i a2).
Proof. intros H Ha. revert i. induction H; intros [|i]; simpl; auto. Qed.

Lemma f2_snoc {A1 A2} (R : A1 -> A2 -> Prop) l1 l2 a1 a2 : Forall2 R l1 l2 -> R a1 a2 -> Forall2 R (l1 ++ [a1]) (l2 ++ [a2]).
Proof. intros. apply Forall2_app; auto. Qed.

Lemma f2_len {A1 A2} (R : A1 -> A2 -> Prop) l1 l2 : Forall2 R l1 l2 -> length l1 = length l2.
Proof. induction 1; simpl; auto. Qed.

Lemma f2_eq {A} (l : list A) : Forall2 eq l l.
Proof. induction l; auto. Qed.
Lemma eq_f2 {A} (l l' : list A) : Forall2 eq l l' -> l = l'.
Proof. induction 1; congruence. Qed.

Lemma rr_modify {A1 A2} (R : A1 -> A2 -> Prop) l1 l2 i f1 f2 :
  Forall2 R l1 l2 -> (forall a1 a2, R a1 a2 -> rres RE R (f1 a1) (f2 a2)) ->
  rres RE (Forall2 R) (modify l1 i f1) (modify l2 i f2).
Proof.
  intros H Hf. unfold modify.
  pose proof (rr_rd R l1 l2 i H) as Hr. unfold rd in Hr.
  destruct (nth_error l1 i) as [a1|], (nth_error l2 i) as [a2|]; simpl in Hr; try contradiction; auto.
  specialize (Hf a1 a2 Hr). destruct (f1 a1), (f2 a2); simpl in *; try contradiction; auto.
  now apply f2_upd.
Qed.

Lemma rr_ok_or {A} (o : option A) e1 e2 : RE e1 e2 -> rres RE eq (ok_or o e1) (ok_or o e2).
Proof. destruct o; simpl; auto. Qed.

Lemma rr_weaken {A1 A2} (R R' : A1 -> A2 -> Prop) r1 r2 : (forall a b, R a b -> R' a b) -> rres RE R r1 r2 -> rres RE R' r1 r2.
Proof. intros H. destruct r1, r2; simpl; auto. Qed.
End Gen.

Section Sim.
Context {C1 C2 : Type} {O1 : CoordOps C1} {O2 : CoordOps C2} {I1 I2 : Type}.
Variable RC : coords C1 -> coords C2 -> Prop.
Variable RI : I1 -> I2 -> Prop.
Variables (ieqb1 : I1 -> I1 -> bool) (ieqb2 : I2 -> I2 -> bool).
Variables (gv1 : I1 -> coords C1) (gv2 : I2 -> coords C2).
Hypothesis Hlt : forall a a' b b', RC a a' -> RC b b' -> coords_lt a b = coords_lt a' b'.
Hypothesis Hle : forall a a' b b', RC a a' -> RC b b' -> coords_le a b = coords_le a' b'.
Hypothesis Hgt : forall a a' b b', RC a a' -> RC b b' -> coords_gt a b = coords_gt a' b'.
Hypothesis Hleft : forall a a' b b' c c', RC a a' -> RC b b' -> RC c c' -> is_left a b c = is_left a' b' c'.
Hypothesis Heqx : forall a a' b b', RC a a' -> RC b b' -> c_eqb (cx a) (cx b) = c_eqb (cx a') (cx b').
Hypothesis Heqy : forall a a' b b', RC a a' -> RC b b' -> c_eqb (cy a) (cy b) = c_eqb (cy a') (cy b').
Hypothesis Hieqb : forall i i' j j', RI i i' -> RI j j' -> ieqb1 i j = ieqb2 i' j'.
Hypothesis Hgv : forall i i', RI i i' -> RC (gv1 i) (gv2 i').

Definition rn (n1 : nexus C1 I1) (n2 : nexus C2 I2) : Prop :=
  RI (n_v n1) (n_v n2) /\ RC (n_c n1) (n_c n2) /\ n_ul n1 = n_ul n2 /\ n_dl n1 = n_dl n2 /\ n_div n1 = n_div n2.
Definition rs (s1 : seg C1) (s2 : seg C2) : Prop :=
  s_min s1 = s_min s2 /\ s_max s1 = s_max s2 /\ RC (s_cmin s1) (s_cmin s2) /\ RC (s_cmax s1) (s_cmax s2).
Definition rb (b1 : qbranch C1) (b2 : qbranch C2) : Prop :=
  match b1, b2 with
  | QX a b, QX a' b' => RC a a' /\ RC b b'
  | QY a, QY a' => RC a a'
  | _, _ => False
  end.
Definition rq (q1 : qnode C1) (q2 : qnode C2) : Prop :=
  match q1, q2 with
  | QBranch l r b, QBranch l' r' b' => l = l' /\ r = r' /\ rb b b'
  | QSink t, QSink t' => t = t'
  | _, _ => False
  end.
Definition rst (s1 : state C1 I1) (s2 : state C2 I2) : Prop :=
  Forall2 rn (st_ns s1) (st_ns s2) /\ Forall2 rs (st_ss s1) (st_ss s2) /\ st_ts s1 = st_ts s2 /\
  Forall2 rq (st_qs s1) (st_qs s2).

Notation rr := (rres (@eq ierr)).

Lemma on_left_sim s1 s2 c1 c2 : rs s1 s2 -> RC c1 c2 -> is_on_left s1 c1 = is_on_left s2 c2.
Proof. intros (_ & _ & H1 & H2) Hc. now apply Hleft. Qed.

Lemma find_sim k : forall qs1 qs2 c1 c2 q, Forall2 rq qs1 qs2 -> RC c1 c2 -> rr eq (find k qs1 c1 q) (find k qs2 c2 q).
Proof.
  induction k as [|k IH]; intros qs1 qs2 c1 c2 q Hq Hc; cbn [find]; [reflexivity|].
  eapply rr_bind; [apply rr_rdu, Hq|].
  intros [l r b|t] [l' r' b'|t'] H; simpl in H; try contradiction.
  - destruct H as (-> & -> & Hb).
    replace (use_left b c1) with (use_left b' c2); [now apply IH|].
    destruct b, b'; simpl in *; try contradiction; symmetry.
    + apply Hleft; tauto.
    + now apply Hle.
  - now subst.
Qed.

Lemma replace_sim o n n1 n2 : rn n1 n2 -> rr rn (replace_trapezoid o n n1) (replace_trapezoid o n n2).
Proof.
  intros (Hv & Hc & Hu & Hd & Hx). unfold replace_trapezoid. rewrite <- Hu, <- Hd, <- Hx.
  destruct (_ =? _). { simpl. unfold rn; cbn. auto. }
  destruct (_ =? _). { simpl. unfold rn; cbn. auto. }
  destruct (n_div n1); [reflexivity| |].
  - destruct (_ =? _); simpl; auto. unfold rn; cbn. auto.
  - destruct (_ =? _); [|destruct (_ =? _)]; simpl; auto; unfold rn; cbn; auto.
Qed.

Lemma direction_sim ss1 ss2 ni si : Forall2 rs ss1 ss2 ->
  rr eq (get_segment_direction ss1 ni si) (get_segment_direction ss2 ni si).
Proof.
  intros H. unfold get_segment_direction. eapply rr_bind; [apply rr_rd, H|].
  intros s1 s2 (-> & -> & _). destruct (_ =? _); [reflexivity|]. destruct (_ =? _); reflexivity.
Qed.

Ltac rb R := eapply (rr_bind eq R).

Lemma nexus_add_sim ns1 ns2 ss1 ss2 ni si ti : Forall2 rn ns1 ns2 -> Forall2 rs ss1 ss2 ->
  rr (Forall2 rn) (nexus_add_segment ns1 ss1 ni si ti) (nexus_add_segment ns2 ss2 ni si ti).
Proof.
  intros Hn Hs. unfold nexus_add_segment.
  rb (@eq dir). { now apply direction_sim. } intros d ? <-.
  rb rn. { now apply rr_rd. } intros n1 n2 Hnn.
  rb (@eq (zot divider)).
  - destruct Hnn as (_ & _ & _ & _ & <-). destruct (n_div n1) as [|a|a b]; try reflexivity.
    rb (@eq bool).
    + destruct (dir_eqb (d_dir a) d); [|reflexivity].
      rb rs. { now apply rr_rd. } intros s0 s0' Hs0.
      rb rs. { now apply rr_rd. } intros s1 s1' Hs1.
      rb rn. { destruct Hs1 as (-> & -> & _). now apply rr_rd. } intros m1 m2 Hm.
      simpl. apply on_left_sim; auto. apply Hm.
    + intros b ? <-. reflexivity.
  - intros z ? <-. simpl. apply f2_upd; auto. destruct Hnn as (? & ? & ? & ? & ?). unfold rn; cbn; auto.
Qed.

Lemma filter_sim n1 n2 d : rn n1 n2 -> filter_dividers n1 d = filter_dividers n2 d.
Proof. intros (_ & _ & _ & _ & H). unfold filter_dividers. now rewrite H. Qed.

Lemma down_sim ns1 ns2 ss1 ss2 s1 s2 n1 n2 : Forall2 rn ns1 ns2 -> Forall2 rs ss1 ss2 -> rs s1 s2 -> rn n1 n2 ->
  rr eq (get_down_trapezoid ieqb1 ns1 ss1 s1 n1) (get_down_trapezoid ieqb2 ns2 ss2 s2 n2).
Proof.
  intros Hn Hs Hss Hnn. unfold get_down_trapezoid. rewrite <- (filter_sim n1 n2 Desc Hnn).
  assert (G : forall dr, rr eq
    (bind (rd ns1 (s_min s1)) (fun n_min => if ieqb1 (n_v n_min) (n_v n1) then Err IE_SegNexus
      else bind (rd ns1 (s_max s1)) (fun n_max => bind (if ieqb1 (n_v n_max) (n_v n1) then
           bind (rd ss1 (d_si dr)) (fun s_r => bind (rd ns1 (s_min s_r)) (fun n_r => Ok (n_c n_r))) else Ok (n_c n1))
        (fun c => Ok (if is_on_left s1 c then d_r dr else n_dl n1)))))
    (bind (rd ns2 (s_min s2)) (fun n_min => if ieqb2 (n_v n_min) (n_v n2) then Err IE_SegNexus
      else bind (rd ns2 (s_max s2)) (fun n_max => bind (if ieqb2 (n_v n_max) (n_v n2) then
           bind (rd ss2 (d_si dr)) (fun s_r => bind (rd ns2 (s_min s_r)) (fun n_r => Ok (n_c n_r))) else Ok (n_c n2))
        (fun c => Ok (if is_on_left s2 c then d_r dr else n_dl n2)))))).
  { intros dr. pose proof Hss as (Hmin & Hmax & _). rewrite <- Hmin, <- Hmax.
    rb rn. { now apply rr_rd. } intros m1 m2 Hm.
    rewrite (Hieqb _ _ _ _ (proj1 Hm) (proj1 Hnn)). destruct (ieqb2 _ _); [reflexivity|].
    rb rn. { now apply rr_rd. } intros x1 x2 Hx.
    rewrite (Hieqb _ _ _ _ (proj1 Hx) (proj1 Hnn)).
    rb RC.
    - destruct (ieqb2 _ _); [|apply Hnn].
      rb rs. { now apply rr_rd. } intros t1 t2 (<- & _).
      rb rn. { now apply rr_rd. } intros y1 y2 Hy. apply Hy.
    - intros c1 c2 Hc. simpl. rewrite (on_left_sim s1 s2 c1 c2 Hss Hc).
      destruct Hnn as (_ & _ & _ & <- & _). reflexivity. }
  destruct (filter_dividers n1 Desc); auto. simpl. apply Hnn.
Qed.

Lemma first_sim n1 n2 d : rn n1 n2 -> first_trapezoid n1 d = first_trapezoid n2 d.
Proof. intros (_ & _ & H1 & H2 & _). now destruct d. Qed.

Lemma between_sim d f1 f2 t1 t2 n1 n2 : RC f1 f2 -> RC t1 t2 -> rn n1 n2 ->
  get_trapezoid_between d f1 t1 n1 = get_trapezoid_between d f2 t2 n2.
Proof.
  intros Hf Ht Hn. unfold get_trapezoid_between. rewrite (filter_sim n1 n2 d Hn), (first_sim n1 n2 d Hn).
  destruct d; destruct (filter_dividers _ _); auto; cbn [fst snd];
    erewrite (Hleft _ _ _ _ _ _); eauto; apply Hn.
Qed.

Lemma toward_sim ss1 ss2 ns1 ns2 d t1 t2 n1 n2 : Forall2 rn ns1 ns2 -> Forall2 rs ss1 ss2 -> RC t1 t2 -> rn n1 n2 ->
  rr eq (get_trapezoid_toward ss1 ns1 d t1 n1) (get_trapezoid_toward ss2 ns2 d t2 n2).
Proof.
  intros Hns Hss Ht Hn. unfold get_trapezoid_toward. rewrite (filter_sim n1 n2 d Hn), (first_sim n1 n2 d Hn).
  destruct (filter_dividers n2 d); try reflexivity.
  rb rs. { now apply rr_rd. } intros s1 s2 (<- & <- & _).
  rb rn. { now apply rr_rd. } intros m1 m2 Hm.
  rb rn. { now apply rr_rd. } intros x1 x2 Hx.
  simpl. rewrite (Hleft _ _ _ _ _ _ (proj1 (proj2 Hm)) (proj1 (proj2 Hx)) Ht). reflexivity.
Qed.

(** ** Checks *)

Lemma for_all_sim {A} (l : list A) f1 f2 : (forall a, rr eq (f1 a) (f2 a)) -> rr eq (for_all l f1) (for_all l f2).
Proof.
  intros H. induction l as [|a l IH]; [reflexivity|]. cbn [for_all]. rb (@eq unit); auto.
Qed.

Lemma outer_sim n1 n2 d : rn n1 n2 -> outer_trapezoids n1 d = outer_trapezoids n2 d.
Proof. intros H. unfold outer_trapezoids. now rewrite (filter_sim _ _ _ H), (first_sim _ _ _ H). Qed.
Lemma iter_sim n1 n2 d : rn n1 n2 -> iter_trapezoids n1 d = iter_trapezoids n2 d.
Proof. intros H. unfold iter_trapezoids. now rewrite (filter_sim _ _ _ H), (first_sim _ _ _ H). Qed.

Lemma rr_refl {A} (r : res ierr A) : rr eq r r.
Proof. now destruct r. Qed.

Lemma check_sim dbg fuel s1 s2 : rst s1 s2 -> rr eq (check_consistency dbg fuel s1) (check_consistency dbg fuel s2).
Proof.
  intros (Hn & Hs & Ht & Hq). unfold check_consistency. destruct dbg; [|reflexivity].
  rewrite <- Ht, (f2_len _ _ _ Hn). rb (@eq unit).
  { apply for_all_sim. intros ni. unfold check_nexus. rewrite <- Ht. rb rn. { now apply rr_rdu. } intros n1 n2 Hnn.
    rewrite !(outer_sim n1 n2) by auto. apply rr_refl. }
  intros _ _ _. rb (@eq unit).
  { apply for_all_sim. intros ti. unfold check_trapezoid. rewrite <- Ht.
    destruct (rdu (st_ts s1) ti) as [t|e|c]; cbn [bind]; [|reflexivity|reflexivity].
    rb (@eq unit). { destruct (t_d t) as [n|]; [|reflexivity]. rb rn. { now apply rr_rdu. } intros n1 n2 Hnn.
      rewrite (iter_sim n1 n2) by auto. apply rr_refl. }
    intros _ _ _.
    rb (@eq unit). { destruct (t_u t) as [n|]; [|reflexivity]. rb rn. { now apply rr_rdu. } intros n1 n2 Hnn.
      rewrite (iter_sim n1 n2) by auto. apply rr_refl. }
    intros _ _ _.
    rb rq. { now apply rr_rdu. } intros [l r b|x] [l' r' b'|x'] H; simpl in H; try contradiction; [reflexivity|].
    subst. apply rr_refl. }
  intros _ _ _. generalize 0. revert s1 s2 Hn Hs Ht Hq. induction fuel as [|fuel IH]; intros s1 s2 Hn Hs Ht Hq qi; [reflexivity|].
  cbn [check_query]. rb rq. { now apply rr_rdu. } intros [l r b|x] [l' r' b'|x'] H; simpl in H; try contradiction.
  - destruct H as (-> & -> & _). rb (@eq unit); [now apply IH|]. intros. now apply IH.
  - subst. rewrite Ht. apply rr_refl.
Qed.

(** ** Insertion *)

Lemma add_vertex_sim dbg fuel s1 s2 i1 i2 q : rst s1 s2 -> RI i1 i2 ->
  rr (fun a b => rst (fst a) (fst b) /\ snd a = snd b) (add_vertex gv1 dbg fuel s1 i1 q) (add_vertex gv2 dbg fuel s2 i2 q).
Proof.
  intros (Hn & Hs & Ht & Hq) Hi. unfold add_vertex.
  rb (@eq (nat * nat)). { apply find_sim; auto. } intros [qp ti] ? <-.
  rewrite <- (f2_len _ _ _ Hq), <- (f2_len _ _ _ Hn), <- Ht.
  rb rq. { now apply rr_rd. } intros q1 q2 Hqq.
  destruct (rd (st_ts s1) ti) as [t|e|c]; cbn [bind]; [|reflexivity|reflexivity].
  destruct (split_horizontal _ _ _ _) as [t_down t_new].
  assert (Hn1 : Forall2 rn (st_ns s1 ++ [nexus_new i1 (gv1 i1) (length (st_ts s1)) ti])
    (st_ns s2 ++ [nexus_new i2 (gv2 i2) (length (st_ts s1)) ti])).
  { apply f2_snoc; auto. unfold rn, nexus_new; cbn. auto. }
  rb (Forall2 rn).
  { destruct (t_u t_new) as [u|]; [|exact Hn1]. apply rr_modify; auto. intros. now apply replace_sim. }
  intros ns1 ns2 Hns.
  match goal with |- rres _ _ (bind (check_consistency _ _ ?a) _) (bind (check_consistency _ _ ?b) _) =>
    assert (Hst : rst a b) end.
  { split; [auto|]. split; [auto|]. split; [reflexivity|]. cbn [st_qs].
    apply f2_snoc; [|reflexivity]. apply f2_snoc; auto. apply f2_upd; auto. repeat split. simpl. auto. }
  rb (@eq unit). { now apply check_sim. } intros _ _ _. split; auto.
Qed.

Lemma seg_loop_sim k : forall s1 s2 si ni_min cm1 cm2 cx1 cx2 ni tl tr, rst s1 s2 -> RC cm1 cm2 -> RC cx1 cx2 ->
  rr (fun a b => rst (fst a) (fst b) /\ snd a = snd b)
    (seg_loop ieqb1 k s1 si ni_min cm1 cx1 ni tl tr) (seg_loop ieqb2 k s2 si ni_min cm2 cx2 ni tl tr).
Proof.
  induction k as [|k IH]; intros s1 s2 si ni_min cm1 cm2 cx1 cx2 ni tl tr Hst Hm Hx; cbn [seg_loop]; [reflexivity|].
  destruct (_ =? _). { now split. }
  pose proof Hst as (Hn & Hs & Ht & Hq).
  rb rn. { now apply rr_rdu. } intros n1 n2 Hnn.
  rb rs. { now apply rr_rdu. } intros sg1 sg2 Hss.
  rb (@eq nat). { now apply down_sim. } intros ti ? <-.
  rewrite <- Ht. destruct (rdu (st_ts s1) ti) as [t|e|c]; cbn [bind]; [|reflexivity|reflexivity].
  rb (@eq nat). { now apply rr_ok_or. } intros nd ? <-.
  destruct (rdu (st_ts s1) tl) as [t_l|e|c]; cbn [bind]; [|reflexivity|reflexivity].
  destruct (rdu (st_ts s1) tr) as [t_r|e|c]; cbn [bind]; [|reflexivity|reflexivity].
  rewrite <- (f2_len _ _ _ Hq).
  destruct (onat_eqb _ _).
  - rb rq. { now apply rr_rd. } intros q1 q2 Hqq.
    destruct (modify (st_ts s1) ti _) as [ts1|e|c]; cbn [bind]; [|reflexivity|reflexivity].
    destruct (modify ts1 tr _) as [ts2|e|c]; cbn [bind]; [|reflexivity|reflexivity].
    rb (Forall2 rn).
    { destruct (negb _); [|exact Hn]. rb rn. { now apply rr_rdu. } intros m1 m2 Hmm.
      rewrite (on_left_sim sg1 sg2 _ _ Hss (proj1 (proj2 Hmm))). destruct (negb _); [|exact Hn].
      apply rr_modify; auto. intros. now apply replace_sim. }
    intros ns1 ns2 Hns. apply IH; auto. split; [auto|]. split; [auto|]. split; [reflexivity|]. cbn [st_qs].
    apply f2_snoc; auto. apply f2_upd; auto. repeat split; auto.
  - destruct (onat_eqb _ _); [|reflexivity].
    rb rq. { now apply rr_rd. } intros q1 q2 Hqq.
    destruct (modify (st_ts s1) ti _) as [ts1|e|c]; cbn [bind]; [|reflexivity|reflexivity].
    destruct (modify ts1 tl _) as [ts2|e|c]; cbn [bind]; [|reflexivity|reflexivity].
    rb (@eq bool).
    { destruct (_ =? _); [reflexivity|]. rb rn. { now apply rr_rdu. } intros m1 m2 Hmm.
      simpl. apply (on_left_sim sg1 sg2 _ _ Hss (proj1 (proj2 Hmm))). }
    intros ol ? <-.
    rb (Forall2 rn). { destruct ol; [|exact Hn]. apply rr_modify; auto. intros. now apply replace_sim. }
    intros ns1 ns2 Hns. apply IH; auto. split; [auto|]. split; [auto|]. split; [reflexivity|]. cbn [st_qs].
    apply f2_snoc; auto. apply f2_upd; auto. repeat split; auto.
Qed.

Lemma add_segment_sim dbg fuel s1 s2 a b ca1 ca2 cb1 cb2 : rst s1 s2 -> RC ca1 ca2 -> RC cb1 cb2 ->
  rr rst (add_segment ieqb1 dbg fuel s1 a b ca1 cb1) (add_segment ieqb2 dbg fuel s2 a b ca2 cb2).
Proof.
  intros Hst Ha Hb. pose proof Hst as (Hn & Hs & Ht & Hq). unfold add_segment. rewrite <- (f2_len _ _ _ Hs).
  assert (Hss : Forall2 rs (st_ss s1 ++ [mkSeg a b ca1 cb1]) (st_ss s2 ++ [mkSeg a b ca2 cb2])).
  { apply f2_snoc; auto. repeat split; auto. }
  rb rn. { now apply rr_rdu. } intros nm1 nm2 Hnm.
  rb rs. { now apply rr_rdu. } intros sg1 sg2 Hsg.
  rb (@eq nat). { now apply down_sim. } intros ti ? <-.
  rewrite <- Ht. destruct (rdu (st_ts s1) ti) as [t|e|c]; cbn [bind]; [|reflexivity|reflexivity].
  rewrite <- (f2_len _ _ _ Hq).
  rb rq. { now apply rr_rd. } intros q1 q2 Hqq.
  destruct (split_vertical _ _ _ _) as [t_left t_new].
  rb (Forall2 rn). { now apply nexus_add_sim. } intros ns1 ns2 Hns.
  rb (@eq nat). { now apply rr_ok_or. } intros ni ? <-.
  rb rn. { now apply rr_rdu. } intros n1 n2 Hnn.
  rewrite (on_left_sim sg1 sg2 _ _ Hsg (proj1 (proj2 Hnn))).
  rb (Forall2 rn). { destruct (_ && _); [|exact Hns]. apply rr_modify; auto. intros. now apply replace_sim. }
  intros ns1' ns2' Hns'.
  rb (fun x y : state _ _ * nat => rst (fst x) (fst y) /\ snd x = snd y).
  { apply seg_loop_sim; auto. split; [auto|]. split; [auto|]. split; [reflexivity|]. cbn [st_qs].
    apply f2_snoc; [|reflexivity]. apply f2_snoc; auto. apply f2_upd; auto. repeat split; auto. }
  intros [st1 tr1] [st2 tr2] [(Hn3 & Hs3 & Ht3 & Hq3) Htr]. cbn [fst snd] in *. subst tr2.
  rb (Forall2 rn). { now apply nexus_add_sim. } intros ns41 ns42 Hns4.
  match goal with |- rres _ _ (bind (check_consistency _ _ ?a) _) (bind (check_consistency _ _ ?b) _) =>
    assert (Hst4 : rst a b) end. { split; [auto|]. split; [auto|]. split; auto. }
  rb (@eq unit). { now apply check_sim. } intros _ _ _. exact Hst4.
Qed.

(** ** Polygons *)

Definition rv (v1 : vloc C1 I1) (v2 : vloc C2 I2) : Prop :=
  match v1, v2 with
  | Pending c i q, Pending c' i' q' => RC c c' /\ RI i i' /\ q = q'
  | Inserted c n, Inserted c' n' => RC c c' /\ n = n'
  | _, _ => False
  end.

Lemma vl_coords_sim v1 v2 : rv v1 v2 -> RC (vl_coords v1) (vl_coords v2).
Proof. destruct v1, v2; simpl; tauto. Qed.

Lemma at_sim dbg fuel s1 s2 v1 v2 j i1 i2 q : rst s1 s2 -> Forall2 rv v1 v2 -> RI i1 i2 ->
  rr (fun a b => rst (fst (fst a)) (fst (fst b)) /\ Forall2 rv (snd (fst a)) (snd (fst b)) /\ snd a = snd b)
    (add_vertex_at gv1 dbg fuel s1 v1 j i1 q) (add_vertex_at gv2 dbg fuel s2 v2 j i2 q).
Proof.
  intros Hst Hv Hi. unfold add_vertex_at.
  rb (fun a b : state _ _ * nat => rst (fst a) (fst b) /\ snd a = snd b). { now apply add_vertex_sim. }
  intros [s1' n1] [s2' n2] [Hst' Hnn]. cbn [fst snd] in *. subst n2.
  rb (Forall2 rv). { apply rr_modify; auto. intros. split; auto. now apply vl_coords_sim. }
  intros v1' v2' Hv'. simpl. auto.
Qed.

Lemma nth_seg_sim dbg fuel s1 s2 v1 v2 si : rst s1 s2 -> Forall2 rv v1 v2 ->
  rr (fun a b => rst (fst (fst a)) (fst (fst b)) /\ Forall2 rv (snd (fst a)) (snd (fst b)) /\ snd a = snd b)
    (add_nth_segment ieqb1 gv1 dbg fuel s1 v1 si) (add_nth_segment ieqb2 gv2 dbg fuel s2 v2 si).
Proof.
  intros Hst Hv. unfold add_nth_segment. rewrite <- (f2_len _ _ _ Hv).
  rb rv. { now apply rr_rd. } intros a1 a2 Ha.
  rb rv. { now apply rr_rd. } intros b1 b2 Hb.
  set (R5 := fun (x : state C1 I1 * list (vloc C1 I1) * nat * nat * nat) (y : state C2 I2 * list (vloc C2 I2) * nat * nat * nat) =>
     rst (fst (fst (fst (fst x)))) (fst (fst (fst (fst y)))) /\ Forall2 rv (snd (fst (fst (fst x)))) (snd (fst (fst (fst y)))) /\
     snd (fst (fst x)) = snd (fst (fst y)) /\ snd (fst x) = snd (fst y) /\ snd x = snd y).
  eapply (rr_bind eq R5).
  - set (R3 := fun (a : state C1 I1 * list (vloc C1 I1) * nat) (b : state C2 I2 * list (vloc C2 I2) * nat) =>
        rst (fst (fst a)) (fst (fst b)) /\ Forall2 rv (snd (fst a)) (snd (fst b)) /\ snd a = snd b).
    destruct a1 as [c0 i0 q0|c0 n0], a2 as [c0' i0' q0'|c0' n0']; simpl in Ha; try contradiction;
    destruct b1 as [c1 i1 q1|c1 n1], b2 as [c1' i1' q1'|c1' n1']; simpl in Hb; try contradiction.
    + destruct Ha as (Hc0 & Hi0 & <-), Hb as (Hc1 & Hi1 & <-). rewrite (Hlt _ _ _ _ Hc0 Hc1).
      destruct (coords_lt c0' c1').
      * eapply (rr_bind eq R3). { now apply at_sim. } intros [[x1 y1] z1] [[x2 y2] z2] (A1 & A2 & A3). cbn [fst snd] in *. subst z2.
        eapply (rr_bind eq R3). { now apply at_sim. } intros [[u1 w1] t1] [[u2 w2] t2] (B1 & B2 & B3). cbn [fst snd] in *. subst t2.
        unfold R5. simpl. auto.
      * eapply (rr_bind eq R3). { now apply at_sim. } intros [[x1 y1] z1] [[x2 y2] z2] (A1 & A2 & A3). cbn [fst snd] in *. subst z2.
        eapply (rr_bind eq R3). { now apply at_sim. } intros [[u1 w1] t1] [[u2 w2] t2] (B1 & B2 & B3). cbn [fst snd] in *. subst t2.
        unfold R5. simpl. auto.
    + destruct Ha as (Hc0 & Hi0 & <-), Hb as (Hc1 & <-).
      eapply (rr_bind eq R3). { now apply at_sim. } intros [[x1 y1] z1] [[x2 y2] z2] (A1 & A2 & A3). cbn [fst snd] in *. subst z2.
      unfold R5. simpl. auto.
    + destruct Ha as (Hc0 & <-), Hb as (Hc1 & Hi1 & <-).
      eapply (rr_bind eq R3). { now apply at_sim. } intros [[x1 y1] z1] [[x2 y2] z2] (A1 & A2 & A3). cbn [fst snd] in *. subst z2.
      unfold R5. simpl. auto.
    + destruct Ha as (Hc0 & <-), Hb as (Hc1 & <-). unfold R5. simpl. auto.
  - intros [[[[x1 y1] m1] n1] k1] [[[[x2 y2] m2] n2] k2] (A1 & A2 & A3 & A4 & A5). cbn [fst snd] in *. subst.
    pose proof A1 as (Hn & _).
    rb rn. { now apply rr_rdu. } intros p1 p2 Hp.
    rb rn. { now apply rr_rdu. } intros r1 r2 Hr.
    rewrite (Hlt _ _ _ _ (proj1 (proj2 Hp)) (proj1 (proj2 Hr))).
    rb rst.
    { destruct (coords_lt _ _); apply add_segment_sim; auto; (apply Hp || apply Hr). }
    intros st1 st2 Hst2. simpl. auto.
Qed.

Lemma walk_sim k : forall s1 s2 d o1 o2 t1 t2 ti, rst s1 s2 -> RC o1 o2 -> RC t1 t2 ->
  rr eq (walk k s1 d o1 t1 ti) (walk k s2 d o2 t2 ti).
Proof.
  induction k as [|k IH]; intros s1 s2 d o1 o2 t1 t2 ti Hst Ho Ht; cbn [walk]; [reflexivity|].
  pose proof Hst as (Hn & Hs & HT & Hq). rewrite <- HT.
  destruct (rdu (st_ts s1) ti) as [t|e|c]; cbn [bind]; [|reflexivity|reflexivity].
  rb (@eq bool).
  { unfold reached. destruct (match d with Asc => t_u t | Desc => t_d t end) as [ni|]; [|reflexivity].
    rb rn. { now apply rr_rd. } intros n1 n2 Hnn. simpl. destruct d; [apply Hgt|apply Hlt]; auto; apply Hnn. }
  intros b ? <-. destruct b; [reflexivity|].
  rb (@eq nat). { now apply rr_ok_or. } intros ni ? <-.
  rb rn. { now apply rr_rdu. } intros n1 n2 Hnn. rewrite (between_sim d o1 o2 t1 t2 n1 n2); auto.
Qed.

Lemma relocate_sim fuel k : forall s1 s2 v1 v2 u j loc o1 o2, rst s1 s2 -> Forall2 rv v1 v2 -> RC o1 o2 ->
  rr (Forall2 rv) (relocate fuel k s1 v1 u j loc o1) (relocate fuel k s2 v2 u j loc o2).
Proof.
  induction k as [|k IH]; intros s1 s2 v1 v2 u j loc o1 o2 Hst Hv Ho; cbn [relocate].
  { destruct u; [exact Hv|reflexivity]. }
  destruct u as [|u]; [exact Hv|]. rewrite <- (f2_len _ _ _ Hv). pose proof Hst as (Hn & Hs & HT & Hq).
  rb rv. { now apply rr_rd. } intros [c i q|c n] [c' i' q'|c' n'] H; simpl in H; try contradiction.
  - destruct H as (Hc & Hi & <-). rewrite (Hgt _ _ _ _ Hc Ho).
    rb (@eq nat).
    { destruct loc as [n|t]; [|reflexivity]. rb rn. { now apply rr_rdu. } intros n1 n2 Hnn. now apply toward_sim. }
    intros t0 ? <-. rb (@eq nat). { now apply walk_sim. } intros ti ? <-.
    rewrite <- HT. destruct (rdu (st_ts s1) ti) as [t|e|x]; cbn [bind]; [|reflexivity|reflexivity].
    apply IH; auto. apply f2_upd; auto. simpl. auto.
  - destruct H as (Hc & <-). rb rn. { now apply rr_rdu. } intros n1 n2 Hnn. apply IH; auto. apply Hnn.
Qed.

(** The start value of the origin is never looked at: the vertex after the segment's first one is inserted. *)
Definition inserted (v : vloc C1 I1) : Prop := match v with Inserted _ _ => True | _ => False end.

Lemma at_inserted dbg fuel s v j i q s' v' n : add_vertex_at gv1 dbg fuel s v j i q = Ok (s', v', n) ->
  (exists x, nth_error v' j = Some x /\ inserted x) /\
  (forall j' x, nth_error v j' = Some x -> inserted x -> exists x', nth_error v' j' = Some x' /\ inserted x') /\ length v' = length v.
Proof.
  unfold add_vertex_at. destruct (add_vertex _ _ _ _ _ _) as [[st ni]|e|c]; cbn [bind]; try discriminate.
  unfold modify. destruct (nth_error v j) as [y|] eqn:Ey; cbn [bind]; try discriminate.
  intros H. injection H as <- <- <-. assert (Hj := nth_lt _ _ _ _ Ey). repeat split.
  - eexists. split; [now apply nth_upd_eq|exact Logic.I].
  - intros j' x Hx Hi. rewrite nth_upd. destruct (Nat.eqb_spec j j') as [->|Hne].
    + rewrite Hx. eexists. split; [reflexivity|exact Logic.I].
    + eauto.
  - apply upd_length.
Qed.

Lemma nth_seg_inserted dbg fuel s v si s' v' a : add_nth_segment ieqb1 gv1 dbg fuel s v si = Ok (s', v', a) ->
  length v' = length v /\ exists x, nth_error v' ((si + 1) mod length v') = Some x /\ inserted x.
Proof.
  unfold add_nth_segment. unfold rd.
  destruct (nth_error v si) as [v0|] eqn:E0; cbn [bind]; try discriminate.
  destruct (nth_error v ((si + 1) mod length v)) as [v1|] eqn:E1; cbn [bind]; try discriminate.
  intros H.
  assert (G : forall s1 w n0 n1 a1, match v0, v1 with
      | Pending c0 i0 q0, Pending c1 i1 q1 =>
        if coords_lt c0 c1 then
          bind (add_vertex_at gv1 dbg fuel s v si i0 q0) (fun '(st1, vls1, ni0) =>
          bind (add_vertex_at gv1 dbg fuel st1 vls1 ((si + 1) mod length v) i1 q1) (fun '(st2, vls2, ni1) => Ok (st2, vls2, ni0, ni1, 2)))
        else
          bind (add_vertex_at gv1 dbg fuel s v ((si + 1) mod length v) i1 q1) (fun '(st1, vls1, ni1) =>
          bind (add_vertex_at gv1 dbg fuel st1 vls1 si i0 q0) (fun '(st2, vls2, ni0) => Ok (st2, vls2, ni0, ni1, 2)))
      | Pending _ i0 q0, Inserted _ ni1 => bind (add_vertex_at gv1 dbg fuel s v si i0 q0) (fun '(st1, vls1, ni0) => Ok (st1, vls1, ni0, ni1, 1))
      | Inserted _ ni0, Pending _ i1 q1 => bind (add_vertex_at gv1 dbg fuel s v ((si + 1) mod length v) i1 q1) (fun '(st1, vls1, ni1) => Ok (st1, vls1, ni0, ni1, 1))
      | Inserted _ ni0, Inserted _ ni1 => Ok (s, v, ni0, ni1, 0)
      end = Ok (s1, w, n0, n1, a1) -> length w = length v /\ exists x, nth_error w ((si + 1) mod length v) = Some x /\ inserted x).
  { intros s1 w n0 n1 a1 HG. destruct v0 as [c0 i0 q0|c0 m0], v1 as [c1 i1 q1|c1 m1].
    - destruct (coords_lt c0 c1).
      + destruct (add_vertex_at _ _ _ _ _ si _ _) as [[[x y] z]|e|c] eqn:EA; cbn [bind] in HG; try discriminate.
        destruct (add_vertex_at _ _ _ x y _ _ _) as [[[x' y'] z']|e|c] eqn:EB; cbn [bind] in HG; try discriminate.
        injection HG as <- <- <- <- <-. apply at_inserted in EA, EB. destruct EA as (A1 & A2 & A3), EB as (B1 & B2 & B3).
        split; [congruence|auto].
      + destruct (add_vertex_at _ _ _ _ _ ((si+1) mod _) _ _) as [[[x y] z]|e|c] eqn:EA; cbn [bind] in HG; try discriminate.
        destruct (add_vertex_at _ _ _ x _ _ _ _) as [[[x' y'] z']|e|c] eqn:EB; cbn [bind] in HG; try discriminate.
        injection HG as <- <- <- <- <-. apply at_inserted in EA, EB. destruct EA as (A1 & A2 & A3), EB as (B1 & B2 & B3).
        split; [congruence|]. destruct A1 as (p & A1 & A1'). eauto.
    - destruct (add_vertex_at _ _ _ _ _ _ _ _) as [[[x y] z]|e|c] eqn:EA; cbn [bind] in HG; try discriminate.
      injection HG as <- <- <- <- <-. apply at_inserted in EA. destruct EA as (A1 & A2 & A3). split; auto.
      eapply A2; eauto. exact Logic.I.
    - destruct (add_vertex_at _ _ _ _ _ _ _ _) as [[[x y] z]|e|c] eqn:EA; cbn [bind] in HG; try discriminate.
      injection HG as <- <- <- <- <-. apply at_inserted in EA. destruct EA as (A1 & A2 & A3). split; auto.
    - injection HG as <- <- <- <- <-. split; auto. exists (Inserted c1 m1). split; auto. exact Logic.I. }
  match type of H with bind ?m _ = _ => destruct m as [[[[[s1 w] n0] n1] a1]|e|c] eqn:EM end; cbn [bind] in H; try discriminate.
  specialize (G s1 w n0 n1 a1 eq_refl). destruct G as (G1 & G2).
  destruct (rdu _ n0) as [p0|e|c]; cbn [bind] in H; try discriminate.
  destruct (rdu _ n1) as [p1|e|c]; cbn [bind] in H; try discriminate.
  match type of H with bind ?m _ = _ => destruct m as [s2|e|c] end; cbn [bind] in H; try discriminate.
  injection H as <- <- <-. now rewrite G1.
Qed.

Lemma relocate_start fuel k s1 s2 v1 v2 u j loc o1 o2 : rst s1 s2 -> Forall2 rv v1 v2 ->
  (exists x, nth_error v1 ((j + 1) mod length v1) = Some x /\ inserted x) ->
  rr (Forall2 rv) (relocate fuel k s1 v1 u j loc o1) (relocate fuel k s2 v2 u j loc o2).
Proof.
  intros Hst Hv (x & Hx & Hi). destruct k as [|k]; cbn [relocate].
  { destruct u; [exact Hv|reflexivity]. }
  destruct u as [|u]; [exact Hv|]. rewrite <- (f2_len _ _ _ Hv).
  pose proof (rr_rd (@eq ierr) rv v1 v2 ((j + 1) mod length v1) Hv) as Hr. unfold rd in *. rewrite Hx in *.
  destruct (nth_error v2 _) as [x2|]; simpl in Hr; [|contradiction]. cbn [bind].
  destruct x as [c i q|c n]; [contradiction|]. destruct x2 as [c' i' q'|c' n']; simpl in Hr; [contradiction|].
  destruct Hr as (Hc & <-). rb rn. { apply rr_rdu. apply Hst. } intros n1 n2 Hnn. apply relocate_sim; auto. apply Hnn.
Qed.

Lemma polygon_sim dbg fuel mn len order : forall i s1 s2 v1 v2 p uc nu, rst s1 s2 -> Forall2 rv v1 v2 ->
  rr (fun a b => rst (fst a) (fst b) /\ Forall2 rv (snd a) (snd b))
    (polygon_loop ieqb1 gv1 dbg fuel mn len order i s1 v1 p uc nu) (polygon_loop ieqb2 gv2 dbg fuel mn len order i s2 v2 p uc nu).
Proof.
  induction order as [|vi order IH]; intros i s1 s2 v1 v2 p uc nu Hst Hv; cbn [polygon_loop]; [now split|].
  pose proof (nth_seg_sim dbg fuel s1 s2 v1 v2 vi Hst Hv) as Hseg.
  destruct (add_nth_segment ieqb1 gv1 dbg fuel s1 v1 vi) as [[[s1' v1'] a1]|e|c] eqn:E1;
    destruct (add_nth_segment ieqb2 gv2 dbg fuel s2 v2 vi) as [[[s2' v2'] a2]|e'|c']; simpl in Hseg; try contradiction;
    cbn [bind]; auto.
  destruct Hseg as (Hst' & Hv' & <-).
  destruct (_ =? _); [|now apply IH].
  apply nth_seg_inserted in E1. destruct E1 as (_ & E1).
  rb (Forall2 rv). { now apply relocate_start. } intros w1 w2 Hw. now apply IH.
Qed.

Definition re (e1 : element I1) (e2 : element I2) : Prop :=
  match e1, e2 with Continue i, Continue i' => RI i i' | NewPolygon, NewPolygon => True | _, _ => False end.

Lemma build_sim dbg fuel mn shuf l1 : forall l2 k s1 s2 v1 v2, Forall2 re l1 l2 -> rst s1 s2 -> Forall2 rv v1 v2 ->
  rres (@eq trap_error) rst (build_loop ieqb1 gv1 dbg fuel mn shuf l1 k s1 v1) (build_loop ieqb2 gv2 dbg fuel mn shuf l2 k s2 v2).
Proof.
  induction l1 as [|e1 l1 IH]; intros l2 k s1 s2 v1 v2 Hl Hst Hv.
  - inversion Hl; subst. exact Hst.
  - inversion Hl as [|? e2 ? l2' He Hl']; subst. destruct e1 as [i1|], e2 as [i2|]; simpl in He; try contradiction; cbn [build_loop].
    + apply IH; auto. apply f2_snoc; auto. simpl. auto.
    + rewrite <- (f2_len _ _ _ Hv). destruct (_ <? _).
      * destruct (_ <? _); [reflexivity|]. unfold add_polygon. rewrite <- (f2_len _ _ _ Hv).
        pose proof (polygon_sim dbg fuel mn (length v1) (shuf k (length v1)) 0 s1 s2 v1 v2 (length v1) 1 (mn (length v1) 1) Hst Hv) as Hp.
        destruct (polygon_loop ieqb1 _ _ _ _ _ _ _ _ _ _ _ _) as [[x1 y1]|e|c],
          (polygon_loop ieqb2 _ _ _ _ _ _ _ _ _ _ _ _) as [[x2 y2]|e'|c']; simpl in Hp; try contradiction; cbn [map_err bind].
        -- destruct Hp. apply IH; auto.
        -- simpl. now subst.
        -- exact Hp.
      * now apply IH.
Qed.

Lemma trapezoidize_sim dbg fuel mn shuf l1 l2 : Forall2 re l1 l2 ->
  rres (@eq trap_error) rst (trapezoidize ieqb1 gv1 dbg fuel mn shuf l1) (trapezoidize ieqb2 gv2 dbg fuel mn shuf l2).
Proof.
  intros H. apply build_sim; auto.
  - apply f2_snoc; auto. exact Logic.I.
  - split; [constructor|]. split; [constructor|]. split; [reflexivity|]. repeat constructor.
Qed.

(** ** Monotone pieces *)

Section Out.
Context {E1 E2 : Type}.

(** Errors of the driver itself. *)
Definition rte (e1 : tri_error E1) (e2 : tri_error E2) : Prop :=
  match e1, e2 with
  | TETrapezoidation a, TETrapezoidation b => a = b
  | TENoVertices, TENoVertices => True
  | TEInternal a, TEInternal b => a = b
  | _, _ => False
  end.

Definition rcall (c1 : call I1) (c2 : call I2) : Prop :=
  match c1, c2 with
  | CNew a b c, CNew a' b' c' => RI a a' /\ RI b b' /\ RI c c'
  | CExt v, CExt v' => RI v v'
  | _, _ => False
  end.
Notation log1 := (list (call I1)).
Notation log2 := (list (call I2)).

(** Related computations with logs. *)
Definition rp {A1 A2} (R : A1 -> A2 -> Prop) (p1 : log1 -> sres log1 (tri_error E1) A1)
  (p2 : log2 -> sres log2 (tri_error E2) A2) : Prop :=
  forall t1 t2, Forall2 rcall t1 t2 -> Forall2 rcall (fst (p1 t1)) (fst (p2 t2)) /\ rres rte R (snd (p1 t1)) (snd (p2 t2)).

Lemma rp_ret {A1 A2} (R : A1 -> A2 -> Prop) r1 r2 : rres rte R r1 r2 -> rp R (fun s => (s, r1)) (fun s => (s, r2)).
Proof. intros H t1 t2 Ht. auto. Qed.

Lemma rp_bind {A1 A2 B1 B2} (RA : A1 -> A2 -> Prop) (RB : B1 -> B2 -> Prop) p1 p2 (f1 : A1 -> log1 -> sres log1 _ B1) (f2 : A2 -> log2 -> sres log2 _ B2) :
  rp RA p1 p2 -> (forall a1 a2, RA a1 a2 -> rp RB (f1 a1) (f2 a2)) ->
  rp RB (fun s => sbind (p1 s) (fun s a => f1 a s)) (fun s => sbind (p2 s) (fun s a => f2 a s)).
Proof.
  intros Hp Hf t1 t2 Ht. destruct (Hp t1 t2 Ht) as (H1 & H2). unfold sbind.
  destruct (p1 t1) as [s1 [a1|e1|c1]], (p2 t2) as [s2 [a2|e2|c2]]; cbn [fst snd] in *; simpl in H2; try contradiction.
  - now apply Hf.
  - auto.
  - auto.
Qed.

Lemma rp_new a1 b1 c1 a2 b2 c2 : RI a1 a2 -> RI b1 b2 -> RI c1 c2 ->
  rp eq (fun s => rec_new s a1 b1 c1) (fun s => rec_new s a2 b2 c2).
Proof. intros Ha Hb Hc t1 t2 Ht. split; [|reflexivity]. cbn. apply f2_snoc; auto. simpl. auto. Qed.
Lemma rp_ext v1 v2 : RI v1 v2 -> rp eq (fun s => rec_ext s v1) (fun s => rec_ext s v2).
Proof. intros Hv t1 t2 Ht. split; [|reflexivity]. cbn. apply f2_snoc; auto. Qed.

Definition rvc (a : I1 * coords C1) (b : I2 * coords C2) : Prop := RI (fst a) (fst b) /\ RC (snd a) (snd b).
Definition rm (m1 : mono C1 I1) (m2 : mono C2 I2) : Prop :=
  Forall2 rvc (m_a m1) (m_a m2) /\ m_st m1 = m_st m2 /\ m_pt m1 = m_pt m2 /\ m_left m1 = m_left m2.
Definition rmb (b1 : mbuilder C1 I1) (b2 : mbuilder C2 I2) : Prop :=
  Forall2 rvc (mb_vec b1) (mb_vec b2) /\ mb_dx b1 = mb_dx b2 /\ mb_dy b1 = mb_dy b2.

Lemma mb_new_sim i1 i2 c1 c2 : RI i1 i2 -> RC c1 c2 -> rmb (mb_new i1 c1) (mb_new i2 c2).
Proof. intros Hi Hc. split; [|split; reflexivity]. repeat constructor; auto. Qed.

Lemma mb_add_sim b1 b2 i1 i2 c1 c2 : rmb b1 b2 -> RI i1 i2 -> RC c1 c2 ->
  rres rte rmb (mb_add (E := tri_error E1) b1 i1 c1) (mb_add (E := tri_error E2) b2 i2 c2).
Proof.
  intros (Hb & Hx & Hy) Hi Hc. unfold mb_add. eapply (rr_bind rte rvc). { now apply rr_rd. } intros v1 v2 Hv.
  simpl. rewrite Hx, Hy, (Heqx _ _ _ _ Hc (proj2 Hv)), (Heqy _ _ _ _ Hc (proj2 Hv)).
  split; [|split; reflexivity]. cbn. apply f2_snoc; auto. now split.
Qed.

Lemma mb_build_sim b1 b2 : rmb b1 b2 ->
  rr (fun o1 o2 => match o1, o2 with Some m1, Some m2 => rm m1 m2 | None, None => True | _, _ => False end) (mb_build b1) (mb_build b2).
Proof.
  intros (Hb & Hx & Hy). unfold mb_build. rewrite <- (f2_len _ _ _ Hb), <- Hx, <- Hy.
  destruct (_ <? _); [reflexivity|]. destruct (_ && _); [|exact Logic.I].
  rb rvc. { now apply rr_rd. } intros a1 a2 Ha.
  rb rvc. { now apply rr_rd. } intros c1 c2 Hc.
  rb rvc. { now apply rr_rd. } intros d1 d2 Hd.
  simpl. split; [auto|]. split; [auto|]. split; [auto|]. cbn. apply Hleft; [apply Ha|apply Hc|apply Hd].
Qed.

Ltac rb' R := eapply (rr_bind rte R).

Lemma peek_sim m1 m2 : rm m1 m2 -> rres rte rvc (skipped_peek (E := E1) m1) (skipped_peek (E := E2) m2).
Proof. intros (Ha & X1 & X2 & X3). unfold skipped_peek. rewrite <- ?X1, <- ?X2, <- ?X3. destruct (_ <? _); [reflexivity|]. now apply rr_rd. Qed.
Lemma peek2_sim m1 m2 : rm m1 m2 ->
  rres rte (fun p q => rvc (fst p) (fst q) /\ rvc (snd p) (snd q)) (skipped_peek2 (E := E1) m1) (skipped_peek2 (E := E2) m2).
Proof.
  intros (Ha & X1 & X2 & X3). unfold skipped_peek2. rewrite <- ?X1, <- ?X2, <- ?X3. destruct (_ <? _); [reflexivity|].
  rb' rvc. { now apply rr_rd. } intros a1 a2 H. rb' rvc. { now apply rr_rd. } intros b1 b2 H'. now split.
Qed.
Lemma pop_sim m1 m2 : rm m1 m2 ->
  rres rte (fun p q => rm (fst p) (fst q) /\ rvc (snd p) (snd q)) (skipped_pop (E := E1) m1) (skipped_pop (E := E2) m2).
Proof.
  intros (Ha & X1 & X2 & X3). unfold skipped_pop. rewrite <- ?X1, <- ?X2, <- ?X3. destruct (_ <? _); [reflexivity|].
  rb' rvc. { now apply rr_rd. } intros a1 a2 H. split; auto. repeat split; auto.
Qed.
Lemma ppeek_sim m1 m2 : rm m1 m2 -> rres rte rvc (pending_peek (E := E1) m1) (pending_peek (E := E2) m2).
Proof. intros (Ha & X1 & X2 & X3). unfold pending_peek. rewrite <- ?X1, <- ?X2, <- ?X3. now apply rr_rd. Qed.
Lemma remaining_sim m1 m2 : rm m1 m2 -> rres rte eq (remaining (E := E1) m1) (remaining (E := E2) m2).
Proof. intros (Ha & X1 & X2 & X3). unfold remaining. rewrite <- ?X1, <- ?X2, <- ?X3. rewrite <- (f2_len _ _ _ Ha). now destruct (_ <? _). Qed.
Lemma transfer_sim m1 m2 : rm m1 m2 -> rres rte rm (transfer_pending (E := E1) m1) (transfer_pending (E := E2) m2).
Proof.
  intros (Ha & X1 & X2 & X3). unfold transfer_pending. rewrite <- ?X1, <- ?X2, <- ?X3. rb' (Forall2 rvc).
  - destruct (negb _); [|exact Ha]. unfold swap. rb' rvc. { now apply rr_rd. } intros a1 a2 H.
    rb' rvc. { now apply rr_rd. } intros b1 b2 H'. simpl. apply f2_upd; auto. now apply f2_upd.
  - intros l1 l2 Hl. repeat split; auto.
Qed.
Lemma has_sim m1 m2 : rm m1 m2 -> has_pending m1 = has_pending m2.
Proof. intros (Ha & X1 & X2 & X3). unfold has_pending. rewrite <- ?X1, <- ?X2, <- ?X3. now rewrite (f2_len _ _ _ Ha). Qed.
Lemma f2_firstn {A1 A2} (R : A1 -> A2 -> Prop) n : forall l1 l2, Forall2 R l1 l2 -> Forall2 R (firstn n l1) (firstn n l2).
Proof. induction n; intros l1 l2 H; [constructor|]. destruct H; simpl; auto. Qed.
Lemma reset_sim m1 m2 : rm m1 m2 -> rm (reset_position m1) (reset_position m2).
Proof. intros (Ha & X1 & X2 & X3). unfold reset_position. rewrite <- X1, <- X3. split; [|repeat split]. cbn. now apply f2_firstn. Qed.
Lemma deferred_sim m1 m2 back i : rm m1 m2 -> rres rte RI (deferred_index (E := E1) m1 back i) (deferred_index (E := E2) m2 back i).
Proof.
  intros (Ha & X1 & X2 & X3). unfold deferred_index. rewrite <- ?X1, <- ?X2, <- ?X3. destruct back; [|destruct (_ <? _); [reflexivity|]];
  (rb' rvc; [now apply rr_rd|]; intros a1 a2 H; apply H).
Qed.
Lemma can_sim m1 m2 : rm m1 m2 -> rres rte eq (can_triangulate (E := E1) m1) (can_triangulate (E := E2) m2).
Proof.
  intros Hm. unfold can_triangulate. rewrite (has_sim m1 m2 Hm). pose proof Hm as (Ha & <- & _ & <-).
  destruct (_ && _); [|reflexivity].
  rb' rvc. { now apply ppeek_sim. } intros p1 p2 Hp.
  eapply rr_bind. { now apply peek2_sim. } intros [a1 b1] [a2 b2] [Hx Hy]. cbn [fst snd] in *.
  simpl. now rewrite (Hleft _ _ _ _ _ _ (proj2 Hp) (proj2 Hx) (proj2 Hy)).
Qed.

Ltac pb := eapply rp_bind; [|].

Lemma add_tri_sim direct dt v1 v2 : RI v1 v2 ->
  rp eq (fun s => add_triangle (E := E1) rec_ext direct dt s v1) (fun s => add_triangle (E := E2) rec_ext direct dt s v2).
Proof.
  intros Hv t1 t2 Ht. unfold add_triangle. destruct direct; [|split; [exact Ht|reflexivity]].
  cbn. split; [|reflexivity]. apply f2_snoc; auto.
Qed.

Definition rmn (a : mono C1 I1 * nat) (b : mono C2 I2 * nat) : Prop := rm (fst a) (fst b) /\ snd a = snd b.

Lemma back_sim k : forall m1 m2 direct dt, rm m1 m2 ->
  rp rmn (fun s => back_loop (E := E1) rec_ext k m1 direct dt s) (fun s => back_loop (E := E2) rec_ext k m2 direct dt s).
Proof.
  induction k as [|k IH]; intros m1 m2 direct dt Hm; cbn [back_loop]; [now apply rp_ret|].
  eapply rp_bind. { apply rp_ret, can_sim, Hm. } intros b ? <-. destruct b; [|apply rp_ret; now split].
  eapply rp_bind. { apply rp_ret, pop_sim, Hm. } intros [x1 y1] [x2 y2] [Hx Hy]. cbn [fst snd] in *.
  eapply rp_bind. { apply rp_ret, peek_sim, Hx. } intros v1 v2 Hv.
  eapply rp_bind. { apply add_tri_sim, Hv. } intros d ? <-. now apply IH.
Qed.

Lemma advance_sim k : forall m1 m2 direct dt, rm m1 m2 ->
  rp rmn (fun s => advance_loop (E := E1) rec_ext k m1 direct dt s) (fun s => advance_loop (E := E2) rec_ext k m2 direct dt s).
Proof.
  induction k as [|k IH]; intros m1 m2 direct dt Hm; cbn [advance_loop]; [now apply rp_ret|].
  eapply rp_bind. { apply rp_ret, can_sim, Hm. } intros b ? <-. destruct b; [|apply rp_ret; now split].
  eapply rp_bind. { apply rp_ret, pop_sim, Hm. } intros [x1 y1] [x2 y2] [Hx Hy]. cbn [fst snd] in *.
  eapply rp_bind. { apply rp_ret, ppeek_sim, Hx. } intros v1 v2 Hv.
  eapply rp_bind. { apply add_tri_sim, Hv. } intros d ? <-.
  eapply rp_bind. { apply rp_ret, transfer_sim, Hx. } intros z1 z2 Hz. now apply IH.
Qed.

Lemma deferred_loop_sim n : forall m1 m2 back i, rm m1 m2 ->
  rp eq (fun s => deferred_loop (E := E1) rec_ext m1 back i n s) (fun s => deferred_loop (E := E2) rec_ext m2 back i n s).
Proof.
  induction n as [|n IH]; intros m1 m2 back i Hm; cbn [deferred_loop]; [now apply rp_ret|].
  eapply rp_bind. { apply rp_ret, deferred_sim, Hm. } intros v1 v2 Hv.
  eapply rp_bind. { apply rp_ext, Hv. } intros _ _ _. now apply IH.
Qed.

Lemma one_fan_sim cw fuel m1 m2 : rm m1 m2 ->
  rp rm (fun s => one_fan (E := E1) rec_new rec_ext cw fuel m1 s) (fun s => one_fan (E := E2) rec_new rec_ext cw fuel m2 s).
Proof.
  intros Hm. unfold one_fan.
  eapply rp_bind. { apply rp_ret, pop_sim, Hm. } clear m1 m2 Hm. intros [m1 v11] [m2 v12] [Hm Hv1]. cbn [fst snd] in *.
  eapply rp_bind. { apply rp_ret, peek_sim, Hm. } intros v01 v02 Hv0.
  eapply rp_bind. { apply rp_ret, ppeek_sim, Hm. } intros v21 v22 Hv2.
  eapply rp_bind. { apply rp_ret, can_sim, Hm. } intros back ? <-. cbv zeta.
  replace (m_left m2) with (m_left m1) by apply Hm.
  eapply (rp_bind eq).
  { destruct (xorb _ cw).
    - destruct (negb (m_left m1)); intros t1 t2 Ht; cbn; (split; [|reflexivity]); apply f2_snoc; auto; simpl; repeat split; (apply Hv0 || apply Hv1 || apply Hv2).
    - now apply rp_ret. }
  intros dt ? <-. eapply (rp_bind rmn).
  { destruct back.
    - eapply rp_bind. { apply rp_ret, pop_sim, Hm. } intros [x1 y1] [x2 y2] [Hx Hy]. cbn [fst snd] in *.
      eapply rp_bind. { apply rp_ret, peek_sim, Hx. } intros v1 v2 Hv.
      eapply rp_bind. { apply add_tri_sim, Hv. } intros d ? <-. now apply back_sim.
    - eapply rp_bind. { apply rp_ret, transfer_sim, Hm. } intros z1 z2 Hz. now apply advance_sim. }
  clear m1 m2 Hm v11 v12 Hv1 v01 v02 Hv0 v21 v22 Hv2 || idtac.
  intros [n1 d1] [n2 d2] [Hn Hd]. cbn [fst snd] in *. subst d2.
  destruct (xorb _ cw); [now apply rp_ret|].
  eapply (rp_bind (fun p q : _ * _ * _ => RI (fst (fst p)) (fst (fst q)) /\ RI (snd (fst p)) (snd (fst q)) /\ RI (snd p) (snd q))).
  { destruct back.
    - eapply rp_bind. { apply rp_ret, ppeek_sim, Hn. } intros a1 a2 Ha.
      eapply rp_bind. { apply rp_ret, peek_sim, Hn. } intros b1 b2 Hb.
      eapply rp_bind. { apply rp_ret, deferred_sim, Hn. } intros c1 c2 Hc. apply rp_ret. simpl. repeat split; auto; (apply Ha || apply Hb).
    - eapply rp_bind. { apply rp_ret, peek2_sim, Hn. } intros [a1 b1] [a2 b2] [Ha Hb]. cbn [fst snd] in *.
      eapply rp_bind. { apply rp_ret, deferred_sim, Hn. } intros c1 c2 Hc. apply rp_ret. simpl. repeat split; auto; (apply Ha || apply Hb). }
  intros [[a1 b1] c1] [[a2 b2] c2] (Ha & Hb & Hc). cbn [fst snd] in *.
  eapply rp_bind. { now apply rp_new. } intros _ _ _.
  eapply rp_bind. { now apply deferred_loop_sim. } intros _ _ _. now apply rp_ret.
Qed.

Lemma build_fans_sim cw fuel k : forall m1 m2, rm m1 m2 ->
  rp eq (fun s => build_fans (E := E1) rec_new rec_ext cw fuel k m1 s) (fun s => build_fans (E := E2) rec_new rec_ext cw fuel k m2 s).
Proof.
  induction k as [|k IH]; intros m1 m2 Hm; cbn [build_fans]; [now apply rp_ret|].
  eapply rp_bind. { apply rp_ret, remaining_sim, Hm. } intros r ? <-.
  destruct (_ <=? _).
  - eapply rp_bind. { apply rp_ret, can_sim, Hm. } intros b ? <-.
    eapply (rp_bind rm). { destruct b; [now apply one_fan_sim|now apply rp_ret]. } intros x1 x2 Hx.
    rewrite (has_sim x1 x2 Hx). destruct (has_pending x2).
    + eapply rp_bind. { apply rp_ret, transfer_sim, Hx. } intros z1 z2 Hz. now apply IH.
    + apply IH. now apply reset_sim.
  - destruct (_ =? _); apply rp_ret; reflexivity.
Qed.

(** ** Traversal *)

Definition rot (a : ot (mbuilder C1 I1)) (b : ot (mbuilder C2 I2)) : Prop :=
  match a, b with
  | OOne x, OOne y => rmb x y
  | OTwo x x', OTwo y y' => rmb x y /\ rmb x' y'
  | _, _ => False
  end.
Definition ropt (a : option (ot (mbuilder C1 I1))) (b : option (ot (mbuilder C2 I2))) : Prop :=
  match a, b with Some x, Some y => rot x y | None, None => True | _, _ => False end.
Definition rbs (a : nat * option (ot (mbuilder C1 I1))) (b : nat * option (ot (mbuilder C2 I2))) : Prop :=
  fst a = fst b /\ ropt (snd a) (snd b).
Definition rx (x1 : tstate (C := C1) (I := I1)) (x2 : tstate (C := C2) (I := I2)) : Prop :=
  x_ti x1 = x_ti x2 /\ ropt (x_ms x1) (x_ms x2) /\ Forall2 rbs (x_bs x1) (x_bs x2) /\ Forall2 rmb (x_mst x1) (x_mst x2).

Lemma finish_sim cw fuel b1 b2 : rmb b1 b2 ->
  rp eq (fun s => finish (E := E1) rec_new rec_ext cw fuel b1 s) (fun s => finish (E := E2) rec_new rec_ext cw fuel b2 s).
Proof.
  intros Hb. unfold finish. pose proof (mb_build_sim b1 b2 Hb) as H.
  destruct (mb_build b1) as [[m1|]|e1|c1], (mb_build b2) as [[m2|]|e2|c2]; simpl in H; try contradiction.
  - now apply build_fans_sim.
  - now apply rp_ret.
  - now apply rp_ret.
  - now apply rp_ret.
Qed.

Lemma add_all_sim ms1 ms2 n1 n2 : rot ms1 ms2 -> rn n1 n2 ->
  rres rte rot (add_to_all (E := E1) ms1 n1) (add_to_all (E := E2) ms2 n2).
Proof.
  intros Hm (Hv & Hc & _). destruct ms1 as [a|a b], ms2 as [a'|a' b']; simpl in Hm; try contradiction; cbn [add_to_all].
  - rb' rmb. { now apply mb_add_sim. } intros x y H. exact H.
  - destruct Hm. rb' rmb. { now apply mb_add_sim. } intros x y H'. rb' rmb. { now apply mb_add_sim. } intros x' y' H''. now split.
Qed.

Section T.
Variables (cw : bool) (fuel : nat) (s1 : state C1 I1) (s2 : state C2 I2).
Hypothesis Hst : rst s1 s2.

Lemma rte_int e : rte (TEInternal e) (TEInternal e).
Proof. reflexivity. Qed.
Hint Resolve rte_int : core.

Ltac ns := apply rp_ret; apply rr_rd; apply Hst.

Lemma extend_sim t nd n1 n2 ms1 ms2 : rn n1 n2 -> rot ms1 ms2 ->
  rp rot (fun s => extend_monotones (E := E1) gv1 rec_new rec_ext cw fuel s1 t nd n1 ms1 s)
    (fun s => extend_monotones (E := E2) gv2 rec_new rec_ext cw fuel s2 t nd n2 ms2 s).
Proof.
  intros Hn Hm. unfold extend_monotones.
  eapply rp_bind. { apply rp_ret, add_all_sim; eauto. } clear ms1 ms2 Hm. intros ms1 ms2 Hm.
  eapply (rp_bind eq). { apply rp_ret, rr_ok_or. reflexivity. } intros sl ? <-.
  eapply (rp_bind rs). { ns. } intros sl1 sl2 Hsl.
  eapply (rp_bind eq). { apply rp_ret, rr_ok_or. reflexivity. } intros sr ? <-.
  eapply (rp_bind rs). { ns. } intros sr1 sr2 Hsr.
  eapply (rp_bind eq). { apply rp_ret, rr_ok_or. reflexivity. } intros nu ? <-.
  pose proof Hsl as (<- & <- & _). pose proof Hsr as (<- & <- & _).
  assert (HN : rp rot (fun s => sbind (lift s (rd (st_ns s1) nu)) (fun s n_up =>
      sbind (lift s (mb_add (mb_new (n_v n_up) (gv1 (n_v n_up))) (n_v n1) (n_c n1))) (fun s b' => (s, Ok (OOne b')))))
    (fun s => sbind (lift s (rd (st_ns s2) nu)) (fun s n_up =>
      sbind (lift s (mb_add (mb_new (n_v n_up) (gv2 (n_v n_up))) (n_v n2) (n_c n2))) (fun s b' => (s, Ok (OOne b')))))).
  { eapply (rp_bind rn). { ns. } intros u1 u2 Hu.
    eapply (rp_bind rmb). { apply rp_ret, mb_add_sim; [|apply Hn|apply Hn]. apply mb_new_sim; [apply Hu|]. apply Hgv. apply Hu. }
    intros b1 b2 Hb. now apply rp_ret. }
  destruct (_ && _ && _).
  - destruct ms1 as [a|a b], ms2 as [a'|a' b']; simpl in Hm; try contradiction.
    + eapply (rp_bind eq). { now apply finish_sim. } intros _ _ _. exact HN.
    + destruct Hm. eapply (rp_bind eq). { now apply finish_sim. } intros _ _ _. now apply rp_ret.
  - destruct (_ && _ && _).
    + destruct ms1 as [a|a b], ms2 as [a'|a' b']; simpl in Hm; try contradiction.
      * eapply (rp_bind eq). { now apply finish_sim. } intros _ _ _. exact HN.
      * destruct Hm. eapply (rp_bind eq). { now apply finish_sim. } intros _ _ _. now apply rp_ret.
    + now apply rp_ret.
Qed.

Lemma single_sim m1 m2 : rot m1 m2 -> rres rte rmb (single (E := E1) m1) (single (E := E2) m2).
Proof. destruct m1, m2; simpl; auto; try contradiction. Qed.

Lemma step_v_sim x1 x2 ms1 ms2 ul uc ur down : rx x1 x2 -> ropt ms1 ms2 ->
  rp rx (fun s => step_v (E := E1) rec_new rec_ext cw fuel x1 ms1 ul uc ur down s)
    (fun s => step_v (E := E2) rec_new rec_ext cw fuel x2 ms2 ul uc ur down s).
Proof.
  intros (Hti & Hms & Hbs & Hmst) Hm. unfold step_v. cbv zeta. rewrite <- Hti.
  eapply (rp_bind (fun p q => ropt (fst p) (fst q) /\ Forall2 rmb (snd p) (snd q))).
  - destruct ms1 as [m1|], ms2 as [m2|]; simpl in Hm; try contradiction; [|apply rp_ret; now split].
    destruct (_ =? _).
    { eapply (rp_bind rmb). { now apply rp_ret, single_sim. } intros a b H. apply rp_ret. split; simpl; auto. }
    destruct (_ =? _).
    { eapply (rp_bind eq).
      - unfold finish_all. destruct m1 as [a|a b], m2 as [a'|a' b']; simpl in Hm; try contradiction; [now apply finish_sim|].
        destruct Hm. eapply (rp_bind eq). { now apply finish_sim. } intros _ _ _. now apply finish_sim.
      - intros _ _ _. apply rp_ret. now split. }
    destruct (_ =? _); [|now apply rp_ret].
    destruct Hmst as [|l1 l2 r1 r2 Hl Hr]; [now apply rp_ret|].
    eapply (rp_bind rmb). { now apply rp_ret, single_sim. } intros a b H. apply rp_ret. split; simpl; auto.
  - intros [p1 q1] [p2 q2] [Hp Hq]. cbn [fst snd] in *. destruct (_ =? _).
    + apply rp_ret. repeat split; auto.
    + apply rp_ret. unfold resume. destruct Hbs as [|[t1 o1] [t2 o2] r1 r2 Hl Hr]; [reflexivity|].
      destruct Hl as [Hl1 Hl2]. cbn [fst snd] in *. subst. repeat split; auto.
Qed.

Lemma step_a_sim x1 x2 t n1 n2 ms1 ms2 dl dc dr : rx x1 x2 -> rn n1 n2 -> ropt ms1 ms2 ->
  rp rx (fun s => step_a (E := E1) s1 x1 t n1 ms1 dl dc dr s) (fun s => step_a (E := E2) s2 x2 t n2 ms2 dl dc dr s).
Proof.
  intros (Hti & Hms & Hbs & Hmst) Hn Hm. unfold step_a.
  destruct ms1 as [m1|], ms2 as [m2|]; simpl in Hm; try contradiction.
  - eapply (rp_bind (fun p q => rmb (fst p) (fst q) /\ rmb (snd p) (snd q))).
    + destruct m1 as [a|a b], m2 as [a'|a' b']; simpl in Hm; try contradiction; [|now apply rp_ret].
      eapply (rp_bind eq). { apply rp_ret, rr_ok_or. reflexivity. } intros nu ? <-.
      eapply (rp_bind rn). { ns. } intros u1 u2 Hu.
      eapply (rp_bind rmb). { apply rp_ret, mb_add_sim; [|apply Hn|apply Hn]. apply mb_new_sim; apply Hu. } intros b1 b2 Hb.
      eapply (rp_bind eq). { apply rp_ret, rr_ok_or. reflexivity. } intros sl ? <-.
      eapply (rp_bind rs). { ns. } intros sl1 sl2 (_ & <- & _).
      destruct (_ =? _). { apply rp_ret. now split. }
      eapply (rp_bind eq). { apply rp_ret, rr_ok_or. reflexivity. } intros sr ? <-.
      eapply (rp_bind rs). { ns. } intros sr1 sr2 (_ & <- & _).
      destruct (_ =? _); apply rp_ret; [now split|reflexivity].
    + intros [p1 q1] [p2 q2] [Hp Hq]. cbn [fst snd] in *. apply rp_ret. split; [reflexivity|]. split; [exact Hp|]. split; auto. cbn.
      constructor; [split; [reflexivity|exact Logic.I]|]. constructor; [|exact Hbs]. now split.
  - apply rp_ret. split; [reflexivity|]. split; [|split; auto].
    + exact Logic.I.
    + cbn. constructor; [split; [reflexivity|]|constructor; [split; [reflexivity|exact Logic.I]|exact Hbs]].
      apply mb_new_sim; apply Hn.
Qed.

Lemma final_sim n1 n2 : rn n1 n2 -> final_type n1 = final_type n2.
Proof. intros (_ & _ & H1 & H2 & H3). unfold final_type. now rewrite H1, H2, H3. Qed.

Lemma tri_step_sim x1 x2 t nd : rx x1 x2 ->
  rp rx (fun s => tri_step (E := E1) gv1 rec_new rec_ext cw fuel s1 x1 t nd s)
    (fun s => tri_step (E := E2) gv2 rec_new rec_ext cw fuel s2 x2 t nd s).
Proof.
  intros Hx. unfold tri_step. pose proof Hx as (Hti & Hms & Hbs & Hmst).
  eapply (rp_bind rn). { ns. } intros n1 n2 Hn.
  eapply (rp_bind ropt).
  { destruct (x_ms x1) as [m1|], (x_ms x2) as [m2|]; simpl in Hms; try contradiction; [|now apply rp_ret].
    eapply (rp_bind rot). { now apply extend_sim. } intros a b H. now apply rp_ret. }
  intros ms1 ms2 Hm. rewrite (final_sim n1 n2 Hn).
  eapply (rp_bind eq). { apply rp_ret. destruct (final_type n2); reflexivity. } intros ty ? <-.
  destruct ty.
  - now apply step_v_sim.
  - rewrite <- Hti. destruct (_ =? _). { apply rp_ret. repeat split; auto. }
    destruct (_ =? _); apply rp_ret; [repeat split; auto|reflexivity].
  - now apply step_a_sim.
Qed.

Lemma tri_loop_sim k : forall x1 x2, rx x1 x2 ->
  rp eq (fun s => tri_loop (E := E1) gv1 rec_new rec_ext cw fuel s1 k x1 s)
    (fun s => tri_loop (E := E2) gv2 rec_new rec_ext cw fuel s2 k x2 s).
Proof.
  induction k as [|k IH]; intros x1 x2 Hx; cbn [tri_loop]; [now apply rp_ret|].
  pose proof Hst as (_ & _ & <- & _). pose proof Hx as (<- & Hms & Hbs & Hmst).
  eapply (rp_bind eq). { apply rp_ret, rr_rd, f2_eq. } intros t ? <-.
  destruct (t_d t) as [nd|].
  - eapply (rp_bind rx). { now apply tri_step_sim. } intros y1 y2 Hy. now apply IH.
  - apply rp_ret. unfold tri_end. destruct Hmst; [|reflexivity]. destruct Hbs; [|reflexivity].
    destruct (x_ms x1), (x_ms x2); simpl in Hms; try contradiction; reflexivity.
Qed.

Lemma top_sim k : forall q, rr eq (top_trapezoid k (st_qs s1) q) (top_trapezoid k (st_qs s2) q).
Proof.
  induction k as [|k IH]; intros q; cbn [top_trapezoid]; [reflexivity|].
  rb rq. { apply rr_rd, Hst. } intros [l r b|x] [l' r' b'|x'] H; simpl in H; try contradiction; [|now subst].
  destruct H as (-> & -> & Hb). destruct b, b'; simpl in Hb; try contradiction; [reflexivity|apply IH].
Qed.

Lemma run_calls_sim :
  Forall2 rcall (fst (run_calls E1 gv1 cw fuel s1)) (fst (run_calls E2 gv2 cw fuel s2)) /\
  rres rte eq (snd (run_calls E1 gv1 cw fuel s1)) (snd (run_calls E2 gv2 cw fuel s2)).
Proof.
  unfold run_calls.
  assert (H : rp eq (fun s => triangulate_inner (E := E1) gv1 rec_new rec_ext cw fuel s1 s)
    (fun s => triangulate_inner (E := E2) gv2 rec_new rec_ext cw fuel s2 s)); [|apply H; constructor].
  unfold triangulate_inner. eapply (rp_bind eq).
  { apply rp_ret. pose proof (top_sim fuel 0) as H. destruct (top_trapezoid fuel (st_qs s1) 0), (top_trapezoid fuel (st_qs s2) 0); simpl in *; auto. }
  intros ti ? <-. apply tri_loop_sim. split; [reflexivity|]. split; [exact Logic.I|]. split; constructor.
Qed.
End T.

Lemma api_calls_sim cw dbg fuel mn shuf l1 l2 : Forall2 re l1 l2 ->
  Forall2 rcall (fst (api_calls E1 ieqb1 gv1 cw dbg fuel mn shuf l1)) (fst (api_calls E2 ieqb2 gv2 cw dbg fuel mn shuf l2)) /\
  rres rte eq (snd (api_calls E1 ieqb1 gv1 cw dbg fuel mn shuf l1)) (snd (api_calls E2 ieqb2 gv2 cw dbg fuel mn shuf l2)).
Proof.
  intros Hl. unfold api_calls. pose proof (trapezoidize_sim dbg fuel mn shuf l1 l2 Hl) as H.
  destruct (trapezoidize ieqb1 _ _ _ _ _ _) as [s1|e1|c1], (trapezoidize ieqb2 _ _ _ _ _ _) as [s2|e2|c2]; simpl in H; try contradiction.
  - now apply run_calls_sim.
  - simpl. auto.
  - simpl. auto.
Qed.
End Out.
End Sim.
