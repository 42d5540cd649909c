(** On valid polygons no piece is flat, so the two equality tests of [MonotoneBuilder::add_vertex] (src/monotone.rs 23-32)
    never matter: runs on two valid inputs with the same vertex order and the same side tests are the same. *)
From Coq Require Import QArith Lqa List Arith Lia Bool Sorted ZArith Permutation.
From Verif Require Import Base Coord Trap Mono Tri Trace Protocol MonoProof Lanes Plane MonoGeom Geo Region TrapInv Locate Faces Open Traverse Sim SimFacts.
Import ListNotations.
Local Open Scope nat_scope.

(** ** No finished piece is flat *)

Definition solid {I} (b : mbuilder Q I) : Prop := mb_dx b && mb_dy b = true.
Definition all_solid {I} (m : ot (mbuilder Q I)) : Prop := match m with OOne a => solid a | OTwo a b => solid a /\ solid b end.

Lemma build_solid {I} (b : mbuilder Q I) m : mb_build b = Ok (Some m) -> solid b.
Proof. unfold mb_build, solid. destruct (_ <? _); [discriminate|]. destruct (mb_dx b && mb_dy b); [reflexivity|discriminate]. Qed.

(** The pieces finished when the traversal leaves trapezoid [t], whose lower vertex is [d], have both extents. *)
Definition fine {I} (st : state Q I) (x : tstate (C := Q) (I := I)) (t : trap) (d : nat) (n : nexus Q I) : Prop :=
  forall ms ms1 E e f u sl sr, x_ms x = Some ms -> add_to_all (E := E) ms n = Ok ms1 ->
  t_l t = Some e -> t_r t = Some f -> t_u t = Some u -> nth_error (st_ss st) e = Some sl -> nth_error (st_ss st) f = Some sr ->
  match ms1 with
  | OOne m => (d = s_min sl /\ u <> s_max sl) \/ (d = s_min sr /\ u <> s_max sr) -> solid m
  | OTwo a b => (d = s_min sl -> solid a) /\ (d = s_min sr -> solid b)
  end /\
  forall ul uc ur dn, final_type n = Ok (TV ul uc ur dn) -> x_ti x = uc -> d = s_min sl /\ d = s_min sr /\ all_solid ms1.

Section Fine.
Context {I : Type}.
Variables (W : list point) (Es : list edge) (M : Q) (gv : I -> point) (st : state Q I).
Hypothesis HG : geo W Es.
Hypothesis HM : shear M W.
Hypothesis HF : full W Es M gv st.
Hypothesis HD : forall v n, nth_error (st_ns st) v = Some n -> deg n = 2.
Notation ts := (st_ts st).
Notation ss := (st_ss st).
Notation ns := (st_ns st).
Notation tl := (Faces.tl st).
Notation tr := (Faces.tr st).
Notation td := (Faces.td st).
Notation tu := (Faces.tu st).
Notation smin := (Faces.smin st).
Notation smax := (Faces.smax st).
Let HC : core W Es M gv st := f_core _ _ _ _ _ HF.

Lemma fine_ok t0 x ws P Ps t d n : inv W Es M gv st t0 x ws P Ps -> nth_error ts (x_ti x) = Some t -> t_d t = Some d -> nth_error ns d = Some n ->
  fine st x t d n.
Proof.
  intros Hinv Ht Hd Hn ms ms1 E e f u gl gr Hms Hadd Tl Tr Tu Hgl Hgr. set (i := x_ti x) in *.
  pose proof (i_cur _ _ _ _ _ _ _ _ _ _ Hinv) as Hcur. rewrite Hms in Hcur. destruct Hcur as (_ & Hm). cbn [fst snd] in Hm. fold i in Hm.
  assert (He : tl i = Some e) by (unfold Faces.tl; now rewrite Ht). assert (Hf : tr i = Some f) by (unfold Faces.tr; now rewrite Ht).
  assert (Hu : tu i = Some u) by (unfold Faces.tu; now rewrite Ht). assert (Hd' : td i = Some d) by (unfold Faces.td; now rewrite Ht).
  destruct (seg_at W Es M gv st HG HM HF e gl Hgl) as (E1 & E2 & _). destruct (seg_at W Es M gv st HG HM HF f gr Hgr) as (E3 & E4 & _).
  pose proof (du W Es M gv st HF i u d Hu Hd') as Hdu.
  assert (Hne : ~ (u = smax e /\ u = smax f /\ d = smin e /\ d = smin f)).
  { intros (H1 & H2 & Hde & Hdf). apply (lr_ne W Es M gv st HG HM HF i e f He Hf).
    destruct (c_ss _ _ _ _ _ HC e gl Hgl) as (A1 & A2 & _). destruct (c_ss _ _ _ _ _ HC f gr Hgr) as (B1 & B2 & _).
    apply (medges_eq W Es M gv st e f (sedge gl) HC); [now apply medges_nth|]. assert (sedge gl = sedge gr) as ->; [|now apply medges_nth].
    unfold sedge. assert (s_min gl = s_min gr) as K1 by congruence. assert (s_max gl = s_max gr) as K2 by congruence. rewrite K1 in A1. rewrite K2 in A2.
    f_equal; congruence. }
  assert (Hmid : forall ul uc ur dn, final_type n = Ok (TV ul uc ur dn) -> i = uc -> d = smin e /\ d = smin f).
  { intros ul uc ur dn HT Hi.
    destruct (above_cases W Es M gv st HG HM HF HD i d Hd') as [(L & R & s0 & s1 & ul' & uc' & ur' & dn' & N & _)|[(L & R & s & s' & ul' & ur' & dl & dr & N & _)|(L & R & s0 & s1 & up & dl & dc & dr & N & _)]].
    - destruct N as [(n' & Hn' & Hf' & _) B1 B2 B3 B4 S0 S1 Hne' Nd]. assert (n' = n) by congruence. subst n'. rewrite HT in Hf'. injection Hf' as -> -> -> ->.
      destruct B2 as (_ & B2l & B2r & _). rewrite <- Hi in *. assert (s0 = e) by congruence. assert (s1 = f) by congruence. subst. auto.
    - destruct (ni_n _ _ _ _ _ _ _ _ _ _ N) as (n' & Hn' & Hf' & _). assert (n' = n) by congruence. subst n'. congruence.
    - destruct (na_n _ _ _ _ _ _ _ _ _ _ N) as (n' & Hn' & Hf' & _). assert (n' = n) by congruence. subst n'. congruence. }
  rewrite <- E1, <- E2, <- E3, <- E4. destruct Hm as (e' & f' & u' & H1 & H2 & H3 & Hm). assert (e' = e) by congruence. assert (f' = f) by congruence. assert (u' = u) by congruence. subst e' f' u'.
  destruct ms as [m|a b].
  - destruct Hm as [(Huf & Ho)|(Huf & Hue & Ho)].
    + destruct (open_add W Es M gv st HG HM HF false e u m d n gl Ho Hgl Hn Hdu) as (m' & Hm' & _ & _ & _ & Hb). cbn [add_to_all] in Hadd. rewrite Hm' in Hadd. injection Hadd as <-.
      assert (Hs : d = smin e -> u <> smax e -> solid m'). { intros A B. destruct (Hb A B) as (Hb' & _). eapply build_solid; eauto. }
      split; [intros [(A & B)|(A & B)]; [auto|contradiction]|]. intros ul uc ur dn HT Hi. destruct (Hmid ul uc ur dn HT Hi) as (A & B). split; auto. split; auto. apply Hs; auto. intros K. apply Hne. auto.
    + destruct (open_add W Es M gv st HG HM HF true f u m d n gr Ho Hgr Hn Hdu) as (m' & Hm' & _ & _ & _ & Hb). cbn [add_to_all] in Hadd. rewrite Hm' in Hadd. injection Hadd as <-.
      assert (Hs : d = smin f -> solid m'). { intros A. destruct (Hb A Huf) as (Hb' & _). eapply build_solid; eauto. }
      split; [intros [(A & B)|(A & B)]; [contradiction|auto]|]. intros ul uc ur dn HT Hi. destruct (Hmid ul uc ur dn HT Hi) as (A & B). split; auto. split; auto. apply Hs; auto.
  - destruct Hm as (Hue & Huf & Ho1 & Ho2).
    destruct (open_add W Es M gv st HG HM HF false e u a d n gl Ho1 Hgl Hn Hdu) as (a' & Ha & _ & _ & _ & Hba).
    destruct (open_add W Es M gv st HG HM HF true f u b d n gr Ho2 Hgr Hn Hdu) as (b' & Hb & _ & _ & _ & Hbb).
    cbn [add_to_all] in Hadd. rewrite Ha in Hadd. cbn [bind] in Hadd. rewrite Hb in Hadd. injection Hadd as <-.
    assert (Sa : d = smin e -> solid a'). { intros A. destruct (Hba A Hue) as (Hb' & _). eapply build_solid; eauto. }
    assert (Sb : d = smin f -> solid b'). { intros A. destruct (Hbb A Huf) as (Hb' & _). eapply build_solid; eauto. }
    split; auto. intros ul uc ur dn HT Hi. destruct (Hmid ul uc ur dn HT Hi) as (A & B). repeat split; auto.
Qed.
End Fine.

(** ** Two traversals in lock step, pieces compared without their flags *)

Section Lock.
Context {I1 I2 : Type}.
Variable RC : coords Q -> coords Q -> Prop.
Variable RI : I1 -> I2 -> Prop.
Variables (gv1 : I1 -> coords Q) (gv2 : I2 -> coords Q).
Hypothesis Hleft : forall a a' b b' c c', RC a a' -> RC b b' -> RC c c' -> is_left a b c = is_left a' b' c'.
Hypothesis Hgv : forall i i', RI i i' -> RC (gv1 i) (gv2 i').
Context {E1 E2 : Type}.

Notation rte := (@Sim.rte E1 E2).
Notation rvc := (Sim.rvc RC RI).
Notation rn := (Sim.rn RC RI).
Notation rs := (Sim.rs RC).
Notation rst := (Sim.rst RC RI).
Notation rp := (Sim.rp RI (E1 := E1) (E2 := E2)).

Definition fmb (b1 : mbuilder Q I1) (b2 : mbuilder Q I2) : Prop := Forall2 rvc (mb_vec b1) (mb_vec b2).
Definition fot (a : ot (mbuilder Q I1)) (b : ot (mbuilder Q I2)) : Prop :=
  match a, b with
  | OOne x, OOne y => fmb x y
  | OTwo x x', OTwo y y' => fmb x y /\ fmb x' y'
  | _, _ => False
  end.
Definition fopt (a : option (ot (mbuilder Q I1))) (b : option (ot (mbuilder Q I2))) : Prop :=
  match a, b with Some x, Some y => fot x y | None, None => True | _, _ => False end.
Definition fbs (a : nat * option (ot (mbuilder Q I1))) (b : nat * option (ot (mbuilder Q I2))) : Prop :=
  fst a = fst b /\ fopt (snd a) (snd b).
Definition fx (x1 : tstate (C := Q) (I := I1)) (x2 : tstate (C := Q) (I := I2)) : Prop :=
  x_ti x1 = x_ti x2 /\ fopt (x_ms x1) (x_ms x2) /\ Forall2 fbs (x_bs x1) (x_bs x2) /\ Forall2 fmb (x_mst x1) (x_mst x2).

Ltac rb' R := eapply (rr_bind rte R).

Lemma new_lock i1 i2 c1 c2 : RI i1 i2 -> RC c1 c2 -> fmb (mb_new i1 c1) (mb_new i2 c2).
Proof. intros Hi Hc. repeat constructor; auto. Qed.

Lemma add_lock b1 b2 i1 i2 c1 c2 : fmb b1 b2 -> RI i1 i2 -> RC c1 c2 ->
  rres rte fmb (mb_add (E := tri_error E1) b1 i1 c1) (mb_add (E := tri_error E2) b2 i2 c2).
Proof.
  intros Hb Hi Hc. unfold mb_add. rb' (Sim.rvc RC RI). { now apply rr_rd. } intros v1 v2 Hv. unfold fmb. cbn. apply f2_snoc; auto. now split.
Qed.

Lemma finish_lock cw fuel b1 b2 : fmb b1 b2 -> solid b1 -> solid b2 ->
  rp eq (fun s => finish (E := E1) rec_new rec_ext cw fuel b1 s) (fun s => finish (E := E2) rec_new rec_ext cw fuel b2 s).
Proof.
  intros Hb S1 S2. unfold finish.
  assert (H : rres (@eq ierr) (fun o1 o2 => match o1, o2 with Some m1, Some m2 => Sim.rm RC RI m1 m2 | None, None => True | _, _ => False end) (mb_build b1) (mb_build b2)).
  { unfold mb_build. rewrite <- (f2_len _ _ _ Hb), S1, S2. destruct (_ <? _); [reflexivity|].
    eapply (rr_bind eq rvc). { now apply rr_rd. } intros a1 a2 Ha.
    eapply (rr_bind eq rvc). { now apply rr_rd. } intros c1 c2 Hc.
    eapply (rr_bind eq rvc). { now apply rr_rd. } intros d1 d2 Hd.
    simpl. split; [auto|]. split; [auto|]. split; [auto|]. cbn. apply Hleft; [apply Ha|apply Hc|apply Hd]. }
  destruct (mb_build b1) as [[m1|]|e1|c1], (mb_build b2) as [[m2|]|e2|c2]; simpl in H; try contradiction.
  - now apply (build_fans_sim RC RI Hleft).
  - now apply rp_ret.
  - now apply rp_ret.
  - now apply rp_ret.
Qed.

Lemma add_all_lock ms1 ms2 n1 n2 : fot ms1 ms2 -> rn n1 n2 ->
  rres rte fot (add_to_all (E := E1) ms1 n1) (add_to_all (E := E2) ms2 n2).
Proof.
  intros Hm (Hv & Hc & _). destruct ms1 as [a|a b], ms2 as [a'|a' b']; simpl in Hm; try contradiction; cbn [add_to_all].
  - rb' fmb. { now apply add_lock. } intros x y H. exact H.
  - destruct Hm. rb' fmb. { now apply add_lock. } intros x y H'. rb' fmb. { now apply add_lock. } intros x' y' H''. now split.
Qed.

Section T.
Variables (cw : bool) (fuel : nat) (s1 : state Q I1) (s2 : state Q I2).
Hypothesis Hst : rst s1 s2.

Ltac ns := apply rp_ret; apply rr_rd; apply Hst.

Lemma rd_nth {E A} (l : list A) i a : rd (E := E) l i = Ok a -> nth_error l i = Some a.
Proof. unfold rd. destruct (nth_error l i); congruence. Qed.

(** A computation that does not touch the log, with its result known. *)
Lemma rp_ret_eq {A1 A2 B1 B2} (RA : A1 -> A2 -> Prop) (RB : B1 -> B2 -> Prop) (r1 : res (tri_error E1) A1) (r2 : res (tri_error E2) A2) f1 f2 :
  rres rte RA r1 r2 -> (forall a1 a2, r1 = Ok a1 -> r2 = Ok a2 -> RA a1 a2 -> rp RB (f1 a1) (f2 a2)) ->
  rp RB (fun s => sbind (lift s r1) (fun s a => f1 a s)) (fun s => sbind (lift s r2) (fun s a => f2 a s)).
Proof.
  intros H K t1 t2 Ht. destruct r1 as [a1|e1|c1], r2 as [a2|e2|c2]; simpl in H; try contradiction; unfold lift, sbind; cbn [fst snd].
  - now apply K.
  - split; auto.
  - split; auto.
Qed.

Definition mid (x : nat) (ty : res ierr ntype) : Prop := exists ul uc ur dn, ty = Ok (TV ul uc ur dn) /\ x = uc.

Lemma extend_lock (x1 : tstate (C := Q) (I := I1)) (x2 : tstate (C := Q) (I := I2)) t nd n1 n2 ms1 ms2 : rn n1 n2 -> fot ms1 ms2 -> x_ms x1 = Some ms1 -> x_ms x2 = Some ms2 ->
  fine s1 x1 t nd n1 -> fine s2 x2 t nd n2 ->
  rp (fun a b => fot a b /\ (mid (x_ti x1) (final_type n1) -> all_solid a) /\ (mid (x_ti x2) (final_type n2) -> all_solid b))
    (fun s => extend_monotones (E := E1) gv1 rec_new rec_ext cw fuel s1 t nd n1 ms1 s)
    (fun s => extend_monotones (E := E2) gv2 rec_new rec_ext cw fuel s2 t nd n2 ms2 s).
Proof.
  intros Hn Hm Hx1 Hx2 F1 F2. unfold extend_monotones.
  eapply (rp_ret_eq fot). { now apply add_all_lock. } intros m1 m2 A1 A2 Hm'. clear Hm. rename Hm' into Hm.
  eapply (rp_ret_eq eq). { apply rr_ok_or. reflexivity. } intros sl ? L1 _ <-.
  eapply (rp_ret_eq rs). { apply rr_rd, Hst. } intros sl1 sl2 G1 G2 Hsl.
  eapply (rp_ret_eq eq). { apply rr_ok_or. reflexivity. } intros sr ? L2 _ <-.
  eapply (rp_ret_eq rs). { apply rr_rd, Hst. } intros sr1 sr2 G3 G4 Hsr.
  eapply (rp_ret_eq eq). { apply rr_ok_or. reflexivity. } intros nu ? L3 _ <-.
  assert (T1 : t_l t = Some sl) by (destruct (t_l t); cbn in L1; congruence). assert (T2 : t_r t = Some sr) by (destruct (t_r t); cbn in L2; congruence).
  assert (T3 : t_u t = Some nu) by (destruct (t_u t); cbn in L3; congruence).
  destruct (F1 ms1 m1 E1 sl sr nu sl1 sr1 Hx1 A1 T1 T2 T3 (rd_nth _ _ _ G1) (rd_nth _ _ _ G3)) as (S1 & M1).
  destruct (F2 ms2 m2 E2 sl sr nu sl2 sr2 Hx2 A2 T1 T2 T3 (rd_nth _ _ _ G2) (rd_nth _ _ _ G4)) as (S2 & M2).
  pose proof Hsl as (Q1 & Q2 & _). pose proof Hsr as (Q3 & Q4 & _). rewrite <- Q1, <- Q2, <- Q3, <- Q4 in *.
  assert (HN : forall (P1 P2 : Prop), ~ P1 -> ~ P2 -> rp (fun a b => fot a b /\ (P1 -> all_solid a) /\ (P2 -> all_solid b)) (fun s => sbind (lift s (rd (st_ns s1) nu)) (fun s n_up =>
      sbind (lift s (mb_add (mb_new (n_v n_up) (gv1 (n_v n_up))) (n_v n1) (n_c n1))) (fun s b' => (s, Ok (OOne b')))))
    (fun s => sbind (lift s (rd (st_ns s2) nu)) (fun s n_up =>
      sbind (lift s (mb_add (mb_new (n_v n_up) (gv2 (n_v n_up))) (n_v n2) (n_c n2))) (fun s b' => (s, Ok (OOne b')))))).
  { intros P1 P2 N1 N2. eapply (rp_bind RI rn). { ns. } intros u1 u2 Hu.
    eapply (rp_bind RI fmb). { apply rp_ret, add_lock; [|apply Hn|apply Hn]. apply new_lock; [apply Hu|]. apply Hgv. apply Hu. }
    intros b1 b2 Hb. apply rp_ret. split; [exact Hb|]. split; intros; contradiction. }
  assert (K1 : mid (x_ti x1) (final_type n1) -> nd = s_min sl1 /\ nd = s_min sr1 /\ all_solid m1). { intros (ul & uc & ur & dn & K & K'). eapply M1; eauto. }
  assert (K2 : mid (x_ti x2) (final_type n2) -> nd = s_min sl1 /\ nd = s_min sr1 /\ all_solid m2). { intros (ul & uc & ur & dn & K & K'). eapply M2; eauto. }
  destruct (Nat.eqb_spec nd (s_min sl1)) as [D1|D1], (Nat.eqb_spec nd (s_min sr1)) as [D2|D2]; cbn [negb andb].
  - apply rp_ret. split; [exact Hm|]. split; [apply K1|apply K2].
  - destruct (Nat.eqb_spec nu (s_max sl1)) as [D3|D3]; cbn [negb andb].
    { apply rp_ret. split; [exact Hm|]. split; [apply K1|apply K2]. }
    destruct m1 as [a|a b], m2 as [a'|a' b']; simpl in Hm; try contradiction.
    + eapply (rp_bind RI eq). { apply finish_lock; auto. } intros _ _ _. apply HN; intros K; [apply K1 in K|apply K2 in K]; tauto.
    + destruct Hm as (Ha & Hb). eapply (rp_bind RI eq). { apply finish_lock; [auto|now apply S1|now apply S2]. } intros _ _ _. apply rp_ret.
      split; [exact Hb|]. split; intros K; [apply K1 in K|apply K2 in K]; tauto.
  - destruct (Nat.eqb_spec nu (s_max sr1)) as [D3|D3]; cbn [negb andb].
    { apply rp_ret. split; [exact Hm|]. split; [apply K1|apply K2]. }
    destruct m1 as [a|a b], m2 as [a'|a' b']; simpl in Hm; try contradiction.
    + eapply (rp_bind RI eq). { apply finish_lock; auto. } intros _ _ _. apply HN; intros K; [apply K1 in K|apply K2 in K]; tauto.
    + destruct Hm as (Ha & Hb). eapply (rp_bind RI eq). { apply finish_lock; [auto|now apply S1|now apply S2]. } intros _ _ _. apply rp_ret.
      split; [exact Ha|]. split; intros K; [apply K1 in K|apply K2 in K]; tauto.
  - apply rp_ret. split; [exact Hm|]. split; [apply K1|apply K2].
Qed.

Lemma single_lock m1 m2 : fot m1 m2 -> rres rte fmb (single (E := E1) m1) (single (E := E2) m2).
Proof. destruct m1, m2; simpl; auto; try contradiction. Qed.

Lemma step_v_lock x1 x2 ms1 ms2 ul uc ur down : fx x1 x2 -> fopt ms1 ms2 ->
  (forall a b, ms1 = Some a -> ms2 = Some b -> x_ti x1 = uc -> all_solid a /\ all_solid b) ->
  rp fx (fun s => step_v (E := E1) rec_new rec_ext cw fuel x1 ms1 ul uc ur down s)
    (fun s => step_v (E := E2) rec_new rec_ext cw fuel x2 ms2 ul uc ur down s).
Proof.
  intros (Hti & Hms & Hbs & Hmst) Hm HS. unfold step_v. cbv zeta. rewrite <- Hti.
  eapply (rp_bind RI (fun p q => fopt (fst p) (fst q) /\ Forall2 fmb (snd p) (snd q))).
  - destruct ms1 as [m1|], ms2 as [m2|]; simpl in Hm; try contradiction; [|apply rp_ret; now split].
    destruct (_ =? _).
    { eapply (rp_bind RI fmb). { now apply rp_ret, single_lock. } intros a b H. apply rp_ret. split; simpl; auto. }
    destruct (Nat.eqb_spec (x_ti x1) uc) as [Hu|Hu].
    { destruct (HS _ _ eq_refl eq_refl Hu) as (SA & SB). eapply (rp_bind RI eq).
      - unfold finish_all. destruct m1 as [a|a b], m2 as [a'|a' b']; simpl in Hm, SA, SB; try contradiction; [now apply finish_lock|].
        destruct Hm, SA, SB. eapply (rp_bind RI eq). { now apply finish_lock. } intros _ _ _. now apply finish_lock.
      - intros _ _ _. apply rp_ret. now split. }
    destruct (_ =? _); [|now apply rp_ret].
    destruct Hmst as [|l1 l2 r1 r2 Hl Hr]; [now apply rp_ret|].
    eapply (rp_bind RI fmb). { now apply rp_ret, single_lock. } intros a b H. apply rp_ret. split; simpl; auto.
  - intros [p1 q1] [p2 q2] [Hp Hq]. cbn [fst snd] in *. destruct (_ =? _).
    + apply rp_ret. repeat split; auto.
    + apply rp_ret. unfold resume. destruct Hbs as [|[t1 o1] [t2 o2] r1 r2 Hl Hr]; [reflexivity|].
      destruct Hl as [Hl1 Hl2]. cbn [fst snd] in *. subst. repeat split; auto.
Qed.

Lemma step_a_lock x1 x2 t n1 n2 ms1 ms2 dl dc dr : fx x1 x2 -> rn n1 n2 -> fopt ms1 ms2 ->
  rp fx (fun s => step_a (E := E1) s1 x1 t n1 ms1 dl dc dr s) (fun s => step_a (E := E2) s2 x2 t n2 ms2 dl dc dr s).
Proof.
  intros (Hti & Hms & Hbs & Hmst) Hn Hm. unfold step_a.
  destruct ms1 as [m1|], ms2 as [m2|]; simpl in Hm; try contradiction.
  - eapply (rp_bind RI (fun p q => fmb (fst p) (fst q) /\ fmb (snd p) (snd q))).
    + destruct m1 as [a|a b], m2 as [a'|a' b']; simpl in Hm; try contradiction; [|now apply rp_ret].
      eapply (rp_bind RI eq). { apply rp_ret, rr_ok_or. reflexivity. } intros nu ? <-.
      eapply (rp_bind RI rn). { ns. } intros u1 u2 Hu.
      eapply (rp_bind RI fmb). { apply rp_ret, add_lock; [|apply Hn|apply Hn]. apply new_lock; apply Hu. } intros b1 b2 Hb.
      eapply (rp_bind RI eq). { apply rp_ret, rr_ok_or. reflexivity. } intros sl ? <-.
      eapply (rp_bind RI rs). { ns. } intros sl1 sl2 (_ & <- & _).
      destruct (_ =? _). { apply rp_ret. now split. }
      eapply (rp_bind RI eq). { apply rp_ret, rr_ok_or. reflexivity. } intros sr ? <-.
      eapply (rp_bind RI rs). { ns. } intros sr1 sr2 (_ & <- & _).
      destruct (_ =? _); apply rp_ret; [now split|reflexivity].
    + intros [p1 q1] [p2 q2] [Hp Hq]. cbn [fst snd] in *. apply rp_ret. split; [reflexivity|]. split; [exact Hp|]. split; auto. cbn.
      constructor; [split; [reflexivity|exact Logic.I]|]. constructor; [|exact Hbs]. now split.
  - apply rp_ret. split; [reflexivity|]. split; [|split; auto].
    + exact Logic.I.
    + cbn. constructor; [split; [reflexivity|]|constructor; [split; [reflexivity|exact Logic.I]|exact Hbs]].
      apply new_lock; apply Hn.
Qed.

Lemma tri_step_lock x1 x2 t nd : fx x1 x2 ->
  (forall n, nth_error (st_ns s1) nd = Some n -> fine s1 x1 t nd n) -> (forall n, nth_error (st_ns s2) nd = Some n -> fine s2 x2 t nd n) ->
  rp fx (fun s => tri_step (E := E1) gv1 rec_new rec_ext cw fuel s1 x1 t nd s)
    (fun s => tri_step (E := E2) gv2 rec_new rec_ext cw fuel s2 x2 t nd s).
Proof.
  intros Hx F1 F2. unfold tri_step. pose proof Hx as (Hti & Hms & Hbs & Hmst).
  eapply (rp_ret_eq rn). { apply rr_rd, Hst. } intros n1 n2 G1 G2 Hn. apply rd_nth in G1, G2.
  pose proof (final_sim RC RI n1 n2 Hn) as Hty.
  eapply (rp_bind RI (fun a b => fopt a b /\ forall m1 m2, a = Some m1 -> b = Some m2 -> mid (x_ti x1) (final_type n1) -> all_solid m1 /\ all_solid m2)).
  { destruct (x_ms x1) as [m1|] eqn:X1, (x_ms x2) as [m2|] eqn:X2; simpl in Hms; try contradiction; [|apply rp_ret; split; [exact Logic.I|discriminate]].
    eapply rp_bind. { apply (extend_lock x1 x2); auto. } intros a b (H & K1 & K2). apply rp_ret. split; [exact H|].
    intros ? ? [= <-] [= <-] K. split; [auto|]. apply K2. now rewrite <- Hti, <- Hty. }
  intros ms1 ms2 (Hm & HS). rewrite <- Hty.
  eapply (rp_ret_eq eq). { destruct (final_type n1); reflexivity. } intros ty ? G _ <-.
  destruct ty.
  - apply step_v_lock; auto. intros a b -> -> K. apply (HS a b); auto. destruct (final_type n1) as [ty|e|c]; cbn in G; try discriminate. injection G as ->. repeat eexists. exact K.
  - rewrite <- Hti. destruct (_ =? _). { apply rp_ret. repeat split; auto. }
    destruct (_ =? _); apply rp_ret; [repeat split; auto|reflexivity].
  - now apply step_a_lock.
Qed.

(** With invariants that make every step fine. *)
Variables (J1 : tstate (C := Q) (I := I1) -> Prop) (J2 : tstate (C := Q) (I := I2) -> Prop).
Hypothesis F1 : forall x t d n, J1 x -> nth_error (st_ts s1) (x_ti x) = Some t -> t_d t = Some d -> nth_error (st_ns s1) d = Some n -> fine s1 x t d n.
Hypothesis F2 : forall x t d n, J2 x -> nth_error (st_ts s2) (x_ti x) = Some t -> t_d t = Some d -> nth_error (st_ns s2) d = Some n -> fine s2 x t d n.
Hypothesis P1 : forall x t d log s x', J1 x -> nth_error (st_ts s1) (x_ti x) = Some t -> t_d t = Some d ->
  tri_step (E := E1) gv1 rec_new rec_ext cw fuel s1 x t d log = (s, Ok x') -> J1 x'.
Hypothesis P2 : forall x t d log s x', J2 x -> nth_error (st_ts s2) (x_ti x) = Some t -> t_d t = Some d ->
  tri_step (E := E2) gv2 rec_new rec_ext cw fuel s2 x t d log = (s, Ok x') -> J2 x'.

Lemma tri_loop_lock k : forall x1 x2, fx x1 x2 -> J1 x1 -> J2 x2 ->
  rp eq (fun s => tri_loop (E := E1) gv1 rec_new rec_ext cw fuel s1 k x1 s)
    (fun s => tri_loop (E := E2) gv2 rec_new rec_ext cw fuel s2 k x2 s).
Proof.
  induction k as [|k IH]; intros x1 x2 Hx K1 K2; cbn [tri_loop]; [now apply rp_ret|].
  pose proof Hst as (_ & _ & Et & _). pose proof Hx as (Eti & Hms & Hbs & Hmst). rewrite <- Et, <- Eti.
  eapply (rp_ret_eq eq). { apply rr_rd, f2_eq. } intros t ? G _ <-. apply rd_nth in G.
  destruct (t_d t) as [nd|] eqn:Hd.
  - intros t1 t2 Ht. pose proof (tri_step_lock x1 x2 t nd Hx) as HS.
    specialize (HS (fun n Hn => F1 x1 t nd n K1 G Hd Hn)). rewrite Et, Eti in G. specialize (HS (fun n Hn => F2 x2 t nd n K2 G Hd Hn) t1 t2 Ht). rewrite <- Et, <- Eti in G.
    cbv beta in HS. destruct (tri_step (E := E1) gv1 rec_new rec_ext cw fuel s1 x1 t nd t1) as [l1 r1] eqn:R1, (tri_step (E := E2) gv2 rec_new rec_ext cw fuel s2 x2 t nd t2) as [l2 r2] eqn:R2.
    cbn [fst snd] in HS. destruct HS as (HL & HR). destruct r1 as [y1|e1|c1], r2 as [y2|e2|c2]; simpl in HR; try contradiction; unfold sbind; cbn [fst snd].
    + apply IH; auto. { eapply P1; eauto. } eapply P2; eauto. now rewrite <- Et, <- Eti.
    + split; auto.
    + split; auto.
  - apply rp_ret. unfold tri_end. destruct Hmst; [|reflexivity]. destruct Hbs; [|reflexivity].
    destruct (x_ms x1), (x_ms x2); simpl in Hms; try contradiction; reflexivity.
Qed.
End T.
End Lock.
