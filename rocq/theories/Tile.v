(** Crossings of a ray: triangles against the ray of a point, and the trapezoidation against it. *)
From Coq Require Import QArith Lqa List Arith Lia Bool ZArith.
From Verif Require Import Base Coord Trap Mono Tri Lanes Plane MonoGeom Geo Region TrapInv Faces Open Traverse Sweep.
Import ListNotations.
Local Open Scope Q_scope.

Section Ray.
Variable M : Q.
Notation ht := (ht M).

(** The edge from [a] to [b] passes the height of [p] upwards, right of [p]. *)
Definition hits (p a b : point) : bool := Qltb (ht a) (ht p) && Qltb (ht p) (ht b) && Qltb 0 (cross a b p).
(** Signed crossing. *)
Definition wp (p a b : point) : Q := (if hits p a b then 1 else 0) - (if hits p b a then 1 else 0).

Lemma wp_anti p : anti (wp p).
Proof. intros a b. unfold wp. ring. Qed.

Lemma hits_spec p a b : hits p a b = true <-> ht a < ht p /\ ht p < ht b /\ 0 < cross a b p.
Proof. unfold hits. rewrite !andb_true_iff, !Qltb_spec. tauto. Qed.

Lemma hits_false p a b : ~ (ht a < ht p /\ ht p < ht b /\ 0 < cross a b p) -> hits p a b = false.
Proof. intros H. destruct (hits p a b) eqn:E; auto. apply hits_spec in E. contradiction. Qed.

Lemma cross_swap a b p : cross b a p == - cross a b p.
Proof. unfold cross. ring. Qed.

(** On the line of a segment that passes the height. *)
Lemma on_zero p a b : ht a < ht p -> ht p < ht b -> 0 < M -> cross a b p == 0 -> on_segment a b p.
Proof.
  intros H1 H2 HM E. exists ((ht p - ht a) / (ht b - ht a)). assert (D : 0 < ht b - ht a) by lra.
  assert (T : (ht p - ht a) / (ht b - ht a) * (ht b - ht a) == ht p - ht a) by (field; lra).
  set (t := (ht p - ht a) / (ht b - ht a)) in *. clearbody t.
  assert (T0 : 0 <= t). { destruct (Qlt_le_dec t 0); auto. exfalso. nra. }
  assert (T1 : t <= 1). { destruct (Qlt_le_dec 1 t); auto. exfalso. nra. }
  assert (EX : (ht b - ht a) * (cx p - (cx a + t * (cx b - cx a))) == - (M * cross a b p)).
  { setoid_replace ((ht b - ht a) * (cx p - (cx a + t * (cx b - cx a)))) with ((ht b - ht a) * (cx p - cx a) - (t * (ht b - ht a)) * (cx b - cx a)) by ring.
    rewrite T. unfold Geo.ht, cross. ring. }
  assert (EY : (ht b - ht a) * (cy p - (cy a + t * (cy b - cy a))) == cross a b p).
  { setoid_replace ((ht b - ht a) * (cy p - (cy a + t * (cy b - cy a)))) with ((ht b - ht a) * (cy p - cy a) - (t * (ht b - ht a)) * (cy b - cy a)) by ring.
    rewrite T. unfold Geo.ht, cross. ring. }
  rewrite E in EX, EY. split; [lra|]. split; [lra|]. split.
  - destruct (Qmult_integral (ht b - ht a) (cx p - (cx a + t * (cx b - cx a)))) as [K|K]; [rewrite EX; ring|lra|lra].
  - destruct (Qmult_integral (ht b - ht a) (cy p - (cy a + t * (cy b - cy a)))) as [K|K]; [rewrite EY; ring|lra|lra].
Qed.

Lemma off_zero p a b : ht a < ht p -> ht p < ht b -> 0 < M -> ~ on_segment a b p -> ~ cross a b p == 0.
Proof. intros H1 H2 HM Hn E. apply Hn. now apply on_zero. Qed.

(** Strictly inside a counterclockwise triangle. *)
Definition in_tri (p : point) (t : point * point * point) : Prop := let '(a, b, c) := t in 0 < cross a b p /\ 0 < cross b c p /\ 0 < cross c a p.
Definition in_trib (p : point) (t : point * point * point) : bool := let '(a, b, c) := t in Qltb 0 (cross a b p) && Qltb 0 (cross b c p) && Qltb 0 (cross c a p).
Lemma in_trib_spec p t : in_trib p t = true <-> in_tri p t.
Proof. destruct t as [[a b] c]. cbn. rewrite !andb_true_iff, !Qltb_spec. tauto. Qed.

Lemma bary a b c p : cross a b p * (ht c - ht p) + cross b c p * (ht a - ht p) + cross c a p * (ht b - ht p) == 0.
Proof. unfold cross, Geo.ht. ring. Qed.
Lemma cross_split a b c p : cross a b c == cross a b p + cross b c p + cross c a p.
Proof. unfold cross. ring. Qed.

Lemma tri_alone p a b c : 0 < M -> 0 <= cross a b c -> ~ on_segment a b p -> ~ on_segment b a p -> ~ on_segment c a p -> ~ on_segment a c p ->
  (ht a < ht p /\ ht p < ht b /\ ht p < ht c) \/ (ht p < ht a /\ ht b < ht p /\ ht c < ht p) ->
  tri_sum (wp p) (a, b, c) == if in_trib p (a, b, c) then 1 else 0.
Proof.
  intros HM Hc N1 N2 N3 N4 H. pose proof (bary a b c p) as Eb. pose proof (cross_split a b c p) as Es.
  pose proof (cross_swap a b p) as S1. pose proof (cross_swap c a p) as S3.
  assert (Ebc : wp p b c == 0). { unfold wp. rewrite !hits_false; [ring|intros (K1 & K2 & _); destruct H; lra|intros (K1 & K2 & _); destruct H; lra]. }
  unfold tri_sum. rewrite Ebc. unfold wp.
  assert (GOAL : forall x y z w : bool, (x = hits p a b) -> y = hits p b a -> z = hits p c a -> w = hits p a c ->
    (if x then 1 else 0) - (if y then 1 else 0) + 0 + ((if z then 1 else 0) - (if w then 1 else 0)) == (if in_trib p (a, b, c) then 1 else 0)).
  2:{ apply GOAL; reflexivity. }
  intros x y z w -> -> -> ->.
  destruct H as [(H1 & H2 & H3)|(H1 & H2 & H3)].
  - pose proof (off_zero p a b H1 H2 HM N1) as Z1. pose proof (off_zero p a c H1 H3 HM N4) as Z2.
    rewrite (hits_false p b a) by (intros (K & K' & _); lra). rewrite (hits_false p c a) by (intros (K & K' & _); lra).
    destruct (hits p a b) eqn:Ea; destruct (hits p a c) eqn:Ec.
    + apply hits_spec in Ea, Ec. destruct (in_trib p (a, b, c)) eqn:Ei; [|ring]. apply in_trib_spec in Ei. cbn in Ei. lra.
    + apply hits_spec in Ea. assert (C : 0 < cross c a p). { destruct (Qlt_le_dec 0 (cross c a p)); auto. exfalso. assert (hits p a c = true); [apply hits_spec; lra|congruence]. }
      assert (B : 0 < cross b c p). { destruct Ea as (_ & _ & A). assert (0 < cross a b p * (ht c - ht p)) by nra. assert (0 < cross c a p * (ht b - ht p)) by nra. destruct (Qlt_le_dec 0 (cross b c p)); auto. exfalso. nra. }
      destruct (in_trib p (a, b, c)) eqn:Ei; [ring|]. exfalso. assert (in_trib p (a, b, c) = true); [apply in_trib_spec; cbn; tauto|congruence].
    + exfalso. apply hits_spec in Ec. assert (A : cross a b p < 0). { destruct (Qlt_le_dec (cross a b p) 0); auto. exfalso. assert (hits p a b = true); [apply hits_spec; repeat split; auto; lra|congruence]. }
      destruct Ec as (_ & _ & C). assert (C' : cross c a p < 0) by lra. assert (0 < cross a b p * (ht p - ht c)) by nra. assert (0 < cross c a p * (ht p - ht b)) by nra.
      assert (cross b c p < 0). { destruct (Qlt_le_dec (cross b c p) 0); auto. exfalso. nra. } lra.
    + destruct (in_trib p (a, b, c)) eqn:Ei; [|ring]. apply in_trib_spec in Ei. cbn in Ei. exfalso. assert (hits p a b = true); [apply hits_spec; tauto|congruence].
  - assert (HM' := HM). pose proof (off_zero p b a H2 H1 HM N2) as Z1. pose proof (off_zero p c a H3 H1 HM N3) as Z2.
    rewrite (hits_false p a b) by (intros (K & K' & _); lra). rewrite (hits_false p a c) by (intros (K & K' & _); lra).
    destruct (hits p b a) eqn:Ea; destruct (hits p c a) eqn:Ec.
    + apply hits_spec in Ea, Ec. destruct (in_trib p (a, b, c)) eqn:Ei; [|ring]. apply in_trib_spec in Ei. cbn in Ei. lra.
    + exfalso. apply hits_spec in Ea. assert (C : cross c a p < 0). { destruct (Qlt_le_dec (cross c a p) 0); auto. exfalso. assert (hits p c a = true); [apply hits_spec; repeat split; auto; lra|congruence]. }
      assert (A : cross a b p < 0) by lra. assert (0 < cross a b p * (ht c - ht p)) by nra. assert (0 < cross c a p * (ht b - ht p)) by nra.
      assert (cross b c p < 0). { destruct (Qlt_le_dec (cross b c p) 0); auto. exfalso. nra. } lra.
    + apply hits_spec in Ec. destruct Ec as (_ & _ & C). assert (A : 0 < cross a b p). { destruct (Qlt_le_dec 0 (cross a b p)); auto. exfalso. assert (hits p b a = true); [apply hits_spec; repeat split; auto; lra|congruence]. }
      assert (0 < cross a b p * (ht p - ht c)) by nra. assert (0 < cross c a p * (ht p - ht b)) by nra.
      assert (B : 0 < cross b c p). { destruct (Qlt_le_dec 0 (cross b c p)); auto. exfalso. nra. }
      destruct (in_trib p (a, b, c)) eqn:Ei; [ring|]. exfalso. assert (in_trib p (a, b, c) = true); [apply in_trib_spec; cbn; tauto|congruence].
    + destruct (in_trib p (a, b, c)) eqn:Ei; [|ring]. apply in_trib_spec in Ei. cbn in Ei. exfalso. assert (hits p c a = true); [apply hits_spec; tauto|congruence].
Qed.

Lemma in_trib_rot p a b c : in_trib p (a, b, c) = in_trib p (b, c, a).
Proof. cbn. destruct (Qltb 0 (cross a b p)), (Qltb 0 (cross b c p)), (Qltb 0 (cross c a p)); reflexivity. Qed.
Lemma cross_rot a b c : cross a b c == cross b c a.
Proof. unfold cross. ring. Qed.

(** The signed crossings of the edges of a triangle count whether the point is inside. *)
Lemma tri_wind p a b c : 0 < M -> 0 <= cross a b c -> ~ ht a == ht p -> ~ ht b == ht p -> ~ ht c == ht p ->
  ~ on_segment a b p -> ~ on_segment b c p -> ~ on_segment c a p ->
  tri_sum (wp p) (a, b, c) == if in_trib p (a, b, c) then 1 else 0.
Proof.
  intros HM Hc Ha Hb Hcc N1 N2 N3.
  assert (sy : forall x y, ~ on_segment x y p -> ~ on_segment y x p). { intros x y H (t & K1 & K2 & K3 & K4). apply H. exists (1 - t). split; [lra|]. split; [lra|]. rewrite K3, K4. split; ring. }
  assert (R1 : tri_sum (wp p) (a, b, c) == tri_sum (wp p) (b, c, a)) by (unfold tri_sum; ring).
  assert (R2 : tri_sum (wp p) (a, b, c) == tri_sum (wp p) (c, a, b)) by (unfold tri_sum; ring).
  pose proof (cross_rot a b c) as C1. pose proof (cross_rot b c a) as C2. pose proof (bary a b c p) as Eb.
  assert (All : (ht p < ht a /\ ht p < ht b /\ ht p < ht c) \/ (ht a < ht p /\ ht b < ht p /\ ht c < ht p) -> tri_sum (wp p) (a, b, c) == if in_trib p (a, b, c) then 1 else 0).
  { intros K. unfold tri_sum, wp. rewrite !hits_false by (intros (K1 & K2 & _); destruct K; lra). destruct (in_trib p (a, b, c)) eqn:Ei; [|ring]. exfalso. apply in_trib_spec in Ei. cbn in Ei.
    destruct Ei as (E1 & E2 & E3). destruct K as [(K1 & K2 & K3)|(K1 & K2 & K3)].
    - assert (0 < cross a b p * (ht c - ht p)) by nra. assert (0 < cross b c p * (ht a - ht p)) by nra. assert (0 < cross c a p * (ht b - ht p)) by nra. lra.
    - assert (0 < cross a b p * (ht p - ht c)) by nra. assert (0 < cross b c p * (ht p - ht a)) by nra. assert (0 < cross c a p * (ht p - ht b)) by nra. lra. }
  destruct (Q_dec (ht a) (ht p)) as [[Ka|Ka]|Ka]; [| |contradiction]; destruct (Q_dec (ht b) (ht p)) as [[Kb|Kb]|Kb]; try contradiction; destruct (Q_dec (ht c) (ht p)) as [[Kc|Kc]|Kc]; try contradiction.
  - apply All. tauto.
  - rewrite R2. rewrite in_trib_rot, in_trib_rot. apply tri_alone; auto; lra.
  - rewrite R1, in_trib_rot. apply tri_alone; auto; lra.
  - apply tri_alone; auto; lra.
  - apply tri_alone; auto; lra.
  - rewrite R1, in_trib_rot. apply tri_alone; auto; lra.
  - rewrite R2. rewrite in_trib_rot, in_trib_rot. apply tri_alone; auto; lra.
  - apply All. tauto.
Qed.
End Ray.

Section Crossings.
Context {I : Type}.
Variables (W : list point) (Es : list edge) (M : Q) (gv : I -> point) (st : state Q I).
Hypothesis HG : geo W Es.
Hypothesis HM : shear M W.
Hypothesis HF : full W Es M gv st.
Hypothesis HD : forall v n, nth_error (st_ns st) v = Some n -> deg n = 2%nat.

Notation ts := (st_ts st).
Notation ss := (st_ss st).
Notation ns := (st_ns st).
Notation tl := (Faces.tl st).
Notation tr := (Faces.tr st).
Notation td := (Faces.td st).
Notation tu := (Faces.tu st).
Notation smin := (Faces.smin st).
Notation smax := (Faces.smax st).
Notation pnt := (Faces.pnt st).
Notation hv := (Faces.hv M st).
Notation colour := (Faces.colour M st).
Notation scol := (Faces.scol M st).
Notation ht := (ht M).
Notation sd := (Sweep.sd st).
Notation has := (Sweep.has M st).
Let HC : core W Es M gv st := f_core _ _ _ _ _ HF.

Variable p : point.
Hypothesis Hp : In p W.
Hypothesis Hn : ~ In p (points st).

(** Segment [e] is right of [p] at the height of [p]. *)
Definition hit (e : nat) : bool := hits M p (pnt (smin e)) (pnt (smax e)).

Lemma hv_off v n : nth_error ns v = Some n -> ~ hv v == ht p.
Proof.
  intros H E. apply Hn. unfold Faces.hv in E. assert (pnt v = p). { apply (ht_inj W Es M HG HM); auto. rewrite (pnt_n st v n H). apply (c_W _ _ _ _ _ HC). eapply nth_error_In, points_nth, H. }
  rewrite <- H0, (pnt_n st v n H). eapply nth_error_In, points_nth, H.
Qed.

Lemma hit_X e g : nth_error ss e = Some g -> hv (smin e) < ht p -> ht p < hv (smax e) -> (hit e = true <-> cx p < X M (sedge g) (ht p)) /\ (hit e = false <-> X M (sedge g) (ht p) < cx p).
Proof.
  intros Hg H1 H2. destruct (seg_at W Es M gv st HG HM HF e g Hg) as (E1 & E2 & E3 & E4 & Hin & _).
  pose proof (cross_pos W Es M HG HM (sedge g) p Hin) as K. change (fst (sedge g)) with (s_cmin g) in K. change (snd (sedge g)) with (s_cmax g) in K. rewrite <- E3, <- E4 in K.
  assert (O : ~ cx p == X M (sedge g) (ht p)). { apply (off_edge W Es M HG HM); auto; [change (fst (sedge g)) with (s_cmin g); rewrite <- E3|change (snd (sedge g)) with (s_cmax g); rewrite <- E4]; auto. }
  assert (J : hit e = true <-> cx p < X M (sedge g) (ht p)). { rewrite <- K. unfold hit. rewrite hits_spec. unfold Faces.hv in H1, H2. tauto. }
  split; auto. destruct (hit e); split; intros Q; auto; try discriminate.
  - assert (cx p < X M (sedge g) (ht p)) by now apply J. lra.
  - destruct (Q_dec (cx p) (X M (sedge g) (ht p))) as [[L|L]|L]; auto; [|contradiction]. apply J in L. discriminate.
Qed.

Definition opt_hit (o : option nat) (b : bool) : Prop := match o with Some e => hit e = b | None => True end.

Lemma inside_hit i t : nth_error ts i = Some t -> has i (ht p) -> (inside M (reg st t) p <-> opt_hit (tl i) false /\ opt_hit (tr i) true).
Proof.
  intros Hi (d & u & Hd & Hu & H1 & H2).
  assert (Ed : ad (reg st t) = Some (pnt d)). { unfold Faces.td in Hd. rewrite Hi in Hd. unfold reg, rg. cbn. rewrite Hd. reflexivity. }
  assert (Eu : au (reg st t) = Some (pnt u)). { unfold Faces.tu in Hu. rewrite Hi in Hu. unfold reg, rg. cbn. rewrite Hu. reflexivity. }
  unfold inside, ahas. rewrite Ed, Eu. cbn [obot otop]. unfold Faces.hv in H1, H2.
  assert (KL : olft M (al (reg st t)) (ht p) (cx p) <-> opt_hit (tl i) false).
  { destruct (tl i) as [e|] eqn:El.
    - destruct (tl_spans W Es M gv st HG HM HF i e El) as (g & d' & u' & Hg & Hd' & Hu' & K1 & K2 & K3). assert (d' = d) by congruence. assert (u' = u) by congruence. subst d' u'.
      unfold Faces.tl in El. rewrite Hi in El. destruct (reg_l W Es M gv st i t e HC Hi El) as (g' & Hg' & ->). assert (g' = g) by congruence. subst g'. cbn [olft opt_hit].
      unfold Faces.hv in *. symmetry. apply (hit_X e g Hg); unfold Faces.hv; lra.
    - unfold Faces.tl in El. rewrite Hi in El. unfold reg, rg. cbn. rewrite El. cbn. tauto. }
  assert (KR : orgt M (ar (reg st t)) (ht p) (cx p) <-> opt_hit (tr i) true).
  { destruct (tr i) as [e|] eqn:El.
    - destruct (tr_spans W Es M gv st HG HM HF i e El) as (g & d' & u' & Hg & Hd' & Hu' & K1 & K2 & K3). assert (d' = d) by congruence. assert (u' = u) by congruence. subst d' u'.
      unfold Faces.tr in El. rewrite Hi in El. destruct (reg_r W Es M gv st i t e HC Hi El) as (g' & Hg' & ->). assert (g' = g) by congruence. subst g'. cbn [orgt opt_hit].
      unfold Faces.hv in *. symmetry. apply (hit_X e g Hg); unfold Faces.hv; lra.
    - unfold Faces.tr in El. rewrite Hi in El. unfold reg, rg. cbn. rewrite El. cbn. tauto. }
  rewrite KL, KR. tauto.
Qed.

(** Right of a segment right of [p] everything is right of [p]. *)
Lemma hit_mono i e f : tl i = Some e -> tr i = Some f -> has i (ht p) -> hit e = true -> hit f = true.
Proof.
  intros El Er Hh He. destruct (tl_spans W Es M gv st HG HM HF i e El) as (g & d & u & Hg & Hd & Hu & K1 & K2 & K3).
  destruct (tr_spans W Es M gv st HG HM HF i f Er) as (g' & d' & u' & Hg' & Hd' & Hu' & J1 & J2 & J3). destruct Hh as (d0 & u0 & Hd0 & Hu0 & Q1 & Q2).
  assert (d' = d) by congruence. assert (u' = u) by congruence. assert (d0 = d) by congruence. assert (u0 = u) by congruence. subst d' u' d0 u0.
  unfold Faces.tl, Faces.tr, Faces.td, Faces.tu in *. destruct (nth_error ts i) as [t|] eqn:Hi; [|discriminate].
  destruct (reg_l W Es M gv st i t e HC Hi El) as (g1 & Hg1 & E1). destruct (reg_r W Es M gv st i t f HC Hi Er) as (g2 & Hg2 & E2). assert (g1 = g) by congruence. assert (g2 = g') by congruence. subst g1 g2.
  assert (Ha : ahas M (reg st t) (ht p)). { unfold ahas, reg, rg. cbn. rewrite Hd, Hu. cbn. unfold Faces.hv, Faces.pnt in *. auto. }
  pose proof (a_lr _ _ _ _ (c_ag _ _ _ _ _ HC i t Hi) _ _ _ E1 E2 Ha) as L.
  apply (hit_X f g' Hg'); [lra|lra|]. apply (hit_X e g Hg) in He; lra.
Qed.

Definition hasb (i : nat) : bool := match td i, tu i with Some d, Some u => Qltb (hv d) (ht p) && Qltb (ht p) (hv u) | _, _ => false end.
Lemma hasb_spec i : hasb i = true <-> has i (ht p).
Proof.
  unfold hasb, Sweep.has. destruct (td i) as [d|], (tu i) as [u|]; split; try discriminate; try (intros (d' & u' & K1 & K2 & _); discriminate).
  - rewrite andb_true_iff, !Qltb_spec. intros (H1 & H2). eauto 6.
  - intros (d' & u' & [= <-] & [= <-] & H1 & H2). rewrite andb_true_iff, !Qltb_spec. auto.
Qed.

Definition keyh (b : bool) (i : nat) : option nat := if hasb i then sd b i else None.

Lemma keyh_sum b (F : nat -> Q) : (forall e, hit e = false -> F e == 0) ->
  sumq (fun i => match keyh b i with Some e => F e | None => 0 end) (seq 0 (length ts)) == sumq F (seq 0 (length ss)).
Proof.
  intros HF0. apply sumq_key.
  - intros e He. destruct (hit e) eqn:Eh; [|left; auto]. right. unfold hit in Eh. apply hits_spec in Eh. destruct Eh as (H1 & H2 & _).
    destruct (side_ex W Es M gv st HG HM HF b e (ht p) He H1 H2) as (i & Hi & Hh). { intros v n Hv. eapply hv_off; eauto. }
    exists i. split; [eapply has_in; eauto|]. unfold keyh. assert (hasb i = true) as -> by now apply hasb_spec. split; auto.
    intros j _ Hj. destruct (hasb j) eqn:Ej; [|discriminate]. apply hasb_spec in Ej. eapply (side_uniq W Es M gv st HG HM HF b e); eauto.
  - intros i e _ Hk. unfold keyh in Hk. destruct (hasb i); [|discriminate]. destruct (sd_spans W Es M gv st HG HM HF b i e Hk) as (g & _ & _ & Hg & _). eapply nth_lt; eauto.
Qed.

(** The trapezoid of [p]. *)
Lemma home_ex : exists i t, nth_error ts i = Some t /\ inside M (reg st t) p.
Proof. destruct (c_loc _ _ _ _ _ HC p Hp Hn) as (i & t & Hi & H & _). eauto. Qed.

Lemma home_uniq i j t t' : nth_error ts i = Some t -> nth_error ts j = Some t' -> inside M (reg st t) p -> inside M (reg st t') p -> i = j.
Proof. intros. eapply (c_one _ _ _ _ _ HC); eauto. Qed.

(** The segments right of [p], counted with the sides they have their coloured side on, give the colour at [p]. *)
Theorem home_sum i t : nth_error ts i = Some t -> inside M (reg st t) p ->
  sumq (ow M st (wp M p)) (seq 0 (length ss)) == if colour i then 1 else 0.
Proof.
  intros Hi Hin.
  transitivity (sumq (fun e => (if hit e then (if scol e then 0 else 1) else 0) + (if hit e then (if scol e then -1 else 0) else 0)) (seq 0 (length ss))).
  { apply sumq_ext. intros e He. apply in_seq in He. destruct (lt_nth _ ss e) as (g & Hg); [lia|]. destruct (seg_at W Es M gv st HG HM HF e g Hg) as (_ & _ & _ & _ & _ & Hlt & _).
    assert (E : wp M p (pnt (smin e)) (pnt (smax e)) == if hit e then 1 else 0). { unfold wp. rewrite (hits_false M p (pnt (smax e))). { unfold hit. ring. } unfold Faces.hv in Hlt. intros (K1 & K2 & _). lra. }
    assert (A : wp M p (pnt (smax e)) (pnt (smin e)) == - wp M p (pnt (smin e)) (pnt (smax e))) by apply wp_anti.
    unfold ow. destruct (scol e); [rewrite A|]; rewrite E; destruct (hit e); ring. }
  rewrite sumq_plus. rewrite <- (keyh_sum true (fun e => if hit e then (if scol e then 0 else 1) else 0)) by (intros e ->; reflexivity).
  rewrite <- (keyh_sum false (fun e => if hit e then (if scol e then -1 else 0) else 0)) by (intros e ->; reflexivity). rewrite <- sumq_plus.
  rewrite <- (sumq_one (fun j => if colour j then 1 else 0) (seq 0 (length ts)) i); [|apply seq_NoDup|apply in_seq; assert (i < length ts)%nat by (eapply nth_lt; eauto); lia].
  apply sumq_ext. intros j Hj. apply in_seq in Hj. destruct (lt_nth _ ts j) as (t' & Hj'); [lia|]. clear Hj.
  unfold keyh. destruct (hasb j) eqn:Eb.
  - apply hasb_spec in Eb. cbn [Sweep.sd]. pose proof (inside_hit j t' Hj' Eb) as K.
    assert (KI : inside M (reg st t') p <-> j = i). { split; [intros; eapply home_uniq; eauto|]. intros ->. assert (t' = t) by congruence. now subst. }
    rewrite K in KI. clear K.
    destruct (tr j) as [f|] eqn:Er.
    + pose proof (colour_r W Es M gv st HG HM HF HD j f Er) as Cr. destruct (tl j) as [e|] eqn:El.
      * pose proof (colour_l W Es M gv st HG HM HF HD j e El) as Cl. pose proof (hit_mono j e f El Er Eb) as Hm. cbn [opt_hit] in KI.
        destruct (Nat.eqb_spec j i) as [Hji|Hji]; destruct (hit e), (hit f), (colour j), (scol e), (scol f); try discriminate; try ring; exfalso; try (specialize (Hm eq_refl); discriminate); tauto || (destruct KI as [KI1 KI2]; try (specialize (KI2 Hji); destruct KI2; discriminate); auto).
      * cbn [opt_hit] in KI. destruct (Nat.eqb_spec j i) as [Hji|Hji]; destruct (hit f), (colour j), (scol f); try discriminate; try ring; exfalso; destruct KI as [KI1 KI2]; try (specialize (KI2 Hji); destruct KI2; discriminate); auto.
    + pose proof (colour_open W Es M gv st HG HM HF HD j Er) as Co. rewrite Co. destruct (tl j) as [e|] eqn:El.
      * pose proof (colour_l W Es M gv st HG HM HF HD j e El) as Cl. rewrite Co in Cl. rewrite <- Cl. destruct (hit e), (Nat.eqb j i); ring.
      * destruct (Nat.eqb j i); ring.
  - destruct (Nat.eqb_spec j i) as [->|]; [|ring]. assert (t' = t) by congruence. subst t'.
    assert (Ec : colour i = false); [|rewrite Ec; ring]. apply (colour_open W Es M gv st HG HM HF HD). destruct (tr i) as [f|] eqn:Er; auto. exfalso.
    destruct (tr_spans W Es M gv st HG HM HF i f Er) as (g & d & u & _ & Hd & Hu & _).
    assert (has i (ht p)); [|apply hasb_spec in H; congruence]. exists d, u. split; auto. split; auto.
    destruct Hin as ((H1 & H2) & _). unfold Faces.td, Faces.tu in *. rewrite Hi in *. unfold reg, rg in H1, H2. cbn in H1, H2. rewrite Hd in H1. rewrite Hu in H2. cbn in H1, H2. auto.
Qed.

End Crossings.
