(** The finished trapezoidation is determined by the edges: no edge passes through a trapezoid, and two finished
    trapezoidations of the same edges have the same regions, meeting in the same way at every vertex. *)
From Coq Require Import QArith Lqa List Arith Lia Bool.
From Verif Require Import Base Coord Trap Mono Tri Lanes Plane Geo Region TrapInv Walk Polygons Faces Clear.
Import ListNotations.
Local Open Scope nat_scope.

Definition edge_dec (e f : edge) : {e = f} + {e <> f}.
Proof. decide equality; apply pt_dec. Defined.

(** A position strictly inside a region. *)
Definition inpos (M : Q) (a : atrap) (h x : Q) : Prop := ahas M a h /\ olft M (al a) h x /\ orgt M (ar a) h x.

Definition eat {I} (st : state Q I) (s : nat) : edge := nth s (medges st) (dpt, dpt).

Section One.
Context {I : Type}.
Variables (W : list point) (Es : list edge) (M : Q) (gv : I -> point) (st : state Q I).
Hypothesis HG : geo W Es.
Hypothesis HM : shear M W.
Hypothesis HF : full W Es M gv st.
Hypothesis HD : forall v n, nth_error (st_ns st) v = Some n -> deg n = 2.
Let HC : core W Es M gv st := f_core _ _ _ _ _ HF.

Lemma eat_nth s g : nth_error (st_ss st) s = Some g -> eat st s = sedge g.
Proof. intros H. unfold eat. apply nth_err_nth. now apply medges_nth. Qed.

Lemma al_reg t : al (reg st t) = option_map (eat st) (t_l t).
Proof. reflexivity. Qed.
Lemma ar_reg t : ar (reg st t) = option_map (eat st) (t_r t).
Proof. reflexivity. Qed.

Lemma nth_ts i : i < length (st_ts st) -> exists t, nth_error (st_ts st) i = Some t.
Proof. apply lt_nth. Qed.

(** The middle of a region bounded on a side. *)
Lemma mid_l i t e : nth_error (st_ts st) i = Some t -> al (reg st t) = Some e -> exists h, ahas M (reg st t) h.
Proof.
  intros Ht He. pose proof (c_ag _ _ _ _ _ HC i t Ht) as Ha. destruct (a_l _ _ _ _ Ha e He) as (_ & Hs). unfold spans in Hs.
  destruct (ad (reg st t)) as [d|] eqn:Ed; [|easy]. destruct (au (reg st t)) as [u|] eqn:Eu; [|easy].
  pose proof (a_du _ _ _ _ Ha d u Ed Eu) as Hdu. destruct (mid _ _ Hdu) as (M1 & M2). eexists. unfold ahas, obot, otop. rewrite Ed, Eu. split; eassumption.
Qed.

Lemma reg_order i t e f h : nth_error (st_ts st) i = Some t -> al (reg st t) = Some e -> ar (reg st t) = Some f ->
  within M e h -> within M f h -> (X M e h < X M f h)%Q.
Proof.
  intros Ht He Hf W1 W2. pose proof (c_ag _ _ _ _ _ HC i t Ht) as Ha. destruct (mid_l i t e Ht He) as (h0 & H0).
  apply (order_const W Es M HG HM e f h0 h); auto.
  - now apply (a_l _ _ _ _ Ha).
  - now apply (a_r _ _ _ _ Ha).
  - eapply within_l; eauto.
  - eapply within_r; eauto.
  - eapply a_lr; eauto.
Qed.

(** No inserted edge passes through a trapezoid. *)
Theorem no_through i t e : nth_error (st_ts st) i = Some t -> In e (medges st) -> ~ through M e (reg st t).
Proof. exact (clear W Es M gv st HG HM HF i t e). Qed.

(** Trapezoids with the same region are the same. *)
Lemma reg_inj i j t t' : (forall i j, i < length (st_ts st) -> j < length (st_ts st) -> tu st i = None -> tu st j = None -> i = j) ->
  nth_error (st_ts st) i = Some t -> nth_error (st_ts st) j = Some t' -> reg st t = reg st t' -> i = j.
Proof.
  intros Hone Hi Hj E.
  assert (Eu : tu st i = tu st j).
  { unfold tu. rewrite Hi, Hj. destruct (t_u t) as [v|] eqn:E1.
    - destruct (reg_end W Es M gv st i t Asc v HC Hi E1) as (n & Hn & A). rewrite E in A. destruct (reg_end_inv W Es M gv st j t' Asc _ HC Hj A) as (v' & n' & Hv' & Hn' & En).
      cbn [tend] in Hv'. rewrite Hv'. f_equal. apply (points_eq W Es M gv st _ _ (n_c n) HC); [now apply points_nth|rewrite <- En; now apply points_nth].
    - destruct (t_u t') as [v|] eqn:E2; auto. destruct (reg_end W Es M gv st j t' Asc v HC Hj E2) as (n & Hn & A). rewrite <- E in A.
      destruct (reg_end_inv W Es M gv st i t Asc _ HC Hi A) as (v' & n' & Hv' & Hn' & En). cbn [tend] in Hv'. congruence. }
  assert (Al : option_map (eat st) (t_l t) = option_map (eat st) (t_l t')) by (rewrite <- !al_reg; now rewrite E).
  assert (Ar : option_map (eat st) (t_r t) = option_map (eat st) (t_r t')) by (rewrite <- !ar_reg; now rewrite E).
  assert (LR : forall k t e f, nth_error (st_ts st) k = Some t -> option_map (eat st) (t_l t) = Some e -> option_map (eat st) (t_r t) = Some f -> forall h, within M e h -> within M f h -> (X M e h < X M f h)%Q).
  { intros k t0 e f Hk H1 H2 h. apply (reg_order k t0); auto. }
  assert (SE : forall k t e, nth_error (st_ts st) k = Some t -> option_map (eat st) (t_l t) = Some e -> option_map (eat st) (t_r t) = Some e -> False).
  { intros k t0 e Hk H1 H2. destruct (mid_l k t0 e Hk H1) as (h & Hh). assert (Wh : within M e h) by (apply (within_l W Es M (reg st t0)); auto; now apply (c_ag _ _ _ _ _ HC k)). pose proof (LR k t0 e e Hk H1 H2 h Wh Wh). lra. }
  destruct (tu st i) as [v|] eqn:Ev; [|apply Hone; auto; eapply nth_lt; eauto]. symmetry in Eu.
  destruct (below_cases W Es M gv st HG HM HF HD i v Ev) as [(L & R & s0 & s1 & ul & uc & ur & dn & N & Ki)|[(L & R & s & s' & ul & ur & dl & dr & N & Ki)|(L & R & s0 & s1 & up & dl & dc & dr & N & Ki)]];
    destruct (tu_n W Es M gv st HF j v Eu) as (n & Hn & Hin).
  - destruct (nv_n _ _ _ _ _ _ _ _ _ _ N) as (n' & Hn' & _ & _ & _ & _ & K). assert (n' = n) by congruence. subst n'. rewrite K in Hin. destruct Hin as [<-|[]]. auto.
  - destruct (ni_n _ _ _ _ _ _ _ _ _ _ N) as (n' & Hn' & _ & _ & _ & _ & K). assert (n' = n) by congruence. subst n'. rewrite K in Hin.
    destruct (ni_dl _ _ _ _ _ _ _ _ _ _ N) as (_ & _ & Z1 & _). destruct (ni_dr _ _ _ _ _ _ _ _ _ _ N) as (_ & Z2 & _ & _). unfold tl, tr in *.
    destruct Hin as [<-|[<-|[]]]; destruct Ki as [->| ->]; auto; rewrite ?Hi, ?Hj in *; exfalso.
    + apply (SE dl t' (eat st s') Hj); [now rewrite <- Al, Z2|now rewrite Z1].
    + apply (SE dr t' (eat st s') Hj); [now rewrite Z2|now rewrite <- Ar, Z1].
  - destruct (na_n _ _ _ _ _ _ _ _ _ _ N) as (n' & Hn' & _ & _ & _ & _ & K). assert (n' = n) by congruence. subst n'. rewrite K in Hin.
    destruct (na_dl _ _ _ _ _ _ _ _ _ _ N) as (L1 & _ & Z1 & _). destruct (na_dc _ _ _ _ _ _ _ _ _ _ N) as (L2 & Z2 & Z3 & _). destruct (na_dr _ _ _ _ _ _ _ _ _ _ N) as (_ & Z4 & _ & _).
    destruct (nth_ts dc L2) as (tc & Hc). unfold tl, tr in *.
    assert (BAD : forall k t, nth_error (st_ts st) k = Some t -> option_map (eat st) (t_l t) = Some (eat st s1) -> option_map (eat st) (t_r t) = Some (eat st s0) -> False).
    { intros k t0 Hk H1 H2. rewrite Hc in *. destruct (mid_l k t0 _ Hk H1) as (h & Hh). pose proof (c_ag _ _ _ _ _ HC k t0 Hk) as Ha.
      assert (W1 : within M (eat st s1) h) by (eapply within_l; eauto). assert (W0 : within M (eat st s0) h) by (eapply within_r; eauto).
      pose proof (LR k t0 _ _ Hk H1 H2 h W1 W0). assert (X M (eat st s0) h < X M (eat st s1) h)%Q; [|lra]. apply (LR dc tc); auto; [now rewrite Z2|now rewrite Z3]. }
    destruct Hin as [<-|[<-|[<-|[]]]]; destruct Ki as [->|[->| ->]]; auto; exfalso; rewrite ?Hi, ?Hj in *.
    + apply (SE dl t' (eat st s0) Hj); [now rewrite <- Al, Z2|now rewrite Z1].
    + apply (BAD dl t' Hj); [now rewrite <- Al, Z4|now rewrite Z1].
    + apply (SE dc t' (eat st s0) Hj); [now rewrite Z2|now rewrite <- Ar, Z1].
    + apply (SE dc t' (eat st s1) Hj); [now rewrite <- Al, Z4|now rewrite Z3].
    + apply (BAD dr t' Hj); [now rewrite Z4|now rewrite <- Ar, Z1].
    + apply (SE dr t' (eat st s1) Hj); [now rewrite Z4|now rewrite <- Ar, Z3].
Qed.
End One.

(** ** Two finished states *)

Section Half.
Context {I J : Type}.
Variables (W : list point) (Es : list edge) (M : Q) (gv : I -> point) (st : state Q I) (gv' : J -> point) (st' : state Q J).
Hypothesis HG : geo W Es.
Hypothesis HM : shear M W.
Hypothesis HF : full W Es M gv st.
Hypothesis HF' : full W Es M gv' st'.
Hypothesis HD' : forall v n, nth_error (st_ns st') v = Some n -> deg n = 2.
Hypothesis HE : incl (medges st) (medges st').
Hypothesis HP : incl (points st) (points st').
Let HC : core W Es M gv st := f_core _ _ _ _ _ HF.
Let HC' : core W Es M gv' st' := f_core _ _ _ _ _ HF'.

Lemma al_in i t e : nth_error (st_ts st) i = Some t -> al (reg st t) = Some e -> In e (medges st).
Proof.
  intros Ht He. rewrite al_reg in He. destruct (t_l t) as [s|] eqn:Es'; [|discriminate]. injection He as <-.
  apply nth_In. exact (ti_l _ _ _ (c_in _ _ _ _ _ HC i t Ht) s Es').
Qed.
Lemma ar_in i t e : nth_error (st_ts st) i = Some t -> ar (reg st t) = Some e -> In e (medges st).
Proof.
  intros Ht He. rewrite ar_reg in He. destruct (t_r t) as [s|] eqn:Es'; [|discriminate]. injection He as <-.
  apply nth_In. exact (ti_r _ _ _ (c_in _ _ _ _ _ HC i t Ht) s Es').
Qed.
Lemma aend_in d i t p : nth_error (st_ts st) i = Some t -> aend d (reg st t) = Some p -> In p (points st).
Proof.
  intros Ht Hp. destruct (reg_end_inv W Es M gv st i t d p HC Ht Hp) as (v & n & _ & Hn & <-). eapply nth_error_In. apply points_nth. exact Hn.
Qed.

Lemma half_l i t j t' h x e : nth_error (st_ts st) i = Some t -> nth_error (st_ts st') j = Some t' ->
  inpos M (reg st t) h x -> inpos M (reg st' t') h x -> al (reg st t) = Some e -> exists e', al (reg st' t') = Some e' /\ (X M e h <= X M e' h)%Q.
Proof.
  intros Hi Hj (A1 & A2 & A3) (B1 & B2 & B3) He. assert (Hin : In e (medges st')) by (apply HE; eapply al_in; eauto).
  destruct (al (reg st' t')) as [e'|] eqn:El.
  - exists e'. split; auto. destruct (Qlt_le_dec (X M e' h) (X M e h)) as [K|K]; auto. exfalso.
    apply (no_through W Es M gv' st' HG HM HF' j t' e Hj Hin). exists h. split; [|split; [auto|split]].
    + apply (within_l W Es M (reg st t)); auto. now apply (c_ag _ _ _ _ _ HC i).
    + rewrite El. exact K.
    + unfold orgt in *. rewrite He in A2. cbn in A2. destruct (ar (reg st' t')); auto. lra.
  - exfalso. apply (no_through W Es M gv' st' HG HM HF' j t' e Hj Hin). exists h. split; [|split; [auto|split]].
    + apply (within_l W Es M (reg st t)); auto. now apply (c_ag _ _ _ _ _ HC i).
    + rewrite El. exact Logic.I.
    + unfold orgt in *. rewrite He in A2. cbn in A2. destruct (ar (reg st' t')); auto. lra.
Qed.

Lemma half_r i t j t' h x e : nth_error (st_ts st) i = Some t -> nth_error (st_ts st') j = Some t' ->
  inpos M (reg st t) h x -> inpos M (reg st' t') h x -> ar (reg st t) = Some e -> exists e', ar (reg st' t') = Some e' /\ (X M e' h <= X M e h)%Q.
Proof.
  intros Hi Hj (A1 & A2 & A3) (B1 & B2 & B3) He. assert (Hin : In e (medges st')) by (apply HE; eapply ar_in; eauto).
  destruct (ar (reg st' t')) as [e'|] eqn:El.
  - exists e'. split; auto. destruct (Qlt_le_dec (X M e h) (X M e' h)) as [K|K]; auto. exfalso.
    apply (no_through W Es M gv' st' HG HM HF' j t' e Hj Hin). exists h. split; [|split; [auto|split]].
    + apply (within_r W Es M (reg st t)); auto. now apply (c_ag _ _ _ _ _ HC i).
    + unfold olft in *. rewrite He in A3. cbn in A3. destruct (al (reg st' t')); auto. lra.
    + rewrite El. exact K.
  - exfalso. apply (no_through W Es M gv' st' HG HM HF' j t' e Hj Hin). exists h. split; [|split; [auto|split]].
    + apply (within_r W Es M (reg st t)); auto. now apply (c_ag _ _ _ _ _ HC i).
    + unfold olft in *. rewrite He in A3. cbn in A3. destruct (al (reg st' t')); auto. lra.
    + rewrite El. exact Logic.I.
Qed.

(** A vertex touching the region from the other state is not strictly between its ends. *)
Lemma half_touch j t' p : nth_error (st_ts st') j = Some t' -> In p (points st) -> touch_l M (al (reg st' t')) (Some p) -> touch_r M (ar (reg st' t')) (Some p) ->
  ahas M (reg st' t') (ht M p) -> False.
Proof.
  intros Hj Hp Hl Hr Hh. pose proof (c_ag _ _ _ _ _ HC' j t' Hj) as Ha. assert (HpW : In p W) by now apply (c_W _ _ _ _ _ HC).
  apply (c_emp _ _ _ _ _ HC' j t' p Hj); auto. split; [auto|]. unfold olft, orgt, touch_l, touch_r in *. split.
  - destruct (al (reg st' t')) as [e|] eqn:El; auto. destruct (a_l _ _ _ _ Ha e El) as (He & _).
    destruct (within_l W Es M _ e _ Ha El Hh) as (W1 & W2). pose proof (off_edge W Es M HG HM e p He HpW W1 W2). destruct (Q_dec (X M e (ht M p)) (cx p)) as [[K|K]|K]; auto; lra.
  - destruct (ar (reg st' t')) as [e|] eqn:El; auto. destruct (a_r _ _ _ _ Ha e El) as (He & _).
    destruct (within_r W Es M _ e _ Ha El Hh) as (W1 & W2). pose proof (off_edge W Es M HG HM e p He HpW W1 W2). destruct (Q_dec (X M e (ht M p)) (cx p)) as [[K|K]|K]; auto; lra.
Qed.

Lemma half_d i t j t' h p : nth_error (st_ts st) i = Some t -> nth_error (st_ts st') j = Some t' ->
  ahas M (reg st t) h -> ahas M (reg st' t') h -> al (reg st t) = al (reg st' t') -> ar (reg st t) = ar (reg st' t') ->
  ad (reg st t) = Some p -> exists p', ad (reg st' t') = Some p' /\ (ht M p <= ht M p')%Q.
Proof.
  intros Hi Hj (A1 & A2) (B1 & B2) El Er Hd. pose proof (aend_in Desc i t p Hi Hd) as Hp. destruct (f_td _ _ _ _ _ HF i t Hi) as (T1 & T2). rewrite Hd, El in T1. rewrite Hd, Er in T2.
  assert (G : obot M (ad (reg st' t')) (ht M p) -> False).
  { intros K. apply (half_touch j t' p); auto. split; auto. rewrite Hd in A1. cbn in A1. unfold otop in *. destruct (au (reg st' t')); auto. lra. }
  destruct (ad (reg st' t')) as [p'|] eqn:Ed; [|exfalso; now apply G]. exists p'. split; auto. destruct (Qlt_le_dec (ht M p') (ht M p)) as [K|K]; auto. exfalso. now apply G.
Qed.

Lemma half_u i t j t' h p : nth_error (st_ts st) i = Some t -> nth_error (st_ts st') j = Some t' ->
  ahas M (reg st t) h -> ahas M (reg st' t') h -> al (reg st t) = al (reg st' t') -> ar (reg st t) = ar (reg st' t') ->
  au (reg st t) = Some p -> exists p', au (reg st' t') = Some p' /\ (ht M p' <= ht M p)%Q.
Proof.
  intros Hi Hj (A1 & A2) (B1 & B2) El Er Hd. pose proof (aend_in Asc i t p Hi Hd) as Hp. destruct (c_tu _ _ _ _ _ HC i t Hi) as (T1 & T2). rewrite Hd, El in T1. rewrite Hd, Er in T2.
  assert (G : otop M (au (reg st' t')) (ht M p) -> False).
  { intros K. apply (half_touch j t' p); auto. split; auto. rewrite Hd in A2. cbn in A2. unfold obot in *. destruct (ad (reg st' t')); auto. lra. }
  destruct (au (reg st' t')) as [p'|] eqn:Ed; [|exfalso; now apply G]. exists p'. split; auto. destruct (Qlt_le_dec (ht M p) (ht M p')) as [K|K]; auto. exfalso. now apply G.
Qed.
End Half.

Section Two.
Context {I J : Type}.
Variables (W : list point) (Es : list edge) (M : Q) (gv : I -> point) (st : state Q I) (gv' : J -> point) (st' : state Q J).
Hypothesis HG : geo W Es.
Hypothesis HM : shear M W.
Hypothesis HF : full W Es M gv st.
Hypothesis HF' : full W Es M gv' st'.
Hypothesis HD : forall v n, nth_error (st_ns st) v = Some n -> deg n = 2.
Hypothesis HD' : forall v n, nth_error (st_ns st') v = Some n -> deg n = 2.
Hypothesis HE : forall e, In e (medges st) <-> In e (medges st').
Hypothesis HP : forall p, In p (points st) <-> In p (points st').
Let HC : core W Es M gv st := f_core _ _ _ _ _ HF.
Let HC' : core W Es M gv' st' := f_core _ _ _ _ _ HF'.

Let HE1 : incl (medges st) (medges st') := fun e => proj1 (HE e).
Let HE2 : incl (medges st') (medges st) := fun e => proj2 (HE e).
Let HP1 : incl (points st) (points st') := fun e => proj1 (HP e).
Let HP2 : incl (points st') (points st) := fun e => proj2 (HP e).

(** Regions with a common position are the same. *)
Theorem canonical i t j t' h x : nth_error (st_ts st) i = Some t -> nth_error (st_ts st') j = Some t' ->
  inpos M (reg st t) h x -> inpos M (reg st' t') h x -> reg st t = reg st' t'.
Proof.
  intros Hi Hj A B. pose proof (c_ag _ _ _ _ _ HC i t Hi) as Ha. pose proof (c_ag _ _ _ _ _ HC' j t' Hj) as Ha'.
  assert (El : al (reg st t) = al (reg st' t')).
  { destruct (al (reg st t)) as [e|] eqn:E1.
    - destruct (half_l W Es M gv st gv' st' HG HM HF HF' HE1 i t j t' h x e Hi Hj A B E1) as (e' & E2 & K1).
      destruct (half_l W Es M gv' st' gv st HG HM HF' HF HE2 j t' i t h x e' Hj Hi B A E2) as (e0 & E0 & K2). assert (e0 = e) by congruence. subst e0.
      rewrite E2. f_equal. assert (e = e' \/ e <> e') as [|Hne] by (destruct (edge_dec e e'); auto); auto.
      exfalso. apply (no_meet W Es M HG HM e e' h); auto.
      + now apply (a_l _ _ _ _ Ha).
      + now apply (a_l _ _ _ _ Ha').
      + apply (within_l W Es M (reg st t)); auto. apply A.
      + apply (within_l W Es M (reg st' t')); auto. apply B.
      + lra.
    - destruct (al (reg st' t')) as [e'|] eqn:E2; auto. destruct (half_l W Es M gv' st' gv st HG HM HF' HF HE2 j t' i t h x e' Hj Hi B A E2) as (e0 & E0 & _). congruence. }
  assert (Er : ar (reg st t) = ar (reg st' t')).
  { destruct (ar (reg st t)) as [e|] eqn:E1.
    - destruct (half_r W Es M gv st gv' st' HG HM HF HF' HE1 i t j t' h x e Hi Hj A B E1) as (e' & E2 & K1).
      destruct (half_r W Es M gv' st' gv st HG HM HF' HF HE2 j t' i t h x e' Hj Hi B A E2) as (e0 & E0 & K2). assert (e0 = e) by congruence. subst e0.
      rewrite E2. f_equal. assert (e = e' \/ e <> e') as [|Hne] by (destruct (edge_dec e e'); auto); auto.
      exfalso. apply (no_meet W Es M HG HM e e' h); auto.
      + now apply (a_r _ _ _ _ Ha).
      + now apply (a_r _ _ _ _ Ha').
      + apply (within_r W Es M (reg st t)); auto. apply A.
      + apply (within_r W Es M (reg st' t')); auto. apply B.
      + lra.
    - destruct (ar (reg st' t')) as [e'|] eqn:E2; auto. destruct (half_r W Es M gv' st' gv st HG HM HF' HF HE2 j t' i t h x e' Hj Hi B A E2) as (e0 & E0 & _). congruence. }
  destruct A as (A & _), B as (B & _).
  assert (Ed : ad (reg st t) = ad (reg st' t')).
  { destruct (ad (reg st t)) as [p|] eqn:E1.
    - destruct (half_d W Es M gv st gv' st' HG HM HF HF' HP1 i t j t' h p Hi Hj A B El Er E1) as (p' & E2 & K1).
      destruct (half_d W Es M gv' st' gv st HG HM HF' HF HP2 j t' i t h p' Hj Hi B A (eq_sym El) (eq_sym Er) E2) as (p0 & E0 & K2). assert (p0 = p) by congruence. subst p0.
      rewrite E2. f_equal. apply (ht_inj W Es M HG HM); [now apply (a_d _ _ _ _ Ha)|now apply (a_d _ _ _ _ Ha')|lra].
    - destruct (ad (reg st' t')) as [p'|] eqn:E2; auto. destruct (half_d W Es M gv' st' gv st HG HM HF' HF HP2 j t' i t h p' Hj Hi B A (eq_sym El) (eq_sym Er) E2) as (p0 & E0 & _). congruence. }
  assert (Eu : au (reg st t) = au (reg st' t')).
  { destruct (au (reg st t)) as [p|] eqn:E1.
    - destruct (half_u W Es M gv st gv' st' HG HM HF HF' HP1 i t j t' h p Hi Hj A B El Er E1) as (p' & E2 & K1).
      destruct (half_u W Es M gv' st' gv st HG HM HF' HF HP2 j t' i t h p' Hj Hi B A (eq_sym El) (eq_sym Er) E2) as (p0 & E0 & K2). assert (p0 = p) by congruence. subst p0.
      rewrite E2. f_equal. apply (ht_inj W Es M HG HM); [now apply (a_u _ _ _ _ Ha)|now apply (a_u _ _ _ _ Ha')|lra].
    - destruct (au (reg st' t')) as [p'|] eqn:E2; auto. destruct (half_u W Es M gv' st' gv st HG HM HF' HF HP2 j t' i t h p' Hj Hi B A (eq_sym El) (eq_sym Er) E2) as (p0 & E0 & _). congruence. }
  destruct (reg st t), (reg st' t'). cbn in *. congruence.
Qed.

(** ** Regions with a common vertex and a common side *)

Lemma common_h d a a' p : agood W Es M a -> agood W Es M a' -> aend d a = Some p -> aend d a' = Some p -> exists h, ahas M a h /\ ahas M a' h.
Proof.
  intros Ha Ha' E E'. unfold ahas, obot, otop. destruct d; cbn [aend] in E, E'; rewrite E, E'.
  - assert (B : exists b, (b < ht M p)%Q /\ forall h, (b < h)%Q -> match ad a with None => True | Some d => (ht M d < h)%Q end /\ match ad a' with None => True | Some d => (ht M d < h)%Q end).
    { destruct (ad a) as [q|] eqn:Ea; destruct (ad a') as [q'|] eqn:Ea'.
      - pose proof (a_du _ _ _ _ Ha _ _ Ea E). pose proof (a_du _ _ _ _ Ha' _ _ Ea' E'). destruct (qmax_spec (ht M q) (ht M q')) as (Q1 & Q2 & Q3). exists (qmax (ht M q) (ht M q')). split; [destruct Q3 as [-> | ->]; auto|]. intros h Hh. split; lra.
      - pose proof (a_du _ _ _ _ Ha _ _ Ea E). exists (ht M q). auto.
      - pose proof (a_du _ _ _ _ Ha' _ _ Ea' E'). exists (ht M q'). auto.
      - exists (ht M p - 1)%Q. split; [lra|auto]. }
    destruct B as (b & B1 & B2). destruct (mid _ _ B1) as (M1 & M2). exists ((b + ht M p) * (1 # 2))%Q. destruct (B2 _ M1). auto.
  - assert (B : exists b, (ht M p < b)%Q /\ forall h, (h < b)%Q -> match au a with None => True | Some d => (h < ht M d)%Q end /\ match au a' with None => True | Some d => (h < ht M d)%Q end).
    { destruct (au a) as [q|] eqn:Ea; destruct (au a') as [q'|] eqn:Ea'.
      - pose proof (a_du _ _ _ _ Ha _ _ E Ea). pose proof (a_du _ _ _ _ Ha' _ _ E' Ea'). destruct (qmin_spec (ht M q) (ht M q')) as (Q1 & Q2 & Q3). exists (qmin (ht M q) (ht M q')). split; [destruct Q3 as [-> | ->]; auto|]. intros h Hh. split; lra.
      - pose proof (a_du _ _ _ _ Ha _ _ E Ea). exists (ht M q). auto.
      - pose proof (a_du _ _ _ _ Ha' _ _ E' Ea'). exists (ht M q'). auto.
      - exists (ht M p + 1)%Q. split; [lra|auto]. }
    destruct B as (b & B1 & B2). destruct (mid _ _ B1) as (M1 & M2). exists ((ht M p + b) * (1 # 2))%Q. destruct (B2 _ M2). auto.
Qed.

Lemma pick_r l l' r h : (forall e f, l = Some e -> r = Some f -> X M e h < X M f h)%Q -> (forall e f, l' = Some e -> r = Some f -> X M e h < X M f h)%Q ->
  exists x, olft M l h x /\ olft M l' h x /\ orgt M r h x.
Proof.
  intros H H'. unfold olft, orgt. destruct r as [f|].
  - set (lo := match l with Some e => X M e h | None => X M f h - 1 end%Q). set (lo' := match l' with Some e => X M e h | None => X M f h - 1 end%Q).
    assert (K : (lo < X M f h)%Q) by (unfold lo; destruct l; [now apply H|lra]). assert (K' : (lo' < X M f h)%Q) by (unfold lo'; destruct l'; [now apply H'|lra]).
    destruct (qmax_spec lo lo') as (Q1 & Q2 & Q3). assert (B : (qmax lo lo' < X M f h)%Q) by (destruct Q3 as [-> | ->]; auto). destruct (mid _ _ B) as (M1 & M2).
    exists ((qmax lo lo' + X M f h) * (1 # 2))%Q. unfold lo, lo' in *. destruct l, l'; repeat split; auto; lra.
  - set (lo := match l with Some e => X M e h | None => 0 end%Q). set (lo' := match l' with Some e => X M e h | None => 0 end%Q).
    destruct (qmax_spec lo lo') as (Q1 & Q2 & Q3). exists (qmax lo lo' + 1)%Q. unfold lo, lo' in *. destruct l, l'; repeat split; auto; lra.
Qed.

Lemma pick_l l r r' h : (forall e f, l = Some e -> r = Some f -> X M e h < X M f h)%Q -> (forall e f, l = Some e -> r' = Some f -> X M e h < X M f h)%Q ->
  exists x, olft M l h x /\ orgt M r h x /\ orgt M r' h x.
Proof.
  intros H H'. unfold olft, orgt. destruct l as [f|].
  - set (lo := match r with Some e => X M e h | None => X M f h + 1 end%Q). set (lo' := match r' with Some e => X M e h | None => X M f h + 1 end%Q).
    assert (K : (X M f h < lo)%Q) by (unfold lo; destruct r; [now apply H|lra]). assert (K' : (X M f h < lo')%Q) by (unfold lo'; destruct r'; [now apply H'|lra]).
    destruct (qmin_spec lo lo') as (Q1 & Q2 & Q3). assert (B : (X M f h < qmin lo lo')%Q) by (destruct Q3 as [-> | ->]; auto). destruct (mid _ _ B) as (M1 & M2).
    exists ((X M f h + qmin lo lo') * (1 # 2))%Q. unfold lo, lo' in *. destruct r, r'; repeat split; auto; lra.
  - set (lo := match r with Some e => X M e h | None => 0 end%Q). set (lo' := match r' with Some e => X M e h | None => 0 end%Q).
    destruct (qmin_spec lo lo') as (Q1 & Q2 & Q3). exists (qmin lo lo' - 1)%Q. unfold lo, lo' in *. destruct r, r'; repeat split; auto; lra.
Qed.

Lemma common d a a' p : agood W Es M a -> agood W Es M a' -> aend d a = Some p -> aend d a' = Some p -> al a = al a' \/ ar a = ar a' ->
  exists h x, inpos M a h x /\ inpos M a' h x.
Proof.
  intros Ha Ha' E E' H. destruct (common_h d a a' p Ha Ha' E E') as (h & Hh & Hh'). exists h. destruct H as [H|H].
  - destruct (pick_l (al a) (ar a) (ar a') h) as (x & K1 & K2 & K3).
    + intros e f He Hf. now apply (a_lr _ _ _ _ Ha).
    + intros e f He Hf. rewrite H in He. now apply (a_lr _ _ _ _ Ha').
    + exists x. unfold inpos. rewrite <- H. auto.
  - destruct (pick_r (al a) (al a') (ar a) h) as (x & K1 & K2 & K3).
    + intros e f He Hf. now apply (a_lr _ _ _ _ Ha).
    + intros e f He Hf. rewrite H in Hf. now apply (a_lr _ _ _ _ Ha').
    + exists x. unfold inpos. rewrite <- H. auto.
Qed.

Lemma pick_b (o o' : option point) : exists h, obot M o h /\ obot M o' h.
Proof.
  set (lo := match o with Some e => ht M e | None => 0 end%Q). set (lo' := match o' with Some e => ht M e | None => 0 end%Q).
  destruct (qmax_spec lo lo') as (Q1 & Q2 & Q3). exists (qmax lo lo' + 1)%Q. unfold obot, lo, lo' in *. destruct o, o'; repeat split; auto; lra.
Qed.

(** The same region in both states. *)
Definition same (i j : nat) : Prop := exists t t', nth_error (st_ts st) i = Some t /\ nth_error (st_ts st') j = Some t' /\ reg st t = reg st' t'.

Notation oe L := (option_map (eat st) L).
Notation oe' L := (option_map (eat st') L).

Lemma same_top i j L R L' R' v v' : top st i L R v -> top st' j L' R' v' -> pnt st v = pnt st' v' -> oe L = oe' L' \/ oe R = oe' R' -> same i j.
Proof.
  intros (L1 & A1 & A2 & A3) (L2 & B1 & B2 & B3) Hp H. destruct (nth_ts st i L1) as (t & Ht). destruct (nth_ts st' j L2) as (t' & Ht').
  unfold tl, tr, tu in *. rewrite Ht in *. rewrite Ht' in *. exists t, t'. split; auto. split; auto.
  destruct (common Asc (reg st t) (reg st' t') (pnt st v)) as (h & x & K1 & K2).
  - now apply (c_ag _ _ _ _ _ HC i).
  - now apply (c_ag _ _ _ _ _ HC' j).
  - cbn. rewrite A3. reflexivity.
  - cbn. rewrite B3. rewrite Hp. reflexivity.
  - rewrite !al_reg, !ar_reg, A1, A2, B1, B2. exact H.
  - eapply canonical; eauto.
Qed.

Lemma same_bot i j L R L' R' v v' : bot st i L R v -> bot st' j L' R' v' -> pnt st v = pnt st' v' -> oe L = oe' L' \/ oe R = oe' R' -> same i j.
Proof.
  intros (L1 & A1 & A2 & A3) (L2 & B1 & B2 & B3) Hp H. destruct (nth_ts st i L1) as (t & Ht). destruct (nth_ts st' j L2) as (t' & Ht').
  unfold tl, tr, td in *. rewrite Ht in *. rewrite Ht' in *. exists t, t'. split; auto. split; auto.
  destruct (common Desc (reg st t) (reg st' t') (pnt st v)) as (h & x & K1 & K2).
  - now apply (c_ag _ _ _ _ _ HC i).
  - now apply (c_ag _ _ _ _ _ HC' j).
  - cbn. rewrite A3. reflexivity.
  - cbn. rewrite B3. rewrite Hp. reflexivity.
  - rewrite !al_reg, !ar_reg, A1, A2, B1, B2. exact H.
  - eapply canonical; eauto.
Qed.

Lemma same_l i j : same i j -> oe (tl st i) = oe' (tl st' j).
Proof. intros (t & t' & Ht & Ht' & E). unfold tl. rewrite Ht, Ht', <- !al_reg. now rewrite E. Qed.
Lemma same_r i j : same i j -> oe (tr st i) = oe' (tr st' j).
Proof. intros (t & t' & Ht & Ht' & E). unfold tr. rewrite Ht, Ht', <- !ar_reg. now rewrite E. Qed.

(** ** Vertices *)

Lemma eat_inj s s' g g' : nth_error (st_ss st) s = Some g -> nth_error (st_ss st) s' = Some g' -> eat st s = eat st s' -> s = s'.
Proof.
  intros H H' E. rewrite (eat_nth st s g H), (eat_nth st s' g' H') in E. apply (medges_eq W Es M gv st s s' (sedge g) HC); [now apply medges_nth|rewrite E; now apply medges_nth].
Qed.

Lemma seg_to d v v' s g n' : nth_error (st_ns st') v' = Some n' -> pnt st v = pnt st' v' -> nth_error (st_ss st) s = Some g -> send (opp d) g = v ->
  exists s', In s' (seps n' d) /\ eat st' s' = eat st s.
Proof.
  intros Hn' Hp Hs Hv. destruct (c_ss _ _ _ _ _ HC s g Hs) as (S1 & S2 & S3).
  assert (Hin : In (sedge g) (medges st')). { apply HE. eapply nth_error_In. apply medges_nth. exact Hs. }
  apply In_nth_error in Hin. destruct Hin as (s' & Hs'). destruct (medges_inv _ _ _ Hs') as (g' & Hg' & Eg). destruct (c_ss _ _ _ _ _ HC' s' g' Hg') as (S1' & S2' & S3').
  exists s'. split; [|now rewrite (eat_nth st s g Hs), (eat_nth st' s' g' Hg')].
  destruct (f_s _ _ _ _ _ HF' s' g' (opp d) Hg') as (n0 & Hn0 & K). assert (opp (opp d) = d) as Ed by now destruct d. rewrite Ed in K.
  assert (send (opp d) g' = v') as Ev.
  { apply (points_eq W Es M gv' st' _ _ (n_c n') HC'); [|now apply points_nth]. rewrite <- (pnt_n st' v' n' Hn'), <- Hp. rewrite <- Hv. unfold pnt. unfold sedge in Eg. injection Eg as E1 E2.
    destruct d; cbn [send opp] in *.
    - rewrite (nth_err_nth _ _ _ dpt S1), <- E1. exact S1'.
    - rewrite (nth_err_nth _ _ _ dpt S2), <- E2. exact S2'. }
  rewrite Ev in Hn0. assert (n0 = n') by congruence. now subst.
Qed.

(** Two edges between the same two trapezoids in one order. *)
Lemma two_order i j e f t t' : nth_error (st_ts st) i = Some t -> nth_error (st_ts st') j = Some t' -> al (reg st t) = Some e -> ar (reg st t) = Some f ->
  al (reg st' t') = Some f -> ar (reg st' t') = Some e -> False.
Proof.
  intros Ht Ht' A1 A2 B1 B2. destruct (mid_l W Es M gv st HF i t e Ht A1) as (h & Hh). pose proof (c_ag _ _ _ _ _ HC i t Ht) as Ha.
  assert (W1 : within M e h) by (eapply within_l; eauto). assert (W2 : within M f h) by (eapply within_r; eauto).
  pose proof (reg_order W Es M gv st HG HM HF i t e f h Ht A1 A2 W1 W2). pose proof (reg_order W Es M gv' st' HG HM HF' j t' f e h Ht' B1 B2 W2 W1). lra.
Qed.

Lemma node_V v v' n' L R s0 s1 ul uc ur dn : nth_error (st_ns st') v' = Some n' -> pnt st v = pnt st' v' -> nodeV st v L R s0 s1 ul uc ur dn ->
  exists L' R' s0' s1' ul' uc' ur' dn', nodeV st' v' L' R' s0' s1' ul' uc' ur' dn' /\ same ul ul' /\ same uc uc' /\ same ur ur' /\ same dn dn'.
Proof.
  intros Hn' Hp N. destruct (nv_n _ _ _ _ _ _ _ _ _ _ N) as (n & Hn & _ & Ea & Ed & _).
  pose proof (nv_ul _ _ _ _ _ _ _ _ _ _ N) as Bul. pose proof (nv_uc _ _ _ _ _ _ _ _ _ _ N) as Buc. pose proof (nv_ur _ _ _ _ _ _ _ _ _ _ N) as Bur. pose proof (nv_dn _ _ _ _ _ _ _ _ _ _ N) as Tdn.
  destruct (x_sep _ _ _ _ (f_n _ _ _ _ _ HF v n Hn) Asc s0) as (g0 & G0 & V0); [rewrite Ea; now left|].
  destruct (x_sep _ _ _ _ (f_n _ _ _ _ _ HF v n Hn) Asc s1) as (g1 & G1 & V1); [rewrite Ea; right; now left|].
  destruct (seg_to Asc v v' s0 g0 n' Hn' Hp G0 V0) as (a & Ia & Ka). destruct (seg_to Asc v v' s1 g1 n' Hn' Hp G1 V1) as (b & Ib & Kb).
  assert (Hab : a <> b). { intros <-. apply (nv_ne _ _ _ _ _ _ _ _ _ _ N). apply (eat_inj s0 s1 g0 g1); congruence. }
  destruct (node_cases W Es M gv' st' HG HM HF' HD' v' n' Hn') as [(L' & R' & s0' & s1' & ul' & uc' & ur' & dn' & N')|[(L' & R' & s & s' & ul' & ur' & dl' & dr' & N')|(L' & R' & s0' & s1' & up' & dl' & dc' & dr' & N')]].
  2:{ destruct (ni_n _ _ _ _ _ _ _ _ _ _ N') as (n0 & Hn0 & _ & Ea' & _). assert (n0 = n') by congruence. subst n0. rewrite Ea' in Ia, Ib. destruct Ia as [<-|[]], Ib as [<-|[]]. congruence. }
  2:{ destruct (na_n _ _ _ _ _ _ _ _ _ _ N') as (n0 & Hn0 & _ & Ea' & _). assert (n0 = n') by congruence. subst n0. rewrite Ea' in Ia. easy. }
  destruct (nv_n _ _ _ _ _ _ _ _ _ _ N') as (n0 & Hn0 & _ & Ea' & _). assert (n0 = n') by congruence. subst n0.
  pose proof (nv_ul _ _ _ _ _ _ _ _ _ _ N') as Bul'. pose proof (nv_uc _ _ _ _ _ _ _ _ _ _ N') as Buc'. pose proof (nv_ur _ _ _ _ _ _ _ _ _ _ N') as Bur'. pose proof (nv_dn _ _ _ _ _ _ _ _ _ _ N') as Tdn'.
  assert (E : eat st s0 = eat st' s0' /\ eat st s1 = eat st' s1').
  { rewrite Ea' in Ia, Ib. destruct Ia as [<-|[<-|[]]], Ib as [<-|[<-|[]]]; try congruence; auto. exfalso.
    destruct Buc as (L1 & A1 & A2 & _), Buc' as (L2 & B1 & B2 & _). destruct (nth_ts st uc L1) as (t & Ht). destruct (nth_ts st' uc' L2) as (t' & Ht').
    unfold tl, tr in *. rewrite Ht in *. rewrite Ht' in *. apply (two_order uc uc' (eat st s0) (eat st s1) t t' Ht Ht'); rewrite ?al_reg, ?ar_reg, ?A1, ?A2, ?B1, ?B2; cbn; congruence. }
  destruct E as (E0 & E1).
  exists L', R', s0', s1', ul', uc', ur', dn'. split; auto.
  assert (Sul : same ul ul'). { eapply same_bot; eauto. right. cbn. congruence. }
  split; auto. split. { eapply same_bot; eauto. left. cbn. congruence. } split. { eapply same_bot; eauto. left. cbn. congruence. }
  eapply same_top; eauto. left. pose proof (same_l _ _ Sul) as K. destruct Bul as (_ & Z1 & _), Bul' as (_ & Z2 & _). now rewrite Z1, Z2 in K.
Qed.

Lemma node_I v v' n' L R s s' ul ur dl dr : nth_error (st_ns st') v' = Some n' -> pnt st v = pnt st' v' -> nodeI st v L R s s' ul ur dl dr ->
  exists L' R' r r' ul' ur' dl' dr', nodeI st' v' L' R' r r' ul' ur' dl' dr' /\ same ul ul' /\ same ur ur' /\ same dl dl' /\ same dr dr'.
Proof.
  intros Hn' Hp N. destruct (ni_n _ _ _ _ _ _ _ _ _ _ N) as (n & Hn & _ & Ea & Ed & _).
  pose proof (ni_ul _ _ _ _ _ _ _ _ _ _ N) as Bul. pose proof (ni_ur _ _ _ _ _ _ _ _ _ _ N) as Bur. pose proof (ni_dl _ _ _ _ _ _ _ _ _ _ N) as Tdl. pose proof (ni_dr _ _ _ _ _ _ _ _ _ _ N) as Tdr.
  destruct (x_sep _ _ _ _ (f_n _ _ _ _ _ HF v n Hn) Asc s) as (g0 & G0 & V0); [rewrite Ea; now left|].
  destruct (x_sep _ _ _ _ (f_n _ _ _ _ _ HF v n Hn) Desc s') as (g1 & G1 & V1); [rewrite Ed; now left|].
  destruct (seg_to Asc v v' s g0 n' Hn' Hp G0 V0) as (a & Ia & Ka). destruct (seg_to Desc v v' s' g1 n' Hn' Hp G1 V1) as (b & Ib & Kb).
  destruct (node_cases W Es M gv' st' HG HM HF' HD' v' n' Hn') as [(L' & R' & s0' & s1' & ul' & uc' & ur' & dn' & N')|[(L' & R' & r & r' & ul' & ur' & dl' & dr' & N')|(L' & R' & s0' & s1' & up' & dl' & dc' & dr' & N')]].
  1:{ destruct (nv_n _ _ _ _ _ _ _ _ _ _ N') as (n0 & Hn0 & _ & _ & Ed' & _). assert (n0 = n') by congruence. subst n0. rewrite Ed' in Ib. easy. }
  2:{ destruct (na_n _ _ _ _ _ _ _ _ _ _ N') as (n0 & Hn0 & _ & Ea' & _). assert (n0 = n') by congruence. subst n0. rewrite Ea' in Ia. easy. }
  destruct (ni_n _ _ _ _ _ _ _ _ _ _ N') as (n0 & Hn0 & _ & Ea' & Ed' & _). assert (n0 = n') by congruence. subst n0.
  rewrite Ea' in Ia. rewrite Ed' in Ib. destruct Ia as [<-|[]], Ib as [<-|[]].
  pose proof (ni_ul _ _ _ _ _ _ _ _ _ _ N') as Bul'. pose proof (ni_ur _ _ _ _ _ _ _ _ _ _ N') as Bur'. pose proof (ni_dl _ _ _ _ _ _ _ _ _ _ N') as Tdl'. pose proof (ni_dr _ _ _ _ _ _ _ _ _ _ N') as Tdr'.
  exists L', R', r, r', ul', ur', dl', dr'. split; auto.
  split. { eapply same_bot; eauto. right. cbn. congruence. } split. { eapply same_bot; eauto. left. cbn. congruence. }
  split. { eapply same_top; eauto. right. cbn. congruence. } { eapply same_top; eauto. left. cbn. congruence. }
Qed.

Lemma node_A v v' n' L R s0 s1 up dl dc dr : nth_error (st_ns st') v' = Some n' -> pnt st v = pnt st' v' -> nodeA st v L R s0 s1 up dl dc dr ->
  exists L' R' s0' s1' up' dl' dc' dr', nodeA st' v' L' R' s0' s1' up' dl' dc' dr' /\ same up up' /\ same dl dl' /\ same dc dc' /\ same dr dr'.
Proof.
  intros Hn' Hp N. destruct (na_n _ _ _ _ _ _ _ _ _ _ N) as (n & Hn & _ & Ea & Ed & _).
  pose proof (na_up _ _ _ _ _ _ _ _ _ _ N) as Bup. pose proof (na_dl _ _ _ _ _ _ _ _ _ _ N) as Tdl. pose proof (na_dc _ _ _ _ _ _ _ _ _ _ N) as Tdc. pose proof (na_dr _ _ _ _ _ _ _ _ _ _ N) as Tdr.
  destruct (x_sep _ _ _ _ (f_n _ _ _ _ _ HF v n Hn) Desc s0) as (g0 & G0 & V0); [rewrite Ed; now left|].
  destruct (x_sep _ _ _ _ (f_n _ _ _ _ _ HF v n Hn) Desc s1) as (g1 & G1 & V1); [rewrite Ed; right; now left|].
  destruct (seg_to Desc v v' s0 g0 n' Hn' Hp G0 V0) as (a & Ia & Ka). destruct (seg_to Desc v v' s1 g1 n' Hn' Hp G1 V1) as (b & Ib & Kb).
  assert (Hab : a <> b). { intros <-. apply (na_ne _ _ _ _ _ _ _ _ _ _ N). apply (eat_inj s0 s1 g0 g1); congruence. }
  destruct (node_cases W Es M gv' st' HG HM HF' HD' v' n' Hn') as [(L' & R' & s0' & s1' & ul' & uc' & ur' & dn' & N')|[(L' & R' & s & s' & ul' & ur' & dl' & dr' & N')|(L' & R' & s0' & s1' & up' & dl' & dc' & dr' & N')]].
  1:{ destruct (nv_n _ _ _ _ _ _ _ _ _ _ N') as (n0 & Hn0 & _ & _ & Ed' & _). assert (n0 = n') by congruence. subst n0. rewrite Ed' in Ia. easy. }
  1:{ destruct (ni_n _ _ _ _ _ _ _ _ _ _ N') as (n0 & Hn0 & _ & _ & Ed' & _). assert (n0 = n') by congruence. subst n0. rewrite Ed' in Ia, Ib. destruct Ia as [<-|[]], Ib as [<-|[]]. congruence. }
  destruct (na_n _ _ _ _ _ _ _ _ _ _ N') as (n0 & Hn0 & _ & _ & Ed' & _). assert (n0 = n') by congruence. subst n0.
  pose proof (na_up _ _ _ _ _ _ _ _ _ _ N') as Bup'. pose proof (na_dl _ _ _ _ _ _ _ _ _ _ N') as Tdl'. pose proof (na_dc _ _ _ _ _ _ _ _ _ _ N') as Tdc'. pose proof (na_dr _ _ _ _ _ _ _ _ _ _ N') as Tdr'.
  assert (E : eat st s0 = eat st' s0' /\ eat st s1 = eat st' s1').
  { rewrite Ed' in Ia, Ib. destruct Ia as [<-|[<-|[]]], Ib as [<-|[<-|[]]]; try congruence; auto. exfalso.
    destruct Tdc as (L1 & A1 & A2 & _), Tdc' as (L2 & B1 & B2 & _). destruct (nth_ts st dc L1) as (t & Ht). destruct (nth_ts st' dc' L2) as (t' & Ht').
    unfold tl, tr in *. rewrite Ht in *. rewrite Ht' in *. apply (two_order dc dc' (eat st s0) (eat st s1) t t' Ht Ht'); rewrite ?al_reg, ?ar_reg, ?A1, ?A2, ?B1, ?B2; cbn; congruence. }
  destruct E as (E0 & E1).
  exists L', R', s0', s1', up', dl', dc', dr'. split; auto.
  assert (Sdl : same dl dl'). { eapply same_top; eauto. right. cbn. congruence. }
  split; [|split; [auto|split]].
  - eapply same_bot; eauto. left. pose proof (same_l _ _ Sdl) as K. destruct Tdl as (_ & Z1 & _), Tdl' as (_ & Z2 & _). now rewrite Z1, Z2 in K.
  - eapply same_top; eauto. left. cbn. congruence.
  - eapply same_top; eauto. left. cbn. congruence.
Qed.

(** The topmost trapezoids. *)
Lemma same_tops i j : i < length (st_ts st) -> j < length (st_ts st') -> tu st i = None -> tu st' j = None -> same i j.
Proof.
  intros Hi Hj Ui Uj. destruct (nth_ts st i Hi) as (t & Ht). destruct (nth_ts st' j Hj) as (t' & Ht'). exists t, t'. split; auto. split; auto.
  assert (Tl : tl st i = None). { destruct (tl st i) as [e|] eqn:El; auto. destruct (tl_spans _ _ M gv st HG HM HF i e El) as (g & d & u & _ & _ & Hu & _). congruence. }
  assert (Tr : tr st i = None). { destruct (tr st i) as [e|] eqn:El; auto. destruct (tr_spans _ _ M gv st HG HM HF i e El) as (g & d & u & _ & _ & Hu & _). congruence. }
  assert (Tl' : tl st' j = None). { destruct (tl st' j) as [e|] eqn:El; auto. destruct (tl_spans _ _ M gv' st' HG HM HF' j e El) as (g & d & u & _ & _ & Hu & _). congruence. }
  assert (Tr' : tr st' j = None). { destruct (tr st' j) as [e|] eqn:El; auto. destruct (tr_spans _ _ M gv' st' HG HM HF' j e El) as (g & d & u & _ & _ & Hu & _). congruence. }
  unfold tl, tr, tu in *. rewrite Ht in *. rewrite Ht' in *.
  destruct (pick_b (ad (reg st t)) (ad (reg st' t'))) as (h & H1 & H2).
  apply (canonical i t j t' h 0%Q Ht Ht'); (split; [split; auto|split]); rewrite ?al_reg, ?ar_reg; cbn; rewrite ?Ui, ?Uj, ?Tl, ?Tr, ?Tl', ?Tr'; exact Logic.I.
Qed.
End Two.
