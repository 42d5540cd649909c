(** No inserted edge passes through a trapezoid, at any time of the construction. *)
From Coq Require Import QArith Lqa List Arith Lia Bool.
From Verif Require Import Base Coord Trap Lanes Plane Geo Region TrapInv Walk.
Import ListNotations.
Local Open Scope nat_scope.

Section Clear.
Context {I : Type}.
Variables (W : list point) (Es : list edge) (M : Q) (gv : I -> point) (st : state Q I).
Hypothesis HG : geo W Es.
Hypothesis HM : shear M W.
Hypothesis HF : full W Es M gv st.
Let HC : core W Es M gv st := f_core _ _ _ _ _ HF.

(** The sides of a trapezoid are in this order wherever both extend. *)
Lemma sides_order i t x y g g' h : nth_error (st_ts st) i = Some t -> t_l t = Some x -> t_r t = Some y -> nth_error (st_ss st) x = Some g -> nth_error (st_ss st) y = Some g' ->
  within M (sedge g) h -> within M (sedge g') h -> (X M (sedge g) h < X M (sedge g') h)%Q.
Proof.
  intros Ht Hl Hr Hg Hg' W1 W2. pose proof (c_ag _ _ _ _ _ HC i t Ht) as Ha.
  destruct (reg_l W Es M gv st i t x HC Ht Hl) as (g0 & G0 & A1). assert (g0 = g) by congruence. subst g0.
  destruct (reg_r W Es M gv st i t y HC Ht Hr) as (g1 & G1 & A2). assert (g1 = g') by congruence. subst g1.
  destruct (a_l _ _ _ _ Ha _ A1) as (E1 & Hs). destruct (a_r _ _ _ _ Ha _ A2) as (E2 & _).
  assert (K : exists h0, ahas M (reg st t) h0).
  { unfold spans in Hs. destruct (ad (reg st t)) as [d|] eqn:Ed; [|easy]. destruct (au (reg st t)) as [u|] eqn:Eu; [|easy].
    destruct (mid _ _ (a_du _ _ _ _ Ha d u Ed Eu)) as (M1 & M2). eexists. unfold ahas, obot, otop. rewrite Ed, Eu. split; eassumption. }
  destruct K as (h0 & H0). apply (order_const W Es M HG HM _ _ h0 h); auto.
  - eapply within_l; eauto.
  - eapply within_r; eauto.
  - eapply a_lr; eauto.
Qed.

Lemma clear_top i t e g v : nth_error (st_ts st) i = Some t -> nth_error (st_ss st) e = Some g -> t_u t = Some v -> s_max g = v ->
  ~ through M (sedge g) (reg st t).
Proof.
  intros Ht Hg Hu Hv (h & Hw & Hh & Hl & Hr). pose proof (c_ag _ _ _ _ _ HC i t Ht) as Ha.
  destruct (f_s _ _ _ _ _ HF e g Asc Hg) as (n & Hn & He). cbn [send opp] in Hn, He. rewrite Hv in Hn.
  destruct (f_c _ _ _ _ _ HF i t Asc v Ht Hu) as (n' & Hn' & Hi). assert (n' = n) by congruence. subst n'. cbn [opp] in Hi.
  destruct (x_lane _ _ _ _ (f_n _ _ _ _ _ HF v n Hn)) as (L & R & HL). specialize (HL Desc).
  assert (KL : forall x g', t_l t = Some x -> nth_error (st_ss st) x = Some g' -> (X M (sedge g') h < X M (sedge g) h)%Q /\ within M (sedge g') h).
  { intros x g' Hx Hg'. destruct (reg_l W Es M gv st i t x HC Ht Hx) as (g0 & G0 & A1). assert (g0 = g') by congruence. subst g0.
    rewrite A1 in Hl. split; [exact Hl|]. eapply within_l; eauto. }
  assert (KR : forall x g', t_r t = Some x -> nth_error (st_ss st) x = Some g' -> (X M (sedge g) h < X M (sedge g') h)%Q /\ within M (sedge g') h).
  { intros x g' Hx Hg'. destruct (reg_r W Es M gv st i t x HC Ht Hx) as (g0 & G0 & A1). assert (g0 = g') by congruence. subst g0.
    rewrite A1 in Hr. split; [exact Hr|]. eapply within_r; eauto. }
  assert (SS : forall x, In x (seps n Desc) -> exists g', nth_error (st_ss st) x = Some g'). { intros x Hx. destruct (x_sep _ _ _ _ (f_n _ _ _ _ _ HF v n Hn) Desc x Hx) as (g' & ? & _). eauto. }
  unfold seps, iter_trapezoids, bnd in *. destruct (filter_dividers n Desc) as [|a|a b]; cbn [In map app] in *.
  - easy.
  - destruct He as [<-|[]]. rewrite lane_cons in HL. destruct HL as ((t1 & T1 & _ & T3 & _) & HL). rewrite lane_cons in HL. destruct HL as ((t2 & T4 & T5 & _ & _) & _).
    destruct Hi as [<-|[<-|[]]].
    + assert (t1 = t) by congruence. subst. destruct (KR _ _ T3 Hg). lra.
    + assert (t2 = t) by congruence. subst. destruct (KL _ _ T5 Hg). lra.
  - rewrite lane_cons in HL. destruct HL as ((t1 & T1 & _ & T3 & _) & HL). rewrite lane_cons in HL. destruct HL as ((t2 & T4 & T5 & T6 & _) & HL).
    rewrite lane_cons in HL. destruct HL as ((t3 & T7 & T8 & _ & _) & _).
    destruct (SS (d_si a) (or_introl eq_refl)) as (ga & Ga). destruct (SS (d_si b) (or_intror (or_introl eq_refl))) as (gb & Gb).
    pose proof (fun h => sides_order _ t2 _ _ ga gb h T4 T5 T6 Ga Gb) as O.
    destruct He as [<-|[<-|[]]].
    + assert (ga = g) by congruence. subst ga. destruct Hi as [<-|[<-|[<-|[]]]].
      * assert (t1 = t) by congruence. subst. destruct (KR _ _ T3 Hg). lra.
      * assert (t2 = t) by congruence. subst. destruct (KL _ _ T5 Hg). lra.
      * assert (t3 = t) by congruence. subst. destruct (KL _ _ T8 Gb) as (K & K'). specialize (O h Hw K'). lra.
    + assert (gb = g) by congruence. subst gb. destruct Hi as [<-|[<-|[<-|[]]]].
      * assert (t1 = t) by congruence. subst. destruct (KR _ _ T3 Ga) as (K & K'). specialize (O h K' Hw). lra.
      * assert (t2 = t) by congruence. subst. destruct (KR _ _ T6 Hg). lra.
      * assert (t3 = t) by congruence. subst. destruct (KL _ _ T8 Hg). lra.
Qed.

Theorem clear i t e : nth_error (st_ts st) i = Some t -> In e (medges st) -> ~ through M e (reg st t).
Proof.
  intros Ht He. apply In_nth_error in He. destruct He as (s & Hs). destruct (medges_inv _ _ _ Hs) as (g & Hg & Eg).
  destruct (c_ss _ _ _ _ _ HC s g Hg) as (S1 & S2 & S3). subst e.
  assert (Hp : In (s_cmax g) (points st)) by (eapply nth_error_In; eauto).
  assert (HpW : In (s_cmax g) W) by now apply (c_W _ _ _ _ _ HC).
  assert (Hend : forall i t, nth_error (st_ts st) i = Some t -> through M (sedge g) (reg st t) -> ~ otop M (au (reg st t)) (ht M (s_cmax g))).
  { clear i t Ht. intros i t Ht Hth Ho. apply (c_emp _ _ _ _ _ HC i t (s_cmax g) Ht Hp).
    apply (through_end W Es M HG HM Asc (sedge g) (reg st t)); auto. { now apply (c_ag _ _ _ _ _ HC i). } split; auto. destruct Hth as (h & (W1 & W2) & (Hb & _) & _). cbn [eend sedge snd] in *. unfold obot in *. destruct (ad (reg st t)); auto. lra. }
  assert (G : forall p, In p W -> forall i t, nth_error (st_ts st) i = Some t -> au (reg st t) = Some p -> ~ through M (sedge g) (reg st t)).
  { clear i t Ht. intros p Hpw. pattern p. revert p Hpw. apply fin_ind with (f := toward M Asc). intros p Hpw IH i t Ht Hu Hth.
    destruct (reg_end_inv W Es M gv st i t Asc p HC Ht Hu) as (v & n & Hv & Hn & Ep).
    destruct (ht_tri W Es M HG HM p (s_cmax g) Hpw HpW) as [K|[K|K]].
    - assert (Hwi : within M (sedge g) (ht M (n_c n))). { rewrite Ep. split; [|exact K]. destruct Hth as (h & (W1 & _) & (_ & Ho) & _). rewrite Hu in Ho. cbn in Ho. lra. }
      destruct (walk_step W Es M gv HG HM st Asc (sedge g) i t v n HF Ht S3 Hth Hv Hn Hwi) as (t' & Ht' & Hth' & Hv').
      destruct (au (reg st t')) as [q|] eqn:Eq.
      + refine (IH q _ _ _ t' Ht' Eq Hth').
        * now apply (a_u _ _ _ _ (c_ag _ _ _ _ _ HC _ t' Ht')).
        * unfold toward. destruct (reg_end W Es M gv st _ t' Desc v HC Ht' Hv') as (n0 & Hn0 & A0). assert (n0 = n) by congruence. subst n0.
          pose proof (a_du _ _ _ _ (c_ag _ _ _ _ _ HC _ t' Ht') _ _ A0 Eq) as Z. rewrite Ep in Z. lra.
      + apply (Hend _ t' Ht' Hth'). rewrite Eq. exact Logic.I.
    - refine (clear_top i t s g v Ht Hg Hv _ Hth).
      apply (points_eq W Es M gv st _ _ (s_cmax g) HC S2). rewrite <- K, <- Ep. now apply points_nth.
    - apply (Hend i t Ht Hth). rewrite Hu. exact K. }
  destruct (au (reg st t)) as [p|] eqn:Eu.
  - apply (G p) with (i := i); auto. now apply (a_u _ _ _ _ (c_ag _ _ _ _ _ HC _ t Ht)).
  - intros Hth. apply (Hend i t Ht Hth). rewrite Eu. exact Logic.I.
Qed.

End Clear.
