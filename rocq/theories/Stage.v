(** Trapezoids to the right of everything: how their paths add up. *)
From Coq Require Import QArith Lqa List Arith Lia Bool Permutation.
From Verif Require Import Base Coord Trap Lanes Plane Geo Region TrapInv Depth Polygons Build Faces Sweep Canon RandomSize Visits Grown.
Import ListNotations.
Local Open Scope nat_scope.

(** The check ends, with one count. *)
Lemma wfq_count {C} {OC : CoordOps C} {I} (st : state C I) k : (forall k i, nth_error (st_qs st) k = Some (QSink i) -> i < length (st_ts st)) ->
  wfq (st_qs st) k -> exists n, evt (fun f => check_count f st k) n.
Proof.
  intros Hs. induction 1 as [k i Hk|k l r b Hk _ (n1 & N1 & H1) _ (n2 & N2 & H2)].
  - exists (0 + 1), 1. intros [|f] Hf; [lia|]. cbn [check_count]. unfold rdu. rewrite Hk. cbn [bind]. destruct (lt_nth _ _ _ (Hs _ _ Hk)) as (t & ->). reflexivity.
  - exists (n1 + n2 + 1), (S (N1 + N2)). intros [|f] Hf; [lia|]. cbn [check_count]. unfold rdu. rewrite Hk. cbn [bind]. rewrite H1, H2 by lia. reflexivity.
Qed.

Section Stage.
Context {I : Type}.
Variables (W : list point) (Es : list edge) (M : Q) (gv : I -> point).
Hypothesis HG : geo W Es.
Hypothesis HM : shear M W.
Notation stt := (state Q I).
Notation rest := (rest W Es M gv).
Notation full := (full W Es M gv).

(** At least [m] paths to the trapezoid of a point. *)
Definition paths (st : stt) (p : point) (m : nat) : Prop := exists k, finds (st_qs st) p 0 k /\ many (st_qs st) k m.

Definition outside (st : stt) (p : point) : Prop := In p W /\ ~ In p (points st).

Lemma ngrow_stay (st st1 : stt) : ngrow st st1 -> stay (st_qs st) (st_qs st1) /\ length (st_qs st) <= length (st_qs st1).
Proof.
  intros ((l & E) & _ & Hq & (K & _)). split; [exact K|]. rewrite E, app_length in Hq. lia.
Qed.

Lemma out_finds st p : full st -> outside st p -> exists i t, nth_error (st_ts st) i = Some t /\ inside M (reg st t) p /\ finds (st_qs st) p 0 (t_k t).
Proof. intros HF (H1 & H2). exact (c_loc _ _ _ _ _ (f_core _ _ _ _ _ HF) p H1 H2). Qed.

Lemma finds_det {C} {OC : CoordOps C} qs (c : coords C) q k : finds qs c q k -> forall k', finds qs c q k' -> k' = k.
Proof.
  induction 1 as [k i H|k l r b k1 H _ IH]; intros k' H'; inversion H' as [? j K|? l' r' b' ? K K']; subst; auto; try congruence.
  rewrite H in K. injection K as <- <- <-. auto.
Qed.

Lemma paths_new p : paths state_new p 1.
Proof.
  exists 0. split; [now apply F_sink with 0|]. exists [[]]. split; [constructor; [easy|constructor]|]. split; auto. intros s [<-|[]]. reflexivity.
Qed.

Lemma paths_step st st1 p m : full st1 -> ngrow st st1 -> outside st1 p -> paths st p m -> paths st1 p m.
Proof.
  intros HF HN Ho (k & Hk & Hm). destruct (ngrow_stay _ _ HN) as (K1 & K2). destruct (out_finds _ _ HF Ho) as (i & t & _ & _ & Hf). exists (t_k t). split; auto. eapply many_stay; eauto.
Qed.

(** The edge has nothing to its right. *)
Record rightmost (st : stt) (e : edge) : Prop := {
  rm_in : In e (medges st);
  rm_e : forall f h, In f (medges st) -> within M f h -> within M e h -> ~ (X M e h < X M f h)%Q;
  rm_v : forall v, In v (points st) -> within M e (ht M v) -> ~ (X M e (ht M v) <= cx v)%Q
}.

Definition beside (e : edge) (p : point) : Prop := within M e (ht M p) /\ (X M e (ht M p) < cx p)%Q.

(** The trapezoid beside it has the whole edge as its left side, and no right side. *)
Lemma right_trap st e p : full st -> rightmost st e -> outside st p -> beside e p ->
  exists i t, nth_error (st_ts st) i = Some t /\ inside M (reg st t) p /\ reg st t = mkA (Some e) None (Some (fst e)) (Some (snd e)).
Proof.
  intros HF [R1 R2 R3] (Ho1 & Ho2) (Hw & Hx). pose proof (f_core _ _ _ _ _ HF) as HC.
  apply In_nth_error in R1. destruct R1 as (s & Hs). destruct (medges_inv _ _ _ Hs) as (g & Hg & Eg). pose proof (nth_lt _ _ _ _ Hg) as Hsl.
  destruct (seg_at W Es M gv st HG HM HF s g Hg) as (_ & _ & E1 & E2 & HE & _). rewrite Eg in HE.
  assert (Ee : eat st s = e) by (rewrite (eat_nth st s g Hg); exact Eg). destruct Hw as (W1 & W2).
  destruct (side_ex W Es M gv st HG HM HF false s (ht M p)) as (j & Hj & Hh); auto.
  - unfold hv. rewrite E1. rewrite <- Eg in W1. exact W1.
  - unfold hv. rewrite E2. rewrite <- Eg in W2. exact W2.
  - intros v n Hn K. unfold hv in K. rewrite (pnt_n st v n Hn) in K. assert (Hin : In (n_c n) (points st)) by (eapply nth_error_In, points_nth; eauto).
    apply (ht_inj W Es M HG HM) in K; auto; [|now apply (c_W _ _ _ _ _ HC)]. now subst.
  - destruct (lt_nth _ _ _ (has_in M st j _ Hh)) as (t & Ht). pose proof (has_ahas W Es M gv st HF j t _ Ht Hh) as Ha. pose proof (c_ag _ _ _ _ _ HC j t Ht) as Ga.
    pose proof (side_reg st j t false s Ht Hj) as Hl. cbn [aside] in Hl. rewrite Ee in Hl.
    assert (Hr : ar (reg st t) = None).
    { destruct (ar (reg st t)) as [f|] eqn:Er; auto. exfalso. destruct (reg_side st j t true f Ht Er) as (s' & Hs' & Ef).
      assert (Hin : In f (medges st)). { rewrite <- Ef. apply nth_In. eapply (sd_in W Es M gv st HG HM HF); eauto. }
      apply (R2 f (ht M p) Hin); [eapply within_r; eauto|split; auto|]. eapply a_lr; eauto. }
    destruct (a_l _ _ _ _ Ga e Hl) as (_ & Hsp). unfold spans in Hsp. destruct (ad (reg st t)) as [d|] eqn:Ed; [|contradiction]. destruct (au (reg st t)) as [u|] eqn:Eu; [|contradiction]. destruct Hsp as (S1 & S2).
    destruct (reg_end_inv W Es M gv st j t Desc d HC Ht Ed) as (vd & nd & _ & Hnd & <-). destruct (reg_end_inv W Es M gv st j t Asc u HC Ht Eu) as (vu & nu & _ & Hnu & <-).
    assert (Id : In (n_c nd) (points st)) by (eapply nth_error_In, points_nth; eauto). assert (Iu : In (n_c nu) (points st)) by (eapply nth_error_In, points_nth; eauto).
    destruct Ha as (Ha1 & Ha2). unfold obot in Ha1. unfold otop in Ha2. rewrite Ed in Ha1. rewrite Eu in Ha2.
    destruct (f_td _ _ _ _ _ HF j t Ht) as (Td & _). destruct (c_tu _ _ _ _ _ HC j t Ht) as (Tu & _). rewrite Hl, Ed in Td. rewrite Hl, Eu in Tu. cbn [touch_l] in Td, Tu.
    destruct (g_end _ _ HG _ HE) as (G1 & G2 & _).
    assert (Edd : n_c nd = fst e). { apply (ht_inj W Es M HG HM); auto; [now apply (c_W _ _ _ _ _ HC)|]. destruct (Qlt_le_dec (ht M (fst e)) (ht M (n_c nd))) as [L|L]; [|lra]. exfalso. apply (R3 _ Id); auto. split; lra. }
    assert (Euu : n_c nu = snd e). { apply (ht_inj W Es M HG HM); auto; [now apply (c_W _ _ _ _ _ HC)|]. destruct (Qlt_le_dec (ht M (n_c nu)) (ht M (snd e))) as [L|L]; [|lra]. exfalso. apply (R3 _ Iu); auto. split; lra. }
    exists j, t. split; auto. split.
    + unfold inside. rewrite Hl, Hr. cbn [olft orgt]. split; [split|]; auto; unfold obot, otop; [now rewrite Ed|now rewrite Eu].
    + destruct (reg st t) as [l r d u]. cbn [al ar ad au] in *. congruence.
Qed.

Lemma beside_in (a : atrap) e p : a = mkA (Some e) None (Some (fst e)) (Some (snd e)) -> (inside M a p <-> beside e p).
Proof. intros ->. unfold inside, ahas, beside, within. cbn. tauto. Qed.

Lemma same_sink st p i t j t' : full st -> outside st p -> nth_error (st_ts st) i = Some t -> inside M (reg st t) p ->
  nth_error (st_ts st) j = Some t' -> inside M (reg st t') p -> t = t'.
Proof. intros HF (O1 & O2) Hi H1 Hj H2. assert (i = j) by (eapply (c_one _ _ _ _ _ (f_core _ _ _ _ _ HF)); eauto). subst. congruence. Qed.

Lemma right_same st e p p' : full st -> rightmost st e -> outside st p -> outside st p' -> beside e p -> beside e p' ->
  exists k, finds (st_qs st) p 0 k /\ finds (st_qs st) p' 0 k.
Proof.
  intros HF HR Hp Hp' Hb Hb'. destruct (right_trap st e p HF HR Hp Hb) as (i & t & Ht & Hin & Er). pose proof (proj2 (beside_in _ _ p' Er) Hb') as Hin'.
  exists (t_k t). split.
  - destruct (out_finds _ _ HF Hp) as (j & u & Hu & Hi & Hf). now rewrite (same_sink st p i t j u).
  - destruct (out_finds _ _ HF Hp') as (j & u & Hu & Hi & Hf). now rewrite (same_sink st p' i t j u).
Qed.

Lemma right_diff st e p p' k k' : full st -> rightmost st e -> outside st p -> outside st p' -> beside e p -> ~ beside e p' ->
  finds (st_qs st) p 0 k -> finds (st_qs st) p' 0 k' -> k <> k'.
Proof.
  intros HF HR Hp Hp' Hb Hb' Hk Hk' <-. pose proof (f_core _ _ _ _ _ HF) as HC. destruct (right_trap st e p HF HR Hp Hb) as (i & t & Ht & Hin & Er).
  destruct (out_finds _ _ HF Hp) as (j & u & Hu & Hi & Hf). assert (u = t) by (symmetry; eapply (same_sink st p); eauto). subst u.
  destruct (out_finds _ _ HF Hp') as (j' & u' & Hu' & Hi' & Hf'). rewrite (finds_det _ _ _ _ Hf _ Hk) in *. pose proof (finds_det _ _ _ _ Hf' _ Hk') as E.
  pose proof (c_q1 _ _ _ _ _ HC _ _ Hu) as Q1. pose proof (c_q1 _ _ _ _ _ HC _ _ Hu') as Q2. rewrite <- E, Q1 in Q2. injection Q2 as ->. assert (u' = t) by congruence. subst u'. apply Hb'. now apply (beside_in _ _ p' Er).
Qed.

(** One more edge: two trapezoids become one. *)
Lemma paths_sum st st1 e e1 p p' a b : full st -> full st1 -> ngrow st st1 -> rightmost st e -> rightmost st1 e1 ->
  outside st p -> outside st p' -> outside st1 p -> outside st1 p' -> beside e p -> ~ beside e p' -> beside e1 p -> beside e1 p' ->
  paths st p a -> paths st p' b -> paths st1 p (a + b) /\ paths st1 p' (a + b).
Proof.
  intros HF HF1 HN HR HR1 O1 O2 O3 O4 B1 B2 B3 B4 (k & Hk & Hm) (k' & Hk' & Hm'). destruct (ngrow_stay _ _ HN) as (K1 & K2).
  pose proof (right_diff st e p p' k k' HF HR O1 O2 B1 B2 Hk Hk') as Hne. destruct (right_same st1 e1 p p' HF1 HR1 O3 O4 B3 B4) as (q & Hq & Hq').
  destruct (finds_sink _ _ _ _ Hk) as (i & Hi). destruct (finds_sink _ _ _ _ Hk') as (i' & Hi').
  pose proof (many_sum _ _ p p' k k' q i i' a b K1 K2 Hm Hm' Hk Hk' Hi Hi' Hne Hq Hq') as Hs. split; exists q; auto.
Qed.

(** Every vertex is an end of an edge. *)
Lemma rest_ends st v : rest st [] -> In v (points st) -> exists e, In e (medges st) /\ (v = fst e \/ v = snd e).
Proof.
  intros [Rf Rc Rd] Hp. apply In_nth_error in Hp. destruct Hp as (x & Hv). destruct (points_inv _ _ _ Hv) as (nn & Hn & <-). destruct (Rd x nn Hn) as [K|[]]. rewrite (Rc x nn Hn) in K.
  unfold cnt in K. destruct (filter (touches (n_c nn)) (medges st)) as [|e m] eqn:Ef; [cbn in K; lia|].
  assert (Ke : In e (filter (touches (n_c nn)) (medges st))) by (rewrite Ef; now left). apply filter_In in Ke. destruct Ke as (Ke & Kt). apply touches_spec in Kt. eauto.
Qed.

End Stage.
