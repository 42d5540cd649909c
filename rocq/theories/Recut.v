(** Cutting trapezoids along an edge: effect on regions and searches. *)
From Coq Require Import QArith Lqa List Arith Lia Bool.
From Verif Require Import Base Coord Trap Lanes Plane Geo Region TrapInv AddVertex.
Import ListNotations.
Local Open Scope nat_scope.

Section Recut.
Context {I : Type}.
Variables (W : list point) (Es : list edge) (M : Q) (gv : I -> point).
Hypothesis HG : geo W Es.
Hypothesis HM : shear M W.
Notation stt := (state Q I).
Notation ht := (ht M).
Notation X := (X M).
Notation within := (within M).
Notation inside := (inside M).
Notation agood := (agood W Es M).
Notation core := (core W Es M gv).
Notation loc := (loc M).

(** Same nexuses apart from their trapezoids and dividers. *)
Definition same_ns (ns ns' : list (nexus Q I)) : Prop :=
  map n_c ns' = map n_c ns /\ map n_v ns' = map n_v ns.

Lemma same_ns_c st st' : same_ns (st_ns st) (st_ns st') -> points st' = points st.
Proof. intros (H & _). exact H. Qed.

Lemma use_left_x e p : In e Es -> In p W -> within e (ht p) ->
  (use_left (QX (fst e) (snd e)) p = true /\ (cx p < X e (ht p))%Q) \/
  (use_left (QX (fst e) (snd e)) p = false /\ (X e (ht p) < cx p)%Q).
Proof.
  intros He Hp (W1 & W2). pose proof (off_edge W Es M HG HM e p He Hp W1 W2) as Hn. cbn [use_left].
  destruct (is_left (fst e) (snd e) p) eqn:E.
  - left. split; auto. now apply (left_X W Es M HG HM e p He Hn).
  - right. split; auto. now apply (left_X_false W Es M HG HM e p He Hn).
Qed.

(** A trapezoid [i] is cut: its points left of the edge go to [a], the others to [b]; all others stay. *)
Lemma core_recut (st st' : stt) (e : edge) (i a b : nat) t :
  core st -> same_ns (st_ns st) (st_ns st') -> st_ss st' = st_ss st -> nth_error (st_ts st) i = Some t -> In e Es ->
  spans M e (reg st t) ->
  (forall x tx, nth_error (st_ts st') x = Some tx -> tin (length (points st)) (length (medges st)) tx /\ agood (reg st tx) /\
     touch_l M (al (reg st tx)) (au (reg st tx)) /\ touch_r M (ar (reg st tx)) (au (reg st tx)) /\
     nth_error (st_qs st') (t_k tx) = Some (QSink x)) ->
  (forall p x tx, In p W -> nth_error (st_ts st') x = Some tx -> inside (reg st tx) p ->
     exists y ty, nth_error (st_ts st) y = Some ty /\ inside (reg st ty) p /\
       ((y <> i /\ x = y) \/ (y = i /\ x = a /\ (cx p < X e (ht p))%Q) \/ (y = i /\ x = b /\ (X e (ht p) < cx p)%Q))) ->
  (forall p y ty, In p W -> y <> i -> nth_error (st_ts st) y = Some ty -> inside (reg st ty) p ->
     exists tx, nth_error (st_ts st') y = Some tx /\ inside (reg st tx) p /\ t_k tx = t_k ty) ->
  (forall p, In p W -> inside (reg st t) p -> (cx p < X e (ht p))%Q ->
     exists ta, nth_error (st_ts st') a = Some ta /\ inside (reg st ta) p) ->
  (forall p, In p W -> inside (reg st t) p -> (X e (ht p) < cx p)%Q ->
     exists tb, nth_error (st_ts st') b = Some tb /\ inside (reg st tb) p) ->
  (forall y ty, nth_error (st_ts st) y = Some ty -> t_u ty = None -> nth_error (st_ts st') y = Some ty) ->
  (forall k j, nth_error (st_qs st') k = Some (QSink j) -> exists tj, nth_error (st_ts st') j = Some tj /\ t_k tj = k) ->
  (exists ql qr ta tb, nth_error (st_qs st') (t_k t) = Some (QBranch ql qr (QX (fst e) (snd e))) /\
     nth_error (st_ts st') a = Some ta /\ t_k ta = ql /\ nth_error (st_ts st') b = Some tb /\ t_k tb = qr) ->
  (forall j, j <> t_k t -> j < length (st_qs st) -> nth_error (st_qs st') j = nth_error (st_qs st) j) ->
  (forall j, length (st_qs st) <= j -> j < length (st_qs st') -> exists x, nth_error (st_qs st') j = Some (QSink x)) ->
  length (st_qs st) <= length (st_qs st') ->
  core st' /\ (forall p q, In p W -> ~ In p (points st') -> loc st p q -> loc st' p q).
Proof.
  intros Hc Hsn Hss Ht He Hsp Hts HB HA0 HAl HAr Htop Hq2 (ql & qr & ta & tb & Hqk & Hta & Eka & Htb & Ekb) Hqo Hqn Hql.
  assert (Hp : points st' = points st) by now apply same_ns_c. assert (Hm : medges st' = medges st) by (unfold medges; now rewrite Hss).
  assert (Hr : forall x, reg st' x = reg st x) by (intros x; unfold reg; now rewrite Hp, Hm).
  pose proof (c_q1 _ _ _ _ _ Hc i t Ht) as Hk. set (k := t_k t) in *.
  assert (Hrw : regrow (st_qs st) (st_qs st') k) by (split; eauto).
  assert (Hw : forall p, inside (reg st t) p -> within e (ht p)). { intros p (Hh & _). eapply spans_within; eauto. }
  assert (Hkeep : forall p q, In p W -> loc st p q -> loc st' p q).
  { intros p q Hpw (y & ty & Hy & Hiy & Hf). destruct (Nat.eq_dec y i) as [->|Hne].
    - assert (ty = t) by congruence. subst ty. destruct (use_left_x e p He Hpw (Hw p Hiy)) as [(U & K)|(U & K)].
      + destruct (HAl p Hpw Hiy K) as (ta' & Hta' & Ia). assert (ta' = ta) by congruence. subst ta'. exists a, ta. rewrite Hr. split; auto. split; auto.
        apply (finds_at (st_qs st) _ k); auto. apply (F_branch _ _ _ ql qr (QX (fst e) (snd e))); auto. rewrite U, <- Eka.
        destruct (Hts a ta Hta) as (_ & _ & _ & _ & K5). eapply F_sink; eauto.
      + destruct (HAr p Hpw Hiy K) as (ta' & Hta' & Ia). assert (ta' = tb) by congruence. subst ta'. exists b, tb. rewrite Hr. split; auto. split; auto.
        apply (finds_at (st_qs st) _ k); auto. apply (F_branch _ _ _ ql qr (QX (fst e) (snd e))); auto. rewrite U, <- Ekb.
        destruct (Hts b tb Htb) as (_ & _ & _ & _ & K5). eapply F_sink; eauto.
    - destruct (HA0 p y ty Hpw Hne Hy Hiy) as (tx & Hx & Ix & Ek). exists y, tx. rewrite Hr. split; auto. split; auto. rewrite Ek.
      apply (finds_other (st_qs st) _ k); auto. intros E. pose proof (c_q1 _ _ _ _ _ Hc y ty Hy) as K. rewrite E, Hk in K. congruence. }
  split; [|intros; now apply Hkeep].
  split; rewrite ?Hp, ?Hm.
  - apply (c_W _ _ _ _ _ Hc).
  - apply (c_nd _ _ _ _ _ Hc).
  - intros n Hn. apply In_nth_error in Hn. destruct Hn as (v & Hv). destruct Hsn as (S1 & S2).
    assert (E1 : nth_error (map n_c (st_ns st')) v = Some (n_c n)) by (rewrite nth_error_map, Hv; reflexivity).
    assert (E2 : nth_error (map n_v (st_ns st')) v = Some (n_v n)) by (rewrite nth_error_map, Hv; reflexivity).
    rewrite S1 in E1. rewrite S2 in E2. rewrite nth_error_map in E1, E2. destruct (nth_error (st_ns st) v) as [n0|] eqn:E0; [|discriminate].
    cbn in E1, E2. assert (K1 : n_c n0 = n_c n) by congruence. assert (K2 : n_v n0 = n_v n) by congruence. rewrite <- K1, <- K2.
    apply (c_v _ _ _ _ _ Hc). eapply nth_error_In; eauto.
  - rewrite Hss. apply (c_ss _ _ _ _ _ Hc).
  - apply (c_snd _ _ _ _ _ Hc).
  - intros x tx Hx. now destruct (Hts x tx Hx).
  - intros x tx Hx. rewrite Hr. now destruct (Hts x tx Hx) as (_ & K & _).
  - intros x tx p Hx Hpp Hi. rewrite Hr in Hi. destruct (HB p x tx (c_W _ _ _ _ _ Hc p Hpp) Hx Hi) as (y & ty & Hy & Iy & _).
    apply (c_emp _ _ _ _ _ Hc y ty p Hy Hpp Iy).
  - intros x tx Hx. rewrite Hr. destruct (Hts x tx Hx) as (_ & _ & K1 & K2 & _). auto.
  - intros x tx Hx. now destruct (Hts x tx Hx) as (_ & _ & _ & _ & K).
  - exact Hq2.
  - intros j Hj. assert (Wk : wfq (st_qs st') k).
    { apply (W_branch _ _ _ _ _ Hqk).
      - rewrite <- Eka. destruct (Hts a ta Hta) as (_ & _ & _ & _ & K). eapply W_sink; eauto.
      - rewrite <- Ekb. destruct (Hts b tb Htb) as (_ & _ & _ & _ & K). eapply W_sink; eauto. }
    destruct (Nat.lt_ge_cases j (length (st_qs st))) as [Hl|Hl].
    + apply (wfq_regrow (st_qs st) _ k); auto. now apply (c_wq _ _ _ _ _ Hc).
    + destruct (Hqn j Hl Hj) as (x & Hx). eapply W_sink; eauto.
  - pose proof (c_q0 _ _ _ _ _ Hc). lia.
  - destruct (c_top _ _ _ _ _ Hc) as (j & tj & K1 & K2 & K3). exists j, tj. split; [|split; auto].
    apply (topq_regrow (st_qs st) _ k 0 j i); auto. intros <-. assert (tj = t) by congruence. subst. unfold spans in Hsp.
    unfold reg, rg in Hsp. cbn in Hsp. rewrite K3 in Hsp. cbn in Hsp. destruct (option_map _ (t_d t)); contradiction.
  - intros p x x' tx tx' Hpw Hn Hx Hx' Ix Ix'. rewrite Hr in Ix, Ix'.
    destruct (HB p x tx Hpw Hx Ix) as (y & ty & Hy & Iy & D). destruct (HB p x' tx' Hpw Hx' Ix') as (y' & ty' & Hy' & Iy' & D').
    assert (y = y') by (eapply (c_one _ _ _ _ _ Hc p); eauto). subst y'.
    destruct D as [(D1 & ->)|[(D1 & -> & D2)|(D1 & -> & D2)]], D' as [(D1' & ->)|[(D1' & -> & D2')|(D1' & -> & D2')]]; auto; try contradiction; exfalso; lra.
  - intros p Hpw Hn. apply Hkeep; auto. now apply (c_loc _ _ _ _ _ Hc).
Qed.

End Recut.
