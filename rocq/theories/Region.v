(** Regions between two edges and two heights: edges passing through them, cutting and merging. *)
From Coq Require Import QArith Lqa List Bool.
From Verif Require Import Base Coord Trap Lanes Plane Geo.
Import ListNotations.
Local Open Scope Q_scope.

(** A trapezoid given by its bounding edges and its lower and upper vertex. *)
Record atrap := mkA { al : option edge; ar : option edge; ad : option point; au : option point }.

(** The vertex bounding a region in a direction, the end of an edge in a direction. *)
Definition aend (d : dir) (a : atrap) : option point := match d with Asc => au a | Desc => ad a end.
Definition eend (d : dir) (e : edge) : point := match d with Asc => snd e | Desc => fst e end.

Section Region.
Variables (W : list point) (Es : list edge) (M : Q).
Hypothesis HG : geo W Es.
Hypothesis HM : shear M W.

Notation ht := (ht M).
Notation X := (X M).
Notation within := (within M).
Notation withinc := (withinc M).

Definition obot (o : option point) (h : Q) : Prop := match o with None => True | Some d => ht d < h end.
Definition otop (o : option point) (h : Q) : Prop := match o with None => True | Some u => h < ht u end.
Definition olft (o : option edge) (h x : Q) : Prop := match o with None => True | Some e => X e h < x end.
Definition orgt (o : option edge) (h x : Q) : Prop := match o with None => True | Some e => x < X e h end.

(** Heights strictly inside a region; points strictly inside; edges passing through strictly inside. *)
Definition ahas (a : atrap) (h : Q) : Prop := obot (ad a) h /\ otop (au a) h.
Definition inside (a : atrap) (p : point) : Prop :=
  ahas a (ht p) /\ olft (al a) (ht p) (cx p) /\ orgt (ar a) (ht p) (cx p).
Definition through (e : edge) (a : atrap) : Prop :=
  exists h, within e h /\ ahas a h /\ olft (al a) h (X e h) /\ orgt (ar a) h (X e h).

Definition spans (e : edge) (a : atrap) : Prop :=
  match ad a, au a with Some d, Some u => ht (fst e) <= ht d /\ ht u <= ht (snd e) | _, _ => False end.

Record agood (a : atrap) : Prop := {
  a_l : forall e, al a = Some e -> In e Es /\ spans e a;
  a_r : forall e, ar a = Some e -> In e Es /\ spans e a;
  a_d : forall v, ad a = Some v -> In v W;
  a_u : forall v, au a = Some v -> In v W;
  a_du : forall v w, ad a = Some v -> au a = Some w -> ht v < ht w;
  a_lr : forall e f h, al a = Some e -> ar a = Some f -> ahas a h -> X e h < X f h
}.

(** A vertex is weakly right (left) of a bounding edge. *)
Definition touch_l (e : option edge) (v : option point) : Prop :=
  match e, v with Some e, Some v => X e (ht v) <= cx v | _, _ => True end.
Definition touch_r (e : option edge) (v : option point) : Prop :=
  match e, v with Some e, Some v => cx v <= X e (ht v) | _, _ => True end.

Lemma spans_within e a h : spans e a -> ahas a h -> within e h.
Proof.
  unfold spans, ahas, obot, otop, Geo.within. destruct (ad a), (au a); try contradiction. lra.
Qed.

Lemma mid a b : a < b -> a < (a + b) * (1 # 2) /\ (a + b) * (1 # 2) < b.
Proof. lra. Qed.

(** Heights between two bounds, close to one of them. *)
Definition qmax (a b : Q) : Q := if Qlt_le_dec a b then b else a.
Definition qmin (a b : Q) : Q := if Qlt_le_dec a b then a else b.
Lemma qmax_spec a b : a <= qmax a b /\ b <= qmax a b /\ (qmax a b = a \/ qmax a b = b).
Proof. unfold qmax. destruct (Qlt_le_dec a b); repeat split; auto; lra. Qed.
Lemma qmin_spec a b : qmin a b <= a /\ qmin a b <= b /\ (qmin a b = a \/ qmin a b = b).
Proof. unfold qmin. destruct (Qlt_le_dec a b); repeat split; auto; lra. Qed.

(** A height just beyond [v] in direction [d] that is inside both the region that starts there and the edge. *)
Lemma beyond d v e a : agood a -> aend (opp d) a = Some v ->
  match d with Asc => ht (fst e) <= ht v /\ ht v < ht (snd e) | Desc => ht (fst e) < ht v /\ ht v <= ht (snd e) end ->
  exists h, within e h /\ ahas a h /\ match d with Asc => ht v < h | Desc => h < ht v end.
Proof.
  intros Ha Hv He. unfold Geo.within, ahas, obot, otop. destruct d; cbn in Hv; rewrite Hv.
  - destruct (au a) as [u|] eqn:Eu.
    + pose proof (a_du a Ha v u Hv Eu). destruct (qmin_spec (ht (snd e)) (ht u)) as (Q1 & Q2 & Q3).
      assert (K : ht v < qmin (ht (snd e)) (ht u)) by (destruct Q3 as [-> | ->]; lra).
      destruct (mid _ _ K) as (K1 & K2). eexists. split; [|split; [split; [exact K1|]|exact K1]]; lra.
    + assert (K : ht v < ht (snd e)) by lra. destruct (mid _ _ K) as (K1 & K2).
      eexists. split; [|split; [split; [exact K1|exact I]|exact K1]]; lra.
  - destruct (ad a) as [u|] eqn:Eu.
    + pose proof (a_du a Ha u v Eu Hv). destruct (qmax_spec (ht (fst e)) (ht u)) as (Q1 & Q2 & Q3).
      assert (K : qmax (ht (fst e)) (ht u) < ht v) by (destruct Q3 as [-> | ->]; lra).
      destruct (mid _ _ K) as (K1 & K2). eexists. split; [|split; [split; [|exact K2]|exact K2]]; lra.
    + assert (K : ht (fst e) < ht v) by lra. destruct (mid _ _ K) as (K1 & K2).
      eexists. split; [|split; [split; [exact I|exact K2]|exact K2]]; lra.
Qed.

Lemma within_l a e h : agood a -> al a = Some e -> ahas a h -> within e h.
Proof. intros Ha He Hh. eapply spans_within; eauto. now apply (a_l a Ha). Qed.
Lemma within_r a e h : agood a -> ar a = Some e -> ahas a h -> within e h.
Proof. intros Ha He Hh. eapply spans_within; eauto. now apply (a_r a Ha). Qed.

(** An edge that passes through somewhere is between the sides at every common height. *)
Lemma through_all e a h : In e Es -> agood a -> through e a -> within e h -> ahas a h ->
  olft (al a) h (X e h) /\ orgt (ar a) h (X e h).
Proof.
  intros He Ha (h0 & W0 & H0 & L0 & R0) Wh Hh. split; unfold olft, orgt in *.
  - destruct (al a) as [l|] eqn:El; auto. apply (order_const W Es M HG HM l e h0); auto.
    + now apply (a_l a Ha).
    + now apply (within_l a).
    + now apply (within_l a).
  - destruct (ar a) as [r|] eqn:Er; auto. apply (order_const W Es M HG HM e r h0); auto.
    + now apply (a_r a Ha).
    + now apply (within_r a).
    + now apply (within_r a).
Qed.

Lemma eend_in d e : In e Es -> In (eend d e) W.
Proof. intros He. destruct (g_end _ _ HG e He) as (? & ? & _). destruct d; auto. Qed.

Lemma eend_X d e : In e Es -> X e (ht (eend d e)) == cx (eend d e).
Proof. intros He. destruct d; cbn; [now apply (X_max W Es M HG HM)|apply X_min]. Qed.

Lemma eend_c d e : In e Es -> withinc e (ht (eend d e)).
Proof. intros He. pose proof (e_lt W Es M HG HM e He). unfold Geo.withinc. destruct d; cbn; lra. Qed.

(** An end of an edge passing through, if at a height of the region, is a point inside it. *)
Lemma through_end d e a : In e Es -> agood a -> through e a -> ahas a (ht (eend d e)) -> inside a (eend d e).
Proof.
  intros He Ha (h0 & W0 & H0 & L0 & R0) Hh. split; auto. unfold olft, orgt in *.
  pose proof (eend_X d e He) as E. pose proof (eend_c d e He) as Wc. split.
  - destruct (al a) as [l|] eqn:El; auto. assert (Hl : In l Es) by now apply (a_l a Ha).
    pose proof (within_l a l _ Ha El Hh) as Wl.
    assert (K : X l (ht (eend d e)) <= X e (ht (eend d e))).
    { apply (order_closed W Es M HG HM l e h0); auto. now apply (within_l a). now apply within_c. }
    pose proof (off_edge W Es M HG HM l (eend d e) Hl (eend_in d e He)) as N. destruct Wl as (Wl1 & Wl2). specialize (N Wl1 Wl2).
    rewrite E in K. destruct (Q_dec (X l (ht (eend d e))) (cx (eend d e))) as [[J|J]|J]; auto; try lra.
  - destruct (ar a) as [l|] eqn:El; auto. assert (Hl : In l Es) by now apply (a_r a Ha).
    pose proof (within_r a l _ Ha El Hh) as Wl.
    assert (K : X e (ht (eend d e)) <= X l (ht (eend d e))).
    { apply (order_closed W Es M HG HM e l h0); auto. now apply (within_r a). now apply within_c. }
    pose proof (off_edge W Es M HG HM l (eend d e) Hl (eend_in d e He)) as N. destruct Wl as (Wl1 & Wl2). specialize (N Wl1 Wl2).
    rewrite E in K. destruct (Q_dec (X l (ht (eend d e))) (cx (eend d e))) as [[J|J]|J]; auto; try lra.
Qed.

(** The edge leaves a region past its end vertex: on the side of the edge away from the vertex the bounding edge does
    not end there. *)
Lemma leave_right d e a v r : In e Es -> agood a -> through e a -> aend d a = Some v -> within e (ht v) ->
  cx v < X e (ht v) -> ar a = Some r -> eend d r <> v.
Proof.
  intros He Ha (h0 & W0 & H0 & L0 & R0) Hv Wv Hx Hr Heq. rewrite Hr in R0. cbn in R0. subst v.
  destruct (a_r a Ha r Hr) as (Hin & _).
  assert (K : X e (ht (eend d r)) <= X r (ht (eend d r))).
  { apply (order_closed W Es M HG HM e r h0); auto. now apply (within_r a). now apply within_c. now apply eend_c. }
  rewrite eend_X in K by auto. lra.
Qed.

Lemma leave_left d e a v r : In e Es -> agood a -> through e a -> aend d a = Some v -> within e (ht v) ->
  X e (ht v) < cx v -> al a = Some r -> eend d r <> v.
Proof.
  intros He Ha (h0 & W0 & H0 & L0 & R0) Hv Wv Hx Hr Heq. rewrite Hr in L0. cbn in L0. subst v.
  destruct (a_l a Ha r Hr) as (Hin & _).
  assert (K : X r (ht (eend d r)) <= X e (ht (eend d r))).
  { apply (order_closed W Es M HG HM r e h0); auto. now apply (within_l a). now apply eend_c. now apply within_c. }
  rewrite eend_X in K by auto. lra.
Qed.

(** ... and it enters the next region with the same side there. *)
Lemma enter_right d e a a' v : In e Es -> agood a -> through e a -> aend d a = Some v -> within e (ht v) ->
  cx v < X e (ht v) -> agood a' -> aend (opp d) a' = Some v -> ar a' = ar a -> touch_l (al a') (Some v) -> through e a'.
Proof.
  intros He Ha Ht Hv Wv Hx Ha' Hv' Hr Hl. pose proof Ht as (h0 & W0 & H0 & L0 & R0).
  destruct (beyond d v e a' Ha' Hv') as (h & Wh & Hh & Hd). { unfold Geo.within in Wv. destruct d; lra. }
  exists h. split; [auto|]. split; [auto|]. unfold olft, orgt, touch_l in *. split.
  - destruct (al a') as [l|] eqn:El; auto. destruct (a_l a' Ha' l El) as (Hin & Hs).
    apply (order_open W Es M HG HM l e (ht v)); auto; [|now apply within_c|now apply (within_l a')|lra].
    unfold spans in Hs. unfold Geo.withinc. destruct (ad a') as [d'|] eqn:Ed; [|easy]. destruct (au a') as [u'|] eqn:Eu; [|easy].
    pose proof (a_du a' Ha' _ _ Ed Eu). destruct d; cbn in Hv'; rewrite Hv' in *; [injection Ed as ->|injection Eu as ->]; lra.
  - rewrite Hr. destruct (ar a) as [r|] eqn:Er; auto. destruct (a_r a Ha r Er) as (Hin & Hs).
    apply (order_const W Es M HG HM e r h0); auto. now apply (within_r a). now apply (within_r a').
Qed.

Lemma enter_left d e a a' v : In e Es -> agood a -> through e a -> aend d a = Some v -> within e (ht v) ->
  X e (ht v) < cx v -> agood a' -> aend (opp d) a' = Some v -> al a' = al a -> touch_r (ar a') (Some v) -> through e a'.
Proof.
  intros He Ha Ht Hv Wv Hx Ha' Hv' Hr Hl. pose proof Ht as (h0 & W0 & H0 & L0 & R0).
  destruct (beyond d v e a' Ha' Hv') as (h & Wh & Hh & Hd). { unfold Geo.within in Wv. destruct d; lra. }
  exists h. split; [auto|]. split; [auto|]. unfold olft, orgt, touch_r in *. split.
  - rewrite Hr. destruct (al a) as [r|] eqn:Er; auto. destruct (a_l a Ha r Er) as (Hin & Hs).
    apply (order_const W Es M HG HM r e h0); auto. now apply (within_l a). now apply (within_l a').
  - destruct (ar a') as [l|] eqn:El; auto. destruct (a_r a' Ha' l El) as (Hin & Hs).
    apply (order_open W Es M HG HM e l (ht v)); auto; [now apply within_c| |now apply (within_r a')|lra].
    unfold spans in Hs. unfold Geo.withinc. destruct (ad a') as [d'|] eqn:Ed; [|easy]. destruct (au a') as [u'|] eqn:Eu; [|easy].
    pose proof (a_du a' Ha' _ _ Ed Eu). destruct d; cbn in Hv'; rewrite Hv' in *; [injection Ed as ->|injection Eu as ->]; lra.
Qed.

(** An edge starting at the end vertex of a region, between its sides. *)
Lemma enter_start d e a : In e Es -> agood a -> aend (opp d) a = Some (eend (opp d) e) ->
  (forall l h, al a = Some l -> within l h -> within e h -> X l h < X e h) ->
  (forall r h, ar a = Some r -> within r h -> within e h -> X e h < X r h) -> through e a.
Proof.
  intros He Ha Hv Hl Hr. destruct (beyond d _ e a Ha Hv) as (h & Wh & Hh & Hd).
  { pose proof (e_lt W Es M HG HM e He). destruct d; cbn; lra. }
  exists h. split; [auto|]. split; [auto|]. split; unfold olft, orgt.
  - destruct (al a) as [l|] eqn:El; auto. apply Hl; auto. now apply (within_l a).
  - destruct (ar a) as [l|] eqn:El; auto. apply Hr; auto. now apply (within_r a).
Qed.

(** An edge starting strictly inside a region. *)
Lemma inside_start d e a : In e Es -> agood a -> inside a (eend d e) -> through e a.
Proof.
  intros He Ha ((H1 & H2) & Hl & Hr). pose proof (e_lt W Es M HG HM e He) as Hlt.
  assert (K : exists h, within e h /\ ahas a h).
  { unfold Geo.within, ahas, obot, otop in *. destruct d; cbn [eend] in *.
    - destruct (ad a) as [v|].
      + destruct (qmax_spec (ht (fst e)) (ht v)) as (Q1 & Q2 & Q3).
        assert (K : qmax (ht (fst e)) (ht v) < ht (snd e)) by (destruct Q3 as [-> | ->]; lra). destruct (mid _ _ K) as (K1 & K2).
        eexists. split; [split; [|exact K2]; lra|split; [lra|]]. destruct (au a); auto. lra.
      + destruct (mid _ _ Hlt) as (K1 & K2). eexists. split; [split; [exact K1|exact K2]|split; auto]. destruct (au a); auto. lra.
    - destruct (au a) as [v|].
      + destruct (qmin_spec (ht (snd e)) (ht v)) as (Q1 & Q2 & Q3).
        assert (K : ht (fst e) < qmin (ht (snd e)) (ht v)) by (destruct Q3 as [-> | ->]; lra). destruct (mid _ _ K) as (K1 & K2).
        eexists. split; [split; [exact K1|]; lra|split; [|lra]]. destruct (ad a); auto. lra.
      + destruct (mid _ _ Hlt) as (K1 & K2). eexists. split; [split; [exact K1|exact K2]|split; auto]. destruct (ad a); auto. lra. }
  destruct K as (h & Wh & Hh). exists h. split; [auto|]. split; [auto|]. pose proof (eend_X d e He) as E. pose proof (eend_c d e He) as Wc.
  unfold olft, orgt in *. split.
  - destruct (al a) as [l|] eqn:El; auto. destruct (a_l a Ha l El) as (Hin & Hs).
    apply (order_open W Es M HG HM l e (ht (eend d e))); auto. { apply within_c. apply (within_l a); auto. now split. } { now apply (within_l a). } lra.
  - destruct (ar a) as [l|] eqn:El; auto. destruct (a_r a Ha l El) as (Hin & Hs).
    apply (order_open W Es M HG HM e l (ht (eend d e))); auto. { apply within_c. apply (within_r a); auto. now split. } { now apply (within_r a). } lra.
Qed.

(** ** Cutting and merging *)

Definition a_down (v : point) (a : atrap) : atrap := mkA (al a) (ar a) (Some v) (au a).
Definition a_up (v : point) (a : atrap) : atrap := mkA (al a) (ar a) (ad a) (Some v).
Definition a_left (e : edge) (a : atrap) : atrap := mkA (Some e) (ar a) (ad a) (au a).
Definition a_right (e : edge) (a : atrap) : atrap := mkA (al a) (Some e) (ad a) (au a).

Lemma cut_right e a : In e Es -> agood a -> through e a -> spans e a -> agood (a_right e a).
Proof.
  intros He Ha Ht Hs. pose proof Ha as [H1 H2 H3 H4 H5 H6]. split; cbn; auto.
  - intros f [= <-]. split; auto.
  - intros f g h Hf [= <-] Hh. pose proof (spans_within e a h Hs Hh) as Wh.
    destruct (through_all e a h He Ha Ht Wh Hh) as (K & _). now rewrite Hf in K.
Qed.

Lemma cut_left e a : In e Es -> agood a -> through e a -> spans e a -> agood (a_left e a).
Proof.
  intros He Ha Ht Hs. pose proof Ha as [H1 H2 H3 H4 H5 H6]. split; cbn; auto.
  - intros f [= <-]. split; auto.
  - intros f g h [= <-] Hg Hh. pose proof (spans_within e a h Hs Hh) as Wh.
    destruct (through_all e a h He Ha Ht Wh Hh) as (_ & K). now rewrite Hg in K.
Qed.

Lemma spans_up e a p : spans e a -> ahas a (ht p) -> spans e (a_up p a).
Proof. unfold spans, ahas, obot, otop. cbn. destruct (ad a), (au a); try contradiction. lra. Qed.
Lemma spans_down e a p : spans e a -> ahas a (ht p) -> spans e (a_down p a).
Proof. unfold spans, ahas, obot, otop. cbn. destruct (ad a), (au a); try contradiction. lra. Qed.

Lemma cut_up a p : In p W -> agood a -> inside a p -> agood (a_up p a).
Proof.
  intros Hp Ha (Hh & Hl & Hr). pose proof Ha as [H1 H2 H3 H4 H5 H6]. split; cbn; auto.
  - intros e He. destruct (H1 e He). split; auto. now apply spans_up.
  - intros e He. destruct (H2 e He). split; auto. now apply spans_up.
  - intros v [= <-]. auto.
  - intros v w Hv [= <-]. destruct Hh as (K & _). now rewrite Hv in K.
  - intros e f h He Hf (K1 & K2). apply H6; auto. destruct Hh as (K3 & K4). split; auto. cbn in K2.
    unfold otop in *. destruct (au a); auto. lra.
Qed.

Lemma cut_down a p : In p W -> agood a -> inside a p -> agood (a_down p a).
Proof.
  intros Hp Ha (Hh & Hl & Hr). pose proof Ha as [H1 H2 H3 H4 H5 H6]. split; cbn; auto.
  - intros e He. destruct (H1 e He). split; auto. now apply spans_down.
  - intros e He. destruct (H2 e He). split; auto. now apply spans_down.
  - intros v [= <-]. auto.
  - intros v w [= <-] Hv. destruct Hh as (_ & K). now rewrite Hv in K.
  - intros e f h He Hf (K1 & K2). apply H6; auto. destruct Hh as (K3 & K4). split; auto. cbn in K1.
    unfold obot in *. destruct (ad a); auto. lra.
Qed.

(** Extending the right piece [a] (left side [e], down to [v]) by the right part of the region [a'] below [v]. *)
Lemma merge_right e a a' v d : In e Es -> agood a -> agood a' -> al a = Some e -> ar a = ar a' -> ad a = Some v -> au a' = Some v ->
  ad a' = Some d -> spans e a' -> agood (a_down d a).
Proof.
  intros He Ha Ha' Hl Hr Hd Hu Hd' Hs. pose proof Ha as [H1 H2 H3 H4 H5 H6]. pose proof Ha' as [K1 K2 K3 K4 K5 K6].
  pose proof (K5 _ _ Hd' Hu) as Hlt.
  split; cbn; auto.
  - intros f Hf. destruct (H1 f Hf) as (I1 & I2). split; auto. assert (f = e) by congruence. subst f.
    unfold spans in *. cbn. rewrite Hd in I2. rewrite Hd', Hu in Hs. destruct (au a); [|easy]. lra.
  - intros f Hf. destruct (H2 f Hf) as (I1 & I2). split; auto. rewrite Hr in Hf. destruct (K2 f Hf) as (I3 & I4).
    unfold spans in *. cbn. rewrite Hd in I2. rewrite Hd', Hu in I4. destruct (au a); [|easy]. lra.
  - intros w [= <-]. auto.
  - intros x y [= <-] Hy. pose proof (H5 _ _ Hd Hy). lra.
  - intros f g h Hf Hg Hh. assert (f = e) by congruence. subst f.
    destruct (H1 e Hl) as (_ & S1). destruct (H2 g Hg) as (Hin & S2). unfold spans in S1, S2. rewrite Hd in S1, S2.
    destruct (au a) as [u|] eqn:Eu; [|easy]. pose proof (H5 _ _ Hd eq_refl) as L2. destruct (mid _ _ L2) as (M1 & M2).
    assert (Hm : ahas a ((ht v + ht u) * (1 # 2))). { unfold ahas. rewrite Hd, Eu. cbn. auto. }
    pose proof (H6 e g _ Hl Hg Hm) as Hlt2.
    destruct Hh as (G1 & G2). cbn in G1, G2. rewrite Eu in G2. cbn in G2. unfold spans in Hs. rewrite Hd', Hu in Hs.
    assert (Hg' : ar a' = Some g) by congruence. destruct (K2 g Hg') as (_ & S3). unfold spans in S3. rewrite Hd', Hu in S3.
    eapply (order_const W Es M HG HM e g _ h); eauto; unfold Geo.within; lra.
Qed.

Lemma merge_left e a a' v d : In e Es -> agood a -> agood a' -> ar a = Some e -> al a = al a' -> ad a = Some v -> au a' = Some v ->
  ad a' = Some d -> spans e a' -> agood (a_down d a).
Proof.
  intros He Ha Ha' Hl Hr Hd Hu Hd' Hs. pose proof Ha as [H1 H2 H3 H4 H5 H6]. pose proof Ha' as [K1 K2 K3 K4 K5 K6].
  pose proof (K5 _ _ Hd' Hu) as Hlt.
  split; cbn; auto.
  - intros f Hf. destruct (H1 f Hf) as (I1 & I2). split; auto. rewrite Hr in Hf. destruct (K1 f Hf) as (I3 & I4).
    unfold spans in *. cbn. rewrite Hd in I2. rewrite Hd', Hu in I4. destruct (au a); [|easy]. lra.
  - intros f Hf. destruct (H2 f Hf) as (I1 & I2). split; auto. assert (f = e) by congruence. subst f.
    unfold spans in *. cbn. rewrite Hd in I2. rewrite Hd', Hu in Hs. destruct (au a); [|easy]. lra.
  - intros w [= <-]. auto.
  - intros x y [= <-] Hy. pose proof (H5 _ _ Hd Hy). lra.
  - intros g f h Hg Hf Hh. assert (f = e) by congruence. subst f.
    destruct (H2 e Hl) as (_ & S1). destruct (H1 g Hg) as (Hin & S2). unfold spans in S1, S2. rewrite Hd in S1, S2.
    destruct (au a) as [u|] eqn:Eu; [|easy]. pose proof (H5 _ _ Hd eq_refl) as L2. destruct (mid _ _ L2) as (M1 & M2).
    assert (Hm : ahas a ((ht v + ht u) * (1 # 2))). { unfold ahas. rewrite Hd, Eu. cbn. auto. }
    pose proof (H6 g e _ Hg Hl Hm) as Hlt2.
    destruct Hh as (G1 & G2). cbn in G1, G2. rewrite Eu in G2. cbn in G2. unfold spans in Hs. rewrite Hd', Hu in Hs.
    assert (Hg' : al a' = Some g) by congruence. destruct (K1 g Hg') as (_ & S3). unfold spans in S3. rewrite Hd', Hu in S3.
    eapply (order_const W Es M HG HM g e _ h); eauto; unfold Geo.within; lra.
Qed.

(** Points inside the pieces. *)
Lemma inside_right e a p : ahas a (ht p) -> (inside (a_right e a) p <-> ahas a (ht p) /\ olft (al a) (ht p) (cx p) /\ cx p < X e (ht p)).
Proof. unfold inside. cbn. tauto. Qed.

End Region.
