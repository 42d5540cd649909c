(** Sweep geometry of non-crossing edges: heights, positions of edges at a height, their constant left-to-right order. *)
From Coq Require Import QArith Qabs Lqa List Bool.
From Verif Require Import Base Coord Trap Plane.
Import ListNotations.
Local Open Scope Q_scope.

Definition edge : Type := (point * point)%type.

(** Points of interest [W] and edges [Es] that only meet at end points; no point of interest on an edge except at its
    ends. *)
Record geo (W : list point) (Es : list edge) : Prop := {
  g_pt : forall p q, In p W -> In q W -> peq p q -> p = q;
  g_end : forall e, In e Es -> In (fst e) W /\ In (snd e) W /\ plt (fst e) (snd e);
  g_cross : forall e f, In e Es -> In f Es -> e <> f -> forall p, on_segment (fst e) (snd e) p -> on_segment (fst f) (snd f) p ->
    peq p (fst e) \/ peq p (snd e);
  g_on : forall e v, In e Es -> In v W -> on_segment (fst e) (snd e) v -> v = fst e \/ v = snd e
}.

(** A slope for which [M * y + x] orders the points of interest like the vertex order. *)
Definition shear (M : Q) (W : list point) : Prop :=
  0 < M /\ forall p q, In p W -> In q W -> plt p q -> M * cy p + cx p < M * cy q + cx q.

Lemma shear_pair p q : exists m, 0 < m /\ forall M, m <= M -> plt p q -> M * cy p + cx p < M * cy q + cx q.
Proof.
  destruct (Qlt_le_dec (cy p) (cy q)) as [H|H].
  - exists (Qabs (cx p - cx q) / (cy q - cy p) + 1). assert (Hd : 0 < cy q - cy p) by lra.
    assert (Hq : 0 <= Qabs (cx p - cx q) / (cy q - cy p)). { apply Qle_shift_div_l; auto. rewrite Qmult_0_l. apply Qabs_nonneg. }
    split; [lra|]. intros M HM _. assert (Hk : Qabs (cx p - cx q) == Qabs (cx p - cx q) / (cy q - cy p) * (cy q - cy p)) by (field; lra).
    assert (K : Qabs (cx p - cx q) < M * (cy q - cy p)). { rewrite Hk. apply Qmult_lt_r; auto. lra. }
    pose proof (Qle_Qabs (cx p - cx q)). lra.
  - exists 1. split; [lra|]. intros M HM [K|[K K']]; [lra|]. rewrite K. lra.
Qed.

Lemma shear_one p W : exists m, 0 < m /\ forall M, m <= M -> forall q, In q W ->
  (plt p q -> M * cy p + cx p < M * cy q + cx q) /\ (plt q p -> M * cy q + cx q < M * cy p + cx p).
Proof.
  induction W as [|q W (m & Hm & IH)]. { exists 1. split; [lra|]. easy. }
  destruct (shear_pair p q) as (m1 & H1 & K1), (shear_pair q p) as (m2 & H2 & K2). exists (m + m1 + m2). split; [lra|].
  intros M HM r [->|Hr]; [split; [apply K1|apply K2]; lra|]. apply IH; auto. lra.
Qed.

Lemma shear_exists W : exists M, shear M W.
Proof.
  assert (H : exists m, 0 < m /\ forall M, m <= M -> forall p q, In p W -> In q W -> plt p q -> M * cy p + cx p < M * cy q + cx q).
  { induction W as [|r W (m & Hm & IH)]. { exists 1. split; [lra|]. easy. }
    destruct (shear_one r (r :: W)) as (m1 & H1 & K1). exists (m + m1). split; [lra|]. intros M HM p q [->|Hp] Hq Hpq.
    - apply K1; auto. lra.
    - destruct Hq as [->|Hq]; [|apply IH; auto; lra]. apply (K1 M); auto. { lra. } now right. }
  destruct H as (m & Hm & H). exists m. split; auto. intros. apply (H m); auto. lra.
Qed.

Section Geo.
Variables (W : list point) (Es : list edge) (M : Q).
Hypothesis HG : geo W Es.
Hypothesis HM : shear M W.

Definition ht (p : point) : Q := M * cy p + cx p.

Lemma ht_lt p q : In p W -> In q W -> (plt p q <-> ht p < ht q).
Proof.
  intros Hp Hq. split; [now apply HM|]. intros H. destruct (plt_total p q) as [K|[K|K]]; auto.
  - exfalso. destruct K as (K1 & K2). unfold ht in H. rewrite K1, K2 in H. lra.
  - exfalso. apply HM in K; auto. unfold ht in H. lra.
Qed.

Lemma ht_inj p q : In p W -> In q W -> ht p == ht q -> p = q.
Proof.
  intros Hp Hq H. destruct (plt_total p q) as [K|[K|K]].
  - apply ht_lt in K; auto. lra.
  - now apply (g_pt _ _ HG).
  - apply ht_lt in K; auto. lra.
Qed.

Lemma ht_tri p q : In p W -> In q W -> ht p < ht q \/ p = q \/ ht q < ht p.
Proof. intros Hp Hq. destruct (Q_dec (ht p) (ht q)) as [[H|H]|H]; auto. right; left. now apply ht_inj. Qed.

(** Position of (the line through) an edge at a height. *)
Definition X (e : edge) (h : Q) : Q := cx (fst e) + (h - ht (fst e)) * ((cx (snd e) - cx (fst e)) / (ht (snd e) - ht (fst e))).

Lemma e_lt e : In e Es -> ht (fst e) < ht (snd e).
Proof. intros He. destruct (g_end _ _ HG e He) as (H1 & H2 & H3). now apply ht_lt. Qed.

Lemma X_eq e h h' : h == h' -> X e h == X e h'.
Proof. unfold X. now intros ->. Qed.

Lemma X_min e : X e (ht (fst e)) == cx (fst e).
Proof. unfold X. setoid_replace (ht (fst e) - ht (fst e)) with 0 by ring. ring. Qed.

Lemma X_max e : In e Es -> X e (ht (snd e)) == cx (snd e).
Proof. intros He. pose proof (e_lt e He). unfold X. field. lra. Qed.

Lemma X_affine e h1 h2 t : X e ((1 - t) * h1 + t * h2) == (1 - t) * X e h1 + t * X e h2.
Proof. unfold X. ring. Qed.

(** The side test and the position. *)
Lemma cross_X e p : In e Es -> M * cross (fst e) (snd e) p == (ht (snd e) - ht (fst e)) * (X e (ht p) - cx p).
Proof.
  intros He. pose proof (e_lt e He) as H. unfold X.
  assert (E : (ht (snd e) - ht (fst e)) * (cx (fst e) + (ht p - ht (fst e)) * ((cx (snd e) - cx (fst e)) / (ht (snd e) - ht (fst e))) - cx p) ==
              (ht (snd e) - ht (fst e)) * (cx (fst e) - cx p) + (ht p - ht (fst e)) * (cx (snd e) - cx (fst e))) by (field; lra).
  rewrite E. unfold cross, ht. ring.
Qed.

Lemma cross_pos e p : In e Es -> (0 < cross (fst e) (snd e) p <-> cx p < X e (ht p)).
Proof.
  intros He. pose proof (e_lt e He) as H. pose proof (cross_X e p He) as E. destruct HM as (HM0 & _).
  split; intros K.
  - assert (0 < M * cross (fst e) (snd e) p) by nra. rewrite E in H0. nra.
  - assert (0 < (ht (snd e) - ht (fst e)) * (X e (ht p) - cx p)) by nra. rewrite <- E in H0. nra.
Qed.

Lemma cross_zero e p : In e Es -> (cross (fst e) (snd e) p == 0 <-> cx p == X e (ht p)).
Proof.
  intros He. pose proof (e_lt e He) as H. pose proof (cross_X e p He) as E. destruct HM as (HM0 & _).
  split; intros K.
  - rewrite K in E. assert ((ht (snd e) - ht (fst e)) * (X e (ht p) - cx p) == 0) by lra. apply Qmult_integral in H0. destruct H0; lra.
  - assert (M * cross (fst e) (snd e) p == 0). { rewrite E, K. ring. } apply Qmult_integral in H0. destruct H0; lra.
Qed.

(** Points on the edge. *)
Lemma X_on e h p : In e Es -> ht (fst e) <= h -> h <= ht (snd e) -> ht p == h -> cx p == X e h -> on_segment (fst e) (snd e) p.
Proof.
  intros He H1 H2 Hp Hx. pose proof (e_lt e He) as H. destruct HM as (HM0 & _).
  exists ((h - ht (fst e)) / (ht (snd e) - ht (fst e))).
  assert (Hd : 0 < ht (snd e) - ht (fst e)) by lra. split; [|split; [|split]].
  - apply Qle_shift_div_l; auto. lra.
  - apply Qle_shift_div_r; auto. lra.
  - rewrite Hx. unfold X. field. lra.
  - assert (E : M * (cy p - (cy (fst e) + (h - ht (fst e)) / (ht (snd e) - ht (fst e)) * (cy (snd e) - cy (fst e)))) == 0).
    { assert (Hy : M * cy p == h - cx p) by (unfold ht in Hp; lra).
      setoid_replace (M * (cy p - (cy (fst e) + (h - ht (fst e)) / (ht (snd e) - ht (fst e)) * (cy (snd e) - cy (fst e)))))
        with (M * cy p - M * cy (fst e) - (h - ht (fst e)) / (ht (snd e) - ht (fst e)) * (M * cy (snd e) - M * cy (fst e))) by ring.
      rewrite Hy, Hx. unfold X.
      setoid_replace (M * cy (fst e)) with (ht (fst e) - cx (fst e)) by (unfold ht; ring).
      setoid_replace (M * cy (snd e)) with (ht (snd e) - cx (snd e)) by (unfold ht; ring). field. lra. }
    apply Qmult_integral in E. destruct E; lra.
Qed.

(** A point of interest strictly between the ends of an edge is beside it. *)
Lemma off_edge e p : In e Es -> In p W -> ht (fst e) < ht p -> ht p < ht (snd e) -> ~ cx p == X e (ht p).
Proof.
  intros He Hp H1 H2 K. assert (Ho : on_segment (fst e) (snd e) p) by (apply (X_on e (ht p)); auto; try lra; reflexivity).
  destruct (g_on _ _ HG e p He Hp Ho); subst; lra.
Qed.

Lemma left_X e p : In e Es -> ~ cx p == X e (ht p) -> (is_left (fst e) (snd e) p = true <-> cx p < X e (ht p)).
Proof.
  intros He Hn. rewrite is_left_cross. { now apply cross_pos. } { now apply (g_end _ _ HG). } intros K. apply cross_zero in K; auto.
Qed.

Lemma left_X_false e p : In e Es -> ~ cx p == X e (ht p) -> (is_left (fst e) (snd e) p = false <-> X e (ht p) < cx p).
Proof.
  intros He Hn. pose proof (left_X e p He Hn) as H. destruct (is_left (fst e) (snd e) p); split; intros K; auto; try discriminate.
  - assert (cx p < X e (ht p)) by now apply H. lra.
  - destruct (Q_dec (cx p) (X e (ht p))) as [[K1|K1]|K1]; auto. apply H in K1. discriminate. contradiction.
Qed.

(** ** Order of two edges *)

(** [h] is strictly (weakly) between the ends of both edges. *)
Definition within (e : edge) (h : Q) : Prop := ht (fst e) < h /\ h < ht (snd e).
Definition withinc (e : edge) (h : Q) : Prop := ht (fst e) <= h /\ h <= ht (snd e).

Lemma within_c e h : within e h -> withinc e h.
Proof. unfold within, withinc. lra. Qed.

Lemma no_meet e f h : In e Es -> In f Es -> e <> f -> within e h -> within f h -> ~ X e h == X f h.
Proof.
  intros He Hf Hne (H1 & H2) (H3 & H4) K. destruct HM as (HM0 & _).
  set (p := (X e h, (h - X e h) / M) : point).
  assert (Hp : ht p == h). { unfold ht, p, cx, cy. cbn. field. lra. }
  assert (O1 : on_segment (fst e) (snd e) p) by (apply (X_on e h); auto; try lra; reflexivity).
  assert (O2 : on_segment (fst f) (snd f) p) by (apply (X_on f h); auto; try lra).
  destruct (g_cross _ _ HG e f He Hf Hne p O1 O2) as [(E1 & E2)|(E1 & E2)].
  - assert (ht p == ht (fst e)). { unfold ht. rewrite E1, E2. reflexivity. } lra.
  - assert (ht p == ht (snd e)). { unfold ht. rewrite E1, E2. reflexivity. } lra.
Qed.

(** The order is the same at all common heights. *)
Lemma order_const e f h1 h2 : In e Es -> In f Es -> within e h1 -> within f h1 -> within e h2 -> within f h2 ->
  X e h1 < X f h1 -> X e h2 < X f h2.
Proof.
  intros He Hf W1 W2 W3 W4 K. assert (Hne : e <> f) by (intros ->; lra).
  destruct (Qlt_le_dec (X e h2) (X f h2)) as [|K2]; auto. exfalso.
  set (a := X f h1 - X e h1). set (b := X e h2 - X f h2). assert (Ha : 0 < a) by (unfold a; lra). assert (Hb : 0 <= b) by (unfold b; lra).
  set (t := a / (a + b)). assert (Ht : (a + b) * t == a) by (unfold t; field; lra).
  assert (Ht0 : 0 < t) by nra. assert (Ht1 : t <= 1) by nra.
  apply (no_meet e f ((1 - t) * h1 + t * h2)); auto.
  - unfold within in *. split; nra.
  - unfold within in *. split; nra.
  - rewrite !X_affine. unfold a, b in Ht. nra.
Qed.

(** ... and weakly at the ends of the common range. *)
Lemma order_closed e f h1 h2 : In e Es -> In f Es -> within e h1 -> within f h1 -> withinc e h2 -> withinc f h2 ->
  X e h1 < X f h1 -> X e h2 <= X f h2.
Proof.
  intros He Hf W1 W2 W3 W4 K. destruct (Qlt_le_dec (X f h2) (X e h2)) as [K2|]; auto. exfalso.
  set (a := X f h1 - X e h1). set (b := X e h2 - X f h2). assert (Ha : 0 < a) by (unfold a; lra). assert (Hb : 0 < b) by (unfold b; lra).
  set (t := a / (a + b)). assert (Ht : (a + b) * t == a) by (unfold t; field; lra).
  assert (Ht0 : 0 < t) by nra. assert (Ht1 : t < 1) by nra.
  assert (Hne : e <> f) by (intros ->; lra).
  apply (no_meet e f ((1 - t) * h1 + t * h2)); auto.
  - unfold within, withinc in *. split; nra.
  - unfold within, withinc in *. split; nra.
  - rewrite !X_affine. unfold a, b in Ht. nra.
Qed.

Lemma order_open e f h1 h2 : In e Es -> In f Es -> withinc e h1 -> withinc f h1 -> within e h2 -> within f h2 ->
  X e h1 < X f h1 -> X e h2 < X f h2.
Proof.
  intros He Hf W1 W2 W3 W4 K. assert (Hne : e <> f) by (intros ->; lra).
  destruct (Q_dec (X e h2) (X f h2)) as [[K2|K2]|K2]; auto.
  - apply (order_closed f e h2 h1) in K2; auto. lra.
  - exfalso. now apply (no_meet e f h2).
Qed.

(** ** Edges with a common end *)

Lemma share_max e f : In e Es -> In f Es -> e <> f -> snd e = snd f -> ~ cx (fst f) == X e (ht (fst f)).
Proof.
  intros He Hf Hne Hs K. pose proof (e_lt e He) as H1. pose proof (e_lt f Hf) as H2.
  set (lo := if Qlt_le_dec (ht (fst e)) (ht (fst f)) then ht (fst f) else ht (fst e)).
  assert (Hlo : ht (fst e) <= lo /\ ht (fst f) <= lo /\ lo < ht (snd e)).
  { unfold lo. rewrite <- Hs in H2. destruct (Qlt_le_dec (ht (fst e)) (ht (fst f))); lra. }
  set (h := (lo + ht (snd e)) * (1 # 2)).
  apply (no_meet e f h); auto; unfold within; rewrite <- ?Hs; unfold h; try (split; lra).
  set (t := (ht (snd e) - h) / (ht (snd e) - ht (fst f))).
  assert (Hd : 0 < ht (snd e) - ht (fst f)) by (rewrite Hs; lra).
  assert (Hh : h == (1 - t) * ht (snd e) + t * ht (fst f)) by (unfold t; field; lra).
  fold h. rewrite (X_eq e _ _ Hh), (X_eq f _ _ Hh), !X_affine, X_max by auto. rewrite Hs. rewrite X_max, X_min by auto. rewrite K. ring.
Qed.

Lemma share_min e f : In e Es -> In f Es -> e <> f -> fst e = fst f -> ~ cx (snd f) == X e (ht (snd f)).
Proof.
  intros He Hf Hne Hs K. pose proof (e_lt e He) as H1. pose proof (e_lt f Hf) as H2.
  set (hi := if Qlt_le_dec (ht (snd e)) (ht (snd f)) then ht (snd e) else ht (snd f)).
  assert (Hhi : hi <= ht (snd e) /\ hi <= ht (snd f) /\ ht (fst e) < hi).
  { unfold hi. rewrite <- Hs in H2. destruct (Qlt_le_dec (ht (snd e)) (ht (snd f))); lra. }
  set (h := (hi + ht (fst e)) * (1 # 2)).
  apply (no_meet e f h); auto; unfold within; rewrite <- ?Hs; unfold h; try (split; lra).
  set (t := (h - ht (fst e)) / (ht (snd f) - ht (fst e))).
  assert (Hd : 0 < ht (snd f) - ht (fst e)) by (rewrite Hs; lra).
  assert (Hh : h == (1 - t) * ht (fst e) + t * ht (snd f)) by (unfold t; field; lra).
  fold h. rewrite (X_eq e _ _ Hh), (X_eq f _ _ Hh), !X_affine, X_min. rewrite Hs. rewrite X_max, X_min by auto. rewrite K. ring.
Qed.

Lemma scale_pos a b t : 0 < t -> a < b -> t * a < t * b.
Proof. nra. Qed.

(** Two edges down from the same vertex: [f] is left of [e] iff its lower end is left of the line of [e]. *)
Lemma left_share_max e f h : In e Es -> In f Es -> snd e = snd f -> within e h -> within f h ->
  (cx (fst f) < X e (ht (fst f)) <-> X f h < X e h).
Proof.
  intros He Hf Hs (W1 & W2) (W3 & W4).
  set (t := (ht (snd e) - h) / (ht (snd e) - ht (fst f))).
  assert (Hd : 0 < ht (snd e) - ht (fst f)) by lra.
  assert (Hh : h == (1 - t) * ht (snd e) + t * ht (fst f)) by (unfold t; field; lra).
  assert (Ht : 0 < t). { assert ((ht (snd e) - ht (fst f)) * t == ht (snd e) - h) by (unfold t; field; lra). nra. }
  rewrite (X_eq e _ _ Hh), (X_eq f _ _ Hh), !X_affine, X_max by auto. rewrite Hs. rewrite X_max, X_min by auto.
  split; intros K.
  - pose proof (scale_pos _ _ t Ht K). lra.
  - apply (Qmult_lt_l _ _ t Ht). lra.
Qed.

Lemma left_share_min e f h : In e Es -> In f Es -> fst e = fst f -> within e h -> within f h ->
  (cx (snd f) < X e (ht (snd f)) <-> X f h < X e h).
Proof.
  intros He Hf Hs (W1 & W2) (W3 & W4).
  set (t := (h - ht (fst e)) / (ht (snd f) - ht (fst e))).
  assert (Hd : 0 < ht (snd f) - ht (fst e)) by lra.
  assert (Hh : h == (1 - t) * ht (fst e) + t * ht (snd f)) by (unfold t; field; lra).
  assert (Ht : 0 < t). { assert ((ht (snd f) - ht (fst e)) * t == h - ht (fst e)) by (unfold t; field; lra). nra. }
  rewrite (X_eq e _ _ Hh), (X_eq f _ _ Hh), !X_affine, X_min by auto. rewrite Hs. rewrite X_max, X_min by auto.
  split; intros K.
  - pose proof (scale_pos _ _ t Ht K). lra.
  - apply (Qmult_lt_l _ _ t Ht). lra.
Qed.

End Geo.
