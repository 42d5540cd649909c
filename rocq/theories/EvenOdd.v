(** The even-odd rule and triangles as sets of points: the specification of tiling, and how it meets crossings. *)
From Coq Require Import QArith Lqa List Arith Lia Bool ZArith Permutation.
From Verif Require Import Base Coord Trap Plane MonoGeom Geo Polygons Build Tile Sweep.
Import ListNotations.
Local Open Scope Q_scope.

(** The horizontal ray from [p] to the right meets the edge [d]; of the two ends the upper one counts as part of it. *)
Definition crossed (p : point) (d : point * point) : bool :=
  let (a, b) := d in
  if Qltb (cy a) (cy p) then negb (Qltb (cy b) (cy p)) && Qltb 0 (cross a b p) else Qltb (cy b) (cy p) && Qltb 0 (cross b a p).

(** Even-odd rule. *)
Definition crossings (ps : list (list point)) (p : point) : nat := length (filter (crossed p) (concat (map edges ps))).
Definition inside_eo (ps : list (list point)) (p : point) : bool := Nat.odd (crossings ps p).

(** The point [p] is in the closed triangle. *)
Definition in_closed (t : point * point * point) (p : point) : Prop := let '(a, b, c) := t in
  exists u v w, 0 <= u /\ 0 <= v /\ 0 <= w /\ u + v + w == 1 /\ cx p == u * cx a + v * cx b + w * cx c /\ cy p == u * cy a + v * cy b + w * cy c.

(** The point [p] is on an edge of the triangle. *)
Definition on_tri (t : point * point * point) (p : point) : Prop := let '(a, b, c) := t in on_segment a b p \/ on_segment b c p \/ on_segment c a p.

(** The point is on no edge of the polygons. *)
Definition off (ps : list (list point)) (p : point) : Prop := forall d, In d (concat (map edges ps)) -> ~ on_segment (fst d) (snd d) p.

(** The triangles cover each point inside the polygons exactly once and no point outside; points on edges are left out. *)
Definition tiles (ps : list (list point)) (T : list (point * point * point)) : Prop :=
  forall p, off ps p -> (forall t, In t T -> ~ on_tri t p) ->
    if inside_eo ps p
    then exists k t, nth_error T k = Some t /\ in_closed t p /\ forall j u, nth_error T j = Some u -> in_closed u p -> j = k
    else forall t, In t T -> ~ in_closed t p.

Lemma crossed_sym p a b : crossed p (a, b) = crossed p (b, a).
Proof. unfold crossed. destruct (Qltb (cy a) (cy p)) eqn:E1, (Qltb (cy b) (cy p)) eqn:E2; reflexivity. Qed.

Lemma Qltb_false a b : Qltb a b = false <-> b <= a.
Proof. rewrite <- not_true_iff_false, Qltb_spec. split; intros H; [now apply Qnot_lt_le|lra]. Qed.

Lemma crossed_up p a b : plt a b -> (crossed p (a, b) = true <-> plt a p /\ plt p b /\ 0 < cross a b p).
Proof.
  intros Hab. unfold crossed. split.
  - intros H. destruct (Qltb (cy a) (cy p)) eqn:E1.
    + apply Qltb_spec in E1. apply andb_true_iff in H. destruct H as (H1 & H2). apply negb_true_iff, Qltb_false in H1. apply Qltb_spec in H2. split; [now left|]. split; auto.
      destruct (Qlt_le_dec (cy p) (cy b)) as [K|K]; [now left|]. assert (E : cy p == cy b) by lra. right. split; auto. unfold cross in H2. rewrite E in H2, E1. nra.
    + apply Qltb_false in E1. apply andb_true_iff in H. destruct H as (H1 & _). apply Qltb_spec in H1. exfalso. destruct Hab; lra.
  - intros (H1 & H2 & H3). assert (E : cy a < cy p).
    { destruct H1 as [H1|(H1 & H1')]; auto. exfalso. unfold cross in H3. rewrite H1 in H3. assert (cy p <= cy b) by (destruct H2 as [H2|[H2 _]]; lra). nra. }
    assert (Qltb (cy a) (cy p) = true) as -> by now apply Qltb_spec. apply andb_true_iff. split; [|now apply Qltb_spec]. apply negb_true_iff, Qltb_false. destruct H2 as [H2|[H2 _]]; lra.
Qed.

(** The ray at the sheared height. *)
Lemma crossed_hits W M p a b : shear M W -> In a W -> In b W -> In p W -> plt a b -> crossed p (a, b) = hits M p a b.
Proof.
  intros HM Ha Hb Hp Hab. apply eq_true_iff_eq. rewrite (crossed_up p a b Hab), hits_spec, (ht_lt W M HM a p Ha Hp), (ht_lt W M HM p b Hp Hb). reflexivity.
Qed.

(** Closed and open triangle agree away from the edges. *)
Lemma in_closed_open M p a b c : 0 < M -> (forall x y, In x [a; b; c] -> In y [a; b; c] -> ht M x == ht M y -> x = y) -> 0 <= cross a b c -> ~ on_tri (a, b, c) p ->
  (in_closed (a, b, c) p <-> in_tri p (a, b, c)).
Proof.
  intros HM Hinj Hc Hon. split.
  - intros (u & v & w & Hu & Hv & Hw & Hs & Ex & Ey). unfold on_tri in Hon.
    assert (sy : forall x y, on_segment x y p -> on_segment y x p). { intros x y (t & K1 & K2 & K3 & K4). exists (1 - t). split; [lra|]. split; [lra|]. rewrite K3, K4. split; ring. }
    assert (Ew : cross a b p == w * cross a b c). { unfold cross. rewrite Ex, Ey. setoid_replace u with (1 - v - w) by lra. ring. }
    assert (Eu : cross b c p == u * cross a b c). { unfold cross. rewrite Ex, Ey. setoid_replace u with (1 - v - w) by lra. ring. }
    assert (Ev : cross c a p == v * cross a b c). { unfold cross. rewrite Ex, Ey. setoid_replace u with (1 - v - w) by lra. ring. }
    destruct (Qlt_le_dec 0 (cross a b c)) as [Hc'|Hc'].
    + assert (Zw : ~ w == 0). { intros Z. apply Hon. left. exists v. split; auto. split; [lra|]. rewrite Ex, Ey, Z. setoid_replace u with (1 - v) by lra. split; ring. }
      assert (Zu : ~ u == 0). { intros Z. apply Hon. right; left. exists w. split; auto. split; [lra|]. rewrite Ex, Ey, Z. setoid_replace v with (1 - w) by lra. split; ring. }
      assert (Zv : ~ v == 0). { intros Z. apply Hon. right; right. exists u. split; auto. split; [lra|]. rewrite Ex, Ey, Z. setoid_replace w with (1 - u) by lra. split; ring. }
      assert (0 < u) by lra. assert (0 < v) by lra. assert (0 < w) by lra. cbn. rewrite Ew, Eu, Ev. repeat split; nra.
    + exfalso. assert (Z : cross a b c == 0) by lra.
      (* a flat triangle is covered by its edges *)
      assert (Mid : forall x y z l m n, 0 <= l -> 0 <= m -> 0 <= n -> l + m + n == 1 -> on_segment x z y ->
        cx p == l * cx x + m * cx y + n * cx z -> cy p == l * cy x + m * cy y + n * cy z -> on_segment x z p).
      { intros x y z l m n Hl Hm Hn Hsum (t & T0 & T1 & Tx & Ty) Px Py. exists (m * t + n). assert (0 <= m * t) by nra. assert (m * t <= m) by nra. split; [lra|]. split; [lra|].
        rewrite Px, Py, Tx, Ty. setoid_replace l with (1 - m - n) by lra. split; ring. }
      assert (Btw : forall x y z, cross x z y == 0 -> In x [a; b; c] -> In y [a; b; c] -> In z [a; b; c] -> ht M x <= ht M y -> ht M y <= ht M z -> on_segment x z y).
      { intros x y z C0 Hx Hy Hz H1 H2. destruct (Qlt_le_dec (ht M x) (ht M y)) as [K1|K1].
        - destruct (Qlt_le_dec (ht M y) (ht M z)) as [K2|K2]; [now apply (on_zero M)|]. rewrite (Hinj y z) by (auto; lra). apply on_end.
        - rewrite (Hinj y x) by (auto; lra). apply on_start. }
      assert (Rot : cross a c b == 0 /\ cross b a c == 0 /\ cross b c a == 0 /\ cross c a b == 0 /\ cross c b a == 0) by (revert Z; unfold cross; intros Z; repeat split; lra).
      destruct Rot as (Z1 & Z2 & Z3 & Z4 & Z5).
      assert (Ia : In a [a; b; c]) by (cbn; auto). assert (Ib : In b [a; b; c]) by (cbn; auto). assert (Ic : In c [a; b; c]) by (cbn; auto).
      destruct (Qlt_le_dec (ht M a) (ht M b)) as [K1|K1], (Qlt_le_dec (ht M b) (ht M c)) as [K2|K2], (Qlt_le_dec (ht M a) (ht M c)) as [K3|K3].
      * apply Hon. right; right. apply sy. apply (Mid a b c u v w); auto; apply Btw; auto; lra.
      * lra.
      * apply Hon. left. apply (Mid a c b u w v); auto; try lra; apply Btw; auto; lra.
      * apply Hon. right; left. apply sy. apply (Mid c a b w u v); auto; try lra; apply Btw; auto; lra.
      * apply Hon. right; left. apply (Mid b a c v u w); auto; try lra; apply Btw; auto; lra.
      * apply Hon. left. apply sy. apply (Mid b c a v w u); auto; try lra; apply Btw; auto; lra.
      * lra.
      * apply Hon. right; right. apply (Mid c b a w v u); auto; try lra; apply Btw; auto; lra.
  - intros (H1 & H2 & H3). pose proof (cross_split a b c p) as E. assert (HC : 0 < cross a b c) by lra.
    exists (cross b c p / cross a b c), (cross c a p / cross a b c), (cross a b p / cross a b c).
    assert (NZ : ~ cross a b c == 0) by lra.
    split; [apply Qle_shift_div_l; lra|]. split; [apply Qle_shift_div_l; lra|]. split; [apply Qle_shift_div_l; lra|]. split; [rewrite E in *; field; lra|].
    split; apply (Qmult_inj_r _ _ (cross a b c) NZ); field_simplify; auto; unfold cross; ring.
Qed.
