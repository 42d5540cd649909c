(** Points near the vertices of a regular polygon turn the same way throughout. *)
From Coq Require Import Reals Rtrigo_facts Qreals QArith Lra Lia List Arith Psatz.
From Verif Require Import Base Coord Plane Convex.
Import ListNotations.
Local Open Scope R_scope.

Lemma sin_lower x : 0 <= x -> x <= 4 / 3 -> 7 / 10 * x <= sin x.
Proof.
  intros H0 H1. pose proof PI2_3_2 as P. destruct (sin_bound x 0 H0 ltac:(lra)) as (B & _). eapply Rle_trans; [|exact B].
  unfold sin_approx, sin_term. cbn [Nat.mul Nat.add sum_f_R0 pow fact INR]. assert (x * x <= 16 / 9) by nra. field_simplify. nra.
Qed.

Definition theta (n i : nat) : R := 2 * PI * INR i / INR n.

Lemma sin_step n m : (3 <= n)%nat -> (1 <= m)%nat -> (m < n)%nat -> 2 / INR n <= sin (INR m * PI / INR n).
Proof.
  intros Hn H1 H2. assert (Pn : 3 <= INR n) by (apply (le_INR 3) in Hn; cbn in Hn; lra). assert (P0 := PI_RGT_0). assert (P4 := PI_4). assert (P3 := PI2_3_2). assert (Pi : 0 < / INR n) by (apply Rinv_0_lt_compat; lra).
  assert (Hin : / INR n <= / 3) by (apply Rinv_le_contravar; lra).
  assert (Base : 2 / INR n <= sin (PI / INR n)).
  { assert (0 <= PI / INR n) by (unfold Rdiv; nra). assert (PI / INR n <= 4 / 3) by (unfold Rdiv; nra). pose proof (sin_lower _ H H0). assert (2 / INR n <= 7 / 10 * (PI / INR n)); [|lra]. unfold Rdiv. nra. }
  assert (Half : forall k, (1 <= k)%nat -> INR k * PI / INR n <= PI / 2 -> sin (PI / INR n) <= sin (INR k * PI / INR n)).
  { intros k K1 K2. apply (le_INR 1) in K1. change (INR 1) with 1 in K1. assert (PI / INR n <= INR k * PI / INR n) by (unfold Rdiv; assert (0 < PI * / INR n) by nra; nra). assert (0 <= PI / INR n) by (unfold Rdiv; nra).
    apply sin_incr_1; lra. }
  eapply Rle_trans; [exact Base|]. destruct (Rle_dec (INR m * PI / INR n) (PI / 2)) as [L|L]; [apply Half; auto|].
  assert (E : INR m * PI / INR n = PI - INR (n - m) * PI / INR n) by (rewrite minus_INR by lia; field; lra). rewrite E, sin_PI_x. apply Half; [lia|]. rewrite minus_INR by lia.
  assert (E2 : (INR n - INR m) * PI / INR n = PI - INR m * PI / INR n) by (field; lra). rewrite E2. lra.
Qed.

(** Twice the area of three points of the circle of radius one, [x] being the sine and [y] the cosine. *)
Lemma circle_cross a b c : (sin b - sin a) * (cos c - cos a) - (cos b - cos a) * (sin c - sin a) = - (4 * sin ((b - a) / 2) * sin ((c - b) / 2) * sin ((c - a) / 2)).
Proof.
  assert (E : (sin b - sin a) * (cos c - cos a) - (cos b - cos a) * (sin c - sin a) = sin (b - c) + sin (a - b) + sin (c - a)) by (rewrite !sin_minus; ring). rewrite E.
  set (u := (b - a) / 2). set (v := (c - b) / 2). assert (Eu : (c - a) / 2 = u + v) by (unfold u, v; field). rewrite Eu.
  replace (b - c) with (- (2 * v)) by (unfold v; field). replace (a - b) with (- (2 * u)) by (unfold u; field). replace (c - a) with (2 * (u + v)) by (unfold u, v; field).
  rewrite !sin_neg, !sin_2a, cos_plus, sin_plus. pose proof (sin2_cos2 u) as Su. pose proof (sin2_cos2 v) as Sv. unfold Rsqr in *.
  set (su := sin u) in *. set (cu := cos u) in *. set (sv := sin v) in *. set (cv := cos v) in *. clearbody su cu sv cv. clear - Su Sv.
  apply Rminus_diag_uniq. transitivity (2 * su * cu * (sv * sv + cv * cv - 1) + 2 * sv * cv * (su * su + cu * cu - 1)); [ring|]. rewrite Su, Sv. ring.
Qed.

Lemma half_theta n i j : (i < j)%nat -> (0 < n)%nat -> (theta n j - theta n i) / 2 = INR (j - i) * PI / INR n.
Proof. intros H Hn. apply lt_0_INR in Hn. unfold theta. rewrite minus_INR by lia. field. lra. Qed.

(** The vertices of the regular polygon with radius [r]. *)
Definition vert_x (r : R) (n i : nat) : R := sin (theta n i) * r.
Definition vert_y (r : R) (n i : nat) : R := cos (theta n i) * r.

Lemma regular_cross r n i j k : (3 <= n)%nat -> (i < j < k)%nat -> (k < n)%nat -> 0 <= r ->
  32 * r * r / (INR n * INR n * INR n) <= - ((vert_x r n j - vert_x r n i) * (vert_y r n k - vert_y r n i) - (vert_y r n j - vert_y r n i) * (vert_x r n k - vert_x r n i)).
Proof.
  intros Hn H1 H2 Hr. assert (Pn : 0 < INR n) by (apply lt_0_INR; lia). unfold vert_x, vert_y.
  apply Rle_trans with (r * r * (4 * sin (INR (j - i) * PI / INR n) * sin (INR (k - j) * PI / INR n) * sin (INR (k - i) * PI / INR n))).
  - pose proof (sin_step n (j - i) Hn ltac:(lia) ltac:(lia)) as A. pose proof (sin_step n (k - j) Hn ltac:(lia) ltac:(lia)) as B. pose proof (sin_step n (k - i) Hn ltac:(lia) ltac:(lia)) as C.
    set (a := sin _) in *. set (b := sin (INR (k - j) * PI / INR n)) in *. set (c := sin (INR (k - i) * PI / INR n)) in *. clearbody a b c. assert (Q : 0 < 2 / INR n) by (apply Rdiv_lt_0_compat; lra). set (w := 2 / INR n) in *.
    assert (E : 32 * r * r / (INR n * INR n * INR n) = r * r * (4 * w * w * w)) by (unfold w; field; lra). rewrite E. clearbody w. apply Rmult_le_compat_l; [nra|]. assert (w * w <= a * b) by nra. assert (w * w * w <= a * b * c) by nra. lra.
  - right. rewrite <- (half_theta n i j), <- (half_theta n j k), <- (half_theta n i k) by lia.
    transitivity (r * r * - ((sin (theta n j) - sin (theta n i)) * (cos (theta n k) - cos (theta n i)) - (cos (theta n j) - cos (theta n i)) * (sin (theta n k) - sin (theta n i)))); [rewrite circle_cross; ring|ring].
Qed.

Lemma vert_abs r n i : 0 <= r -> Rabs (vert_x r n i) <= r /\ Rabs (vert_y r n i) <= r.
Proof. intros Hr. unfold vert_x, vert_y. destruct (SIN_bound (theta n i)), (COS_bound (theta n i)). split; apply Rabs_le; nra. Qed.

(** [p] is within [d] of the vertex in both coordinates. *)
Definition near_vertex (r d : R) (n i : nat) (p : point) : Prop := Rabs (Q2R (fst p) - vert_x r n i) <= d /\ Rabs (Q2R (snd p) - vert_y r n i) <= d.

Lemma prod_near a b a' b' m e : 0 <= e -> Rabs a <= m -> Rabs b <= m -> Rabs (a' - a) <= e -> Rabs (b' - b) <= e -> Rabs (a' * b' - a * b) <= 2 * m * e + e * e.
Proof.
  intros He Ha Hb Ha' Hb'. replace (a' * b' - a * b) with ((a' - a) * b + a * (b' - b) + (a' - a) * (b' - b)) by ring.
  eapply Rle_trans; [apply Rabs_triang|]. assert (X : Rabs ((a' - a) * b + a * (b' - b)) <= 2 * m * e).
  { eapply Rle_trans; [apply Rabs_triang|]. rewrite !Rabs_mult. pose proof (Rabs_pos a). pose proof (Rabs_pos b). pose proof (Rabs_pos (a' - a)). pose proof (Rabs_pos (b' - b)). nra. }
  assert (Y : Rabs ((a' - a) * (b' - b)) <= e * e) by (rewrite Rabs_mult; pose proof (Rabs_pos (a' - a)); pose proof (Rabs_pos (b' - b)); nra). lra.
Qed.

Lemma near_cross r d n i j k p q t : (3 <= n)%nat -> (i < j < k)%nat -> (k < n)%nat -> 0 <= r -> 0 <= d -> near_vertex r d n i p -> near_vertex r d n j q -> near_vertex r d n k t ->
  32 * r * r / (INR n * INR n * INR n) - (16 * r * d + 8 * d * d) <= - Q2R (cross p q t).
Proof.
  intros Hn H1 H2 Hr Hd (P1 & P2) (Q1 & Q2) (T1 & T2). pose proof (regular_cross r n i j k Hn H1 H2 Hr) as K.
  destruct (vert_abs r n i Hr) as (Ai & Bi), (vert_abs r n j Hr) as (Aj & Bj), (vert_abs r n k Hr) as (Ak & Bk).
  assert (E : Q2R (cross p q t) = (Q2R (fst q) - Q2R (fst p)) * (Q2R (snd t) - Q2R (snd p)) - (Q2R (snd q) - Q2R (snd p)) * (Q2R (fst t) - Q2R (fst p))) by (unfold cross, cx, cy; rewrite !Q2R_minus, !Q2R_mult, !Q2R_minus; ring). rewrite E.
  set (xi := vert_x r n i) in *. set (xj := vert_x r n j) in *. set (xk := vert_x r n k) in *. set (yi := vert_y r n i) in *. set (yj := vert_y r n j) in *. set (yk := vert_y r n k) in *.
  set (a := Q2R (fst p)) in *. set (b := Q2R (snd p)) in *. set (a' := Q2R (fst q)) in *. set (b' := Q2R (snd q)) in *. set (a2 := Q2R (fst t)) in *. set (b2 := Q2R (snd t)) in *. clearbody xi xj xk yi yj yk a b a' b' a2 b2.
  assert (S : forall u v w z, Rabs (u - v) <= d -> Rabs (w - z) <= d -> Rabs ((u - w) - (v - z)) <= 2 * d).
  { intros u v w z U W. replace (u - w - (v - z)) with ((u - v) - (w - z)) by ring. unfold Rminus at 1. eapply Rle_trans; [apply Rabs_triang|]. rewrite Rabs_Ropp. lra. }
  assert (M : forall v z, Rabs v <= r -> Rabs z <= r -> Rabs (v - z) <= 2 * r). { intros v z V Z. unfold Rminus. eapply Rle_trans; [apply Rabs_triang|]. rewrite Rabs_Ropp. lra. }
  assert (N1 : Rabs ((a' - a) * (b2 - b) - (xj - xi) * (yk - yi)) <= 2 * (2 * r) * (2 * d) + 2 * d * (2 * d)) by (apply prod_near; auto; lra).
  assert (N2 : Rabs ((b' - b) * (a2 - a) - (yj - yi) * (xk - xi)) <= 2 * (2 * r) * (2 * d) + 2 * d * (2 * d)) by (apply prod_near; auto; lra).
  revert N1 N2. unfold Rabs. repeat destruct Rcase_abs; lra.
Qed.
