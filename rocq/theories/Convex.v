(** Polygons whose vertices turn the same way throughout are valid. *)
From Coq Require Import List Arith Bool Lia QArith Lqa.
From Verif Require Import Base Coord Plane Build.
Import ListNotations.
Local Open Scope nat_scope.

(** Any three vertices, taken in order, turn to the same side ([s] is [1] or [-1]), with more than [c] as twice the area. *)
Definition turning (s c : Q) (l : list point) : Prop :=
  3 <= length l /\ forall i j k p q r, i < j < k -> nth_error l i = Some p -> nth_error l j = Some q -> nth_error l k = Some r -> (c < s * cross p q r)%Q.

Lemma cross_cycle a b c : (cross a b c == cross b c a)%Q.
Proof. unfold cross, cx, cy. ring. Qed.
Lemma cross_swap a b c : (cross a c b == - cross a b c)%Q.
Proof. unfold cross, cx, cy. ring. Qed.
Lemma cross_eq a b c : peq a b -> (cross a b c == 0)%Q.
Proof. intros (E1 & E2). unfold cross. rewrite E1, E2. ring. Qed.

Section Convex.
Variables (s c : Q) (l : list point).
Hypothesis Hc : (0 <= c)%Q.
Hypothesis HT : turning s c l.

(** The determinant of three different vertices in any order. *)
Lemma turn_any i j k p q r : i <> j -> j <> k -> i <> k -> nth_error l i = Some p -> nth_error l j = Some q -> nth_error l k = Some r ->
  (c < s * cross p q r \/ c < - (s * cross p q r))%Q.
Proof.
  intros N1 N2 N3 Hp Hq Hr. destruct HT as (_ & T).
  assert (O : i < j < k \/ j < k < i \/ k < i < j \/ i < k < j \/ k < j < i \/ j < i < k) by lia. destruct O as [O|[O|[O|[O|[O|O]]]]].
  - left. exact (T i j k p q r O Hp Hq Hr).
  - left. rewrite cross_cycle. exact (T j k i q r p O Hq Hr Hp).
  - left. rewrite cross_cycle, cross_cycle. exact (T k i j r p q O Hr Hp Hq).
  - right. pose proof (T i k j p r q O Hp Hr Hq) as K. rewrite cross_swap in K. lra.
  - right. pose proof (T k j i r q p O Hr Hq Hp) as K. rewrite cross_cycle, cross_cycle, cross_swap in K. lra.
  - right. pose proof (T j i k q p r O Hq Hp Hr) as K. rewrite cross_cycle, cross_swap in K. lra.
Qed.

Definition next_ (i : nat) : nat := (i + 1) mod length l.
Lemma next_spec i : i < length l -> (i + 1 < length l /\ next_ i = i + 1) \/ (i + 1 = length l /\ next_ i = 0).
Proof. intros H. unfold next_. destruct (Nat.eq_dec (i + 1) (length l)) as [E|E]; [right; rewrite E, Nat.mod_same by lia; auto|left; rewrite Nat.mod_small by lia; lia]. Qed.

(** All other vertices are on the same side of an edge. *)
Lemma edge_side i k p q r : nth_error l i = Some p -> nth_error l (next_ i) = Some q -> nth_error l k = Some r -> k <> i -> k <> next_ i -> (0 < s * cross p q r)%Q.
Proof.
  intros Hp Hq Hr N1 N2. destruct HT as (L & T). assert (Li : i < length l) by (apply nth_error_Some; congruence). assert (Lk : k < length l) by (apply nth_error_Some; congruence).
  destruct (next_spec i Li) as [(E1 & E2)|(E1 & E2)]; rewrite E2 in *.
  - destruct (Nat.lt_ge_cases k i) as [K|K]; [rewrite cross_cycle, cross_cycle; specialize (T k i (i + 1) r p q ltac:(lia) Hr Hp Hq)|specialize (T i (i + 1) k p q r ltac:(lia) Hp Hq Hr)]; lra.
  - rewrite cross_cycle. specialize (T 0 k i q r p ltac:(lia) Hq Hr Hp). lra.
Qed.

Lemma distinct i j a b : nth_error l i = Some a -> nth_error l j = Some b -> peq a b -> i = j.
Proof.
  intros Ha Hb E. destruct (Nat.eq_dec i j) as [|N]; auto. exfalso. assert (K : exists k, k < length l /\ k <> i /\ k <> j).
  { destruct HT as (L & _). destruct (Nat.eq_dec i 0), (Nat.eq_dec j 0), (Nat.eq_dec i 1), (Nat.eq_dec j 1); try (exists 0; lia); try (exists 1; lia); exists 2; lia. }
  destruct K as (k & L & K1 & K2). destruct (nth_error l k) as [r|] eqn:Hr; [|apply nth_error_None in Hr; lia].
  pose proof (cross_eq a b r E) as Z. destruct (turn_any i j k a b r N ltac:(auto) ltac:(auto) Ha Hb Hr) as [T|T]; rewrite Z in T; lra.
Qed.

Lemma shared i j a b u v p : nth_error l i = Some a -> nth_error l (next_ i) = Some b -> nth_error l j = Some u -> nth_error l (next_ j) = Some v -> i <> j ->
  on_segment a b p -> on_segment u v p -> peq p u \/ peq p v.
Proof.
  intros Ha Hb Hu Hv N (t & T1 & T2 & Tx & Ty) (w & W1 & W2 & Wx & Wy). assert (Li : i < length l) by (apply nth_error_Some; congruence). assert (Lj : j < length l) by (apply nth_error_Some; congruence).
  destruct HT as (L & _).
  assert (Z : (cross a b p == 0)%Q) by (unfold cross; rewrite Tx, Ty; ring).
  assert (S : (cross a b p == (1 - w) * cross a b u + w * cross a b v)%Q) by (unfold cross; rewrite Wx, Wy; ring).
  assert (D : forall k r, nth_error l k = Some r -> (0 <= s * cross a b r)%Q).
  { intros k r Hr. destruct (Nat.eq_dec k i) as [->|K1]; [assert (r = a) by congruence; subst; setoid_replace (cross a b a) with 0%Q by (unfold cross; ring); lra|].
    destruct (Nat.eq_dec k (next_ i)) as [->|K2]; [assert (r = b) by congruence; subst; setoid_replace (cross a b b) with 0%Q by (unfold cross; ring); lra|].
    apply Qlt_le_weak. exact (edge_side i k a b r Ha Hb Hr K1 K2). }
  pose proof (D _ _ Hu) as Du. pose proof (D _ _ Hv) as Dv. assert (S' : ((1 - w) * (s * cross a b u) + w * (s * cross a b v) == 0)%Q) by (assert (X : (s * cross a b p == 0)%Q) by (rewrite Z; ring); rewrite S in X; rewrite <- X; ring).
  assert (O : j <> next_ i \/ next_ j <> i) by (destruct (next_spec i Li) as [(?&?)|(?&?)], (next_spec j Lj) as [(?&?)|(?&?)]; lia).
  destruct (Nat.eq_dec j (next_ i)) as [Ej|Ej].
  - (* the far end is strictly to the side *)
    assert (Nv : next_ j <> i) by (destruct O; auto; congruence). assert (Nw : next_ j <> next_ i) by (rewrite <- Ej; destruct (next_spec j Lj) as [(?&?)|(?&?)]; lia).
    pose proof (edge_side i (next_ j) a b v Ha Hb Hv Nv Nw) as P. left. assert (w == 0)%Q by nra. split; rewrite ?Wx, ?Wy; rewrite H; ring.
  - pose proof (edge_side i j a b u Ha Hb Hu ltac:(auto) Ej) as P. right. assert (w == 1)%Q by nra. split; rewrite ?Wx, ?Wy; rewrite H; ring.
Qed.

Theorem turning_valid : valid [l].
Proof.
  split; [|split].
  - constructor; auto. apply HT.
  - intros i j a b Ha Hb. cbn in Ha, Hb. rewrite app_nil_r in Ha, Hb. eapply distinct; eauto.
  - intros i j (a, b) (u, v) p He Hf N He' Hf'. cbn [map concat] in He, Hf. rewrite app_nil_r in He, Hf. apply edges_nth in He, Hf. destruct He as (A & B), Hf as (U & V). cbn [fst snd] in *.
    split; [apply (shared j i u v a b p); auto|apply (shared i j a b u v p); auto].
Qed.
End Convex.
