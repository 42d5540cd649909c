(** A test that a polygon list is valid, used for concrete inputs. *)
From Coq Require Import List Arith Bool QArith Lqa Lia.
From Verif Require Import Base Coord Trap Plane.
Import ListNotations.
Local Open Scope Q_scope.

Lemma qltb_lt a b : Qltb a b = true <-> a < b.
Proof. unfold Qltb. rewrite negb_true_iff, <- not_true_iff_false, Qle_bool_iff. split; [apply Qnot_le_lt|apply Qlt_not_le]. Qed.

Definition peqb (a b : point) : bool := Qeq_bool (cx a) (cx b) && Qeq_bool (cy a) (cy b).
Lemma peqb_iff a b : peqb a b = true <-> peq a b.
Proof. unfold peqb, peq. rewrite andb_true_iff, !Qeq_bool_iff. tauto. Qed.

(** The points [c] and [d] are strictly on one side of the line through [a] and [b]. *)
Definition one_side (a b c d : point) : bool := Qltb 0 (cross a b c * cross a b d).
(** The bounding boxes are apart. *)
Definition apart_x (a b c d : point) : bool := Qltb (cx a) (cx c) && Qltb (cx a) (cx d) && Qltb (cx b) (cx c) && Qltb (cx b) (cx d).
Definition apart_y (a b c d : point) : bool := Qltb (cy a) (cy c) && Qltb (cy a) (cy d) && Qltb (cy b) (cy c) && Qltb (cy b) (cy d).
(** Two segments from the same point [v], the first one to [x] and the second one to [y], not in the same direction. *)
Definition spread (v x y : point) : bool :=
  negb (Qeq_bool (cross v x y) 0) || Qltb ((cx x - cx v) * (cx y - cx v) + (cy x - cy v) * (cy y - cy v)) 0.
Definition meet_at (v x w y : point) : bool := peqb v w && spread v x y.

Definition compatible (e f : point * point) : bool :=
  let (a, b) := e in let (c, d) := f in
  one_side a b c d || one_side c d a b || apart_x a b c d || apart_x c d a b || apart_y a b c d || apart_y c d a b ||
  meet_at a b c d || meet_at a b d c || meet_at b a c d || meet_at b a d c.

Lemma on_flip a b p : on_segment a b p -> on_segment b a p.
Proof. intros (t & H0 & H1 & Hx & Hy). exists (1 - t). repeat split; try lra. Qed.

Lemma one_side_off a b c d p : one_side a b c d = true -> on_segment a b p -> on_segment c d p -> False.
Proof.
  unfold one_side. rewrite qltb_lt. intros H (t & _ & _ & Hx & Hy) (u & U0 & U1 & Ux & Uy).
  assert (E0 : cross a b p == 0). { unfold cross. rewrite Hx, Hy. ring. }
  assert (E1 : cross a b p == (1 - u) * cross a b c + u * cross a b d). { unfold cross. rewrite Ux, Uy. ring. }
  rewrite E0 in E1. clear E0. set (A := cross a b c) in *. set (B := cross a b d) in *. clearbody A B.
  assert (E2 : 0 == (1 - u) * (A * A) + u * (A * B)). { transitivity (A * ((1 - u) * A + u * B)); [rewrite <- E1; ring|ring]. }
  assert (HA : 0 < A * A). { destruct (Q_dec A 0) as [[K|K]|K]; [nra|nra|]. exfalso. rewrite K in H. lra. }
  destruct (Qlt_le_dec u 1) as [K|K]; [|assert (u == 1) as K' by lra; rewrite K' in E2; lra].
  assert (0 < (1 - u) * (A * A)) by (apply Qmult_lt_0_compat; lra). assert (0 <= u * (A * B)) by (apply Qmult_le_0_compat; lra). lra.
Qed.

Lemma between_ab (a b t : Q) : 0 <= t -> t <= 1 -> (a <= a + t * (b - a) \/ b <= a + t * (b - a)) /\ (a + t * (b - a) <= a \/ a + t * (b - a) <= b).
Proof. intros. split; destruct (Qlt_le_dec a b); [left|right|right|left]; nra. Qed.

Lemma apart_x_off a b c d p : apart_x a b c d = true -> on_segment a b p -> on_segment c d p -> False.
Proof.
  unfold apart_x. rewrite !andb_true_iff, !qltb_lt. intros (((H1 & H2) & H3) & H4) (t & T0 & T1 & Hx & _) (u & U0 & U1 & Ux & _).
  destruct (between_ab (cx a) (cx b) t T0 T1) as [_ K]. destruct (between_ab (cx c) (cx d) u U0 U1) as [K' _].
  rewrite <- Hx in K. rewrite <- Ux in K'. destruct K, K'; lra.
Qed.
Lemma apart_y_off a b c d p : apart_y a b c d = true -> on_segment a b p -> on_segment c d p -> False.
Proof.
  unfold apart_y. rewrite !andb_true_iff, !qltb_lt. intros (((H1 & H2) & H3) & H4) (t & T0 & T1 & _ & Hx) (u & U0 & U1 & _ & Ux).
  destruct (between_ab (cy a) (cy b) t T0 T1) as [_ K]. destruct (between_ab (cy c) (cy d) u U0 U1) as [K' _].
  rewrite <- Hx in K. rewrite <- Ux in K'. destruct K, K'; lra.
Qed.

Lemma sq_nonneg (a b : Q) : 0 <= a * a + b * b.
Proof. nra. Qed.

Lemma sq_zero (a b : Q) : a * a + b * b == 0 -> a == 0.
Proof.
  intros H. assert (0 <= b * b) by nra. destruct (Q_dec a 0) as [[K|K]|K]; auto; exfalso; [assert (0 < (- a) * (- a)) by (apply Qmult_lt_0_compat; lra); lra|assert (0 < a * a) by (apply Qmult_lt_0_compat; lra); lra].
Qed.

Lemma meet_at_on v x w y p : meet_at v x w y = true -> on_segment v x p -> on_segment w y p -> peq p v /\ peq p w.
Proof.
  unfold meet_at. rewrite andb_true_iff, peqb_iff. intros [[Ex Ey] H] (t & T0 & T1 & Hx & Hy) (u & U0 & U1 & Ux & Uy).
  rewrite <- Ex in Ux. rewrite <- Ey in Uy.
  assert (K : peq p v); [|split; auto; destruct K; split; [rewrite <- Ex|rewrite <- Ey]; auto].
  unfold spread in H. apply orb_true_iff in H. destruct H as [H|H].
  - apply negb_true_iff in H. apply Qeq_bool_neq in H.
    assert (E : t * cross v x y == 0). { transitivity ((cx p - cx v) * (cy y - cy v) - (cy p - cy v) * (cx y - cx v)); [rewrite Hx, Hy; unfold cross; ring|rewrite Ux, Uy; ring]. }
    apply Qmult_integral in E. destruct E as [E|E]; [|now elim H]. split; [rewrite Hx|rewrite Hy]; rewrite E; ring.
  - apply qltb_lt in H. set (D := (cx x - cx v) * (cx y - cx v) + (cy x - cy v) * (cy y - cy v)) in *.
    set (N := (cx x - cx v) * (cx x - cx v) + (cy x - cy v) * (cy x - cy v)).
    assert (E : t * N == u * D). { transitivity ((cx p - cx v) * (cx x - cx v) + (cy p - cy v) * (cy x - cy v)); [rewrite Hx, Hy; unfold N; ring|rewrite Ux, Uy; unfold D; ring]. }
    assert (N0 : 0 <= N) by (unfold N; apply sq_nonneg).
    assert (NZ : 0 < N). { destruct (Qlt_le_dec 0 N); auto. exfalso. assert (N == 0) as Z by lra. unfold N in Z. assert (A : cx x - cx v == 0) by (eapply sq_zero; eauto). assert (B : cy x - cy v == 0) by (eapply sq_zero; rewrite Qplus_comm; eauto). unfold D in H. rewrite A, B in H. lra. }
    clearbody N D. assert (t * N <= 0) by (rewrite E; nra). assert (Z : t == 0) by nra. split; [rewrite Hx|rewrite Hy]; rewrite Z; ring.
Qed.

Lemma compatible_ok e f p : compatible e f = true -> on_segment (fst e) (snd e) p -> on_segment (fst f) (snd f) p ->
  (peq p (fst e) \/ peq p (snd e)) /\ (peq p (fst f) \/ peq p (snd f)).
Proof.
  destruct e as [a b], f as [c d]. cbn [fst snd compatible]. intros H He Hf. rewrite !orb_true_iff in H.
  destruct H as [[[[[[[[[H|H]|H]|H]|H]|H]|H]|H]|H]|H].
  - elim (one_side_off _ _ _ _ _ H He Hf).
  - elim (one_side_off _ _ _ _ _ H Hf He).
  - elim (apart_x_off _ _ _ _ _ H He Hf).
  - elim (apart_x_off _ _ _ _ _ H Hf He).
  - elim (apart_y_off _ _ _ _ _ H He Hf).
  - elim (apart_y_off _ _ _ _ _ H Hf He).
  - destruct (meet_at_on _ _ _ _ _ H He Hf); auto.
  - destruct (meet_at_on _ _ _ _ _ H He (on_flip _ _ _ Hf)); auto.
  - destruct (meet_at_on _ _ _ _ _ H (on_flip _ _ _ He) Hf); auto.
  - destruct (meet_at_on _ _ _ _ _ H (on_flip _ _ _ He) (on_flip _ _ _ Hf)); auto.
Qed.

Fixpoint pairwise {A} (r : A -> A -> bool) (l : list A) : bool :=
  match l with [] => true | a :: l => forallb (r a) l && pairwise r l end.
Lemma pairwise_lt {A} (r : A -> A -> bool) : forall l i j a b, pairwise r l = true -> nth_error l i = Some a -> nth_error l j = Some b -> (i < j)%nat -> r a b = true.
Proof.
  induction l as [|x l IH]; intros i j a b H Hi Hj Hij; [destruct i; discriminate|]. cbn in H. apply andb_true_iff in H. destruct H as [H1 H2].
  destruct j as [|j]; [lia|]. cbn in Hj. destruct i as [|i].
  - injection Hi as <-. rewrite forallb_forall in H1. apply H1. eapply nth_error_In; eauto.
  - cbn in Hi. apply (IH i j a b); auto; lia.
Qed.

Definition validb (ps : list (list point)) : bool :=
  forallb (fun p => Nat.leb 3 (length p)) ps && pairwise (fun a b => negb (peqb a b)) (concat ps) && pairwise compatible (concat (map edges ps)).

Lemma validb_valid ps : validb ps = true -> valid ps.
Proof.
  unfold validb. rewrite !andb_true_iff. intros [[H1 H2] H3]. split; [|split].
  - apply Forall_forall. intros p Hp. rewrite forallb_forall in H1. apply Nat.leb_le. auto.
  - intros i j a b Ha Hb E. destruct (Nat.lt_trichotomy i j) as [L|[L|L]]; auto; exfalso.
    + pose proof (pairwise_lt _ _ _ _ _ _ H2 Ha Hb L) as K. apply negb_true_iff in K. rewrite (proj2 (peqb_iff a b) E) in K. discriminate.
    + pose proof (pairwise_lt _ _ _ _ _ _ H2 Hb Ha L) as K. apply negb_true_iff in K. assert (peq b a) as E' by (destruct E; split; symmetry; auto). rewrite (proj2 (peqb_iff b a) E') in K. discriminate.
  - intros i j e f p He Hf Hij Pe Pf. destruct (Nat.lt_trichotomy i j) as [L|[L|L]]; [|lia|].
    + exact (compatible_ok e f p (pairwise_lt _ _ _ _ _ _ H3 He Hf L) Pe Pf).
    + destruct (compatible_ok f e p (pairwise_lt _ _ _ _ _ _ H3 Hf He L) Pf Pe); auto.
Qed.
