(** Property C49: the documented running time. *)
From Coq Require Import QArith List Arith Lia Permutation.
From Verif Require Import Base Coord Trap Mono Tri Trace Protocol Format Builders Runs Plane MonoGeom ValidRuns Open Outcome Slow SlowFam Mountain PropTri PropEnds PropSteps.
Import ListNotations.
Local Open Scope nat_scope.

Lemma drive_crash {I E Out M} (F : fan_format I E Out M) c l : willing F -> forall b, drive F b l (Crash c) = Crashed c.
Proof.
  intros (_ & H2 & H3 & _). induction l as [|[x y z|v] l IH]; intros b; cbn [drive]; auto.
  - specialize (H2 b x y z). destruct (ff_new F b x y z) as [b' o]. cbn in H2. subst o. apply IH.
  - specialize (H3 b v). destruct (ff_ext F b v) as [b' o]. cbn in H3. subst o. apply IH.
Qed.

Lemma obey_crash {I E Out M} (F : fan_format I E Out M) c l : willing F -> obey F (l, Crash c) = Crashed c.
Proof.
  intros HF. unfold obey. cbn [fst snd]. destruct l as [|[x y z|v] l]; auto. pose proof HF as (H1 & _). destruct (H1 x y z) as (b & ->). now apply drive_crash.
Qed.

(** A budget with which every run on the single polygon [V] runs out: for every index type, order of insertion, setting of the debug checks, and every
    builder that does not fail. *)
Definition too_few (V : list point) (fuel : nat) : Prop :=
  forall (I : Type) (gv : I -> point) (ieqb : I -> I -> bool) (dbg : bool) (math_n : nat -> nat -> nat) (shuf : nat -> nat -> list nat) (elems : list (element I)),
  (forall a b, ieqb a b = true <-> a = b) -> (forall k n, Permutation (shuf k n) (seq 0 n)) -> map (map gv) (groups elems) = [V] ->
  forall (E Out M : Type) (F : fan_format I E Out M), willing F -> triangulate F ieqb gv dbg fuel math_n shuf elems = Crashed Fuel.

Lemma slow_run m fuel : fuel <= m * (m + 1) -> too_few (slow m) fuel.
Proof.
  intros Hf I gv ieqb dbg math_n shuf elems Hieq Hshuf HV E Out M F HF. rewrite triangulate_obeys.
  destruct (mountain_run (E := E) gv ieqb dbg (ff_cw F) Hieq math_n shuf Hshuf elems false (slow m) (slow_mountain m) ltac:(rewrite slow_length; lia) HV) as (U & HU & H).
  destruct (H fuel) as [K|(cw & t & K)].
  - destruct (api_calls E ieqb gv (ff_cw F) dbg fuel math_n shuf elems) as [l r]. cbn in K. subst r. now apply obey_crash.
  - destruct K. now apply slow_piece with (m := m).
Qed.

Lemma slow_valid m : valid [slow m].
Proof. apply (mountain_valid false); [apply slow_mountain|rewrite slow_length; lia]. Qed.

(** C49: for every odd n >= 3 there is a valid simple polygon with n vertices on which some loop makes more than (n - 1) (n - 3) / 4 iterations, whatever the
    order in which the segments are inserted. *)
Theorem C49_quadratic n : 3 <= n -> Nat.odd n = true ->
  exists V, valid [V] /\ length V = n /\ forall fuel, 4 * fuel <= (n - 1) * (n - 3) -> too_few V fuel.
Proof.
  intros H3 Hn. apply Nat.odd_spec in Hn. destruct Hn as (h & ->). exists (slow (h - 1)). split; [apply slow_valid|]. split; [rewrite slow_length; lia|].
  intros fuel Hf. apply slow_run. destruct h as [|h]; [lia|]. cbn [Nat.sub] in *. rewrite Nat.sub_0_r. nia.
Qed.

(** ** The documented bound *)

(** log* n is the least k with n <= tower k. *)
Fixpoint tower (k : nat) : nat := match k with 0 => 1 | S k => 2 ^ tower k end.

Lemma tower_lt k : k < tower k.
Proof. induction k as [|k IH]; cbn [tower]; [lia|]. pose proof (Nat.pow_gt_lin_r 2 (tower k) ltac:(lia)). lia. Qed.
Lemma pow_square x : 9 <= x -> 4 * (x * x) + 10 <= 2 ^ x.
Proof.
  intros H. induction H as [|x H IH]; [cbn; lia|]. rewrite Nat.pow_succ_r'. nia.
Qed.

(** C49: the documented bound O(n log* n) on the expected running time does not hold: for every factor c there are arbitrarily large valid simple polygons on
    which, with every order of insertion, some loop makes more than c n log* n iterations. *)
Theorem C49_documented_refuted : forall c N, exists k V, valid [V] /\ N <= length V <= tower k /\ forall fuel, fuel <= c * (length V * k) -> too_few V fuel.
Proof.
  intros c N. set (k := c + N + 8). pose proof (tower_lt k) as H1. pose proof (pow_square (S k) ltac:(lia)) as H2.
  assert (H3 : 2 ^ S k <= 2 ^ tower k) by (apply Nat.pow_le_mono_r; lia).
  assert (H4 : exists h, 2 ^ tower k = 2 * h) by (destruct (tower k) as [|x]; [lia|]; exists (2 ^ x); apply Nat.pow_succ_r').
  destruct H4 as (h & Hh). exists (S k), (slow (h - 2)). split; [apply slow_valid|]. rewrite slow_length. cbn [tower].
  assert (H5 : 4 * (S k * S k) + 10 <= 2 * h) by lia. rewrite Hh. split; [nia|].
  intros fuel Hfuel. apply slow_run. apply (Nat.le_trans _ _ _ Hfuel). clear fuel Hfuel. assert (c <= S k) by lia. set (K := S k) in *. clearbody K. clear k H1 H2 H3 Hh. set (m := h - 2). assert (h = m + 2) by lia. clearbody m. subst h.
  replace (c * ((2 * m + 3) * K)) with (c * K * (2 * m + 3)) by ring. assert (c * K <= K * K) by (apply Nat.mul_le_mono_r; lia). assert (2 * (K * K) + 3 <= m) by lia. set (P := K * K) in *. set (R := c * K) in *. clearbody P R. nia.
Qed.


(** Fifteen vertices: 42 iterations are not enough, although the decomposition into trapezoids is finished by then; 44 are enough for the 13 triangles. *)
Example C49_case : valid [slow 6] /\ length (slow 6) = 15 /\ map (map (gv_of (slow 6))) (groups (elems_of (slow 6))) = [slow 6] /\
  (exists st, trapezoidize Nat.eqb (gv_of (slow 6)) true 42 never in_order (elems_of (slow 6)) = Ok st) /\
  run (fan_to_list (indexed_list (vec_triples nat) [])) true 42 (slow 6) = Crashed Fuel /\
  exists T, run (fan_to_list (indexed_list (vec_triples nat) [])) true 44 (slow 6) = Returned (inl T) T /\ length T = 13.
Proof.
  split; [apply slow_valid|]. split; [reflexivity|]. split; [reflexivity|]. split. { vm_compute. eexists. reflexivity. }
  split; [|vm_compute; eexists; split; reflexivity].
  apply (slow_run 6 42 (le_n _) nat (gv_of (slow 6)) Nat.eqb true never in_order (elems_of (slow 6)) nat_eqb_dec in_order_perm); [reflexivity|apply C01_hyp].
Qed.

Print Assumptions C49_quadratic.
Print Assumptions C49_documented_refuted.
