(** Invalid input: which of it a run accepts. *)
From Coq Require Import QArith Lqa List Arith Lia ZArith Permutation Bool.
From Verif Require Import Base Coord Trap Mono Tri Trace Protocol Format Builders Runs Plane Geo Polygons Build Budget ValidB Doc CrossRun Outcome PropTri.
Import ListNotations.
Local Open Scope nat_scope.

Section Props.
Context {I : Type}.
Variables (gv : I -> point) (ieqb : I -> I -> bool) (math_n : nat -> nat -> nat) (shuf : nat -> nat -> list nat).
Hypothesis Hieq : forall a b, ieqb a b = true <-> a = b.
Hypothesis Hshuf : forall k n, Permutation (shuf k n) (seq 0 n).
Variable elems : list (element I).
Notation ps := (map (map gv) (groups elems)).
(** All vertices are different points; none is on an edge of which it is not an end; no polygon is so long that pending vertices are located
    again before all but two of its edges are in (with the [math_n] of the code: at most five vertices). *)
Hypothesis HD : distinct ps.
Hypothesis HA : apart ps.
Hypothesis Hn : forall p, In p ps -> length p <= math_n (length p) 1 + 2.

(** C44, part: with debug assertions, what is accepted has no crossing edges. *)
Theorem C44_debug_partial k st : trapezoidize ieqb gv true k math_n shuf elems = Ok st -> valid ps.
Proof. exact (accepted_valid ieqb gv k math_n shuf elems st Hieq Hshuf HD HA Hn). Qed.

(** C44, part: so the debug build accepts exactly the valid ones among these. *)
Theorem C44_debug_iff_partial : (exists k st, trapezoidize ieqb gv true k math_n shuf elems = Ok st) <-> valid ps.
Proof.
  split.
  - intros (k & st & E). exact (C44_debug_partial k st E).
  - intros HV. destruct (trapezoidize_done gv ieqb true Hieq math_n shuf Hshuf elems HV) as (st & (N & H) & _). exists N, st. apply H. lia.
Qed.

(** C44, part: and no triangulation of crossing polygons is returned. *)
Theorem C44_debug_returned_partial {E Out M} (F : fan_format I E Out M) k out m :
  triangulate F ieqb gv true k math_n shuf elems = Returned (inl out) m -> valid ps.
Proof.
  unfold triangulate. destruct (trapezoidize ieqb gv true k math_n shuf elems) as [st| |] eqn:Et; try discriminate. intros _. exact (C44_debug_partial k st Et).
Qed.

End Props.

(** ** Checks for the concrete cases *)

Definition apart_at (e : edge) (v : point) : bool :=
  negb (Qeq_bool (cross (fst e) (snd e) v) 0) ||
  Qltb 0 ((cx v - cx (fst e)) * (cx v - cx (snd e)) + (cy v - cy (fst e)) * (cy v - cy (snd e))) || peqb v (fst e) || peqb v (snd e).
Lemma apart_at_ok e v : apart_at e v = true -> on_segment (fst e) (snd e) v -> peq v (fst e) \/ peq v (snd e).
Proof.
  unfold apart_at. rewrite !orb_true_iff, !peqb_iff. intros [[[H|H]|H]|H] (t & T0 & T1 & Hx & Hy); auto; exfalso.
  - apply negb_true_iff in H. apply Qeq_bool_neq in H. apply H. unfold cross. rewrite Hx, Hy. ring.
  - apply qltb_lt in H. rewrite Hx, Hy in H. destruct e as [a b]. cbn [fst snd] in *.
    assert (E : ((cx a + t * (cx b - cx a) - cx a) * (cx a + t * (cx b - cx a) - cx b) + (cy a + t * (cy b - cy a) - cy a) * (cy a + t * (cy b - cy a) - cy b) ==
      (t * (t - 1)) * ((cx b - cx a) * (cx b - cx a) + (cy b - cy a) * (cy b - cy a)))%Q) by ring.
    rewrite E in H. pose proof (sq_nonneg (cx b - cx a) (cy b - cy a)) as S. set (N := ((cx b - cx a) * (cx b - cx a) + (cy b - cy a) * (cy b - cy a))%Q) in *. clearbody N.
    assert (t * (1 - t) >= 0)%Q by nra. nra.
Qed.
Definition apartb (ps : list (list point)) : bool := forallb (fun e => forallb (apart_at e) (concat ps)) (concat (map edges ps)).
Lemma apartb_ok ps : apartb ps = true -> apart ps.
Proof. unfold apartb. rewrite forallb_forall. intros H e v He Hv. specialize (H e He). rewrite forallb_forall in H. apply apart_at_ok; auto. Qed.

Definition distinctb (ps : list (list point)) : bool := pairwise (fun a b => negb (peqb a b)) (concat ps).
Lemma distinctb_ok ps : distinctb ps = true -> distinct ps.
Proof.
  intros H2 i j a b Ha Hb E. destruct (Nat.lt_trichotomy i j) as [L|[L|L]]; auto; exfalso.
  - pose proof (pairwise_lt _ _ _ _ _ _ H2 Ha Hb L) as K. apply negb_true_iff in K. rewrite (proj2 (peqb_iff a b) E) in K. discriminate.
  - pose proof (pairwise_lt _ _ _ _ _ _ H2 Hb Ha L) as K. apply negb_true_iff in K. assert (peq b a) as E' by (destruct E; split; symmetry; auto). rewrite (proj2 (peqb_iff b a) E') in K. discriminate.
Qed.

(** A given order for the polygons of one length. *)
Definition by_order (l : list nat) (_ n : nat) : list nat := if Nat.eqb n (length l) then l else seq 0 n.
Lemma by_order_perm l : forallb (fun i => existsb (Nat.eqb i) l) (seq 0 (length l)) = true -> forall k n, Permutation (by_order l k n) (seq 0 n).
Proof.
  intros H k n. unfold by_order. destruct (Nat.eqb_spec n (length l)) as [->|]; [|reflexivity]. symmetry. apply NoDup_Permutation_bis; [apply seq_NoDup|now rewrite seq_length|].
  intros i Hi. rewrite forallb_forall in H. specialize (H i Hi). apply existsb_exists in H. destruct H as (x & Hx & E). apply Nat.eqb_eq in E. now subst.
Qed.

(** The values of the code's [math_n] (src/math.rs 15-21) for lengths three to six. *)
Definition math_real (n h : nat) : nat :=
  match n, h with 3, 1 => 2 | 4, 1 => 2 | 5, 1 => 3 | 6, 1 => 3 | 6, 2 => 5 | _, _ => 100 end.

Definition crossb (e f : edge) : bool :=
  Qltb (cross (fst e) (snd e) (fst f) * cross (fst e) (snd e) (snd f)) 0 && Qltb (cross (fst f) (snd f) (fst e) * cross (fst f) (snd f) (snd e)) 0.
Definition crossingb (ps : list (list point)) : bool := existsb (fun e => existsb (crossb e) (concat (map edges ps))) (concat (map edges ps)).
Lemma crossb_ok e f : crossb e f = true <-> crosses e f.
Proof. unfold crossb, crosses. now rewrite andb_true_iff, !qltb_lt. Qed.
Lemma crossingb_ok ps : crossingb ps = true <-> crossing ps.
Proof.
  unfold crossingb. rewrite existsb_exists. split.
  - intros (e & He & H). apply existsb_exists in H. destruct H as (f & Hf & H). exists e, f. now rewrite <- crossb_ok.
  - intros (e & f & He & Hf & H). exists e. split; auto. apply existsb_exists. exists f. now rewrite crossb_ok.
Qed.

(** ** The hypotheses of the partial theorems are met by crossing and by valid polygons *)

(** A pentagon that crosses itself. *)
Definition bow : list (coords Q) := [pt 1 5; pt 3 1; pt 0 4; pt 1 1; pt 3 4].
Definition bow_order : list nat := [1; 3; 4; 0; 2].

Example C44_hyp : distinct [bow] /\ apart [bow] /\ crossing [bow] /\ (forall p, In p [bow] -> length p <= math_real (length p) 1 + 2) /\
  (forall k n, Permutation (by_order bow_order k n) (seq 0 n)) /\
  trapezoidize Nat.eqb (gv_of bow) true 100 math_real (by_order bow_order) (elems_of bow) = Crash Panic.
Proof.
  split; [apply distinctb_ok; vm_compute; reflexivity|]. split; [apply apartb_ok; vm_compute; reflexivity|]. split; [apply crossingb_ok; vm_compute; reflexivity|].
  split; [intros p [<-|[]]; cbn; lia|]. split; [apply by_order_perm; vm_compute; reflexivity|]. vm_compute. reflexivity.
Qed.
Example C44_hyp_ok : distinct [square] /\ apart [square] /\ (forall p, In p [square] -> length p <= math_real (length p) 1 + 2) /\
  exists st, trapezoidize Nat.eqb (gv_of square) true 100 math_real in_order (elems_of square) = Ok st.
Proof.
  split; [apply distinctb_ok; vm_compute; reflexivity|]. split; [apply apartb_ok; vm_compute; reflexivity|]. split; [intros p [<-|[]]; cbn; lia|]. eexists. vm_compute. reflexivity.
Qed.

(** ** C44 is false in general *)

(** Without debug assertions the same pentagon is accepted: three triangles are returned. *)
Theorem C44_release_refuted : exists l order T, distinct [l] /\ apart [l] /\ crossing [l] /\ (forall k n, Permutation (by_order order k n) (seq 0 n)) /\
  triangulate (fan_to_list (indexed_list (vec_triples nat) [])) Nat.eqb (gv_of l) false 100 math_real (by_order order) (elems_of l) = Returned (inl T) T.
Proof.
  exists bow, bow_order, [(0, 1, 4); (2, 3, 1); (4, 3, 1)].
  split; [apply distinctb_ok; vm_compute; reflexivity|]. split; [apply apartb_ok; vm_compute; reflexivity|]. split; [apply crossingb_ok; vm_compute; reflexivity|].
  split; [apply by_order_perm; vm_compute; reflexivity|]. vm_compute. reflexivity.
Qed.

(** With debug assertions a crossing hexagon is accepted: the vertices still pending when half of its edges are in are located along edges that
    cross the ones that are in, and end up in trapezoids that do not contain them. *)
Definition hexa : list (coords Q) := [pt 6 5; pt 9 8; pt 5 9; pt 8 6; pt 6 7; pt 4 4].
Definition hexa_order : list nat := [0; 4; 5; 1; 3; 2].
Theorem C44_debug_refuted : exists l order T m, distinct [l] /\ apart [l] /\ crossing [l] /\ (forall k n, Permutation (by_order order k n) (seq 0 n)) /\
  triangulate (fan_to_list (indexed_list (vec_triples nat) [])) Nat.eqb (gv_of l) true 100 math_real (by_order order) (elems_of l) = Returned (inl T) m.
Proof.
  exists hexa, hexa_order, [(2, 3, 1); (1, 0, 3); (4, 5, 0); (4, 0, 3)]. eexists.
  split; [apply distinctb_ok; vm_compute; reflexivity|]. split; [apply apartb_ok; vm_compute; reflexivity|]. split; [apply crossingb_ok; vm_compute; reflexivity|].
  split; [apply by_order_perm; vm_compute; reflexivity|]. vm_compute. reflexivity.
Qed.

(** The word crossing, used here, excludes validity. *)
Example crossing_invalid ps : crossing ps -> ~ valid ps.
Proof. intros H HV. apply valid_doc in HV. tauto. Qed.

(** ** C45: the documented preconditions *)

Section Doc.
Context {I : Type}.
Variables (gv : I -> point) (ieqb : I -> I -> bool) (dbg : bool) (math_n : nat -> nat -> nat) (shuf : nat -> nat -> list nat).
Hypothesis Hieq : forall a b, ieqb a b = true <-> a = b.
Hypothesis Hshuf : forall k n, Permutation (shuf k n) (seq 0 n).
Variable elems : list (element I).
Notation ps := (map (map gv) (groups elems)).

(** C45, part: polygons with at least three vertices that meet the documented preconditions (different vertices, no crossing edges) are triangulated
    if no vertex is on an edge of which it is not an end. *)
Theorem C45_apart_partial {E Out Mt} (F : fan_format I E Out Mt) : Forall (fun p => 3 <= length p) ps -> distinct ps -> ~ crossing ps -> apart ps -> ps <> [] -> willing F ->
  exists out m N, forall fuel, N <= fuel -> triangulate F ieqb gv dbg fuel math_n shuf elems = Returned (inl out) m.
Proof.
  intros H3 HD HC HA Hps HF. assert (HV : valid ps) by (apply valid_doc; auto).
  destruct (C01_succeeds gv ieqb dbg math_n shuf Hieq Hshuf elems HV Hps F HF) as (out & m & N & H). exists out, m, N. intros fuel. apply H.
Qed.

End Doc.

(** The hypotheses are met. *)
Example C45_hyp : Forall (fun p => 3 <= length p) [ell] /\ distinct [ell] /\ ~ crossing [ell] /\ apart [ell] /\ willing (fan_to_list (indexed_list (vec_triples nat) [])).
Proof.
  split; [repeat constructor; cbn; lia|]. split; [apply distinctb_ok; vm_compute; reflexivity|]. split; [rewrite <- crossingb_ok; vm_compute; discriminate|].
  split; [apply apartb_ok; vm_compute; reflexivity|]. exact C01_hyp.
Qed.

(** C45 is false when a vertex is on another edge, which the documentation does not exclude: these pentagons have five different vertices and no
    crossing edges.  The first yields an internal error in both build profiles, the second a panic with debug assertions. *)
Definition touch1 : list (coords Q) := [pt 3 0; pt 1 1; pt 1 2; pt 3 3; pt 0 3].
Definition touch2 : list (coords Q) := [pt 0 2; pt 1 2; pt 3 0; pt 2 0; pt 2 1].

Theorem C45_error_refuted : exists l order e, 3 <= length l /\ distinct [l] /\ ~ crossing [l] /\ (forall k n, Permutation (by_order order k n) (seq 0 n)) /\
  forall dbg, triangulate (fan_to_list (indexed_list (vec_triples nat) [])) Nat.eqb (gv_of l) dbg 100 math_real (by_order order) (elems_of l) = Returned (inr (TETrapezoidation (TrapInternal e))) [].
Proof.
  exists touch1, [4; 3; 1; 0; 2], IE_MinNotFound. split; [cbn; lia|]. split; [apply distinctb_ok; vm_compute; reflexivity|]. split; [rewrite <- crossingb_ok; vm_compute; discriminate|].
  split; [apply by_order_perm; vm_compute; reflexivity|]. intros [|]; vm_compute; reflexivity.
Qed.

Theorem C45_panic_refuted : exists l order, 3 <= length l /\ distinct [l] /\ ~ crossing [l] /\ (forall k n, Permutation (by_order order k n) (seq 0 n)) /\
  triangulate (fan_to_list (indexed_list (vec_triples nat) [])) Nat.eqb (gv_of l) true 100 math_real (by_order order) (elems_of l) = Crashed Panic.
Proof.
  exists touch2, [0; 4; 1; 3; 2]. split; [cbn; lia|]. split; [apply distinctb_ok; vm_compute; reflexivity|]. split; [rewrite <- crossingb_ok; vm_compute; discriminate|].
  split; [apply by_order_perm; vm_compute; reflexivity|]. vm_compute. reflexivity.
Qed.

Print Assumptions C44_debug_partial.
Print Assumptions C44_debug_iff_partial.
Print Assumptions C44_debug_returned_partial.
Print Assumptions C44_release_refuted.
Print Assumptions C44_debug_refuted.
Print Assumptions C45_apart_partial.
Print Assumptions C45_error_refuted.
Print Assumptions C45_panic_refuted.
