(** The outcome depends only on the polygons. *)
From Coq Require Import QArith Lqa List Arith Lia ZArith Permutation.
From Verif Require Import Base Coord Trap Mono Tri Trace Protocol Format Builders Runs Plane MonoGeom ValidRuns EvenOdd Whole Budget Outcome PropTri Cover Inv PropMesh Same.
Import ListNotations.
Local Open Scope nat_scope.

Section Props.
Context {I : Type}.
Variables (gv : I -> point) (ieqb : I -> I -> bool) (dbg : bool) (math_n : nat -> nat -> nat) (shuf : nat -> nat -> list nat).
Hypothesis Hieq : forall a b, ieqb a b = true <-> a = b.
Hypothesis Hshuf : forall k n, Permutation (shuf k n) (seq 0 n).
Variable elems : list (element I).
Notation ps := (map (map gv) (groups elems)).
Hypothesis HV : valid ps.

(** C39: for every format and all choices of insertion order and debug assertions, the run ends in the same way: same result, same state of the builder.
    The second run may also be given the polygons in another order, direction or from another first vertex on. *)
Theorem C39_outcome {E Out Mt} (F : fan_format I E Out Mt) dbg' math_n' shuf' (elems' : list (element I)) :
  (forall k n, Permutation (shuf' k n) (seq 0 n)) -> same_polys ps (map (map gv) (groups elems')) -> (forall i, In (Continue i) elems' -> In (Continue i) elems) ->
  exists N o m, forall fuel, N <= fuel ->
    triangulate F ieqb gv dbg fuel math_n shuf elems = Returned o m /\ triangulate F ieqb gv dbg' fuel math_n' shuf' elems' = Returned o m.
Proof. intros Hs S Hi. exact (outcome_same F gv ieqb Hieq dbg math_n shuf Hshuf elems HV dbg' math_n' shuf' Hs elems' S Hi). Qed.

(** C39: for the same polygons in the same order, whatever the insertion orders. *)
Theorem C39_order {E Out Mt} (F : fan_format I E Out Mt) dbg' math_n' shuf' : (forall k n, Permutation (shuf' k n) (seq 0 n)) ->
  exists N o m, forall fuel, N <= fuel ->
    triangulate F ieqb gv dbg fuel math_n shuf elems = Returned o m /\ triangulate F ieqb gv dbg' fuel math_n' shuf' elems = Returned o m.
Proof. intros Hs. apply C39_outcome; auto. apply same_refl. Qed.

Hypothesis Hps : ps <> [].

(** C39: with other vertex indices for the same polygons, the calls to the builder correspond one to one, at the same positions. *)
Theorem C39_calls {J} E cw (gv' : J -> point) jeqb dbg' math_n' shuf' (elems' : list (element J)) :
  (forall a b, jeqb a b = true <-> a = b) -> (forall k n, Permutation (shuf' k n) (seq 0 n)) -> same_polys ps (map (map gv') (groups elems')) ->
  exists N calls calls', map (call_pos gv) calls = map (call_pos gv') calls' /\
  forall fuel, N <= fuel -> triangulate (recorder I E cw) ieqb gv dbg fuel math_n shuf elems = Returned (inl calls) calls /\
    triangulate (recorder J E cw) jeqb gv' dbg' fuel math_n' shuf' elems' = Returned (inl calls') calls'.
Proof. intros Hj Hs S. exact (recorded_same gv ieqb dbg math_n shuf Hieq Hshuf elems HV Hps gv' jeqb dbg' math_n' shuf' Hj Hs elems' S E cw). Qed.

(** C39: so the list of triangles, as triples of positions, is the same. *)
Theorem C39_triangles {J} (gv' : J -> point) jeqb dbg' math_n' shuf' (elems' : list (element J)) T T' :
  (forall a b, jeqb a b = true <-> a = b) -> (forall k n, Permutation (shuf' k n) (seq 0 n)) -> same_polys ps (map (map gv') (groups elems')) ->
  returns gv ieqb dbg math_n shuf elems T -> returns gv' jeqb dbg' math_n' shuf' elems' T' -> map (tri_pos gv) T = map (tri_pos gv') T'.
Proof. intros Hj Hs S. exact (triples_same gv ieqb dbg math_n shuf Hieq Hshuf elems HV Hps gv' jeqb dbg' math_n' shuf' Hj Hs elems' S T T'). Qed.
End Props.

(** ** The quadrilateral with a triangular hole *)

Example C39_hyp : forall i, In (Continue i) holed_elems' -> In (Continue i) holed_elems.
Proof. intros i Hi. unfold holed_elems' in Hi. cbn [In] in Hi. unfold holed_elems. cbn [In]. intuition congruence. Qed.

(** The trapezoidations differ, ... *)
Example C39_states : trapezoidize Nat.eqb (gv_of holed) true 100 never in_order holed_elems <> trapezoidize Nat.eqb (gv_of holed) true 100 never backwards holed_elems'.
Proof. vm_compute. discriminate. Qed.
(** ... the triangles do not. *)
Example C39_case : let run := fun shuf elems => triangulate (fan_to_list (indexed_list (vec_triples nat) [])) Nat.eqb (gv_of holed) true 100 never shuf elems in
  run in_order holed_elems = Returned (inl holed_T) holed_T /\ run backwards holed_elems' = Returned (inl holed_T) holed_T.
Proof. vm_compute. auto. Qed.
Example C39_use : holed_back = holed_T.
Proof.
  destruct (C39_order (gv_of holed) Nat.eqb true never in_order nat_eqb_dec in_order_perm holed_elems holed_valid (fan_to_list (indexed_list (vec_triples nat) [])) false never backwards backwards_perm) as (N & o & m & H).
  destruct (H N (Nat.le_refl N)) as (H1 & H2). destruct C02_hyp as (k & Hk). destruct C32_hyp as (k' & Hk').
  destruct (ends_unique _ _ _ _ _ _ _ _ _ _ _ _ _ H1 Hk). destruct (ends_unique _ _ _ _ _ _ _ _ _ _ _ _ _ H2 Hk'). congruence.
Qed.

Print Assumptions C39_outcome.
Print Assumptions C39_order.
Print Assumptions C39_calls.
Print Assumptions C39_triangles.
