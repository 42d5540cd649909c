(** Properties C05, C07-C09, C21-C24, C27, C28 and C30. *)
From Coq Require Import List Arith Bool QArith Lia Permutation.
From Verif Require Import Base Coord Trap Mono Tri Input Trace Protocol Builders Runs Basic Plane ValidRuns Endless.
Import ListNotations.
Local Open Scope nat_scope.

(** C05 is false: a clockwise builder receives the counterclockwise triangle (2,0) (4,0) (3,2) of a valid triangle. *)
Theorem C05_clockwise_refuted :
  exists l c a b d, valid [l] /\ run (recorder nat Empty_set true) true 100 l = Returned (inl c) c /\
    In (a, b, d) (tris_of c) /\ (0 < cross (gv_of l a) (gv_of l b) (gv_of l d))%Q.
Proof.
  exists cw_tri, [CNew 2 1 0], 2, 1, 0. split; [exact cw_tri_valid|].
  split; [vm_compute; reflexivity|]. split; [now left|vm_compute; reflexivity].
Qed.

(** C09 is false: on a polygon with a repeated vertex every step budget runs out, with every builder and with and
    without debug assertions. *)
Theorem C09_termination_refuted :
  exists l : list (coords Q), forall E Out M (F : fan_format nat E Out M) dbg fuel, run F dbg fuel l = Crashed Fuel.
Proof. exists dup. intros. exact (dup_endless F dbg fuel). Qed.

Section Props.
Context {C : Type} {OC : CoordOps C} {I : Type}.
Variables (ieqb : I -> I -> bool) (gv : I -> coords C) (dbg : bool) (fuel : nat) (math_n : nat -> nat -> nat)
  (shuf : nat -> nat -> list nat).
Notation tri F elems := (triangulate F ieqb gv dbg fuel math_n shuf elems).
Notation trap elems := (trapezoidize ieqb gv dbg fuel math_n shuf elems).

(** C07: every index any builder receives was yielded by the iteration. *)
Theorem C07_indices_from_input {E Out M} (F : fan_format I E Out M) elems r m evs :
  tri (logged F) elems = Returned r (m, evs) ->
  forall cl, In cl (calls_in evs) -> forall i, In i (match cl with CNew a b c => [a; b; c] | CExt v => [v] end) ->
  In (Continue i) elems.
Proof. exact (run_indices ieqb gv dbg fuel math_n shuf F elems r m evs). Qed.

(** C08: no unchecked access is out of range, within any step budget. *)
Theorem C08_memory_safety {E Out M} (F : fan_format I E Out M) elems : tri F elems <> Crashed Ub.
Proof. exact (run_no_ub ieqb gv dbg fuel math_n shuf F elems). Qed.

Theorem C08_memory_safety_trapezoidize elems : trap elems <> Crash Ub.
Proof. exact (trap_no_ub ieqb gv dbg fuel math_n shuf elems). Qed.

(** C21: nothing but markers: NoVertices, and the caller's storage is what it was. *)
Theorem C21_no_vertices {E Out M} (F : fan_format I E Out M) n : 0 < fuel ->
  tri F (repeat NewPolygon n) = Returned (inr TENoVertices) (ff_dropped F).
Proof. exact (no_vertices ieqb gv dbg fuel math_n shuf F n). Qed.

(** C22: the error names the size, 1 or 2, of a maximal group of indices before which everything went well. *)
Theorem C22_not_enough_vertices elems n :
  trap elems = Err (NotEnoughVertices n) <->
  exists a g b st, elems = a ++ map (@Continue I) g ++ b /\
    (a = [] \/ exists a', a = a' ++ [NewPolygon]) /\ (b = [] \/ exists b', b = NewPolygon :: b') /\
    length g = n /\ (n = 1 \/ n = 2) /\ trap a = Ok st.
Proof. exact (trap_not_enough ieqb gv dbg fuel math_n shuf elems n). Qed.

(** C23: markers at the beginning, at the end and repeated markers change nothing. *)
Theorem C23_marker_front {E Out M} (F : fan_format I E Out M) l : tri F (NewPolygon :: l) = tri F l.
Proof. exact (tri_front ieqb gv dbg fuel math_n shuf F l). Qed.
Theorem C23_marker_end {E Out M} (F : fan_format I E Out M) l : tri F (l ++ [NewPolygon]) = tri F l.
Proof. exact (tri_end_marker ieqb gv dbg fuel math_n shuf F l). Qed.
Theorem C23_marker_repeated {E Out M} (F : fan_format I E Out M) a b :
  tri F (a ++ NewPolygon :: NewPolygon :: b) = tri F (a ++ NewPolygon :: b).
Proof. exact (tri_double ieqb gv dbg fuel math_n shuf F a b). Qed.

(** C30: linear size. *)
Theorem C30_sizes elems st : (forall k n, Permutation (shuf k n) (seq 0 n)) -> trap elems = Ok st ->
  length (st_ns st) = index_count elems /\ length (st_ss st) = index_count elems /\
  length (st_ts st) = 2 * index_count elems + 1.
Proof. exact (trap_sizes ieqb gv dbg fuel math_n shuf elems st). Qed.
End Props.

(** C24: polygon after polygon, all its indices in order, then a marker; the iteration ends. *)
Theorem C24_enumeration {V} (p : list (list V)) fuel : list_sum (map (@length V) p) + length p < fuel ->
  vv_elems fuel p = Ok (enumerate 0 (map (@length V) p)).
Proof. exact (vv_elems_spec p fuel). Qed.
Theorem C24_vertex_count {V} (p : list (list V)) :
  index_count (enumerate 0 (map (@length V) p)) = list_sum (map (@length V) p).
Proof. exact (enumerate_count (map (@length V) p) 0). Qed.
Theorem C24_get_vertex {V} (p : list (list V)) ij :
  In (Continue ij) (enumerate 0 (map (@length V) p)) <-> exists v, vv_get p ij = Some v.
Proof. exact (vv_get_in p ij). Qed.

(** C27: [<] on exact coordinates is a strict total order of the points of the plane. *)
Theorem C27_irreflexive (a b : point) : peq a b -> coords_lt a b = false.
Proof.
  intros H. destruct (coords_lt a b) eqn:E; auto. apply coords_lt_spec in E. now apply plt_irrefl in E.
Qed.
Theorem C27_transitive (a b c : point) : coords_lt a b = true -> coords_lt b c = true -> coords_lt a c = true.
Proof. rewrite !coords_lt_spec. exact (plt_trans a b c). Qed.
Theorem C27_total (a b : point) : coords_lt a b = true \/ peq a b \/ coords_lt b a = true.
Proof. rewrite !coords_lt_spec. exact (plt_total a b). Qed.
Theorem C27_order (a b : point) :
  coords_lt a b = true <-> (cy a < cy b \/ (cy a == cy b /\ cx a < cx b))%Q.
Proof. exact (coords_lt_spec a b). Qed.

(** C28: the side test is the orientation test for every point off the line; on the line it says left exactly for
    points left of the right end of a horizontal edge. *)
Theorem C28_side_test (a b c : point) : coords_lt a b = true -> (~ cross a b c == 0)%Q ->
  (is_left a b c = true <-> (0 < cross a b c)%Q).
Proof. rewrite coords_lt_spec. exact (is_left_cross a b c). Qed.
Theorem C28_side_test_collinear (a b c : point) : coords_lt a b = true -> (cross a b c == 0)%Q ->
  (is_left a b c = true <-> (cy a == cy b /\ cx c < cx b)%Q).
Proof. rewrite coords_lt_spec. exact (is_left_on a b c). Qed.

(** ** The hypotheses can be met *)

Example ex_C07 : run (logged (recorder nat Empty_set false)) true 100 square =
  Returned (inl [CNew 2 3 1; CNew 3 0 1])
    ([CNew 2 3 1; CNew 3 0 1], [EInit 2 3 1 None; ENew 3 0 1 None; EBuild None]).
Proof. vm_compute. reflexivity. Qed.
Example ex_C22 : trapezoidize Nat.eqb (gv_of square) true 100 never in_order
    (elems_of square ++ [NewPolygon; Continue 1; Continue 2]) = Err (NotEnoughVertices 2) /\
  exists st, trapezoidize Nat.eqb (gv_of square) true 100 never in_order (elems_of square ++ [NewPolygon]) = Ok st.
Proof. split; [vm_compute; reflexivity|eexists; vm_compute; reflexivity]. Qed.
Example ex_C24 : vv_elems 10 [[true; false]; []; [true]] =
  Ok [Continue (0, 0); Continue (0, 1); NewPolygon; NewPolygon; Continue (2, 0); NewPolygon].
Proof. reflexivity. Qed.
Example ex_C28 : coords_lt (pt 0 0) (pt 1 2) = true /\ (0 < cross (pt 0 0) (pt 1 2) (pt 0 1))%Q /\
  coords_lt (pt 0 0) (pt 2 0) = true /\ (cross (pt 0 0) (pt 2 0) (pt 1 0) == 0)%Q.
Proof. repeat split. Qed.
Example ex_C30 : (forall k n, Permutation (in_order k n) (seq 0 n)) /\
  exists st, trapezoidize Nat.eqb (gv_of square) true 100 never in_order (elems_of square) = Ok st.
Proof. split; [intros; apply Permutation_refl|eexists; vm_compute; reflexivity]. Qed.

Print Assumptions C05_clockwise_refuted.
Print Assumptions C07_indices_from_input.
Print Assumptions C08_memory_safety.
Print Assumptions C08_memory_safety_trapezoidize.
Print Assumptions C09_termination_refuted.
Print Assumptions C21_no_vertices.
Print Assumptions C22_not_enough_vertices.
Print Assumptions C23_marker_front.
Print Assumptions C23_marker_end.
Print Assumptions C23_marker_repeated.
Print Assumptions C24_enumeration.
Print Assumptions C24_vertex_count.
Print Assumptions C24_get_vertex.
Print Assumptions C27_irreflexive.
Print Assumptions C27_transitive.
Print Assumptions C27_total.
Print Assumptions C27_order.
Print Assumptions C28_side_test.
Print Assumptions C28_side_test_collinear.
Print Assumptions C30_sizes.
