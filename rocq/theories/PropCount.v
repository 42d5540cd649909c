(** The number of triangles of the triangulation of a valid polygon list. *)
From Coq Require Import QArith Qabs Lqa List Arith Lia ZArith Permutation.
From Verif Require Import Base Coord Trap Mono Tri Trace Protocol Format Builders Runs Plane MonoGeom ValidRuns EvenOdd Whole Budget Outcome Area Number PropTri ValidB.
Import ListNotations.
Local Open Scope nat_scope.

Section Props.
Context {I : Type}.
Variables (gv : I -> point) (ieqb : I -> I -> bool) (dbg : bool) (math_n : nat -> nat -> nat) (shuf : nat -> nat -> list nat).
Hypothesis Hieq : forall a b, ieqb a b = true <-> a = b.
Hypothesis Hshuf : forall k n, Permutation (shuf k n) (seq 0 n).
Variable elems : list (element I).
Notation ps := (map (map gv) (groups elems)).
Hypothesis HV : valid ps.
Hypothesis Hps : ps <> [].
Notation returns T := (returns gv ieqb dbg math_n shuf elems T).

(** C06: a simple polygon with [n] vertices yields [n - 2] triangles. *)
Theorem C06_single (p : list point) (T : list (I * I * I)) : ps = [p] -> returns T -> length T + 2 = length p.
Proof. exact (returns_number1 gv ieqb dbg Hieq math_n shuf Hshuf elems HV Hps p T). Qed.

(** C06: for a list of polygons each one with [n] vertices adds [n - 2] at even depth and [n + 2] at odd depth, whatever the insertion order. *)
Theorem C06_number (T : list (I * I * I)) : returns T -> Z.of_nat (length T) = ntri ps.
Proof. exact (returns_number gv ieqb dbg Hieq math_n shuf Hshuf elems HV Hps T). Qed.

(** C06: the same number of triangles reaches every builder that does not fail, also a clockwise one. *)
Theorem C06_any_winding E cw : exists calls N,
  (forall fuel, N <= fuel -> triangulate (recorder I E cw) ieqb gv dbg fuel math_n shuf elems = Returned (inl calls) calls) /\
  Z.of_nat (length (tris_of calls)) = ntri ps.
Proof. exact (calls_number gv ieqb dbg Hieq math_n shuf Hshuf elems HV Hps E cw). Qed.

End Props.

(** The quadrilateral with a triangular hole: 4 - 2 + 3 + 2. *)
Example C06_case : Z.of_nat (length holed_T) = ntri holed_ps.
Proof. exact (C06_number (gv_of holed) Nat.eqb true never in_order nat_eqb_dec in_order_perm holed_elems holed_valid holed_ne holed_T C02_hyp). Qed.
Example C06_value : ntri holed_ps = 7%Z.
Proof. vm_compute. reflexivity. Qed.

(** A simple polygon: six vertices, four triangles. *)
Example C06_single_case : returns (gv_of ell) Nat.eqb true never in_order (elems_of ell) [(4, 5, 3); (2, 3, 1); (0, 1, 3); (0, 3, 5)].
Proof. exists 100. vm_compute. reflexivity. Qed.

(** C05 is false also up to orientation: the triangles delivered to a clockwise builder need not cover the polygon.  Their number is right
    (C06), but for this pentagon their areas, orientation disregarded, add up to 7/2 instead of 9/2. *)
Definition penta : list (coords Q) := [pt 1 4; pt 4 3; pt 2 2; pt 2 1; pt 1 1].

Theorem C05_area_refuted : exists l c, valid [l] /\ run (recorder nat Empty_set true) true 100 l = Returned (inl c) c /\
  (sumq (fun '(i, j, k) => Qabs (cross (gv_of l i) (gv_of l j) (gv_of l k))) (tris_of c) < Qabs (shoelace l))%Q.
Proof.
  exists penta. eexists. split; [apply validb_valid; vm_compute; reflexivity|]. split; [vm_compute; reflexivity|]. vm_compute. reflexivity.
Qed.

Print Assumptions C05_area_refuted.
Print Assumptions C06_single.
Print Assumptions C06_number.
Print Assumptions C06_any_winding.
