(** Concrete inputs used to show that the hypotheses of the theorems can be met, and as counterexamples. *)
From Coq Require Import List Arith Bool QArith.
From Verif Require Import Base Coord Trap Mono Tri Trace Protocol Format Builders.
Import ListNotations.
Local Open Scope nat_scope.

Definition pt (x y : Z) : coords Q := (inject_Z x, inject_Z y).

(** A single polygon given by its points: indices are positions. *)
Definition gv_of (l : list (coords Q)) (i : nat) : coords Q := nth i l (pt 0 0).
Definition elems_of (l : list (coords Q)) : list (element nat) := map (@Continue nat) (seq 0 (length l)).

(** Insert the edges in input order; never relocate. *)
Definition in_order (_ n : nat) : list nat := seq 0 n.
Definition never (_ _ : nat) : nat := 1000.

Definition run {E Out M} (F : fan_format nat E Out M) (dbg : bool) (fuel : nat) (l : list (coords Q)) : outcome E Out M :=
  triangulate F Nat.eqb (gv_of l) dbg fuel never in_order (elems_of l).

Definition square : list (coords Q) := [pt 0 0; pt 2 0; pt 2 2; pt 0 2].
(** An L shape: three fans, four triangles. *)
Definition ell : list (coords Q) := [pt 0 0; pt 4 1; pt 4 2; pt 2 2; pt 2 5; pt 0 4].
(** Invalid input (collinear overlapping edges): an internal error after one fan was delivered. *)
Definition overlap : list (coords Q) := [pt 2 2; pt 2 0; pt 2 4; pt 5 4].

Definition ell_calls : list (call nat) := [CNew 4 5 3; CNew 2 3 1; CNew 0 1 3; CExt 5].

Example square_runs : run (recorder nat Empty_set false) true 100 square =
  Returned (inl [CNew 2 3 1; CNew 3 0 1]) [CNew 2 3 1; CNew 3 0 1].
Proof. vm_compute. reflexivity. Qed.
Example ell_runs : run (recorder nat Empty_set false) true 100 ell = Returned (inl ell_calls) ell_calls.
Proof. vm_compute. reflexivity. Qed.
Example overlap_runs : run (recorder nat Empty_set false) true 100 overlap =
  Returned (inr (TEInternal IE_EmptyStack)) [CNew 3 2 0].
Proof. vm_compute. reflexivity. Qed.
