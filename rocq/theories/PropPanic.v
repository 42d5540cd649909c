(** Panics: property C54. *)
From Coq Require Import QArith List Arith Bool Lia Permutation.
From Verif Require Import Base Coord Trap Mono Tri Trace Protocol Format Builders Runs Plane Geo Polygons ValidB Doc Bounds Basic Budget Ends EndsTri Panics PanicTri Profiles PropBasic PropEnds PropTri PropCross.
Import ListNotations.
Local Open Scope nat_scope.

Lemma drive_calm {I E Out M} (F : fan_format I E Out M) l : forall b (r : res (tri_error E) unit),
  r <> Crash Panic -> drive F b l r <> Crashed Panic.
Proof.
  induction l as [|[i j k|v] l IH]; intros b r Hr; cbn [drive].
  - destruct r as [[]|e|[]]; try discriminate; [|contradiction]. destruct (ff_build F b) as [[o|e] m]; discriminate.
  - destruct (ff_new F b i j k) as [b' [e|]]; [discriminate|auto].
  - destruct (ff_ext F b v) as [b' [e|]]; [discriminate|auto].
Qed.

Section Props.
Context {C : Type} {OC : CoordOps C} {I : Type}.
Variables (ieqb : I -> I -> bool) (gv : I -> coords C) (math_n : nat -> nat -> nat) (shuf : nat -> nat -> list nat).
Hypothesis Hshuf : forall k n, Permutation (shuf k n) (seq 0 n).
Variable elems : list (element I).
Notation trap dbg fuel := (trapezoidize ieqb gv dbg fuel math_n shuf elems).
Notation tri F dbg fuel := (triangulate F ieqb gv dbg fuel math_n shuf elems).

(** C54: without debug assertions the trapezoidation of any input, valid or not, with any coordinates, does not panic. *)
Theorem C54_trapezoidize fuel : trap false fuel <> Crash Panic.
Proof.
  pose proof (trapezoidize_calm (fun _ => True) ieqb gv fuel math_n shuf elems Hshuf (fun _ _ => Logic.I)) as H.
  intros E. now rewrite E in H.
Qed.

(** C54: the trapezoidation returns a [Result] on every input: there is no third outcome in release builds. *)
Theorem C54_returns : exists r : state C I + trap_error, forall fuel, (vertices elems + 4) * (vertices elems + 4) <= fuel ->
  trap false fuel = match r with inl st => Ok st | inr e => Err e end.
Proof.
  destruct (C42_trapezoidize_ends ieqb gv false math_n shuf Hshuf elems) as (r & Hr & H).
  pose proof (H _ (le_n _)) as H0.
  pose proof (C54_trapezoidize ((vertices elems + 4) * (vertices elems + 4))) as H1.
  pose proof (C08_memory_safety_trapezoidize ieqb gv false ((vertices elems + 4) * (vertices elems + 4)) math_n shuf elems) as H2.
  destruct r as [st|e|[]]; try congruence; [exists (inl st)|exists (inr e)]; exact H.
Qed.

(** C54: the traversal and the cutting of the pieces never panic, in either profile: a panic of [triangulate] is a panic of
    the trapezoidation. *)
Theorem C54_traversal {E Out M} (F : fan_format I E Out M) dbg fuel : tri F dbg fuel = Crashed Panic -> trap dbg fuel = Crash Panic.
Proof.
  rewrite triangulate_obeys. intros H.
  assert (Ha : snd (api_calls E ieqb gv (ff_cw F) dbg fuel math_n shuf elems) = Crash Panic).
  { unfold obey in H. destruct (api_calls E _ _ _ _ _ _ _ _) as [l r]. cbn [fst snd] in *.
    assert (D : r = Crash Panic \/ r <> Crash Panic) by (destruct r as [[]|e|[]]; auto; right; discriminate).
    destruct D as [D|D]; auto. exfalso. destruct l as [|[i j k|v] l].
    - destruct r as [[]|e|[]]; congruence.
    - destruct (ff_init F i j k) as [b|[e m]]; [|discriminate]. exact (drive_calm F l b r D H).
    - destruct r as [[]|e|[]]; congruence. }
  unfold api_calls in Ha.
  pose proof (trapezoidize_safe (fun _ => True) ieqb gv dbg fuel math_n shuf elems (fun _ _ => Logic.I)) as Hs.
  destruct (trap dbg fuel) as [st|e|c]; cbn [snd safe] in *; [|discriminate|congruence].
  exfalso. unfold run_calls in Ha.
  pose proof (inner_calm (E := E) rec_new rec_ext (fun _ _ _ _ => Logic.I) (fun _ _ => Logic.I) (fun _ => True) gv (ff_cw F) fuel st Hs []) as Hi.
  cbv beta in Hi. unfold rec_new, rec_ext in *. now rewrite Ha in Hi.
Qed.

(** C54: so without debug assertions nothing panics, whatever the builder. *)
Theorem C54_triangulate {E Out M} (F : fan_format I E Out M) fuel : tri F false fuel <> Crashed Panic.
Proof. intros H. apply C54_traversal in H. exact (C54_trapezoidize fuel H). Qed.

(** C54: every release run either returns a [Result], the same for all large budgets, or goes on forever. *)
Theorem C54_returns_or_endless {E Out M} (F : fan_format I E Out M) :
  (exists N r m, forall fuel, N <= fuel -> tri F false fuel = Returned r m) \/ (forall fuel, tri F false fuel = Crashed Fuel).
Proof.
  destruct (C43_ends_or_stuck ieqb gv false math_n shuf Hshuf elems F) as [(N & r & Hr & H)|(H & _)]; [left|right; exact H].
  pose proof (H N (le_n _)) as H0. pose proof (C54_triangulate F N) as H1.
  pose proof (C08_memory_safety ieqb gv false N math_n shuf F elems) as H2.
  destruct r as [r m|[]]; try congruence. exists N, r, m. exact H.
Qed.

(** C54: debug assertions change nothing but to panic (the consistency check also has a step budget). *)
Theorem C54_debug_trapezoidize fuel : trap true fuel = Crash Panic \/ trap true fuel = Crash Fuel \/ trap true fuel = trap false fuel.
Proof.
  destruct (trapezoidize_dm ieqb gv fuel math_n shuf elems) as [(c & H)|H]; [|right; right; exact H].
  pose proof (C08_memory_safety_trapezoidize ieqb gv true fuel math_n shuf elems) as H2. destruct c; [left; exact H|exfalso; exact (H2 H)|right; left; exact H].
Qed.

Theorem C54_debug_triangulate {E Out M} (F : fan_format I E Out M) fuel :
  tri F true fuel = Crashed Panic \/ tri F true fuel = Crashed Fuel \/ tri F true fuel = tri F false fuel.
Proof.
  destruct (C54_debug_trapezoidize fuel) as [H|[H|H]]; [left|right; left|right; right].
  - unfold triangulate. now rewrite H.
  - unfold triangulate. now rewrite H.
  - rewrite !triangulate_obeys. unfold api_calls. now rewrite H.
Qed.

(** C54: the subtraction [pending_vertices -= added] never goes below zero: the trapezoidation with a checked subtraction
    is the modelled one, in both profiles. *)
Theorem C54_counter dbg fuel : trapezoidize_k ieqb gv fuel math_n shuf dbg elems = trap dbg fuel.
Proof. apply trapezoidize_same. Qed.
End Props.

(** The assertions do fire: the pentagon [touch2] panics with them, and the release run on it returns. *)
Example C54_case : (forall k n, Permutation (by_order [0; 4; 1; 3; 2] k n) (seq 0 n)) /\
  trapezoidize Nat.eqb (gv_of touch2) true 100 math_real (by_order [0; 4; 1; 3; 2]) (elems_of touch2) = Crash Panic /\
  exists r m, triangulate (fan_to_list (indexed_list (vec_triples nat) [])) Nat.eqb (gv_of touch2) false 100 math_real
                (by_order [0; 4; 1; 3; 2]) (elems_of touch2) = Returned r m.
Proof.
  split; [apply by_order_perm; vm_compute; reflexivity|]. split; [vm_compute; reflexivity|].
  eexists. eexists. vm_compute. reflexivity.
Qed.

Print Assumptions C54_trapezoidize.
Print Assumptions C54_returns.
Print Assumptions C54_traversal.
Print Assumptions C54_triangulate.
Print Assumptions C54_returns_or_endless.
Print Assumptions C54_debug_trapezoidize.
Print Assumptions C54_debug_triangulate.
Print Assumptions C54_counter.
