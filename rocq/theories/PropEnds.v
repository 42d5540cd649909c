(** Which loops end: properties C09 (what holds of it), C42 and C43. *)
From Coq Require Import List Arith Bool QArith Lia Permutation.
From Coq Require Import Floats.SpecFloat.
From Verif Require Import Base Coord Trap Mono Tri Trace Protocol MonoProof Builders Runs Plane ValidRuns EvenOdd Outcome Endless Bounds Budget Ends EndsFan EndsTri Float FloatWit.
Import ListNotations.
Local Open Scope nat_scope.

(** The number of vertices yielded by the iteration. *)
Definition vertices {I} (elems : list (element I)) : nat :=
  length (filter (fun e => match e with Continue _ => true | NewPolygon => false end) elems).

Lemma vertices_continues {I} (elems : list (element I)) : vertices elems = continues elems.
Proof. induction elems as [|[i|] l IH]; cbn in *; auto. Qed.

Section Props.
Context {C : Type} {OC : CoordOps C} {I : Type}.
Variables (ieqb : I -> I -> bool) (gv : I -> coords C) (dbg : bool) (math_n : nat -> nat -> nat) (shuf : nat -> nat -> list nat).
Hypothesis Hshuf : forall k n, Permutation (shuf k n) (seq 0 n).
Variable elems : list (element I).

(** C42: whatever the coordinates (also floating point numbers, also NaN) and whatever the polygons, [trapezoidize] ends: no loop makes more than
    (n + 4)^2 iterations on n vertices, and the outcome does not depend on the budget beyond that. *)
Theorem C42_trapezoidize_ends : exists r, r <> Crash Fuel /\
  forall fuel, (vertices elems + 4) * (vertices elems + 4) <= fuel -> trapezoidize ieqb gv dbg fuel math_n shuf elems = r.
Proof.
  rewrite vertices_continues. set (K := (continues elems + 4) * (continues elems + 4)).
  pose proof (trapezoidize_ends gv ieqb dbg K math_n shuf elems Hshuf (le_n _)) as He.
  exists (trapezoidize ieqb gv dbg K math_n shuf elems). split; [intros H; rewrite H in He; exact He|].
  intros f Hf. destruct (trapezoidize_mono ieqb gv dbg K f Hf math_n shuf elems) as [H|H]; [rewrite H in He; destruct He|auto].
Qed.

(** C43: for every builder, either [triangulate] ends, with the same outcome for all large budgets, or it never ends, and then there is a chain [V]
    of vertices of the input, cut on the side given by the turn at its first vertex, from which ears can be cut until at least three vertices
    are left no three consecutive ones of which form an ear. *)
Theorem C43_ends_or_stuck {E Out M} (F : fan_format I E Out M) :
  (exists N r, r <> Crashed Fuel /\ forall fuel, N <= fuel -> triangulate F ieqb gv dbg fuel math_n shuf elems = r) \/
  ((forall fuel, triangulate F ieqb gv dbg fuel math_n shuf elems = Crashed Fuel) /\
   exists a b R V' T, let V := a :: b :: R in let left := is_left (snd (last V a)) (snd a) (snd b) in
     (forall i c, In (i, c) V -> In (Continue i) elems /\ c = gv i) /\
     clips left V T V' /\ 3 <= length V' /\
     (forall l x y z r, V' = l ++ x :: y :: z :: r -> is_left (snd z) (snd x) (snd y) <> left)).
Proof.
  destruct (triangulate_decided F ieqb gv dbg math_n shuf elems Hshuf) as [H|(H & V & HV & (a & b & R & -> & T & V' & H1 & H2 & H3))]; [now left|right].
  split; auto. exists a, b, R, V', T. cbv zeta. split; [|split; [|split]]; auto.
  intros i c Hin. rewrite Forall_forall in HV. exact (HV _ Hin).
Qed.

(** C43: in particular the outcome of a run that does not run out of its budget does not depend on the budget. *)
Theorem C43_budget {E Out M} (F : fan_format I E Out M) k k' :
  triangulate F ieqb gv dbg k math_n shuf elems <> Crashed Fuel -> triangulate F ieqb gv dbg k' math_n shuf elems <> Crashed Fuel ->
  triangulate F ieqb gv dbg k math_n shuf elems = triangulate F ieqb gv dbg k' math_n shuf elems.
Proof.
  intros H H'. destruct (Nat.le_ge_cases k k') as [L|L];
    [destruct (triangulate_mono F ieqb gv dbg k k' math_n shuf elems L)|destruct (triangulate_mono F ieqb gv dbg k' k math_n shuf elems L)]; congruence.
Qed.
End Props.

(** C09 holds for valid polygon lists with exact coordinates, also when the builder refuses vertices: the run returns [Ok] or [Err]. *)
Theorem C09_valid_partial {I} (gv : I -> point) ieqb dbg math_n shuf (elems : list (element I)) {E Out M} (F : fan_format I E Out M) :
  (forall a b, ieqb a b = true <-> a = b) -> (forall k n, Permutation (shuf k n) (seq 0 n)) ->
  valid (map (map gv) (groups elems)) -> map (map gv) (groups elems) <> [] ->
  exists N r m, forall fuel, N <= fuel -> triangulate F ieqb gv dbg fuel math_n shuf elems = Returned r m.
Proof.
  intros Hieq Hsh HV Hps.
  destruct (calls_nonempty (E := E) gv ieqb dbg Hieq math_n shuf Hsh elems HV (ff_cw F) Hps) as (calls & N & Hs & Hne & Hr).
  assert (Hd : forall l b, exists r m, drive F b l (Ok tt) = Returned r m).
  { induction l as [|[i j k|i] l IH]; intros b; cbn [drive].
    - destruct (ff_build F b) as [[o|e] m]; eauto.
    - destruct (ff_new F b i j k) as [b' [e|]]; eauto.
    - destruct (ff_ext F b i) as [b' [e|]]; eauto. }
  destruct calls as [|[a b c|a] l]; [congruence| |easy].
  assert (Ho : exists r m, obey F (CNew a b c :: l, Ok tt) = Returned r m).
  { unfold obey. cbn [fst snd]. destruct (ff_init F a b c) as [g|[e m]]; eauto. }
  destruct Ho as (r & m & Ho). exists N, r, m. intros fuel Hf. rewrite triangulate_obeys, (Hr fuel Hf). exact Ho.
Qed.

(** ** Cases *)

Lemma in_order_perm k n : Permutation (in_order k n) (seq 0 n).
Proof. apply Permutation_refl. Qed.

(** The trapezoidation of the polygon on which [triangulate] runs forever ends, as the theorem says. *)
Example C42_case : match trapezoidize Nat.eqb (gv_of dup) true 64 never in_order (elems_of dup) with Ok st => length (st_ts st) = 9 | _ => False end.
Proof. vm_compute. reflexivity. Qed.

(** Three vertices without coordinates: it ends with an internal error or not, but it ends. *)
Example C42_nan_case : match trapezoidize (OC := f64) Nat.eqb (fun _ => (S754_nan, S754_nan)) true 49 never in_order (map (@Continue nat) [0; 1; 2]) with
  Crash Fuel => False | _ => True end.
Proof. vm_compute. exact Logic.I. Qed.

(** Both cases of [C43_ends_or_stuck] occur. *)
Example C43_ends_case : forall fuel, 60 <= fuel -> exists c, run (recorder nat Empty_set false) true fuel square = Returned (inl c) c.
Proof.
  intros fuel Hf. destruct (triangulate_mono (recorder nat Empty_set false) Nat.eqb (gv_of square) true 60 fuel never in_order (elems_of square) Hf) as [H|H].
  - exfalso. vm_compute in H. discriminate.
  - eexists. unfold run. rewrite <- H. vm_compute. reflexivity.
Qed.

Example C43_stuck_case : forall fuel, run (recorder nat Empty_set false) true fuel dup = Crashed Fuel.
Proof. intros. apply dup_endless. Qed.

Example C09_case : valid [square].
Proof. exact square_valid. Qed.

Print Assumptions C42_trapezoidize_ends.
Print Assumptions C43_ends_or_stuck.
Print Assumptions C43_budget.
Print Assumptions C09_valid_partial.
