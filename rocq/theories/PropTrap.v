(** Properties of the trapezoidation of valid polygon lists. *)
From Coq Require Import QArith List Arith Lia Permutation.
From Verif Require Import Base Coord Trap Plane Runs ValidRuns Locate.
Import ListNotations.
Local Open Scope nat_scope.

Section Props.
Context {I : Type}.
Variables (gv : I -> point) (ieqb : I -> I -> bool) (math_n : nat -> nat -> nat) (shuf : nat -> nat -> list nat).
Hypothesis Hieq : forall a b, ieqb a b = true <-> a = b.
Hypothesis Hshuf : forall k n, Permutation (shuf k n) (seq 0 n).

(** C29: at every moment of the construction (after any polygons and any number of segments of the next one), exactly one
    trapezoid contains each vertex not yet inserted, and each point off all vertices and edges; the search from the root
    returns it, and so does the search from the node remembered for a vertex of the current polygon. *)
Theorem C29_location (dbg : bool) (pre : list (element I)) (poly : list I) (post : list (list I)) (m : nat) :
  let ps := map (map gv) (groups pre ++ poly :: post) in valid ps ->
  exists st vls, (exists N, forall fuel, N <= fuel -> exists x, moment_at ieqb gv dbg fuel math_n shuf pre poly m = Ok x /\ mo_st x = st /\ mo_vls x = vls) /\
    (forall p, free ps st p -> located st p 0) /\
    length vls = length poly /\
    (forall j a, nth_error poly j = Some a ->
      (exists q, nth_error vls j = Some (Pending (gv a) a q) /\ ~ In (gv a) (map n_c (st_ns st)) /\ located st (gv a) q) \/
      (exists v n, nth_error vls j = Some (Inserted (gv a) v) /\ nth_error (st_ns st) v = Some n /\ n_c n = gv a)).
Proof. exact (moment_located gv ieqb dbg Hieq math_n shuf Hshuf pre poly post m). Qed.

(** C29: these moments are moments of the run. *)
Theorem C29_moments (dbg : bool) (fuel : nat) (pre : list (element I)) (poly : list I) (post : list (element I)) (m : nat) : 3 <= length poly ->
  trapezoidize ieqb gv dbg fuel math_n shuf (pre ++ NewPolygon :: map (@Continue I) poly ++ NewPolygon :: post) =
  bind (moment_at ieqb gv dbg fuel math_n shuf pre poly m)
    (continue_from ieqb gv dbg fuel math_n shuf (length poly) (length (groups pre)) (post ++ [NewPolygon])).
Proof. exact (moment_run ieqb gv dbg fuel math_n shuf pre poly post m). Qed.

(** C31: with debug assertions compiled in, the construction succeeds (no check panics) and has the same result. *)
Theorem C31_debug_checks (elems : list (element I)) : valid (map (map gv) (groups elems)) ->
  exists st N, forall fuel, N <= fuel ->
    trapezoidize ieqb gv true fuel math_n shuf elems = Ok st /\ trapezoidize ieqb gv false fuel math_n shuf elems = Ok st.
Proof. exact (debug_passes gv ieqb math_n shuf elems Hieq Hshuf). Qed.

End Props.

Example ex_hyps : (forall a b, Nat.eqb a b = true <-> a = b) /\ (forall k n, Permutation (in_order k n) (seq 0 n)).
Proof. split; [apply Nat.eqb_eq|reflexivity]. Qed.

(** A quadrilateral with a triangular hole, after the quadrilateral and one segment of the hole. *)
Example ex_C29 : groups holed_elems = groups (firstn 4 holed_elems) ++ [4; 5; 6] :: [] /\
  valid (map (map (gv_of holed)) (groups (firstn 4 holed_elems) ++ [4; 5; 6] :: [])) /\
  exists x q, moment_at Nat.eqb (gv_of holed) true 100 never in_order (firstn 4 holed_elems) [4; 5; 6] 1 = Ok x /\
    nth_error (mo_vls x) 2 = Some (Pending (pt 4 6) 6 q).
Proof. split; [reflexivity|]. split; [exact holed_valid|]. eexists. eexists. split; [vm_compute; reflexivity|]. vm_compute. reflexivity. Qed.

Example ex_C31 : valid (map (map (gv_of holed)) (groups holed_elems)) /\
  exists st, trapezoidize Nat.eqb (gv_of holed) true 100 never in_order holed_elems = Ok st /\ length (st_ss st) = 7.
Proof. split; [exact holed_valid|]. eexists. split; [vm_compute; reflexivity|reflexivity]. Qed.

Print Assumptions C29_location.
Print Assumptions C29_moments.
Print Assumptions C31_debug_checks.
