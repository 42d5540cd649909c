(** Property C55: on valid polygon lists only the vertex order and the side tests matter. *)
From Coq Require Import List Arith Bool Lia QArith ZArith Permutation.
From Verif Require Import Base Coord Trap Mono Tri Input Trace Protocol Builders Runs Plane Sim SimFacts ValidRuns Shear PropTri.
Import ListNotations.
Local Open Scope nat_scope.

(** C55: two valid inputs, in the same index scheme, on which the vertex order and the side tests agree give the same
    result and leave the caller's storage the same: the equality tests of [MonotoneBuilder::add_vertex]
    (src/monotone.rs 23-32), which [C35_only_predicates] has to assume to agree, play no part. *)
Theorem C55_order_type {I E Out M} (F : fan_format I E Out M) ieqb (gv1 gv2 : I -> coords Q) dbg fuel math_n shuf elems :
  (forall a b, ieqb a b = true <-> a = b) -> (forall k n, Permutation (shuf k n) (seq 0 n)) ->
  valid (map (map gv1) (groups elems)) -> valid (map (map gv2) (groups elems)) ->
  (forall i k, In (Continue i) elems -> In (Continue k) elems -> coords_pcmp (gv2 i) (gv2 k) = coords_pcmp (gv1 i) (gv1 k)) ->
  (forall i k l, In (Continue i) elems -> In (Continue k) elems -> In (Continue l) elems ->
    is_left (gv2 i) (gv2 k) (gv2 l) = is_left (gv1 i) (gv1 k) (gv1 l)) ->
  triangulate F ieqb gv2 dbg fuel math_n shuf elems = triangulate F ieqb gv1 dbg fuel math_n shuf elems.
Proof. exact (same_run F ieqb gv1 gv2 dbg fuel math_n shuf elems). Qed.

(** C55: so a valid input may be sheared along the [x] axis, moved and scaled by positive factors. *)
Theorem C55_shear (a b k e f : Q) : (0 < a)%Q -> (0 < b)%Q ->
  forall I E Out M (F : fan_format I E Out M) ieqb (gv : I -> coords Q) dbg fuel math_n shuf elems,
  (forall i j, ieqb i j = true <-> i = j) -> (forall k n, Permutation (shuf k n) (seq 0 n)) ->
  valid (map (map gv) (groups elems)) ->
  triangulate F ieqb (fun i => (a * fst (gv i) + k * snd (gv i) + e, b * snd (gv i) + f)%Q) dbg fuel math_n shuf elems =
  triangulate F ieqb gv dbg fuel math_n shuf elems.
Proof. intros Ha Hb I E Out M. exact (shear_run a b k e f Ha Hb). Qed.

(** The vertical edges of the L shape become slanted; the equality test of its first and last vertex answers differently. *)
Example C55_used :
  triangulate (recorder nat Empty_set false) Nat.eqb
    (fun i => (2 * fst (gv_of ell i) + (- (7) # 3) * snd (gv_of ell i) + 1, (1 # 5) * snd (gv_of ell i) + 4)%Q) true 100 never in_order (elems_of ell) =
  Returned (inl ell_calls) ell_calls /\
  c_eqb (fst (gv_of ell 0)) (fst (gv_of ell 5)) = true /\
  c_eqb (2 * fst (gv_of ell 0) + (- (7) # 3) * snd (gv_of ell 0) + 1)%Q (2 * fst (gv_of ell 5) + (- (7) # 3) * snd (gv_of ell 5) + 1)%Q = false.
Proof.
  split; [|split; reflexivity]. rewrite (C55_shear 2 (1 # 5) (- (7) # 3) 1 4 eq_refl eq_refl).
  - exact ell_runs.
  - exact nat_eqb_dec.
  - exact in_order_perm.
  - exact ell_valid.
Qed.

(** Validity is needed: a vertex touches an edge, both runs succeed, and the sheared one returns one triangle less. *)
Definition touching : list (coords Q) := [pt 2 0; pt 0 2; pt 2 2; pt 1 1].

Theorem C55_validity_needed : exists l : list (coords Q),
  (forall i k, coords_pcmp (gv_of (map (fun p => (fst p + snd p, snd p)%Q) l) i) (gv_of (map (fun p => (fst p + snd p, snd p)%Q) l) k) = coords_pcmp (gv_of l i) (gv_of l k)) /\
  (forall i j k, is_left (gv_of (map (fun p => (fst p + snd p, snd p)%Q) l) i) (gv_of (map (fun p => (fst p + snd p, snd p)%Q) l) j) (gv_of (map (fun p => (fst p + snd p, snd p)%Q) l) k) =
    is_left (gv_of l i) (gv_of l j) (gv_of l k)) /\
  run (recorder nat Empty_set false) true 100 l = Returned (inl [CNew 2 1 3; CNew 1 0 3]) [CNew 2 1 3; CNew 1 0 3] /\
  run (recorder nat Empty_set false) true 100 (map (fun p => (fst p + snd p, snd p)%Q) l) = Returned (inl [CNew 2 1 3]) [CNew 2 1 3].
Proof.
  assert (G : forall P : coords Q -> coords Q -> Prop, P (pt 2 0) (pt 2 0) -> P (pt 0 2) (pt 2 2) -> P (pt 2 2) (pt 4 2) -> P (pt 1 1) (pt 2 1) -> P (pt 0 0) (pt 0 0) ->
    forall i, P (gv_of touching i) (gv_of (map (fun p => (fst p + snd p, snd p)%Q) touching) i)).
  { intros P H0 H1 H2 H3 H4 [|[|[|[|i]]]]; auto. now destruct i. }
  exists touching. split; [|split; [|split]].
  - intros i k. apply (G (fun p q => coords_pcmp q _ = coords_pcmp p _)); apply (G (fun p q => coords_pcmp _ q = coords_pcmp _ p)); reflexivity.
  - intros i j k. apply (G (fun p q => is_left q _ _ = is_left p _ _)); apply (G (fun p q => is_left _ q _ = is_left _ p _)); apply (G (fun p q => is_left _ _ q = is_left _ _ p)); reflexivity.
  - vm_compute. reflexivity.
  - vm_compute. reflexivity.
Qed.

Print Assumptions C55_order_type.
Print Assumptions C55_shear.
Print Assumptions C55_validity_needed.
