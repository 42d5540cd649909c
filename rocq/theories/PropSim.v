(** Properties C25, C26 and C34-C36. *)
From Coq Require Import List Arith Bool Lia QArith ZArith.
From Verif Require Import Base Coord Trap Mono Tri Input Trace Protocol Builders Runs Plane Sim SimFacts SimRuns.
Import ListNotations.
Local Open Scope nat_scope.

(** C25: with conversions that are mutually inverse on the indices used, triangulating [p.index_with()] into any builder
    is triangulating [p] into that builder with every index converted. *)
Theorem C25_index_with {C I J : Type} {OC : CoordOps C} {E Out M} (F : fan_format J E Out M) ieqbI ieqbJ
  (conv : I -> option J) (unconv : J -> option I) (f : I -> J) (get : I -> option (coords C)) (gvI : I -> coords C)
  (gvJ : J -> coords C) dbg fuel mn shuf elems :
  (forall i k, ieqbI i k = true <-> i = k) -> (forall i k, ieqbJ i k = true <-> i = k) ->
  (forall i, used elems i -> conv i = Some (f i) /\ unconv (f i) = Some i) ->
  (forall i, used elems i -> get i = Some (gvI i)) ->
  (forall j c, iw_get unconv get j = Some c -> gvJ j = c) ->
  exists elems', iw_elems conv elems = Ok elems' /\
    triangulate F ieqbJ gvJ dbg fuel mn shuf elems' = triangulate (via f F) ieqbI gvI dbg fuel mn shuf elems.
Proof. exact (index_with_ok F ieqbI ieqbJ conv unconv f get gvI gvJ dbg fuel mn shuf elems). Qed.

(** C25: otherwise the iteration panics. *)
Theorem C25_failed_conversion {I J} (conv : I -> option J) elems :
  iw_elems conv elems = Crash Panic <-> exists i, In (Continue i) elems /\ conv i = None.
Proof. exact (index_with_panics conv elems). Qed.

Example C25_used : exists elems', iw_elems conv (elems_of ell) = Ok elems' /\
  triangulate (recorder nat Empty_set false) Nat.eqb (fun j => gv_of ell (Nat.div2 j)) true 100 never in_order elems' =
  Returned (inl (map (fun c => match c with CNew a b d => CNew (2 * a) (2 * b) (2 * d) | CExt v => CExt (2 * v) end) ell_calls))
    (map (fun c => match c with CNew a b d => CNew (2 * a) (2 * b) (2 * d) | CExt v => CExt (2 * v) end) ell_calls).
Proof.
  destruct (C25_index_with (recorder nat Empty_set false) Nat.eqb Nat.eqb conv unconv double
    (fun i => nth_error ell i) (gv_of ell) (fun j => gv_of ell (Nat.div2 j)) true 100 never in_order (elems_of ell))
    as (elems' & H1 & H2).
  - intros. apply Nat.eqb_eq.
  - intros. apply Nat.eqb_eq.
  - intros i Hi. unfold used, elems_of in Hi. rewrite in_map_iff in Hi. destruct Hi as (k & Hk & Hi). injection Hk as ->.
    apply in_seq in Hi. cbn in Hi. unfold conv, unconv, double. destruct (Nat.ltb_spec i 6); [|lia].
    rewrite Nat.even_mul, Nat.div2_double. split; reflexivity.
  - intros i Hi. unfold used, elems_of in Hi. rewrite in_map_iff in Hi. destruct Hi as (k & Hk & Hi). injection Hk as ->.
    apply in_seq in Hi. unfold gv_of. apply nth_error_nth'. lia.
  - intros j c. unfold iw_get, unconv. destruct (Nat.even j); [|discriminate]. intros H. now apply nth_error_nth.
  - exists elems'. split; [exact H1|]. rewrite H2. vm_compute. reflexivity.
Qed.

(** C26: two formats of equal winding used on the same trapezoidation receive the same calls, unless one of them fails
    itself; and one succeeds iff the other does.  (The trapezoidation is an argument only, so using it does not
    change it, and the result is a function of it.) *)
Theorem C26_reuse {C : Type} {OC : CoordOps C} {I : Type} (gv : I -> coords C) dbg fuel (st : state C I)
  {E1 Out1 M1 E2 Out2 M2} (F1 : fan_format I E1 Out1 M1) (F2 : fan_format I E2 Out2 M2) r1 m1 evs1 r2 m2 evs2 :
  ff_cw F1 = ff_cw F2 ->
  trap_triangulate (logged F1) gv dbg fuel st = Returned r1 (m1, evs1) ->
  trap_triangulate (logged F2) gv dbg fuel st = Returned r2 (m2, evs2) ->
  (forall e, r1 <> inr (TEFanBuilder e)) -> (forall e, r2 <> inr (TEFanBuilder e)) ->
  calls_in evs1 = calls_in evs2 /\ ((exists o, r1 = inl o) <-> (exists o, r2 = inl o)).
Proof. exact (reuse gv dbg fuel st F1 F2 r1 m1 evs1 r2 m2 evs2). Qed.

Example C26_used : exists st r1 m1 evs1 r2 m2 evs2,
  trapezoidize Nat.eqb (gv_of ell) true 100 never in_order (elems_of ell) = Ok st /\
  trap_triangulate (logged (recorder nat unit false)) (gv_of ell) true 100 st = Returned r1 (m1, evs1) /\
  trap_triangulate (logged (via double (recorder nat bool false))) (gv_of ell) true 100 st = Returned r2 (m2, evs2) /\
  (exists o, r1 = inl o) /\ (exists o, r2 = inl o) /\ calls_in evs1 = ell_calls.
Proof.
  do 7 eexists. refine (conj _ (conj _ (conj _ (conj (ex_intro _ _ eq_refl) (conj (ex_intro _ _ eq_refl) _))))).
  - vm_compute. reflexivity.
  - vm_compute. reflexivity.
  - vm_compute. reflexivity.
  - vm_compute. reflexivity.
Qed.

(** C34: a polygon is triangulated like the one-element list of it. *)
Theorem C34_single_polygon {C : Type} {OC : CoordOps C} {V E Out M} (p : list V) (vert : V -> coords C) (dflt : coords C)
  (F : fan_format (nat * nat) E Out M) dbg fuel mn shuf k : length p + 2 <= k ->
  exists elems, vv_elems k [p] = Ok elems /\
  triangulate F (fun a b => Nat.eqb (fst a) (fst b) && Nat.eqb (snd a) (snd b))
    (fun ij => match vv_get [p] ij with Some v => vert v | None => dflt end) dbg fuel mn shuf elems =
  triangulate (via (pair 0) F) Nat.eqb (fun j => match nth_error p j with Some v => vert v | None => dflt end)
    dbg fuel mn shuf (sp_elems p).
Proof. exact (single_polygon p vert dflt F dbg fuel mn shuf k). Qed.

Example C34_used : exists elems, vv_elems 8 [ell] = Ok elems /\
  triangulate (recorder (nat * nat) Empty_set false) (fun a b => Nat.eqb (fst a) (fst b) && Nat.eqb (snd a) (snd b))
    (fun ij => match vv_get [ell] ij with Some v => v | None => pt 0 0 end) true 100 never in_order elems =
  Returned (inl [CNew (0, 4) (0, 5) (0, 3); CNew (0, 2) (0, 3) (0, 1); CNew (0, 0) (0, 1) (0, 3); CExt (0, 5)])
    [CNew (0, 4) (0, 5) (0, 3); CNew (0, 2) (0, 3) (0, 1); CNew (0, 0) (0, 1) (0, 3); CExt (0, 5)].
Proof. eexists. split. { vm_compute. reflexivity. } vm_compute. reflexivity. Qed.

(** C35: coordinate types that agree on the vertices of the input in comparisons, coordinate equality and side tests give
    the same result and leave the caller's storage the same. *)
Theorem C35_only_predicates {C1 C2 I : Type} {O1 : CoordOps C1} {O2 : CoordOps C2} {E Out M} (F : fan_format I E Out M)
  ieqb (gv1 : I -> coords C1) (gv2 : I -> coords C2) dbg fuel mn shuf elems :
  (forall i k, used elems i -> used elems k -> coords_pcmp (gv2 i) (gv2 k) = coords_pcmp (gv1 i) (gv1 k)) ->
  (forall i k l, used elems i -> used elems k -> used elems l ->
    is_left (gv2 i) (gv2 k) (gv2 l) = is_left (gv1 i) (gv1 k) (gv1 l)) ->
  (forall i k, used elems i -> used elems k -> c_eqb (cx (gv2 i)) (cx (gv2 k)) = c_eqb (cx (gv1 i)) (cx (gv1 k))) ->
  (forall i k, used elems i -> used elems k -> c_eqb (cy (gv2 i)) (cy (gv2 k)) = c_eqb (cy (gv1 i)) (cy (gv1 k))) ->
  triangulate F ieqb gv2 dbg fuel mn shuf elems = triangulate F ieqb gv1 dbg fuel mn shuf elems.
Proof. exact (other_coords F ieqb gv1 gv2 dbg fuel mn shuf elems). Qed.

(** Integers instead of rationals. *)
Example C35_used :
  triangulate (recorder nat Empty_set false) Nat.eqb gvz true 100 never in_order (elems_of ell) =
  Returned (inl ell_calls) ell_calls.
Proof.
  rewrite (C35_only_predicates (recorder nat Empty_set false) Nat.eqb (gv_of ell) gvz).
  - exact ell_runs.
  - intros. rewrite !gvz_q. symmetry. apply in_q_pcmp.
  - intros. rewrite !gvz_q. symmetry. apply in_q_left.
  - intros. rewrite !gvz_q. symmetry. apply inject_eqb.
  - intros. rewrite !gvz_q. symmetry. apply inject_eqb.
Qed.

(** C36: moving the input and scaling each axis by a positive factor changes nothing. *)
Theorem C36_affine (sx sy tx ty : Q) : (0 < sx)%Q -> (0 < sy)%Q ->
  forall I E Out M (F : fan_format I E Out M) ieqb (gv : I -> coords Q) dbg fuel mn shuf elems,
  triangulate F ieqb (fun i => (sx * fst (gv i) + tx, sy * snd (gv i) + ty)%Q) dbg fuel mn shuf elems =
  triangulate F ieqb gv dbg fuel mn shuf elems.
Proof. intros Hx Hy I E Out M. exact (affine_run sx sy tx ty Hx Hy). Qed.

Example C36_used :
  triangulate (recorder nat Empty_set false) Nat.eqb
    (fun i => ((1 # 3) * fst (gv_of ell i) + 5, (7 # 2) * snd (gv_of ell i) + - (9))%Q) true 100 never in_order (elems_of ell) =
  Returned (inl ell_calls) ell_calls.
Proof. rewrite C36_affine by reflexivity. exact ell_runs. Qed.

Print Assumptions C25_index_with.
Print Assumptions C25_failed_conversion.
Print Assumptions C26_reuse.
Print Assumptions C34_single_polygon.
Print Assumptions C35_only_predicates.
Print Assumptions C36_affine.
