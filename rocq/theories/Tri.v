(** Traversal of the trapezoidation, builder protocol and the public entry points.  Models the [Trapezoidation] part
    of [src/trapezoidation.rs], [src/fan_builder_state.rs], the traits of [src/outputs/fan_format.rs] and
    [PolygonList::triangulate] of [src/inputs/polygon_list.rs]. *)
From Coq Require Import List Arith Bool.
From Verif Require Import Base Coord Trap Mono.
Import ListNotations.
Local Open Scope res_scope.

(** [FinalNexusType] (src/nexus.rs 41-45). *)
Inductive ntype :=
| TV (ul uc ur down : nat)
| TI (ul ur dl dr : nat)
| TA (up dl dc dr : nat).

Section Tri.
Context {C : Type} {OC : CoordOps C} {I : Type}.

(** [Nexus::final_type] (src/nexus.rs 101-130). *)
Definition final_type (n : nexus C I) : res ierr ntype :=
  match n_div n with
  | Two div0 div1 =>
    Ok (if dir_eqb (d_dir div0) Desc then TA (n_ul n) (n_dl n) (d_r div0) (d_r div1)
        else if dir_eqb (d_dir div1) Asc then TV (n_ul n) (d_r div0) (d_r div1) (n_dl n)
        else TI (n_ul n) (d_r div0) (n_dl n) (d_r div1))
  | _ => Err IE_FinalType
  end.

(** [Trapezoidation::top_trapezoid] (src/trapezoidation.rs 670-681). *)
Fixpoint top_trapezoid (k : nat) (qs : list (qnode C)) (qi : nat) : res ierr nat :=
  match k with
  | 0 => Crash Fuel
  | S k =>
    do q <- rd qs qi;
    match q with
    | QBranch _ _ (QX _ _) => Err IE_TopX
    | QBranch _ r (QY _) => top_trapezoid k qs r
    | QSink ti => Ok ti
    end
  end.

Section Inner.
Context {S E : Type}.
Variable gv : I -> coords C.
Variable newf : S -> I -> I -> I -> sres S (tri_error E) unit.
Variable ext : S -> I -> sres S (tri_error E) unit.
Variable cw : bool.
Variable fuel : nat.
Variable st : state C I.

Notation err := (tri_error E).
Notation mb := (mbuilder C I).

Local Open Scope sres_scope.

(** Build and cut one finished monotone (src/trapezoidation.rs 762-769, 792-799). *)
Definition finish (b : mb) (s : S) : sres S err unit :=
  match mb_build b with
  | Ok (Some m) => build_fans newf ext cw fuel fuel m s
  | Ok None => (s, Ok tt)
  | Err e => (s, Err (TEInternal e))
  | Crash c => (s, Crash c)
  end.

(** Add the lower nexus to every current monotone (src/trapezoidation.rs 717-719). *)
Definition add_to_all (ms : ot mb) (n : nexus C I) : res err (ot mb) :=
  match ms with
  | OOne a => (do a <- mb_add a (n_v n) (n_c n); Ok (OOne a))%res
  | OTwo a b => (do a <- mb_add a (n_v n) (n_c n); do b <- mb_add b (n_v n) (n_c n); Ok (OTwo a b))%res
  end.

(** [Some(monotones)] part of one traversal step, before the nexus type is looked at
    (src/trapezoidation.rs 715-781). *)
Definition extend_monotones (t : trap) (ni_down : nat) (n_down : nexus C I) (ms : ot mb) (s : S)
  : sres S err (ot mb) :=
  sdo s, ms <- lift s (add_to_all ms n_down);
  sdo s, si_left <- lift s (ok_or (t_l t) (TEInternal IE_Inner));
  sdo s, s_left <- lift s (rd (st_ss st) si_left);
  sdo s, si_right <- lift s (ok_or (t_r t) (TEInternal IE_Inner));
  sdo s, s_right <- lift s (rd (st_ss st) si_right);
  sdo s, ni_up <- lift s (ok_or (t_u t) (TEInternal IE_Inner));
  let '(complete, rest) :=
    if Nat.eqb ni_down (s_min s_left) && negb (Nat.eqb ni_down (s_min s_right))
         && negb (Nat.eqb ni_up (s_max s_left)) then
      match ms with
      | OOne a => (Some a, None)
      | OTwo a b => (Some a, Some (OOne b))
      end
    else if Nat.eqb ni_down (s_min s_right) && negb (Nat.eqb ni_down (s_min s_left))
              && negb (Nat.eqb ni_up (s_max s_right)) then
      match ms with
      | OOne a => (Some a, None)
      | OTwo a b => (Some b, Some (OOne a))
      end
    else (None, Some ms) in
  match complete with
  | Some b =>
    sdo s, _ <- finish b s;
    match rest with
    | Some ms => (s, Ok ms)
    | None =>
      sdo s, n_up <- lift s (rd (st_ns st) ni_up);
      sdo s, b' <- lift s (mb_add (mb_new (n_v n_up) (gv (n_v n_up))) (n_v n_down) (n_c n_down));
      (s, Ok (OOne b'))
    end
  | None => match rest with Some ms => (s, Ok ms) | None => (s, Ok ms) end
  end.

(** Loop variables of [triangulate_inner] (src/trapezoidation.rs 684-709): current trapezoid, its monotones, stack of
    pending branches, stack of stashed monotones (tops first). *)
Record tstate := mkT {
  x_ti : nat; x_ms : option (ot mb); x_bs : list (nat * option (ot mb)); x_mst : list mb
}.

(** [ok_one_or_else] on [Ot]. *)
Definition single (ms : ot mb) : res err mb :=
  match ms with OOne a => Ok a | OTwo _ _ => Err (TEInternal IE_SingleMonotone) end.

(** Finish all monotones of an ending trapezoid (src/trapezoidation.rs 791-800). *)
Definition finish_all (ms : ot mb) (s : S) : sres S err unit :=
  match ms with
  | OOne a => finish a s
  | OTwo a b => sdo s, _ <- finish a s; finish b s
  end.

(** Resume from a pending branch (src/trapezoidation.rs 816-818). *)
Definition resume (bs : list (nat * option (ot mb))) (mst : list mb) : res err tstate :=
  match bs with
  | [] => Err (TEInternal IE_EmptyStack)
  | (ti, ms) :: bs => Ok (mkT ti ms bs mst)
  end.

(** The [V] case (src/trapezoidation.rs 784-820). *)
Definition step_v (x : tstate) (ms : option (ot mb)) (ul uc ur down : nat) (s : S) : sres S err tstate :=
  let ti := x_ti x in
  sdo s, '(ms', mst) <-
    match ms with
    | Some m =>
      if Nat.eqb ti ul then
        sdo s, a <- lift s (single m); (s, Ok (None, a :: x_mst x))
      else if Nat.eqb ti uc then
        sdo s, _ <- finish_all m s; (s, Ok (None, x_mst x))
      else if Nat.eqb ti ur then
        match x_mst x with
        | [] => (s, Err (TEInternal IE_EmptyStack))
        | l :: mst => sdo s, r <- lift s (single m); (s, Ok (Some (OTwo l r), mst))
        end
      else (s, Err (TEInternal IE_InvalidTrapezoidation))
    | None => (s, Ok (None, x_mst x))
    end;
  if Nat.eqb ti ur then (s, Ok (mkT down ms' (x_bs x) mst))
  else lift s (resume (x_bs x) mst).

(** The [A] case (src/trapezoidation.rs 831-866). *)
Definition step_a (x : tstate) (t : trap) (n_down : nexus C I) (ms : option (ot mb)) (dl dc dr : nat) (s : S)
  : sres S err tstate :=
  match ms with
  | Some m =>
    sdo s, '(ml, mr) <-
      match m with
      | OOne a =>
        sdo s, ni_up <- lift s (ok_or (t_u t) (TEInternal IE_Inner));
        sdo s, n <- lift s (rd (st_ns st) ni_up);
        sdo s, b <- lift s (mb_add (mb_new (n_v n) (n_c n)) (n_v n_down) (n_c n_down));
        sdo s, sl <- lift s (ok_or (t_l t) (TEInternal IE_Inner));
        sdo s, s_l <- lift s (rd (st_ss st) sl);
        if Nat.eqb ni_up (s_max s_l) then (s, Ok (b, a))
        else
          sdo s, sr <- lift s (ok_or (t_r t) (TEInternal IE_Inner));
          sdo s, s_r <- lift s (rd (st_ss st) sr);
          if Nat.eqb ni_up (s_max s_r) then (s, Ok (a, b))
          else (s, Err (TEInternal IE_TopOfSegment))
      | OTwo a b => (s, Ok (a, b))
      end;
    (s, Ok (mkT dl (Some (OOne ml)) ((dc, None) :: (dr, Some (OOne mr)) :: x_bs x) (x_mst x)))
  | None =>
    (s, Ok (mkT dl None ((dc, Some (OOne (mb_new (n_v n_down) (n_c n_down)))) :: (dr, None) :: x_bs x) (x_mst x)))
  end.

(** One iteration of [while let Some(ni_down) = self.ts[ti].down()] (src/trapezoidation.rs 711-868). *)
Definition tri_step (x : tstate) (t : trap) (ni_down : nat) (s : S) : sres S err tstate :=
  sdo s, n_down <- lift s (rd (st_ns st) ni_down);
  sdo s, ms <-
    match x_ms x with
    | Some ms => sdo s, ms <- extend_monotones t ni_down n_down ms s; (s, Ok (Some ms))
    | None => (s, Ok None)
    end;
  sdo s, ty <- lift s (map_err TEInternal (final_type n_down));
  match ty with
  | TV ul uc ur down => step_v x ms ul uc ur down s
  | TI ul ur dl dr =>
    if Nat.eqb (x_ti x) ul then (s, Ok (mkT dl ms (x_bs x) (x_mst x)))
    else if Nat.eqb (x_ti x) ur then (s, Ok (mkT dr ms (x_bs x) (x_mst x)))
    else (s, Err (TEInternal IE_InvalidI))
  | TA _ dl dc dr => step_a x t n_down ms dl dc dr s
  end.

(** The final checks (src/trapezoidation.rs 870-878). *)
Definition tri_end (x : tstate) : res err unit :=
  match x_mst x, x_bs x, x_ms x with
  | _ :: _, _, _ => Err (TEInternal IE_MonotoneStack)
  | _, _ :: _, _ => Err (TEInternal IE_BranchStack)
  | _, _, Some _ => Err (TEInternal IE_PartialMonotones)
  | _, _, None => Ok tt
  end.

Fixpoint tri_loop (k : nat) (x : tstate) (s : S) : sres S err unit :=
  match k with
  | 0 => (s, Crash Fuel)
  | Datatypes.S k =>
    sdo s, t <- lift s (rd (st_ts st) (x_ti x));
    match t_d t with
    | None => (s, tri_end x)
    | Some ni_down =>
      sdo s, x' <- tri_step x t ni_down s;
      tri_loop k x' s
    end
  end.

(** [triangulate_inner] (src/trapezoidation.rs 683-879). *)
Definition triangulate_inner (s : S) : sres S err unit :=
  sdo s, ti <- lift s (map_err TEInternal (top_trapezoid fuel (st_qs st) 0));
  tri_loop fuel (mkT ti None [] []) s.

End Inner.

(** ** Builders *)

(** A [FanFormat] together with its [FanBuilder] (src/outputs/fan_format.rs 6-44), over an explicit builder state [B].
    [M] is the caller's storage as it can be observed when everything is dropped: [ff_dropped] if the format is dropped
    unused, the second component of a failed [ff_init] if [initialize] fails (the partially built builder is dropped),
    the second component of [ff_build], and [ff_fail] after [fail]. *)
Record fan_format (E Out M : Type) := mkFF {
  ff_B : Type;
  ff_cw : bool;                                          (* WINDING == Clockwise *)
  ff_dropped : M;
  ff_init : I -> I -> I -> ff_B + (E * M);
  ff_new : ff_B -> I -> I -> I -> ff_B * option E;
  ff_ext : ff_B -> I -> ff_B * option E;
  ff_build : ff_B -> (Out + E) * M;
  ff_fail : ff_B -> tri_error E -> M
}.

Section Builder.
Context {E Out M : Type}.
Variable F : fan_format E Out M.

Notation err := (tri_error E).
Notation B := (ff_B _ _ _ F).

(** [FanBuilderState] (src/fan_builder_state.rs 6-10).  [FError None] also remembers what is left of the caller's
    storage. *)
Inductive fbs := FUninit | FInit (b : B) | FErrNone (m : M) | FErrSome (b : B).

(** [FanBuilderState::new_fan] (src/fan_builder_state.rs 13-39).  The last case keeps the builder, which the code would
    drop; it does not arise, because [triangulate_inner] ends with the first error. *)
Definition fbs_new (s : fbs) (i0 i1 i2 : I) : sres fbs err unit :=
  match s with
  | FInit b =>
    match ff_new _ _ _ F b i0 i1 i2 with
    | (b', None) => (FInit b', Ok tt)
    | (b', Some e) => (FErrSome b', Err (TEFanBuilder e))
    end
  | FUninit =>
    match ff_init _ _ _ F i0 i1 i2 with
    | inl b => (FInit b, Ok tt)
    | inr (e, m) => (FErrNone m, Err (TEFanBuilder e))
    end
  | FErrNone m => (FErrNone m, Err (TEInternal IE_Msg))
  | FErrSome b => (FErrSome b, Err (TEInternal IE_Msg))
  end.

(** [extend_fan] on the builder returned by [new_fan] (src/monotone.rs 95, 154): the state is then [Initialized]; the
    other cases cannot be expressed in Rust. *)
Definition fbs_ext (s : fbs) (i : I) : sres fbs err unit :=
  match s with
  | FInit b =>
    match ff_ext _ _ _ F b i with
    | (b', None) => (FInit b', Ok tt)
    | (b', Some e) => (FInit b', Err (TEFanBuilder e))
    end
  | s => (s, Crash Panic)
  end.

(** What the caller of [triangulate] observes: the returned [Result] and its storage, or a crash. *)
Inductive outcome := Returned (r : Out + err) (m : M) | Crashed (c : crash).

(** [FanBuilderState::complete] (src/fan_builder_state.rs 41-66); [dbg]: debug assertions compiled in. *)
Definition fbs_complete (dbg : bool) (s : fbs) (r : res err unit) : outcome :=
  match s, r with
  | _, Crash c => Crashed c
  | FInit b, Ok _ =>
    match ff_build _ _ _ F b with
    | (inl o, m) => Returned (inl o) m
    | (inr e, m) => Returned (inr (TEFanBuilder e)) m
    end
  | FUninit, Err e => Returned (inr e) (ff_dropped _ _ _ F)
  | FUninit, Ok _ => Returned (inr TENoVertices) (ff_dropped _ _ _ F)
  | FErrNone m, Err e => Returned (inr e) m
  | FInit b, Err e => Returned (inr e) (ff_fail _ _ _ F b e)
  | FErrSome b, Err e => Returned (inr e) (ff_fail _ _ _ F b e)
  | FErrNone m, Ok _ => if dbg then Crashed Panic else Returned (inr (TEInternal IE_Unknown)) m
  | FErrSome b, Ok _ =>
    if dbg then Crashed Panic
    else Returned (inr (TEInternal IE_Unknown)) (ff_fail _ _ _ F b (TEInternal IE_Unknown))
  end.

(** [Trapezoidation::triangulate] (src/trapezoidation.rs 884-889). *)
Definition trap_triangulate (gv : I -> coords C) (dbg : bool) (fuel : nat) (st : state C I) : outcome :=
  let (s, r) := triangulate_inner gv fbs_new fbs_ext (ff_cw _ _ _ F) fuel st FUninit in
  fbs_complete dbg s r.

(** [PolygonList::triangulate] (src/inputs/polygon_list.rs 177-179). *)
Definition triangulate (ieqb : I -> I -> bool) (gv : I -> coords C) (dbg : bool) (fuel : nat)
  (math_n : nat -> nat -> nat) (shuf : nat -> nat -> list nat) (elems : list (element I)) : outcome :=
  match trapezoidize ieqb gv dbg fuel math_n shuf elems with
  | Ok st => trap_triangulate gv dbg fuel st
  | Err e => Returned (inr (TETrapezoidation e)) (ff_dropped _ _ _ F)
  | Crash c => Crashed c
  end.

End Builder.
End Tri.

Arguments fan_format I E Out M : clear implicits.
Arguments ff_B {I E Out M} f.
Arguments ff_cw {I E Out M} f.
Arguments ff_dropped {I E Out M} f.
Arguments ff_init {I E Out M} f.
Arguments ff_new {I E Out M} f.
Arguments ff_ext {I E Out M} f.
Arguments ff_build {I E Out M} f.
Arguments ff_fail {I E Out M} f.
Arguments outcome E Out M : clear implicits.
Arguments Returned {E Out M} r m.
Arguments Crashed {E Out M} c.
Arguments FUninit {I E Out M F}.
Arguments FInit {I E Out M F} b.
Arguments FErrNone {I E Out M F} m.
Arguments FErrSome {I E Out M F} b.
