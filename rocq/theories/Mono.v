(** Cutting monotone pieces into triangle fans.  Models [src/monotone.rs].

    The functions are generic in the receiver of the fan calls: a state type [S] with [newf] (start a fan with a
    triangle) and [ext] (extend the current fan), as the Rust code is generic in [FB: FanFormat].  [Tri.v]
    instantiates them with the builder state machine. *)
From Coq Require Import List Arith Bool.
From Verif Require Import Base Coord.
Import ListNotations.
Local Open Scope res_scope.

(** Computations that change a receiver state even when they fail. *)
Definition sres (S E A : Type) : Type := (S * res E A)%type.

Definition sbind {S E A B} (r : sres S E A) (f : S -> A -> sres S E B) : sres S E B :=
  match snd r with
  | Ok a => f (fst r) a
  | Err e => (fst r, Err e)
  | Crash c => (fst r, Crash c)
  end.

Declare Scope sres_scope.
Delimit Scope sres_scope with sres.
Notation "'sdo' s , x <- a ; b" := (sbind a (fun s x => b))
  (at level 200, s name, x name, a at level 100, b at level 200) : sres_scope.
Notation "'sdo' s , ' p <- a ; b" := (sbind a (fun s p => b))
  (at level 200, s name, p pattern, a at level 100, b at level 200) : sres_scope.

Section Mono.
Context {C : Type} {OC : CoordOps C} {I : Type}.

(** [MonotoneBuilder] (src/monotone.rs 8-12). *)
Record mbuilder := mkMB { mb_vec : list (I * coords C); mb_dx : bool; mb_dy : bool }.

(** [MonotoneBuilder::new] (src/monotone.rs 15-21). *)
Definition mb_new (vi : I) (c : coords C) : mbuilder := mkMB [(vi, c)] false false.

(** [MonotoneBuilder::add_vertex] (src/monotone.rs 23-32). *)
Definition mb_add {E} (b : mbuilder) (vi : I) (c : coords C) : res E mbuilder :=
  do v0 <- rd (mb_vec b) 0;
  Ok (mkMB (mb_vec b ++ [(vi, c)])
           (if negb (mb_dx b) && negb (c_eqb (cx c) (cx (snd v0))) then true else mb_dx b)
           (if negb (mb_dy b) && negb (c_eqb (cy c) (cy (snd v0))) then true else mb_dy b)).

(** [Monotone] (src/monotone.rs 48-55): skipped stack [0, skipped_top), pending stack [pending_top, len). *)
Record mono := mkMono { m_a : list (I * coords C); m_st : nat; m_pt : nat; m_left : bool }.

(** [MonotoneBuilder::build] (src/monotone.rs 34-45) and [Monotone::new] (78-85). *)
Definition mb_build (b : mbuilder) : res ierr (option mono) :=
  let v := mb_vec b in
  if Nat.ltb (length v) 3 then Err (IE_MonotoneShort (length v))
  else if mb_dx b && mb_dy b then
    do vl <- rd v (length v - 1);
    do v0 <- rd v 0;
    do v1 <- rd v 1;
    Ok (Some (mkMono v 2 2 (is_left (snd vl) (snd v0) (snd v1))))
  else Ok None.

Section Fans.
Context {S E : Type}.                            (* receiver state, builder error *)
Variable newf : S -> I -> I -> I -> sres S (tri_error E) unit.   (* FanBuilderState::new_fan *)
Variable ext : S -> I -> sres S (tri_error E) unit.              (* FanBuilder::extend_fan on the returned builder *)
Variable cw : bool.                              (* FB::Builder::WINDING == Clockwise *)
Variable fuel : nat.

Notation err := (tri_error E).

(** [skipped_peek] (src/monotone.rs 179-181); subtraction underflow panics. *)
Definition skipped_peek (m : mono) : res err (I * coords C) :=
  if Nat.ltb (m_st m) 1 then Crash Panic else rd (m_a m) (m_st m - 1).

(** [skipped_peek2] (src/monotone.rs 184-186). *)
Definition skipped_peek2 (m : mono) : res err ((I * coords C) * (I * coords C)) :=
  if Nat.ltb (m_st m) 2 then Crash Panic
  else
    do a <- rd (m_a m) (m_st m - 2);
    do b <- rd (m_a m) (m_st m - 1);
    Ok (a, b).

(** [skipped_pop] (src/monotone.rs 189-192). *)
Definition skipped_pop (m : mono) : res err (mono * (I * coords C)) :=
  if Nat.ltb (m_st m) 1 then Crash Panic
  else
    do a <- rd (m_a m) (m_st m - 1);
    Ok (mkMono (m_a m) (m_st m - 1) (m_pt m) (m_left m), a).

(** [pending_peek] (src/monotone.rs 195-197). *)
Definition pending_peek (m : mono) : res err (I * coords C) := rd (m_a m) (m_pt m).

(** [remaining_vertices] (src/monotone.rs 199-201, 170). *)
Definition remaining (m : mono) : res err nat :=
  if Nat.ltb (length (m_a m)) (m_pt m) then Crash Panic
  else Ok (length (m_a m) - m_pt m + m_st m).

(** [slice::swap]. *)
Definition swap (l : list (I * coords C)) (i j : nat) : res err (list (I * coords C)) :=
  do a <- rd l i;
  do b <- rd l j;
  Ok (upd (upd l i b) j a).

(** [transfer_pending] (src/monotone.rs 203-209). *)
Definition transfer_pending (m : mono) : res err mono :=
  do a <- (if negb (Nat.eqb (m_st m) (m_pt m)) then swap (m_a m) (m_st m) (m_pt m) else Ok (m_a m));
  Ok (mkMono a (m_st m + 1) (m_pt m + 1) (m_left m)).

(** [reset_position] (src/monotone.rs 211-215). *)
Definition reset_position (m : mono) : mono := mkMono (firstn (m_st m) (m_a m)) 2 2 (m_left m).

(** [has_pending] (src/monotone.rs 217). *)
Definition has_pending (m : mono) : bool := Nat.ltb (m_pt m) (length (m_a m)).

(** [deferred_index] (src/monotone.rs 219-226). *)
Definition deferred_index (m : mono) (back : bool) (i : nat) : res err I :=
  if back then do v <- rd (m_a m) (m_st m + i); Ok (fst v)
  else if Nat.ltb (m_pt m) (1 + i) then Crash Panic
  else do v <- rd (m_a m) (m_pt m - 1 - i); Ok (fst v).

(** [can_triangulate] (src/monotone.rs 228-235). *)
Definition can_triangulate (m : mono) : res err bool :=
  if Nat.leb 2 (m_st m) && has_pending m then
    do p <- pending_peek m;
    do '(a, b) <- skipped_peek2 m;
    Ok (Bool.eqb (m_left m) (is_left (snd p) (snd a) (snd b)))
  else Ok false.

(** [BuilderOrDeferredTris::add_triangle] (src/monotone.rs 93-99): [direct] is the [Builder] case; otherwise the
    deferred triangle is counted in [dt]. *)
Definition add_triangle (direct : bool) (dt : nat) (s : S) (vi : I) : sres S err nat :=
  if direct then
    match ext s vi with
    | (s', Ok _) => (s', Ok dt)
    | (s', Err e) => (s', Err e)
    | (s', Crash c) => (s', Crash c)
    end
  else (s, Ok (dt + 1)).

Local Open Scope sres_scope.

Definition lift {A} (s : S) (r : res err A) : sres S err A := (s, r).

(** Backtracking loop (src/monotone.rs 130-133). *)
Fixpoint back_loop (k : nat) (m : mono) (direct : bool) (dt : nat) (s : S) : sres S err (mono * nat) :=
  match k with
  | 0 => (s, Crash Fuel)
  | Datatypes.S k =>
    sdo s, b <- lift s (can_triangulate m);
    if b : bool then
      sdo s, '(m, _) <- lift s (skipped_pop m);
      sdo s, v <- lift s (skipped_peek m);
      sdo s, dt <- add_triangle direct dt s (fst v);
      back_loop k m direct dt s
    else (s, Ok (m, dt))
  end.

(** Advancing loop (src/monotone.rs 136-141). *)
Fixpoint advance_loop (k : nat) (m : mono) (direct : bool) (dt : nat) (s : S) : sres S err (mono * nat) :=
  match k with
  | 0 => (s, Crash Fuel)
  | Datatypes.S k =>
    sdo s, b <- lift s (can_triangulate m);
    if b : bool then
      sdo s, '(m, _) <- lift s (skipped_pop m);
      sdo s, v <- lift s (pending_peek m);
      sdo s, dt <- add_triangle direct dt s (fst v);
      sdo s, m <- lift s (transfer_pending m);
      advance_loop k m direct dt s
    else (s, Ok (m, dt))
  end.

(** The deferred [extend_fan] calls [for i in 1..dt] (src/monotone.rs 153-157). *)
Fixpoint deferred_loop (m : mono) (back : bool) (i n : nat) (s : S) : sres S err unit :=
  match n with
  | 0 => (s, Ok tt)
  | Datatypes.S n =>
    sdo s, vi <- lift s (deferred_index m back i);
    sdo s, _ <- ext s vi;
    deferred_loop m back (i + 1) n s
  end.

(** One fan: body of [if self.can_triangulate()] (src/monotone.rs 104-158). *)
Definition one_fan (m : mono) (s : S) : sres S err mono :=
  sdo s, '(m, v1) <- lift s (skipped_pop m);
  sdo s, v0 <- lift s (skipped_peek m);
  sdo s, v2 <- lift s (pending_peek m);
  sdo s, back <- lift s (can_triangulate m);
  let direct := xorb (xorb back (m_left m)) cw in
  sdo s, dt <-
    (if direct then
       let (vi0, vi2) := if negb (m_left m) then (fst v2, fst v0) else (fst v0, fst v2) in
       match newf s vi0 (fst v1) vi2 with
       | (s', Ok _) => (s', Ok 0)
       | (s', Err e) => (s', Err e)
       | (s', Crash c) => (s', Crash c)
       end
     else (s, Ok 1));
  sdo s, '(m, dt) <-
    (if back : bool then
       sdo s, '(m, _) <- lift s (skipped_pop m);
       sdo s, v <- lift s (skipped_peek m);
       sdo s, dt <- add_triangle direct dt s (fst v);
       back_loop fuel m direct dt s
     else
       sdo s, m <- lift s (transfer_pending m);
       advance_loop fuel m direct dt s);
  if direct then (s, Ok m)
  else
    sdo s, '(vi0, vi1, vi2) <-
      (if back : bool then
         sdo s, a <- lift s (pending_peek m);
         sdo s, b <- lift s (skipped_peek m);
         sdo s, c <- lift s (deferred_index m back 0);
         (s, Ok (fst a, fst b, c))
       else
         sdo s, '(a, b) <- lift s (skipped_peek2 m);
         sdo s, c <- lift s (deferred_index m back 0);
         (s, Ok (fst a, fst b, c)));
    sdo s, _ <- newf s vi0 vi1 vi2;
    sdo s, _ <- deferred_loop m back 1 (dt - 1) s;
    (s, Ok m).

(** [Monotone::build_fans] (src/monotone.rs 87-176). *)
Fixpoint build_fans (k : nat) (m : mono) (s : S) : sres S err unit :=
  match k with
  | 0 => (s, Crash Fuel)
  | Datatypes.S k =>
    sdo s, r <- lift s (remaining m);
    if Nat.leb 3 r then
      sdo s, b <- lift s (can_triangulate m);
      sdo s, m <- (if b : bool then one_fan m s else (s, Ok m));
      if has_pending m then
        sdo s, m <- lift s (transfer_pending m);
        build_fans k m s
      else build_fans k (reset_position m) s
    else if Nat.eqb r 2 then (s, Ok tt)
    else (s, Err (TEInternal (IE_Remaining r)))
  end.

End Fans.
End Mono.

Arguments mbuilder C I : clear implicits.
Arguments mono C I : clear implicits.
