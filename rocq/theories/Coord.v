(** Coordinates, vertex order and the side test.  Models [src/math.rs] and [src/inputs/vertex.rs]. *)
From Coq Require Import QArith List Bool.
From Verif Require Import Base.

(** The operations of [num_traits::real::Real] the library uses.  No laws are assumed: a float type with NaN is an
    instance. *)
Class CoordOps (C : Type) := {
  c_pcmp : C -> C -> option comparison;  (* partial_cmp *)
  c_eqb : C -> C -> bool;                (* == *)
  c_ltb : C -> C -> bool;                (* < *)
  c_sub : C -> C -> C;
  c_mul : C -> C -> C;
  c_zero : C
}.

(** [Coords<C>] (src/inputs/vertex.rs 22-29): [(x, y)]. *)
Definition coords (C : Type) : Type := (C * C)%type.
Definition cx {C} (c : coords C) : C := fst c.
Definition cy {C} (c : coords C) : C := snd c.

Section Coord.
Context {C : Type} {OC : CoordOps C}.

(** [Coords::zero] (src/inputs/vertex.rs 28). *)
Definition coords_zero : coords C := (c_zero, c_zero).

(** [PartialOrd for Coords] (src/inputs/vertex.rs 54-64). *)
Definition coords_pcmp (a b : coords C) : option comparison :=
  match c_pcmp (cy a) (cy b) with
  | Some Eq => c_pcmp (cx a) (cx b)
  | o => o
  end.

(** [<], [<=], [>] on [Coords], derived from [partial_cmp] (std default methods). *)
Definition coords_lt (a b : coords C) : bool :=
  match coords_pcmp a b with Some Lt => true | _ => false end.
Definition coords_le (a b : coords C) : bool :=
  match coords_pcmp a b with Some Lt | Some Eq => true | _ => false end.
Definition coords_gt (a b : coords C) : bool :=
  match coords_pcmp a b with Some Gt => true | _ => false end.

(** [is_left_of_line] (src/math.rs 5-13). *)
Definition is_left (c_min c_max c : coords C) : bool :=
  if c_eqb (cy c) (cy c_max) then c_ltb (cx c) (cx c_max)
  else if c_eqb (cy c) (cy c_min) then c_ltb (cx c) (cx c_min)
  else c_ltb (c_mul (c_sub (cx c_min) (cx c_max)) (c_sub (cy c) (cy c_max)))
             (c_mul (c_sub (cy c_min) (cy c_max)) (c_sub (cx c) (cx c_max))).

End Coord.

(** Exact rational coordinates. *)
Definition Qltb (a b : Q) : bool := negb (Qle_bool b a).

#[global] Instance QOps : CoordOps Q := {
  c_pcmp a b := Some (Qcompare a b);
  c_eqb := Qeq_bool;
  c_ltb := Qltb;
  c_sub := Qminus;
  c_mul := Qmult;
  c_zero := 0%Q
}.
