(** Input collections.  Models the [Polygon] and [PolygonList] implementations of [src/inputs/polygon_list.rs]. *)
From Coq Require Import List Arith Bool.
From Verif Require Import Base Coord Trap.
Import ListNotations.
Local Open Scope res_scope.

(** ** Nested vectors *)

(** [VecVecIter::next] (src/inputs/polygon_list.rs 239-257) on the vertex counts of the inner vectors; the state is
    [(outer_index, inner_index)]. *)
Definition vv_next (counts : list nat) (st : nat * nat) : option (element (nat * nat) * (nat * nat)) :=
  let (o, i) := st in
  match nth_error counts o with
  | Some n => Some (if Nat.ltb i n then (Continue (o, i), (o, i + 1)) else (NewPolygon, (o + 1, 0)))
  | None => None
  end.

(** A [for] loop over the iterator, [fuel] steps at most. *)
Fixpoint vv_collect (fuel : nat) (counts : list nat) (st : nat * nat) : res Empty_set (list (element (nat * nat))) :=
  match fuel with
  | 0 => Crash Fuel
  | S fuel =>
    match vv_next counts st with
    | None => Ok []
    | Some (e, st) => do l <- vv_collect fuel counts st; Ok (e :: l)
    end
  end.

(** [iter_indices] of nested vectors (src/inputs/polygon_list.rs 290-293). *)
Definition vv_elems {V} (fuel : nat) (p : list (list V)) : res Empty_set (list (element (nat * nat))) :=
  vv_collect fuel (map (@length V) p) (0, 0).

(** [get_vertex] of nested vectors (src/inputs/polygon_list.rs 295-299, 274-276): [None] is an out-of-range panic. *)
Definition vv_get {V} (p : list (list V)) (ij : nat * nat) : option V :=
  match nth_error p (fst ij) with
  | Some l => nth_error l (snd ij)
  | None => None
  end.

(** ** A single polygon *)

(** [iter_indices] of one vector seen as a list of polygons (src/inputs/polygon_list.rs 45-65, 259-277). *)
Definition sp_elems {V} (p : list V) : list (element nat) := map (@Continue nat) (seq 0 (length p)).

(** ** [IndexWith] *)

(** [IndexWithIter] (src/inputs/polygon_list.rs 322-339); [None] from [conv] is a failed [try_into], which panics
    (302-304, 332). *)
Fixpoint iw_elems {I J} (conv : I -> option J) (l : list (element I)) : res Empty_set (list (element J)) :=
  match l with
  | [] => Ok []
  | Continue i :: l =>
    match conv i with
    | Some j => do l <- iw_elems conv l; Ok (Continue j :: l)
    | None => Crash Panic
    end
  | NewPolygon :: l => do l <- iw_elems conv l; Ok (NewPolygon :: l)
  end.

(** [IndexWith::get_vertex] (src/inputs/polygon_list.rs 370-373). *)
Definition iw_get {I J V} (unconv : J -> option I) (get : I -> option V) (j : J) : option V :=
  match unconv j with Some i => get i | None => None end.
