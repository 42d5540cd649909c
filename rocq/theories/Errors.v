(** The error types as a caller sees them: [Display] and [source] (src/errors.rs).  Texts are byte strings; the message of
    an internal error and the text of its backtrace are arguments. *)
From Coq Require Import List String Ascii Arith Decimal DecimalString.
From Verif Require Import Base Tri.
Import ListNotations.

(** [InternalError] (src/errors.rs 26-30): the message, and what [{:?}] prints for the backtrace. *)
Record internal_error := mkInternal { ie_msg : string; ie_trace : string }.

Definition newline : string := String (ascii_of_nat 10) EmptyString.

(** [Display for InternalError] (src/errors.rs 43-47). *)
Definition display_internal (e : internal_error) : string := (ie_msg e ++ newline ++ ie_trace e)%string.

(** [Display] of a [usize]. *)
Definition display_nat (n : nat) : string := NilZero.string_of_uint (Nat.to_uint n).

Section Errors.
(** What an internal error site of the model ([ierr]) puts into the value (message with its arguments, backtrace). *)
Variable fill : ierr -> internal_error.

(** [Display for TrapezoidationError] (src/errors.rs 17-24). *)
Definition display_trap (e : trap_error) : string :=
  match e with
  | NotEnoughVertices n => ("Polygon only contains " ++ display_nat n ++ " vertices")%string
  | TrapInternal e => display_internal (fill e)
  end.

(** [&dyn Error]: the text and the source of an error. *)
Inductive dyn := Dyn (text : string) (source : option dyn).

(** The error type of a builder: its [Display] and its [source]. *)
Context {E : Type}.
Variable e_display : E -> string.
Variable e_source : E -> option dyn.

(** [InternalError] and [TrapezoidationError] as [dyn Error]: [source] is the default, [None] (src/errors.rs 15, 49). *)
Definition dyn_internal (e : internal_error) : dyn := Dyn (display_internal e) None.
Definition dyn_trap (e : trap_error) : dyn := Dyn (display_trap e) None.
Definition dyn_builder (e : E) : dyn := Dyn (e_display e) (e_source e).

(** [Display for TriangulationError] (src/errors.rs 84-95; without the [_debugging] variant). *)
Definition display (e : tri_error E) : string :=
  match e with
  | TETrapezoidation e => display_trap e
  | TENoVertices => "Polygon set contains no vertices"
  | TEInternal e => display_internal (fill e)
  | TEFanBuilder e => e_display e
  end.

(** [source] of [TriangulationError] (src/errors.rs 97-107). *)
Definition source (e : tri_error E) : option dyn :=
  match e with
  | TEInternal e => Some (dyn_internal (fill e))
  | TEFanBuilder e => e_source e
  | _ => None
  end.

Definition dyn_tri (e : tri_error E) : dyn := Dyn (display e) (source e).
End Errors.
