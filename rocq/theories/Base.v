(** Outcomes of modelled functions and vector access.  Models [src/idx.rs] and [src/errors.rs]. *)
From Coq Require Import List Arith Lia Bool.
Import ListNotations.

(** The ways a Rust call can end without returning a [Result]:
    [Panic] - a checked index out of range, an arithmetic overflow check, a debug assertion;
    [Ub] - a read through an unchecked index out of range (undefined behaviour);
    [Fuel] - the model's step budget ran out (not an outcome of the Rust code). *)
Inductive crash := Panic | Ub | Fuel.

(** Outcome of a fallible Rust function with error type [E]. *)
Inductive res (E A : Type) : Type :=
| Ok (a : A)
| Err (e : E)
| Crash (c : crash).
Arguments Ok {E A} a.
Arguments Err {E A} e.
Arguments Crash {E A} c.

(** The [?] operator. *)
Definition bind {E A B} (r : res E A) (f : A -> res E B) : res E B :=
  match r with
  | Ok a => f a
  | Err e => Err e
  | Crash c => Crash c
  end.

(** [Result::map_err]. *)
Definition map_err {E F A} (f : E -> F) (r : res E A) : res F A :=
  match r with
  | Ok a => Ok a
  | Err e => Err (f e)
  | Crash c => Crash c
  end.

(** [Option::ok_or_else] (used at each internal error site). *)
Definition ok_or {E A} (o : option A) (e : E) : res E A :=
  match o with
  | Some a => Ok a
  | None => Err e
  end.

Declare Scope res_scope.
Delimit Scope res_scope with res.
Notation "'do' x <- a ; b" := (bind a (fun x => b))
  (at level 200, x name, a at level 100, b at level 200) : res_scope.
Notation "'do' ' p <- a ; b" := (bind a (fun p => b))
  (at level 200, p pattern, a at level 100, b at level 200) : res_scope.

(** Unchecked read: [Index<Idx<T>> for Vec<T>] (src/idx.rs 162-171, [get_unchecked]) and
    [find_trapezoid_from_root] (src/trapezoidation.rs 34). *)
Definition rdu {E A} (l : list A) (i : nat) : res E A :=
  match nth_error l i with
  | Some a => Ok a
  | None => Crash Ub
  end.

(** Checked read: [Index<Idx<T>> for [T]] (src/idx.rs 179-185), plain slice indexing. *)
Definition rd {E A} (l : list A) (i : nat) : res E A :=
  match nth_error l i with
  | Some a => Ok a
  | None => Crash Panic
  end.

(** Write at an index (no effect out of range; callers check the range first). *)
Fixpoint upd {A} (l : list A) (i : nat) (x : A) : list A :=
  match l, i with
  | [], _ => []
  | _ :: l, 0 => x :: l
  | a :: l, S i => a :: upd l i x
  end.

(** Checked mutable access: [IndexMut<Idx<T>>] for [Vec<T>] and [[T]] (src/idx.rs 173-177, 187-191),
    applying [f] to the element. *)
Definition modify {E A} (l : list A) (i : nat) (f : A -> res E A) : res E (list A) :=
  match nth_error l i with
  | Some a => match f a with Ok b => Ok (upd l i b) | Err e => Err e | Crash c => Crash c end
  | None => Crash Panic
  end.

(** [InternalError::new] sites; one constructor per message (src/errors.rs 27-41). *)
Inductive ierr :=
| IE_NotConnected            (* nexus.rs 137 *)
| IE_TwoSegments             (* nexus.rs 181 *)
| IE_SegDirection            (* nexus.rs 193 *)
| IE_SegNexus                (* nexus.rs 229 *)
| IE_TwoDividers             (* nexus.rs 287 *)
| IE_FinalType               (* nexus.rs 128 *)
| IE_MinNotFound             (* trapezoidation.rs 496, 509 *)
| IE_NoMatchingSide          (* trapezoidation.rs 543 *)
| IE_ContainingNotFound      (* trapezoidation.rs 420 *)
| IE_TopX                    (* trapezoidation.rs 675 *)
| IE_Inner                   (* trapezoidation.rs 694 *)
| IE_SingleMonotone          (* trapezoidation.rs 788, 804 *)
| IE_EmptyStack              (* trapezoidation.rs 803, 816 *)
| IE_InvalidTrapezoidation   (* trapezoidation.rs 807 *)
| IE_InvalidI                (* trapezoidation.rs 828 *)
| IE_TopOfSegment            (* trapezoidation.rs 848 *)
| IE_MonotoneStack           (* trapezoidation.rs 871 *)
| IE_BranchStack             (* trapezoidation.rs 873 *)
| IE_PartialMonotones        (* trapezoidation.rs 875 *)
| IE_MonotoneShort (n : nat) (* monotone.rs 36 *)
| IE_Remaining (n : nat)     (* monotone.rs 174 *)
| IE_Msg                     (* fan_builder_state.rs 19, 37 *)
| IE_Unknown.                (* fan_builder_state.rs 58 *)

(** [TrapezoidationError] (src/errors.rs 8-13). *)
Inductive trap_error :=
| NotEnoughVertices (n : nat)
| TrapInternal (e : ierr).

(** [TriangulationError] (src/errors.rs 54-66). *)
Inductive tri_error (E : Type) :=
| TETrapezoidation (e : trap_error)
| TENoVertices
| TEInternal (e : ierr)
| TEFanBuilder (e : E).
Arguments TETrapezoidation {E} e.
Arguments TENoVertices {E}.
Arguments TEInternal {E} e.
Arguments TEFanBuilder {E} e.

(** [zot::Zot] and [zot::Ot]: zero, one or two values; one or two values. *)
Inductive zot (A : Type) := Zero | One (a : A) | Two (a b : A).
Arguments Zero {A}.
Arguments One {A} a.
Arguments Two {A} a b.

Inductive ot (A : Type) := OOne (a : A) | OTwo (a b : A).
Arguments OOne {A} a.
Arguments OTwo {A} a b.

(** ** Elementary facts about vector access *)

Lemma upd_length A (l : list A) i x : length (upd l i x) = length l.
Proof. revert i; induction l; intros [|i]; simpl; auto. Qed.

Lemma nth_upd_eq A (l : list A) i x : i < length l -> nth_error (upd l i x) i = Some x.
Proof.
  revert i; induction l as [|a l IH]; intros [|i] Hi; simpl in *; try lia; auto.
  apply IH; lia.
Qed.

Lemma nth_upd_ne A (l : list A) i j x : i <> j -> nth_error (upd l i x) j = nth_error l j.
Proof.
  revert i j; induction l as [|a l IH]; intros [|i] [|j] Hij; simpl; auto; try congruence.
Qed.

Lemma nth_upd A (l : list A) i j x :
  nth_error (upd l i x) j =
  if Nat.eqb i j then (match nth_error l j with Some _ => Some x | None => None end) else nth_error l j.
Proof.
  destruct (Nat.eqb_spec i j) as [->|Hne].
  - destruct (nth_error l j) eqn:E.
    + apply nth_upd_eq. apply nth_error_Some. congruence.
    + apply nth_error_None. rewrite upd_length. now apply nth_error_None.
  - now apply nth_upd_ne.
Qed.

Lemma nth_app_l A (l l' : list A) i a : nth_error l i = Some a -> nth_error (l ++ l') i = Some a.
Proof.
  intros Hn. rewrite nth_error_app1; auto. apply nth_error_Some. congruence.
Qed.

Lemma nth_snoc A (l : list A) x : nth_error (l ++ [x]) (length l) = Some x.
Proof. rewrite nth_error_app2 by lia. now rewrite Nat.sub_diag. Qed.

Lemma nth_lt A (l : list A) i a : nth_error l i = Some a -> i < length l.
Proof. intros Hn. apply nth_error_Some. congruence. Qed.

Lemma lt_nth A (l : list A) i : i < length l -> exists a, nth_error l i = Some a.
Proof.
  intros Hl. destruct (nth_error l i) eqn:E; eauto. apply nth_error_None in E. lia.
Qed.
