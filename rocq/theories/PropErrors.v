(** What an error shows to a caller: property C64. *)
From Coq Require Import QArith List String Ascii Arith Decimal DecimalString DecimalNat DecimalFacts Permutation.
From Verif Require Import Base Coord Trap Mono Tri Format Builders Runs PropCross Errors PropFaults.
Import ListNotations.
Local Open Scope nat_scope.

(** What a reporter prints that walks along the causes: the text of every error on the way. *)
Fixpoint report (d : dyn) : list string := match d with Dyn t s => t :: match s with Some d => report d | None => [] end end.

Lemma append_cancel a : forall b c, (a ++ b = a ++ c)%string -> b = c.
Proof. induction a as [|x a IH]; intros b c H; cbn in H; [exact H|]. injection H as H. now apply IH. Qed.
Lemma append_length a : forall b, String.length (a ++ b) = String.length a + String.length b.
Proof. induction a as [|x a IH]; intros b; cbn; auto. Qed.
Lemma append_cancel_r a : forall b c, (b ++ a = c ++ a)%string -> b = c.
Proof.
  intros b. induction b as [|x b IH]; intros [|y c] H; cbn in H; auto.
  - exfalso. apply (f_equal String.length) in H. cbn in H. rewrite append_length in H. apply (Nat.lt_irrefl (String.length a)). rewrite H at 2. apply Nat.lt_succ_r. apply Nat.le_add_l.
  - exfalso. apply (f_equal String.length) in H. cbn in H. rewrite append_length in H. apply (Nat.lt_irrefl (String.length a)). rewrite <- H at 2. apply Nat.lt_succ_r. apply Nat.le_add_l.
  - injection H as -> H. f_equal. now apply IH.
Qed.

Lemma to_uint_digits n : Nat.to_uint n <> Nil.
Proof. intros H. pose proof (DecimalNat.Unsigned.of_to n) as E. rewrite H in E. cbn in E. subst n. discriminate H. Qed.

Section Props.
Context {E : Type}.
Variables (fill : ierr -> internal_error) (e_display : E -> string) (e_source : E -> option dyn).
Notation display := (display fill e_display).
Notation dyn_tri := (dyn_tri fill e_display e_source).
Notation source := (source fill e_source).

(** C64: the number of vertices can be read off the text. *)
Theorem C64_count n m : display (TETrapezoidation (NotEnoughVertices n)) = display (TETrapezoidation (NotEnoughVertices m)) -> n = m.
Proof.
  cbn [Errors.display display_trap]. intros H. apply append_cancel, append_cancel_r in H. unfold display_nat in H.
  apply (f_equal NilZero.uint_of_string) in H. rewrite !NilZero.usu in H by apply to_uint_digits.
  injection H as H. now apply DecimalNat.Unsigned.to_uint_inj.
Qed.

(** C64: the texts of the documented errors of this crate are different. *)
Theorem C64_no_vertices n : display TENoVertices <> display (TETrapezoidation (NotEnoughVertices n)).
Proof. cbn. intros H. discriminate H. Qed.

(** C64: an internal error of either phase shows its message, first and followed by a new line. *)
Theorem C64_message e x : e = TETrapezoidation (TrapInternal x) \/ e = TEInternal x -> exists rest, display e = (ie_msg (fill x) ++ newline ++ rest)%string.
Proof. intros [-> | ->]; exists (ie_trace (fill x)); reflexivity. Qed.

(** C64: wrapping an error of the builder, or one of the trapezoidation, does not change what is reported. *)
Theorem C64_builder e : report (dyn_tri (TEFanBuilder e)) = report (dyn_builder e_display e_source e).
Proof. reflexivity. Qed.
Theorem C64_trapezoidation e : report (dyn_tri (TETrapezoidation e)) = report (dyn_trap fill e).
Proof. reflexivity. Qed.

(** C64: that does not hold of an internal error of the triangulation phase: its text is reported twice. *)
Theorem C64_internal_twice x : report (dyn_internal (fill x)) = [display (TEInternal x)] /\ report (dyn_tri (TEInternal x)) = [display (TEInternal x); display (TEInternal x)].
Proof. split; reflexivity. Qed.

(** C64: what a call can show if it refuses a polygon for its size. *)
Theorem C64_call {C} {OC : CoordOps C} {I Out M} (F : fan_format I E Out M) ieqb (gv : I -> coords C) dbg fuel math_n shuf elems n m :
  (forall k n, Permutation (shuf k n) (seq 0 n)) ->
  triangulate F ieqb gv dbg fuel math_n shuf elems = Returned (inr (TETrapezoidation (NotEnoughVertices n))) m ->
  display (TETrapezoidation (NotEnoughVertices n)) = "Polygon only contains 1 vertices"%string \/ display (TETrapezoidation (NotEnoughVertices n)) = "Polygon only contains 2 vertices"%string.
Proof.
  intros Hs H. apply (C63_triangulate ieqb gv math_n shuf Hs elems) in H. cbn [In] in H. destruct H as ([H|[H|[H|[H|[H|[H|[]]]]]]] & _); try discriminate H; injection H as <-; [left|right]; reflexivity.
Qed.
End Props.

(** C64: an internal error can be found among the causes or not, depending on the phase that reports it: both kinds occur. *)
Theorem C64_source_refuted : exists (l l' : list (coords Q)) order order' x x',
  let call l order := triangulate (fan_to_list (indexed_list (vec_triples nat) [])) Nat.eqb (gv_of l) false 100 math_real (by_order order) (elems_of l) in
  (forall k n, Permutation (by_order order k n) (seq 0 n)) /\ (forall k n, Permutation (by_order order' k n) (seq 0 n)) /\
  call l order = Returned (inr (TEInternal x)) [] /\ call l' order' = Returned (inr (TETrapezoidation (TrapInternal x'))) [] /\
  forall fill (e_source : Empty_set -> option dyn), source fill e_source (TEInternal x) = Some (dyn_internal (fill x)) /\ source fill e_source (TETrapezoidation (TrapInternal x')) = None.
Proof.
  exists [pt 2 0; pt 2 0; pt 2 1], [pt 1 2; pt 0 1; pt 1 2], [2; 0; 1], [0; 2; 1], IE_Inner, IE_MinNotFound. cbv zeta.
  split; [apply by_order_perm; vm_compute; reflexivity|]. split; [apply by_order_perm; vm_compute; reflexivity|].
  split; [vm_compute; reflexivity|]. split; [vm_compute; reflexivity|]. intros. split; reflexivity.
Qed.

(** Concrete texts. *)
Example C64_case :
  display (fun _ => mkInternal "msg" "trace") (fun e : Empty_set => match e with end) (TETrapezoidation (NotEnoughVertices 120)) = "Polygon only contains 120 vertices"%string /\
  triangulate (fan_to_list (indexed_list (vec_triples nat) [])) Nat.eqb (gv_of [pt 0 0; pt 1 1]) false 100 math_real in_order (elems_of [pt 0 0; pt 1 1]) = Returned (inr (TETrapezoidation (NotEnoughVertices 2))) [].
Proof. split; vm_compute; reflexivity. Qed.

Print Assumptions C64_count.
Print Assumptions C64_no_vertices.
Print Assumptions C64_message.
Print Assumptions C64_builder.
Print Assumptions C64_trapezoidation.
Print Assumptions C64_internal_twice.
Print Assumptions C64_call.
Print Assumptions C64_source_refuted.
