(** Which errors are reported: property C63. *)
From Coq Require Import QArith List Arith Bool Lia Permutation.
From Verif Require Import Base Coord Trap Mono Tri Trace Protocol Format Builders Runs Bounds Basic Faults FaultsTop FaultsPoly FaultsTri PropCross.
Import ListNotations.
Local Open Scope nat_scope.

(** A builder adds no internal error to those of the recorded run. *)
Lemma drive_reports {I E Out M} (F : fan_format I E Out M) l : forall b (r : res (tri_error E) unit) e m,
  drive F b l r = Returned (inr e) m -> r = Err e \/ exists x, e = TEFanBuilder x.
Proof.
  induction l as [|[i j k|v] l IH]; intros b r e m H; cbn [drive] in H.
  - destruct r as [[]|e'|c]; try discriminate; [|injection H; intros; subst; auto]. destruct (ff_build F b) as [[o|e'] m']; [discriminate|]. injection H. intros. subst. eauto.
  - destruct (ff_new F b i j k) as [b' [e'|]]; [injection H; intros; subst; eauto|eauto].
  - destruct (ff_ext F b v) as [b' [e'|]]; [injection H; intros; subst; eauto|eauto].
Qed.
Lemma obey_reports {I E Out M} (F : fan_format I E Out M) lr e m : obey F lr = Returned (inr e) m -> snd lr = Err e \/ e = TENoVertices \/ exists x, e = TEFanBuilder x.
Proof.
  unfold obey. destruct lr as [[|[i j k|v] l] r]; cbn [fst snd]; intros H.
  - destruct r as [[]|e'|c]; try discriminate; injection H; intros; subst; auto.
  - destruct (ff_init F i j k) as [b|[e' m']]; [|injection H; intros; subst; eauto]. destruct (drive_reports F l b r e m H) as [A|A]; auto.
  - destruct r as [[]|e'|c]; try discriminate; injection H; intros; subst; auto.
Qed.

Section Props.
Context {C : Type} {OC : CoordOps C} {I : Type}.
Variables (ieqb : I -> I -> bool) (gv : I -> coords C) (math_n : nat -> nat -> nat) (shuf : nat -> nat -> list nat).
Hypothesis Hshuf : forall k n, Permutation (shuf k n) (seq 0 n).
Variable elems : list (element I).
Notation trap dbg fuel := (trapezoidize ieqb gv dbg fuel math_n shuf elems).
Notation tri F dbg fuel := (triangulate F ieqb gv dbg fuel math_n shuf elems).

(** No index occurs twice and the comparison of indices is equality; the coordinates behind the indices are arbitrary. *)
Definition indexed : Prop :=
  (forall a b, ieqb a b = true <-> a = b) /\ NoDup (flat_map (fun e => match e with Continue i => [i] | NewPolygon => [] end) elems).

Lemma trap_fine dbg fuel : fine (trap_may (U := indexed)) (fun st => (exists l, full (U := indexed) (st_ns st) l) /\ crown st) (trap dbg fuel).
Proof. apply trapezoidize_fine; auto; intros (H1 & H2); [exact H1|exact H2]. Qed.

(** C63: whatever the coordinates and indices, the trapezoidation reports one of five errors. *)
Theorem C63_trapezoidize_any dbg fuel e : trap dbg fuel = Err e ->
  In e [NotEnoughVertices 1; NotEnoughVertices 2; TrapInternal IE_NotConnected; TrapInternal IE_MinNotFound; TrapInternal IE_NoMatchingSide; TrapInternal IE_SegNexus].
Proof.
  intros H. pose proof (trap_fine dbg fuel) as F. rewrite H in F. cbn [fine] in F.
  destruct e as [k|[]]; cbn in F; try contradiction; cbn; auto 10. assert (D : k = 1 \/ k = 2) by lia. destruct D; subst; auto.
Qed.

(** C63: the last of them only with a repeated index. *)
Theorem C63_trapezoidize dbg fuel e : indexed -> trap dbg fuel = Err e ->
  In e [NotEnoughVertices 1; NotEnoughVertices 2; TrapInternal IE_NotConnected; TrapInternal IE_MinNotFound; TrapInternal IE_NoMatchingSide].
Proof.
  intros U H. pose proof (trap_fine dbg fuel) as F. rewrite H in F. cbn [fine] in F. apply C63_trapezoidize_any in H. cbn in *. intuition (subst; auto 10).
Qed.

(** C63: in the trapezoidation of any input every vertex has exactly two edges, and the search for the topmost trapezoid
    finds one that has no vertex above it. *)
Theorem C63_complete dbg fuel st : trap dbg fuel = Ok st ->
  (forall i n, nth_error (st_ns st) i = Some n -> exists a b, n_div n = Two a b) /\
  (forall k, match top_trapezoid k (st_qs st) 0 with Ok t => exists y, nth_error (st_ts st) t = Some y /\ t_u y = None | Err _ => False | Crash c => c = Fuel end).
Proof.
  intros H. pose proof (trap_fine dbg fuel) as F. rewrite H in F. destruct F as ((l & F & _) & Hc). split.
  - intros i n Hn. assert (L : i < length (st_ns st)) by (apply nth_error_Some; congruence). destruct (F i L) as (D & _). unfold deg in D. rewrite Hn in D. destruct (n_div n); try discriminate. eauto.
  - destruct Hc as [_ (t & y & A & B & D) _]. intros k. revert A. generalize 0. induction k as [|k IH]; intros q A; cbn [top_trapezoid]; [reflexivity|].
    inversion A as [? Hq|? lq r c Hq Hr]; subst; unfold rd; rewrite Hq; cbn [bind]; [exists y; auto|now apply IH].
Qed.

Lemma api_reports E cw dbg fuel e : snd (api_calls E ieqb gv cw dbg fuel math_n shuf elems) = Err e -> (exists x, e = TETrapezoidation x /\ trap dbg fuel = Err x) \/ (exists x, e = TEInternal x /\ tri_may x).
Proof.
  intros H. unfold api_calls in H. pose proof (trapezoidize_safe (fun _ => True) ieqb gv dbg fuel math_n shuf elems (fun _ _ => Logic.I)) as Hs.
  pose proof (trap_fine dbg fuel) as F.
  destruct (trap dbg fuel) as [st|x|c]; cbn [snd safe fine] in *; [|injection H as <-; left; eauto|discriminate]. right.
  destruct F as ((l & F & _) & Hc). unfold run_calls in H.
  pose proof (inner_calm (E := E) rec_new rec_ext (fun _ _ _ _ => Logic.I) (fun _ _ => Logic.I) (fun _ => True) gv cw fuel st Hs) as Hi.
  lapply Hi; [clear Hi; intros Hi|intros k; pose proof (crown_top st Hc k) as T; destruct (top_trapezoid _ _ _); cbn in *; tauto].
  lapply Hi; [clear Hi; intros Hi|].
  - specialize (Hi []). cbv beta in Hi. unfold rec_new, rec_ext in *. rewrite H in Hi. cbn [fine] in Hi. destruct e; cbn in Hi; try contradiction. eauto.
  - intros n Hn. apply In_nth_error in Hn. destruct Hn as (i & Hn). assert (L : i < length (st_ns st)) by (apply nth_error_Some; congruence). destruct (F i L) as (D & _). unfold deg in D. now rewrite Hn in D.
Qed.

(** C63: the errors of a whole call, for every builder. *)
Theorem C63_triangulate {E Out M} (F : fan_format I E Out M) dbg fuel e m : tri F dbg fuel = Returned (inr e) m ->
  match e with
  | TENoVertices | TEFanBuilder _ => True
  | TETrapezoidation x => In x [NotEnoughVertices 1; NotEnoughVertices 2; TrapInternal IE_NotConnected; TrapInternal IE_MinNotFound; TrapInternal IE_NoMatchingSide; TrapInternal IE_SegNexus] /\
      (indexed -> x <> TrapInternal IE_SegNexus)
  | TEInternal x => In x [IE_Inner; IE_InvalidI; IE_InvalidTrapezoidation; IE_EmptyStack; IE_MonotoneStack; IE_BranchStack; IE_MonotoneShort 2;
      IE_SingleMonotone; IE_TopOfSegment]
  end.
Proof.
  rewrite triangulate_obeys. intros H. apply obey_reports in H. destruct H as [H|[->|(x & ->)]]; auto.
  apply api_reports in H. destruct H as [(x & -> & H)|(x & -> & H)].
  - split; [now apply C63_trapezoidize_any in H|]. intros U ->. apply C63_trapezoidize in H; auto. cbn in H. intuition discriminate.
  - destruct x; cbn in H; try contradiction; cbn; auto 12.
Qed.
End Props.

(** The outcome of an invalid polygon: vertices, order of the edges, reported error. *)
Definition reports : list (list (coords Q) * list nat * tri_error Empty_set) := [
  ([pt 1 2; pt 0 1; pt 1 2], [0; 2; 1], TETrapezoidation (TrapInternal IE_MinNotFound));
  ([pt 0 1; pt 1 1; pt 3 1; pt 2 1], [2; 0; 1; 3], TETrapezoidation (TrapInternal IE_NoMatchingSide));
  ([pt 2 1; pt 2 2; pt 2 2; pt 2 1], [2; 0; 3; 1], TETrapezoidation (TrapInternal IE_NotConnected));
  ([pt 2 0; pt 2 0; pt 2 1], [2; 0; 1], TEInternal IE_Inner);
  ([pt 1 3; pt 0 2; pt 4 1; pt 0 1], [1; 3; 0; 2], TEInternal IE_InvalidI);
  ([pt 2 2; pt 1 1; pt 0 2; pt 1 1], [1; 3; 0; 2], TEInternal IE_InvalidTrapezoidation);
  ([pt 4 3; pt 3 3; pt 1 1; pt 2 2], [2; 1; 3; 0], TEInternal IE_EmptyStack);
  ([pt 0 2; pt 0 0; pt 2 2; pt 0 1], [2; 3; 1; 0], TEInternal (IE_MonotoneShort 2));
  ([pt 2 0; pt 2 2; pt 2 0; pt 2 4; pt 3 3], [0; 4; 2; 1; 3], TEInternal IE_MonotoneStack);
  ([pt 1 2; pt 0 1; pt 0 0; pt 3 2; pt 3 2; pt 1 3], [1; 4; 0; 5; 3; 2], TEInternal IE_BranchStack)].

(** C63: ten of the errors that remain are reported for some input, by release builds. *)
Theorem C63_reached : Forall (fun '(l, order, e) => (forall k n, Permutation (by_order order k n) (seq 0 n)) /\
  triangulate (fan_to_list (indexed_list (vec_triples nat) [])) Nat.eqb (gv_of l) false 100 math_real (by_order order) (elems_of l) = Returned (inr e) []) reports.
Proof. unfold reports. repeat constructor; try (apply by_order_perm; vm_compute; reflexivity); vm_compute; reflexivity. Qed.

(** C63: a repeated index makes a further one reachable (the points are those of a triangle). *)
Theorem C63_repeated_index : exists (l : list (coords Q)) elems order, (forall k n, Permutation (by_order order k n) (seq 0 n)) /\ elems = map (@Continue nat) [0; 0; 2] /\
  triangulate (fan_to_list (indexed_list (vec_triples nat) [])) Nat.eqb (gv_of l) false 100 math_real (by_order order) elems = Returned (inr (TETrapezoidation (TrapInternal IE_SegNexus))) [].
Proof.
  exists [pt 2 3; pt 3 1; pt 1 0], (map (@Continue nat) [0; 0; 2]), [1; 2; 0]. split; [apply by_order_perm; vm_compute; reflexivity|]. split; [reflexivity|]. vm_compute. reflexivity.
Qed.

(** The hypothesis holds for the inputs of [reports], not for that one. *)
Example C63_case : Forall (fun '(l, order, e) => indexed Nat.eqb (elems_of l)) reports /\ ~ indexed Nat.eqb (map (@Continue nat) [0; 0; 2]).
Proof.
  split.
  - unfold reports. repeat apply Forall_cons; try apply Forall_nil; (split; [apply Nat.eqb_eq|]); cbn; repeat constructor; cbn; intuition discriminate.
  - intros (_ & H). cbn in H. inversion H as [|? ? A]. apply A. left. reflexivity.
Qed.

Print Assumptions C63_trapezoidize_any.
Print Assumptions C63_trapezoidize.
Print Assumptions C63_complete.
Print Assumptions C63_triangulate.
Print Assumptions C63_reached.
Print Assumptions C63_repeated_index.
