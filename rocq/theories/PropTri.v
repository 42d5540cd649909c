(** Properties of the triangulation of valid polygon lists, from the vertex lists to the triangles returned. *)
From Coq Require Import QArith Qabs Lqa List Arith Lia Permutation.
From Verif Require Import Base Coord Trap Mono Tri Trace Protocol Format Builders Runs Plane MonoGeom ValidRuns EvenOdd Whole Budget Outcome Area.
Import ListNotations.
Local Open Scope nat_scope.

Section Props.
Context {I : Type}.
Variables (gv : I -> point) (ieqb : I -> I -> bool) (dbg : bool) (math_n : nat -> nat -> nat) (shuf : nat -> nat -> list nat).
Hypothesis Hieq : forall a b, ieqb a b = true <-> a = b.
Hypothesis Hshuf : forall k n, Permutation (shuf k n) (seq 0 n).
Variable elems : list (element I).
Notation ps := (map (map gv) (groups elems)).
Hypothesis HV : valid ps.
Hypothesis Hps : ps <> [].

(** The run into an empty vector of index triples, with some step budget, ends with [Ok] of [T]. *)
Notation returns T := (returns gv ieqb dbg math_n shuf elems T).

(** C01: with every builder that does not fail, of either winding, the triangulation ends and returns the builder's output:
    every large enough step budget gives this outcome, and a smaller one gives it too or runs out. *)
Theorem C01_succeeds {E Out Mt} (F : fan_format I E Out Mt) : willing F ->
  exists out m N, forall fuel,
    (N <= fuel -> triangulate F ieqb gv dbg fuel math_n shuf elems = Returned (inl out) m) /\
    (triangulate F ieqb gv dbg fuel math_n shuf elems = Crashed Fuel \/ triangulate F ieqb gv dbg fuel math_n shuf elems = Returned (inl out) m).
Proof.
  intros HF. destruct (succeeds (E := E) gv ieqb dbg Hieq math_n shuf Hshuf elems HV F Hps HF) as (out & m & N & H).
  exists out, m, N. intros fuel. split; [apply H|apply (ends_same F ieqb gv dbg math_n shuf elems N _ H)].
Qed.

(** C01: in particular some list of triples is returned (the theorems below are about that list). *)
Theorem C01_returns : exists T, returns T.
Proof. exact (returns_ex gv ieqb dbg Hieq math_n shuf Hshuf elems HV Hps). Qed.

(** C02: the areas of the triangles add up to the area of the even-odd interior. *)
Theorem C02_area (T : list (I * I * I)) : returns T -> (sumq (area2 gv) T == interior2 ps)%Q.
Proof. exact (returns_interior gv ieqb dbg Hieq math_n shuf Hshuf elems HV Hps T). Qed.

(** C02: for a single polygon, to the shoelace area. *)
Theorem C02_single (p : list point) (T : list (I * I * I)) : ps = [p] -> returns T -> (sumq (area2 gv) T == Qabs (shoelace p))%Q.
Proof. exact (returns_area gv ieqb dbg Hieq math_n shuf Hshuf elems HV Hps p T). Qed.

(** C03: the triangles tile the even-odd interior. *)
Theorem C03_tiles (T : list (I * I * I)) : returns T -> tiles ps (map (tri_pos gv) T).
Proof. exact (returns_tiles gv ieqb dbg Hieq math_n shuf Hshuf elems HV Hps T). Qed.

(** C04: all triangles handed to a builder of the default winding are counterclockwise or flat. *)
Theorem C04_counterclockwise E : exists calls N,
  (forall fuel, N <= fuel -> triangulate (recorder I E false) ieqb gv dbg fuel math_n shuf elems = Returned (inl calls) calls) /\
  forall a b c, In (a, b, c) (tris_of calls) -> (0 <= cross (gv a) (gv b) (gv c))%Q.
Proof. exact (calls_ccw gv ieqb dbg Hieq math_n shuf Hshuf elems HV Hps E). Qed.

(** C04: the triples returned are counterclockwise or flat, and their vertices are vertices of the input. *)
Theorem C04_returned (T : list (I * I * I)) (a b c : I) : returns T -> In (a, b, c) T ->
  In (Continue a) elems /\ In (Continue b) elems /\ In (Continue c) elems /\ (0 <= cross (gv a) (gv b) (gv c))%Q.
Proof.
  rewrite <- !in_indices. exact (returns_ccw gv ieqb dbg Hieq math_n shuf Hshuf elems HV Hps T a b c).
Qed.

End Props.

(** ** The hypotheses are met: a quadrilateral with a triangular hole, edges in input order *)

Lemma nat_eqb_dec : forall a b, Nat.eqb a b = true <-> a = b.
Proof. exact Nat.eqb_eq. Qed.
Lemma in_order_perm : forall k n, Permutation (in_order k n) (seq 0 n).
Proof. intros. apply Permutation_refl. Qed.

Definition holed_ps : list (list point) := map (map (gv_of holed)) (groups holed_elems).
Lemma holed_ne : holed_ps <> [].
Proof. discriminate. Qed.

(** A builder that does not fail: the vector of triples. *)
Example C01_hyp : willing (fan_to_list (indexed_list (vec_triples nat) [])).
Proof. repeat split; intros; cbn; eauto; destruct g as [[lb v0] v1]; cbn; eauto. Qed.

Definition holed_T : list (nat * nat * nat) :=
  Eval vm_compute in match triangulate (fan_to_list (indexed_list (vec_triples nat) [])) Nat.eqb (gv_of holed) true 100 never in_order holed_elems with
                     | Returned (inl T) _ => T
                     | _ => []
                     end.

Example C02_hyp : returns (gv_of holed) Nat.eqb true never in_order holed_elems holed_T.
Proof. exists 100%nat. vm_compute. reflexivity. Qed.

(** Seven triangles; their area is that of the quadrilateral less the hole. *)
Example C02_value : length holed_T = 7%nat /\ Qeq_bool (sumq (area2 (gv_of holed)) holed_T) (inject_Z 123) = true /\ Qeq_bool (interior2 holed_ps) (inject_Z 123) = true.
Proof. vm_compute. auto. Qed.

(** A point between the outlines is covered, a point in the hole is not inside. *)
Example C03_hyp : inside_eo holed_ps (pt 7 7) = true /\ inside_eo holed_ps (pt 4 4) = false /\ off holed_ps (pt 7 7).
Proof.
  split; [now vm_compute|split; [now vm_compute|]]. intros d Hd (t & H0 & H1 & Hx & Hy). vm_compute in Hd.
  repeat (destruct Hd as [<-|Hd]; [cbv [fst snd cx cy pt inject_Z] in Hx, Hy; cbn in Hx, Hy; lra|]). elim Hd.
Qed.

Example C03_case : tiles holed_ps (map (tri_pos (gv_of holed)) holed_T).
Proof. exact (C03_tiles (gv_of holed) Nat.eqb true never in_order nat_eqb_dec in_order_perm holed_elems holed_valid holed_ne holed_T C02_hyp). Qed.

Print Assumptions C01_succeeds.
Print Assumptions C01_returns.
Print Assumptions C02_area.
Print Assumptions C02_single.
Print Assumptions C03_tiles.
Print Assumptions C04_counterclockwise.
Print Assumptions C04_returned.
