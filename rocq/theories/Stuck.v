(** A check by computation that a run never ends. *)
From Coq Require Import List Arith Bool QArith Lia.
From Verif Require Import Base Coord Trap Mono Tri Trace Protocol Format Builders Budget Plane Outcome Steps PropSlow.
Import ListNotations.
Local Open Scope nat_scope.

Section Stuck.
Context {C : Type} {OC : CoordOps C} {I : Type} {E : Type}.
Variables (gv : I -> coords C) (cw : bool) (st : state C I) (K : nat).
Notation newf := (rec_new (I := I) (E := E)).
Notation ext := (rec_ext (I := I) (E := E)).
Notation lp fuel := (tri_loop gv newf ext cw fuel st).

(** Within [n] iterations of the traversal, budget [K] runs out inside of an iteration. *)
Fixpoint dies (n : nat) (x : tstate (C := C) (I := I)) (s : list (call I)) : bool :=
  match n with
  | 0 => false
  | S n =>
    match nth_error (st_ts st) (x_ti x) with
    | None => false
    | Some t =>
      match t_d t with
      | None => false
      | Some nd =>
        match tri_step gv newf ext cw K st x t nd s with
        | (s', Ok x') => dies n x' s'
        | (_, Crash Fuel) => true
        | _ => false
        end
      end
    end
  end.

Lemma dies_loops : forall n l x s, dies n x s = true -> 1 <= l -> (l + n) * (l + n) <= K -> shortx l x ->
  forall f j, K <= f -> snd (lp f j x s) = Crash Fuel.
Proof.
  induction n as [|n IH]; intros l x s Hd Hl HK Hx f j Hf; [discriminate|]. destruct j as [|j]; [reflexivity|].
  cbn [tri_loop]. cbn [dies] in Hd. unfold rd. destruct (nth_error (st_ts st) (x_ti x)) as [t|] eqn:Et; [|discriminate].
  unfold sbind at 1, lift. cbn [fst snd]. destruct (t_d t) as [nd|] eqn:Ed; [|discriminate].
  assert (Hn1 : forall t a b c, snd (rec_new (I := I) (E := E) t a b c) <> Crash Fuel) by (cbn; congruence).
  assert (Hn2 : forall t a, snd (rec_ext (I := I) (E := E) t a) <> Crash Fuel) by (cbn; congruence).
  destruct (tri_step_back newf ext Hn1 Hn2 cw gv st K f Hf l x t nd s Hl ltac:(nia) Hx) as [H|(H & Hs)].
  - destruct (tri_step gv newf ext cw f st x t nd s) as [s' r]. cbn in H. subst r. reflexivity.
  - rewrite H. rewrite H in Hs. destruct (tri_step gv newf ext cw K st x t nd s) as [s' [x'|e|c]]; [|discriminate|destruct c; try discriminate; reflexivity].
    cbn [fst snd sbind]. apply (IH (S l)); [exact Hd|lia|nia|apply Hs; reflexivity|exact Hf].
Qed.

(** [triangulate] never returns if the trapezoidation succeeds and budget [K] runs out inside of one of the first [n] iterations of the traversal. *)
Lemma dies_hangs ieqb dbg math_n shuf elems t0 n :
  trapezoidize ieqb gv dbg K math_n shuf elems = Ok st -> top_trapezoid K (st_qs st) 0 = Ok t0 ->
  dies n (mkT t0 None [] []) [] = true -> (1 + n) * (1 + n) <= K ->
  forall Out M (F : fan_format I E Out M) fuel, ff_cw F = cw -> willing F -> triangulate F ieqb gv dbg fuel math_n shuf elems = Crashed Fuel.
Proof.
  intros Hz Ht Hd HK Out M F fuel Hcw HF.
  destruct (triangulate_mono F ieqb gv dbg fuel (K + fuel) math_n shuf elems ltac:(lia)) as [H|H]; [exact H|]. rewrite H, triangulate_obeys, Hcw.
  assert (Hc : snd (api_calls E ieqb gv cw dbg (K + fuel) math_n shuf elems) = Crash Fuel).
  { unfold api_calls. destruct (trapezoidize_mono ieqb gv dbg K (K + fuel) ltac:(lia) math_n shuf elems) as [H'|H']; [congruence|]. rewrite <- H', Hz.
    unfold run_calls, triangulate_inner. destruct (top_mono st K (K + fuel) ltac:(lia) K (K + fuel) 0 ltac:(lia)) as [Ht'|Ht']; [congruence|].
    rewrite <- Ht', Ht. cbn [map_err]. unfold sbind at 1. cbn [lift fst snd]. apply (dies_loops n 1); auto; [|lia].
    repeat split; cbn; auto. }
  destruct (api_calls E ieqb gv cw dbg (K + fuel) math_n shuf elems) as [l r]. cbn in Hc. subst r. now apply obey_crash.
Qed.
End Stuck.

(** The same as one check. *)
Definition hangs_at (E : Type) {C} {OC : CoordOps C} {I} ieqb (gv : I -> coords C) dbg math_n shuf elems (n : nat) : bool :=
  let K := (1 + n) * (1 + n) in
  match trapezoidize ieqb gv dbg K math_n shuf elems with
  | Ok st =>
    match top_trapezoid K (st_qs st) 0 with
    | Ok t0 => dies (E := E) gv true st K n (mkT t0 None [] []) [] && dies (E := E) gv false st K n (mkT t0 None [] []) []
    | _ => false
    end
  | _ => false
  end.

Lemma hangs_at_hangs {E C} {OC : CoordOps C} {I} ieqb (gv : I -> coords C) dbg math_n shuf elems n :
  hangs_at E ieqb gv dbg math_n shuf elems n = true ->
  forall Out M (F : fan_format I E Out M) fuel, willing F -> triangulate F ieqb gv dbg fuel math_n shuf elems = Crashed Fuel.
Proof.
  unfold hangs_at. destruct (trapezoidize ieqb gv dbg _ math_n shuf elems) as [st| |] eqn:Hz; try discriminate.
  destruct (top_trapezoid _ (st_qs st) 0) as [t0| |] eqn:Ht; try discriminate. rewrite andb_true_iff. intros (H1 & H2) Out M F fuel HF.
  destruct (ff_cw F) eqn:Hcw; [exact (dies_hangs _ _ _ _ _ _ _ _ _ _ _ Hz Ht H1 (le_n _) _ _ F fuel Hcw HF)|exact (dies_hangs _ _ _ _ _ _ _ _ _ _ _ Hz Ht H2 (le_n _) _ _ F fuel Hcw HF)].
Qed.
