(** An input on which [triangulate] never returns: a polygon with a repeated vertex. *)
From Coq Require Import List Arith Bool QArith Lia.
From Verif Require Import Base Coord Trap Mono Tri Trace Protocol Format Builders Runs.
Import ListNotations.
Local Open Scope nat_scope.

Definition dup : list (coords Q) := [pt 1 2; pt 0 1; pt 0 1; pt 2 0].

Definition dup_st : state Q nat := Eval vm_compute in
  match trapezoidize Nat.eqb (gv_of dup) false 40 never in_order (elems_of dup) with Ok st => st | _ => state_new end.

Section Endless.
Context {Out M : Type} {E : Type} (F : fan_format nat E Out M).
Notation lp fuel := (tri_loop (gv_of dup) (fbs_new F) (fbs_ext F) (ff_cw F) fuel dup_st).

Lemma lp_step fuel k x t nd s s' x' :
  rd (E := tri_error E) (st_ts dup_st) (x_ti x) = Ok t -> t_d t = Some nd ->
  tri_step (gv_of dup) (fbs_new F) (fbs_ext F) (ff_cw F) fuel dup_st x t nd s = (s', Ok x') ->
  lp fuel (S k) x s = lp fuel k x' s'.
Proof. intros H1 H2 H3. cbn [tri_loop]. unfold lift, sbind at 1. cbn [snd fst]. rewrite H1, H2, H3. reflexivity. Qed.

Definition dup_mono : mono Q nat :=
  mkMono [(0, (1%Q, 2%Q)); (1, (0%Q, 1%Q)); (2, (0%Q, 1%Q)); (3, (2%Q, 0%Q))] 2 2 true.

Lemma mono_loops fuel s : forall k, build_fans (fbs_new F) (fbs_ext F) (ff_cw F) fuel k dup_mono s = (s, Crash Fuel).
Proof.
  induction k as [k IH] using (well_founded_induction lt_wf).
  do 3 (destruct k as [|k]; [reflexivity|]).
  change (build_fans (fbs_new F) (fbs_ext F) (ff_cw F) fuel k dup_mono s = (s, Crash Fuel)). apply IH. lia.
Qed.

Lemma dup_last fuel s k :
  lp fuel k (mkT 7 (Some (OOne (mkMB [(0, (1%Q, 2%Q)); (1, (0%Q, 1%Q)); (2, (0%Q, 1%Q))] true true))) [(8, None)] []) s
  = (s, Crash Fuel).
Proof.
  destruct k as [|k]; [reflexivity|]. cbn [tri_loop].
  assert (H : forall t, nth_error (st_ts dup_st) 7 = Some t -> tri_step (gv_of dup) (fbs_new F) (fbs_ext F) (ff_cw F) fuel dup_st
    (mkT 7 (Some (OOne (mkMB [(0, (1%Q, 2%Q)); (1, (0%Q, 1%Q)); (2, (0%Q, 1%Q))] true true))) [(8, None)] []) t 3 s = (s, Crash Fuel)).
  { intros t Ht. injection Ht as <-.
    unfold tri_step, step_v, finish_all, finish. cbn.
    rewrite mono_loops. reflexivity. }
  unfold lift, sbind at 1. cbn [snd fst x_ti]. unfold rd. destruct (nth_error (st_ts dup_st) 7) as [t|] eqn:Et; [|discriminate].
  specialize (H t eq_refl). injection Et as <-. cbn [t_d]. unfold sbind at 1. rewrite H. reflexivity.
Qed.

Lemma dup_loops fuel s k : lp fuel k (mkT 2 None [] []) s = (s, Crash Fuel).
Proof.
  destruct k as [|k]; [reflexivity|]. erewrite lp_step; [|reflexivity|reflexivity|cbn; reflexivity].
  destruct k as [|k]; [reflexivity|]. erewrite lp_step; [|reflexivity|reflexivity|cbn; reflexivity].
  destruct k as [|k]; [reflexivity|]. erewrite lp_step; [|reflexivity|reflexivity|cbn; reflexivity].
  destruct k as [|k]; [reflexivity|]. erewrite lp_step; [|reflexivity|reflexivity|cbn; reflexivity].
  destruct k as [|k]; [reflexivity|]. erewrite lp_step; [|reflexivity|reflexivity|cbn; reflexivity].
  destruct k as [|k]; [reflexivity|]. erewrite lp_step; [|reflexivity|reflexivity|cbn; reflexivity].
  apply dup_last.
Qed.

Lemma dup_small : forall fuel, fuel < 40 ->
  forall dbg, match trapezoidize Nat.eqb (gv_of dup) dbg fuel never in_order (elems_of dup) with
    | Ok st => st = dup_st | Crash Fuel => True | _ => False end.
Proof.
  intros fuel Hf dbg. do 40 (destruct fuel as [|fuel]; [destruct dbg; vm_compute; auto|]). lia.
Qed.

Lemma dup_large fuel dbg : trapezoidize Nat.eqb (gv_of dup) dbg (40 + fuel) never in_order (elems_of dup) = Ok dup_st.
Proof. destruct dbg; vm_compute; reflexivity. Qed.

Lemma dup_top fuel : top_trapezoid fuel (st_qs dup_st) 0 = Ok 2 \/ top_trapezoid fuel (st_qs dup_st) 0 = Crash Fuel.
Proof. do 4 (destruct fuel as [|fuel]; [vm_compute; auto|]). left. reflexivity. Qed.

Lemma dup_endless dbg fuel : triangulate F Nat.eqb (gv_of dup) dbg fuel never in_order (elems_of dup) = Crashed Fuel.
Proof.
  assert (G : trap_triangulate F (gv_of dup) dbg fuel dup_st = Crashed Fuel).
  { unfold trap_triangulate, triangulate_inner. destruct (dup_top fuel) as [-> | ->]; [|reflexivity].
    cbn [map_err]. unfold sbind. cbn [lift fst snd]. rewrite dup_loops. reflexivity. }
  unfold triangulate. destruct (le_lt_dec 40 fuel) as [Hf|Hf].
  - replace fuel with (40 + (fuel - 40)) in * by lia. now rewrite dup_large.
  - pose proof (dup_small fuel Hf dbg) as H.
    destruct (trapezoidize _ _ _ _ _ _ _) as [st|e|[]]; try contradiction; auto. now subst st.
Qed.
End Endless.
