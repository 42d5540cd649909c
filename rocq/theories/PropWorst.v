(** Property C61: the number of iterations of the trapezoidation of one valid polygon in the worst order of insertion, counted as for C52. *)
From Coq Require Import QArith List Arith Lia Bool Permutation.
From Verif Require Import Base Coord Trap Runs Plane Geo ValidB TrapInv Polygons Build Locate Orders Averages Random RandomSize Work RandomWork WorkAverage Phases RealPace WorkBudget Worst WorkCount Grown Comb PropTri PropSlow PropQuery PropWork.
Import ListNotations.
Local Open Scope nat_scope.

Section Props.
Context {I : Type}.
Variables (gv : I -> point) (ieqb : I -> I -> bool) (dbg : bool) (math_n : nat -> nat -> nat).
Hypothesis Hieq : forall a b, ieqb a b = true <-> a = b.
Variable poly : list I.
Notation n := (length poly).
Notation V := (map gv poly).

Lemma worst (o : list nat) : valid [V] -> Permutation o (seq 0 n) ->
  exists fuel, forall f, fuel <= f -> exists st, fst (trapezoidize_c ieqb gv dbg f math_n (fun _ _ => o) (map (@Continue I) poly)) = Ok st /\
    snd (trapezoidize_c ieqb gv dbg f math_n (fun _ _ => o) (map (@Continue I) poly)) <= 11 * (n * n) + passes (math_n n) n 0 1 (math_n n 1) * (5 * (n * n)).
Proof.
  intros HV Ho. pose proof (hlen gv poly HV) as Hl3. destruct (shear_exists (V ++ [])) as (M & HM).
  destruct (uniform poly (fun l k => exists st vls, evt (fun k => ploop gv ieqb dbg math_n poly k l) (st, vls) /\ ploop gv ieqb dbg math_n poly k l = Ok (st, vls))) as (K1 & HK1).
  { intros l Hg. destruct (prefix_run gv ieqb dbg Hieq math_n poly HV l Hg) as (st & vls & E & _). destruct E as (N' & E). exists N'. intros x Hx. exists st, vls. split; [exists N'; auto|]. apply E; lia. }
  assert (X0 : xtra gv poly []) by (split; [|split]; easy).
  assert (HK2 : exists K2, forall K, K2 <= K -> forall p, In p V -> enough gv ieqb dbg math_n poly p M K).
  { assert (G : forall W, (forall p, In p W -> In p V) -> exists K2, forall K, K2 <= K -> forall p, In p W -> enough gv ieqb dbg math_n poly p M K).
    { induction W as [|p W IH]; intros HW; [exists 0; easy|]. destruct IH as (Ka & IH); [intros q Hq; apply HW; now right|]. destruct (enough_ex gv ieqb dbg Hieq math_n poly HV p [] X0 ltac:(apply in_or_app; left; apply HW; now left) M HM) as (Kb & Hb).
      exists (max Ka Kb). intros K HKK q [<-|Hq]; [apply Hb; lia|apply IH; auto; lia]. }
    apply G. auto. }
  destruct HK2 as (K2 & HK2). set (K := max K1 K2). assert (HK : forall l, good poly l -> exists st vls, evt (fun k => ploop gv ieqb dbg math_n poly k l) (st, vls) /\ ploop gv ieqb dbg math_n poly K l = Ok (st, vls)) by (intros l Hg; apply HK1; auto; lia).
  assert (HE : forall p, In p V -> enough gv ieqb dbg math_n poly p M K) by (apply HK2; lia).
  destruct (order_cost gv ieqb dbg Hieq math_n poly HV M HM K HK HE o Ho) as (N1 & H1).
  exists N1. intros f Hf. destruct (H1 f Hf) as (st & E1 & -> & E2). eexists. split; [exact E1|]. etransitivity; [exact E2|].
  pose proof (order_nodes gv ieqb dbg Hieq math_n poly HV K HK o Ho) as Z1. pose proof (scost_le gv ieqb dbg Hieq math_n poly HV M K HK HE o Ho) as Z2.
  assert (Z3 : passes (math_n n) n 0 1 (math_n n 1) * (3 * (n * n) + 3 * n + 1) <= passes (math_n n) n 0 1 (math_n n 1) * (5 * (n * n))) by (apply Nat.mul_le_mono_l; nia). nia.
Qed.

(** C61: every order of insertion, re-locations paced by iterated logarithms: at most (5 log* n + 11) n^2 iterations. *)
Theorem C61_worst (o : list nat) (k : nat) : valid [V] -> Permutation o (seq 0 n) -> paced math_n n -> n <= tower k ->
  exists fuel, forall f, fuel <= f -> exists st, fst (trapezoidize_c ieqb gv dbg f math_n (fun _ _ => o) (map (@Continue I) poly)) = Ok st /\
    snd (trapezoidize_c ieqb gv dbg f math_n (fun _ _ => o) (map (@Continue I) poly)) <= (5 * k + 11) * (n * n).
Proof.
  intros HV Ho Hp Hk. pose proof (hlen gv poly HV) as Hl3. destruct (worst o HV Ho) as (N & H). exists N. intros f Hf. destruct (H f Hf) as (st & E & L). exists st. split; auto. etransitivity; [exact L|].
  assert (Z : passes (math_n n) (n - 0) 0 1 (math_n n 1) <= k).
  { apply passes_paced; try lia; auto; [|now apply ilog_tower]. cbn [ilog]. pose proof (Nat.log2_pos n). lia. }
  rewrite Nat.sub_0_r in Z. nia.
Qed.

(** C61: whatever the pacing. *)
Theorem C61_any (o : list nat) : valid [V] -> Permutation o (seq 0 n) ->
  exists fuel, forall f, fuel <= f -> exists st, fst (trapezoidize_c ieqb gv dbg f math_n (fun _ _ => o) (map (@Continue I) poly)) = Ok st /\
    snd (trapezoidize_c ieqb gv dbg f math_n (fun _ _ => o) (map (@Continue I) poly)) <= (5 * n + 11) * (n * n).
Proof.
  intros HV Ho. destruct (worst o HV Ho) as (N & H). exists N. intros f Hf. destruct (H f Hf) as (st & E & L). exists st. split; auto. etransitivity; [exact L|].
  pose proof (passes_le (math_n n) n 0 1 (math_n n 1)). nia.
Qed.
End Props.

(** C61: a step budget for every loop, in the release profile. *)
Theorem C61_budget {I} (gv : I -> point) ieqb math_n (poly : list I) (o : list nat) (k : nat) : (forall a b, ieqb a b = true <-> a = b) ->
  valid [map gv poly] -> Permutation o (seq 0 (length poly)) -> paced math_n (length poly) -> length poly <= tower k ->
  exists need st, trapezoidize ieqb gv false need math_n (fun _ _ => o) (map (@Continue I) poly) = Ok st /\ need <= (5 * k + 11) * (length poly * length poly).
Proof.
  intros Hi HV Ho Hp Hk. destruct (C61_worst gv ieqb false math_n Hi poly o k HV Ho Hp Hk) as (fuel & H). destruct (H fuel (le_n _)) as (st & E & L).
  eexists _, st. split; [|exact L]. eapply C52_budget. rewrite (surjective_pairing (trapezoidize_c _ _ _ _ _ _ _)), E. reflexivity.
Qed.

(** ** The square is needed *)

(** C61: for every [k] there is a valid polygon of 3 k + 1 vertices, and an order of its segments, such that the search structure gets at least k^2 nodes and the
    run makes at least k^2 - 12 k - 4 iterations, whatever the pacing. *)
Theorem C61_quadratic : forall k, 2 <= k -> exists (l : list point) (order : list nat),
  valid [l] /\ length l = 3 * k + 1 /\ Permutation order (seq 0 (length l)) /\
  forall (I : Type) (gv : I -> point) ieqb dbg math_n shuf (poly : list I), (forall x y, ieqb x y = true <-> x = y) -> (forall j n, Permutation (shuf j n) (seq 0 n)) ->
    shuf 0 (length l) = order -> map gv poly = l ->
    exists fuel, forall f, fuel <= f -> exists st, fst (trapezoidize_c ieqb gv dbg f math_n shuf (map (@Continue I) poly)) = Ok st /\
      k * k <= length (st_qs st) /\ k * k <= snd (trapezoidize_c ieqb gv dbg f math_n shuf (map (@Continue I) poly)) + 4 * (3 * k + 1).
Proof.
  intros k Hk. exists (comb k), (comb_order k). split; [now apply comb_valid|]. rewrite (comb_len k Hk). split; auto. split; [now apply comb_perm|].
  intros I gv ieqb dbg math_n shuf poly Hieq Hshuf Ho HP. destruct (shear_exists (comb k ++ [])) as (M & HM). pose proof (poly_len k Hk gv poly HP) as L.
  destruct (one_grown gv ieqb dbg Hieq math_n shuf Hshuf poly [] M) as (st & es & (N1 & E1) & E2 & E3 & E4); rewrite ?HP; try easy. { now apply comb_valid. }
  rewrite L, Ho in E3. rewrite HP in E2, E4. destruct (comb_edges k Hk gv poly HP es E3) as (es' & ->). pose proof (comb_nodes k Hk M gv E2 HM es' st E4) as Z.
  exists N1. intros f Hf. exists st. pose proof (C52_counted ieqb gv dbg f math_n shuf (map (@Continue I) poly)) as Ec. rewrite (E1 f Hf) in Ec. split; auto. split; auto.
  unfold trapezoidize_c in *. rewrite build_poly_c in *. cbn [app build_loop_c fst snd] in *. rewrite map_length, L in *.
  assert (Nat.ltb 0 (3 * k + 1) = true) as T1 by (apply Nat.ltb_lt; lia). assert (Nat.ltb (3 * k + 1) 3 = false) as T2 by (apply Nat.ltb_ge; lia). rewrite T1, T2 in *. unfold tick in *. cbn [fst snd] in *. rewrite Ho in *.
  apply cbind_inv in Ec. destruct Ec as ((st', vls') & A & B & S). rewrite S. cbn [free fst snd] in *. injection B as ->. unfold cmap_err in *. cbn [fst snd] in *. unfold add_polygon_c in *. rewrite map_length, L in *.
  match type of A with map_err _ (fst ?r) = _ => destruct (fst r) as [[s1 v1]| |] eqn:Er; cbn [map_err] in A; try discriminate; injection A as -> ->; apply loop_nodes in Er end.
  cbn [state_new st_qs length] in Er. rewrite (Permutation_length (comb_perm k Hk)), seq_length in Er. lia.
Qed.

Lemma pow_more x : 14 <= x -> 12 * (x * x) + 10 <= 2 ^ x.
Proof. intros H. induction H as [|x H IH]; [cbn; lia|]. rewrite Nat.pow_succ_r'. nia. Qed.

(** C61: the bound on the average (C52) is not one for every order. *)
Theorem C61_superlinear : forall c, exists t (l : list point) (order : list nat), valid [l] /\ length l <= tower t /\ Permutation order (seq 0 (length l)) /\
  forall (I : Type) (gv : I -> point) ieqb dbg math_n shuf (poly : list I), (forall x y, ieqb x y = true <-> x = y) -> (forall j n, Permutation (shuf j n) (seq 0 n)) ->
    shuf 0 (length l) = order -> map gv poly = l ->
    exists fuel, forall f, fuel <= f -> exists st, fst (trapezoidize_c ieqb gv dbg f math_n shuf (map (@Continue I) poly)) = Ok st /\
      c * length l * (t + 1) < snd (trapezoidize_c ieqb gv dbg f math_n shuf (map (@Continue I) poly)).
Proof.
  intros c. set (t := c + 20). pose proof (tower_lt t) as H1. pose proof (pow_more (S t) ltac:(lia)) as H2. assert (H3 : 2 ^ S t <= tower (S t)) by (cbn [tower]; apply Nat.pow_le_mono_r; lia).
  set (k := (tower (S t) - 1) / 3). pose proof (Nat.div_mod (tower (S t) - 1) 3 ltac:(lia)) as D. pose proof (Nat.mod_upper_bound (tower (S t) - 1) 3 ltac:(lia)) as B. fold k in D.
  assert (Hk : 12 * (S t * S t) + 6 <= 3 * k) by lia. destruct (C61_quadratic k ltac:(nia)) as (l & order & V & L & P & R). exists (S t), l, order. split; auto. split; [lia|]. split; auto.
  intros I gv ieqb dbg math_n shuf poly X1 X2 X3 X4. destruct (R I gv ieqb dbg math_n shuf poly X1 X2 X3 X4) as (fuel & F). exists fuel. intros f Hf. destruct (F f Hf) as (st & F1 & _ & F2). exists st. split; auto. rewrite L.
  assert (G : c * (S t + 1) + 4 <= S t * S t) by (unfold t; nia). set (P0 := S t * S t) in *. set (c0 := c * (S t + 1)) in *. replace (c * (3 * k + 1) * (S t + 1)) with (c0 * (3 * k + 1)) by (unfold c0; ring).
  assert (G1 : (c0 + 4) * (3 * k + 1) < k * k); [|nia]. apply Nat.le_lt_trans with (P0 * (3 * k + 1)); [now apply Nat.mul_le_mono_r|]. assert (4 * P0 + 2 <= k) by lia. clearbody P0. clear - H. nia.
Qed.

From Coq Require Import Reals Lra.
Local Open Scope nat_scope.

(** C61: with the pacing of the code, in [f64], up to 2^40 vertices (as for [C52_f64]). *)
Theorem C61_f64 {I} (gv : I -> point) ieqb dbg lg dv neg0 umax (poly : list I) (o : list nat) (k : nat) : (forall a b, ieqb a b = true <-> a = b) ->
  close lg dv (/ 2 ^ 46) (/ 2 ^ 52) (length poly) -> (INR (length poly) <= 2 ^ 40)%R ->
  valid [map gv poly] -> Permutation o (seq 0 (length poly)) -> length poly <= umax -> length poly <= tower k ->
  exists fuel, forall f, fuel <= f -> exists st, fst (trapezoidize_c ieqb gv dbg f (computed_math_n lg dv neg0 umax) (fun _ _ => o) (map (@Continue I) poly)) = Ok st /\
    snd (trapezoidize_c ieqb gv dbg f (computed_math_n lg dv neg0 umax) (fun _ _ => o) (map (@Continue I) poly)) <= (5 * k + 11) * (length poly * length poly).
Proof.
  intros Hi HC Hs HV Ho Hu Hk. apply C61_worst; auto. apply (computed_paced lg dv neg0 (/ 2 ^ 46) (/ 2 ^ 52) _ HC); auto.
  - pose proof (hlen gv poly HV). lia.
  - apply Rle_trans with (2 ^ 40 * (14 * / 2 ^ 46 + / 2 ^ 52))%R; [apply Rmult_le_compat_r; auto; lra|lra].
Qed.

(** ** Cases *)

(** The quadrilateral of [PropQuery] in its given order: 25 iterations; the bound is 336. *)
Example C61_case : valid [map (gv_of quad) (seq 0 4)] /\ paced int_math_n 4 /\ 4 <= tower 2 /\ snd (quad_work [0; 1; 2; 3]) = 25 /\ (5 * 2 + 11) * (4 * 4) = 336.
Proof. split; [exact quad_valid|]. split; [apply int_paced|]. split; [cbn; lia|]. split; vm_compute; reflexivity. Qed.

(** Sixteen and thirty-one vertices: the number of nodes and of iterations in the order of [C61_quadratic] and in the given order. *)
Definition comb_work (k : nat) (order : list nat) : option (nat * nat) :=
  let r := trapezoidize_c Nat.eqb (fun i => nth i (comb k) (0%Q, 0%Q)) false 1000 (fun _ _ => 100) (fun _ _ => order) (map (@Continue nat) (seq 0 (3 * k + 1))) in
  match fst r with Ok st => Some (length (st_qs st), snd r) | _ => None end.
Example C61_comb : comb_work 5 (comb_order 5) = Some (104, 180) /\ comb_work 5 (seq 0 16) = Some (80, 162) /\ comb_work 10 (comb_order 10) = Some (254, 555) /\ comb_work 10 (seq 0 31) = Some (155, 492).
Proof. vm_compute. repeat split. Qed.

Print Assumptions C61_worst.
Print Assumptions C61_any.
Print Assumptions C61_budget.
Print Assumptions C61_f64.
Print Assumptions C61_quadratic.
Print Assumptions C61_superlinear.
