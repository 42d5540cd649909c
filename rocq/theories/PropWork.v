(** Property C52: the expected number of iterations of the trapezoidation of one valid polygon.  [Work.trapezoidize_c] is [trapezoidize] with a counter: one
    for each element read, each segment added, each node visited by a search, each trapezoid crossed by a segment or by a re-location, each vertex looked at by a re-location. *)
From Coq Require Import QArith Lqa List Arith Lia Bool Permutation.
From Verif Require Import Base Coord Trap Runs Plane Geo ValidB TrapInv Polygons Build Locate Count Orders Averages Random RandomSize Work RandomWork WorkAverage Phases RealPace WorkBudget ValidRuns PropTri PropSlow PropQuery.
Import ListNotations.
Local Open Scope nat_scope.

Lemma ilog_tower k : forall n, n <= tower k -> ilog (S k) n = 0.
Proof.
  assert (G : forall k h n, ilog h n <= tower k -> ilog (S k + h) n = 0).
  { clear. induction k as [|k IH]; intros h n H.
    - cbn [Nat.add ilog]. cbn [tower] in H. destruct (ilog h n) as [|[|?]]; [reflexivity|reflexivity|lia].
    - replace (S (S k) + h) with (S k + S h) by lia. apply IH. cbn [ilog]. cbn [tower] in H. apply Nat.log2_le_mono in H. rewrite Nat.log2_pow2 in H by lia. exact H. }
  intros n H. specialize (G k 0 n H). now rewrite Nat.add_0_r in G.
Qed.

(** The counter changes nothing. *)
Theorem C52_counted {C : Type} {OC : CoordOps C} {I : Type} (ieqb : I -> I -> bool) (gv : I -> coords C) dbg fuel math_n shuf elems :
  fst (trapezoidize_c ieqb gv dbg fuel math_n shuf elems) = trapezoidize ieqb gv dbg fuel math_n shuf elems.
Proof. apply erase. Qed.

(** No loop iterates more often than counted: the count will do as the step budget of every loop. *)
Theorem C52_budget {C : Type} {OC : CoordOps C} {I : Type} (ieqb : I -> I -> bool) (gv : I -> coords C) fuel math_n shuf elems st c :
  trapezoidize_c ieqb gv false fuel math_n shuf elems = (Ok st, c) -> trapezoidize ieqb gv false c math_n shuf elems = Ok st.
Proof. apply budget. Qed.

Section Props.
Context {I : Type}.
Variables (gv : I -> point) (ieqb : I -> I -> bool) (dbg : bool) (math_n : nat -> nat -> nat).
Hypothesis Hieq : forall a b, ieqb a b = true <-> a = b.
Variable poly : list I.
Notation n := (length poly).
Notation V := (map gv poly).

(** C52: averaged over all orders of insertion, the trapezoidation of a valid polygon takes at most 125 n (log* n + 1) iterations, if re-locations are paced by iterated logarithms. *)
Theorem C52_average (L : list (list nat)) (k : nat) : valid [V] -> all_orders n L -> paced math_n n -> n <= tower k ->
  exists fuel, forall f, fuel <= f ->
    (forall o, In o L -> exists st, fst (trapezoidize_c ieqb gv dbg f math_n (fun _ _ => o) (map (@Continue I) poly)) = Ok st) /\
    total (fun o => snd (trapezoidize_c ieqb gv dbg f math_n (fun _ _ => o) (map (@Continue I) poly))) L <= 125 * n * (k + 1) * length L.
Proof.
  intros HV HL Hpc Hk. pose proof (hlen gv poly HV) as Hl3. destruct (shear_exists (V ++ [])) as (M & HM).
  destruct (uniform poly (fun l k => exists st vls, evt (fun k => ploop gv ieqb dbg math_n poly k l) (st, vls) /\ ploop gv ieqb dbg math_n poly k l = Ok (st, vls))) as (K1 & HK1).
  { intros l Hg. destruct (prefix_run gv ieqb dbg Hieq math_n poly HV l Hg) as (st & vls & E & _). destruct E as (N' & E). exists N'. intros x Hx. exists st, vls. split; [exists N'; auto|]. apply E; lia. }
  assert (X0 : xtra gv poly []) by (split; [|split]; easy).
  assert (HK2 : exists K2, forall K, K2 <= K -> forall p, In p V -> enough gv ieqb dbg math_n poly p M K).
  { assert (G : forall W, (forall p, In p W -> In p V) -> exists K2, forall K, K2 <= K -> forall p, In p W -> enough gv ieqb dbg math_n poly p M K).
    { induction W as [|p W IH]; intros HW; [exists 0; easy|]. destruct IH as (Ka & IH); [intros q Hq; apply HW; now right|]. destruct (enough_ex gv ieqb dbg Hieq math_n poly HV p [] X0 ltac:(apply in_or_app; left; apply HW; now left) M HM) as (Kb & Hb).
      exists (max Ka Kb). intros K HKK q [<-|Hq]; [apply Hb; lia|apply IH; auto; lia]. }
    apply G. auto. }
  destruct HK2 as (K2 & HK2). set (K := max K1 K2). assert (HK : forall l, good poly l -> exists st vls, evt (fun k => ploop gv ieqb dbg math_n poly k l) (st, vls) /\ ploop gv ieqb dbg math_n poly K l = Ok (st, vls)) by (intros l Hg; apply HK1; auto; lia).
  assert (HE : forall p, In p V -> enough gv ieqb dbg math_n poly p M K) by (apply HK2; lia).
  set (A := arrs n (seq 0 n)). assert (HA : forall o, In o A <-> Permutation o (seq 0 n)) by (intros o; apply arrs_spec; [apply seq_NoDup|apply seq_length]).
  set (run f o := trapezoidize_c ieqb gv dbg f math_n (fun _ _ => o) (map (@Continue I) poly)).
  set (size o := length (st_qs (sof gv ieqb dbg math_n poly K o))). set (sc := scost gv ieqb dbg math_n poly K).
  assert (HN : exists N, forall f, N <= f -> forall o, Permutation o (seq 0 n) -> (exists st, fst (run f o) = Ok st) /\ snd (run f o) <= n + size o + sc o).
  { assert (G : forall B, (forall o, In o B -> Permutation o (seq 0 n)) -> exists N, forall f, N <= f -> forall o, In o B -> (exists st, fst (run f o) = Ok st) /\ snd (run f o) <= n + size o + sc o).
    { induction B as [|o B IH]; intros HB; [exists 0; easy|]. destruct IH as (Na & IH); [intros x Hx; apply HB; now right|].
      destruct (order_cost gv ieqb dbg Hieq math_n poly HV M HM K HK HE o (HB o (or_introl eq_refl))) as (Nb & Hb). exists (max Na Nb). intros f Hf x [<-|Hx]; [|apply IH; auto; lia].
      destruct (Hb f ltac:(lia)) as (st & H1 & -> & H3). split; eauto. }
    destruct (G A (fun o => proj1 (HA o))) as (N & HN). exists N. intros f Hf o Ho. apply HN; auto. now apply HA. }
  destruct HN as (N & HN). exists N. intros f Hf. split; [intros o Ho; apply HL in Ho; now apply HN|].
  fold (run f). destruct (all_arrs n L (fun o => snd (run f o)) HL) as (E1 & E2). fold A in E1, E2. change (total (fun o => snd (run f o)) L <= 125 * n * (k + 1) * length L). rewrite E1, E2. clear E1 E2.
  assert (LA : length A = fact n) by (apply arrs_len; [apply seq_NoDup|apply seq_length]).
  (* the parts *)
  assert (Z1 : (qsum (fun o => zq (size o)) A <= (1 + 10 * zq n) * zq (length A))%Q).
  { destruct (size_average gv ieqb dbg Hieq math_n poly HV) as (fu & sz & S1 & S2). fold A in S2.
    assert (Es : forall o, In o A -> size o = sz o).
    { intros o Ho. apply HA in Ho. destruct (HK o (order_good poly o Ho)) as (st & vls & E & _). unfold size. rewrite (sof_at gv ieqb dbg math_n poly K HK o st vls (order_good poly o Ho) E).
      destruct E as (N' & E). destruct (S1 o (max fu N') (order_good poly o Ho) ltac:(lia)) as (st' & vls' & E' & <-). specialize (E (max fu N') ltac:(lia)). rewrite E in E'. now injection E' as <- <-. }
    rewrite (qsum_ext _ (fun o => zq (sz o))) by (intros o Ho; now rewrite Es). eapply Qle_trans; [exact S2|]. fold (zq (length A)). apply Qmult_le_compat_r; [|apply zq_pos]. pose proof (harmonic_le n) as Hh. fold (zq n) in *. lra. }
  assert (Z2 : (qsum (fun o => zq (sc o)) A <= zq (S k) * (113 * zq n) * zq (length A))%Q).
  { eapply Qle_trans; [|apply Qmult_le_compat_r; [apply (paced_cost math_n n Hpc Hl3 k (ilog_tower k n Hk))|apply zq_pos]].
    assert (Hgs : good poly (seq 0 n)) by (apply order_good; reflexivity).
    apply (sched_avg A (fun o i r => stepc gv ieqb dbg math_n poly K r (firstn (S i) o)) (fun o i => passc gv ieqb dbg math_n poly K (firstn i o) (skipn i o)) (fbar) (gbar n) (math_n n) n); try lia.
    - intros i r Hi Hr. rewrite LA. apply (prefix_avg (good poly) (good_remove poly) (S i) (fun l => zq (stepc gv ieqb dbg math_n poly K r l))); auto; [|apply seq_NoDup|apply seq_length].
      intros B HB _ HBl. apply (step_avg gv ieqb dbg Hieq math_n poly HV M HM K HE); auto.
    - intros i Hi. rewrite LA. apply (pass_avg gv ieqb dbg Hieq math_n poly HV K HK); auto. }
  assert (Z3 : (qsum (fun o => zq (snd (run f o))) A <= qsum (fun o => zq n + zq (size o) + zq (sc o)) A)%Q).
  { apply qsum_le. intros o Ho. rewrite <- !zq_add. apply zq_le. apply HN; auto. now apply HA. }
  rewrite !qsum_add, qsum_const in Z3. fold (zq (length A)) in Z3. unfold zq at 1 in Z3. rewrite qsum_nat in Z3. fold (zq (nsum (fun o => snd (run f o)) A)) in Z3.
  apply zq_le. rewrite !zq_mul. rewrite Nat.add_1_r. change (zq 125) with 125%Q. pose proof (zq_pos (length A)) as Pa. pose proof (zq_pos k) as Pk. assert (Pn : (3 <= zq n)%Q) by (change 3%Q with (zq 3); now apply zq_le).
  eapply Qle_trans; [exact Z3|]. eapply Qle_trans; [apply Qplus_le_compat; [apply Qplus_le_compat; [apply Qle_refl|exact Z1]|exact Z2]|]. rewrite zq_S.
  assert (Q1 : (zq n + (1 + 10 * zq n) + (zq k + 1) * (113 * zq n) <= 125 * zq n * (zq k + 1))%Q) by nra. apply (Qmult_le_compat_r _ _ (zq (length A))) in Q1; auto. lra.
Qed.
End Props.

(** C52, without the counter: the step budget that suffices for an order, averaged over all orders. *)
Theorem C52_average_budget {I} (gv : I -> point) ieqb math_n (poly : list I) (L : list (list nat)) (k : nat) : (forall a b, ieqb a b = true <-> a = b) ->
  valid [map gv poly] -> all_orders (length poly) L -> paced math_n (length poly) -> length poly <= tower k ->
  exists need, (forall o, In o L -> exists st, trapezoidize ieqb gv false (need o) math_n (fun _ _ => o) (map (@Continue I) poly) = Ok st) /\
    total need L <= 125 * length poly * (k + 1) * length L.
Proof.
  intros Hi HV HL Hp Hk. destruct (C52_average gv ieqb false math_n Hi poly L k HV HL Hp Hk) as (fuel & H). destruct (H fuel (le_n _)) as (H1 & H2).
  eexists. split; [|exact H2]. intros o Ho. destruct (H1 o Ho) as (st & Es). exists st. eapply C52_budget. rewrite (surjective_pairing (trapezoidize_c _ _ _ _ _ _ _)), Es. reflexivity.
Qed.

(** C52: the code's pacing, [math_n] computed without rounding. *)
Theorem C52_math_n umax n : n <= umax -> paced (real_math_n umax) n.
Proof. apply real_paced. Qed.

(** C52: with the pacing of the code, computed exactly. *)
Theorem C52_expected {I} (gv : I -> point) ieqb dbg umax (poly : list I) (L : list (list nat)) (k : nat) : (forall a b, ieqb a b = true <-> a = b) ->
  valid [map gv poly] -> all_orders (length poly) L -> length poly <= umax -> length poly <= tower k ->
  exists fuel, forall f, fuel <= f ->
    (forall o, In o L -> exists st, fst (trapezoidize_c ieqb gv dbg f (real_math_n umax) (fun _ _ => o) (map (@Continue I) poly)) = Ok st) /\
    total (fun o => snd (trapezoidize_c ieqb gv dbg f (real_math_n umax) (fun _ _ => o) (map (@Continue I) poly))) L <= 125 * length poly * (k + 1) * length L.
Proof. intros. apply C52_average; auto using C52_math_n. Qed.

From Coq Require Import Reals Lra.
Local Open Scope nat_scope.

(** C52: with the pacing of the code computed in floating point: [lg] for [f64::log2] with an error of at most [d], [dv] for the division with a relative error of at most [e], errors small compared to [1 / n]. *)
Theorem C52_computed {I} (gv : I -> point) ieqb dbg lg dv neg0 d e umax (poly : list I) (L : list (list nat)) (k : nat) : (forall a b, ieqb a b = true <-> a = b) ->
  close lg dv d e (length poly) -> (INR (length poly) * (14 * d + e) <= 1 / 4)%R ->
  valid [map gv poly] -> all_orders (length poly) L -> length poly <= umax -> length poly <= tower k ->
  exists fuel, forall f, fuel <= f ->
    (forall o, In o L -> exists st, fst (trapezoidize_c ieqb gv dbg f (computed_math_n lg dv neg0 umax) (fun _ _ => o) (map (@Continue I) poly)) = Ok st) /\
    total (fun o => snd (trapezoidize_c ieqb gv dbg f (computed_math_n lg dv neg0 umax) (fun _ _ => o) (map (@Continue I) poly))) L <= 125 * length poly * (k + 1) * length L.
Proof.
  intros Hi HC Hs HV HL Hu Hk. apply C52_average; auto. apply (computed_paced lg dv neg0 d e _ HC); auto. pose proof (hlen gv poly HV). lia.
Qed.

(** C52: in [f64], up to 2^40 vertices: a logarithm off by at most 2^-46 (logarithms of such numbers are below 2^6, so this is a relative error of 2^-52, one or two units in the last place), a division off by a factor of at most 1 + 2^-52. *)
Theorem C52_f64 {I} (gv : I -> point) ieqb dbg lg dv neg0 umax (poly : list I) (L : list (list nat)) (k : nat) : (forall a b, ieqb a b = true <-> a = b) ->
  close lg dv (/ 2 ^ 46) (/ 2 ^ 52) (length poly) -> (INR (length poly) <= 2 ^ 40)%R ->
  valid [map gv poly] -> all_orders (length poly) L -> length poly <= umax -> length poly <= tower k ->
  exists fuel, forall f, fuel <= f ->
    (forall o, In o L -> exists st, fst (trapezoidize_c ieqb gv dbg f (computed_math_n lg dv neg0 umax) (fun _ _ => o) (map (@Continue I) poly)) = Ok st) /\
    total (fun o => snd (trapezoidize_c ieqb gv dbg f (computed_math_n lg dv neg0 umax) (fun _ _ => o) (map (@Continue I) poly))) L <= 125 * length poly * (k + 1) * length L.
Proof.
  intros Hi HC Hs HV HL Hu Hk. apply (C52_computed gv ieqb dbg lg dv neg0 _ _ umax poly L k Hi HC); auto.
  apply Rle_trans with (2 ^ 40 * (14 * / 2 ^ 46 + / 2 ^ 52))%R; [apply Rmult_le_compat_r; auto; lra|lra].
Qed.

(** ** Cases *)

(** Logarithms rounded down to multiples of 2^-46, quotients too large by a factor of 1 + 2^-52. *)
Definition coarse_log (x : R) : R := (IZR (Int_part (rlog2 x * 2 ^ 46)) / 2 ^ 46)%R.
Definition coarse_div (a b : R) : R := (a / b * (1 + / 2 ^ 52))%R.
Example coarse_close n : close coarse_log coarse_div (/ 2 ^ 46) (/ 2 ^ 52) n.
Proof.
  assert (P1 : (0 < / 2 ^ 46)%R) by (apply Rinv_0_lt_compat; lra). assert (P2 : (0 < / 2 ^ 52)%R) by (apply Rinv_0_lt_compat; lra). assert (N0 := pos_INR n).
  repeat split; try lra.
  - destruct (base_Int_part (rlog2 x * 2 ^ 46)) as (_ & B). unfold coarse_log. apply Rmult_le_reg_r with (2 ^ 46)%R; [lra|]. field_simplify; lra.
  - destruct (base_Int_part (rlog2 x * 2 ^ 46)) as (B & _). unfold coarse_log. apply Rmult_le_reg_r with (2 ^ 46)%R; [lra|]. field_simplify; lra.
  - intros l Hl. unfold coarse_div. apply Rmult_le_compat_l; [|lra]. unfold Rdiv. apply Rmult_le_pos; auto. left. now apply Rinv_0_lt_compat.
  - intros l Hl. unfold coarse_div. lra.
Qed.

(** Pacing with integers. *)
Definition int_math_n (n h : nat) : nat := if Nat.eqb (ilog h n) 0 then n else n / ilog h n + 1.

Example int_paced n : paced int_math_n n.
Proof.
  intros h _ _. unfold int_math_n. split; intros H.
  - left. now rewrite H.
  - assert (Nat.eqb (ilog h n) 0 = false) as -> by (apply Nat.eqb_neq; lia). pose proof (Nat.div_mod n (ilog h n) ltac:(lia)). pose proof (Nat.mod_upper_bound n (ilog h n) ltac:(lia)). rewrite Nat.add_sub. nia.
Qed.

(** The quadrilateral of [PropQuery], re-located after 4 / 2 + 1 segments: 570 iterations over all 24 orders. *)
Definition quad_work (o : list nat) := trapezoidize_c Nat.eqb (gv_of quad) true 100 int_math_n (fun _ _ => o) (map (@Continue nat) (seq 0 4)).
Example C52_case : int_math_n 4 1 = 3 /\ 4 <= tower 2 /\ total (fun o => snd (quad_work o)) (arrs 4 (seq 0 4)) = 570.
Proof. split; [reflexivity|]. split; [cbn; lia|]. vm_compute. reflexivity. Qed.

Print Assumptions C52_counted.
Print Assumptions C52_budget.
Print Assumptions C52_average.
Print Assumptions C52_average_budget.
Print Assumptions C52_math_n.
Print Assumptions C52_expected.
Print Assumptions C52_computed.
Print Assumptions C52_f64.
