(** Property C62: the number of loop iterations made by the triangulation, and by the whole call. *)
From Coq Require Import QArith List Arith Lia Bool Permutation.
From Verif Require Import Base Coord Trap Mono Tri Trace Protocol Indices Bounds Basic Runs Plane ValidB Budget Build Whole Ends EndsFan EndsTri Work WorkAverage Random RandomWork Phases RealPace TriWork TriBudget Outcome Mountain SlowFam Format PropEnds PropSteps PropTri PropSlow PropQuery PropWork PropWorst.
Import ListNotations.
Local Open Scope nat_scope.

(** [Trapezoidation::triangulate] and [PolygonList::triangulate] (src/trapezoidation.rs 884-889, src/inputs/polygon_list.rs 177-179) with the number of iterations of
    all loops: those of the trapezoidation, counted as for C52, and those of the triangulation. *)
Definition trap_triangulate_c {C} {OC : CoordOps C} {I E Out M} (F : fan_format I E Out M) (gv : I -> coords C) (dbg : bool) (fuel : nat) (st : state C I) : outcome E Out M * nat :=
  let r := triangulate_inner_c (fbs_new F) (fbs_ext F) (ff_cw F) gv fuel st (FUninit, 0) in
  (fbs_complete F dbg (fst (fst r)) (snd r), snd (fst r)).

Definition triangulate_c {C} {OC : CoordOps C} {I E Out M} (F : fan_format I E Out M) (ieqb : I -> I -> bool) (gv : I -> coords C) (dbg : bool) (fuel : nat)
  (math_n : nat -> nat -> nat) (shuf : nat -> nat -> list nat) (elems : list (element I)) : outcome E Out M * nat :=
  let t := trapezoidize_c ieqb gv dbg fuel math_n shuf elems in
  match fst t with
  | Ok st => let r := trap_triangulate_c F gv dbg fuel st in (fst r, snd t + snd r)
  | Err e => (Returned (inr (TETrapezoidation e)) (ff_dropped F), snd t)
  | Crash c => (Crashed c, snd t)
  end.

Lemma inner_erase {C} {OC : CoordOps C} {I E Out M} (F : fan_format I E Out M) (gv : I -> coords C) fuel st c :
  let r := triangulate_inner gv (fbs_new F) (fbs_ext F) (ff_cw F) fuel st FUninit in
  let rc := triangulate_inner_c (fbs_new F) (fbs_ext F) (ff_cw F) gv fuel st (FUninit, c) in fst (fst rc) = fst r /\ snd rc = snd r.
Proof.
  cbn zeta. unfold triangulate_inner, triangulate_inner_c. destruct (top_cst fuel (st_qs st) 0 (FUninit (F := F)) c) as (H1 & H2 & _).
  destruct (top_trapezoid_c fuel (st_qs st) 0 (FUninit (F := F), c)) as [[s c'] r]. cbn [fst snd] in *. subst s r. unfold sbind, lift. cbn [fst snd].
  destruct (top_trapezoid fuel (st_qs st) 0) as [t0|e|cr]; cbn [map_err fst snd]; auto.
  destruct (loop_pay (fbs_new F) (fbs_ext F) (fbs_new_nf F) (fbs_ext_nf F) (ff_cw F) gv st fuel c' fuel 0 (mkT t0 None [] []) FUninit c') as (H1 & H2 & _); auto.
  exists 0. cbn. lia.
Qed.

(** C62: the counter changes nothing. *)
Theorem C62_counted {C} {OC : CoordOps C} {I E Out M} (F : fan_format I E Out M) ieqb (gv : I -> coords C) dbg fuel math_n shuf elems :
  fst (triangulate_c F ieqb gv dbg fuel math_n shuf elems) = triangulate F ieqb gv dbg fuel math_n shuf elems.
Proof.
  unfold triangulate_c, triangulate. rewrite (C52_counted ieqb gv dbg fuel math_n shuf elems). destruct (trapezoidize _ _ _ _ _ _ _) as [st|e|c]; auto.
  unfold trap_triangulate_c, trap_triangulate. cbn [fst snd]. destruct (inner_erase F gv fuel st 0) as (H1 & H2). rewrite H1, H2.
  now destruct (triangulate_inner _ _ _ _ _ _ _).
Qed.

Lemma replay_nf {I S E} (newf : S -> I -> I -> I -> sres S (tri_error E) unit) (ext : S -> I -> sres S (tri_error E) unit) :
  (forall s a b c, snd (newf s a b c) <> Crash Fuel) -> (forall s a, snd (ext s a) <> Crash Fuel) -> forall l s, snd (replay newf ext s l) <> Crash Fuel.
Proof.
  intros H1 H2. induction l as [|[a b c|v] l IH]; intros s; cbn [replay]; [discriminate| |]; unfold sbind.
  - specialize (H1 s a b c). destruct (newf s a b c) as [s' [u|e|cr]]; cbn in *; auto; congruence.
  - specialize (H2 s v). destruct (ext s v) as [s' [u|e|cr]]; cbn in *; auto; congruence.
Qed.

Section Props.
Context {I : Type}.
Variables (gv : I -> point) (ieqb : I -> I -> bool) (dbg : bool) (math_n : nat -> nat -> nat) (shuf : nat -> nat -> list nat).
Hypothesis Hieq : forall a b, ieqb a b = true <-> a = b.
Hypothesis Hshuf : forall k n, Permutation (shuf k n) (seq 0 n).
Variable elems : list (element I).
Notation ps := (map (map gv) (groups elems)).
Notation n := (vertices elems).

(** C62: the triangulation of the trapezoidation of any valid list of polygons, with any builder (also one that fails), makes at most 100 (n + 1)^2 + 22 (n + 1) + (n + 4)^2 iterations in total. *)
Theorem C62_triangulation {E Out M} (F : fan_format I E Out M) : valid ps ->
  exists fuel st, forall f, fuel <= f -> trapezoidize ieqb gv dbg f math_n shuf elems = Ok st /\
    (exists r m, fst (trap_triangulate_c F gv dbg f st) = Returned r m) /\
    snd (trap_triangulate_c F gv dbg f st) <= 100 * ((n + 1) * (n + 1)) + 22 * (n + 1) + (n + 4) * (n + 4).
Proof.
  intros HV. rewrite vertices_continues. set (K := (continues elems + 4) * (continues elems + 4)).
  destruct (trapezoidize_done gv ieqb dbg Hieq math_n shuf Hshuf elems HV) as (st & (N0 & HN0) & HD).
  pose proof (trapezoidize_ends gv ieqb dbg K math_n shuf elems Hshuf (le_n _)) as He.
  assert (HK : trapezoidize ieqb gv dbg K math_n shuf elems = Ok st).
  { destruct (trapezoidize_mono ieqb gv dbg K (K + N0) ltac:(lia) math_n shuf elems) as [H|H]; [rewrite H in He; destruct He|]. rewrite H. apply HN0. lia. }
  rewrite HK in He. destruct He as ((rk & Htidy) & _ & Hq).
  assert (Hlen : length (st_ts st) = 2 * continues elems + 1).
  { pose proof (trap_sizes ieqb gv dbg K math_n shuf elems st Hshuf HK) as (_ & _ & H). rewrite continues_count. exact H. }
  destruct (loop_at (E := E) gv elems HV (ff_cw F) st HD) as (t0 & N & calls & _ & (M0 & HM) & Hloop).
  destruct (C48_quadratic gv ieqb dbg math_n shuf Hieq Hshuf elems F HV) as (r & m & Hrm). rewrite vertices_continues in Hrm.
  exists (K + N0 + N + M0 + 4 * ((continues elems + 2) * (continues elems + 2))), st. intros f Hf. assert (Hst := HN0 f ltac:(lia)). split; [exact Hst|]. split.
  - exists r, m. rewrite <- (Hrm f ltac:(lia)). unfold triangulate. rewrite Hst. unfold trap_triangulate_c, trap_triangulate. cbn [fst]. destruct (inner_erase F gv f st 0) as (H1 & H2). rewrite H1, H2.
    now destruct (triangulate_inner _ _ _ _ _ _ _).
  - unfold trap_triangulate_c. cbn [snd]. unfold triangulate_inner_c.
    assert (Hk : Datatypes.S (length (st_qs st)) <= K) by exact Hq. set (q := Datatypes.S (length (st_qs st))) in *.
    assert (Htop : top_trapezoid f (st_qs st) 0 = Ok t0) by (apply HM; lia).
    assert (Hnf : top_trapezoid q (st_qs st) 0 <> Crash Fuel).
    { destruct (td_lv _ _ _ Htidy) as (lv & Hlv). pose proof (top_ends lv _ Hlv q 0) as Ht. destruct Hlv as (_ & Hb). specialize (Hb 0). intros H. rewrite H in Ht. apply Ht. unfold q. lia. }
    destruct (top_cst q (st_qs st) 0 (FUninit (F := F)) 0) as (_ & T2 & T3). destruct (T3 Hnf) as (T4 & _).
    destruct (top_cst f (st_qs st) 0 (FUninit (F := F)) 0) as (U1 & U2 & _).
    destruct (top_more q f (st_qs st) 0 (FUninit (F := F), 0) ltac:(lia)) as [H|H]; [cbn [snd] in T2; congruence|].
    rewrite H in *. destruct (top_trapezoid_c q (st_qs st) 0 (FUninit (F := F), 0)) as [[s c] x]. cbn [fst snd] in *. subst s. rewrite U2, Htop.
    unfold sbind, lift. cbn [map_err fst snd]. clear T2 T3 U2 H.
    set (j := Datatypes.S (length (st_ts st))). set (x0 := mkT t0 None [] []).
    assert (Hj : snd (tri_loop gv (fbs_new F) (fbs_ext F) (ff_cw F) f st j x0 FUninit) <> Crash Fuel).
    { destruct (tri_loop_tracks (fbs_new F) (fbs_ext F) gv (ff_cw F) f st j x0) as (cs & rr & Hp & Hs). rewrite Hs. specialize (Hp []). unfold j, x0 in Hp. rewrite Hloop in Hp by lia. injection Hp as _ <-.
      pose proof (replay_nf (fbs_new F) (fbs_ext F) (fbs_new_nf F) (fbs_ext_nf F) cs FUninit) as Hr. unfold sbind. destruct (replay _ _ _ _) as [s' [u|e|cr]]; cbn in *; congruence. }
    destruct (loop_pay (fbs_new F) (fbs_ext F) (fbs_new_nf F) (fbs_ext_nf F) (ff_cw F) gv st f c j 0 x0 FUninit c) as (_ & L2 & L3); [exists 0; cbn; lia|].
    destruct (L3 Hj) as (L4 & _). destruct (loop_more (fbs_new F) (fbs_ext F) (ff_cw F) gv st f j f x0 (FUninit, c)) as [H|H].
    + unfold j. rewrite Hlen. unfold K in Hf. nia.
    + congruence.
    + rewrite H. etransitivity; [exact L4|]. unfold j. rewrite Hlen. unfold K in *. clear - T4 Hk. set (y := continues elems) in *. lia.
Qed.
End Props.

(** ** One polygon *)

Section Poly.
Context {I : Type}.
Variables (gv : I -> point) (ieqb : I -> I -> bool) (dbg : bool) (math_n : nat -> nat -> nat) (shuf : nat -> nat -> list nat).
Hypothesis Hieq : forall a b, ieqb a b = true <-> a = b.
Hypothesis Hshuf : forall k n, Permutation (shuf k n) (seq 0 n).
Variable poly : list I.
Notation n := (length poly).
Notation V := (map gv poly).

Lemma one_order f : trapezoidize_c ieqb gv dbg f math_n shuf (map (@Continue I) poly) = trapezoidize_c ieqb gv dbg f math_n (fun _ _ => shuf 0 n) (map (@Continue I) poly).
Proof. unfold trapezoidize_c. rewrite !build_poly_c. cbn [app build_loop_c]. now rewrite map_length. Qed.

Lemma groups_poly : poly <> [] -> groups (map (@Continue I) poly) = [poly].
Proof.
  intros Hq. assert (K : forall cur, groups_from cur (map (@Continue I) poly) = match cur ++ poly with [] => [] | _ => [cur ++ poly] end).
  { clear. induction poly as [|a q IH]; intros cur; cbn [map groups_from]; [now rewrite app_nil_r; destruct cur|]. rewrite IH, <- app_assoc. reflexivity. }
  unfold groups. rewrite K. cbn [app]. now destruct poly.
Qed.

Lemma vertices_poly : vertices (map (@Continue I) poly) = n.
Proof. unfold vertices. induction poly as [|a q IH]; cbn; auto. Qed.

(** C62: the whole call, for every order of insertion, with re-locations paced by iterated logarithms: at most (5 log* n + 211) n^2 iterations. *)
Theorem C62_total (k : nat) {E Out M} (F : fan_format I E Out M) : valid [V] -> paced math_n n -> n <= tower k ->
  exists fuel, forall f, fuel <= f -> (exists r m, fst (triangulate_c F ieqb gv dbg f math_n shuf (map (@Continue I) poly)) = Returned r m) /\
    snd (triangulate_c F ieqb gv dbg f math_n shuf (map (@Continue I) poly)) <= (5 * k + 211) * (n * n).
Proof.
  intros HV Hp Hk. pose proof (hlen gv poly HV) as Hl3.
  destruct (C61_worst gv ieqb dbg math_n Hieq poly (shuf 0 n) k HV (Hshuf 0 n) Hp Hk) as (N1 & H1).
  destruct (C62_triangulation gv ieqb dbg math_n shuf Hieq Hshuf (map (@Continue I) poly) F) as (N2 & st & H2); [rewrite groups_poly; [exact HV|intros ->; cbn in Hl3; lia]|].
  rewrite vertices_poly in H2. exists (N1 + N2). intros f Hf. destruct (H1 f ltac:(lia)) as (st' & E1 & L1). destruct (H2 f ltac:(lia)) as (E2 & (r & m & E3) & L2).
  rewrite <- one_order in E1, L1. unfold triangulate_c. rewrite <- (C52_counted ieqb gv dbg f math_n shuf) in E2. rewrite E2. cbn [fst snd]. split; [eauto|]. nia.
Qed.

(** C62: whatever the pacing. *)
Theorem C62_any {E Out M} (F : fan_format I E Out M) : valid [V] ->
  exists fuel, forall f, fuel <= f -> (exists r m, fst (triangulate_c F ieqb gv dbg f math_n shuf (map (@Continue I) poly)) = Returned r m) /\
    snd (triangulate_c F ieqb gv dbg f math_n shuf (map (@Continue I) poly)) <= (5 * n + 211) * (n * n).
Proof.
  intros HV. pose proof (hlen gv poly HV) as Hl3.
  destruct (C61_any gv ieqb dbg math_n Hieq poly (shuf 0 n) HV (Hshuf 0 n)) as (N1 & H1).
  destruct (C62_triangulation gv ieqb dbg math_n shuf Hieq Hshuf (map (@Continue I) poly) F) as (N2 & st & H2); [rewrite groups_poly; [exact HV|intros ->; cbn in Hl3; lia]|].
  rewrite vertices_poly in H2. exists (N1 + N2). intros f Hf. destruct (H1 f ltac:(lia)) as (st' & E1 & L1). destruct (H2 f ltac:(lia)) as (E2 & (r & m & E3) & L2).
  rewrite <- one_order in E1, L1. unfold triangulate_c. rewrite <- (C52_counted ieqb gv dbg f math_n shuf) in E2. rewrite E2. cbn [fst snd]. split; [eauto|]. nia.
Qed.
End Poly.

(** ** The count is a step budget *)

(** C62: with a step budget as large as the count of a run, no loop runs out of it (release profile), for every coordinate type and every input. *)
Theorem C62_budget {C} {OC : CoordOps C} {I E Out M} (F : fan_format I E Out M) ieqb (gv : I -> coords C) f math_n shuf elems st t :
  trapezoidize_c ieqb gv false f math_n shuf elems = (Ok st, t) ->
  let r := triangulate_c F ieqb gv false f math_n shuf elems in fst r <> Crashed Fuel -> triangulate F ieqb gv false (snd r) math_n shuf elems = fst r.
Proof.
  intros Ht. cbn zeta. unfold triangulate_c. rewrite Ht. cbn [fst snd]. set (D := t + snd (trap_triangulate_c F gv false f st)). intros Hn.
  assert (HT : trapezoidize ieqb gv false D math_n shuf elems = Ok st).
  { pose proof (C52_budget ieqb gv f math_n shuf elems st t Ht) as H. destruct (trapezoidize_mono ieqb gv false t D ltac:(unfold D; lia) math_n shuf elems) as [K|K]; congruence. }
  unfold triangulate. rewrite HT. unfold trap_triangulate, trap_triangulate_c in *. cbn [fst snd] in *.
  destruct (inner_bud (fbs_new F) (fbs_ext F) (ff_cw F) D gv f st FUninit 0) as (_ & H2). destruct H2 as (E1 & E2).
  - intros H. rewrite H in Hn. apply Hn. now destruct (fst (fst _)).
  - unfold D. lia.
  - destruct (triangulate_inner _ _ _ _ _ _ _) as [s x]. cbn [fst snd] in E1, E2. now subst s x.
Qed.

(** ** The square is needed *)

(** C62: for every odd n >= 3 there is a valid polygon with n vertices for which the whole call makes more than (n - 1) (n - 3) / 4 iterations, for every order of insertion and with every
    builder that does not fail. *)
Theorem C62_quadratic n : 3 <= n -> Nat.odd n = true -> exists V, valid [V] /\ length V = n /\
  forall (I : Type) (gv : I -> point) ieqb math_n shuf (elems : list (element I)), (forall a b, ieqb a b = true <-> a = b) -> (forall k m, Permutation (shuf k m) (seq 0 m)) ->
  map (map gv) (groups elems) = [V] -> forall E Out M (F : fan_format I E Out M), willing F -> exists fuel, forall f, fuel <= f ->
    (exists out m, fst (triangulate_c F ieqb gv false f math_n shuf elems) = Returned (inl out) m) /\
    (n - 1) * (n - 3) < 4 * snd (triangulate_c F ieqb gv false f math_n shuf elems).
Proof.
  intros H3 Ho. destruct (C49_quadratic n H3 Ho) as (V & HV & Hl & H). exists V. split; auto. split; auto. intros I gv ieqb math_n shuf elems Hieq Hshuf HP E Out M F HF.
  assert (HV' : valid (map (map gv) (groups elems))) by now rewrite HP.
  destruct (C62_triangulation gv ieqb false math_n shuf Hieq Hshuf elems F HV') as (N1 & st & H1).
  destruct (C48_quadratic_ok gv ieqb false math_n shuf Hieq Hshuf elems F HV') as (out & m & H2); auto; [intros Z; rewrite Z in HP; discriminate|].
  set (K := 4 * ((vertices elems + 2) * (vertices elems + 2))) in H2. exists (N1 + K). intros f Hf. assert (Er : fst (triangulate_c F ieqb gv false f math_n shuf elems) = Returned (inl out) m) by (rewrite C62_counted; apply H2; lia).
  split; [eauto|]. destruct (Nat.lt_ge_cases ((n - 1) * (n - 3)) (4 * snd (triangulate_c F ieqb gv false f math_n shuf elems))) as [|L]; auto. exfalso.
  specialize (H _ L I gv ieqb false math_n shuf elems Hieq Hshuf HP E Out M F HF). destruct (H1 f ltac:(lia)) as (Ht & _). rewrite <- (C52_counted ieqb gv false f math_n shuf) in Ht.
  rewrite (C62_budget F ieqb gv f math_n shuf elems st (snd (trapezoidize_c ieqb gv false f math_n shuf elems))) in H.
  - rewrite Er in H. discriminate.
  - rewrite <- Ht. apply surjective_pairing.
  - rewrite Er. discriminate.
Qed.

(** ** Cases *)

(** The counts of the two phases and of the whole call, and the number of triangles. *)
Definition counts (V : list point) (order : list nat) : option (nat * nat * nat) :=
  let els := map (@Continue nat) (seq 0 (length V)) in let shuf := fun _ _ => order in
  let r := triangulate_c (fan_to_list (indexed_list (vec_triples nat) [])) Nat.eqb (gv_of V) false 1000 int_math_n shuf els in
  match fst r with Returned (inl T) _ => Some (snd (trapezoidize_c Nat.eqb (gv_of V) false 1000 int_math_n shuf els), snd r, length T) | _ => None end.

(** The quadrilateral of [PropQuery]: valid, paced, 25 iterations of the trapezoidation (as in [C61_case]) and 19 of the triangulation; the bound is 3536. *)
Example C62_case : valid [map (gv_of quad) (seq 0 4)] /\ paced int_math_n 4 /\ 4 <= tower 2 /\ counts quad [0; 1; 2; 3] = Some (25, 44, 2) /\ counts quad [3; 1; 0; 2] = Some (24, 43, 2) /\ (5 * 2 + 211) * (4 * 4) = 3536.
Proof. split; [exact quad_valid|]. split; [apply int_paced|]. split; [cbn; lia|]. vm_compute. repeat split. Qed.

(** Polygons of [C62_quadratic] with 7, 15 and 31 vertices: the triangulation makes 33, 97 and 321 iterations. *)
Example C62_slow : valid [slow 14] /\ length (slow 14) = 31 /\ counts (slow 2) (seq 0 7) = Some (48, 81, 5) /\ counts (slow 6) (seq 0 15) = Some (132, 229, 13) /\ counts (slow 14) (seq 0 31) = Some (367, 688, 29).
Proof. split; [apply slow_valid|]. split; [apply slow_length|]. vm_compute. repeat split. Qed.

(** The count, 229, is a step budget for the second of them. *)
Example C62_budget_case : exists T, run (fan_to_list (indexed_list (vec_triples nat) [])) false 229 (slow 6) = Returned (inl T) T /\ length T = 13.
Proof. eexists. split; vm_compute; reflexivity. Qed.

Print Assumptions C62_counted.
Print Assumptions C62_triangulation.
Print Assumptions C62_total.
Print Assumptions C62_any.
Print Assumptions C62_budget.
Print Assumptions C62_quadratic.
