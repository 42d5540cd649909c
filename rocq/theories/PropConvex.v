(** Convex polygons with floating point vertices, and the regular polygons of the test suite. *)
From Coq Require Import Reals Qreals ZArith QArith Qabs Qpower Lqa List Arith Bool Lia Permutation.
From Coq Require Lra.
From Coq.Floats Require Import SpecFloat.
From Verif Require Import Base Coord Trap Mono Tri Trace Protocol Format Builders Runs Plane MonoGeom ValidRuns ValidB EvenOdd Whole Budget Outcome Area PropTri PropCount Cover Inv PropMesh FormatFacts PropBuilders Float FloatRuns FloatErr FloatWit PropFloat Convex Circle.
Import ListNotations.
Local Open Scope nat_scope.

(** Any three vertices, taken in order, turn to the same side ([s] is [1] for counterclockwise polygons and [-1] for clockwise ones); [c] is less than
    twice the area of their triangle. *)
Definition convex (s c : Q) (l : list point) : Prop :=
  3 <= length l /\ forall i j k p q r, i < j < k -> nth_error l i = Some p -> nth_error l j = Some q -> nth_error l k = Some r -> (c < s * cross p q r)%Q.

(** C59: strictly convex polygons are valid. *)
Theorem C59_valid s l : convex s 0 l -> valid [l].
Proof. intros H. apply (turning_valid s 0); [apply Qle_refl|exact H]. Qed.

Lemma felems_groups l : l <> [] -> groups (felems l) = [seq 0 (length l)].
Proof.
  intros H. unfold felems, groups. assert (G : forall is cur, groups_from cur (map (@Continue nat) is) = match cur ++ is with [] => [] | _ => [cur ++ is] end).
  { induction is as [|i is IH]; intros cur; cbn; [rewrite app_nil_r; destruct cur; auto|]. rewrite IH, <- app_assoc. reflexivity. }
  rewrite G. cbn [app]. destruct l; [congruence|reflexivity].
Qed.
Lemma felems_pos l : l <> [] -> map (map (fun i => fpos (fgv l i))) (groups (felems l)) = [map fpos l].
Proof.
  intros H. rewrite felems_groups by auto. cbn [map]. f_equal. rewrite <- (map_map (fgv l) fpos). f_equal. unfold fgv. clear. generalize (f00, f00). intros d.
  induction l as [|v l IH]; cbn; auto. f_equal. rewrite <- seq_shift, map_map. exact IH.
Qed.

(** All coordinates at most [b]. *)
Definition bounded_by (b : Q) (l : list point) : Prop := Forall (fun p => Qabs (fst p) <= b /\ Qabs (snd p) <= b)%Q l.

Lemma abs_mul_le x y m : (Qabs x <= m -> Qabs y <= m -> Qabs (x * y) <= m * m)%Q.
Proof. intros H1 H2. rewrite Qabs_Qmult. pose proof (Qabs_nonneg x). pose proof (Qabs_nonneg y). apply Qmult_le_compat_nonneg; lra. Qed.
Lemma abs_sub_le x y m : (Qabs x <= m -> Qabs y <= m -> Qabs (x - y) <= 2 * m)%Q.
Proof. intros H1 H2. apply abs_le in H1. apply abs_le in H2. apply abs_le. lra. Qed.

Lemma convex_clear prec emax s b l : (s == 1 \/ s == -1)%Q -> bounded_by b (map fpos l) -> convex s (2 ^ (- prec) * 32 * b * b) (map fpos l) -> all_clear prec emax (fgv l) (felems l).
Proof.
  intros Hs HB HC i k m Hi Hk Hm N1 N2. left. unfold felems in Hi, Hk, Hm.
  assert (G : forall i, In (Continue i) (map (@Continue nat) (seq 0 (length l))) -> i < length l /\ nth_error (map fpos l) i = Some (fpos (fgv l i))).
  { clear. intros i H. apply in_map_iff in H. destruct H as (j & E & H). injection E as <-. apply in_seq in H. split; [lia|]. rewrite nth_error_map. unfold fgv. rewrite (nth_error_nth' l (f00, f00)) by lia. reflexivity. }
  apply G in Hi, Hk, Hm. destruct Hi as (Li & Ei), Hk as (Lk & Ek), Hm as (Lm & Em). set (p := fpos (fgv l i)) in *. set (q := fpos (fgv l k)) in *. set (r := fpos (fgv l m)) in *.
  destruct (Nat.eq_dec i k) as [E|Nik]; [left; assert (p = q) by congruence; rewrite H; split; ring|].
  destruct (Nat.eq_dec i m) as [E|Nim]; [elim N1; assert (p = r) by congruence; rewrite H; reflexivity|].
  destruct (Nat.eq_dec k m) as [E|Nkm]; [elim N2; assert (q = r) by congruence; rewrite H; reflexivity|]. right.
  unfold bounded_by in HB. rewrite Forall_forall in HB. pose proof (HB p (nth_error_In _ _ Ei)) as (P1 & P2). pose proof (HB q (nth_error_In _ _ Ek)) as (Q1 & Q2). pose proof (HB r (nth_error_In _ _ Em)) as (R1 & R2).
  set (x := ((fst p - fst q) * (snd r - snd q))%Q). set (y := ((snd p - snd q) * (fst r - fst q))%Q).
  assert (X : (Qabs x <= 2 * b * (2 * b))%Q) by (apply abs_mul_le; apply abs_sub_le; auto). assert (Y : (Qabs y <= 2 * b * (2 * b))%Q) by (apply abs_mul_le; apply abs_sub_le; auto).
  assert (U : (0 < 2 ^ (- prec))%Q) by apply pow_pos_q. assert (B0 : (0 <= b)%Q) by (pose proof (Qabs_nonneg (fst p)); lra).
  assert (C0 : (0 <= 2 ^ (- prec) * 32 * b * b)%Q). { assert (0 <= b * b)%Q by (apply Qmult_le_0_compat; auto). setoid_replace (2 ^ (- prec) * 32 * b * b)%Q with (2 ^ (- prec) * (32 * (b * b)))%Q by ring. apply Qmult_le_0_compat; lra. }
  assert (D : (x - y == cross q p r)%Q) by (unfold x, y, cross, cx, cy; ring).
  assert (T : (2 ^ (- prec) * 32 * b * b < Qabs (x - y))%Q).
  { rewrite D. destruct (turn_any s _ (map fpos l) HC k i m q p r) as [T|T]; auto; destruct Hs as [Hs|Hs]; rewrite Hs in T; (eapply Qlt_le_trans; [exact T|]); pose proof (Qle_Qabs (cross q p r)); pose proof (Qle_Qabs (- cross q p r)) as A; rewrite Qabs_opp in A; lra. }
  eapply Qle_lt_trans; [|exact T]. setoid_replace (2 ^ (- prec) * 32 * b * b)%Q with (4 * 2 ^ (- prec) * (8 * (b * b)))%Q by ring. apply Qmult_le_l; lra.
Qed.

(** C59: a polygon of [f64] vertices whose exact positions are convex, by a margin of [2^-48] times the square of a bound for the coordinates, is
    triangulated in every insertion order: every builder that does not fail gets its output, and as many triangles as vertices less two, none
    clockwise, tile the polygon. *)
Theorem C59_f64 s b (l : list (coords spec_float)) dbg math_n shuf : (forall k n, Permutation (shuf k n) (seq 0 n)) -> (s == 1 \/ s == -1)%Q ->
  spread 53 1024 (-510) 509 (fgv l) (felems l) -> bounded_by b (map fpos l) -> convex s (2 ^ (-48) * b * b) (map fpos l) ->
  (forall E Out Mt (F : fan_format nat E Out Mt), willing F -> exists out m N, forall fuel, N <= fuel ->
     triangulate (OC := f64) F Nat.eqb (fgv l) dbg fuel math_n shuf (felems l) = Returned (inl out) m) /\
  exists T, f64_returns (fgv l) Nat.eqb dbg math_n shuf (felems l) T /\ length T + 2 = length l /\
    tiles [map fpos l] (map (tri_pos (fun i => fpos (fgv l i))) T) /\
    forall a b c, In (a, b, c) T -> (0 <= cross (fpos (fgv l a)) (fpos (fgv l b)) (fpos (fgv l c)))%Q.
Proof.
  intros Hs Ho HS HB HC. assert (B0 : (0 <= b)%Q).
  { destruct HC as (L & _). destruct (map fpos l) as [|p ps]; [cbn in L; lia|]. inversion HB as [|? ? (H1 & _) _]; subst. pose proof (Qabs_nonneg (fst p)). lra. }
  assert (HC' : convex s (2 ^ (- (53)) * 32 * b * b) (map fpos l)).
  { destruct HC as (L & HC). split; auto. intros i j k p q r O Hp Hq Hr. eapply Qle_lt_trans; [|exact (HC i j k p q r O Hp Hq Hr)]. setoid_replace (2 ^ (- (53)) * 32)%Q with (2 ^ (-48))%Q by reflexivity. apply Qle_refl. }
  assert (HV : valid [map fpos l]). { apply (C59_valid s). destruct HC as (L & HC). split; auto. intros i j k p q r O Hp Hq Hr. eapply Qle_lt_trans; [|exact (HC i j k p q r O Hp Hq Hr)].
    assert (0 <= b * b)%Q by (apply Qmult_le_0_compat; auto). assert (0 < 2 ^ (-48))%Q by reflexivity. setoid_replace (2 ^ (-48) * b * b)%Q with (2 ^ (-48) * (b * b))%Q by ring. apply Qmult_le_0_compat; lra. }
  assert (Ln : l <> []) by (intros ->; destruct HC as (L & _); cbn in L; lia). pose proof (felems_pos l Ln) as E. pose proof (convex_clear 53 1024 s b l Ho HB HC') as HA.
  assert (HV' : valid (map (map (fun i => fpos (fgv l i))) (groups (felems l)))) by now rewrite E. assert (Hn : map (map (fun i => fpos (fgv l i))) (groups (felems l)) <> []) by (rewrite E; discriminate).
  assert (Hi : forall a b, Nat.eqb a b = true <-> a = b) by (intros; apply Nat.eqb_eq). split.
  - intros E' Out Mt F HF. destruct (C01_succeeds (fun i => fpos (fgv l i)) Nat.eqb dbg math_n shuf Hi Hs (felems l) HV' Hn F HF) as (out & m & N & H). exists out, m, N. intros fuel Hf.
    rewrite (C47_f64 F Nat.eqb (fgv l) dbg fuel math_n shuf (felems l) HS HA). exact (proj1 (H fuel) Hf).
  - destruct (C47_f64_triangulates (fgv l) Nat.eqb dbg math_n shuf (felems l) Hi Hs HS HA HV' Hn) as (T & HT & H1 & _ & H2). exists T. rewrite E in H1. repeat split; auto; try apply H1.
    rewrite <- (map_length fpos l). destruct HT as (fuel & HT). rewrite (C47_f64 _ Nat.eqb (fgv l) dbg fuel math_n shuf (felems l) HS HA) in HT.
    apply (C06_single (fun i => fpos (fgv l i)) Nat.eqb dbg math_n shuf Hi Hs (felems l) HV' Hn (map fpos l) T E). exists fuel. exact HT.
Qed.

(** C59: the same with [f32] vertices and a margin of [2^-19] times the square of the bound. *)
Theorem C59_f32 s b (l : list (coords spec_float)) dbg math_n shuf : (forall k n, Permutation (shuf k n) (seq 0 n)) -> (s == 1 \/ s == -1)%Q ->
  spread 24 128 (-62) 61 (fgv l) (felems l) -> bounded_by b (map fpos l) -> convex s (2 ^ (-19) * b * b) (map fpos l) ->
  forall E Out Mt (F : fan_format nat E Out Mt), willing F -> exists out m N, forall fuel, N <= fuel ->
    triangulate (OC := f32) F Nat.eqb (fgv l) dbg fuel math_n shuf (felems l) = Returned (inl out) m /\
    triangulate F Nat.eqb (fun i => fpos (fgv l i)) dbg fuel math_n shuf (felems l) = Returned (inl out) m.
Proof.
  intros Hs Ho HS HB HC E' Out Mt F HF. assert (B0 : (0 <= b)%Q).
  { destruct HC as (L & _). destruct (map fpos l) as [|p ps]; [cbn in L; lia|]. inversion HB as [|? ? (H1 & _) _]; subst. pose proof (Qabs_nonneg (fst p)). lra. }
  assert (HC' : convex s (2 ^ (- (24)) * 32 * b * b) (map fpos l)).
  { destruct HC as (L & HC). split; auto. intros i j k p q r O Hp Hq Hr. eapply Qle_lt_trans; [|exact (HC i j k p q r O Hp Hq Hr)]. setoid_replace (2 ^ (- (24)) * 32)%Q with (2 ^ (-19))%Q by reflexivity. apply Qle_refl. }
  assert (HV : valid [map fpos l]). { apply (C59_valid s). destruct HC as (L & HC). split; auto. intros i j k p q r O Hp Hq Hr. eapply Qle_lt_trans; [|exact (HC i j k p q r O Hp Hq Hr)].
    assert (0 <= b * b)%Q by (apply Qmult_le_0_compat; auto). assert (0 < 2 ^ (-19))%Q by reflexivity. setoid_replace (2 ^ (-19) * b * b)%Q with (2 ^ (-19) * (b * b))%Q by ring. apply Qmult_le_0_compat; lra. }
  assert (Ln : l <> []) by (intros ->; destruct HC as (L & _); cbn in L; lia). pose proof (felems_pos l Ln) as E. pose proof (convex_clear 24 128 s b l Ho HB HC') as HA.
  assert (HV' : valid (map (map (fun i => fpos (fgv l i))) (groups (felems l)))) by now rewrite E. assert (Hn : map (map (fun i => fpos (fgv l i))) (groups (felems l)) <> []) by (rewrite E; discriminate).
  assert (Hi : forall a b, Nat.eqb a b = true <-> a = b) by (intros; apply Nat.eqb_eq).
  destruct (C01_succeeds (fun i => fpos (fgv l i)) Nat.eqb dbg math_n shuf Hi Hs (felems l) HV' Hn F HF) as (out & m & N & H). exists out, m, N. intros fuel Hf.
  rewrite (C47_f32 F Nat.eqb (fgv l) dbg fuel math_n shuf (felems l) HS HA). split; exact (proj1 (H fuel) Hf).
Qed.

(** A hexagon with the floats nearest to 0.1, 0.2, ... as coordinates. *)
Definition hexagon : list (coords spec_float) := [(f01, f03); (f03, f01); (f06, f02); (f08, f04); (f06, f08); (f03, f06)].

Definition convexb (s c : Q) (l : list point) : bool :=
  Nat.leb 3 (length l) && forallb (fun i => forallb (fun j => forallb (fun k => negb (Nat.ltb i j && Nat.ltb j k) ||
    match nth_error l i, nth_error l j, nth_error l k with Some p, Some q, Some r => negb (Qle_bool (s * cross p q r) c) | _, _, _ => true end)
    (seq 0 (length l))) (seq 0 (length l))) (seq 0 (length l)).
Lemma convexb_ok s c l : convexb s c l = true -> convex s c l.
Proof.
  unfold convexb. rewrite andb_true_iff, Nat.leb_le. intros (L & H). split; auto. intros i j k p q r O Hp Hq Hr.
  assert (In i (seq 0 (length l)) /\ In j (seq 0 (length l)) /\ In k (seq 0 (length l))) as (Ii & Ij & Ik).
  { rewrite !in_seq. pose proof (proj1 (nth_error_Some l i) ltac:(congruence)). pose proof (proj1 (nth_error_Some l j) ltac:(congruence)). pose proof (proj1 (nth_error_Some l k) ltac:(congruence)). lia. }
  rewrite forallb_forall in H. specialize (H i Ii). rewrite forallb_forall in H. specialize (H j Ij). rewrite forallb_forall in H. specialize (H k Ik). rewrite Hp, Hq, Hr in H.
  rewrite orb_true_iff, !negb_true_iff, andb_false_iff, !Nat.ltb_ge in H. destruct H as [H|H]; [lia|]. apply Qnot_le_lt. intros G. apply Qle_bool_iff in G. congruence.
Qed.

Example C59_hyp : spread 53 1024 (-510) 509 (fgv hexagon) (felems hexagon) /\ bounded_by 1 (map fpos hexagon) /\ convex 1 (2 ^ (-48) * 1 * 1) (map fpos hexagon).
Proof.
  split; [apply spreadb_ok; vm_compute; reflexivity|split; [|apply convexb_ok; vm_compute; reflexivity]].
  apply Forall_forall. intros p Hp. assert (G : forallb (fun p => Qle_bool (Qabs (fst p)) 1 && Qle_bool (Qabs (snd p)) 1) (map fpos hexagon) = true) by (vm_compute; reflexivity).
  rewrite forallb_forall in G. specialize (G p Hp). rewrite andb_true_iff, !Qle_bool_iff in G. exact G.
Qed.
Example C59_case : exists T, f64_returns (fgv hexagon) Nat.eqb true never in_order (felems hexagon) T /\ length T = 4.
Proof. eexists. split; [exists 100; vm_compute; reflexivity|reflexivity]. Qed.

(** ** The regular polygons of src/tests/triangulate.rs 36-54 *)

(** The test computes vertex [i] of [n] as [100 sin t, 100 cos t], [t = 2 pi i / n], in [f64].  What the library's sine and cosine return is not
    modelled: the coordinates are any floats within [2^-40] of the exact ones, and not below [2^-400] in size unless zero. *)
Definition ordinary (f : spec_float) : Prop := (valid_binary 53 1024 f = true /\ finite f) /\ (fval f == 0 \/ 2 ^ (-400) <= Qabs (fval f))%Q.
Definition near_regular (n : nat) (l : list (coords spec_float)) : Prop :=
  length l = n /\ forall i v, nth_error l i = Some v -> ordinary (cx v) /\ ordinary (cy v) /\
    (Rabs (Q2R (fval (cx v)) - sin (2 * PI * INR i / INR n) * 100) <= / 2 ^ 40)%R /\ (Rabs (Q2R (fval (cy v)) - cos (2 * PI * INR i / INR n) * 100) <= / 2 ^ 40)%R.

Lemma ordinary_grid f : ordinary f -> exists z, (fval f == inject_Z z * 2 ^ (-453))%Q.
Proof.
  intros ((V & Fi) & [H|H]); [exists 0%Z; rewrite H; reflexivity|]. destruct f as [b|b| |b m e]; try elim Fi; [exists 0%Z; reflexivity|]. cbn [fval] in *.
  assert (D : (Zpos m < 2 ^ 53)%Z).
  { cbn [valid_binary] in V. unfold bounded, canonical_mantissa in V. apply andb_prop in V as [V _]. apply Zeq_bool_eq in V. unfold fexp, SpecFloat.emin in V. pose proof (digits_bound m). apply Z.lt_le_trans with (2 ^ Zpos (digits2_pos m))%Z; [lia|]. apply Z.pow_le_mono_r; lia. }
  rewrite Qabs_Qmult, (Qabs_pos (2 ^ e)), abs_inject in H by (pose proof (pow_pos_q e); lra).
  assert (A : Z.abs (cond_Zopp b (Zpos m)) = Zpos m) by (destruct b; reflexivity). rewrite A in H.
  assert (Le : (-453 <= e)%Z).
  { destruct (Z.le_gt_cases (-453) e) as [G|G]; auto. exfalso.
    assert (K : (2 ^ e <= 2 ^ (-454))%Q) by (apply Qpower_le_compat_l; [lia|lra]). assert (M : (inject_Z (Zpos m) <= inject_Z (2 ^ 53))%Q) by (rewrite <- Zle_Qle; lia).
    assert (X : (inject_Z (Zpos m) * 2 ^ e <= inject_Z (2 ^ 53) * 2 ^ (-454))%Q).
    { apply Qmult_le_compat_nonneg; split; auto; [change 0%Q with (inject_Z 0); rewrite <- Zle_Qle; lia|pose proof (pow_pos_q e); lra]. }
    assert (Y : (inject_Z (2 ^ 53) * 2 ^ (-454) < 2 ^ (-400))%Q) by (vm_compute; reflexivity). lra. }
  exists (cond_Zopp b (Zpos m) * 2 ^ (e + 453))%Z. rewrite inject_Z_mult, <- Qmult_assoc. rewrite <- pow_split by lia. apply Qmult_comp; [reflexivity|]. replace (-453 + (e + 453))%Z with e by lia. reflexivity.
Qed.

Lemma grid_apart x y g a b : (x == inject_Z a * 2 ^ g -> y == inject_Z b * 2 ^ g -> x == y \/ 2 ^ g <= Qabs (x - y))%Q.
Proof.
  intros Hx Hy. pose proof (pow_pos_q g) as P. destruct (Z.eq_dec a b) as [->|N]; [left; now rewrite Hx, Hy|right].
  rewrite Hx, Hy. setoid_replace (inject_Z a * 2 ^ g - inject_Z b * 2 ^ g)%Q with (inject_Z (a - b) * 2 ^ g)%Q by (unfold Z.sub; rewrite inject_Z_plus, inject_Z_opp; ring).
  rewrite Qabs_Qmult, (Qabs_pos (2 ^ g)), abs_inject by lra. setoid_replace (2 ^ g)%Q with (1 * 2 ^ g)%Q at 1 by ring. apply Qmult_le_compat_r; [change 1%Q with (inject_Z 1); rewrite <- Zle_Qle; lia|lra].
Qed.

Lemma dyadic_40 : (/ 2 ^ 40 = Q2R (1 # 1099511627776))%R.
Proof. unfold Q2R. cbn [Qnum Qden]. rewrite pow_IZR. change (2 ^ Z.of_nat 40)%Z with 1099511627776%Z. Lra.lra. Qed.

Lemma regular_bound n l : near_regular n l -> bounded_by 101 (map fpos l).
Proof.
  intros (_ & H). apply Forall_forall. intros p Hp. apply in_map_iff in Hp. destruct Hp as (v & <- & Hv). apply In_nth_error in Hv. destruct Hv as (i & Hv).
  destruct (H i v Hv) as (_ & _ & Hx & Hy). cbn [fpos fst snd].
  assert (K : forall (f t : R), (Rabs (f - t * 100) <= / 2 ^ 40)%R -> (-1 <= t <= 1)%R -> (-101 <= f <= 101)%R).
  { intros f t A B. rewrite dyadic_40 in A. unfold Q2R in A. cbn [Qnum Qden] in A. pose proof (Rle_abs (f - t * 100)) as A1. pose proof (Rle_abs (- (f - t * 100))) as A2. rewrite Rabs_Ropp in A2. Lra.lra. }
  assert (G : forall f, (-101 <= Q2R f <= 101)%R -> (Qabs f <= 101)%Q).
  { intros f (A & B). apply abs_le. assert (E1 : Q2R (-(101)) = (-101)%R) by (unfold Q2R; cbn; Lra.lra). assert (E2 : Q2R 101 = 101%R) by (unfold Q2R; cbn; Lra.lra). rewrite <- E1 in A. rewrite <- E2 in B. apply Rle_Qle in A. apply Rle_Qle in B. auto. }
  split; apply G; [apply (K _ _ Hx); apply SIN_bound|apply (K _ _ Hy); apply COS_bound].
Qed.

Lemma regular_convex n l : 3 <= n <= 10000 -> near_regular n l -> convex (-1) (2 ^ (-48) * 101 * 101) (map fpos l).
Proof.
  intros Hn (L & H). split; [rewrite map_length; lia|]. intros i j k p q t O Hp Hq Ht.
  assert (Lk : k < n) by (rewrite <- L, <- (map_length fpos l); apply nth_error_Some; congruence).
  assert (K : forall i p, nth_error (map fpos l) i = Some p -> near_vertex 100 (/ 2 ^ 40) n i p).
  { intros i' p' E. rewrite nth_error_map in E. destruct (nth_error l i') as [v|] eqn:Ev; [|discriminate]. injection E as <-. destruct (H i' v Ev) as (_ & _ & A & B). exact (conj A B). }
  pose proof (near_cross 100 (/ 2 ^ 40) n i j k p q t (proj1 Hn) O Lk ltac:(Lra.lra)) as N. specialize (N ltac:(rewrite dyadic_40; unfold Q2R; cbn [Qnum Qden]; Lra.lra) (K _ _ Hp) (K _ _ Hq) (K _ _ Ht)).
  setoid_replace (2 ^ (-48) * 101 * 101)%Q with (10201 # 281474976710656)%Q by reflexivity. apply Rlt_Qlt. rewrite Q2R_mult. replace (Q2R (-1)) with (-1)%R by (unfold Q2R; cbn; Lra.lra).
  assert (N3 : (3 <= INR n <= 10000)%R). { split; [replace 3%R with (INR 3) by (cbn; Lra.lra)|replace 10000%R with (INR 10000) by (rewrite INR_IZR_INZ; reflexivity)]; apply le_INR; lia. }
  assert (D : (320000 / 1000000000000 <= 32 * 100 * 100 / (INR n * INR n * INR n))%R).
  { replace (32 * 100 * 100)%R with 320000%R by Lra.lra. apply Rmult_le_compat_l; [Lra.lra|]. apply Rinv_le_contravar; [repeat apply Rmult_lt_0_compat; Lra.lra|].
    replace 1000000000000%R with (10000 * 10000 * 10000)%R by Lra.lra. apply Rmult_le_compat; try Lra.lra; [apply Rmult_le_pos; Lra.lra|]. apply Rmult_le_compat; Lra.lra. }
  rewrite dyadic_40 in N. unfold Q2R in N at 1 2 3. unfold Q2R at 1. cbn [Qnum Qden] in *. Lra.lra.
Qed.

Lemma regular_spread n l : near_regular n l -> spread 53 1024 (-510) 509 (fgv l) (felems l).
Proof.
  intros H. pose proof (regular_bound n l H) as HB. destruct H as (L & H).
  assert (G : forall i, In (Continue i) (felems l) -> nth_error l i = Some (fgv l i)). { intros i Hi. apply in_map_iff in Hi. destruct Hi as (j & E & Hj). injection E as <-. apply in_seq in Hj. apply nth_error_nth'. lia. }
  assert (B : (101 <= 2 ^ 509)%Q) by (vm_compute; discriminate). unfold bounded_by in HB. rewrite Forall_forall in HB. split.
  - intros i Hi. specialize (G i Hi). destruct (H i _ G) as ((V1 & _) & (V2 & _) & _). destruct (HB (fpos (fgv l i)) (in_map fpos _ _ (nth_error_In _ _ G))) as (B1 & B2). cbn [fpos fst snd] in B1, B2. repeat split; auto; try apply V1; try apply V2; lra.
  - intros i k Hi Hk. pose proof (G i Hi) as Gi. pose proof (G k Hk) as Gk. destruct (H i _ Gi) as (Xi & Yi & _), (H k _ Gk) as (Xk & Yk & _). unfold fpos.
    assert (A : forall f g, ordinary f -> ordinary g -> (fval f == fval g \/ 2 ^ (-510) <= Qabs (fval f - fval g))%Q).
    { intros f g Hf Hg. destruct (ordinary_grid f Hf) as (a & Ha), (ordinary_grid g Hg) as (b & Hb). destruct (grid_apart _ _ _ _ _ Ha Hb) as [E|E]; [now left|right].
      assert (2 ^ (-510) <= 2 ^ (-453))%Q by (vm_compute; discriminate). lra. }
    split; apply A; auto.
Qed.

(** C59: the regular polygons of the test suite, with up to 10000 vertices (the test goes to 500): in every insertion order the flat vector of the test
    receives three indices for each of [n - 2] triangles, none clockwise, which tile the polygon. *)
Theorem C59_regular n (l : list (coords spec_float)) dbg math_n shuf : (forall k n, Permutation (shuf k n) (seq 0 n)) -> 3 <= n <= 10000 -> near_regular n l ->
  exists T N, (forall fuel, N <= fuel -> triangulate (OC := f64) (fan_to_list (indexed_list (vec_flat nat) [])) Nat.eqb (fgv l) dbg fuel math_n shuf (felems l) = Returned (inl (flat3 T)) (flat3 T)) /\
    length T + 2 = n /\ tiles [map fpos l] (map (tri_pos (fun i => fpos (fgv l i))) T) /\
    forall a b c, In (a, b, c) T -> (0 <= cross (fpos (fgv l a)) (fpos (fgv l b)) (fpos (fgv l c)))%Q.
Proof.
  intros Hs Hn HR. destruct (C59_f64 (-1) 101 l dbg math_n shuf Hs) as (_ & T & (fuel & HT) & H1 & H2 & H3).
  - right. reflexivity.
  - exact (regular_spread n l HR).
  - exact (regular_bound n l HR).
  - exact (regular_convex n l Hn HR).
  - exists T, fuel. destruct HR as (L & _). split; [|split; [lia|split; auto]].
    destruct (proj1 (C10_list_layout_triples (OC := f64) Nat.eqb (fgv l) dbg fuel math_n shuf (felems l) false [] T T) HT) as (c & Hc & E & _). cbn [app] in E. subst T.
    assert (HF : triangulate (OC := f64) (fan_to_list (indexed_list (vec_flat nat) [])) Nat.eqb (fgv l) dbg fuel math_n shuf (felems l) = Returned (inl (flat3 (tris_of c))) (flat3 (tris_of c))).
    { apply (proj2 (C10_list_layout_flat (OC := f64) Nat.eqb (fgv l) dbg fuel math_n shuf (felems l) false [] _ _)). exists c. auto. }
    intros fuel' Hf. destruct (triangulate_mono (OC := f64) (fan_to_list (indexed_list (vec_flat nat) [])) Nat.eqb (fgv l) dbg fuel fuel' math_n shuf (felems l) Hf) as [K|K]; congruence.
Qed.

(** The square of the test ([n = 4]), as the usual libraries compute it: the zeros of sine and cosine are missed by about [10^-14]. *)
Definition square : list (coords spec_float) :=
  [(f00, fl 7036874417766400 (-46)); (fl 7036874417766400 (-46), fl 7762121250033611 (-100)); (fl 7762121250033611 (-99), S754_finite true 7036874417766400 (-46));
   (S754_finite true 7036874417766400 (-46), S754_finite true 5821590937525208 (-98))].

Example C59_regular_hyp : near_regular 4 square.
Proof.
  split; [reflexivity|].
  assert (O : forall f, valid_binary 53 1024 f = true -> finite f -> (Qeq_bool (fval f) 0 || Qle_bool (2 ^ (-400)) (Qabs (fval f))) = true -> ordinary f).
  { intros f V Fi B. split; [split; auto|]. apply orb_prop in B as [B|B]; [left; now apply Qeq_bool_eq|right; now apply Qle_bool_iff]. }
  assert (N : forall f z t, (Qle_bool (Qabs (fval f - inject_Z z)) (1 # 1099511627776)) = true -> (t * 100 = IZR z)%R -> (Rabs (Q2R (fval f) - t * 100) <= / 2 ^ 40)%R).
  { intros f z t B E. rewrite E, dyadic_40. apply Qle_bool_iff, abs_le in B. replace (IZR z) with (Q2R (inject_Z z)) by (unfold Q2R; cbn; Lra.lra). rewrite <- Q2R_minus. destruct B as (B1 & B2). apply Qle_Rle in B1, B2. rewrite Q2R_opp in B1. apply Rabs_le. Lra.lra. }
  intros i v Hv. destruct i as [|[|[|[|i]]]]; [injection Hv as <-|injection Hv as <-|injection Hv as <-|injection Hv as <-|destruct i; discriminate];
    (split; [apply O; [reflexivity|exact Logic.I|vm_compute; reflexivity]|split; [apply O; [reflexivity|exact Logic.I|vm_compute; reflexivity]|]]).
  - replace (2 * PI * INR 0 / INR 4)%R with 0%R by (cbn; field). rewrite sin_0, cos_0. split; [apply (N _ 0%Z)|apply (N _ 100%Z)]; try (vm_compute; reflexivity); Lra.lra.
  - replace (2 * PI * INR 1 / INR 4)%R with (PI / 2)%R by (cbn; field). rewrite sin_PI2, cos_PI2. split; [apply (N _ 100%Z)|apply (N _ 0%Z)]; try (vm_compute; reflexivity); Lra.lra.
  - replace (2 * PI * INR 2 / INR 4)%R with PI by (cbn; field). rewrite sin_PI, cos_PI. split; [apply (N _ 0%Z)|apply (N _ (-100)%Z)]; try (vm_compute; reflexivity); Lra.lra.
  - replace (2 * PI * INR 3 / INR 4)%R with (3 * (PI / 2))%R by (cbn; field). rewrite sin_3PI2, cos_3PI2. split; [apply (N _ (-100)%Z)|apply (N _ 0%Z)]; try (vm_compute; reflexivity); Lra.lra.
Qed.
Example C59_regular_case : exists T, f64_returns (fgv square) Nat.eqb true never in_order (felems square) T /\ length T = 2.
Proof. eexists. split; [exists 100; vm_compute; reflexivity|reflexivity]. Qed.

Print Assumptions C59_valid.
Print Assumptions C59_f64.
Print Assumptions C59_f32.
Print Assumptions C59_regular.
