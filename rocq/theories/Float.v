(** Binary floating point coordinates.  [f32] and [f64] are the implementations of [num_traits::real::Real] that
    [src/inputs/vertex.rs 11-19] is meant for; the library uses [partial_cmp], [==], [<], [-] and [*] of them.  They are
    modelled by the operations of IEEE 754 with rounding to nearest, ties to even, as specified by Coq's [SpecFloat]
    (no axioms, all bits, signed zeros, infinities, one NaN). *)
From Coq Require Import ZArith QArith Qpower Lia Lqa List Bool.
From Coq.Floats Require Import SpecFloat.
From Verif Require Import Base Coord.
Local Open Scope Z_scope.

(** The operations for a mantissa of [prec] bits and exponents below [emax]. *)
Definition FOps (prec emax : Z) : CoordOps spec_float := {|
  c_pcmp := SFcompare;
  c_eqb := SFeqb;
  c_ltb := SFltb;
  c_sub := SFsub prec emax;
  c_mul := SFmul prec emax;
  c_zero := S754_zero false
|}.

Definition f64 : CoordOps spec_float := FOps 53 1024.
Definition f32 : CoordOps spec_float := FOps 24 128.

(** The rational number a float stands for. *)
Definition fval (f : spec_float) : Q :=
  match f with
  | S754_finite s m e => (inject_Z (cond_Zopp s (Zpos m)) * (2 ^ e))%Q
  | _ => 0%Q
  end.
Definition finite (f : spec_float) : Prop := match f with S754_zero _ | S754_finite _ _ _ => True | _ => False end.

(** ** Digits and shifts *)

Lemma digits_bound m : 2 ^ (Zpos (digits2_pos m) - 1) <= Zpos m < 2 ^ Zpos (digits2_pos m).
Proof.
  induction m as [m IH|m IH|]; cbn [digits2_pos]; [| |cbn; lia].
  - rewrite Pos2Z.inj_succ. replace (Z.succ (Zpos (digits2_pos m)) - 1) with (Z.succ (Zpos (digits2_pos m) - 1)) by lia. rewrite !Z.pow_succ_r by lia. lia.
  - rewrite Pos2Z.inj_succ. replace (Z.succ (Zpos (digits2_pos m)) - 1) with (Z.succ (Zpos (digits2_pos m) - 1)) by lia. rewrite !Z.pow_succ_r by lia. lia.
Qed.

Lemma digits_unique m d : 2 ^ (d - 1) <= Zpos m < 2 ^ d -> Zpos (digits2_pos m) = d.
Proof.
  intros (H1 & H2). destruct (digits_bound m) as (K1 & K2). assert (0 < d). { destruct (Z.lt_ge_cases 0 d); auto. assert (2 ^ d <= 1) by (destruct (Z.eq_dec d 0); [subst; cbn; lia|rewrite Z.pow_neg_r; lia]). lia. }
  assert (2 ^ (d - 1) < 2 ^ Zpos (digits2_pos m)) by lia. assert (2 ^ (Zpos (digits2_pos m) - 1) < 2 ^ d) by lia.
  apply Z.pow_lt_mono_r_iff in H0; try lia. apply Z.pow_lt_mono_r_iff in H3; lia.
Qed.

Lemma digits_mul m m' s : 0 <= s -> Zpos m' = Zpos m * 2 ^ s -> Zpos (digits2_pos m') = Zpos (digits2_pos m) + s.
Proof.
  intros Hs E. apply digits_unique. rewrite E. destruct (digits_bound m) as (K1 & K2).
  replace (Zpos (digits2_pos m) + s - 1) with (Zpos (digits2_pos m) - 1 + s) by lia. rewrite !Z.pow_add_r by lia. assert (0 < 2 ^ s) by (apply Z.pow_pos_nonneg; lia). nia.
Qed.

Lemma digits_le m n : Zpos m < 2 ^ n -> Zpos (digits2_pos m) <= n.
Proof.
  intros H. destruct (digits_bound m) as (K1 & K2). assert (0 <= n). { destruct (Z.lt_ge_cases n 0); auto. rewrite Z.pow_neg_r in H; lia. }
  assert (2 ^ (Zpos (digits2_pos m) - 1) < 2 ^ n) by lia. apply Z.pow_lt_mono_r_iff in H1; lia.
Qed.

Lemma digits_ge m n : 2 ^ n <= Zpos m -> n < Zpos (digits2_pos m).
Proof.
  intros H. destruct (digits_bound m) as (K1 & K2). destruct (Z.lt_ge_cases n (Zpos (digits2_pos m))); auto.
  assert (2 ^ Zpos (digits2_pos m) <= 2 ^ n) by (apply Z.pow_le_mono_r; lia). lia.
Qed.

Lemma shr_1_even m : 0 < m -> shr_1 {| shr_m := m * 2; shr_r := false; shr_s := false |} = {| shr_m := m; shr_r := false; shr_s := false |}.
Proof. destruct m as [|m|m]; try lia. intros _. rewrite <- Pos2Z.inj_mul, Pos.mul_comm. reflexivity. Qed.

Lemma shr_zeros p : forall m, 0 < m -> iter_pos shr_1 p {| shr_m := m * 2 ^ Zpos p; shr_r := false; shr_s := false |} = {| shr_m := m; shr_r := false; shr_s := false |}.
Proof.
  induction p as [p IH|p IH|]; intros m Hm; cbn [iter_pos].
  - assert (0 < 2 ^ Zpos p) by (apply Z.pow_pos_nonneg; lia). replace (m * 2 ^ Zpos p~1) with ((m * 2 ^ Zpos p * 2 ^ Zpos p) * 2).
    + rewrite shr_1_even by nia. rewrite IH by nia. now apply IH.
    + replace (Zpos p~1) with (Zpos p + Zpos p + 1) by lia. rewrite !Z.pow_add_r, Z.pow_1_r by lia. ring.
  - assert (0 < 2 ^ Zpos p) by (apply Z.pow_pos_nonneg; lia). replace (m * 2 ^ Zpos p~0) with (m * 2 ^ Zpos p * 2 ^ Zpos p).
    + rewrite IH by nia. now apply IH.
    + replace (Zpos p~0) with (Zpos p + Zpos p) by lia. rewrite Z.pow_add_r by lia. ring.
  - rewrite Z.pow_1_r. now apply shr_1_even.
Qed.

Section Exact.
Variables (prec emax : Z).
Hypothesis Hprec : 1 < prec.
Hypothesis Hemax : prec < emax.
Notation emin := (emin prec emax).
Notation fexp := (fexp prec emax).
Notation bounded := (bounded prec emax).

Lemma bounded_spec m e : bounded m e = true <-> fexp (Zpos (digits2_pos m) + e) = e /\ e <= emax - prec.
Proof. unfold SpecFloat.bounded, canonical_mantissa. rewrite andb_true_iff, <- Zeq_is_eq_bool, Z.leb_le. tauto. Qed.

(** Rounding does nothing to a number with few enough significant digits. *)
Lemma round_exact sx m e n k : Zpos m = n * 2 ^ k -> 0 <= k -> 0 < n < 2 ^ prec -> emin <= e + k -> e + k + prec <= emax -> e <= fexp (Zpos (digits2_pos m) + e) ->
  exists m' e', binary_round_aux prec emax sx (Zpos m) e loc_Exact = S754_finite sx m' e' /\ bounded m' e' = true /\ e' <= e + k /\ Zpos m' = n * 2 ^ (e + k - e').
Proof.
  intros Em Hk Hn Hmin Hmax He. destruct n as [|n|n]; try lia. pose proof (digits_mul n m k Hk Em) as Dm. assert (Dn : Zpos (digits2_pos n) <= prec) by (apply digits_le; lia).
  remember (fexp (Zpos (digits2_pos m) + e) - e) as s eqn:Es. assert (Hs : 0 <= s <= k). { unfold SpecFloat.fexp in *. lia. }
  set (m' := Z.to_pos (Zpos n * 2 ^ (k - s))). assert (Em' : Zpos m' = Zpos n * 2 ^ (k - s)). { unfold m'. apply Z2Pos.id. assert (0 < 2 ^ (k - s)) by (apply Z.pow_pos_nonneg; lia). nia. }
  clearbody m'. assert (Ems : Zpos m = Zpos m' * 2 ^ s). { rewrite Em', Em, <- Z.mul_assoc, <- Z.pow_add_r by lia. f_equal. f_equal. lia. }
  pose proof (digits_mul m' m s (proj1 Hs) Ems) as Dm'.
  assert (F : fexp (Zpos (digits2_pos m') + (e + s)) = e + s). { replace (Zpos (digits2_pos m') + (e + s)) with (Zpos (digits2_pos m) + e) by lia. lia. }
  exists m', (e + s). split; [|split; [apply bounded_spec; split; auto; lia|split; [lia|rewrite Em'; f_equal; f_equal; lia]]].
  unfold binary_round_aux. unfold shr_fexp at 1. cbn [Zdigits2 shr_record_of_loc]. rewrite <- Es.
  assert (Sh : shr {| shr_m := Zpos m; shr_r := false; shr_s := false |} e s = ({| shr_m := Zpos m'; shr_r := false; shr_s := false |}, e + s)).
  { unfold shr. destruct s as [|s|s]; [rewrite Z.pow_0_r, Z.mul_1_r in Ems; now rewrite Ems, Z.add_0_r|rewrite Ems, shr_zeros by lia; reflexivity|lia]. }
  rewrite Sh. cbn [shr_m loc_of_shr_record round_nearest_even]. unfold shr_fexp. cbn [Zdigits2 shr_record_of_loc]. rewrite F, Z.sub_diag. cbn [shr shr_m].
  assert (Zle_bool (e + s) (emax - prec) = true) as -> by (apply Zle_is_le_bool; lia). reflexivity.
Qed.

Lemma align_val m e e' : e' <= e -> Zpos (fst (shl_align m e e')) = Zpos m * 2 ^ (e - e') /\ snd (shl_align m e e') = e'.
Proof.
  intros H. unfold shl_align. destruct (e' - e) as [|d|d] eqn:E; [|lia|].
  - cbn [fst snd]. replace (e - e') with 0 by lia. rewrite Z.pow_0_r. lia.
  - cbn [fst snd]. split; auto. rewrite shift_pos_correct, Z.pow_pos_fold. replace (e - e') with (Zpos d) by lia. ring.
Qed.
Lemma align_id m e e' : e <= e' -> shl_align m e e' = (m, e).
Proof. intros H. unfold shl_align. destruct (e' - e) as [|d|d] eqn:E; auto. lia. Qed.

(** [f] is the number [n * 2 ^ g]. *)
Definition grid (g : Z) (f : spec_float) (n : Z) : Prop :=
  match f with
  | S754_zero _ => n = 0
  | S754_finite s m e => bounded m e = true /\ e <= g /\ cond_Zopp s (Zpos m) = n * 2 ^ (g - e)
  | _ => False
  end.

Lemma round_grid sx m e n k : Zpos m = n * 2 ^ k -> 0 <= k -> 0 < n < 2 ^ prec -> emin <= e + k -> e + k + prec <= emax ->
  grid (e + k) (binary_round prec emax sx m e) (cond_Zopp sx n).
Proof.
  intros Em Hk Hn Hmin Hmax. unfold binary_round. destruct (Z.le_gt_cases e (fexp (Zpos (digits2_pos m) + e))) as [H|H].
  - rewrite align_id by auto. destruct (round_exact sx m e n k) as (m' & e' & -> & H1 & H2 & H3); auto. cbn [grid]. repeat split; auto. rewrite H3. destruct sx; cbn [cond_Zopp]; ring.
  - set (f := fexp (Zpos (digits2_pos m) + e)) in *. destruct (align_val m e f) as (V1 & V2); [lia|]. destruct (shl_align m e f) as (m1 & e1). cbn [fst snd] in *. subst e1.
    pose proof (digits_mul m m1 (e - f) ltac:(lia) V1) as D.
    destruct (round_exact sx m1 f n (k + (e - f))) as (m' & e' & -> & H1 & H2 & H3); try lia.
    + rewrite V1, Em, <- Z.mul_assoc, <- Z.pow_add_r by lia. reflexivity.
    + rewrite D. replace (Zpos (digits2_pos m) + (e - f) + f) with (Zpos (digits2_pos m) + e) by lia. fold f. lia.
    + cbn [grid]. repeat split; auto; [lia|]. rewrite H3. replace (f + (k + (e - f)) - e') with (e + k - e') by lia. destruct sx; cbn [cond_Zopp]; ring.
Qed.

Lemma normalize_grid z e n k b : z = n * 2 ^ k -> 0 <= k -> Z.abs n < 2 ^ prec -> emin <= e + k -> e + k + prec <= emax ->
  grid (e + k) (binary_normalize prec emax z e b) n.
Proof.
  intros Ez Hk Hn Hmin Hmax. assert (0 < 2 ^ k) by (apply Z.pow_pos_nonneg; lia). destruct z as [|m|m]; cbn [binary_normalize].
  - cbn [grid]. nia.
  - apply (round_grid false m e n k); auto. nia.
  - replace n with (cond_Zopp true (- n)) by (cbn; lia). apply (round_grid true m e (- n) k); auto; nia.
Qed.

Section Ops.
Variable g : Z.
Hypothesis Hg : emin <= g.
Hypothesis Hg' : g + prec <= emax.

Lemma grid_sub x y n n' : grid g x n -> grid g y n' -> Z.abs (n - n') < 2 ^ prec -> grid g (SFsub prec emax x y) (n - n').
Proof.
  intros Hx Hy Hn. destruct x as [sx|sx| |sx mx ex], y as [sy|sy| |sy my ey]; cbn [grid] in Hx, Hy; try contradiction; cbn [SFsub].
  - destruct (Bool.eqb sx (negb sy)); cbn; lia.
  - subst n. destruct Hy as (H1 & H2 & H3). cbn [grid]. repeat split; auto. destruct sy; cbn [cond_Zopp negb] in *; lia.
  - subst n'. rewrite Z.sub_0_r. exact Hx.
  - destruct Hx as (H1 & H2 & H3), Hy as (K1 & K2 & K3). set (ez := Z.min ex ey). destruct (align_val mx ex ez) as (V1 & _); [lia|]. destruct (align_val my ey ez) as (V2 & _); [lia|].
    assert (Hez : g = ez + (g - ez)) by lia. rewrite Hez at 1. apply normalize_grid; try lia.
    rewrite V1, V2. replace (cond_Zopp sx (Zpos mx * 2 ^ (ex - ez))) with (cond_Zopp sx (Zpos mx) * 2 ^ (ex - ez)) by (destruct sx; cbn [cond_Zopp]; ring).
    replace (cond_Zopp sy (Zpos my * 2 ^ (ey - ez))) with (cond_Zopp sy (Zpos my) * 2 ^ (ey - ez)) by (destruct sy; cbn [cond_Zopp]; ring).
    rewrite H3, K3, <- !Z.mul_assoc, <- !Z.pow_add_r by lia. replace (g - ex + (ex - ez)) with (g - ez) by lia. replace (g - ey + (ey - ez)) with (g - ez) by lia. ring.
Qed.

Hypothesis Hg2 : emin <= 2 * g.
Hypothesis Hg2' : 2 * g + prec <= emax.

Lemma digits_prod m m' : Zpos (digits2_pos m) <= Zpos (digits2_pos (m * m')) /\ Zpos (digits2_pos m') <= Zpos (digits2_pos (m * m')).
Proof.
  destruct (digits_bound m) as (A1 & A2). destruct (digits_bound m') as (B1 & B2).
  assert (K : forall n, 2 ^ (Zpos (digits2_pos n) - 1) <= Zpos (m * m') -> Zpos (digits2_pos n) <= Zpos (digits2_pos (m * m'))). { intros n H. apply digits_ge in H. lia. }
  split; apply K; rewrite Pos2Z.inj_mul; nia.
Qed.

Lemma grid_mul x y n n' : grid g x n -> grid g y n' -> Z.abs (n * n') < 2 ^ prec -> grid (2 * g) (SFmul prec emax x y) (n * n').
Proof.
  intros Hx Hy Hn. destruct x as [sx|sx| |sx mx ex], y as [sy|sy| |sy my ey]; cbn [grid] in Hx, Hy; try contradiction; cbn [SFmul]; try (subst; cbn [grid]; ring).
  destruct Hx as (H1 & H2 & H3), Hy as (K1 & K2 & K3). apply bounded_spec in H1, K1. destruct (digits_prod mx my) as (D1 & D2).
  assert (P1 : 0 < 2 ^ (g - ex)) by (apply Z.pow_pos_nonneg; lia). assert (P2 : 0 < 2 ^ (g - ey)) by (apply Z.pow_pos_nonneg; lia).
  assert (Ax : Zpos mx = Z.abs n * 2 ^ (g - ex)) by (destruct sx; cbn [cond_Zopp] in H3; nia). assert (Ay : Zpos my = Z.abs n' * 2 ^ (g - ey)) by (destruct sy; cbn [cond_Zopp] in K3; nia).
  assert (Nn : n <> 0) by (intros ->; cbn in Ax; lia). assert (Nn' : n' <> 0) by (intros ->; cbn in Ay; lia).
  destruct (round_exact (xorb sx sy) (mx * my) (ex + ey) (Z.abs n * Z.abs n') (2 * g - (ex + ey))) as (m' & e' & -> & R1 & R2 & R3); try lia.
  - rewrite Pos2Z.inj_mul, Ax, Ay. replace (2 * g - (ex + ey)) with ((g - ex) + (g - ey)) by lia. rewrite Z.pow_add_r by lia. ring.
  - unfold SpecFloat.fexp, SpecFloat.emin in *. lia.
  - cbn [grid]. repeat split; auto; [lia|]. rewrite R3. replace (ex + ey + (2 * g - (ex + ey)) - e') with (2 * g - e') by lia. 
    destruct sx, sy; cbn [cond_Zopp xorb] in *; rewrite ?(Z.abs_neq n), ?(Z.abs_eq n), ?(Z.abs_neq n'), ?(Z.abs_eq n') by nia; ring.
Qed.
End Ops.

Lemma grid_cmp g x y n n' : grid g x n -> grid g y n' -> SFcompare x y = Some (n ?= n').
Proof.
  intros Hx Hy. destruct x as [sx|sx| |sx mx ex], y as [sy|sy| |sy my ey]; cbn [grid] in Hx, Hy; try contradiction; cbn [SFcompare].
  - now subst.
  - subst n. destruct Hy as (H1 & H2 & H3). assert (0 < 2 ^ (g - ey)) by (apply Z.pow_pos_nonneg; lia). f_equal. symmetry. destruct sy; cbn [cond_Zopp] in H3; [apply Z.compare_gt_iff|apply Z.compare_lt_iff]; nia.
  - subst n'. destruct Hx as (H1 & H2 & H3). assert (0 < 2 ^ (g - ex)) by (apply Z.pow_pos_nonneg; lia). f_equal. symmetry. destruct sx; cbn [cond_Zopp] in H3; [apply Z.compare_lt_iff|apply Z.compare_gt_iff]; nia.
  - destruct Hx as (H1 & H2 & H3), Hy as (K1 & K2 & K3). f_equal.
    assert (P1 : 0 < 2 ^ (g - ex)) by (apply Z.pow_pos_nonneg; lia). assert (P2 : 0 < 2 ^ (g - ey)) by (apply Z.pow_pos_nonneg; lia).
    assert (LT : forall m1 e1 m2 e2 n1 n2, bounded m1 e1 = true -> bounded m2 e2 = true -> e1 <= g -> e2 <= g -> Zpos m1 = n1 * 2 ^ (g - e1) -> Zpos m2 = n2 * 2 ^ (g - e2) -> e1 < e2 -> n1 < n2).
    { clear. intros m1 e1 m2 e2 n1 n2 B1 B2 L1 L2 E1 E2 L. apply bounded_spec in B1, B2. unfold SpecFloat.fexp in *.
      destruct (digits_bound m1) as (_ & D1). destruct (digits_bound m2) as (D2 & _). assert (X1 : Zpos (digits2_pos m1) <= prec) by lia. assert (X2 : Zpos (digits2_pos m2) = prec) by lia.
      assert (Y1 : 2 ^ Zpos (digits2_pos m1) <= 2 ^ prec) by (apply Z.pow_le_mono_r; lia). rewrite X2 in D2.
      assert (0 < 2 ^ (g - e2)) by (apply Z.pow_pos_nonneg; lia). replace (g - e1) with ((g - e2) + 1 + (e2 - e1 - 1)) in E1 by lia. rewrite !Z.pow_add_r, Z.pow_1_r in E1 by lia.
      assert (0 < 2 ^ (e2 - e1 - 1)) by (apply Z.pow_pos_nonneg; lia). replace prec with (1 + (prec - 1)) in Y1 by lia. rewrite Z.pow_add_r, Z.pow_1_r in Y1 by lia.
      assert (E3 : Zpos m1 = (n1 * 2 ^ (g - e2)) * (2 * 2 ^ (e2 - e1 - 1))) by (rewrite E1; ring).
      remember (2 ^ (g - e2)) as G. remember (2 ^ (e2 - e1 - 1)) as R. clear HeqG HeqR E1. assert (U : 0 < n1 * G) by nia. assert (n1 * G * 2 <= Zpos m1) by nia. assert (n1 * G < n2 * G) by lia. nia. }
    destruct sx, sy; cbn [cond_Zopp] in *.
    + symmetry. destruct (Z.compare_spec ex ey) as [E|E|E].
      * subst ey. rewrite <- Pos.compare_antisym. change (my ?= mx)%positive with (Zpos my ?= Zpos mx). destruct (Z.compare_spec (Zpos my) (Zpos mx)); [apply Z.compare_eq_iff|apply Z.compare_lt_iff|apply Z.compare_gt_iff]; nia.
      * apply Z.compare_gt_iff. assert (- n < - n'); [|lia]. apply (LT mx ex my ey); auto; lia.
      * apply Z.compare_lt_iff. assert (- n' < - n); [|lia]. apply (LT my ey mx ex); auto; lia.
    + symmetry. apply Z.compare_lt_iff. clear LT H1 K1. assert (n < 0) by nia. assert (0 < n') by nia. lia.
    + symmetry. apply Z.compare_gt_iff. clear LT H1 K1. assert (0 < n) by nia. assert (n' < 0) by nia. lia.
    + symmetry. destruct (Z.compare_spec ex ey) as [E|E|E].
      * subst ey. change (Pos.compare_cont Eq mx my) with (Zpos mx ?= Zpos my). destruct (Z.compare_spec (Zpos mx) (Zpos my)); [apply Z.compare_eq_iff|apply Z.compare_lt_iff|apply Z.compare_gt_iff]; nia.
      * apply Z.compare_lt_iff. apply (LT mx ex my ey); auto; lia.
      * apply Z.compare_gt_iff. apply (LT my ey mx ex); auto; lia.
Qed.
End Exact.
