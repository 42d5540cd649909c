(** The pacing of re-locations in the code, over the real numbers. *)
From Coq Require Import Arith Lia Reals Lra ZArith.
From Verif Require Import Phases.
Local Open Scope nat_scope.

(** [f64::log2] and [math_n] (src/math.rs 15-21) over the real numbers, without rounding; [umax] is [usize::MAX], which a division by zero yields. *)
Definition rlog2 (x : R) : R := (ln x / ln 2)%R.
Fixpoint rlog (h : nat) (x : R) : R := match h with 0 => x | S h => rlog2 (rlog h x) end.
Definition ceil (x : R) : Z := (- Int_part (- x))%Z.
Definition real_math_n (umax n h : nat) : nat :=
  let l := rlog h (INR n) in
  if Rle_dec l 0 then (if Req_EM_T l 0 then umax else 0)
  else Nat.min umax (Z.to_nat (ceil (INR n / l))).

Lemma ceil_spec x : (x <= IZR (ceil x) < x + 1)%R.
Proof. unfold ceil. rewrite opp_IZR. destruct (base_Int_part (- x)) as (H1 & H2). lra. Qed.

Lemma ln2_pos : (0 < ln 2)%R.
Proof. rewrite <- ln_1. apply ln_increasing; lra. Qed.

Lemma rlog2_pow k : rlog2 (2 ^ k) = INR k.
Proof. unfold rlog2. pose proof ln2_pos. rewrite <- (Rpower_pow k 2) by lra. unfold Rpower. rewrite ln_exp. field. lra. Qed.

Lemma rlog2_mono x y : (0 < x)%R -> (x <= y)%R -> (rlog2 x <= rlog2 y)%R.
Proof. intros Hx H. unfold rlog2. pose proof ln2_pos. apply Rmult_le_compat_r; [left; now apply Rinv_0_lt_compat|]. destruct H as [H| ->]; [left; now apply ln_increasing|lra]. Qed.

Lemma rlog2_lt x y : (0 < x)%R -> (x < y)%R -> (rlog2 x < rlog2 y)%R.
Proof. intros Hx H. unfold rlog2. pose proof ln2_pos. apply Rmult_lt_compat_r; [now apply Rinv_0_lt_compat|]. now apply ln_increasing. Qed.

Lemma rlog_floor n h : 1 <= n -> (forall h', 1 <= h' < h -> 1 <= ilog h' n) -> (INR (ilog h n) <= rlog h (INR n) < INR (ilog h n) + 1)%R.
Proof.
  intros Hn. induction h as [|h IH]; intros Hp; [cbn; lra|]. assert (IH' := IH ltac:(intros h' Hh; apply Hp; lia)). clear IH.
  assert (H1 : 1 <= ilog h n). { destruct h; [exact Hn|]. apply Hp. lia. }
  cbn [rlog ilog]. set (a := ilog h n) in *. set (x := rlog h (INR n)) in *. destruct (Nat.log2_spec a ltac:(lia)) as (L1 & L2). assert (L3 : a + 1 <= 2 ^ S (Nat.log2 a)) by lia.
  apply le_INR in L1, L3. rewrite pow_INR in L1, L3. rewrite plus_INR in L3. change (INR 2) with 2%R in *. change (INR 1) with 1%R in *.
  assert (P1 : (0 < 2 ^ Nat.log2 a)%R) by (apply pow_lt; lra). rewrite <- S_INR. rewrite <- !rlog2_pow. split; [apply rlog2_mono; lra|apply rlog2_lt; lra].
Qed.

Theorem real_paced umax n : n <= umax -> paced (real_math_n umax) n.
Proof.
  intros Hu h Hh Hp. destruct (Nat.eq_dec n 0) as [->|Hn].
  { split; [lia|]. intros H. exfalso. pose proof (ilog_le h 0 Hh) as Z. cbn in Z. lia. }
  pose proof (rlog_floor n h ltac:(lia) Hp) as (L1 & L2). unfold real_math_n. set (l := rlog h (INR n)) in *. assert (N0 : (0 < INR n)%R) by (apply (lt_INR 0); lia).
  destruct (ceil_spec (INR n / l)) as (C1 & C2). set (c := ceil (INR n / l)) in *. split.
  - intros H0. left. rewrite H0 in *. cbn [INR] in *. destruct (Rle_dec l 0) as [R0|R0].
    + destruct (Req_EM_T l 0); [lia|lra].
    + assert (D : (INR n <= INR n / l)%R). { apply Rmult_le_reg_r with l; [lra|]. unfold Rdiv. rewrite Rmult_assoc, Rinv_l by lra. nra. }
      apply Nat.min_glb; auto. assert (G : (IZR (Z.of_nat n) <= IZR c)%R) by (rewrite <- INR_IZR_INZ; lra). apply le_IZR in G. lia.
  - intros H1. apply le_INR in H1. change (INR 1) with 1%R in H1. destruct (Rle_dec l 0) as [R0|R0]; [lra|].
    assert (E : (INR n / l * l = INR n)%R) by (field; lra). assert (D0 : (0 < INR n / l)%R) by (apply Rdiv_lt_0_compat; lra). assert (D : (INR n / l <= INR n)%R) by nra.
    assert (G1 : (c <= Z.of_nat n)%Z). { assert (G : (IZR c < IZR (Z.of_nat n + 1))%R) by (rewrite plus_IZR, <- INR_IZR_INZ; lra). apply lt_IZR in G. lia. }
    assert (G0 : (0 < c)%Z) by (apply lt_IZR; lra). rewrite Nat.min_r by lia.
    assert (Ec : INR (Z.to_nat c) = IZR c) by (rewrite INR_IZR_INZ, Z2Nat.id by lia; reflexivity).
    split.
    + apply INR_le. rewrite mult_INR, plus_INR, Ec. change (INR 1) with 1%R. nra.
    + apply INR_le. rewrite mult_INR, minus_INR, Ec by lia. change (INR 1) with 1%R. nra.
Qed.


(** ** Computed logarithms *)

(** [math_n] (src/math.rs 15-21) with a computed logarithm [lg] and a computed quotient [dv]; [neg0 h]: the logarithm taken [h] times is
    the negative zero if it is zero.  The conversion to [usize] takes negative numbers to 0 and numbers above [umax] to [umax].  The
    conversion of [n] to [f64] is exact (up to 2^53). *)
Section Computed.
Variables (lg : R -> R) (dv : R -> R -> R) (neg0 : nat -> bool).

Fixpoint clog (h : nat) (x : R) : R := match h with 0 => x | S h => lg (clog h x) end.
Definition computed_math_n (umax n h : nat) : nat :=
  let l := clog h (INR n) in
  if Rle_dec l 0 then (if Req_EM_T l 0 then (if neg0 h then 0 else umax) else 0)
  else Nat.min umax (Z.to_nat (ceil (dv (INR n) l))).

(** What is required of them: the logarithm is off by at most [d], the quotient by a factor of at most [1 + e]. *)
Definition close (d e : R) (n : nat) : Prop :=
  (0 <= d)%R /\ (0 <= e)%R /\
  (forall x, 1 / 2 <= x <= INR n + 1 -> - d <= lg x - rlog2 x <= d)%R /\
  (forall l, 0 < l -> INR n / l * (1 - e) <= dv (INR n) l)%R /\
  (forall l, 1 / 2 <= l -> dv (INR n) l <= INR n / l * (1 + e))%R.
End Computed.

Lemma ln_below u : (0 < u)%R -> (ln u <= u - 1)%R.
Proof.
  intros Hu. destruct (Req_dec u 1) as [->|Hn]; [rewrite ln_1; lra|]. left. rewrite <- (ln_exp (u - 1)). apply ln_increasing; auto.
  pose proof (exp_ineq1 (u - 1) ltac:(lra)). lra.
Qed.

Lemma ln_quot a b : (0 < a)%R -> (0 < b)%R -> ln (a / b) = (ln a - ln b)%R.
Proof. intros Ha Hb. unfold Rdiv. rewrite ln_mult, ln_Rinv by auto using Rinv_0_lt_compat. ring. Qed.

Lemma ln_step a b : (0 < a)%R -> (0 < b)%R -> (1 - a / b <= ln b - ln a)%R.
Proof.
  intros Ha Hb. pose proof (ln_below (a / b) ltac:(now apply Rdiv_lt_0_compat)) as H. rewrite ln_quot in H by auto. lra.
Qed.

Lemma ln2_low : (63 / 100 < ln 2)%R.
Proof.
  pose proof (ln_step 4 5 ltac:(lra) ltac:(lra)). pose proof (ln_step 5 6 ltac:(lra) ltac:(lra)). pose proof (ln_step 6 7 ltac:(lra) ltac:(lra)). pose proof (ln_step 7 8 ltac:(lra) ltac:(lra)).
  assert (ln 8 - ln 4 = ln 2)%R. { rewrite <- ln_quot by lra. f_equal. lra. } lra.
Qed.

(** The logarithm of a number that is off. *)
Lemma rlog2_off x y b t : (0 < b)%R -> (b <= x)%R -> (b <= y)%R -> (- t <= y - x <= t)%R -> (- (t / (63 / 100 * b)) <= rlog2 y - rlog2 x <= t / (63 / 100 * b))%R.
Proof.
  intros Hb Hx Hy Ht. pose proof ln2_low as H2. unfold rlog2. replace (ln y / ln 2 - ln x / ln 2)%R with ((ln y - ln x) / ln 2)%R by (field; lra).
  pose proof (ln_step x y ltac:(lra) ltac:(lra)) as S1. pose proof (ln_step y x ltac:(lra) ltac:(lra)) as S2.
  assert (T0 : (0 <= t)%R) by lra. assert (Tb : (0 <= t / b)%R) by (unfold Rdiv; apply Rmult_le_pos; [lra|left; now apply Rinv_0_lt_compat]).
  assert (B : forall u v, (b <= u)%R -> (v - u <= t)%R -> (v / u - 1 <= t / b)%R).
  { intros u v Hu Hv. apply Rmult_le_reg_r with u; [lra|]. replace ((v / u - 1) * u)%R with (v - u)%R by (field; lra). assert (t / b * b <= t / b * u)%R by (apply Rmult_le_compat_l; auto). replace (t / b * b)%R with t in * by (field; lra). lra. }
  pose proof (B x y Hx ltac:(lra)) as B1. pose proof (B y x Hy ltac:(lra)) as B2.
  assert (G : forall w, (- (t / b) <= w <= t / b)%R -> (- (t / (63 / 100 * b)) <= w / ln 2 <= t / (63 / 100 * b))%R).
  { intros w Hw. replace (t / (63 / 100 * b))%R with (t / b / (63 / 100))%R by (field; lra). set (q := (t / b)%R) in *.
    assert (Q : (q / ln 2 <= q / (63 / 100))%R) by (unfold Rdiv; apply Rmult_le_compat_l; auto; apply Rinv_le_contravar; lra).
    assert (I : (0 < / ln 2)%R) by (apply Rinv_0_lt_compat; lra). unfold Rdiv in *. split; nra. }
  apply G. lra.
Qed.

Section Pace.
Variables (lg : R -> R) (dv : R -> R -> R) (neg0 : nat -> bool) (d e : R) (n : nat).
Hypothesis HC : close lg dv d e n.
Hypothesis Hn : 1 <= n.
Hypothesis Hs : (INR n * (14 * d + e) <= 1 / 4)%R.

Lemma n1 : (1 <= INR n)%R.
Proof. change 1%R with (INR 1). now apply le_INR. Qed.
Lemma d_small : (0 <= d <= 1 / 56)%R.
Proof. pose proof n1. destruct HC as (A & B & _). split; auto. nra. Qed.
Lemma e_small : (0 <= e <= 1 / 4)%R.
Proof. pose proof n1. destruct HC as (A & B & _). split; auto. nra. Qed.

Lemma clog_off h : (forall h', 1 <= h' < h -> 1 <= ilog h' n) ->
  (- (14 * d) <= clog lg h (INR n) - rlog h (INR n) <= 14 * d)%R /\ (1 <= ilog h n -> (- (7 * d) <= clog lg h (INR n) - rlog h (INR n) <= 7 * d)%R).
Proof.
  pose proof n1 as N1. pose proof d_small as D1. induction h as [|h IH]; intros Hp; [cbn; split; intros; lra|].
  specialize (IH ltac:(intros h' Hh; apply Hp; lia)). assert (H1 : 1 <= ilog h n). { destruct h; [exact Hn|]. apply Hp. lia. } destruct IH as (_ & IH). specialize (IH H1).
  pose proof (rlog_floor n h ltac:(lia) ltac:(intros h' Hh; apply Hp; lia)) as (L1 & L2). cbn [clog rlog ilog]. set (x := rlog h (INR n)) in *. set (y := clog lg h (INR n)) in *.
  assert (X1 : (1 <= INR (ilog h n))%R) by (change 1%R with (INR 1); now apply le_INR).
  assert (Y : (y <= INR n + 1)%R).
  { destruct h; [unfold y; cbn; lra|]. assert (Z : ilog (S h) n + 1 <= n). { pose proof (ilog_le (S h) n ltac:(lia)). pose proof (Nat.log2_lt_lin n ltac:(lia)). lia. } apply le_INR in Z. rewrite plus_INR in Z. change (INR 1) with 1%R in Z. lra. }
  destruct HC as (_ & _ & Hlg & _). specialize (Hlg y ltac:(lra)).
  split.
  - pose proof (rlog2_off x y (7 / 8) (7 * d) ltac:(lra) ltac:(lra) ltac:(lra) IH) as Z. replace (7 * d / (63 / 100 * (7 / 8)))%R with (d * (800 / 63))%R in Z by field. lra.
  - intros H2. assert (X2 : (2 <= INR (ilog h n))%R). { change 2%R with (INR 2). apply le_INR. destruct (ilog h n) as [|[|]]; cbn in H2; lia. }
    pose proof (rlog2_off x y (15 / 8) (7 * d) ltac:(lra) ltac:(lra) ltac:(lra) IH) as Z. replace (7 * d / (63 / 100 * (15 / 8)))%R with (d * (7 * 800 / 945))%R in Z by field. lra.
Qed.

(** Re-locations paced by computed logarithms are paced well enough. *)
Theorem computed_paced umax : n <= umax -> paced (computed_math_n lg dv neg0 umax) n.
Proof.
  intros Hu h Hh Hp. pose proof n1 as N1. pose proof d_small as D1. pose proof e_small as E1.
  pose proof (rlog_floor n h ltac:(lia) Hp) as (L1 & L2). destruct (clog_off h Hp) as (O1 & _). unfold computed_math_n. set (l := clog lg h (INR n)) in *.
  destruct HC as (_ & _ & _ & Hlo & Hhi). set (t := (14 * d)%R) in *. assert (Ts : (INR n * t + INR n * e <= 1 / 4)%R) by nra. assert (T1 : (0 <= t <= 1 / 4)%R) by (unfold t; lra).
  destruct (ceil_spec (dv (INR n) l)) as (C1 & C2). set (c := ceil (dv (INR n) l)) in *.
  assert (Low : (0 < l)%R -> forall k, (0 < k)%R -> (l <= k + t)%R -> (1 <= k)%R -> (INR n - 1 / 2 < dv (INR n) l * k)%R).
  { intros Hl k Hk Hlk Hk1. specialize (Hlo l Hl). assert (Z : (INR n / l * k * (1 - e) <= dv (INR n) l * k)%R) by (replace (INR n / l * k * (1 - e))%R with (INR n / l * (1 - e) * k)%R by ring; apply Rmult_le_compat_r; lra).
    assert (Z1 : (INR n * (1 - t) <= INR n / l * k)%R). { apply Rmult_le_reg_r with l; auto. replace (INR n / l * k * l)%R with (INR n * k)%R by (field; lra). assert (l * (1 - t) <= k)%R by nra. nra. }
    assert (Z2 : (INR n * (1 - t) * (1 - e) <= INR n / l * k * (1 - e))%R) by (apply Rmult_le_compat_r; lra). assert (0 <= INR n * t * e)%R by (repeat apply Rmult_le_pos; lra). lra. }
  split.
  - intros H0. rewrite H0 in *. cbn [INR] in *. destruct (Rle_dec l 0) as [R0|R0].
    + destruct (Req_EM_T l 0); auto. destruct (neg0 h); auto.
    + left. specialize (Low ltac:(lra) 1%R ltac:(lra) ltac:(lra) ltac:(lra)). apply Nat.min_glb; auto.
      assert (G : (IZR (Z.of_nat n) < IZR (c + 1))%R) by (rewrite <- INR_IZR_INZ, plus_IZR; lra). apply lt_IZR in G. lia.
  - intros H1. assert (X1 : (1 <= INR (ilog h n))%R) by (change 1%R with (INR 1); now apply le_INR). destruct (Rle_dec l 0) as [R0|R0]; [lra|].
    assert (K : (INR (ilog h n) + 1 = INR (ilog h n + 1))%R) by (rewrite plus_INR; reflexivity).
    specialize (Low ltac:(lra) (INR (ilog h n) + 1)%R ltac:(lra) ltac:(lra) ltac:(lra)).
    assert (Dp : (0 < dv (INR n) l)%R). { destruct (Rlt_dec 0 (dv (INR n) l)) as [|F]; auto. assert (dv (INR n) l * (INR (ilog h n) + 1) <= 0)%R by nra. lra. }
    assert (C0 : (0 < c)%Z) by (apply lt_IZR; lra). assert (Ec : INR (Z.to_nat c) = IZR c) by (rewrite INR_IZR_INZ, Z2Nat.id by lia; reflexivity).
    assert (A1 : n <= Z.to_nat c * (ilog h n + 1)).
    { assert (G : (INR n < INR (Z.to_nat c * (ilog h n + 1) + 1))%R). { rewrite plus_INR, mult_INR, Ec, <- K. change (INR 1) with 1%R. nra. } apply INR_lt in G. lia. }
    assert (A2 : (Z.to_nat c - 1) * ilog h n <= n).
    { assert (G : (INR ((Z.to_nat c - 1) * ilog h n) < INR (n + 1))%R); [|apply INR_lt in G; lia]. rewrite mult_INR, minus_INR, Ec, plus_INR by lia. change (INR 1) with 1%R. set (L := INR (ilog h n)) in *.
      specialize (Hhi l ltac:(lra)). assert (Q : (INR n / l * L <= INR n * (1 + t * (4 / 3)))%R).
      { apply Rmult_le_reg_r with l; [lra|]. replace (INR n / l * L * l)%R with (INR n * L)%R by (field; lra). assert (L <= l * (1 + t * (4 / 3)))%R by nra. nra. }
      assert (Q2 : (dv (INR n) l * L <= INR n / l * L * (1 + e))%R) by (replace (INR n / l * L * (1 + e))%R with (INR n / l * (1 + e) * L)%R by ring; apply Rmult_le_compat_r; lra). assert (Q3 : (INR n / l * L * (1 + e) <= INR n * (1 + t * (4 / 3)) * (1 + e))%R) by (apply Rmult_le_compat_r; lra).
      assert (Q4 : ((IZR c - 1) * L <= dv (INR n) l * L)%R) by (apply Rmult_le_compat_r; lra). assert (INR n * t * e <= INR n * t * (1 / 4))%R by (apply Rmult_le_compat_l; [nra|lra]). nra. }
    destruct (Nat.min_spec umax (Z.to_nat c)) as [(M1 & ->)|(M1 & ->)]; [|auto]. split; [nia|]. apply Nat.le_trans with ((Z.to_nat c - 1) * ilog h n); auto. apply Nat.mul_le_mono_r. lia.
Qed.
End Pace.
