(** Rounding errors of the float operations, and the comparison of rounded values. *)
From Coq Require Import ZArith QArith Qabs Qpower Lia Lqa List Bool.
From Coq.Floats Require Import SpecFloat.
From Verif Require Import Base Coord Trap Tri Plane SimFacts Float FloatRuns.
Local Open Scope Z_scope.

(** ** Shifting right *)

(** The record holds the number [M] shifted right by [n] binary places: quotient, first digit lost, whether others are lost. *)
Definition shifted (n M : Z) (r : shr_record) : Prop :=
  exists rem, M = shr_m r * 2 ^ n + rem /\ 0 <= rem < 2 ^ n /\ (shr_r r = true <-> 0 < n /\ 2 ^ n <= 2 * rem) /\ (shr_s r = true <-> rem <> 0 /\ 2 * rem <> 2 ^ n).

Lemma shifted_0 M : shifted 0 M {| shr_m := M; shr_r := false; shr_s := false |}.
Proof. exists 0. cbn. repeat split; try lia; discriminate. Qed.

Lemma shifted_1 n M r : 0 <= n -> 0 <= shr_m r -> shifted n M r -> shifted (n + 1) M (shr_1 r) /\ 0 <= shr_m (shr_1 r).
Proof.
  intros Hn Hm (rem & E & B & R & S). assert (P : 0 < 2 ^ n) by (apply Z.pow_pos_nonneg; lia).
  assert (Z0 : shr_r r || shr_s r = true <-> rem <> 0).
  { rewrite orb_true_iff, R, S. split; [intros [(K1 & K2)|(K1 & K2)]; lia|]. intros K. destruct (Z.eq_dec (2 * rem) (2 ^ n)) as [E2|E2]; [left|right; auto]. split; [|lia].
    destruct (Z.eq_dec n 0); [subst n; cbn in *; lia|lia]. }
  assert (Pw : 2 ^ (n + 1) = 2 * 2 ^ n) by (rewrite Z.pow_add_r, Z.pow_1_r by lia; ring).
  destruct r as [m r s]. cbn [shr_m shr_r shr_s] in *.
  assert (G : forall m' (b : bool), m = 2 * m' + (if b then 1 else 0) -> 0 <= m' -> shifted (n + 1) M {| shr_m := m'; shr_r := b; shr_s := r || s |}).
  { intros m' b Em Hm'. exists ((if b then 2 ^ n else 0) + rem). cbn [shr_m shr_r shr_s]. rewrite Pw. split; [rewrite E, Em; destruct b; ring|]. split; [destruct b; lia|]. split.
    - destruct b; split; intros K; try congruence; lia.
    - rewrite Z0. destruct b; split; intros K; lia. }
  unfold shr_1. destruct m as [|[m|m|]|m]; try lia; cbn [shr_m].
  - split; [|lia]. apply (G 0 false); lia.
  - split; [|lia]. apply (G (Zpos m) true); cbv iota; lia.
  - split; [|lia]. apply (G (Zpos m) false); cbv iota; lia.
  - split; [|lia]. apply (G 0 true); cbv iota; lia.
Qed.

Lemma shifted_pos p : forall n M r, 0 <= n -> 0 <= shr_m r -> shifted n M r -> shifted (n + Zpos p) M (iter_pos shr_1 p r) /\ 0 <= shr_m (iter_pos shr_1 p r).
Proof.
  induction p as [p IH|p IH|]; intros n M r Hn Hm H; cbn [iter_pos].
  - destruct (shifted_1 n M r Hn Hm H) as (K1 & K2). destruct (IH (n + 1) M _ ltac:(lia) K2 K1) as (K3 & K4). destruct (IH (n + 1 + Zpos p) M _ ltac:(lia) K4 K3) as (K5 & K6). split; auto. replace (n + Zpos p~1) with (n + 1 + Zpos p + Zpos p) by lia. auto.
  - destruct (IH _ _ _ Hn Hm H) as (K3 & K4). destruct (IH (n + Zpos p) M _ ltac:(lia) K4 K3) as (K5 & K6). split; auto. replace (n + Zpos p~0) with (n + Zpos p + Zpos p) by lia. auto.
  - now apply shifted_1.
Qed.

Lemma shifted_shr M e n : 0 <= M -> 0 <= n -> let (r, e') := shr {| shr_m := M; shr_r := false; shr_s := false |} e n in shifted n M r /\ 0 <= shr_m r /\ e' = e + n.
Proof.
  intros HM Hn. unfold shr. destruct n as [|p|p]; [| |lia].
  - split; [apply shifted_0|]. cbn. lia.
  - destruct (shifted_pos p 0 M {| shr_m := M; shr_r := false; shr_s := false |} ltac:(lia) HM (shifted_0 M)) as (K1 & K2). auto.
Qed.

(** Rounding to nearest. *)
Lemma nearest n M r : 0 <= n -> shifted n M r -> let m := round_nearest_even (shr_m r) (loc_of_shr_record r) in
  2 * Z.abs (m * 2 ^ n - M) <= 2 ^ n /\ (forall K, M < K * 2 ^ n -> m <= K) /\ (forall K, K * 2 ^ n <= M -> K <= m).
Proof.
  intros Hn (rem & E & B & R & S). assert (P : 0 < 2 ^ n) by (apply Z.pow_pos_nonneg; lia). destruct r as [m r s]. cbn [shr_m shr_r shr_s] in *.
  assert (G : (if Z.eq_dec rem 0 then loc_of_shr_record {| shr_m := m; shr_r := r; shr_s := s |} = loc_Exact else
               loc_of_shr_record {| shr_m := m; shr_r := r; shr_s := s |} = loc_Inexact (2 * rem ?= 2 ^ n))).
  { destruct (Z.eq_dec rem 0) as [Z|Z]; cbn [loc_of_shr_record].
    - assert (r = false). { destruct r; auto. destruct (proj1 R eq_refl). lia. } assert (s = false). { destruct s; auto. destruct (proj1 S eq_refl). lia. } now subst.
    - assert (Hn0 : 0 < n) by (destruct (Z.eq_dec n 0); [subst n; cbn in *; lia|lia]). destruct (Z.compare_spec (2 * rem) (2 ^ n)) as [K|K|K].
      + assert (r = true) by (apply R; lia). assert (s = false). { destruct s; auto. destruct (proj1 S eq_refl). lia. } now subst.
      + assert (r = false). { destruct r; auto. destruct (proj1 R eq_refl). lia. } assert (s = true) by (apply S; lia). now subst.
      + assert (r = true) by (apply R; lia). assert (s = true) by (apply S; lia). now subst. }
  cbv zeta. cbn [shr_m]. destruct (Z.eq_dec rem 0) as [Z|Z]; rewrite G; cbn [round_nearest_even].
  - split; [|split; intros K HK; nia]. replace (m * 2 ^ n - M) with 0 by lia. cbn. lia.
  - assert (D : m * 2 ^ n - M = - rem /\ (m + 1) * 2 ^ n - M = 2 ^ n - rem) by lia. destruct D as (D1 & D2).
    assert (U1 : forall K, M < K * 2 ^ n -> m + 1 <= K) by (intros K HK; nia). assert (U2 : forall K, K * 2 ^ n <= M -> K <= m) by (intros K HK; nia).
    destruct (Z.compare_spec (2 * rem) (2 ^ n)) as [K|K|K].
    + destruct (Z.even m); [rewrite D1|rewrite D2]; (split; [lia|split; intros K' HK; [specialize (U1 K' HK)|specialize (U2 K' HK)]; lia]).
    + rewrite D1. split; [lia|split; intros K' HK; [specialize (U1 K' HK)|specialize (U2 K' HK)]; lia].
    + rewrite D2. split; [lia|split; intros K' HK; [specialize (U1 K' HK)|specialize (U2 K' HK)]; lia].
Qed.

Section Err.
Variables (prec emax : Z).
Hypothesis Hprec : 1 < prec.
Hypothesis Hemax : prec < emax.
Notation emin := (emin prec emax).
Notation fexp := (fexp prec emax).
Notation bounded := (bounded prec emax).

(** A float of the format with the value [v]. *)
Definition is_val (f : spec_float) (v : Q) : Prop := valid_binary prec emax f = true /\ finite f /\ (fval f == v)%Q.

Lemma digits_pow k : 0 <= k -> Zpos (digits2_pos (Z.to_pos (2 ^ k))) = k + 1.
Proof. intros H. assert (P : 0 < 2 ^ k) by (apply Z.pow_pos_nonneg; lia). apply digits_unique. rewrite Z2Pos.id by auto. replace (k + 1 - 1) with k by lia. rewrite Z.pow_add_r, Z.pow_1_r by lia. lia. Qed.

(** The result of rounding, and how far it is. *)
Lemma round_near sx m e : let f := fexp (Zpos (digits2_pos m) + e) in e <= f -> Zpos (digits2_pos m) + e <= emax - 1 ->
  exists M, 0 <= M /\ 2 * Z.abs (M * 2 ^ (f - e) - Zpos m) <= 2 ^ (f - e) /\ is_val (binary_round_aux prec emax sx (Zpos m) e loc_Exact) (inject_Z (cond_Zopp sx M) * 2 ^ f)%Q.
Proof.
  intros f He Hmax. set (d := Zpos (digits2_pos m)) in *. destruct (digits_bound m) as (D1 & D2). fold d in D1, D2.
  assert (Hf : f = Z.max (d + e - prec) emin) by reflexivity. unfold binary_round_aux. unfold shr_fexp at 1. cbn [Zdigits2 shr_record_of_loc]. fold d. fold f.
  pose proof (shifted_shr (Zpos m) e (f - e) ltac:(lia) ltac:(lia)) as Sh. destruct (shr _ e (f - e)) as (r & e'). destruct Sh as (Sh & Hr & ->). replace (e + (f - e)) with f by lia.
  destruct (nearest (f - e) (Zpos m) r ltac:(lia) Sh) as (N1 & N2 & N3). set (M := round_nearest_even (shr_m r) (loc_of_shr_record r)) in *.
  assert (M0 : 0 <= M) by (apply N3; lia).
  assert (M1 : M <= 2 ^ prec). { apply N2. rewrite <- Z.pow_add_r by lia. assert (2 ^ d <= 2 ^ (prec + (f - e))) by (apply Z.pow_le_mono_r; lia). lia. }
  exists M. split; auto. split; auto. assert (Ez : emax - prec >= 1) by lia.
  unfold shr_fexp. cbn [shr_record_of_loc]. destruct (Z.eq_dec M 0) as [Z0|Z0].
  { rewrite Z0. cbn [Zdigits2]. assert (Hn : shr_m (fst (shr {| shr_m := 0; shr_r := false; shr_s := false |} f (fexp (0 + f) - f))) = 0).
    { unfold shr. destruct (fexp (0 + f) - f); cbn [fst shr_m]; auto. assert (G : forall p, shr_m (iter_pos shr_1 p {| shr_m := 0; shr_r := false; shr_s := false |}) = 0).
      { assert (G1 : forall p r, shr_m r = 0 -> shr_m (iter_pos shr_1 p r) = 0). { induction p0 as [p0 IH|p0 IH|]; intros [m1 r1 s1] E1; cbn [iter_pos shr_m] in *; subst; auto. } intros p0. now apply G1. }
      apply G. }
    destruct (shr _ f _) as (r2 & e2). cbn [fst] in Hn. rewrite Hn. split; [reflexivity|]. split; [exact Logic.I|]. cbn [fval]. destruct sx; cbn; ring. }
  clearbody M. destruct M as [|M|M]; try lia. cbn [Zdigits2].
  destruct (Z.eq_dec (Zpos M) (2 ^ prec)) as [Ec|Ec].
  - (* carry *)
    assert (Dc : Zpos (digits2_pos M) = prec + 1). { apply digits_unique. rewrite Ec. replace (prec + 1 - 1) with prec by lia. rewrite Z.pow_add_r, Z.pow_1_r by lia. assert (0 < 2 ^ prec) by (apply Z.pow_pos_nonneg; lia). lia. }
    assert (Hn : d + e - prec >= emin).
    { destruct (Z.le_gt_cases emin (d + e - prec)) as [|L]; [lia|exfalso]. assert (Ff : f = emin) by lia. assert (Zpos M <= 2 ^ (prec - 1)); [|rewrite Ec in *; assert (2 ^ (prec - 1) < 2 ^ prec) by (apply Z.pow_lt_mono_r; lia); lia].
      apply N2. rewrite <- Z.pow_add_r by lia. assert (2 ^ d <= 2 ^ (prec - 1 + (f - e))) by (apply Z.pow_le_mono_r; lia). lia. }
    assert (Ef : fexp (Zpos (digits2_pos M) + f) - f = 1). { rewrite Dc. unfold SpecFloat.fexp. lia. } rewrite Ef. cbn [shr iter_pos].
    set (h := Z.to_pos (2 ^ (prec - 1))). assert (Ph : 0 < 2 ^ (prec - 1)) by (apply Z.pow_pos_nonneg; lia). assert (Eh : Zpos h = 2 ^ (prec - 1)) by (unfold h; now apply Z2Pos.id).
    assert (E2 : Zpos M = Zpos h * 2). { rewrite Ec, Eh. replace prec with (prec - 1 + 1) at 1 by lia. rewrite Z.pow_add_r, Z.pow_1_r by lia. ring. }
    rewrite E2, shr_1_even by lia. cbn [shr_m]. assert (Zle_bool (f + 1) (emax - prec) = true) as -> by (apply Zle_is_le_bool; lia).
    assert (Dh : Zpos (digits2_pos h) = prec). { unfold h. rewrite digits_pow by lia. lia. }
    split; [|split; [exact Logic.I|]].
    + cbn [valid_binary]. apply bounded_spec; auto. rewrite Dh. unfold SpecFloat.fexp. split; lia.
    + cbn [fval]. rewrite pow_split by lia. change (2 ^ 1) with 2. destruct sx; cbn [cond_Zopp]; rewrite ?inject_Z_opp, inject_Z_mult; ring.
  - assert (L : Zpos M < 2 ^ prec) by lia. assert (Dl : Zpos (digits2_pos M) <= prec) by now apply digits_le.
    assert (Ef : fexp (Zpos (digits2_pos M) + f) = f).
    { unfold SpecFloat.fexp. destruct (Z.le_gt_cases emin (d + e - prec)) as [G|G]; [|unfold SpecFloat.fexp in *; lia].
      assert (Zpos (digits2_pos M) = prec); [|lia]. assert (2 ^ (prec - 1) <= Zpos M). { apply N3. rewrite <- Z.pow_add_r by lia. assert (2 ^ (prec - 1 + (f - e)) <= 2 ^ (d - 1)) by (apply Z.pow_le_mono_r; lia). lia. }
      apply digits_ge in H. lia. }
    rewrite Ef, Z.sub_diag. cbn [shr shr_m]. assert (Hfm : f <= emax - prec). { unfold SpecFloat.emin in *. lia. } assert (Zle_bool f (emax - prec) = true) as -> by (apply Zle_is_le_bool; lia).
    split; [|split; [exact Logic.I|]].
    + cbn [valid_binary]. apply bounded_spec; auto.
    + cbn [fval]. destruct sx; cbn [cond_Zopp]; reflexivity.
Qed.

(** ** Relative errors *)

Definition unit_err : Q := (2 ^ (- prec))%Q.
Local Open Scope Q_scope.

Lemma unit_pos : 0 < unit_err.
Proof. apply pow_pos_q. Qed.
Lemma unit_half : unit_err * 4 <= 1.
Proof.
  unfold unit_err. assert (E : 2 ^ (- (2)) * 4 == 1) by reflexivity. rewrite <- E. apply Qmult_le_compat_r; [|lra]. apply Qpower_le_compat_l; [lia|lra].
Qed.
Lemma unit_pow : unit_err * inject_Z (2 ^ prec) == 1.
Proof. unfold unit_err. rewrite Zpower_Qpower by lia. change (inject_Z 2) with 2%Q. rewrite <- Qpower_plus by discriminate. replace (- prec + prec)%Z with 0%Z by lia. reflexivity. Qed.

Lemma abs_inject z : Qabs (inject_Z z) == inject_Z (Z.abs z).
Proof. destruct z; reflexivity. Qed.
Lemma cond_abs sx z : Z.abs (cond_Zopp sx z) = Z.abs z.
Proof. destruct sx; cbn [cond_Zopp]; lia. Qed.

Lemma rel_near sx m e f d M : (e <= f)%Z -> (0 <= d)%Z -> (2 * Z.abs (M * 2 ^ (f - e) - Zpos m) <= 2 ^ (f - e))%Z -> (2 ^ (d - 1) <= Zpos m)%Z -> (1 <= d)%Z -> (f = d + e - prec)%Z ->
  Qabs (inject_Z (cond_Zopp sx M) * 2 ^ f - inject_Z (cond_Zopp sx (Zpos m)) * 2 ^ e) <= unit_err * Qabs (inject_Z (cond_Zopp sx (Zpos m)) * 2 ^ e).
Proof.
  intros He Hd Hn Hm H1 Ef. pose proof (pow_pos_q e) as P. pose proof unit_pow as U. pose proof unit_pos as U0. set (z := (M * 2 ^ (f - e) - Zpos m)%Z) in *.
  assert (E1 : inject_Z (cond_Zopp sx M) * 2 ^ f - inject_Z (cond_Zopp sx (Zpos m)) * 2 ^ e == inject_Z (cond_Zopp sx z) * 2 ^ e).
  { replace f with (e + (f - e))%Z at 1 by lia. rewrite pow_split by lia. unfold z. destruct sx; cbn [cond_Zopp]; rewrite ?inject_Z_opp; unfold Zminus; rewrite inject_Z_plus, inject_Z_opp, inject_Z_mult; ring. }
  rewrite E1, !Qabs_Qmult, !abs_inject, !cond_abs. rewrite (Qabs_pos (2 ^ e)) by lra.
  assert (K : (Z.abs z * 2 ^ prec <= Zpos m)%Z).
  { assert (E : (2 ^ (f - e) * 2 ^ prec = 2 * 2 ^ (d - 1))%Z). { rewrite <- Z.pow_add_r by lia. replace (f - e + prec)%Z with (1 + (d - 1))%Z by lia. rewrite Z.pow_add_r, Z.pow_1_r by lia. ring. }
    assert (0 < 2 ^ prec)%Z by (apply Z.pow_pos_nonneg; lia). nia. }
  rewrite Zle_Qle, inject_Z_mult in K. set (w := inject_Z (2 ^ prec)) in *. set (a := inject_Z (Z.abs z)) in *. change (Z.abs (Zpos m)) with (Zpos m). set (b := inject_Z (Zpos m)) in *. set (q := 2 ^ e) in *. clearbody q a b w.
  assert (K2 : unit_err * (a * w) <= unit_err * b) by (apply Qmult_le_l; auto). assert (K3 : unit_err * (a * w) == a) by (transitivity (a * (unit_err * w)); [ring|rewrite U; ring]). assert (a * q <= unit_err * b * q) by (apply Qmult_le_compat_r; lra). lra.
Qed.

(** Rounding when nothing is lost below the smallest exponent. *)
Lemma round_rel sx m e : let d := Zpos (digits2_pos m) in (e <= fexp (d + e))%Z -> (d + e <= emax - 1)%Z -> (emin <= e \/ emin <= d + e - prec)%Z ->
  exists v, is_val (binary_round_aux prec emax sx (Zpos m) e loc_Exact) v /\ Qabs (v - inject_Z (cond_Zopp sx (Zpos m)) * 2 ^ e) <= unit_err * Qabs (inject_Z (cond_Zopp sx (Zpos m)) * 2 ^ e).
Proof.
  intros d He Hmax Hmin. destruct (round_near sx m e He Hmax) as (M & M0 & M1 & M2). fold d in M1, M2. eexists. split; [exact M2|]. pose proof unit_pos as U0. destruct (digits_bound m) as (D1 & D2). fold d in D1, D2.
  destruct (Z.eq_dec (fexp (d + e)) e) as [E|E].
  - rewrite E in *. rewrite Z.sub_diag, Z.pow_0_r in M1. assert (M = Zpos m) by lia. subst M.
    assert (Z0 : inject_Z (cond_Zopp sx (Zpos m)) * 2 ^ e - inject_Z (cond_Zopp sx (Zpos m)) * 2 ^ e == 0) by ring. rewrite Z0. change (Qabs 0) with 0. pose proof (Qabs_nonneg (inject_Z (cond_Zopp sx (Zpos m)) * 2 ^ e)). nra.
  - assert (Ef : fexp (d + e) = (d + e - prec)%Z) by (unfold SpecFloat.fexp in *; lia). apply (rel_near sx m e _ d M); auto; lia.
Qed.

Lemma round_rel' sx m e : (emin <= e)%Z -> (Zpos (digits2_pos m) + e <= emax - 1)%Z ->
  exists v, is_val (binary_round prec emax sx m e) v /\ Qabs (v - inject_Z (cond_Zopp sx (Zpos m)) * 2 ^ e) <= unit_err * Qabs (inject_Z (cond_Zopp sx (Zpos m)) * 2 ^ e).
Proof.
  intros Hmin Hmax. unfold binary_round. destruct (Z.le_gt_cases e (fexp (Zpos (digits2_pos m) + e))) as [H|H].
  - rewrite align_id by auto. apply round_rel; auto.
  - set (f := fexp (Zpos (digits2_pos m) + e)) in *. destruct (align_val m e f) as (V1 & V2); [lia|]. destruct (shl_align m e f) as (m1 & e1). cbn [fst snd] in *. subst e1.
    pose proof (digits_mul m m1 (e - f) ltac:(lia) V1) as D. assert (Ed : (Zpos (digits2_pos m1) + f = Zpos (digits2_pos m) + e)%Z) by lia.
    destruct (round_rel sx m1 f) as (v & K1 & K2); [rewrite Ed; fold f; lia|lia|left; unfold f, SpecFloat.fexp; lia|]. exists v. split; auto.
    assert (E : inject_Z (cond_Zopp sx (Zpos m1)) * 2 ^ f == inject_Z (cond_Zopp sx (Zpos m)) * 2 ^ e).
    { assert (X : 2 ^ e == inject_Z (2 ^ (e - f)) * 2 ^ f) by (rewrite <- pow_split by lia; replace (f + (e - f))%Z with e by lia; reflexivity). rewrite X, V1. destruct sx; cbn [cond_Zopp]; rewrite ?inject_Z_opp, inject_Z_mult; ring. }
    now rewrite <- E.
Qed.

(** The number of digits is bounded by the value. *)
Lemma digits_val m e b : inject_Z (Zpos m) * 2 ^ e < 2 ^ b -> (Zpos (digits2_pos m) + e <= b)%Z.
Proof.
  intros H. destruct (digits_bound m) as (D1 & _). rewrite Zle_Qle in D1. rewrite Zpower_Qpower in D1 by lia. change (inject_Z 2) with 2 in D1. pose proof (pow_pos_q e) as P.
  assert (K : 2 ^ (Zpos (digits2_pos m) - 1 + e) < 2 ^ b). { rewrite Qpower_plus by discriminate. assert (2 ^ (Zpos (digits2_pos m) - 1) * 2 ^ e <= inject_Z (Zpos m) * 2 ^ e) by (apply Qmult_le_compat_r; lra). lra. }
  apply Qpower_lt_compat_l_inv in K; [lia|reflexivity].
Qed.
Lemma val_digits m e b : 2 ^ b <= inject_Z (Zpos m) * 2 ^ e -> (b < Zpos (digits2_pos m) + e)%Z.
Proof.
  intros H. destruct (digits_bound m) as (_ & D2). rewrite Zlt_Qlt in D2. rewrite Zpower_Qpower in D2 by lia. change (inject_Z 2) with 2 in D2. pose proof (pow_pos_q e) as P.
  assert (K : 2 ^ b < 2 ^ (Zpos (digits2_pos m) + e)). { rewrite Qpower_plus by discriminate. assert (inject_Z (Zpos m) * 2 ^ e < 2 ^ Zpos (digits2_pos m) * 2 ^ e) by (apply Qmult_lt_r; lra). lra. }
  apply Qpower_lt_compat_l_inv in K; [lia|reflexivity].
Qed.

Definition ok (f : spec_float) : Prop := valid_binary prec emax f = true /\ finite f.

Lemma err_zero v : v == 0 -> forall w, w == v -> Qabs (w - v) <= unit_err * Qabs v.
Proof. intros E w Ew. assert (E2 : w - v == 0) by lra. rewrite E2, E. change (Qabs 0) with 0. lra. Qed.
Lemma err_same v w : w == v -> Qabs (w - v) <= unit_err * Qabs v.
Proof. intros E. assert (E2 : w - v == 0) by lra. rewrite E2. change (Qabs 0) with 0. pose proof (Qabs_nonneg v). pose proof unit_pos. nra. Qed.

Lemma sub_err x y : ok x -> ok y -> Qabs (fval x - fval y) < 2 ^ (emax - 1) -> ok (SFsub prec emax x y) /\ Qabs (fval (SFsub prec emax x y) - (fval x - fval y)) <= unit_err * Qabs (fval x - fval y).
Proof.
  intros (Vx & Fx) (Vy & Fy) Hb. destruct x as [sx|sx| |sx mx ex], y as [sy|sy| |sy my ey]; cbn [finite] in Fx, Fy; try contradiction; cbn [SFsub].
  - split; [destruct (Bool.eqb sx (negb sy)); split; reflexivity || exact Logic.I|]. apply err_same. destruct (Bool.eqb sx (negb sy)); reflexivity.
  - split; [split; [exact Vy|exact Logic.I]|]. apply err_same. cbn [fval]. destruct sy; cbn [negb cond_Zopp]; rewrite ?inject_Z_opp; ring.
  - split; [split; [exact Vx|exact Logic.I]|]. apply err_same. cbn [fval]. ring.
  - cbn [valid_binary] in Vx, Vy. apply bounded_spec in Vx, Vy; auto. set (ez := Z.min ex ey). destruct (align_val mx ex ez) as (V1 & _); [lia|]. destruct (align_val my ey ez) as (V2 & _); [lia|].
    assert (Hez : (emin <= ez)%Z) by (unfold SpecFloat.fexp in *; lia).
    set (z := (cond_Zopp sx (Zpos (fst (shl_align mx ex ez))) - cond_Zopp sy (Zpos (fst (shl_align my ey ez))))%Z).
    assert (Ez : fval (S754_finite sx mx ex) - fval (S754_finite sy my ey) == inject_Z z * 2 ^ ez).
    { assert (X : 2 ^ ex == inject_Z (2 ^ (ex - ez)) * 2 ^ ez) by (rewrite <- pow_split by lia; replace (ez + (ex - ez))%Z with ex by lia; reflexivity). assert (Y : 2 ^ ey == inject_Z (2 ^ (ey - ez)) * 2 ^ ez) by (rewrite <- pow_split by lia; replace (ez + (ey - ez))%Z with ey by lia; reflexivity).
      cbn [fval]. rewrite X, Y. unfold z. rewrite V1, V2. unfold Zminus. rewrite inject_Z_plus, inject_Z_opp.
      destruct sx, sy; cbn [cond_Zopp]; rewrite ?inject_Z_opp, ?inject_Z_mult; ring. }
    rewrite Ez in Hb |- *. pose proof (pow_pos_q ez) as P. clearbody z. destruct z as [|m|m]; cbn [binary_normalize].
    + split; [split; [reflexivity|exact Logic.I]|]. apply err_same. cbn [fval]. change (inject_Z 0) with 0. ring.
    + rewrite Qabs_Qmult, (Qabs_pos (2 ^ ez)), abs_inject in Hb by lra. apply digits_val in Hb. destruct (round_rel' false m ez Hez Hb) as (v & (K1 & K2 & K3) & K4). split; [split; auto|]. rewrite K3. exact K4.
    + rewrite Qabs_Qmult, (Qabs_pos (2 ^ ez)), abs_inject in Hb by lra. change (Z.abs (Zneg m)) with (Zpos m) in Hb. apply digits_val in Hb. destruct (round_rel' true m ez Hez Hb) as (v & (K1 & K2 & K3) & K4). split; [split; auto|]. rewrite K3. exact K4.
Qed.

Lemma mul_err x y : ok x -> ok y -> Qabs (fval x * fval y) < 2 ^ (emax - 1) -> fval x * fval y == 0 \/ 2 ^ (emin + prec - 1) <= Qabs (fval x * fval y) ->
  ok (SFmul prec emax x y) /\ Qabs (fval (SFmul prec emax x y) - fval x * fval y) <= unit_err * Qabs (fval x * fval y).
Proof.
  intros (Vx & Fx) (Vy & Fy) Hb Hs. destruct x as [sx|sx| |sx mx ex], y as [sy|sy| |sy my ey]; cbn [finite] in Fx, Fy; try contradiction; cbn [SFmul].
  1, 2, 3: (split; [split; [reflexivity|exact Logic.I]|]; apply err_same; cbn [fval]; ring).
  cbn [valid_binary] in Vx, Vy. apply bounded_spec in Vx, Vy; auto. destruct (digits_prod mx my) as (D1 & D2).
  assert (Ez : fval (S754_finite sx mx ex) * fval (S754_finite sy my ey) == inject_Z (cond_Zopp (xorb sx sy) (Zpos (mx * my))) * 2 ^ (ex + ey)).
  { cbn [fval]. rewrite Qpower_plus by discriminate. rewrite Pos2Z.inj_mul. destruct sx, sy; cbn [cond_Zopp xorb]; rewrite ?inject_Z_opp, ?inject_Z_mult; ring. }
  rewrite Ez in Hb, Hs |- *. pose proof (pow_pos_q (ex + ey)) as P. rewrite Qabs_Qmult, (Qabs_pos (2 ^ (ex + ey))), abs_inject, cond_abs in Hb, Hs by lra. change (Z.abs (Zpos (mx * my))) with (Zpos (mx * my)) in Hb, Hs.
  destruct Hs as [Hs|Hs].
  { exfalso. apply Qmult_integral in Hs. destruct Hs as [Hs|Hs]; [|lra]. destruct (xorb sx sy); cbn [cond_Zopp] in Hs; discriminate. }
  apply digits_val in Hb. apply val_digits in Hs.
  destruct (round_rel (xorb sx sy) (mx * my) (ex + ey)) as (v & (K1 & K2 & K3) & K4); [unfold SpecFloat.fexp, SpecFloat.emin in *; lia|lia|right; lia|]. split; [split; auto|]. rewrite K3. exact K4.
Qed.

(** ** Comparison *)

Lemma cmp_val x y : ok x -> ok y -> SFcompare x y = Some (fval x ?= fval y).
Proof.
  intros (Vx & Fx) (Vy & Fy).
  assert (Pv : forall m e, 0 < inject_Z (Zpos m) * 2 ^ e) by (intros m e; apply Qmult_lt_0_compat; [reflexivity|apply pow_pos_q]).
  assert (LT : forall m1 e1 m2 e2, bounded m1 e1 = true -> bounded m2 e2 = true -> (e1 < e2)%Z -> inject_Z (Zpos m1) * 2 ^ e1 < inject_Z (Zpos m2) * 2 ^ e2).
  { intros m1 e1 m2 e2 B1 B2 L. apply bounded_spec in B1, B2; auto. unfold SpecFloat.fexp in *. destruct (digits_bound m1) as (_ & D1). destruct (digits_bound m2) as (D2 & _).
    assert (X1 : (Zpos (digits2_pos m1) <= prec)%Z) by lia. assert (X2 : Zpos (digits2_pos m2) = prec) by lia. rewrite X2 in D2.
    assert (Y1 : (2 ^ Zpos (digits2_pos m1) <= 2 ^ prec)%Z) by (apply Z.pow_le_mono_r; lia).
    replace e2 with (e1 + (e2 - e1))%Z by lia. rewrite pow_split, Qmult_assoc, <- inject_Z_mult by lia. apply Qmult_lt_r; [apply pow_pos_q|]. rewrite <- Zlt_Qlt.
    assert (Y2 : (2 ^ prec <= 2 ^ (prec - 1) * 2 ^ (e2 - e1))%Z) by (rewrite <- Z.pow_add_r by lia; apply Z.pow_le_mono_r; lia). assert (0 < 2 ^ (e2 - e1))%Z by (apply Z.pow_pos_nonneg; lia). nia. }
  assert (EQ : forall m1 m2 e, (Zpos m1 ?= Zpos m2)%Z = (inject_Z (Zpos m1) * 2 ^ e ?= inject_Z (Zpos m2) * 2 ^ e)).
  { intros m1 m2 e. pose proof (pow_pos_q e) as P. symmetry. destruct (Z.compare_spec (Zpos m1) (Zpos m2)) as [H|H|H]; [apply (proj1 (Qeq_alt _ _)); now rewrite H|apply (proj1 (Qlt_alt _ _))|apply (proj1 (Qgt_alt _ _))]; (apply Qmult_lt_r; [auto|now rewrite <- Zlt_Qlt]). }
  assert (OP : forall a b, (- a ?= - b) = (b ?= a)). { intros a b. destruct (Qcompare_spec b a) as [H|H|H]; [apply (proj1 (Qeq_alt _ _))|apply (proj1 (Qlt_alt _ _))|apply (proj1 (Qgt_alt _ _))]; lra. }
  assert (NE : forall z e, inject_Z (- z) * 2 ^ e == - (inject_Z z * 2 ^ e)) by (intros z e; rewrite inject_Z_opp; ring).
  destruct x as [sx|sx| |sx mx ex], y as [sy|sy| |sy my ey]; cbn [finite] in Fx, Fy; try contradiction; cbn [SFcompare fval valid_binary] in *; f_equal; symmetry.
  - destruct sy; cbn [cond_Zopp]; [apply (proj1 (Qgt_alt _ _)); rewrite NE|apply (proj1 (Qlt_alt _ _))]; pose proof (Pv my ey); lra.
  - destruct sx; cbn [cond_Zopp]; [apply (proj1 (Qlt_alt _ _)); rewrite NE|apply (proj1 (Qgt_alt _ _))]; pose proof (Pv mx ex); lra.
  - destruct sx, sy; cbn [cond_Zopp].
    + rewrite (Qcompare_comp _ _ (NE (Zpos mx) ex) _ _ (NE (Zpos my) ey)), OP. destruct (Z.compare_spec ex ey) as [E|E|E].
      * subst ey. rewrite <- Pos.compare_antisym. change (my ?= mx)%positive with (Zpos my ?= Zpos mx)%Z. symmetry. apply EQ.
      * apply (proj1 (Qgt_alt _ _)). now apply LT.
      * apply (proj1 (Qlt_alt _ _)). now apply LT.
    + apply (proj1 (Qlt_alt _ _)). rewrite NE. pose proof (Pv mx ex). pose proof (Pv my ey). lra.
    + apply (proj1 (Qgt_alt _ _)). rewrite NE. pose proof (Pv mx ex). pose proof (Pv my ey). lra.
    + destruct (Z.compare_spec ex ey) as [E|E|E].
      * subst ey. change (Pos.compare_cont Eq mx my) with (Zpos mx ?= Zpos my)%Z. symmetry. apply EQ.
      * apply (proj1 (Qlt_alt _ _)). now apply LT.
      * apply (proj1 (Qgt_alt _ _)). now apply LT.
Qed.

Lemma eqb_val x y : ok x -> ok y -> SFeqb x y = Qeq_bool (fval x) (fval y).
Proof. intros H H'. unfold SFeqb. rewrite cmp_val, q_eqb; auto. Qed.
Lemma ltb_val x y : ok x -> ok y -> SFltb x y = Qltb (fval x) (fval y).
Proof. intros H H'. unfold SFltb. rewrite cmp_val, q_ltb; auto. Qed.

(** ** Products of differences *)

Variables (a b : Z).
Hypothesis Ha : (2 * a + 4 <= emax - 1)%Z.
Hypothesis Ha0 : (a + 2 <= emax - 1)%Z.
Hypothesis Hb : (emin + prec - 1 <= 2 * b - 2)%Z.

Definition coord (f : spec_float) : Prop := ok f /\ Qabs (fval f) <= 2 ^ a.
(** Two coordinates are the same or not too near. *)
Definition apart (x y : spec_float) : Prop := fval x == fval y \/ 2 ^ b <= Qabs (fval x - fval y).

Lemma abs_le x y : Qabs x <= y <-> - y <= x <= y.
Proof. apply Qabs_Qle_condition. Qed.

Lemma pow_succ e : 2 ^ (e + 1) == 2 * 2 ^ e.
Proof. rewrite Qpower_plus by discriminate. change (2 ^ 1) with 2. ring. Qed.

Lemma diff x y : coord x -> coord y -> apart x y -> let d := SFsub prec emax x y in
  ok d /\ Qabs (fval d - (fval x - fval y)) <= unit_err * Qabs (fval x - fval y) /\ Qabs (fval d) < 2 ^ (a + 2) /\ (fval d == 0 \/ 2 ^ (b - 1) <= Qabs (fval d)).
Proof.
  intros (Ox & Bx) (Oy & By) Hap d. pose proof unit_pos as U0. pose proof unit_half as U1.
  assert (P2 : 2 ^ (a + 2) == 4 * 2 ^ a) by (replace (a + 2)%Z with (a + 1 + 1)%Z by lia; rewrite !pow_succ; ring). pose proof (pow_pos_q a) as Pa.
  assert (Q1 : Qabs (fval x - fval y) <= 2 * 2 ^ a) by (apply abs_le; apply abs_le in Bx; apply abs_le in By; lra).
  assert (Q2 : 4 * 2 ^ a <= 2 ^ (emax - 1)) by (rewrite <- P2; apply Qpower_le_compat_l; [lia|lra]).
  destruct (sub_err x y Ox Oy) as (K1 & K2); [lra|]. fold d in K1, K2. split; auto. split; auto.
  set (v := fval x - fval y) in *. set (w := fval d) in *. pose proof (Qabs_nonneg v) as V0. assert (T1 : Qabs w <= Qabs (w - v) + Qabs v). { assert (E : w == (w - v) + v) by ring. rewrite E at 1. apply Qabs_triangle. }
  assert (T2 : Qabs v <= Qabs (w - v) + Qabs w). { assert (E : v == - (w - v) + w) by ring. rewrite E at 1. rewrite <- (Qabs_opp (w - v)). apply Qabs_triangle. }
  assert (U2 : unit_err * Qabs v <= (1 # 4) * Qabs v) by (apply Qmult_le_compat_r; lra).
  split; [rewrite P2; lra|]. destruct Hap as [E|E].
  - left. assert (Ev : v == 0) by (unfold v; lra). rewrite Ev in K2. change (Qabs 0) with 0 in K2. apply abs_le in K2. lra.
  - right. fold v in E. assert (Eb : 2 ^ b == 2 * 2 ^ (b - 1)) by (rewrite <- pow_succ; replace (b - 1 + 1)%Z with b by lia; reflexivity). pose proof (pow_pos_q (b - 1)). lra.
Qed.

Lemma err3 p q p' q' r u : 0 < u -> u * 4 <= 1 -> Qabs (p' - p) <= u * Qabs p -> Qabs (q' - q) <= u * Qabs q -> Qabs (r - p' * q') <= u * Qabs (p' * q') -> Qabs (r - p * q) <= 4 * u * Qabs (p * q).
Proof.
  intros U0 U1 Hp Hq Hr. rewrite Qabs_Qmult in *. pose proof (Qabs_nonneg p) as P0. pose proof (Qabs_nonneg q) as Q0.
  assert (E : r - p * q == (r - p' * q') + ((p' - p) * (q' - q) + ((p' - p) * q + p * (q' - q)))) by ring.
  assert (T : Qabs (r - p * q) <= Qabs (r - p' * q') + (Qabs (p' - p) * Qabs (q' - q) + (Qabs (p' - p) * Qabs q + Qabs p * Qabs (q' - q)))).
  { rewrite E. eapply Qle_trans; [apply Qabs_triangle|]. apply Qplus_le_r. eapply Qle_trans; [apply Qabs_triangle|]. rewrite Qabs_Qmult. apply Qplus_le_r. eapply Qle_trans; [apply Qabs_triangle|]. rewrite !Qabs_Qmult. lra. }
  assert (Tp : Qabs p' <= (1 + u) * Qabs p). { assert (E1 : p' == (p' - p) + p) by ring. assert (Qabs p' <= Qabs (p' - p) + Qabs p) by (rewrite E1 at 1; apply Qabs_triangle). lra. }
  assert (Tq : Qabs q' <= (1 + u) * Qabs q). { assert (E1 : q' == (q' - q) + q) by ring. assert (Qabs q' <= Qabs (q' - q) + Qabs q) by (rewrite E1 at 1; apply Qabs_triangle). lra. }
  pose proof (Qabs_nonneg p') as P0'. pose proof (Qabs_nonneg q') as Q0'. pose proof (Qabs_nonneg (p' - p)) as P1. pose proof (Qabs_nonneg (q' - q)) as Q1.
  set (ap := Qabs p) in *. set (aq := Qabs q) in *. set (ap' := Qabs p') in *. set (aq' := Qabs q') in *. set (dp := Qabs (p' - p)) in *. set (dq := Qabs (q' - q)) in *. set (dr := Qabs (r - p' * q')) in *. set (D := Qabs (r - p * q)) in *.
  clearbody ap aq ap' aq' dp dq dr D. clear E. assert (X0 : 0 <= ap * aq) by (apply Qmult_le_0_compat; auto).
  assert (X1 : ap' * aq' <= ((1 + u) * ap) * ((1 + u) * aq)) by (apply Qmult_le_compat_nonneg; lra).
  assert (X2 : dp * dq <= (u * ap) * (u * aq)) by (apply Qmult_le_compat_nonneg; lra).
  assert (X3 : dp * aq <= (u * ap) * aq) by (apply Qmult_le_compat_r; lra).
  assert (X4 : ap * dq <= ap * (u * aq)) by (apply Qmult_le_compat_nonneg; lra).
  assert (X5 : u * (ap' * aq') <= u * (((1 + u) * ap) * ((1 + u) * aq))) by (apply Qmult_le_l; auto).
  assert (X6 : D <= (3 * u + 3 * (u * u) + u * u * u) * (ap * aq)) by (ring_simplify; ring_simplify in X5; ring_simplify in X2; ring_simplify in X3; ring_simplify in X4; lra).
  assert (X7 : 3 * u + 3 * (u * u) + u * u * u <= 4 * u). { assert (u * u <= (1 # 4) * u) by (apply Qmult_le_compat_r; lra). assert (u * u * u <= (1 # 4) * (u * u)). { assert (E : u * u * u == u * (u * u)) by ring. rewrite E. apply Qmult_le_compat_r; [lra|]. nra. } lra. }
  assert (X8 : (3 * u + 3 * (u * u) + u * u * u) * (ap * aq) <= 4 * u * (ap * aq)) by (apply Qmult_le_compat_r; auto). lra.
Qed.

Lemma prod_err x y x' y' : coord x -> coord y -> apart x y -> coord x' -> coord y' -> apart x' y' ->
  let r := SFmul prec emax (SFsub prec emax x y) (SFsub prec emax x' y') in
  let v := (fval x - fval y) * (fval x' - fval y') in ok r /\ Qabs (fval r - v) <= 4 * unit_err * Qabs v.
Proof.
  intros H1 H2 H3 H1' H2' H3' r v. destruct (diff x y H1 H2 H3) as (A1 & A2 & A3 & A4). destruct (diff x' y' H1' H2' H3') as (B1 & B2 & B3 & B4). pose proof unit_pos as U0. pose proof unit_half as U1.
  set (p := SFsub prec emax x y) in *. set (q := SFsub prec emax x' y') in *. pose proof (pow_pos_q (a + 2)) as Pa. pose proof (pow_pos_q (b - 1)) as Pb.
  destruct (mul_err p q A1 B1) as (K1 & K2).
  - rewrite Qabs_Qmult. apply Qlt_le_trans with (2 ^ (a + 2) * 2 ^ (a + 2)).
    + pose proof (Qabs_nonneg (fval p)). pose proof (Qabs_nonneg (fval q)). set (P := Qabs (fval p)) in *. set (Q := Qabs (fval q)) in *. set (Z := 2 ^ (a + 2)) in *. clearbody P Q Z. nra.
    + rewrite <- Qpower_plus by discriminate. apply Qpower_le_compat_l; [lia|lra].
  - destruct A4 as [A4|A4]; [left; rewrite A4; ring|]. destruct B4 as [B4|B4]; [left; rewrite B4; ring|]. right. rewrite Qabs_Qmult. apply Qle_trans with (2 ^ (b - 1) * 2 ^ (b - 1)); [|apply Qmult_le_compat_nonneg; lra].
    rewrite <- Qpower_plus by discriminate. apply Qpower_le_compat_l; [lia|lra].
  - split; auto. unfold v. now apply (err3 _ _ (fval p) (fval q)).
Qed.

(** The products differ by more than the rounding errors, or both vanish. *)
Definition clear (P Q : Q) : Prop := (P == 0 /\ Q == 0) \/ 4 * unit_err * (Qabs P + Qabs Q) < Qabs (P - Q).

Lemma clear_cmp P Q p q : clear P Q -> Qabs (p - P) <= 4 * unit_err * Qabs P -> Qabs (q - Q) <= 4 * unit_err * Qabs Q -> Qltb p q = Qltb P Q.
Proof.
  intros HC Hp Hq. apply eq_true_iff_eq. rewrite !Qltb_spec. apply abs_le in Hp. apply abs_le in Hq. destruct HC as [(E1 & E2)|HC].
  - rewrite E1, E2 in *. change (Qabs 0) with 0 in *. lra.
  - rewrite Qmult_plus_distr_r in HC. destruct (Qlt_le_dec P Q) as [L|L].
    + assert (X : P - Q <= 0) by lra. apply Qabs_neg in X. split; intros; lra.
    + assert (X : 0 <= P - Q) by lra. apply Qabs_pos in X. split; intros; lra.
Qed.

Theorem clear_run {J E Out Mt} (F : fan_format J E Out Mt) ieqb (gv : J -> coords spec_float) dbg fuel math_n shuf elems :
  (forall i, In (Continue i) elems -> coord (cx (gv i)) /\ coord (cy (gv i))) ->
  (forall i k, In (Continue i) elems -> In (Continue k) elems -> apart (cx (gv i)) (cx (gv k)) /\ apart (cy (gv i)) (cy (gv k))) ->
  (forall i k l, In (Continue i) elems -> In (Continue k) elems -> In (Continue l) elems -> let X j := fval (cx (gv j)) in let Y j := fval (cy (gv j)) in
     ~ Y l == Y i -> ~ Y l == Y k -> clear ((X i - X k) * (Y l - Y k)) ((Y i - Y k) * (X l - X k))) ->
  triangulate (OC := FOps prec emax) F ieqb gv dbg fuel math_n shuf elems = triangulate F ieqb (fun i => fpos (gv i)) dbg fuel math_n shuf elems.
Proof.
  intros Hc Hap Hcl. assert (Ho : forall i, In (Continue i) elems -> ok (cx (gv i)) /\ ok (cy (gv i))) by (intros i Hi; destruct (Hc i Hi) as ((A & _) & (B & _)); auto).
  apply (@other_coords Q spec_float J QOps (FOps prec emax)).
  - intros i k Hi Hk. destruct (Ho i Hi), (Ho k Hk). unfold coords_pcmp, fpos. cbn [cx cy fst snd c_pcmp QOps FOps]. rewrite !cmp_val; auto.
  - intros i k l Hi Hk Hl. destruct (Ho i Hi), (Ho k Hk), (Ho l Hl). unfold is_left, fpos. cbn [cx cy fst snd c_eqb c_ltb c_sub c_mul QOps FOps].
    rewrite !eqb_val, !ltb_val by auto. destruct (Qeq_bool _ _) eqn:E1; auto. destruct (Qeq_bool _ _) eqn:E2 in |- *; auto. apply Qeq_bool_neq in E1, E2.
    destruct (Hc i Hi), (Hc k Hk), (Hc l Hl). destruct (Hap i k Hi Hk), (Hap l k Hl Hk).
    edestruct (prod_err (cx (gv i)) (cx (gv k)) (cy (gv l)) (cy (gv k))) as (R1 & R2); auto. edestruct (prod_err (cy (gv i)) (cy (gv k)) (cx (gv l)) (cx (gv k))) as (S1 & S2); auto.
    rewrite ltb_val by auto. apply clear_cmp; auto.
  - intros i k Hi Hk. destruct (Ho i Hi), (Ho k Hk). now apply eqb_val.
  - intros i k Hi Hk. destruct (Ho i Hi), (Ho k Hk). now apply eqb_val.
Qed.
End Err.
