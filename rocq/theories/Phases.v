(** How the re-locations are paced, and what the paced loop costs. *)
From Coq Require Import QArith Lqa List Arith Lia Bool.
From Verif Require Import Orders Averages RandomWork WorkAverage.
Import ListNotations.
Local Open Scope nat_scope.

(** The integer logarithm, taken [h] times. *)
Fixpoint ilog (h n : nat) : nat := match h with 0 => n | S h => Nat.log2 (ilog h n) end.

(** [mn n h] is [n] divided by the logarithm taken [h] times, as far as that logarithm is at least 1; up to rounding.
    After that there is no further re-location: [mn n h] is too large, or 0 (a negative or undefined logarithm). *)
Definition paced (mn : nat -> nat -> nat) (n : nat) : Prop := forall h, 1 <= h -> (forall h', 1 <= h' < h -> 1 <= ilog h' n) ->
  (ilog h n = 0 -> n <= mn n h \/ mn n h = 0) /\ (1 <= ilog h n -> n <= mn n h * (ilog h n + 1) /\ (mn n h - 1) * ilog h n <= n).

Lemma log2_le_self m : Nat.log2 m <= m.
Proof. destruct m; auto. pose proof (Nat.log2_lt_lin (S m) ltac:(lia)). lia. Qed.

Lemma ilog_le h n : 1 <= h -> ilog h n <= Nat.log2 n.
Proof. induction 1 as [|h Hh IH]; [reflexivity|]. change (Nat.log2 (ilog h n) <= Nat.log2 n). pose proof (log2_le_self (ilog h n)). lia. Qed.

(** ** Harmonic numbers *)

Lemma harmonic_pow r k : forall n, n <= r * 2 ^ k -> (harmonic n <= harmonic r + zq k)%Q.
Proof.
  induction k as [|k IH]; intros n H.
  - cbn in H. change (zq 0) with 0%Q. pose proof (harmonic_mono n r ltac:(lia)). lra.
  - set (m := r * 2 ^ k). pose proof (IH m (le_n _)) as Z. assert (Hm : n <= m + m) by (unfold m; cbn [Nat.pow] in H; lia). pose proof (harmonic_mono n (m + m) Hm) as Z1. pose proof (harmonic_add m m) as Z2. rewrite zq_S.
    assert (Z3 : (inject_Z (Z.of_nat m) / inject_Z (Z.of_nat (S m)) <= 1)%Q). { fold (zq m) (zq (S m)). apply Qle_shift_div_r; [|rewrite zq_S; lra]. rewrite zq_S. pose proof (zq_pos m). lra. }
    lra.
Qed.

Lemma gap_le r i k : i <= r * 2 ^ k -> (gap r i <= 12 * zq k)%Q.
Proof.
  intros H. destruct (le_lt_dec i r) as [L|L].
  - assert (E : (gap r i == 0)%Q). { unfold gap. clear H. induction i as [|i IH]; [reflexivity|]. cbn [hsum]. rewrite IH by lia. assert (Nat.leb (S i) r = true) as -> by (apply Nat.leb_le; lia). unfold Qdiv. ring. }
    rewrite E. pose proof (zq_pos k). lra.
  - assert (E : forall d, (gap r (r + d) == 12 * (harmonic (r + d) - harmonic r))%Q).
    { induction d as [|d IH].
      - rewrite Nat.add_0_r. assert (Z : forall j, j <= r -> (gap r j == 0)%Q). { unfold gap. clear. induction j as [|j IH]; intros Hj; [reflexivity|]. cbn [hsum]. rewrite IH by lia. assert (Nat.leb (S j) r = true) as -> by (apply Nat.leb_le; lia). unfold Qdiv. ring. }
        rewrite Z by lia. ring.
      - rewrite Nat.add_succ_r. unfold gap, harmonic in *. cbn [hsum]. rewrite IH. assert (Nat.leb (S (r + d)) r = false) as -> by (apply Nat.leb_gt; lia). unfold Qdiv. ring. }
    replace i with (r + (i - r)) by lia. rewrite E. pose proof (harmonic_pow r k (r + (i - r)) ltac:(lia)). lra.
Qed.

Lemma gap_log i : (gap 0 i <= 12 * zq (Nat.log2 i + 1))%Q.
Proof.
  assert (E : (gap 0 i == 12 * harmonic i)%Q). { unfold gap, harmonic. induction i as [|i IH]; [reflexivity|]. cbn [hsum]. rewrite IH. cbn [Nat.leb]. unfold Qdiv. ring. }
  rewrite E, zq_add. pose proof (harmonic_log i) as H. fold (zq (Nat.log2 i)) in H. change (zq 1) with 1%Q. lra.
Qed.

(** ** One phase *)

Section Phase.
Variables (F : nat -> nat -> Q) (G : nat -> Q) (mn : nat -> nat).

Lemma phase_end B todo : forall i r uc nu, nu < i \/ i + todo <= nu -> (forall j, i <= j < i + todo -> (F j r <= B)%Q) -> (qsched F G mn todo i r uc nu <= zq todo * (1 + B))%Q.
Proof.
  induction todo as [|todo IH]; intros i r uc nu H HB; cbn [qsched]; [change (zq 0) with 0%Q; lra|].
  assert (Nat.eqb i nu = false) as -> by (apply Nat.eqb_neq; lia). pose proof (HB i ltac:(lia)) as Z. pose proof (IH (S i) r uc nu ltac:(lia) ltac:(intros j Hj; apply HB; lia)) as Z1. rewrite zq_S. lra.
Qed.

Lemma phase_pass B todo : forall i r uc nu, i <= nu < i + todo -> (forall j, i <= j <= nu -> (F j r <= B)%Q) ->
  (qsched F G mn todo i r uc nu <= zq (nu + 1 - i)%nat * (1 + B) + G (S nu) + qsched F G mn (i + todo - S nu)%nat (S nu) (S nu) (uc + 1)%nat (mn (uc + 1)%nat))%Q.
Proof.
  induction todo as [|todo IH]; intros i r uc nu H HB; [lia|]. cbn [qsched]. pose proof (HB i ltac:(lia)) as Z. destruct (Nat.eqb i nu) eqn:E.
  - apply Nat.eqb_eq in E. subst nu. replace (i + 1 - i) with 1 by lia. replace (i + S todo - S i) with todo by lia. change (zq 1) with 1%Q. lra.
  - apply Nat.eqb_neq in E. pose proof (IH (S i) r uc nu ltac:(lia) ltac:(intros j Hj; apply HB; lia)) as Z1. replace (nu + 1 - i) with (S (nu + 1 - S i)) by lia. rewrite zq_S. replace (i + S todo - S nu) with (S i + todo - S nu) by lia. lra.
Qed.
End Phase.

(** ** All phases *)

Lemma pow_lin x : 2 <= x -> x + 2 <= 2 ^ x.
Proof. induction 1 as [|x Hx IH]; [cbn; lia|]. cbn [Nat.pow]. lia. Qed.
Lemma pow_sq x : 4 <= x -> x * x <= 2 ^ x.
Proof. induction 1 as [|x Hx IH]; [cbn; lia|]. cbn [Nat.pow]. nia. Qed.

Section All.
Variable mn : nat -> nat -> nat.
Variable n : nat.
Hypothesis Hmn : paced mn n.
Hypothesis Hn : 3 <= n.
Notation N := (mn n).
Notation L h := (ilog h n).

Lemma pace_grow h : 1 <= h -> (forall h', 1 <= h' < h -> 1 <= L h') -> 1 <= L h -> 2 <= L (S h) -> S (N h) <= N (S h).
Proof.
  intros Hh Hp Hl H2. destruct (Hmn h Hh Hp) as (_ & P1). specialize (P1 Hl). destruct P1 as (_ & P1).
  assert (Hp' : forall h', 1 <= h' < S h -> 1 <= L h'). { intros h' K. destruct (Nat.eq_dec h' h) as [->|]; auto. apply Hp. lia. }
  destruct (Hmn (S h) ltac:(lia) Hp') as (_ & P2). specialize (P2 ltac:(lia)). destruct P2 as (P2 & _).
  destruct (le_lt_dec (S (N h)) (N (S h))) as [|C]; auto. exfalso.
  set (l := L (S h)) in *. assert (El : l = Nat.log2 (L h)) by reflexivity. set (P := 2 ^ l).
  assert (HP : P <= L h). { unfold P. rewrite El. apply Nat.log2_spec. lia. }
  pose proof (pow_lin l H2) as Z1. fold P in Z1. pose proof (pow_sq P) as Z2. assert (P4 : 4 <= P) by lia. specialize (Z2 P4).
  assert (A1 : (N h - 1) * P <= n) by nia. assert (A2 : n <= N h * (l + 1)) by nia.
  assert (A3 : N h <= P) by nia. assert (A4 : n < P * P) by nia.
  pose proof (ilog_le h n Hh) as A5. assert (A6 : 2 ^ P <= n). { etransitivity; [apply Nat.pow_le_mono_r; [lia|apply (Nat.le_trans _ _ _ HP A5)]|]. apply Nat.log2_spec. lia. }
  lia.
Qed.

Definition fbar (i r : nat) : Q := (4 + 2 * gap r i)%Q.
Definition gbar (i : nat) : Q := (1 + 10 * zq n)%Q.

Lemma zn : (3 <= zq n)%Q.
Proof. change 3%Q with (zq 3). now apply zq_le. Qed.

Lemma phases d : forall h r, 1 <= h -> (forall h', 1 <= h' < h -> 1 <= L h') -> r <= n -> (forall i, i <= n -> (gap r i <= 12 * zq (L h + 1))%Q) -> (2 <= L h -> r <= N h) -> (L h = 0 -> 1 <= r) -> L (h + d) = 0 ->
  (qsched fbar gbar N (n - r) r r h (N h) <= zq (S d) * (113 * zq n))%Q.
Proof.
  induction d as [|d IH]; intros h r Hh Hp Hr Hgap H2 H1r H0; pose proof zn as Zn; destruct (Hmn h Hh Hp) as (P0 & P1).
  - rewrite Nat.add_0_r in H0. specialize (P0 H0). specialize (H1r H0). eapply Qle_trans; [apply (phase_end _ _ _ 28)|].
    + destruct P0; [right|left]; lia.
    + intros j Hj. unfold fbar. pose proof (Hgap j ltac:(lia)) as Z. rewrite H0 in Z. cbn [Nat.add] in Z. change (zq 1) with 1%Q in Z. lra.
    + change (zq 1) with 1%Q. assert ((zq (n - r) <= zq n)%Q) by (apply zq_le; lia). pose proof (zq_pos n). lra.
  - assert (Sd : (1 <= zq (S d))%Q) by (change 1%Q with (zq 1); apply zq_le; lia). assert (Er : (zq (n - r) <= zq n)%Q) by (apply zq_le; lia). rewrite zq_S.
    destruct (Nat.eq_dec (L h) 0) as [Z0|Z0].
    + specialize (P0 Z0). specialize (H1r Z0). eapply Qle_trans; [apply (phase_end _ _ _ 28)|].
      * destruct P0; [right|left]; lia.
      * intros j Hj. unfold fbar. pose proof (Hgap j ltac:(lia)) as Z. rewrite Z0 in Z. cbn [Nat.add] in Z. change (zq 1) with 1%Q in Z. lra.
      * pose proof (zq_pos n). nra.
    + specialize (P1 ltac:(lia)). destruct P1 as (P1 & P2).
      assert (HB : forall j, j <= n -> (fbar j r <= 28 + 24 * zq (L h))%Q). { intros j Hj. unfold fbar. pose proof (Hgap j Hj) as Z. rewrite zq_add in Z. change (zq 1) with 1%Q in Z. lra. }
      destruct (le_lt_dec r (N h)) as [Hrn|Hrn]; [destruct (le_lt_dec n (N h)) as [Hnn|Hnn]|].
      * (* n <= N h *)
        assert (L1 : L h = 1) by nia. eapply Qle_trans; [apply (phase_end _ _ _ 52)|].
        -- right. lia.
        -- intros j Hj. pose proof (HB j ltac:(lia)) as Z. rewrite L1 in Z. change (zq 1) with 1%Q in Z. lra.
        -- pose proof (zq_pos n). nra.
      * eapply Qle_trans; [apply (phase_pass _ _ _ (28 + 24 * zq (L h)))|].
        -- lia.
        -- intros j Hj. apply HB. lia.
        -- assert (Hp' : forall h', 1 <= h' < S h -> 1 <= L h'). { intros h' Hh'. destruct (Nat.eq_dec h' h) as [->|]; [lia|]. apply Hp. lia. }
           replace (r + (n - r) - S (N h)) with (n - S (N h)) by lia. rewrite !Nat.add_1_r.
           assert (Z : (qsched fbar gbar N (n - S (N h)) (S (N h)) (S (N h)) (S h) (N (S h)) <= zq (S d) * (113 * zq n))%Q).
           { apply IH; auto; try lia.
             - intros i Hi. apply gap_le. assert (Hpow : L h + 1 <= 2 ^ (L (S h) + 1)). { change (ilog (S h) n) with (Nat.log2 (L h)). rewrite Nat.add_1_r. pose proof (Nat.log2_spec (L h) ltac:(lia)). rewrite Nat.add_1_r. lia. }
               nia.
             - intros K2. apply pace_grow; auto; lia.
             - replace (S h + d) with (h + S d) by lia. auto. }
           assert (Z1 : (zq (S (N h) - r) * (1 + (28 + 24 * zq (L h))) <= 101 * zq n)%Q).
           { assert (Ll : L h <= n). { pose proof (ilog_le h n Hh). pose proof (log2_le_self n). lia. }
             assert (Y : (S (N h) - r) * (29 + 24 * L h) <= 101 * n) by nia.
             apply zq_le in Y. rewrite !zq_mul, zq_add, zq_mul in Y. change (zq 29) with 29%Q in Y. change (zq 24) with 24%Q in Y. change (zq 101) with 101%Q in Y. lra. }
           unfold gbar at 1. lra.
      * (* already passed *)
        assert (L1 : L h = 1). { destruct (le_lt_dec 2 (L h)) as [K2|K2]; [specialize (H2 K2); lia|lia]. }
        eapply Qle_trans; [apply (phase_end _ _ _ 52)|].
        -- left. lia.
        -- intros j Hj. pose proof (HB j ltac:(lia)) as Z. rewrite L1 in Z. change (zq 1) with 1%Q in Z. lra.
        -- pose proof (zq_pos n). nra.
Qed.

Theorem paced_cost k : ilog (S k) n = 0 -> (qsched fbar gbar N n 0 0 1 (N 1) <= zq (S k) * (113 * zq n))%Q.
Proof.
  intros H. pose proof (phases k 1 0) as Z. rewrite Nat.sub_0_r in Z. apply Z; auto; try lia.
  2:{ intros H1. exfalso. cbn [ilog] in H1. pose proof (Nat.log2_pos n). lia. }
  intros i Hi. pose proof (gap_log i) as Y. assert ((zq (Nat.log2 i + 1) <= zq (L 1 + 1))%Q). { apply zq_le. cbn [ilog]. pose proof (Nat.log2_le_mono i n Hi). lia. } lra.
Qed.
End All.
