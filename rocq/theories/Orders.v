(** Averages over all orders of insertion: backward analysis. *)
From Coq Require Import QArith Lqa List Arith Lia Bool Permutation.
Import ListNotations.
Local Open Scope nat_scope.

(** All arrangements of a list without repetition, by their last element. *)
Fixpoint arrs (k : nat) (A : list nat) : list (list nat) :=
  match k with
  | 0 => [[]]
  | S k => flat_map (fun e => map (fun l => l ++ [e]) (arrs k (remove Nat.eq_dec e A))) A
  end.

Lemma remove_nd e (A : list nat) : NoDup A -> NoDup (remove Nat.eq_dec e A).
Proof.
  induction A as [|a A IH]; intros H; cbn; auto. inversion H; subst. destruct (Nat.eq_dec e a); auto. constructor; auto.
  intros K. apply in_remove in K. tauto.
Qed.

Lemma remove_perm e (A : list nat) : NoDup A -> In e A -> Permutation (remove Nat.eq_dec e A ++ [e]) A.
Proof.
  intros Hn He. apply NoDup_Permutation; auto.
  - apply (Permutation_NoDup (l := e :: remove Nat.eq_dec e A)); [apply Permutation_cons_append|]. constructor; [apply remove_In|now apply remove_nd].
  - intros x. rewrite in_app_iff. cbn. split.
    + intros [K|[->|[]]]; auto. apply in_remove in K. tauto.
    + intros K. destruct (Nat.eq_dec x e) as [->|Hx]; auto. left. apply in_in_remove; auto.
Qed.

Lemma remove_len e (A : list nat) : NoDup A -> In e A -> S (length (remove Nat.eq_dec e A)) = length A.
Proof. intros Hn He. pose proof (Permutation_length (remove_perm e A Hn He)) as K. rewrite app_length in K. cbn in K. lia. Qed.

Lemma arrs_spec k : forall A, NoDup A -> length A = k -> forall l, In l (arrs k A) <-> Permutation l A.
Proof.
  induction k as [|k IH]; intros A Hn Hl l.
  - destruct A; [|discriminate]. cbn. split; [intros [<-|[]]; auto|]. intros K. apply Permutation_sym, Permutation_nil in K. auto.
  - cbn [arrs]. rewrite in_flat_map. split.
    + intros (e & He & K). apply in_map_iff in K. destruct K as (l' & <- & K). apply IH in K; [|now apply remove_nd|pose proof (remove_len e A Hn He); lia].
      rewrite <- (remove_perm e A Hn He). now apply Permutation_app_tail.
    + intros K. destruct (exists_last (l := l)) as (l' & e & ->). { intros ->. apply Permutation_nil in K. subst. discriminate. }
      assert (He : In e A) by (eapply Permutation_in; [exact K|apply in_or_app; right; now left]). exists e. split; auto. apply in_map_iff. exists l'. split; auto.
      apply IH; [now apply remove_nd|pose proof (remove_len e A Hn He); lia|]. apply (Permutation_app_inv_r [e]). now rewrite (remove_perm e A Hn He).
Qed.

Lemma nd_flat {A B} (f : A -> list B) l : NoDup l -> (forall a, In a l -> NoDup (f a)) -> (forall a b x, In a l -> In b l -> In x (f a) -> In x (f b) -> a = b) -> NoDup (flat_map f l).
Proof.
  induction l as [|a l IH]; intros Hn Hf Hd; cbn; [constructor|]. inversion Hn as [|? ? Ha Hn']; subst.
  assert (IH' : NoDup (flat_map f l)). { apply IH; auto. { intros b Hb. apply Hf. now right. } intros b c x Hb Hc. apply Hd; now right. }
  assert (Hfa : NoDup (f a)) by (apply Hf; now left). assert (Hx : forall x, In x (f a) -> ~ In x (flat_map f l)).
  { intros x Hx K. apply in_flat_map in K. destruct K as (b & Hb & K). apply Ha. rewrite (Hd a b x); auto; [now left|now right]. }
  clear -IH' Hfa Hx. induction (f a) as [|x m IHm]; auto. cbn. inversion Hfa; subst. constructor.
  - intros K. apply in_app_or in K. destruct K as [K|K]; auto. apply (Hx x); auto. now left.
  - apply IHm; auto. intros y Hy. apply Hx. now right.
Qed.

Lemma nd_map {A B} (f : A -> B) l : (forall a b, In a l -> In b l -> f a = f b -> a = b) -> NoDup l -> NoDup (map f l).
Proof.
  induction l as [|a l IH]; intros Hi Hn; cbn; [constructor|]. inversion Hn as [|? ? Ha Hn']; subst. constructor.
  - intros K. apply in_map_iff in K. destruct K as (b & E & Hb). apply Ha. rewrite (Hi a b); auto; [now left|now right].
  - apply IH; auto. intros x y Hx Hy. apply Hi; now right.
Qed.

Lemma arrs_nd k : forall A, NoDup A -> length A = k -> NoDup (arrs k A).
Proof.
  induction k as [|k IH]; intros A Hn Hl; [repeat constructor; easy|]. cbn [arrs]. apply nd_flat; auto.
  - intros e He. apply nd_map; [|apply IH; [now apply remove_nd|pose proof (remove_len e A Hn He); lia]]. intros a b _ _ E. now apply app_inj_tail in E.
  - intros a b x _ _ Ka Kb. apply in_map_iff in Ka, Kb. destruct Ka as (l & <- & _), Kb as (l' & E & _). apply app_inj_tail in E. symmetry. tauto.
Qed.

(** Sums. *)
Definition qsum {A} (f : A -> Q) (l : list A) : Q := fold_right (fun a s => f a + s)%Q 0%Q l.
Definition nsum {A} (f : A -> nat) (l : list A) : nat := fold_right (fun a s => f a + s) 0 l.

Lemma qsum_nil {A} (f : A -> Q) : qsum f [] = 0%Q.
Proof. reflexivity. Qed.
Lemma qsum_cons {A} (f : A -> Q) a l : qsum f (a :: l) = (f a + qsum f l)%Q.
Proof. reflexivity. Qed.
Lemma qsum_app {A} (f : A -> Q) l l' : (qsum f (l ++ l') == qsum f l + qsum f l')%Q.
Proof. induction l as [|a l IH]; cbn [app]; rewrite ?qsum_nil, ?qsum_cons; [ring|]. rewrite IH. ring. Qed.
Lemma qsum_map {A B} (f : B -> Q) (g : A -> B) l : qsum f (map g l) = qsum (fun a => f (g a)) l.
Proof. induction l as [|a l IH]; auto. cbn [map]. rewrite !qsum_cons. now rewrite IH. Qed.
Lemma qsum_le {A} (f g : A -> Q) l : (forall a, In a l -> f a <= g a)%Q -> (qsum f l <= qsum g l)%Q.
Proof.
  induction l as [|a l IH]; intros H; rewrite ?qsum_nil, ?qsum_cons; [lra|]. assert (qsum f l <= qsum g l)%Q by (apply IH; intros; apply H; now right).
  specialize (H a (or_introl eq_refl)). lra.
Qed.
Lemma qsum_add {A} (f g : A -> Q) l : (qsum (fun a => f a + g a) l == qsum f l + qsum g l)%Q.
Proof. induction l as [|a l IH]; rewrite ?qsum_nil, ?qsum_cons; [ring|]. rewrite IH. ring. Qed.
Lemma qsum_mul {A} (f : A -> Q) c l : (qsum (fun a => c * f a) l == c * qsum f l)%Q.
Proof. induction l as [|a l IH]; rewrite ?qsum_nil, ?qsum_cons; [ring|]. rewrite IH. ring. Qed.
Lemma qsum_const {A} c (l : list A) : (qsum (fun _ => c) l == c * inject_Z (Z.of_nat (length l)))%Q.
Proof.
  induction l as [|a l IH]; rewrite ?qsum_nil, ?qsum_cons; cbn [length]; [ring|]. rewrite IH, Nat2Z.inj_succ, <- Z.add_1_r, inject_Z_plus. ring.
Qed.
Lemma qsum_flat {A B} (f : B -> Q) (g : A -> list B) l : (qsum f (flat_map g l) == qsum (fun a => qsum f (g a)) l)%Q.
Proof. induction l as [|a l IH]; cbn [flat_map]; [reflexivity|]. rewrite qsum_app, IH, qsum_cons. reflexivity. Qed.
Lemma qsum_perm {A} (f : A -> Q) l l' : Permutation l l' -> (qsum f l == qsum f l')%Q.
Proof. induction 1; rewrite ?qsum_cons; lra. Qed.
Lemma qsum_nat {A} (f : A -> nat) l : (qsum (fun a => inject_Z (Z.of_nat (f a))) l == inject_Z (Z.of_nat (nsum f l)))%Q.
Proof.
  induction l as [|a l IH]; [reflexivity|]. cbn [nsum fold_right]. change (qsum (fun a0 => inject_Z (Z.of_nat (f a0))) (a :: l)) with (inject_Z (Z.of_nat (f a)) + qsum (fun a0 => inject_Z (Z.of_nat (f a0))) l)%Q.
  rewrite IH, Nat2Z.inj_add, inject_Z_plus. reflexivity.
Qed.
Lemma nsum_le {A} (f g : A -> nat) l : (forall a, In a l -> f a <= g a) -> nsum f l <= nsum g l.
Proof.
  induction l as [|a l IH]; intros H; cbn; [lia|]. fold (nsum f l) (nsum g l). assert (nsum f l <= nsum g l) by (apply IH; intros; apply H; now right). specialize (H a (or_introl eq_refl)). lia.
Qed.
Lemma nsum_ext {A} (f g : A -> nat) l : (forall a, In a l -> f a = g a) -> nsum f l = nsum g l.
Proof. induction l as [|a l IH]; intros H; cbn; auto. fold (nsum f l) (nsum g l). rewrite IH by (intros; apply H; now right). now rewrite (H a (or_introl eq_refl)). Qed.
Lemma nsum_add {A} (f g : A -> nat) l : nsum (fun a => f a + g a) l = nsum f l + nsum g l.
Proof. induction l as [|a l IH]; cbn; auto. fold (nsum (fun a => f a + g a) l) (nsum f l) (nsum g l). lia. Qed.
Lemma nsum_swap {A B} (f : A -> B -> nat) l l' : nsum (fun a => nsum (f a) l') l = nsum (fun b => nsum (fun a => f a b) l) l'.
Proof.
  induction l as [|a l IH]; cbn.
  - induction l' as [|b l' IH']; cbn; auto.
  - fold (nsum (fun a => nsum (f a) l') l). rewrite IH. rewrite <- nsum_add. reflexivity.
Qed.
Lemma nsum_const {A} c (l : list A) : nsum (fun _ => c) l = c * length l.
Proof. induction l as [|a l IH]; cbn; [lia|]. fold (nsum (fun _ : A => c) l). lia. Qed.
Lemma nsum_filter {A} (f : A -> bool) l : length (filter f l) = nsum (fun a => if f a then 1 else 0) l.
Proof. induction l as [|a l IH]; cbn; auto. fold (nsum (fun a => if f a then 1 else 0) l). destruct (f a); cbn; lia. Qed.

(** At most one. *)
Lemma nsum_one {A} (f : A -> bool) l : NoDup l -> (forall a b, In a l -> In b l -> f a = true -> f b = true -> a = b) -> nsum (fun a => if f a then 1 else 0) l <= 1.
Proof.
  intros Hn H. rewrite <- nsum_filter. destruct (filter f l) as [|a [|b m]] eqn:E; cbn; auto. exfalso.
  assert (Ha : In a (filter f l)) by (rewrite E; now left). assert (Hb : In b (filter f l)) by (rewrite E; right; now left). apply filter_In in Ha, Hb.
  assert (K : NoDup (filter f l)) by now apply NoDup_filter. rewrite E in K. inversion K as [|? ? K1 _]; subst. apply K1. left. symmetry. apply H; tauto.
Qed.

(** Sum of [B k / k] for [k] up to [n]. *)
Fixpoint hsum (B : nat -> Q) (n : nat) : Q :=
  match n with 0%nat => 0%Q | S m => (hsum B m + B n / inject_Z (Z.of_nat n))%Q end.

Lemma flat_len {A B} (g : A -> list B) m f : (forall e, In e m -> length (g e) = f) -> length (flat_map g m) = length m * f.
Proof. induction m as [|a m IH]; intros Y; cbn; auto. rewrite app_length, IH by (intros; apply Y; now right). now rewrite (Y a) by now left. Qed.

(** If the last element [e] of an arrangement of [A] costs at most [G A e], and these sum to at most [B (length A)], then the
    average over all arrangements is at most the start plus the sum of [B k / k]. *)
Lemma backward (ok : list nat -> Prop) (pot : list nat -> Q) (G : list nat -> nat -> Q) (B : nat -> Q) :
  (forall A e, ok A -> ok (remove Nat.eq_dec e A)) ->
  (forall A e l, ok A -> NoDup A -> In e A -> Permutation (l ++ [e]) A -> pot (l ++ [e]) <= pot l + G A e)%Q ->
  (forall A, ok A -> NoDup A -> qsum (G A) A <= B (length A))%Q ->
  forall k A, ok A -> NoDup A -> length A = k -> (qsum pot (arrs k A) <= (pot [] + hsum B k) * inject_Z (Z.of_nat (length (arrs k A))))%Q.
Proof.
  intros Hr Hs HB. induction k as [|k IH]; intros A Ho Hn Hl.
  - cbn [arrs hsum length]. rewrite qsum_cons, qsum_nil. change (inject_Z (Z.of_nat 1)) with 1%Q. lra.
  - assert (HL : exists f, forall e, In e A -> inject_Z (Z.of_nat (length (arrs k (remove Nat.eq_dec e A)))) == inject_Z (Z.of_nat f)).
    { assert (K : forall k A A', NoDup A -> NoDup A' -> length A = k -> length A' = k -> length (arrs k A) = length (arrs k A')).
      { clear. induction k as [|k IH]; intros A A' Hn Hn' Hl Hl'; auto. cbn [arrs].
        assert (G : forall A, NoDup A -> length A = S k -> exists f, (forall C, NoDup C -> length C = k -> length (arrs k C) = f) /\ length (flat_map (fun e => map (fun l => l ++ [e]) (arrs k (remove Nat.eq_dec e A))) A) = S k * f).
        { clear -IH. intros A Hn Hl. exists (length (arrs k (seq 0 k))). assert (Z : forall C, NoDup C -> length C = k -> length (arrs k C) = length (arrs k (seq 0 k))).
          { intros C H1 H2. apply IH; auto. apply seq_NoDup. apply seq_length. }
          split; auto. rewrite <- Hl. assert (Y : forall e, In e A -> length (arrs k (remove Nat.eq_dec e A)) = length (arrs k (seq 0 k))).
          { intros e He. apply Z; [now apply remove_nd|pose proof (remove_len e A Hn He); lia]. }
          apply flat_len. intros e He. rewrite map_length. auto. }
        destruct (G A Hn Hl) as (f & F1 & ->), (G A' Hn' Hl') as (f' & F1' & ->). rewrite <- (F1 (seq 0 k)), <- (F1' (seq 0 k)); auto using seq_NoDup, seq_length. }
      exists (length (arrs k (seq 0 k))). intros e He. rewrite (K k (remove Nat.eq_dec e A) (seq 0 k)); [reflexivity|now apply remove_nd|apply seq_NoDup|pose proof (remove_len e A Hn He); lia|apply seq_length]. }
    destruct HL as (f & HL). set (F := inject_Z (Z.of_nat f)) in *. assert (HF : (0 <= F)%Q) by (unfold F; change 0%Q with (inject_Z 0); rewrite <- Zle_Qle; lia).
    cbn [arrs]. rewrite qsum_flat.
    assert (E1 : (qsum (fun e => qsum pot (map (fun l => l ++ [e]) (arrs k (remove Nat.eq_dec e A)))) A <= qsum (fun e => F * (pot [] + hsum B k) + F * G A e) A)%Q).
    { apply qsum_le. intros e He. rewrite qsum_map. assert (L : length (remove Nat.eq_dec e A) = k) by (pose proof (remove_len e A Hn He); lia).
      assert (K1 : (qsum (fun l => pot (l ++ [e])) (arrs k (remove Nat.eq_dec e A)) <= qsum (fun l => pot l + G A e) (arrs k (remove Nat.eq_dec e A)))%Q).
      { apply qsum_le. intros l Hin. apply arrs_spec in Hin; auto; [|now apply remove_nd]. apply Hs; auto. rewrite <- (remove_perm e A Hn He). now apply Permutation_app_tail. }
      rewrite qsum_add, qsum_const in K1. pose proof (IH (remove Nat.eq_dec e A) (Hr A e Ho) (remove_nd e A Hn) L) as K2. rewrite (HL e He) in K1, K2. lra. }
    rewrite qsum_add, qsum_const, qsum_mul in E1. pose proof (HB A Ho Hn) as K. rewrite Hl in E1, K.
    assert (E2 : (inject_Z (Z.of_nat (length (flat_map (fun e => map (fun l => l ++ [e]) (arrs k (remove Nat.eq_dec e A))) A))) == inject_Z (Z.of_nat (S k)) * F)%Q).
    { rewrite (flat_len _ A f), Hl, Nat2Z.inj_mul, inject_Z_mult; [reflexivity|]. intros e He. rewrite map_length. specialize (HL e He). apply (proj1 (inject_Z_injective _ _)) in HL. lia. }
    rewrite E2. cbn [hsum]. set (s := inject_Z (Z.of_nat (S k))) in *. assert (Hsp : (0 < s)%Q) by (unfold s; change 0%Q with (inject_Z 0); rewrite <- Zlt_Qlt; lia).
    assert (E3 : ((pot [] + (hsum B k + B (S k) / s)) * (s * F) == F * (pot [] + hsum B k) * s + F * B (S k))%Q) by (field; lra).
    rewrite E3. assert (F * qsum (G A) A <= F * B (S k))%Q by nra. lra.
Qed.

(** Any list of all arrangements. *)
Lemma arrs_any n (L : list (list nat)) : NoDup L -> (forall l, In l L <-> Permutation l (seq 0 n)) -> Permutation L (arrs n (seq 0 n)).
Proof.
  intros Hn HL. apply NoDup_Permutation; auto; [apply arrs_nd; [apply seq_NoDup|apply seq_length]|]. intros l. rewrite HL, arrs_spec; [reflexivity|apply seq_NoDup|apply seq_length].
Qed.

(** Harmonic numbers. *)
Definition harmonic (n : nat) : Q := hsum (fun _ => 1%Q) n.

Lemma hsum_lin a b n : (hsum (fun k => a + b * inject_Z (Z.of_nat k)) n == a * harmonic n + b * inject_Z (Z.of_nat n))%Q.
Proof.
  unfold harmonic. induction n as [|n IH]; [cbn; ring|]. cbn [hsum]. rewrite IH. rewrite Nat2Z.inj_succ, <- Z.add_1_r, inject_Z_plus.
  assert (~ inject_Z (Z.of_nat n) + inject_Z 1 == 0)%Q. { rewrite <- inject_Z_plus. intros K. change 0%Q with (inject_Z 0) in K. apply (proj1 (inject_Z_injective _ _)) in K. lia. }
  change (inject_Z 1) with 1%Q in *. field. auto.
Qed.

Lemma harmonic_le n : (harmonic n <= inject_Z (Z.of_nat n))%Q.
Proof.
  unfold harmonic. induction n as [|n IH]; [discriminate|]. cbn [hsum]. rewrite Nat2Z.inj_succ, <- Z.add_1_r, inject_Z_plus. assert (K : (1 / (inject_Z (Z.of_nat n) + inject_Z 1) <= 1)%Q); [|change (inject_Z 1) with 1%Q in *; lra].
  assert (0 <= inject_Z (Z.of_nat n))%Q by (change 0%Q with (inject_Z 0); rewrite <- Zle_Qle; lia). change (inject_Z 1) with 1%Q. apply Qle_shift_div_r; lra.
Qed.

(** At most [m / (n + 1)] more. *)
Lemma harmonic_add n m : (harmonic (n + m) <= harmonic n + inject_Z (Z.of_nat m) / inject_Z (Z.of_nat (S n)))%Q.
Proof.
  assert (Hp : (0 < inject_Z (Z.of_nat (S n)))%Q) by (change 0%Q with (inject_Z 0); rewrite <- Zlt_Qlt; lia). set (s := inject_Z (Z.of_nat (S n))) in *. induction m as [|m IH].
  - rewrite Nat.add_0_r. cbn [Z.of_nat]. assert (inject_Z 0 / s == 0)%Q by (unfold Qdiv; apply Qmult_0_l). lra.
  - rewrite Nat.add_succ_r. unfold harmonic in *. cbn [hsum].
    assert (K1 : (1 / inject_Z (Z.of_nat (S (n + m))) <= 1 / s)%Q).
    { apply Qle_shift_div_l; auto. assert (Hq : (s <= inject_Z (Z.of_nat (S (n + m))))%Q) by (unfold s; rewrite <- Zle_Qle; lia).
      setoid_replace (1 / inject_Z (Z.of_nat (S (n + m))) * s)%Q with (s / inject_Z (Z.of_nat (S (n + m))))%Q by (field; lra). apply Qle_shift_div_r; lra. }
    assert (K2 : (inject_Z (Z.of_nat (S m)) / s == inject_Z (Z.of_nat m) / s + 1 / s)%Q).
    { rewrite Nat2Z.inj_succ, <- Z.add_1_r, inject_Z_plus. change (inject_Z 1) with 1%Q. field. lra. }
    lra.
Qed.

Lemma harmonic_mono n m : n <= m -> (harmonic n <= harmonic m)%Q.
Proof.
  induction 1 as [|m H IH]; [lra|]. unfold harmonic in *. cbn [hsum]. assert (0 <= 1 / inject_Z (Z.of_nat (S m)))%Q; [|lra].
  apply Qle_shift_div_l; [|lra]. change 0%Q with (inject_Z 0). rewrite <- Zlt_Qlt. lia.
Qed.

Lemma harmonic_log n : (harmonic n <= 1 + inject_Z (Z.of_nat (Nat.log2 n)))%Q.
Proof.
  assert (P : forall k, (harmonic (2 ^ k - 1) <= inject_Z (Z.of_nat k))%Q).
  { induction k as [|k IH]; [discriminate|]. assert (H0 : 0 < 2 ^ k) by (apply Nat.neq_0_lt_0, Nat.pow_nonzero; lia). replace (2 ^ S k - 1) with ((2 ^ k - 1) + 2 ^ k) by (cbn; lia).
    pose proof (harmonic_add (2 ^ k - 1) (2 ^ k)) as K. replace (S (2 ^ k - 1)) with (2 ^ k) in K by lia.
    assert (Hp : (0 < inject_Z (Z.of_nat (2 ^ k)))%Q) by (change 0%Q with (inject_Z 0); rewrite <- Zlt_Qlt; lia).
    assert (E : (inject_Z (Z.of_nat (2 ^ k)) / inject_Z (Z.of_nat (2 ^ k)) == 1)%Q) by (field; lra). rewrite Nat2Z.inj_succ, <- Z.add_1_r, inject_Z_plus. change (inject_Z 1) with 1%Q. lra. }
  destruct n as [|n]; [discriminate|].
  pose proof (Nat.log2_spec (S n) ltac:(lia)) as (L1 & L2). set (k := Nat.log2 (S n)) in *.
  pose proof (P (S k)) as Pk. rewrite Nat2Z.inj_succ, <- Z.add_1_r, inject_Z_plus in Pk. change (inject_Z 1) with 1%Q in Pk.
  assert (harmonic (S n) <= harmonic (2 ^ S k - 1))%Q by (apply harmonic_mono; lia). lra.
Qed.
