(** Averages over all orders of quantities that depend on a first part of the order. *)
From Coq Require Import QArith Lqa List Arith Lia Bool Permutation.
From Verif Require Import Orders.
Import ListNotations.
Local Open Scope nat_scope.

Definition zq (k : nat) : Q := inject_Z (Z.of_nat k).
Lemma zq_add a b : (zq (a + b) == zq a + zq b)%Q.
Proof. unfold zq. rewrite Nat2Z.inj_add, inject_Z_plus. reflexivity. Qed.
Lemma zq_mul a b : (zq (a * b) == zq a * zq b)%Q.
Proof. unfold zq. rewrite Nat2Z.inj_mul, inject_Z_mult. reflexivity. Qed.
Lemma zq_le a b : a <= b <-> (zq a <= zq b)%Q.
Proof. unfold zq. rewrite <- Zle_Qle. lia. Qed.
Lemma zq_pos a : (0 <= zq a)%Q.
Proof. change 0%Q with (zq 0). apply zq_le. lia. Qed.
Lemma zq_S a : (zq (S a) == zq a + 1)%Q.
Proof. rewrite <- Nat.add_1_r, zq_add. reflexivity. Qed.

Lemma arrs_len k : forall A, NoDup A -> length A = k -> length (arrs k A) = fact k.
Proof.
  induction k as [|k IH]; intros A Hn Hl; auto. cbn [arrs]. rewrite (flat_len _ A (fact k)); [rewrite Hl; reflexivity|]. intros e He. rewrite map_length. apply IH; [now apply remove_nd|]. pose proof (remove_len e A Hn He). lia.
Qed.

Lemma qsum_ext {A} (f g : A -> Q) l : (forall a, In a l -> f a == g a)%Q -> (qsum f l == qsum g l)%Q.
Proof. intros H. apply Qle_antisym; apply qsum_le; intros a Ha; rewrite (H a Ha); lra. Qed.

Lemma qsum_swap {A B} (f : A -> B -> Q) l l' : (qsum (fun a => qsum (f a) l') l == qsum (fun b => qsum (fun a => f a b) l) l')%Q.
Proof.
  induction l as [|a l IH]; [rewrite qsum_nil; symmetry; rewrite (qsum_const 0%Q l'); ring|]. rewrite qsum_cons, IH. rewrite <- qsum_add. reflexivity.
Qed.

Lemma qsum_rem (f : nat -> Q) e A : NoDup A -> (qsum f (remove Nat.eq_dec e A) == qsum (fun x => if Nat.eq_dec x e then 0 else f x) A)%Q.
Proof.
  induction 1 as [|a A Ha Hn IH]; [reflexivity|]. cbn [remove]. rewrite qsum_cons. destruct (Nat.eq_dec e a) as [->|Hne].
  - rewrite IH. destruct (Nat.eq_dec a a); [lra|congruence].
  - rewrite qsum_cons, IH. destruct (Nat.eq_dec a e); [congruence|lra].
Qed.

Lemma qsum_pairs (f : nat -> nat -> Q) A : NoDup A -> (qsum (fun e => qsum (f e) (remove Nat.eq_dec e A)) A == qsum (fun e' => qsum (fun e => f e e') (remove Nat.eq_dec e' A)) A)%Q.
Proof.
  intros Hn. rewrite (qsum_ext _ (fun e => qsum (fun x => if Nat.eq_dec x e then 0 else f e x)%Q A)) by (intros e _; now apply qsum_rem). rewrite qsum_swap. apply qsum_ext. intros e' _. rewrite qsum_rem by auto. apply qsum_ext. intros e _.
  destruct (Nat.eq_dec e' e), (Nat.eq_dec e e'); try congruence; reflexivity.
Qed.

Section Avg.
Variable ok : list nat -> Prop.
Hypothesis Hr : forall A e, ok A -> ok (remove Nat.eq_dec e A).

Lemma prefix_avg m (f : list nat -> Q) c : (forall A, ok A -> NoDup A -> length A = m -> qsum f (arrs m A) <= c * zq (fact m))%Q ->
  forall k A, ok A -> NoDup A -> length A = k -> m <= k -> (qsum (fun o => f (firstn m o)) (arrs k A) <= c * zq (fact k))%Q.
Proof.
  intros Hm. induction k as [|k IH]; intros A Ho Hn Hl Hk.
  - assert (m = 0) by lia. subst m. specialize (Hm A Ho Hn Hl). exact Hm.
  - destruct (Nat.eq_dec m (S k)) as [->|Hne].
    + eapply Qle_trans; [|apply (Hm A Ho Hn Hl)]. apply qsum_le. intros o Ho'. apply arrs_spec in Ho'; auto. rewrite firstn_all2; [lra|]. apply Permutation_length in Ho'. lia.
    + cbn [arrs]. rewrite qsum_flat. eapply Qle_trans; [apply (qsum_le _ (fun _ => c * zq (fact k))%Q)|].
      * intros e He. rewrite qsum_map. assert (L : length (remove Nat.eq_dec e A) = k) by (pose proof (remove_len e A Hn He); lia). eapply Qle_trans; [|apply (IH (remove Nat.eq_dec e A)); auto; [now apply remove_nd|lia]].
        apply qsum_le. intros l Hin. apply arrs_spec in Hin; auto; [|now apply remove_nd]. apply Permutation_length in Hin. rewrite firstn_app. replace (m - length l) with 0 by lia. cbn [firstn]. rewrite app_nil_r. lra.
      * rewrite qsum_const, Hl. change (inject_Z (Z.of_nat (S k))) with (zq (S k)). change (fact (S k)) with (S k * fact k). rewrite zq_mul. lra.
Qed.

(** A cost [w l e] of an element [e] behind the first part [l]. *)
Variables (w : list nat -> nat -> Q) (r : nat) (c : Q).
Hypothesis Hw : forall A, ok A -> NoDup A -> length A = S r -> (qsum (fun e => qsum (fun l => w l e) (arrs r (remove Nat.eq_dec e A))) A <= c * zq (fact (S r)))%Q.

Lemma last_avg m : r <= m -> forall A, ok A -> NoDup A -> length A = S m -> (qsum (fun e => qsum (fun l => w (firstn r l) e) (arrs m (remove Nat.eq_dec e A))) A <= c * zq (fact (S m)))%Q.
Proof.
  induction 1 as [|m Hm IH]; intros A Ho Hn Hl.
  - eapply Qle_trans; [|apply (Hw A Ho Hn Hl)]. apply qsum_le. intros e He. apply qsum_le. intros l Hin. apply arrs_spec in Hin; [|now apply remove_nd|pose proof (remove_len e A Hn He); lia].
    apply Permutation_length in Hin. pose proof (remove_len e A Hn He). rewrite firstn_all2; [lra|lia].
  - cbn [arrs].
    rewrite (qsum_ext _ (fun e => qsum (fun e' => qsum (fun l => w (firstn r l) e) (arrs m (remove Nat.eq_dec e' (remove Nat.eq_dec e A)))) (remove Nat.eq_dec e A))).
    2:{ intros e He. rewrite qsum_flat. apply qsum_ext. intros e' He'. rewrite qsum_map. apply qsum_ext. intros l Hin. assert (Hn1 : NoDup (remove Nat.eq_dec e A)) by now apply remove_nd. pose proof (remove_len e A Hn He). pose proof (remove_len e' _ Hn1 He').
        apply arrs_spec in Hin; [|now apply remove_nd|lia]. apply Permutation_length in Hin. rewrite firstn_app. replace (r - length l) with 0 by lia. cbn [firstn]. rewrite app_nil_r. reflexivity. }
    rewrite (qsum_pairs (fun e e' => qsum (fun l => w (firstn r l) e) (arrs m (remove Nat.eq_dec e' (remove Nat.eq_dec e A)))) A Hn).
    eapply Qle_trans; [apply (qsum_le _ (fun _ => c * zq (fact (S m)))%Q)|].
    + intros e' He'. assert (L : length (remove Nat.eq_dec e' A) = S m) by (pose proof (remove_len e' A Hn He'); lia). eapply Qle_trans; [|apply (IH (remove Nat.eq_dec e' A)); auto; now apply remove_nd].
      apply qsum_le. intros e _. rewrite remove_remove_comm. lra.
    + rewrite qsum_const, Hl. change (inject_Z (Z.of_nat (S (S m)))) with (zq (S (S m))). change (fact (S (S m))) with (S (S m) * fact (S m)). rewrite zq_mul. lra.
Qed.

Lemma rest_avg m : r <= m -> forall A, ok A -> NoDup A -> length A = m -> (qsum (fun o => qsum (w (firstn r o)) (skipn r o)) (arrs m A) <= zq (m - r) * c * zq (fact m))%Q.
Proof.
  induction 1 as [|m Hm IH]; intros A Ho Hn Hl.
  - rewrite Nat.sub_diag. change (zq 0) with 0%Q. rewrite (qsum_ext _ (fun _ => 0%Q)); [rewrite qsum_const; lra|]. intros o Hin. apply arrs_spec in Hin; auto. apply Permutation_length in Hin. rewrite skipn_all2 by lia. reflexivity.
  - cbn [arrs]. rewrite qsum_flat.
    rewrite (qsum_ext _ (fun e => qsum (fun o => qsum (w (firstn r o)) (skipn r o)) (arrs m (remove Nat.eq_dec e A)) + qsum (fun l => w (firstn r l) e) (arrs m (remove Nat.eq_dec e A)))%Q).
    2:{ intros e He. rewrite qsum_map, <- qsum_add. apply qsum_ext. intros l Hin. pose proof (remove_len e A Hn He). apply arrs_spec in Hin; [|now apply remove_nd|lia]. apply Permutation_length in Hin.
        rewrite firstn_app, skipn_app. replace (r - length l) with 0 by lia. cbn [firstn skipn]. rewrite app_nil_r, qsum_app, qsum_cons, qsum_nil. ring. }
    rewrite qsum_add. pose proof (last_avg m Hm A Ho Hn Hl) as Z.
    assert (Y : (qsum (fun e => qsum (fun o => qsum (w (firstn r o)) (skipn r o)) (arrs m (remove Nat.eq_dec e A))) A <= qsum (fun _ => zq (m - r) * c * zq (fact m)) A)%Q).
    { apply qsum_le. intros e He. apply IH; auto; [now apply remove_nd|pose proof (remove_len e A Hn He); lia]. }
    rewrite qsum_const, Hl in Y. change (inject_Z (Z.of_nat (S m))) with (zq (S m)) in Y. replace (S m - r) with (S (m - r)) by lia. rewrite (zq_S (m - r)). change (fact (S m)) with (S m * fact m) in *. rewrite zq_mul in *. lra.
Qed.
End Avg.
