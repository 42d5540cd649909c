(** Graphs as lists of pairs: a connected graph has at most one node more than edges; sums over groups. *)
From Coq Require Import List Arith Lia Bool ZArith Permutation.
From Verif Require Import Traverse.
Import ListNotations.
Local Open Scope nat_scope.

(** Every labelling that agrees along the edges is constant. *)
Definition conn (L : list nat) (Ed : list (nat * nat)) : Prop :=
  forall f : nat -> nat, (forall a b, In (a, b) Ed -> f a = f b) -> forall x y, In x L -> In y L -> f x = f y.

Lemma remove_len b (l : list nat) : NoDup l -> length l <= length (remove Nat.eq_dec b l) + 1.
Proof.
  induction 1 as [|a l Ha Hl IH]; cbn [remove length]; [lia|]. destruct (Nat.eq_dec b a) as [->|]; cbn [length]; [|lia].
  rewrite notin_remove by auto. lia.
Qed.

Lemma remove_nd b (l : list nat) : NoDup l -> NoDup (remove Nat.eq_dec b l).
Proof. induction 1 as [|a l Ha Hl IH]; cbn [remove]; [constructor|]. destruct (Nat.eq_dec b a); auto. constructor; auto. intros K. apply in_remove in K. tauto. Qed.

Lemma conn_le : forall Ed L, NoDup L -> conn L Ed -> length L <= length Ed + 1.
Proof.
  assert (G : forall n Ed, length Ed = n -> forall L, NoDup L -> conn L Ed -> length L <= n + 1); [|intros Ed L; now apply G].
  induction n as [|n IH]; intros Ed Hn L HL HC; (destruct Ed as [|e Ed]; cbn in Hn; try lia).
  - destruct L as [|x [|y L]]; cbn; try lia. exfalso. inversion HL as [|? ? Hx _]; subst. apply Hx. left. symmetry. apply (HC (fun n => n)); cbn; auto. easy.
  - injection Hn as Hn. destruct e as [a b]. set (r := fun n => if Nat.eqb n b then a else n).
    assert (Ra : r a = a) by (unfold r; destruct (Nat.eqb_spec a b); auto). assert (Rb : r b = a) by (unfold r; now rewrite Nat.eqb_refl).
    set (L' := nodup Nat.eq_dec (map r L)). specialize (IH (map (fun p => (r (fst p), r (snd p))) Ed)).
    assert (K : length L' <= n + 1).
    { apply IH; [now rewrite map_length|apply NoDup_nodup|]. intros f Hf x y Hx Hy. apply nodup_In, in_map_iff in Hx, Hy. destruct Hx as (x' & <- & Hx), Hy as (y' & <- & Hy).
      apply (HC (fun n => f (r n))); auto. intros u v [E|Huv].
      - injection E as <- <-. now rewrite Ra, Rb.
      - apply Hf. apply in_map_iff. exists (u, v). auto. }
    assert (K2 : length (remove Nat.eq_dec b L) <= length L').
    { apply NoDup_incl_length; [now apply remove_nd|]. intros x Hx. apply in_remove in Hx. destruct Hx as (Hx & Hne). apply nodup_In, in_map_iff. exists x. split; auto. unfold r. destruct (Nat.eqb_spec x b); congruence. }
    pose proof (remove_len b L HL). lia.
Qed.

(** A sum over all numbers below [n], grouped by a key. *)
Lemma sumz_ext {A} (f g : A -> Z) l : (forall x, In x l -> f x = g x) -> sumz f l = sumz g l.
Proof. induction l as [|a l IH]; intros H; cbn [sumz]; auto. rewrite (H a) by now left. rewrite IH; auto. intros x Hx. apply H. now right. Qed.

Lemma sumz_plus {A} (f g : A -> Z) l : sumz (fun x => f x + g x)%Z l = (sumz f l + sumz g l)%Z.
Proof. induction l as [|a l IH]; cbn [sumz]; lia. Qed.

Lemma sumz_scale {A} k (f : A -> Z) l : sumz (fun x => k * f x)%Z l = (k * sumz f l)%Z.
Proof. induction l as [|a l IH]; cbn [sumz]; lia. Qed.

Lemma sumz_concat {A} (f : A -> Z) ls : sumz f (concat ls) = sumz (fun l => sumz f l) ls.
Proof. induction ls as [|l ls IH]; cbn [concat sumz]; auto. now rewrite sumz_app, IH. Qed.

Lemma sumz_map {A B} (f : B -> Z) (g : A -> B) l : sumz f (map g l) = sumz (fun x => f (g x)) l.
Proof. induction l as [|a l IH]; cbn; auto. now rewrite IH. Qed.

Lemma sumz_len {A} (l : list A) : sumz (fun _ => 1%Z) l = Z.of_nat (length l).
Proof. induction l as [|a l IH]; cbn [sumz length]; lia. Qed.

Lemma sumz_zero {A} (f : A -> Z) l : (forall x, In x l -> f x = 0%Z) -> sumz f l = 0%Z.
Proof. intros H. rewrite (sumz_ext f (fun _ => 0%Z)) by auto. induction l as [|a l IH]; cbn [sumz]; auto. rewrite IH; auto. intros. apply H. now right. Qed.

Lemma sumz_filter {A} (f : A -> Z) (p : A -> bool) l : (forall x, In x l -> p x = false -> f x = 0%Z) -> sumz f (filter p l) = sumz f l.
Proof.
  induction l as [|a l IH]; intros H; auto. cbn [filter sumz]. rewrite <- IH by (intros; apply H; auto; now right). destruct (p a) eqn:E; cbn [sumz]; [lia|]. rewrite (H a); auto. now left.
Qed.

Lemma sumz_count {A} (p : A -> bool) l : sumz (fun x => if p x then 1 else 0)%Z l = Z.of_nat (length (filter p l)).
Proof. induction l as [|a l IH]; cbn [sumz filter]; auto. rewrite IH. destruct (p a); cbn [length]; lia. Qed.

Lemma nodup_join {A} (l l' : list A) : NoDup l -> NoDup l' -> (forall x, In x l -> ~ In x l') -> NoDup (l ++ l').
Proof.
  induction 1 as [|a l Ha Hl IH]; intros H' H; cbn [app]; auto. constructor.
  - intros K. apply in_app_or in K. destruct K as [K|K]; [easy|]. apply (H a); auto. now left.
  - apply IH; auto. intros x Hx. apply H. now right.
Qed.

Lemma nodup_concat {A B} (g : A -> list B) l : NoDup l -> (forall x, In x l -> NoDup (g x)) -> (forall x y b, In x l -> In y l -> In b (g x) -> In b (g y) -> x = y) -> NoDup (concat (map g l)).
Proof.
  induction 1 as [|a l Ha Hl IH]; intros H1 H2; cbn [map concat]; [constructor|]. apply nodup_join.
  - apply H1. now left.
  - apply IH; intros; [apply H1; now right|eapply H2; eauto; now right].
  - intros b Hb Hc. apply in_concat in Hc. destruct Hc as (g' & Hg & Hb'). apply in_map_iff in Hg. destruct Hg as (y & <- & Hy). apply Ha. rewrite (H2 a y b); auto; [now left|now right].
Qed.

Lemma sumz_group (f : nat -> Z) n m (key : nat -> option nat) (g : nat -> list nat) :
  (forall v, v < m -> NoDup (g v)) -> (forall i v, v < m -> (In i (g v) <-> i < n /\ key i = Some v)) -> (forall i v, i < n -> key i = Some v -> v < m) ->
  (forall i, i < n -> key i = None -> f i = 0%Z) -> sumz f (seq 0 n) = sumz (fun v => sumz f (g v)) (seq 0 m).
Proof.
  intros H1 H2 H3 H4. rewrite <- (sumz_map (fun l => sumz f l) g), <- sumz_concat.
  rewrite <- (sumz_filter f (fun i => match key i with Some _ => true | None => false end) (seq 0 n)).
  - apply sumz_perm. apply NoDup_Permutation.
    + apply NoDup_filter, seq_NoDup.
    + apply nodup_concat; [apply seq_NoDup|intros; apply H1; apply in_seq in H; lia|]. intros x y b Hx Hy Hb Hc. apply in_seq in Hx, Hy. apply H2 in Hb, Hc; try lia. destruct Hb, Hc. congruence.
    + intros i. rewrite filter_In, in_concat, in_seq. split.
      * intros (Hi & Hk). destruct (key i) as [v|] eqn:E; [|discriminate]. assert (Hv : v < m) by (eapply H3; eauto; lia). exists (g v). split; [apply in_map, in_seq; lia|]. apply H2; auto. split; auto; lia.
      * intros (l & Hl & Hi). apply in_map_iff in Hl. destruct Hl as (v & <- & Hv). apply in_seq in Hv. apply H2 in Hi; [|lia]. destruct Hi as (Hi & ->). split; auto. lia.
  - intros i Hi Hk. apply in_seq in Hi. apply H4; [lia|]. now destruct (key i).
Qed.
