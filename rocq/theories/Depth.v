(** How far a search has to go when nodes are added to the search structure. *)
From Coq Require Import QArith List Arith Lia Bool.
From Verif Require Import Base Coord Trap Lanes Plane.
Import ListNotations.
Local Open Scope nat_scope.

Section Depth.
Context {I : Type}.
Notation stt := (state Q I).

(** The branches stay. *)
Definition kept (st st' : stt) : Prop := forall q l r b, nth_error (st_qs st) q = Some (QBranch l r b) -> nth_error (st_qs st') q = Some (QBranch l r b).

(** Any search from the root needs at most [n] more nodes; if the trapezoid found is a different one, or more nodes are
    needed, then the trapezoid found satisfies [P]. *)
Definition deep (n : nat) (P : trap -> Prop) (st st' : stt) : Prop := kept st st' /\
  forall p d k i t, find d (st_qs st) p 0 = Ok (k, i) -> nth_error (st_ts st) i = Some t ->
  exists d' k' i' t', find d' (st_qs st') p 0 = Ok (k', i') /\ nth_error (st_ts st') i' = Some t' /\ d' <= d + n /\ ((d' = d /\ t' = t) \/ P t').

(** No further node when the trapezoid satisfies [P] already. *)
Definition once (P : trap -> Prop) (st st' : stt) : Prop := kept st st' /\
  forall p d k i t, find d (st_qs st) p 0 = Ok (k, i) -> nth_error (st_ts st) i = Some t ->
  exists d' k' i' t', find d' (st_qs st') p 0 = Ok (k', i') /\ nth_error (st_ts st') i' = Some t' /\ d' <= S d /\ ((d' = d /\ t' = t) \/ P t') /\ (P t -> d' <= d).

Lemma deep_refl P st : deep 0 P st st.
Proof. split; [intros q l r b H; exact H|]. intros p d k i t H Ht. exists d, k, i, t. repeat (split; auto); lia. Qed.

Lemma once_refl P st : once P st st.
Proof. split; [intros q l r b H; exact H|]. intros p d k i t H Ht. exists d, k, i, t. repeat (split; auto); lia. Qed.

Lemma deep_trans n m (P P' : trap -> Prop) st st1 st2 : deep n P st st1 -> deep m P' st1 st2 -> deep (n + m) (fun t => P t \/ P' t) st st2.
Proof.
  intros (K1 & H1) (K2 & H2). split; [intros q l r b H; auto|]. intros p d k i t H Ht. destruct (H1 p d k i t H Ht) as (d1 & k1 & i1 & t1 & F1 & T1 & L1 & C1). destruct (H2 p d1 k1 i1 t1 F1 T1) as (d2 & k2 & i2 & t2 & F2 & T2 & L2 & C2).
  exists d2, k2, i2, t2. split; auto. split; auto. split; [lia|]. destruct C2 as [(-> & ->)|C2]; auto. destruct C1 as [(-> & ->)|C1]; auto.
Qed.

Lemma deep_weaken n m (P P' : trap -> Prop) st st' : deep n P st st' -> n <= m -> (forall t, P t -> P' t) -> deep m P' st st'.
Proof.
  intros (K1 & H1) Hn HP. split; auto. intros p d k i t H Ht. destruct (H1 p d k i t H Ht) as (d1 & k1 & i1 & t1 & F1 & T1 & L1 & C1). exists d1, k1, i1, t1. split; auto. split; auto. split; [lia|].
  destruct C1; auto.
Qed.

Lemma once_trans (P : trap -> Prop) st st1 st2 : once P st st1 -> once P st1 st2 -> once P st st2.
Proof.
  intros (K1 & H1) (K2 & H2). split; [intros q l r b H; auto|]. intros p d k i t H Ht. destruct (H1 p d k i t H Ht) as (d1 & k1 & i1 & t1 & F1 & T1 & L1 & C1 & N1). destruct (H2 p d1 k1 i1 t1 F1 T1) as (d2 & k2 & i2 & t2 & F2 & T2 & L2 & C2 & N2).
  exists d2, k2, i2, t2. split; auto. split; auto. destruct C1 as [(-> & ->)|C1].
  - split; [lia|]. split; auto.
  - specialize (N2 C1). split; [lia|]. split; [destruct C2 as [(-> & ->)|C2]; auto|]. intros Z. specialize (N1 Z). lia.
Qed.

Lemma once_deep P st st' : once P st st' -> deep 1 P st st'.
Proof.
  intros (K1 & H1). split; auto. intros p d k i t H Ht. destruct (H1 p d k i t H Ht) as (d1 & k1 & i1 & t1 & F1 & T1 & L1 & C1 & N1). exists d1, k1, i1, t1. split; auto. split; auto. split; [lia|auto].
Qed.

(** A sink becomes a branch. *)
Lemma find_cut qs qs' k i a b nd ia ib : nth_error qs k = Some (QSink i) -> (forall j q, j <> k -> nth_error qs j = Some q -> nth_error qs' j = Some q) ->
  nth_error qs' k = Some (QBranch a b nd) -> nth_error qs' a = Some (QSink ia) -> nth_error qs' b = Some (QSink ib) ->
  forall d (p : point) q k' i', find d qs p q = Ok (k', i') ->
  (k' <> k /\ find d qs' p q = Ok (k', i')) \/ (k' = k /\ i' = i /\ (find (S d) qs' p q = Ok (a, ia) \/ find (S d) qs' p q = Ok (b, ib))).
Proof.
  intros Hk Ho Hk' Ha Hb. induction d as [|d IH]; intros p q k' i' H; [discriminate|].
  cbn [find] in H. unfold rdu in H. destruct (nth_error qs q) as [[l r c|ti]|] eqn:Eq; cbn [bind] in H; [| |discriminate].
  - assert (Hq : q <> k) by congruence. apply Ho in Eq; auto. destruct (IH p _ _ _ H) as [(K1 & K2)|(K1 & K2 & K3)].
    + left. split; auto. cbn [find]. unfold rdu. rewrite Eq. exact K2.
    + right. split; auto. split; auto. destruct K3 as [K3|K3]; [left|right]; change (find (S (S d)) qs' p q) with (bind (rdu qs' q) (fun q0 => match q0 with QBranch l r b0 => find (S d) qs' p (if use_left b0 p then l else r) | QSink ti => Ok (q, ti) end)); unfold rdu; rewrite Eq; exact K3.
  - injection H as <- <-. destruct (Nat.eq_dec q k) as [->|Hq].
    + right. assert (ti = i) by congruence. subst. split; auto. split; auto. change (find (S (S d)) qs' p k) with (bind (rdu qs' k) (fun q0 => match q0 with QBranch l r b0 => find (S d) qs' p (if use_left b0 p then l else r) | QSink ti => Ok (k, ti) end)).
      unfold rdu. rewrite Hk'. cbn [bind]. cbn [find]. unfold rdu. destruct (use_left nd p); [left; rewrite Ha|right; rewrite Hb]; reflexivity.
    + left. split; auto. apply Ho in Eq; auto. cbn [find]. unfold rdu. now rewrite Eq.
Qed.

Lemma find_sink d qs (p : point) : forall q k i, find d qs p q = Ok (k, i) -> nth_error qs k = Some (QSink i).
Proof.
  induction d as [|d IH]; intros q k i H; [discriminate|]. cbn [find] in H. unfold rdu in H. destruct (nth_error qs q) as [[l r c|ti]|] eqn:Eq; cbn [bind] in H; [eauto| |discriminate].
  now injection H as <- <-.
Qed.

(** The trapezoid [i] with sink [k] is cut into [ia] and [ib]. *)
Lemma once_cut (P : trap -> Prop) st st' k i a b nd ia ib ta tb t : nth_error (st_qs st) k = Some (QSink i) ->
  (forall j q, j <> k -> nth_error (st_qs st) j = Some q -> nth_error (st_qs st') j = Some q) ->
  nth_error (st_qs st') k = Some (QBranch a b nd) -> nth_error (st_qs st') a = Some (QSink ia) -> nth_error (st_qs st') b = Some (QSink ib) ->
  nth_error (st_ts st') ia = Some ta -> nth_error (st_ts st') ib = Some tb -> P ta -> P tb -> nth_error (st_ts st) i = Some t -> ~ P t ->
  (forall j k, nth_error (st_qs st) k = Some (QSink j) -> forall t, nth_error (st_ts st) j = Some t -> t_k t = k) -> t_k t = k ->
  (forall j t, j <> i -> nth_error (st_ts st) j = Some t -> exists t', nth_error (st_ts st') j = Some t' /\ (t' = t \/ P t')) -> once P st st'.
Proof.
  intros Hk Ho Hk' Ha Hb Hta Htb Pa Pb Ht Pt Hu Htk Hts. split; [intros q l r c H; apply Ho; auto; congruence|]. intros p d k0 i0 t0 H Ht0.
  destruct (find_cut _ _ _ _ _ _ _ _ _ Hk Ho Hk' Ha Hb d p 0 k0 i0 H) as [(K1 & K2)|(-> & -> & K)].
  - assert (i0 <> i). { intros ->. pose proof (find_sink _ _ _ _ _ _ H) as Z. apply K1. rewrite <- (Hu i k0 Z t Ht). exact Htk. }
    destruct (Hts i0 t0 H0 Ht0) as (t' & Ht' & C). exists d, k0, i0, t'. split; auto. split; auto. split; [lia|]. split; [|lia]. destruct C as [->|C]; auto.
  - assert (t0 = t) by congruence. subst t0. destruct K as [K|K]; [exists (S d), a, ia, ta|exists (S d), b, ib, tb]; (split; [auto|]; split; [auto|]; split; [lia|]; split; [auto|]; intros Z; contradiction).
Qed.

End Depth.
