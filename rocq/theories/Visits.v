(** The number of nodes the debug check of the search structure visits. *)
From Coq Require Import QArith Lqa List Arith Lia Bool Permutation.
From Verif Require Import Base Coord Trap Lanes Plane Geo Region TrapInv Depth.
Import ListNotations.
Local Open Scope nat_scope.
Local Open Scope res_scope.

(** ** The count *)

Section Count.
Context {C : Type} {OC : CoordOps C} {I : Type}.

(** [check_consistency_query_node] (src/trapezoidation.rs 577-592) with the number it returns: one for each call made.
    Fuel bounds the recursion depth. *)
Fixpoint check_count (fuel : nat) (st : state C I) (qi : nat) : res ierr nat :=
  match fuel with
  | 0 => Crash Fuel
  | S fuel =>
    do q <- rdu (st_qs st) qi;
    do n <- match q with
            | QBranch l r _ => do a <- check_count fuel st l; do b <- check_count fuel st r; Ok (a + b)
            | QSink ti => do _ <- rdu (st_ts st) ti; Ok 0
            end;
    Ok (n + 1)
  end.

(** [check_query] is the same walk without the number. *)
Lemma check_count_query fuel (st : state C I) : forall qi, check_query fuel st qi = (do _ <- check_count fuel st qi; Ok tt).
Proof.
  induction fuel as [|fuel IH]; intros qi; [reflexivity|]. cbn [check_query check_count]. unfold rdu. destruct (nth_error (st_qs st) qi) as [[l r b|ti]|]; cbn [bind]; auto.
  - rewrite !IH. destruct (check_count fuel st l) as [x|e|c]; cbn [bind]; auto. destruct (check_count fuel st r) as [y|e|c]; cbn [bind]; auto.
  - destruct (nth_error (st_ts st) ti); cbn [bind]; auto.
Qed.

(** ** Paths *)

(** The node at the end of a path of left and right turns. *)
Fixpoint follow (qs : list (qnode C)) (q : nat) (s : list bool) : option nat :=
  match s with
  | [] => match nth_error qs q with Some _ => Some q | None => None end
  | b :: s => match nth_error qs q with Some (QBranch l r _) => follow qs (if b : bool then l else r) s | _ => None end
  end.

(** At least [m] paths from the root to a node. *)
Definition many (qs : list (qnode C)) (q m : nat) : Prop :=
  exists l, NoDup l /\ length l = m /\ forall s, In s l -> follow qs 0 s = Some q.

Lemma follow_app qs s s' : forall q, follow qs q (s ++ s') = match follow qs q s with Some q' => follow qs q' s' | None => None end.
Proof.
  induction s as [|b s IH]; intros q; cbn [app follow].
  - destruct (nth_error qs q) eqn:E; auto. destruct s'; cbn; now rewrite E.
  - destruct (nth_error qs q) as [[l r x|]|]; auto.
Qed.

Lemma nd_split (l : list (list bool)) : NoDup l -> exists e lt lf, NoDup lt /\ NoDup lf /\ length l = e + length lt + length lf /\ e <= 1 /\
  (e = 1 -> In [] l) /\ (forall s, In s lt -> In (true :: s) l) /\ (forall s, In s lf -> In (false :: s) l) /\ (In [] l -> e = 1) /\ (forall s, In (true :: s) l -> In s lt) /\ (forall s, In (false :: s) l -> In s lf).
Proof.
  induction 1 as [|x l Hx Hl (e & lt & lf & N1 & N2 & L & E1 & A1 & A2 & A3 & B1 & B2 & B3)].
  - exists 0, [], []. cbn. repeat split; try constructor; try easy; lia.
  - destruct x as [|[|] x].
    + exists 1, lt, lf. assert (e = 0) by (destruct e as [|[|e]]; auto; [elim Hx; auto|lia]). subst. cbn [length]. repeat split; auto; try lia; cbn; auto.
      * intros s [E|H]; [discriminate|auto]. 
      * intros s [E|H]; [discriminate|auto].
    + exists e, (x :: lt), lf. cbn [length]. repeat split; auto; try lia.
      * constructor; auto.
      * intros He. right; auto.
      * intros s [<-|H]; [now left|right; auto].
      * intros s H. right; auto.
      * intros [E|H]; [discriminate|auto].
      * intros s [E|H]; [injection E as <-; now left|right; auto].
      * intros s [E|H]; [discriminate|auto].
    + exists e, lt, (x :: lf). cbn [length]. repeat split; auto; try lia.
      * constructor; auto.
      * intros He. right; auto.
      * intros s H. right; auto.
      * intros s [<-|H]; [now left|right; auto].
      * intros [E|H]; [discriminate|auto].
      * intros s [E|H]; [discriminate|auto].
      * intros s [E|H]; [injection E as <-; now left|right; auto].
Qed.

(** The check follows every path. *)
Lemma count_paths fuel (st : state C I) : forall q n l, check_count fuel st q = Ok n -> NoDup l -> (forall s, In s l -> follow (st_qs st) q s <> None) -> length l <= n.
Proof.
  induction fuel as [|fuel IH]; intros q n l Hn Hl HF; [discriminate|]. cbn [check_count] in Hn. unfold rdu in Hn.
  destruct (nd_split l Hl) as (e & lt & lf & N1 & N2 & L & E1 & A1 & A2 & A3 & _).
  destruct (nth_error (st_qs st) q) as [[a b x|ti]|] eqn:Eq; cbn [bind] in Hn; try discriminate.
  - destruct (check_count fuel st a) as [na| |] eqn:Ea; cbn [bind] in Hn; try discriminate. destruct (check_count fuel st b) as [nb| |] eqn:Eb; cbn [bind] in Hn; try discriminate. injection Hn as <-.
    assert (length lt <= na). { apply (IH a na lt Ea N1). intros s Hs. specialize (HF _ (A2 s Hs)). cbn [follow] in HF. now rewrite Eq in HF. }
    assert (length lf <= nb). { apply (IH b nb lf Eb N2). intros s Hs. specialize (HF _ (A3 s Hs)). cbn [follow] in HF. now rewrite Eq in HF. }
    lia.
  - destruct (nth_error (st_ts st) ti); cbn [bind] in Hn; [|discriminate]. injection Hn as <-.
    destruct lt as [|s lt]. 2:{ elim (HF _ (A2 s (or_introl eq_refl))). cbn [follow]. now rewrite Eq. }
    destruct lf as [|s lf]. 2:{ elim (HF _ (A3 s (or_introl eq_refl))). cbn [follow]. now rewrite Eq. }
    cbn in L. lia.
Qed.

Lemma many_count fuel (st : state C I) q m n : check_count fuel st 0 = Ok n -> many (st_qs st) q m -> m <= n.
Proof. intros Hn (l & H1 & <- & H2). eapply count_paths; eauto. intros s Hs. rewrite (H2 s Hs). discriminate. Qed.

(** ** Growing search structures *)

Definition stay (qs qs' : list (qnode C)) : Prop := forall q l r b, nth_error qs q = Some (QBranch l r b) -> nth_error qs' q = Some (QBranch l r b).

Lemma follow_stay qs qs' s : stay qs qs' -> length qs <= length qs' -> forall q q', follow qs q s = Some q' -> follow qs' q s = Some q'.
Proof.
  intros HK HL. induction s as [|b s IH]; intros q q' H; cbn [follow] in *.
  - destruct (nth_error qs q) eqn:E; [|discriminate]. apply nth_lt in E. destruct (lt_nth _ qs' q) as (x & ->); [lia|auto].
  - destruct (nth_error qs q) as [[l r x|]|] eqn:E; try discriminate. rewrite (HK _ _ _ _ E). auto.
Qed.

Lemma finds_path qs c q k : finds qs c q k -> exists s, follow qs q s = Some k.
Proof.
  induction 1 as [k i H|k l r b k' H _ (s & IH)].
  - exists []. cbn. now rewrite H.
  - exists (use_left b c :: s). cbn [follow]. now rewrite H.
Qed.

Lemma finds_stay qs qs' c q k k' : stay qs qs' -> finds qs c q k -> finds qs' c q k' -> finds qs' c k k'.
Proof.
  intros HK H. revert k'. induction H as [k i H|k l r b k1 H _ IH]; intros k' H'; auto.
  apply IH. apply HK in H. inversion H' as [? j K|? l' r' b' ? K K']; subst; rewrite H in K; [discriminate|]. now injection K as <- <- <-.
Qed.

Lemma many_stay qs qs' c k k' m : stay qs qs' -> length qs <= length qs' -> many qs k m -> finds qs c 0 k -> finds qs' c 0 k' -> many qs' k' m.
Proof.
  intros HK HL (l & H1 & H2 & H3) Hk Hk'. destruct (finds_path _ _ _ _ (finds_stay _ _ _ _ _ _ HK Hk Hk')) as (s0 & Hs0).
  exists (map (fun s => s ++ s0) l). split; [|split].
  - apply FinFun.Injective_map_NoDup; auto. intros x y E. now apply app_inv_tail in E.
  - now rewrite map_length.
  - intros s Hs. apply in_map_iff in Hs. destruct Hs as (s1 & <- & Hs). rewrite follow_app. now rewrite (follow_stay _ _ _ HK HL _ _ (H3 s1 Hs)).
Qed.

(** A path to a sink is not part of a longer one. *)
Lemma follow_prefix qs s s' k i : nth_error qs k = Some (QSink i) -> forall q, follow qs q s = Some k -> forall k', follow qs q (s ++ s') = Some k' -> s' = [].
Proof.
  intros Hk q Hs k' Hs'. rewrite follow_app, Hs in Hs'. destruct s' as [|b s']; auto. cbn [follow] in Hs'. now rewrite Hk in Hs'.
Qed.

Lemma app_split {A} (a b a' b' : list A) : a ++ b = a' ++ b' -> (exists c, a' = a ++ c) \/ (exists c, a = a' ++ c).
Proof.
  revert a'. induction a as [|x a IH]; intros [|y a'] E; cbn in *.
  - left. now exists [].
  - left. now exists (y :: a').
  - right. now exists (x :: a).
  - injection E as <- E. destruct (IH _ E) as [(c & ->)|(c & ->)]; [left|right]; now exists c.
Qed.

(** Two points in different trapezoids that come to be in the same one: the paths add up. *)
Lemma many_sum qs qs' c1 c2 k1 k2 k i1 i2 a b : stay qs qs' -> length qs <= length qs' -> many qs k1 a -> many qs k2 b -> finds qs c1 0 k1 -> finds qs c2 0 k2 ->
  nth_error qs k1 = Some (QSink i1) -> nth_error qs k2 = Some (QSink i2) -> k1 <> k2 -> finds qs' c1 0 k -> finds qs' c2 0 k -> many qs' k (a + b).
Proof.
  intros HK HL (l1 & N1 & L1 & F1) (l2 & N2 & L2 & F2) H1 H2 S1 S2 Hne G1 G2.
  destruct (finds_path _ _ _ _ (finds_stay _ _ _ _ _ _ HK H1 G1)) as (s1 & Hs1). destruct (finds_path _ _ _ _ (finds_stay _ _ _ _ _ _ HK H2 G2)) as (s2 & Hs2).
  exists (map (fun s => s ++ s1) l1 ++ map (fun s => s ++ s2) l2). split; [|split].
  - assert (A : forall (x : list (list bool)) y, NoDup x -> NoDup y -> (forall z, In z x -> ~ In z y) -> NoDup (x ++ y)).
    { induction x as [|z x IH]; intros y Hx Hy Hd; auto. inversion Hx; subst. cbn. constructor; [|apply IH; auto; intros w Hw; apply Hd; now right].
      intros K. apply in_app_or in K. destruct K; [auto|]. apply (Hd z); [now left|auto]. }
    apply A.
    + apply FinFun.Injective_map_NoDup; auto. intros x y E. now apply app_inv_tail in E.
    + apply FinFun.Injective_map_NoDup; auto. intros x y E. now apply app_inv_tail in E.
    + intros z K1 K2. apply in_map_iff in K1, K2. destruct K1 as (x & <- & Hx), K2 as (y & E & Hy). symmetry in E. apply Hne.
      specialize (F1 x Hx). specialize (F2 y Hy). destruct (app_split _ _ _ _ E) as [(c & ->)|(c & ->)].
      * rewrite (follow_prefix _ _ _ _ _ S1 _ F1 _ F2), app_nil_r in F2. congruence.
      * rewrite (follow_prefix _ _ _ _ _ S2 _ F2 _ F1), app_nil_r in F1. congruence.
  - rewrite app_length, !map_length. lia.
  - intros s Hs. apply in_app_or in Hs. destruct Hs as [Hs|Hs]; apply in_map_iff in Hs; destruct Hs as (s0 & <- & Hs); rewrite follow_app.
    + now rewrite (follow_stay _ _ _ HK HL _ _ (F1 s0 Hs)).
    + now rewrite (follow_stay _ _ _ HK HL _ _ (F2 s0 Hs)).
Qed.

End Count.
