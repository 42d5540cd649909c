(** The trapezoids above and below a nexus as a left-to-right chain; searches in the query structure. *)
From Coq Require Import List Arith Lia Bool.
From Verif Require Import Base Coord Trap.
Import ListNotations.

Definition opp (d : dir) : dir := match d with Asc => Desc | Desc => Asc end.

(** The nexus bounding a trapezoid in a direction. *)
Definition tend (d : dir) (t : trap) : option nat := match d with Asc => t_u t | Desc => t_d t end.

(** Trapezoids [ids], each bounded by the nexus [v] on the near side, with consecutive sides [bs]. *)
Fixpoint lane (ts : list trap) (d : dir) (v : nat) (bs : list (option nat)) (ids : list nat) : Prop :=
  match ids, bs with
  | [], [_] => True
  | i :: ids, b :: ((b' :: _) as bs) =>
    (exists t, nth_error ts i = Some t /\ t_l t = b /\ t_r t = b' /\ tend (opp d) t = Some v) /\ lane ts d v bs ids
  | _, _ => False
  end.

Definition bnd (L : option nat) (seps : list nat) (R : option nat) : list (option nat) := L :: map Some seps ++ [R].

Lemma bnd_app L E1 e E2 R : bnd L (E1 ++ e :: E2) R = (L :: map Some E1) ++ Some e :: map Some E2 ++ [R].
Proof. unfold bnd. rewrite map_app. cbn. now rewrite <- app_assoc. Qed.

Lemma lane_cons ts d v b b' bs i ids : lane ts d v (b :: b' :: bs) (i :: ids) <->
  (exists t, nth_error ts i = Some t /\ t_l t = b /\ t_r t = b' /\ tend (opp d) t = Some v) /\ lane ts d v (b' :: bs) ids.
Proof. reflexivity. Qed.

Lemma lane_inv ts d v bs ids : lane ts d v bs ids -> match ids with
  | [] => exists b, bs = [b]
  | i :: ids => exists b b' bs', bs = b :: b' :: bs' /\
     (exists t, nth_error ts i = Some t /\ t_l t = b /\ t_r t = b' /\ tend (opp d) t = Some v) /\ lane ts d v (b' :: bs') ids
  end.
Proof.
  destruct ids as [|i ids], bs as [|b [|b' bs]]; try easy.
  - eauto.
  - rewrite lane_cons. intros (H1 & H2). exists b, b', bs. auto.
Qed.

Lemma lane_len ts d v bs ids : lane ts d v bs ids -> length bs = S (length ids).
Proof.
  revert bs. induction ids as [|i ids IH]; intros bs H; apply lane_inv in H.
  - destruct H as (b & ->). reflexivity.
  - destruct H as (b & b' & bs' & -> & _ & H). cbn. now rewrite <- (IH _ H).
Qed.

Lemma lane_app ts d v bs1 b bs2 ids1 ids2 : length bs1 = length ids1 ->
  (lane ts d v (bs1 ++ b :: bs2) (ids1 ++ ids2) <-> lane ts d v (bs1 ++ [b]) ids1 /\ lane ts d v (b :: bs2) ids2).
Proof.
  revert ids1. induction bs1 as [|x bs1 IH]; intros [|i ids1] Hl; cbn in Hl; try discriminate.
  - cbn [app]. split; [intros H; split; [exact Logic.I|auto]|tauto].
  - injection Hl as Hl. specialize (IH ids1 Hl).
    destruct bs1 as [|y bs1]; cbn [app] in *; rewrite !lane_cons; tauto.
Qed.

(** The trapezoid at a position. *)
Lemma lane_at ts d v bs ids i : lane ts d v bs ids -> In i ids ->
  exists ids1 ids2 bs1 b b' bs2 t, ids = ids1 ++ i :: ids2 /\ bs = bs1 ++ b :: b' :: bs2 /\ length bs1 = length ids1 /\
    nth_error ts i = Some t /\ t_l t = b /\ t_r t = b' /\ tend (opp d) t = Some v.
Proof.
  revert bs. induction ids as [|j ids IH]; intros bs H Hi; [easy|]. apply lane_inv in H.
  destruct H as (b & b' & bs' & -> & (t & H1 & H2 & H3 & H4) & H). destruct Hi as [->|Hi].
  - exists [], ids, [], b, b', bs', t. auto 10.
  - destruct (IH _ H Hi) as (i1 & i2 & b1 & c & c' & b2 & t' & E1 & E2 & E3 & E4).
    exists (j :: i1), i2, (b :: b1), c, c', b2, t'. cbn. rewrite E2, <- E3, E1. auto.
Qed.

Lemma lane_in ts d v bs ids i : lane ts d v bs ids -> In i ids -> exists t, nth_error ts i = Some t /\ tend (opp d) t = Some v.
Proof. intros H Hi. destruct (lane_at _ _ _ _ _ _ H Hi) as (? & ? & ? & ? & ? & ? & t & _ & _ & _ & ? & _ & _ & ?). eauto. Qed.

Lemma lane_ext ts ts' d v bs ids :
  (forall i t, In i ids -> nth_error ts i = Some t -> tend (opp d) t = Some v ->
     exists t', nth_error ts' i = Some t' /\ t_l t' = t_l t /\ t_r t' = t_r t /\ tend (opp d) t' = Some v) ->
  lane ts d v bs ids -> lane ts' d v bs ids.
Proof.
  revert bs. induction ids as [|i ids IH]; intros bs He H; apply lane_inv in H.
  - destruct H as (b & ->). exact Logic.I.
  - destruct H as (b & b' & bs' & -> & (t & H1 & H2 & H3 & H4) & H). rewrite lane_cons. split.
    + destruct (He i t (or_introl eq_refl) H1 H4) as (t' & K1 & K2 & K3 & K4). exists t'. rewrite K2, K3. auto.
    + apply IH; auto. intros j t' Hj. apply He. now right.
Qed.

(** Position in a chain given by the separating segments. *)
Lemma bnd_split L seps R bs1 b b' bs2 : bnd L seps R = bs1 ++ b :: b' :: bs2 ->
  exists E1 E2, seps = E1 ++ E2 /\ length E1 = length bs1 /\ bs1 ++ [b] = L :: map Some E1 /\ b' :: bs2 = map Some E2 ++ [R].
Proof.
  unfold bnd. intros H.
  assert (Hl : length seps = length bs1 + length bs2).
  { apply (f_equal (@length _)) in H. cbn in H. rewrite !app_length, map_length in H. cbn in H. lia. }
  exists (firstn (length bs1) seps), (skipn (length bs1) seps). split; [now rewrite firstn_skipn|].
  assert (Hf : length (firstn (length bs1) seps) = length bs1) by (rewrite firstn_length; lia). split; auto.
  rewrite <- (firstn_skipn (length bs1) seps), map_app, <- app_assoc in H at 1.
  assert (K : (bs1 ++ [b]) ++ b' :: bs2 = (L :: map Some (firstn (length bs1) seps)) ++ map Some (skipn (length bs1) seps) ++ [R]).
  { rewrite <- app_assoc. cbn [app]. now rewrite <- H. }
  apply app_eq_app in K. destruct K as (l & [(K1 & K2)|(K1 & K2)]).
  - assert (l = []). { apply (f_equal (@length _)) in K1. rewrite app_length in K1. cbn in K1. rewrite app_length, map_length, Hf in K1. destruct l; auto. cbn in K1. lia. }
    subst l. rewrite app_nil_r in K1. cbn in K2. now rewrite K1, K2.
  - assert (l = []). { apply (f_equal (@length _)) in K1. rewrite app_length in K1. cbn in K1. rewrite app_length, map_length, Hf in K1. destruct l; auto. cbn in K1. lia. }
    subst l. rewrite app_nil_r in K1. cbn in K2. now rewrite K1, K2.
Qed.


Section Nexus.
Context {C I : Type}.

(** The segments of the dividers of a direction. *)
Definition seps (n : nexus C I) (d : dir) : list nat :=
  match filter_dividers n d with Zero => [] | One a => [d_si a] | Two a b => [d_si a; d_si b] end.

(** Ascending dividers come first. *)
Definition dorder (n : nexus C I) : Prop :=
  match n_div n with Two a b => d_dir a = Desc -> d_dir b = Desc | _ => True end.

Definition deg (n : nexus C I) : nat := match n_div n with Zero => 0 | One _ => 1 | Two _ _ => 2 end.

Lemma deg_seps n : deg n = length (seps n Asc) + length (seps n Desc).
Proof.
  unfold deg, seps, filter_dividers. destruct (n_div n) as [|[a1 a2 [|]]|[a1 a2 [|]] [b1 b2 [|]]]; reflexivity.
Qed.

Lemma seps_iter n d : length (iter_trapezoids n d) = S (length (seps n d)).
Proof. unfold iter_trapezoids, seps. destruct (filter_dividers n d); reflexivity. Qed.

(** Replace the first occurrence. *)
Fixpoint replf (old new : nat) (l : list nat) : list nat :=
  match l with [] => [] | x :: l => if Nat.eqb x old then new :: l else x :: replf old new l end.

Lemma replf_at old new l1 l2 : ~ In old l1 -> replf old new (l1 ++ old :: l2) = l1 ++ new :: l2.
Proof.
  induction l1 as [|x l1 IH]; intros Hn; cbn.
  - now rewrite Nat.eqb_refl.
  - destruct (Nat.eqb_spec x old) as [->|]; [exfalso; apply Hn; now left|]. rewrite IH; auto. intros H. apply Hn. now right.
Qed.

Lemma replf_notin old new l : ~ In old l -> replf old new l = l.
Proof.
  induction l as [|x l IH]; intros Hn; cbn; auto.
  destruct (Nat.eqb_spec x old) as [->|]; [exfalso; apply Hn; now left|]. rewrite IH; auto. intros H. apply Hn. now right.
Qed.

Lemma replf_in old new l x : In x (replf old new l) -> In x l \/ x = new.
Proof. induction l as [|y l IH]; cbn; [tauto|]. destruct (Nat.eqb y old); cbn; intuition. Qed.

Lemma replf_keep old new l x : In x l -> x <> old -> In x (replf old new l).
Proof. induction l as [|y l IH]; cbn; [tauto|]. destruct (Nat.eqb_spec y old); cbn; intuition congruence. Qed.

Lemma replf_new old new l : In old l -> In new (replf old new l).
Proof. induction l as [|y l IH]; cbn; [tauto|]. destruct (Nat.eqb_spec y old); cbn; intuition congruence. Qed.

Lemma replf_nodup old new l : NoDup l -> ~ In new l -> NoDup (replf old new l).
Proof.
  induction l as [|y l IH]; cbn; intros Hn Hi; auto. inversion Hn; subst. destruct (Nat.eqb_spec y old); constructor; auto.
  intros H. apply replf_in in H. intuition.
Qed.

Lemma lane_replf ts ts' d v bs ids i new : NoDup ids -> lane ts d v bs ids ->
  (forall j t, In j ids -> j <> i -> nth_error ts j = Some t -> tend (opp d) t = Some v ->
     exists t', nth_error ts' j = Some t' /\ t_l t' = t_l t /\ t_r t' = t_r t /\ tend (opp d) t' = Some v) ->
  (forall t, In i ids -> nth_error ts i = Some t -> tend (opp d) t = Some v ->
     exists t', nth_error ts' new = Some t' /\ t_l t' = t_l t /\ t_r t' = t_r t /\ tend (opp d) t' = Some v) ->
  lane ts' d v bs (replf i new ids).
Proof.
  intros Hn. revert bs. induction ids as [|j ids IH]; intros bs H He Hi; apply lane_inv in H; cbn [replf].
  - destruct H as (b & ->). exact Logic.I.
  - destruct H as (b & b' & bs' & -> & (t & H1 & H2 & H3 & H4) & H). inversion Hn; subst. destruct (Nat.eqb_spec j i) as [->|Hne].
    + rewrite lane_cons. split.
      * destruct (Hi t (or_introl eq_refl) H1 H4) as (t' & K1 & K2 & K3 & K4). exists t'. auto.
      * revert H. apply lane_ext. intros k t' Hk. apply He; [now right|]. intros ->. contradiction.
    + rewrite lane_cons. split.
      * destruct (He j t (or_introl eq_refl) Hne H1 H4) as (t' & K1 & K2 & K3 & K4). exists t'. auto.
      * apply IH; auto.
        -- intros k t' Hk. apply He. now right.
        -- intros t' Hk. apply Hi. now right.
Qed.

Lemma replace_ok (n : nexus C I) old new d : In old (iter_trapezoids n d) -> ~ In old (iter_trapezoids n (opp d)) ->
  exists n', replace_trapezoid old new n = Ok n' /\ n_c n' = n_c n /\ n_v n' = n_v n /\ (forall d', seps n' d' = seps n d') /\
    iter_trapezoids n' (opp d) = iter_trapezoids n (opp d) /\ iter_trapezoids n' d = replf old new (iter_trapezoids n d) /\
    (dorder n -> dorder n').
Proof.
  destruct n as [v c ul dl dv]. intros H1 H2. unfold replace_trapezoid. cbn [n_ul n_dl n_v n_c n_div].
  assert (F : forall d' r a, dir_eqb (d_dir (set_divr r a)) d' = dir_eqb (d_dir a) d') by reflexivity.
  destruct d, dv as [|[a1 a2 [|]]|[a1 a2 [|]] [b1 b2 [|]]]; cbn in H1, H2 |- *;
  repeat match goal with
  | |- context [Nat.eqb ?a ?b] => destruct (Nat.eqb_spec a b); subst
  end; try (exfalso; tauto); try (exfalso; intuition congruence);
  (eexists; split; [reflexivity|]; cbn; repeat split; auto; try (intros []; reflexivity); try tauto; try (unfold dorder; cbn; tauto);
   rewrite ?Nat.eqb_refl; auto;
   repeat match goal with |- context [Nat.eqb ?a ?b] => destruct (Nat.eqb_spec a b); subst end; auto; try congruence; try tauto).
Qed.

(** The end of a segment in a direction. *)
Definition send (d : dir) (s : seg C) : nat := match d with Asc => s_max s | Desc => s_min s end.

Context {OC : CoordOps C}.

Lemma nexus_add_ok (ns : list (nexus C I)) ss ni si tl tr n s n1 d ids1 ids2 E1 E2 :
  nth_error ns ni = Some n -> nth_error ss si = Some s -> s_min s <> s_max s -> ni = send (opp d) s ->
  nth_error ns (send d s) = Some n1 ->
  deg n <= 1 -> (forall e, In e (E1 ++ E2) -> exists s', nth_error ss e = Some s') ->
  iter_trapezoids n d = ids1 ++ tl :: ids2 -> seps n d = E1 ++ E2 -> length E1 = length ids1 ->
  (forall e s', In e E1 -> nth_error ss e = Some s' -> is_on_left s' (n_c n1) = false) ->
  (forall e s', In e E2 -> nth_error ss e = Some s' -> is_on_left s' (n_c n1) = true) ->
  exists n', nexus_add_segment ns ss ni si tr = Ok (upd ns ni n') /\ n_c n' = n_c n /\ n_v n' = n_v n /\
    seps n' d = E1 ++ si :: E2 /\ iter_trapezoids n' d = ids1 ++ tl :: tr :: ids2 /\
    seps n' (opp d) = seps n (opp d) /\ iter_trapezoids n' (opp d) = iter_trapezoids n (opp d) /\ dorder n' /\ deg n' = S (deg n).
Proof.
  intros Hn Hs Hmm Hni Hn1 Hdeg Hex Hit Hse Hl HE1 HE2. unfold nexus_add_segment, get_segment_direction, rd. rewrite Hs. cbn [bind].
  assert (Hd : (if Nat.eqb ni (s_max s) then Ok Desc else if Nat.eqb ni (s_min s) then Ok Asc else Err IE_SegDirection) = (Ok d : res ierr dir)).
  { destruct d; cbn in Hni; subst ni.
    - rewrite (proj2 (Nat.eqb_neq _ _) Hmm), Nat.eqb_refl. reflexivity.
    - now rewrite Nat.eqb_refl. }
  rewrite Hd. cbn [bind]. rewrite Hn. cbn [bind]. unfold seps, iter_trapezoids, filter_dividers, deg in *.
  destruct n as [v c ul dl dv]. cbn [n_div n_v n_c n_ul n_dl first_trapezoid] in *.
  destruct dv as [|a|a b]; [| |lia].
  - (* no divider *)
    destruct E1, E2; try discriminate. destruct ids1; try discriminate. cbn [app] in *. injection Hit as <- <-.
    eexists. split; [reflexivity|]. destruct d; cbn; repeat split; auto.
  - destruct (dir_eqb (d_dir a) d) eqn:Ed.
    + assert (Hex' : exists s', nth_error ss (d_si a) = Some s') by (apply Hex; rewrite <- Hse; now left).
      destruct Hex' as (s' & Hs'). rewrite Hs'. cbn [bind].
      assert (Hn1' : nth_error ns (match d with Asc => s_max s | Desc => s_min s end) = Some n1) by (destruct d; exact Hn1).
      rewrite Hn1'. cbn [bind]. destruct E1 as [|e E1].
      * destruct ids1; try discriminate. cbn [app] in *. destruct E2 as [|e E2]; [discriminate|]. injection Hse as <- <-.
        rewrite (HE2 (d_si a) s') by (auto; now left). injection Hit as <- <-. eexists. split; [reflexivity|].
        destruct a as [x y da]; cbn in Ed |- *. destruct d, da; try discriminate; cbn; repeat split; auto.
      * destruct E1; [|destruct ids1 as [|? [|]]; discriminate]. destruct E2; [|discriminate]. cbn [app] in Hse. injection Hse as <-.
        destruct ids1 as [|i [|]]; try discriminate. cbn [app] in *. injection Hit as <- <- <-.
        rewrite (HE1 (d_si a) s') by (auto; now left). eexists. split; [reflexivity|].
        destruct a as [x y da]; cbn in Ed |- *. destruct d, da; try discriminate; cbn; repeat split; auto.
    + destruct E1, E2; try discriminate. destruct ids1; try discriminate. cbn [app] in *. injection Hit as <- <-.
      cbn [bind]. eexists. split; [reflexivity|]. destruct a as [x y da]; cbn in Ed |- *. destruct d, da; try discriminate; cbn; repeat split; auto.
Qed.

(** ** Searches *)

(** The search for [c] from node [k] ends in the sink node [k']. *)
Inductive finds (qs : list (qnode C)) (c : coords C) : nat -> nat -> Prop :=
| F_sink k i : nth_error qs k = Some (QSink i) -> finds qs c k k
| F_branch k l r b k' : nth_error qs k = Some (QBranch l r b) -> finds qs c (if use_left b c then l else r) k' -> finds qs c k k'.

(** Every search from the node ends. *)
Inductive wfq (qs : list (qnode C)) : nat -> Prop :=
| W_sink k i : nth_error qs k = Some (QSink i) -> wfq qs k
| W_branch k l r b : nth_error qs k = Some (QBranch l r b) -> wfq qs l -> wfq qs r -> wfq qs k.

(** The upper ends of the horizontal cuts from the node lead to trapezoid [i]. *)
Inductive topq (qs : list (qnode C)) : nat -> nat -> Prop :=
| T_sink k i : nth_error qs k = Some (QSink i) -> topq qs k i
| T_branch k l r c i : nth_error qs k = Some (QBranch l r (QY c)) -> topq qs r i -> topq qs k i.

Lemma finds_sink qs c k k' : finds qs c k k' -> exists i, nth_error qs k' = Some (QSink i).
Proof. induction 1; eauto. Qed.

Lemma finds_find qs c k k' i : finds qs c k k' -> nth_error qs k' = Some (QSink i) ->
  exists N, forall f, N <= f -> find f qs c k = Ok (k', i).
Proof.
  induction 1 as [k j Hk|k l r b k' Hk _ IH]; intros Hi.
  - exists 1. intros [|f] Hf; [lia|]. cbn. unfold rdu. rewrite Hk. cbn. congruence.
  - destruct (IH Hi) as (N & HN). exists (S N). intros [|f] Hf; [lia|]. cbn. unfold rdu. rewrite Hk. cbn. apply HN. lia.
Qed.

Lemma wfq_check (st : state C I) k : (forall k i, nth_error (st_qs st) k = Some (QSink i) -> i < length (st_ts st)) ->
  wfq (st_qs st) k -> exists N, forall f, N <= f -> check_query f st k = Ok tt.
Proof.
  intros Hs. induction 1 as [k i Hk|k l r b Hk _ (N1 & H1) _ (N2 & H2)].
  - exists 1. intros [|f] Hf; [lia|]. cbn. unfold rdu. rewrite Hk. cbn. destruct (lt_nth _ _ _ (Hs _ _ Hk)) as (t & ->). reflexivity.
  - exists (S (N1 + N2)). intros [|f] Hf; [lia|]. cbn. unfold rdu. rewrite Hk. cbn. rewrite H1 by lia. cbn. apply H2. lia.
Qed.

(** Replacing one sink by a branch. *)
Definition regrow (qs qs' : list (qnode C)) (k : nat) : Prop :=
  (exists i, nth_error qs k = Some (QSink i)) /\
  forall j, j <> k -> j < length qs -> nth_error qs' j = nth_error qs j.

Lemma finds_other qs qs' k c q k' : regrow qs qs' k -> finds qs c q k' -> k' <> k -> finds qs' c q k'.
Proof.
  intros ((i & Hk) & He). induction 1 as [q j Hq|q l r b k' Hq _ IH]; intros Hne.
  - apply (F_sink _ _ _ j). rewrite He; auto. eapply nth_lt; eauto.
  - apply (F_branch _ _ _ l r b); auto. rewrite He; auto. { congruence. } eapply nth_lt; eauto.
Qed.

Lemma finds_at qs qs' k c q k' : regrow qs qs' k -> finds qs c q k -> finds qs' c k k' -> finds qs' c q k'.
Proof.
  intros ((i & Hk) & He) Hf Hk'. remember k as k0 eqn:E in Hf. induction Hf as [q j Hq|q l r b k0 Hq _ IH]; subst.
  - exact Hk'.
  - apply (F_branch _ _ _ l r b); auto. rewrite He; auto. { congruence. } eapply nth_lt; eauto.
Qed.

Lemma wfq_regrow qs qs' k q : regrow qs qs' k -> wfq qs' k -> wfq qs q -> wfq qs' q.
Proof.
  intros ((i & Hk) & He) Hk'. induction 1 as [q j Hq|q l r b Hq _ IH1 _ IH2].
  - destruct (Nat.eq_dec q k) as [->|Hne]; auto. apply (W_sink _ _ j). rewrite He; auto. eapply nth_lt; eauto.
  - apply (W_branch _ _ l r b); auto. rewrite He; auto. { congruence. } eapply nth_lt; eauto.
Qed.

Lemma topq_regrow qs qs' k q i j : regrow qs qs' k -> nth_error qs k = Some (QSink j) -> topq qs q i -> j <> i -> topq qs' q i.
Proof.
  intros (_ & He) Hk. induction 1 as [q i Hq|q l r c i Hq _ IH]; intros Hne.
  - apply T_sink. rewrite He; auto. { congruence. } eapply nth_lt; eauto.
  - apply (T_branch _ _ l r c); auto. rewrite He; auto. { congruence. } eapply nth_lt; eauto.
Qed.

Lemma topq_at qs qs' k q i i' : regrow qs qs' k -> nth_error qs k = Some (QSink i) ->
  (forall k1, nth_error qs k1 = Some (QSink i) -> k1 = k) -> topq qs q i -> topq qs' k i' -> topq qs' q i'.
Proof.
  intros (_ & He) Hk Hu. induction 1 as [q i Hq|q l r c i Hq _ IH]; intros Ht.
  - now rewrite (Hu _ Hq).
  - apply (T_branch _ _ l r c); auto. rewrite He; auto. { congruence. } eapply nth_lt; eauto.
Qed.

End Nexus.
