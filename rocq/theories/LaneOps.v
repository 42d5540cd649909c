(** Operations on chains of trapezoids; induction on heights. *)
From Coq Require Import QArith Lqa List Arith Lia Bool.
From Verif Require Import Base Coord Trap Lanes Plane Geo Region TrapInv AddVertex Recut Cuts.
Import ListNotations.
Local Open Scope nat_scope.

(** ** Chains *)

Lemma last_snoc {A} (l : list A) b bs L : bs ++ [b] = L :: l -> b = last l L.
Proof.
  intros H. apply (f_equal (fun x => last x L)) in H. rewrite last_last in H. rewrite H. cbn. destruct l; auto.
Qed.

(** The position of a trapezoid in a chain. *)
Lemma lane_pos ts d v L E R ids i : lane ts d v (bnd L E R) ids -> In i ids ->
  exists ids1 ids2 E1 E2 t, ids = ids1 ++ i :: ids2 /\ E = E1 ++ E2 /\ length E1 = length ids1 /\ nth_error ts i = Some t /\
    t_l t = last (map Some E1) L /\ t_r t = hd R (map Some E2) /\ tend (opp d) t = Some v.
Proof.
  intros H Hi. destruct (lane_at _ _ _ _ _ _ H Hi) as (ids1 & ids2 & bs1 & b & b' & bs2 & t & E1 & E2 & E3 & E4 & E5 & E6 & E7).
  destruct (bnd_split _ _ _ _ _ _ _ E2) as (F1 & F2 & K1 & K2 & K3 & K4). exists ids1, ids2, F1, F2, t.
  split; auto. split; auto. split; [congruence|]. split; auto. split; [|split; auto].
  - rewrite E5. eapply last_snoc; eauto.
  - rewrite E6. destruct F2; cbn in K4 |- *; congruence.
Qed.

Lemma lane_insert ts ts' d v L E1 E2 R ids1 ids2 i t si a b ta tb :
  lane ts d v (bnd L (E1 ++ E2) R) (ids1 ++ i :: ids2) -> length E1 = length ids1 -> nth_error ts i = Some t ->
  (forall j tj, In j ids1 \/ In j ids2 -> nth_error ts j = Some tj -> tend (opp d) tj = Some v ->
     exists tj', nth_error ts' j = Some tj' /\ t_l tj' = t_l tj /\ t_r tj' = t_r tj /\ tend (opp d) tj' = Some v) ->
  nth_error ts' a = Some ta -> t_l ta = t_l t -> t_r ta = Some si -> tend (opp d) ta = Some v ->
  nth_error ts' b = Some tb -> t_l tb = Some si -> t_r tb = t_r t -> tend (opp d) tb = Some v ->
  lane ts' d v (bnd L (E1 ++ si :: E2) R) (ids1 ++ a :: b :: ids2).
Proof.
  intros H Hl Ht Ho Ha A1 A2 A3 Hb B1 B2 B3.
  destruct (@exists_last _ (L :: map Some E1)) as (bs1 & b0 & Eb); [discriminate|].
  assert (Hl1 : length bs1 = length ids1).
  { apply (f_equal (@length _)) in Eb. cbn in Eb. rewrite app_length, map_length in Eb. cbn in Eb. lia. }
  assert (K1 : bnd L (E1 ++ E2) R = bs1 ++ b0 :: map Some E2 ++ [R]).
  { unfold bnd. rewrite map_app, <- app_assoc. change (L :: map Some E1 ++ map Some E2 ++ [R]) with ((L :: map Some E1) ++ map Some E2 ++ [R]).
    rewrite Eb, <- app_assoc. reflexivity. }
  assert (K2 : bnd L (E1 ++ si :: E2) R = bs1 ++ b0 :: Some si :: map Some E2 ++ [R]).
  { rewrite bnd_app. change (L :: map Some E1) with (L :: map Some E1). rewrite Eb, <- app_assoc. reflexivity. }
  rewrite K1 in H. rewrite K2. apply lane_app in H; auto. destruct H as (H1 & H2). apply lane_app; auto. split.
  - revert H1. apply lane_ext. intros j tj Hj. apply Ho. now left.
  - apply lane_inv in H2. destruct H2 as (c & c' & bs' & Ec & (t' & T1 & T2 & T3 & T4) & H2). assert (t' = t) by congruence. subst t'.
    injection Ec as <- Ec. rewrite !lane_cons. split; [|rewrite Ec, lane_cons; split].
    + exists ta. rewrite A1. auto.
    + exists tb. rewrite B2. auto.
    + revert H2. apply lane_ext. intros j tj Hj. apply Ho. now right.
Qed.

Lemma NoDup_insert {A} (l1 l2 : list A) x : NoDup (l1 ++ l2) -> ~ In x (l1 ++ l2) -> NoDup (l1 ++ x :: l2).
Proof. intros H Hn. apply (NoDup_Add (Add_app x l1 l2)). auto. Qed.

Lemma upd_same {A} (l : list A) i x : nth_error l i = Some x -> upd l i x = l.
Proof. revert i. induction l as [|a l IH]; intros [|i] H; cbn in *; try discriminate; [congruence|]. f_equal. auto. Qed.

(** Setting the last right side or the first left side of a chain. *)
Lemma lane_set_last ts ts' d v L E R R' ids i t' :
  lane ts d v (bnd L E R) ids -> NoDup ids -> last ids 0 = i -> ids <> [] ->
  (forall j tj, In j ids -> j <> i -> nth_error ts j = Some tj -> tend (opp d) tj = Some v ->
     exists tj', nth_error ts' j = Some tj' /\ t_l tj' = t_l tj /\ t_r tj' = t_r tj /\ tend (opp d) tj' = Some v) ->
  nth_error ts' i = Some t' -> (forall t, nth_error ts i = Some t -> t_l t' = t_l t) -> t_r t' = R' -> tend (opp d) t' = Some v ->
  lane ts' d v (bnd L E R') ids.
Proof.
  intros H Hn Hl Hne Ho Ht' A1 A2 A3. destruct (exists_last Hne) as (ids1 & i' & ->). rewrite last_last in Hl. subst i'.
  assert (Hni : ~ In i ids1). { intros K. apply NoDup_remove_2 in Hn. apply Hn. rewrite app_nil_r. auto. }
  pose proof (lane_len _ _ _ _ _ H) as Hlen.
  destruct (@exists_last _ (L :: map Some E)) as (bs1 & b0 & Eb); [discriminate|].
  assert (Hl1 : length bs1 = length ids1).
  { unfold bnd in Hlen. change (L :: map Some E ++ [R]) with ((L :: map Some E) ++ [R]) in Hlen. rewrite Eb in Hlen. rewrite !app_length in Hlen. cbn in Hlen. lia. }
  unfold bnd in *. change (L :: map Some E ++ [R]) with ((L :: map Some E) ++ [R]) in H. change (L :: map Some E ++ [R']) with ((L :: map Some E) ++ [R']).
  rewrite Eb, <- app_assoc in *. cbn [app] in *. apply lane_app in H; auto. destruct H as (H1 & H2). apply lane_app; auto. split.
  - revert H1. apply lane_ext. intros j tj Hj. apply Ho. { apply in_or_app. auto. } intros ->. auto.
  - rewrite lane_cons in H2 |- *. destruct H2 as ((t & T1 & T2 & T3 & T4) & H2). split; [|exact Logic.I]. exists t'. rewrite (A1 t T1). auto.
Qed.

Lemma lane_set_first ts ts' d v L L' E R ids i t' :
  lane ts d v (bnd L E R) ids -> NoDup ids -> hd 0 ids = i -> ids <> [] ->
  (forall j tj, In j ids -> j <> i -> nth_error ts j = Some tj -> tend (opp d) tj = Some v ->
     exists tj', nth_error ts' j = Some tj' /\ t_l tj' = t_l tj /\ t_r tj' = t_r tj /\ tend (opp d) tj' = Some v) ->
  nth_error ts' i = Some t' -> (forall t, nth_error ts i = Some t -> t_r t' = t_r t) -> t_l t' = L' -> tend (opp d) t' = Some v ->
  lane ts' d v (bnd L' E R) ids.
Proof.
  intros H Hn Hl Hne Ho Ht' A1 A2 A3. destruct ids as [|i' ids]; [easy|]. cbn in Hl. subst i'. inversion Hn; subst.
  unfold bnd in *. apply lane_inv in H. destruct H as (b & b' & bs & Eb & (t & T1 & T2 & T3 & T4) & H). injection Eb as <- Eb. rewrite Eb.
  rewrite lane_cons. split.
  - exists t'. rewrite (A1 t T1). auto.
  - revert H. apply lane_ext. intros j tj Hj. apply Ho; [now right|]. intros ->. auto.
Qed.

Lemma app_cons_len {A} (l1 l2 m1 m2 : list A) (x y : A) : length l1 = length m1 -> l1 ++ x :: l2 = m1 ++ y :: m2 -> l1 = m1 /\ x = y /\ l2 = m2.
Proof.
  revert m1. induction l1 as [|a l1 IH]; intros [|b m1] Hl E; cbn in *; try discriminate; [injection E as -> ->; auto|].
  injection E as -> E. injection Hl as Hl. destruct (IH m1 Hl E) as (-> & -> & ->). auto.
Qed.

(** Induction on heights. *)
Lemma ht_ind M (W : list point) (P : point -> Prop) :
  (forall p, In p W -> (forall q, In q W -> (ht M q < ht M p)%Q -> P q) -> P p) -> forall p, In p W -> P p.
Proof.
  intros H. set (below := fun p => filter (fun q => if Qlt_le_dec (ht M q) (ht M p) then true else false) W).
  assert (Hb : forall p q, In q (below p) <-> In q W /\ (ht M q < ht M p)%Q).
  { intros p q. unfold below. rewrite filter_In. destruct (Qlt_le_dec (ht M q) (ht M p)); split; intros (? & ?); split; auto; try discriminate; lra. }
  assert (Hlt : forall p q, In q W -> (ht M q < ht M p)%Q -> length (below q) < length (below p)).
  { intros p q Hq Hlt. unfold below. clear H Hb. revert Hq. induction W as [|a W' IH]; intros Hq; [easy|].
    assert (Hle : forall l : list point, length (filter (fun r => if Qlt_le_dec (ht M r) (ht M q) then true else false) l) <=
                       length (filter (fun r => if Qlt_le_dec (ht M r) (ht M p) then true else false) l)).
    { induction l as [|x l IHl]; cbn; auto. destruct (Qlt_le_dec (ht M x) (ht M q)), (Qlt_le_dec (ht M x) (ht M p)); cbn; try lia. exfalso. lra. }
    cbn. destruct Hq as [->|Hq].
    - destruct (Qlt_le_dec (ht M q) (ht M q)) as [K|K]; [exfalso; lra|]. destruct (Qlt_le_dec (ht M q) (ht M p)) as [K'|K']; [|exfalso; lra].
      cbn. specialize (Hle W'). lia.
    - specialize (IH Hq). destruct (Qlt_le_dec (ht M a) (ht M q)), (Qlt_le_dec (ht M a) (ht M p)); cbn; try lia. exfalso. lra. }
  assert (G : forall m p, length (below p) < m -> In p W -> P p).
  { induction m as [|m IH]; intros p Hm Hp; [lia|]. apply H; auto. intros q Hq Hpq. apply IH; auto. specialize (Hlt p q Hq Hpq). lia. }
  intros p Hp. apply (G (S (length (below p)))); auto.
Qed.

Lemma NoDup_snoc_inv {A} (l : list A) x : NoDup (l ++ [x]) -> NoDup l /\ ~ In x l.
Proof.
  intros H. pose proof (NoDup_remove_1 _ _ _ H) as H1. pose proof (NoDup_remove_2 _ _ _ H) as H2. rewrite app_nil_r in H1, H2. auto.
Qed.
