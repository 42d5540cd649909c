(** One step of the insertion of a segment. *)
From Coq Require Import QArith Lqa List Arith Lia Bool.
From Verif Require Import Base Coord Trap Lanes Plane Geo Region TrapInv Depth AddVertex Recut Cuts LaneOps.
Import ListNotations.
Local Open Scope nat_scope.

Section Step.
Context {I : Type}.
Variables (W : list point) (Es : list edge) (M : Q) (gv : I -> point).
Hypothesis HG : geo W Es.
Hypothesis HM : shear M W.
Notation stt := (state Q I).
Notation ht := (ht M).
Notation X := (X M).
Notation within := (within M).
Notation inside := (inside M).
Notation agood := (agood W Es M).
Notation core := (core W Es M gv).
Notation full := (full W Es M gv).
Notation loc := (loc M).

(** The up-lane of [n] when the trapezoids [tl] and [tr] left and right of the new segment end there. *)
Definition m_view (e : edge) (mn ni tl tr : nat) (n : nexus Q I) (ids1 ids2 E1 E2 : list nat) : Prop :=
  (ni = mn /\ iter_trapezoids n Asc = ids1 ++ tl :: ids2 /\ seps n Asc = E1 ++ E2) \/
  (ni <> mn /\ (cx (n_c n) < X e (ht (n_c n)))%Q /\ ids2 = [] /\ E2 = [] /\ iter_trapezoids n Asc = ids1 ++ [tl] /\ seps n Asc = E1) \/
  (ni <> mn /\ (X e (ht (n_c n)) < cx (n_c n))%Q /\ ids1 = [] /\ E1 = [] /\ iter_trapezoids n Asc = tr :: ids2 /\ seps n Asc = E2).

Record at_ok (ts : list trap) (ss : list (seg Q)) (e : edge) (mn si ni tl tr : nat) (n : nexus Q I) : Prop := {
  k_ord : dorder n;
  k_sep : forall d x, In x (seps n d) -> exists s, nth_error ss x = Some s /\ send (opp d) s = ni;
  k_nd : NoDup (iter_trapezoids n Desc);
  k_ex : exists L R ids1 ids2 E1 E2, lane ts Desc ni (bnd L (seps n Desc) R) (iter_trapezoids n Desc) /\
    lane ts Asc ni (bnd L (E1 ++ si :: E2) R) (ids1 ++ tl :: tr :: ids2) /\ NoDup (ids1 ++ tl :: tr :: ids2) /\ length E1 = length ids1 /\
    (forall j t, nth_error ts j = Some t -> t_d t = Some ni -> In j (ids1 ++ tl :: tr :: ids2)) /\
    m_view e mn ni tl tr n ids1 ids2 E1 E2
}.

(** The state while the segment is followed downwards, having reached [ni]. *)
Record mid (dg : nat -> nat) (st : stt) (si : nat) (s : seg Q) (ni tl tr : nat) : Prop := {
  m_core : core st;
  m_s : nth_error (st_ss st) si = Some s;
  m_tl : exists t, nth_error (st_ts st) tl = Some t /\ t_r t = Some si /\ t_d t = Some ni;
  m_tr : exists t, nth_error (st_ts st) tr = Some t /\ t_l t = Some si /\ t_d t = Some ni;
  m_n : exists n, nth_error (st_ns st) ni = Some n /\ (ni = s_min s \/ within (sedge s) (ht (n_c n))) /\
    at_ok (st_ts st) (st_ss st) (sedge s) (s_min s) si ni tl tr n;
  m_a : exists a t t', agood a /\ through M (sedge s) a /\ nth_error (points st) ni = ad a /\
    nth_error (st_ts st) tl = Some t /\ al a = al (reg st t) /\ nth_error (st_ts st) tr = Some t' /\ ar a = ar (reg st t');
  m_td : forall i t, nth_error (st_ts st) i = Some t ->
    (i <> tr -> touch_l M (al (reg st t)) (ad (reg st t))) /\ (i <> tl -> touch_r M (ar (reg st t)) (ad (reg st t)));
  m_nx : forall v n, v <> ni -> nth_error (st_ns st) v = Some n -> nx_ok (st_ts st) (st_ss st) v n;
  m_c : forall i t d v, nth_error (st_ts st) i = Some t -> tend d t = Some v -> ~ (d = Desc /\ v = ni) ->
    exists n, nth_error (st_ns st) v = Some n /\ In i (iter_trapezoids n (opp d));
  m_f : forall x s' d, nth_error (st_ss st) x = Some s' -> ~ (x = si /\ d = Desc) ->
    exists n, nth_error (st_ns st) (send d s') = Some n /\ In x (seps n (opp d));
  m_dg : forall v n, nth_error (st_ns st) v = Some n -> deg n = dg v
}.

(** Each step downwards makes one more trapezoid have the segment as a side, and adds one query node. *)
Definition has_side (si : nat) (t : trap) : bool := onat_eqb (t_l t) (Some si) || onat_eqb (t_r t) (Some si).
Definition adj (ts : list trap) (si : nat) : nat := length (filter (has_side si) ts).
Definition grow (si : nat) (st st' : stt) : Prop :=
  length (st_ts st') = length (st_ts st) /\ length (st_qs st') + adj (st_ts st) si = length (st_qs st) + adj (st_ts st') si /\
  once (fun t => has_side si t = true) st st'.

Definition b2n (b : bool) : nat := if b then 1 else 0.
Lemma adj_upd ts i t t' si : nth_error ts i = Some t -> adj (upd ts i t') si + b2n (has_side si t) = adj ts si + b2n (has_side si t').
Proof.
  unfold adj. revert i. induction ts as [|x ts IH]; intros [|i] H; cbn in *; try discriminate.
  - injection H as ->. destruct (has_side si t), (has_side si t'); cbn; lia.
  - specialize (IH i H). destruct (has_side si x); cbn; lia.
Qed.
Lemma adj_app ts t si : adj (ts ++ [t]) si = adj ts si + b2n (has_side si t).
Proof. unfold adj. induction ts as [|x ts IH]; cbn; [destruct (has_side si t); reflexivity|destruct (has_side si x); cbn; lia]. Qed.

Lemma adj_none ts si : (forall t, In t ts -> has_side si t = false) -> adj ts si = 0.
Proof. unfold adj. induction ts as [|x ts IH]; intros H; auto. cbn. rewrite H by now left. apply IH. intros t Ht. apply H. now right. Qed.

Lemma side_through st i t si s : core st -> nth_error (st_ts st) i = Some t -> nth_error (st_ss st) si = Some s -> through M (sedge s) (reg st t) -> has_side si t = false.
Proof.
  intros Hc Ht Hs (h & _ & _ & H1 & H2). unfold has_side, onat_eqb. apply orb_false_iff. split.
  - destruct (t_l t) as [x|] eqn:E; auto. apply Nat.eqb_neq. intros ->. destruct (reg_l W Es M gv st i t si Hc Ht E) as (g & Hg & K).
    assert (g = s) by congruence. subst. rewrite K in H1. cbn in H1. lra.
  - destruct (t_r t) as [x|] eqn:E; auto. apply Nat.eqb_neq. intros ->. destruct (reg_r W Es M gv st i t si Hc Ht E) as (g & Hg & K).
    assert (g = s) by congruence. subst. rewrite K in H2. cbn in H2. lra.
Qed.

(** An edge passing through a trapezoid from above, whose lower end is a nexus, passes its lower nexus. *)
Lemma down_spans st i t e u mn : core st -> nth_error (st_ts st) i = Some t -> In e Es -> through M e (reg st t) ->
  au (reg st t) = Some u -> (ht u <= ht (snd e))%Q -> nth_error (points st) mn = Some (fst e) -> (ht (fst e) < ht u)%Q ->
  exists nd n, t_d t = Some nd /\ nth_error (st_ns st) nd = Some n /\ ad (reg st t) = Some (n_c n) /\ spans M e (reg st t) /\
    (nd = mn \/ within e (ht (n_c n))) /\ (ht (n_c n) < ht u)%Q.
Proof.
  intros Hc Ht He Hth Hu Hle Hmn Hlt. pose proof (c_ag _ _ _ _ _ Hc i t Ht) as Hag.
  destruct (ad (reg st t)) as [d|] eqn:Ed.
  2:{ exfalso. apply (c_emp _ _ _ _ _ Hc i t (fst e) Ht). { eapply nth_error_In; eauto. }
      apply (through_end W Es M HG HM Desc e (reg st t)); auto. split; [now rewrite Ed|]. rewrite Hu. exact Hlt. }
  destruct (reg_end_inv W Es M gv st i t Desc d Hc Ht Ed) as (nd & n & E1 & Hn & <-). exists nd, n. cbn in E1. split; auto. split; auto. split; auto.
  pose proof (a_du _ _ _ _ Hag _ _ Ed Hu) as Hdu.
  destruct (Qlt_le_dec (ht (n_c n)) (ht (fst e))) as [K|K].
  { exfalso. apply (c_emp _ _ _ _ _ Hc i t (fst e) Ht). { eapply nth_error_In; eauto. }
    apply (through_end W Es M HG HM Desc e (reg st t)); auto. split; [rewrite Ed; exact K|]. rewrite Hu. exact Hlt. }
  split. { unfold spans. rewrite Ed, Hu. split; [exact K|exact Hle]. }
  split; [|exact Hdu].
  destruct (g_end _ _ HG e He) as (W1 & W2 & _).
  assert (HnW : In (n_c n) W). { apply (c_W _ _ _ _ _ Hc). eapply nth_error_In. apply points_nth. eauto. }
  destruct (ht_tri W Es M HG HM (fst e) (n_c n) W1 HnW) as [K1|[K1|K1]].
  - right. split; [exact K1|]. change (ht (n_c n) < ht u)%Q in Hdu. change (ht (n_c n) < ht (snd e))%Q. lra.
  - left. apply (points_eq W Es M gv st nd mn (n_c n)); auto. { now apply points_nth. } congruence.
  - exfalso. change (ht (fst e) <= ht (n_c n))%Q in K. lra.
Qed.

(** The new lower nexus after a cut. *)
Lemma next_at st i t s si nd n ts' tl tr ttl ttr : core st -> nth_error (st_ts st) i = Some t -> nth_error (st_ss st) si = Some s ->
  In (sedge s) Es -> nth_error (points st) (s_min s) = Some (s_cmin s) ->
  through M (sedge s) (reg st t) -> t_d t = Some nd -> nth_error (st_ns st) nd = Some n -> (nd = s_min s \/ within (sedge s) (ht (n_c n))) ->
  nx_ok (st_ts st) (st_ss st) nd n -> In i (iter_trapezoids n Asc) ->
  (forall j tj, nth_error (st_ts st) j = Some tj -> t_d tj = Some nd -> In j (iter_trapezoids n Asc)) ->
  (forall j tj, nth_error ts' j = Some tj -> t_d tj = Some nd -> j = tl \/ j = tr \/ (j <> i /\ exists tj', nth_error (st_ts st) j = Some tj' /\ t_d tj' = Some nd)) ->
  nth_error ts' tl = Some ttl -> t_l ttl = t_l t -> t_r ttl = Some si -> t_d ttl = Some nd ->
  nth_error ts' tr = Some ttr -> t_l ttr = Some si -> t_r ttr = t_r t -> t_d ttr = Some nd ->
  (forall j tj, j <> i -> nth_error (st_ts st) j = Some tj -> t_d tj = Some nd \/ t_u tj = Some nd ->
     exists tj', nth_error ts' j = Some tj' /\ t_l tj' = t_l tj /\ t_r tj' = t_r tj /\
       (t_d tj = Some nd -> t_d tj' = Some nd) /\ (t_u tj = Some nd -> t_u tj' = Some nd)) ->
  (i = tl /\ ~ In tr (iter_trapezoids n Asc)) \/ (i = tr /\ ~ In tl (iter_trapezoids n Asc)) ->
  exists n', n_c n' = n_c n /\ n_v n' = n_v n /\ (forall d, seps n' d = seps n d) /\ iter_trapezoids n' Desc = iter_trapezoids n Desc /\
    at_ok ts' (st_ss st) (sedge s) (s_min s) si nd tl tr n' /\
    (i = tl -> (if negb (Nat.eqb nd (s_min s)) && negb (is_on_left s (n_c n)) then modify (st_ns st) nd (replace_trapezoid i tr) else Ok (st_ns st)) = Ok (upd (st_ns st) nd n')) /\
    (i = tr -> (if Nat.eqb nd (s_min s) || is_on_left s (n_c n) then modify (st_ns st) nd (replace_trapezoid i tl) else Ok (st_ns st)) = Ok (upd (st_ns st) nd n')).
Proof.
  intros Hc Ht Hs He Hmin Hth Ed Hn Hw Hx Hi Hall Hall' Htl A1 A2 A3 Htr B1 B2 B3 Ho Hcase. set (e := sedge s) in *.
  destruct Hx as [X1 X2 X3 (L & R & XL)].
  destruct (lane_pos _ _ _ _ _ _ _ _ (XL Asc) Hi) as (ids1 & ids2 & E1 & E2 & t0 & Ei & Ee & Hlen & Ht0 & Tl & Tr & _).
  assert (t0 = t) by congruence. subst t0. clear Ht0.
  pose proof (c_ag _ _ _ _ _ Hc i t Ht) as Hag.
  destruct (reg_end W Es M gv st i t Desc nd Hc Ht Ed) as (n0 & Hn0 & Ad). assert (n0 = n) by congruence. subst n0. clear Hn0. cbn [aend] in Ad.
  assert (HnW : In (n_c n) W). { apply (c_W _ _ _ _ _ Hc). eapply nth_error_In. apply points_nth. eauto. }
  assert (Hnd : ~ In i (iter_trapezoids n Desc)).
  { intros K. destruct (lane_in _ _ _ _ _ _ (XL Desc) K) as (t1 & T1 & T2). assert (t1 = t) by congruence. subst. cbn in T2. eapply (du_ne W Es M gv st i t nd); eauto. }
  pose proof (X3 Asc) as HND. rewrite Ei in HND.
  assert (HiD : ~ In i ids1 /\ ~ In i ids2). { apply NoDup_remove_2 in HND. split; intros K; apply HND; apply in_or_app; auto. }
  assert (HldD : lane ts' Desc nd (bnd L (seps n Desc) R) (iter_trapezoids n Desc)).
  { generalize (XL Desc). apply lane_ext. intros j tj Hj Hj1 Hj2. cbn in Hj2. destruct (Ho j tj) as (tj' & K1 & K2 & K3 & _ & K4); auto.
    { intros ->. contradiction. } exists tj'. cbn. auto. }
  assert (HldA : lane ts' Asc nd (bnd L (E1 ++ si :: E2) R) (ids1 ++ tl :: tr :: ids2)).
  { apply (lane_insert (st_ts st) ts' Asc nd L E1 E2 R ids1 ids2 i t si tl tr ttl ttr); auto.
    - rewrite <- Ei, <- Ee. apply XL.
    - intros j tj Hj Hj1 Hj2. cbn in Hj2. destruct (Ho j tj) as (tj' & K1 & K2 & K3 & K4 & _); auto. { intros ->. tauto. } exists tj'. cbn. auto. }
  assert (HNA : NoDup (ids1 ++ tl :: tr :: ids2)).
  { rewrite Ei in Hcase. destruct Hcase as [(<- & K)|(<- & K)].
    - change (ids1 ++ i :: tr :: ids2) with (ids1 ++ [i] ++ tr :: ids2). rewrite app_assoc. apply NoDup_insert; rewrite <- app_assoc; auto.
    - apply NoDup_insert; auto. }
  assert (HA : forall j tj, nth_error ts' j = Some tj -> t_d tj = Some nd -> In j (ids1 ++ tl :: tr :: ids2)).
  { intros j tj Hj Hd. destruct (Hall' j tj Hj Hd) as [->|[->|(Hne & tj' & K1 & K2)]].
    - apply in_or_app. right. now left.
    - apply in_or_app. right. right. now left.
    - apply Hall in K1; auto. rewrite Ei in K1. apply in_app_or in K1. apply in_or_app. destruct K1 as [K1|[K1|K1]]; auto. { congruence. } right. right. now right. }
  (* which of the two is kept in the chain of the nexus *)
  assert (Hside : (nd = s_min s) \/ (nd <> s_min s /\ is_on_left s (n_c n) = true /\ (cx (n_c n) < X e (ht (n_c n)))%Q /\ ids2 = [] /\ E2 = []) \/
                  (nd <> s_min s /\ is_on_left s (n_c n) = false /\ (X e (ht (n_c n)) < cx (n_c n))%Q /\ ids1 = [] /\ E1 = [])).
  { destruct (Nat.eq_dec nd (s_min s)) as [?|Hne]; [now left|right]. destruct Hw as [Hw|Hw]; [contradiction|].
    assert (Hlen2 : length ids2 = length E2).
    { pose proof (seps_iter n Asc) as K. rewrite Ei, Ee, !app_length in K. cbn in K. lia. }
    destruct (use_left_x W Es M HG HM e (n_c n) He HnW Hw) as [(U & K)|(U & K)].
    - left. split; auto. split; auto. split; auto. assert (E2 = []) as ->.
      { destruct E2 as [|f E2']; auto. exfalso. cbn in Tr. destruct (reg_r W Es M gv st i t f Hc Ht Tr) as (g & Hg & Ag).
        apply (leave_right W Es M HG HM Desc e (reg st t) (n_c n) (sedge g)); auto.
        destruct (X2 Asc f) as (g' & G1 & G2). { rewrite Ee. apply in_or_app. right. now left. } assert (g' = g) by congruence. subst g'. cbn in G2 |- *.
        destruct (c_ss _ _ _ _ _ Hc f g Hg) as (S1 & _). rewrite G2, (points_nth _ _ _ Hn) in S1. congruence. }
      destruct ids2; [auto|discriminate].
    - right. split; auto. split; auto. split; auto. assert (E1 = []) as ->.
      { destruct E1 as [|f0 F]; auto. exfalso. destruct (@exists_last _ (f0 :: F)) as (F' & f & EF); [discriminate|]. rewrite EF in Ee, Tl.
        rewrite map_app in Tl. cbn [map] in Tl. rewrite last_last in Tl. destruct (reg_l W Es M gv st i t f Hc Ht Tl) as (g & Hg & Ag).
        apply (leave_left W Es M HG HM Desc e (reg st t) (n_c n) (sedge g)); auto.
        destruct (X2 Asc f) as (g' & G1 & G2). { rewrite Ee. apply in_or_app. left. apply in_or_app. right. now left. } assert (g' = g) by congruence. subst g'. cbn in G2 |- *.
        destruct (c_ss _ _ _ _ _ Hc f g Hg) as (S1 & _). rewrite G2, (points_nth _ _ _ Hn) in S1. congruence. }
      destruct ids1; [auto|discriminate]. }
  assert (Hrep : forall new, exists n', modify (st_ns st) nd (replace_trapezoid i new) = Ok (upd (st_ns st) nd n') /\ n_c n' = n_c n /\ n_v n' = n_v n /\
    (forall d, seps n' d = seps n d) /\ iter_trapezoids n' Desc = iter_trapezoids n Desc /\ iter_trapezoids n' Asc = ids1 ++ new :: ids2 /\ dorder n').
  { intros new. destruct (replace_ok n i new Asc Hi Hnd) as (n' & R1 & R2 & R3 & R4 & R5 & R6 & R7). exists n'. unfold modify. rewrite Hn, R1.
    split; auto. split; auto. split; auto. split; auto. split; auto. split; [|auto]. rewrite R6, Ei. apply replf_at. tauto. }
  assert (Hbuild : forall n', n_c n' = n_c n -> (forall d, seps n' d = seps n d) -> iter_trapezoids n' Desc = iter_trapezoids n Desc -> dorder n' ->
    m_view e (s_min s) nd tl tr n' ids1 ids2 E1 E2 -> at_ok ts' (st_ss st) e (s_min s) si nd tl tr n').
  { intros n' N1 N2 N3 N4 N5. split; auto.
    - intros d x Hx. rewrite N2 in Hx. now apply X2.
    - rewrite N3. apply X3.
    - exists L, R, ids1, ids2, E1, E2. rewrite N2, N3. auto 6. }
  unfold m_view in Hbuild.
  assert (Hkeep : exists n', Ok (st_ns st) = (Ok (upd (st_ns st) nd n') : res ierr _) /\ n_c n' = n_c n /\ n_v n' = n_v n /\
    (forall d, seps n' d = seps n d) /\ iter_trapezoids n' Desc = iter_trapezoids n Desc /\ iter_trapezoids n' Asc = ids1 ++ i :: ids2 /\ dorder n').
  { exists n. rewrite upd_same by auto. auto 8. }
  assert (Htlr : tl <> tr). { intros E. apply NoDup_remove_2 in HNA. apply HNA. rewrite E. apply in_or_app. right. now left. }
  destruct Hside as [Hm|[(Hm & U & K & F1 & F2)|(Hm & U & K & F1 & F2)]].
  - (* the lower end *)
    destruct Hcase as [(-> & _)|(-> & _)].
    + destruct Hkeep as (n' & R1 & R2 & R3 & R4 & R5 & R6 & R7). exists n'. split; auto. split; auto. split; auto. split; auto. split.
      { apply Hbuild; auto. left. split; auto. split; auto. now rewrite R4. }
      split; [intros _|congruence]. rewrite (proj2 (Nat.eqb_eq _ _) Hm). exact R1.
    + destruct (Hrep tl) as (n' & R1 & R2 & R3 & R4 & R5 & R6 & R7). exists n'. split; auto. split; auto. split; auto. split; auto. split.
      { apply Hbuild; auto. left. split; auto. split; auto. now rewrite R4. }
      split; [congruence|intros _]. rewrite (proj2 (Nat.eqb_eq _ _) Hm). exact R1.
  - subst ids2 E2. rewrite (proj2 (Nat.eqb_neq _ _) Hm), U. cbn [negb andb orb].
    destruct Hcase as [(-> & _)|(-> & _)].
    + destruct Hkeep as (n' & R1 & R2 & R3 & R4 & R5 & R6 & R7). exists n'. split; auto. split; auto. split; auto. split; auto. split.
      { apply Hbuild; auto. right; left. rewrite R2, R4, Ee, app_nil_r. auto 6. }
      split; [intros _|congruence]. exact R1.
    + destruct (Hrep tl) as (n' & R1 & R2 & R3 & R4 & R5 & R6 & R7). exists n'. split; auto. split; auto. split; auto. split; auto. split.
      { apply Hbuild; auto. right; left. rewrite R2, R4, Ee, app_nil_r. auto 6. }
      split; [congruence|intros _]. exact R1.
  - subst ids1 E1. rewrite (proj2 (Nat.eqb_neq _ _) Hm), U. cbn [negb andb orb].
    destruct Hcase as [(-> & _)|(-> & _)].
    + destruct (Hrep tr) as (n' & R1 & R2 & R3 & R4 & R5 & R6 & R7). exists n'. split; auto. split; auto. split; auto. split; auto. split.
      { apply Hbuild; auto. right; right. rewrite R2, R4, Ee. auto 6. }
      split; [intros _|congruence]. exact R1.
    + destruct Hkeep as (n' & R1 & R2 & R3 & R4 & R5 & R6 & R7). exists n'. split; auto. split; auto. split; auto. split; auto. split.
      { apply Hbuild; auto. right; right. rewrite R2, R4, Ee. auto 6. }
      split; [congruence|intros _]. exact R1.
Qed.

Variable ieqb : I -> I -> bool.
Hypothesis Hieq : forall a b, ieqb a b = true <-> a = b.

Lemma ieqb_nx st v w n m : core st -> nth_error (st_ns st) v = Some n -> nth_error (st_ns st) w = Some m -> v <> w -> ieqb (n_v n) (n_v m) = false.
Proof.
  intros Hc Hn Hm Hne. destruct (ieqb (n_v n) (n_v m)) eqn:E; auto. exfalso. apply Hieq in E. apply Hne.
  apply (points_eq W Es M gv st v w (n_c n)); auto; [now apply points_nth|]. rewrite (points_nth _ _ _ Hm). f_equal.
  rewrite <- (c_v _ _ _ _ _ Hc n), <- (c_v _ _ _ _ _ Hc m), E by (eapply nth_error_In; eauto). reflexivity.
Qed.

Lemma get_down_mid ns ss s n nmin nmax : nth_error ns (s_min s) = Some nmin -> nth_error ns (s_max s) = Some nmax ->
  ieqb (n_v nmin) (n_v n) = false -> ieqb (n_v nmax) (n_v n) = false ->
  get_down_trapezoid ieqb ns ss s n = Ok (if is_on_left s (n_c n) then last (iter_trapezoids n Desc) 0 else hd 0 (iter_trapezoids n Desc)).
Proof.
  intros H1 H2 H3 H4. unfold get_down_trapezoid, iter_trapezoids, rd. cbn [first_trapezoid]. rewrite H1, H2. cbn [bind].
  destruct (filter_dividers n Desc) as [|a|a b]; cbn [bind]; [now destruct (is_on_left s (n_c n))| |]; rewrite H3, H4; reflexivity.
Qed.

Lemma iter_ne (n : nexus Q I) d : iter_trapezoids n d <> [].
Proof. discriminate. Qed.

Lemma in_last {A} (l : list A) d : l <> [] -> In (last l d) l.
Proof. intros H. destruct (exists_last H) as (l' & x & ->). rewrite last_last. apply in_or_app. right. now left. Qed.

Lemma last_lane ts d v L E R ids : lane ts d v (bnd L E R) ids -> ids <> [] -> NoDup ids ->
  exists t, nth_error ts (last ids 0) = Some t /\ t_r t = R /\ tend (opp d) t = Some v.
Proof.
  intros H Hne Hnd. destruct (lane_pos _ _ _ _ _ _ _ _ H (in_last ids 0 Hne)) as (i1 & i2 & E1 & E2 & t & Ei & Ee & Hl & Ht & Tl & Tr & Te).
  exists t. split; auto. split; auto. assert (i2 = []).
  { destruct i2 as [|x i2]; auto. exfalso. pose proof Hnd as K. rewrite Ei in K. apply NoDup_remove_2 in K. apply K. apply in_or_app. right.
    destruct (@exists_last _ (x :: i2)) as (l & y & Ey); [discriminate|]. rewrite Ey in *. apply (f_equal (fun q => last q 0)) in Ei.
    rewrite app_comm_cons, app_assoc, last_last in Ei. rewrite Ei. apply in_or_app. right. now left. }
  subst i2. pose proof (lane_len _ _ _ _ _ H) as K. rewrite Ei, Ee in K. unfold bnd in K. cbn in K. rewrite !app_length, map_length, !app_length in K. cbn in K.
  destruct E2; [exact Tr|]. cbn in K. lia.
Qed.

Lemma first_lane ts d v L E R ids : lane ts d v (bnd L E R) ids -> ids <> [] ->
  exists t, nth_error ts (hd 0 ids) = Some t /\ t_l t = L /\ t_r t = hd R (map Some E) /\ tend (opp d) t = Some v.
Proof.
  intros H Hne. destruct ids as [|i ids]; [easy|]. apply lane_inv in H. unfold bnd in H. destruct H as (b & b' & bs & Eb & (t & T1 & T2 & T3 & T4) & _).
  injection Eb as <- Eb. exists t. cbn [hd]. split; auto. split; auto. split; auto. destruct E; cbn in Eb |- *; congruence.
Qed.

Lemma same_upd (ns : list (nexus Q I)) v n n' : nth_error ns v = Some n -> n_c n' = n_c n -> n_v n' = n_v n -> same_ns ns (upd ns v n').
Proof.
  intros Hn Hc Hv. split; apply list_ext; intros i; rewrite !nth_error_map, nth_upd; destruct (Nat.eqb_spec v i) as [->|]; auto; rewrite Hn; cbn; congruence.
Qed.

Lemma sn_nth (ns ns' : list (nexus Q I)) v n : same_ns ns ns' -> nth_error ns v = Some n -> exists n', nth_error ns' v = Some n' /\ n_c n' = n_c n /\ n_v n' = n_v n.
Proof.
  intros (H1 & H2) Hn. assert (K1 : nth_error (map n_c ns') v = Some (n_c n)) by (rewrite H1, nth_error_map, Hn; reflexivity).
  assert (K2 : nth_error (map n_v ns') v = Some (n_v n)) by (rewrite H2, nth_error_map, Hn; reflexivity).
  rewrite nth_error_map in K1, K2. destruct (nth_error ns' v) as [n'|]; [|discriminate]. exists n'. cbn in *. split; auto. split; congruence.
Qed.

(** The nexus is left of the segment. *)
Lemma step_left dg st si s ni tl tr n : mid dg st si s ni tl tr -> nth_error (st_ns st) ni = Some n -> ni <> s_min s ->
  (cx (n_c n) < X (sedge s) (ht (n_c n)))%Q ->
  exists st' ni' tl' n1, mid dg st' si s ni' tl' tr /\ st_ss st' = st_ss st /\ same_ns (st_ns st) (st_ns st') /\
    (forall p q, In p W -> ~ In p (points st') -> loc st p q -> loc st' p q) /\
    nth_error (st_ns st') ni' = Some n1 /\ (ht (n_c n1) < ht (n_c n))%Q /\ grow si st st' /\
    forall k, seg_loop ieqb (S k) st si (s_min s) (s_cmin s) (s_cmax s) ni tl tr = seg_loop ieqb k st' si (s_min s) (s_cmin s) (s_cmax s) ni' tl' tr.
Proof.
  intros Hm Hn Hmin Hleft. pose proof (m_core _ _ _ _ _ _ _ Hm) as Hc. pose proof (m_s _ _ _ _ _ _ _ Hm) as Hs. set (e := sedge s) in *.
  destruct (m_n _ _ _ _ _ _ _ Hm) as (n0 & Hn0 & Hw & Hat). assert (n0 = n) by congruence. subst n0. clear Hn0. destruct Hw as [Hw|Hw]; [contradiction|]. fold e in Hw, Hat.
  destruct (c_ss _ _ _ _ _ Hc si s Hs) as (Pmin & Pmax & He). fold e in He.
  destruct (points_inv _ _ _ Pmin) as (nmin & Hnmin & Emin). destruct (points_inv _ _ _ Pmax) as (nmax & Hnmax & Emax).
  assert (HnW : In (n_c n) W). { apply (c_W _ _ _ _ _ Hc). eapply nth_error_In. apply points_nth. eauto. }
  assert (Hmax : s_max s <> ni). { intros E. rewrite E in Hnmax. assert (nmax = n) by congruence. subst nmax. destruct Hw as (_ & Hw). rewrite Emax in Hw. cbn in Hw. lra. }
  destruct Hat as [K1 K2 K3 (L & R & ids1 & ids2 & E1 & E2 & LD & LA & HND & Hlen & Hall & Hview)].
  destruct Hview as [(V & _)|[(_ & _ & V1 & V2 & V3 & V4)|(_ & V & _)]]; [contradiction| |exfalso; lra]. subst ids2 E2.
  (* the trapezoid below *)
  set (i := last (iter_trapezoids n Desc) 0).
  assert (Hgd : get_down_trapezoid ieqb (st_ns st) (st_ss st) s n = Ok i).
  { rewrite (get_down_mid (st_ns st) (st_ss st) s n nmin nmax); auto.
    - destruct (use_left_x W Es M HG HM e (n_c n) He HnW Hw) as [(U & _)|(U & K)]; [|lra]. cbn in U. unfold is_on_left. cbn in U. now rewrite U.
    - eapply (ieqb_nx st (s_min s) ni); eauto.
    - eapply (ieqb_nx st (s_max s) ni); eauto. }
  destruct (last_lane _ _ _ _ _ _ _ LD (iter_ne n Desc) K3) as (t & Ht & Tr & Tu). cbn [opp tend] in Tu. fold i in Ht.
  destruct (m_tl _ _ _ _ _ _ _ Hm) as (ttl & Httl & TLr & TLd). destruct (m_tr _ _ _ _ _ _ _ Hm) as (ttr & Httr & TRl & TRd).
  assert (TRr : t_r ttr = R).
  { replace (ids1 ++ [tl; tr]) with ((ids1 ++ [tl]) ++ [tr]) in LA, HND by (rewrite <- app_assoc; reflexivity).
    destruct (last_lane _ _ _ _ _ _ _ LA) as (t0 & T1 & T2 & _); auto. { destruct ids1; discriminate. } rewrite last_last in T1. congruence. }
  assert (Hitl : i <> tl). { intros E. pose proof Httl as Z. rewrite <- E, Ht in Z. injection Z as Z. apply (du_ne W Es M gv st i t ni Hc Ht); congruence. }
  assert (Hitr : i <> tr). { intros E. pose proof Httr as Z. rewrite <- E, Ht in Z. injection Z as Z. apply (du_ne W Es M gv st i t ni Hc Ht); congruence. }
  assert (HNDl : NoDup (ids1 ++ [tl]) /\ ~ In tr (ids1 ++ [tl])). { apply NoDup_snoc_inv. now rewrite <- app_assoc. } destruct HNDl as (HNDl & Hntl).
  destruct (m_a _ _ _ _ _ _ _ Hm) as (a & ta & tb & Ha & Hath & Had & Hta & Eal & Htb & Ear). assert (tb = ttr) by congruence. subst tb. clear Htb ta Hta Eal.
  fold e in Hath. rewrite (points_nth _ _ _ Hn) in Had. symmetry in Had.
  destruct (reg_end W Es M gv st i t Asc ni Hc Ht Tu) as (n0 & Hn0 & Au). assert (n0 = n) by congruence. subst n0. clear Hn0. cbn [aend] in Au.
  assert (Hth : through M e (reg st t)).
  { apply (enter_right W Es M HG HM Desc e a (reg st t) (n_c n)); auto.
    - now apply (c_ag _ _ _ _ _ Hc i).
    - rewrite Ear. unfold reg, rg. cbn. now rewrite Tr, TRr.
    - pose proof (proj1 (c_tu _ _ _ _ _ Hc i t Ht)) as Z. rewrite Au in Z. exact Z. }
  destruct (down_spans st i t e (n_c n) (s_min s) Hc Ht He Hth Au) as (nd & n1 & Ed & Hn1 & Ad & Hsp & Hw1 & Hlt1); auto.
  { destruct Hw. apply Qlt_le_weak. auto. } { now destruct Hw. }
  assert (Hnd : nd <> ni). { intros ->. assert (n1 = n) by congruence. subst. lra. }
  pose proof (m_nx _ _ _ _ _ _ _ Hm nd n1 Hnd Hn1) as Hx1.
  destruct (m_c _ _ _ _ _ _ _ Hm i t Desc nd Ht Ed) as (n1' & Hn1' & Hi1); [tauto|]. assert (n1' = n1) by congruence. subst n1'. clear Hn1'. cbn [opp] in Hi1.
  set (ql := length (st_qs st)).
  set (ti' := mkTrap (t_l t) (Some si) (t_d t) (t_u t) ql). set (tr' := mkTrap (t_l ttr) (t_r ttr) (Some nd) (t_u ttr) (t_k ttr)).
  set (ts' := upd (upd (st_ts st) i ti') tr tr').
  pose proof (nth_lt _ _ _ _ Ht) as Hil. pose proof (nth_lt _ _ _ _ Httr) as Hrl.
  assert (Hti : nth_error ts' i = Some ti'). { unfold ts'. rewrite nth_upd_ne by congruence. now apply nth_upd_eq. }
  assert (Htr : nth_error ts' tr = Some tr'). { unfold ts'. apply nth_upd_eq. now rewrite upd_length. }
  assert (Hto : forall j tj, j <> i -> j <> tr -> nth_error (st_ts st) j = Some tj -> nth_error ts' j = Some tj).
  { intros j tj Hne Hne' Hj. unfold ts'. now rewrite !nth_upd_ne by auto. }
  assert (Htc : forall j tj, nth_error ts' j = Some tj -> (j = i /\ tj = ti') \/ (j = tr /\ tj = tr') \/ (j <> i /\ j <> tr /\ nth_error (st_ts st) j = Some tj)).
  { intros j tj Hj. unfold ts' in Hj. apply nth_upd_cases in Hj. destruct Hj as [(? & ? & _)|(Hj1 & Hj)]; auto.
    apply nth_upd_cases in Hj. destruct Hj as [(? & ? & _)|(? & ?)]; auto. }
  assert (Hnt : ~ In tr (iter_trapezoids n1 Asc)).
  { intros K. destruct Hx1 as [_ _ _ (L1 & R1 & XL1)]. destruct (lane_in _ _ _ _ _ _ (XL1 Asc) K) as (t0 & T1 & T2). assert (t0 = ttr) by congruence. subst. cbn in T2. congruence. }
  destruct (next_at st i t s si nd n1 ts' i tr ti' tr') as (n1' & N1 & N2 & N3 & N4 & N5 & N6 & _); auto.
  { intros j tj Hj Hd. destruct (m_c _ _ _ _ _ _ _ Hm j tj Desc nd Hj Hd) as (n2 & Hn2 & K); [tauto|]. assert (n2 = n1) by congruence. subst. exact K. }
  { intros j tj Hj Hd. destruct (Htc j tj Hj) as [(-> & _)|[(-> & _)|(? & ? & ?)]]; auto. right; right. split; auto. eauto. }
  { cbn. congruence. }
  { intros j tj Hne Hj Hd. destruct (Nat.eq_dec j tr) as [->|Hne'].
    - assert (tj = ttr) by congruence. subst. exists tr'. split; auto.
    - exists tj. auto. }
  specialize (N6 eq_refl).
  set (ns' := upd (st_ns st) nd n1') in *.
  assert (Hsn : same_ns (st_ns st) ns') by (eapply same_upd; eauto).
  destruct (core_merge_right W Es M gv HG HM st ns' si s i t tr ttr ni n nd) as (Hc' & Hkeep); auto. { congruence. }
  fold ql in Hc', Hkeep. fold ti' tr' in Hc', Hkeep. fold ts' in Hc', Hkeep.
  set (st' := mkState ns' (st_ss st) ts' (upd (st_qs st) (t_k t) (QBranch ql (t_k ttr) (QX (s_cmin s) (s_cmax s))) ++ [QSink i])) in *.
  assert (Hpt : points st' = points st) by now apply same_ns_c.
  assert (Hrg : forall x, reg st' x = reg st x) by (intros x; unfold reg; rewrite Hpt; reflexivity).
  assert (Hnn : nth_error ns' nd = Some n1'). { apply nth_upd_eq. eapply nth_lt; eauto. }
  assert (Hno : forall v m, v <> nd -> nth_error ns' v = Some m -> nth_error (st_ns st) v = Some m). { intros v m Hv K. unfold ns' in K. now rewrite nth_upd_ne in K by auto. }
  assert (Hno' : forall v m, nth_error (st_ns st) v = Some m -> exists m', nth_error ns' v = Some m' /\ (forall d, seps m' d = seps m d) /\ iter_trapezoids m' Desc = iter_trapezoids m Desc /\
    (v <> nd -> m' = m)).
  { intros v m K. destruct (Nat.eq_dec v nd) as [->|Hv].
    - assert (m = n1) by congruence. subst. exists n1'. split; auto. split; auto. split; auto. congruence.
    - exists m. split; [|auto]. unfold ns'. rewrite nth_upd_ne by auto. auto. }
  exists st', nd, i, n1'. split.
  { split; auto.
    - exists ti'. auto.
    - exists tr'. auto.
    - exists n1'. split; [auto|]. split; [now rewrite N1|auto].
    - exists (reg st t), ti', tr'. split; [now apply (c_ag _ _ _ _ _ Hc i)|]. split; [auto|]. split; [rewrite Hpt, Ad; now apply points_nth|]. split; [auto|]. split; [reflexivity|].
      split; [auto|]. rewrite Hrg. unfold reg, rg. cbn. congruence.
    - intros j tj Hj. rewrite Hrg. destruct (Htc j tj Hj) as [(-> & ->)|[(-> & ->)|(J1 & J2 & Hj')]].
      + destruct (m_td _ _ _ _ _ _ _ Hm i t Ht) as (D1 & _). split; [|congruence]. intros _. exact (D1 Hitr).
      + destruct (m_td _ _ _ _ _ _ _ Hm i t Ht) as (_ & D1). split; [congruence|]. intros _. specialize (D1 Hitl).
        unfold reg, rg in D1 |- *. cbn in D1 |- *. rewrite TRr, <- Tr. rewrite Ed in D1. exact D1.
      + destruct (m_td _ _ _ _ _ _ _ Hm j tj Hj') as (D1 & D2). split; auto. intros _. destruct (Nat.eq_dec j tl) as [->|J3]; [|auto].
        assert (tj = ttl) by congruence. subst. destruct (reg_r W Es M gv st tl ttl si Hc Httl TLr) as (g & Hg & ->). assert (g = s) by congruence. subst g.
        destruct (reg_end W Es M gv st tl ttl Desc ni Hc Httl TLd) as (n0 & Hn0 & Ed0). assert (n0 = n) by congruence. subst n0. cbn [aend] in Ed0. rewrite Ed0. cbn.
        change (cx (n_c n) <= X e (ht (n_c n)))%Q. lra.
    - intros v m Hv Hm'. apply Hno in Hm'; auto. destruct (Nat.eq_dec v ni) as [->|Hv'].
      + assert (m = n) by congruence. subst m. split; auto. { intros []; auto. now rewrite V3. }
        exists L, (Some si). intros []; cbn [st_ts st'].
        * rewrite V3, V4. replace (ids1 ++ [tl; tr]) with ((ids1 ++ [tl]) ++ [tr]) in LA by (rewrite <- app_assoc; reflexivity).
          rewrite bnd_app in LA. apply lane_app in LA; [|cbn; rewrite map_length, app_length; cbn; lia]. destruct LA as (LA & _). change ((L :: map Some E1) ++ [Some si]) with (bnd L E1 (Some si)) in LA.
          revert LA. apply lane_ext. intros j tj Hj Hj1 Hj2. cbn in Hj2. exists tj. split; [|auto]. apply Hto; auto.
          -- intros ->. assert (tj = t) by congruence. subst. congruence.
          -- intros ->. contradiction.
        * apply (lane_set_last (st_ts st) ts' Desc ni L (seps n Desc) R (Some si) _ i ti'); auto; try discriminate.
          -- intros j tj Hj Hj0 Hj1 Hj2. cbn in Hj2. destruct (Nat.eq_dec j tr) as [->|J].
             ++ assert (tj = ttr) by congruence. subst. exists tr'. auto.
             ++ exists tj. auto.
          -- intros t0 Ht0. assert (t0 = t) by congruence. subst. reflexivity.
      + pose proof (m_nx _ _ _ _ _ _ _ Hm v m Hv' Hm') as [Y1 Y2 Y3 (L1 & R1 & YL)]. split; auto. exists L1, R1. intros d. generalize (YL d). apply lane_ext.
        intros j tj Hj Hj1 Hj2. destruct (Nat.eq_dec j i) as [->|J1].
        { exfalso. assert (tj = t) by congruence. subst. destruct d; cbn in Hj2; congruence. }
        destruct (Nat.eq_dec j tr) as [->|J2].
        { assert (tj = ttr) by congruence. subst. destruct d; cbn in Hj2; [exfalso; congruence|]. exists tr'. auto. }
        exists tj. auto.
    - intros j tj d v Hj Hd Hnot. cbn [st_ns st' st_ts] in *.
      assert (Hold : nth_error (st_ts st) j = Some tj -> j <> tr -> exists n2, nth_error ns' v = Some n2 /\ In j (iter_trapezoids n2 (opp d))).
      { intros Hj' J. destruct d.
        - destruct (m_c _ _ _ _ _ _ _ Hm j tj Asc v Hj' Hd) as (m & Q1 & Q2); [intros (? & _); discriminate|]. destruct (Hno' v m Q1) as (m' & Q3 & _ & Q4 & _). exists m'. split; auto. cbn [opp] in *. now rewrite Q4.
        - assert (Hv : v <> nd) by tauto. destruct (Nat.eq_dec v ni) as [->|Hv'].
          + exists n. split. { unfold ns'. now rewrite nth_upd_ne by auto. } cbn [opp]. rewrite V3. specialize (Hall j tj Hj' Hd).
            apply in_app_or in Hall. apply in_or_app. destruct Hall as [Q|[Q|[Q|[]]]]; auto. { right. now left. } congruence.
          + destruct (m_c _ _ _ _ _ _ _ Hm j tj Desc v Hj' Hd) as (m & Q1 & Q2); [tauto|]. exists m. split; auto. unfold ns'. now rewrite nth_upd_ne by auto. }
      destruct (Htc j tj Hj) as [(-> & ->)|[(-> & ->)|(J1 & J2 & Hj')]]; [| |now apply Hold].
      + destruct d; cbn in Hd.
        * destruct (m_c _ _ _ _ _ _ _ Hm i t Asc v Ht Hd) as (m & Q1 & Q2); [intros (? & _); discriminate|]. destruct (Hno' v m Q1) as (m' & Q3 & _ & Q4 & _). exists m'. split; auto. cbn [opp] in *. now rewrite Q4.
        * exfalso. apply Hnot. split; auto. congruence.
      + destruct d; cbn in Hd.
        * destruct (m_c _ _ _ _ _ _ _ Hm tr ttr Asc v Httr Hd) as (m & Q1 & Q2); [intros (? & _); discriminate|]. destruct (Hno' v m Q1) as (m' & Q3 & _ & Q4 & _). exists m'. split; auto. cbn [opp] in *. now rewrite Q4.
        * exfalso. apply Hnot. split; auto. congruence.
    - intros x s' d Hx Hnot. destruct (m_f _ _ _ _ _ _ _ Hm x s' d Hx Hnot) as (m & Q1 & Q2). destruct (Hno' _ m Q1) as (m' & Q3 & Q4 & _). exists m'. split; auto. now rewrite Q4.
    - intros v m Hv. cbn [st_ns st'] in Hv. destruct (Nat.eq_dec v nd) as [->|Hv'].
      + assert (m = n1') by congruence. subst. rewrite deg_seps, !N3, <- deg_seps. now apply (m_dg _ _ _ _ _ _ _ Hm).
      + apply (m_dg _ _ _ _ _ _ _ Hm). auto. }
  split; [reflexivity|]. split; [auto|]. split; [auto|]. split; [auto|]. split; [now rewrite N1|]. split.
  { unfold grow. cbn [st_ts st_qs st']. unfold ts'. rewrite !upd_length. split; [reflexivity|]. rewrite app_length, upd_length. cbn [length].
    pose proof (adj_upd (st_ts st) i t ti' si Ht) as Z1. rewrite (side_through st i t si s Hc Ht Hs Hth) in Z1.
    assert (has_side si ti' = true) as Z2 by (unfold has_side, ti', onat_eqb; cbn; now rewrite Nat.eqb_refl, ?orb_true_r).
    rewrite Z2 in Z1. assert (Z3 : nth_error (upd (st_ts st) i ti') tr = Some ttr) by (now rewrite nth_upd_ne by auto).
    pose proof (adj_upd _ _ _ tr' si Z3) as Z4. change (has_side si tr') with (has_side si ttr) in Z4. cbn [b2n] in Z1. split; [lia|].
    assert (Hkl : t_k t < length (st_qs st)) by (eapply nth_lt; apply (c_q1 _ _ _ _ _ Hc i t Ht)).
    assert (Hkk : t_k ttr <> t_k t). { intros Z. pose proof (c_q1 _ _ _ _ _ Hc _ _ Httr) as Y. rewrite Z, (c_q1 _ _ _ _ _ Hc i t Ht) in Y. congruence. }
    assert (Hsd : has_side si tr' = true) by (unfold has_side, onat_eqb; cbn; rewrite ?TRl, ?TLr, Nat.eqb_refl, ?orb_true_r; reflexivity).
    apply (once_cut _ st st' (t_k t) i ql (t_k ttr) (QX (s_cmin s) (s_cmax s)) i tr ti' tr' t); auto.
    - apply (c_q1 _ _ _ _ _ Hc i t Ht).
    - intros j q Hj Hq. cbn [st_qs st']. apply nth_app_l. now rewrite nth_upd_ne by auto.
    - cbn [st_qs st']. apply nth_app_l. now apply nth_upd_eq.
    - cbn [st_qs st']. rewrite nth_error_app2 by (rewrite upd_length; unfold ql; lia). rewrite upd_length. unfold ql. now rewrite Nat.sub_diag.
    - cbn [st_qs st']. apply nth_app_l. rewrite nth_upd_ne by auto. now apply (c_q1 _ _ _ _ _ Hc).
    - rewrite (side_through st i t si s Hc Ht Hs Hth). discriminate.
    - intros j k Hk tj Hj. destruct (c_q2 _ _ _ _ _ Hc k j Hk) as (tj' & Y1 & Y2). congruence.
    - intros j tj Hj Hjt. destruct (Nat.eq_dec j tr) as [->|Hj2]; [exists tr'; auto|]. exists tj. split; auto. }
  intros k. cbn [seg_loop]. rewrite (proj2 (Nat.eqb_neq _ _) Hmin). unfold rdu, rd. rewrite Hn. cbn [bind]. rewrite Hs. cbn [bind]. rewrite Hgd. cbn [bind].
  rewrite Ht. cbn [bind]. rewrite Ed. cbn [ok_or bind]. rewrite Httl. cbn [bind]. rewrite Httr. cbn [bind].
  rewrite Tr, TRr. replace (onat_eqb R R) with true by (destruct R; cbn; auto; now rewrite Nat.eqb_refl).
  rewrite (c_q1 _ _ _ _ _ Hc i t Ht). cbn [bind]. unfold modify at 1. rewrite Ht. cbn [bind]. unfold modify at 1. rewrite nth_upd_ne by auto. rewrite Httr. cbn [bind].
  rewrite Hn1. cbn [bind]. destruct (negb (Nat.eqb nd (s_min s))), (negb (is_on_left s (n_c n1))); cbn [andb] in N6; rewrite N6; reflexivity.
Qed.

(** The nexus is right of the segment. *)
Lemma step_right dg st si s ni tl tr n : mid dg st si s ni tl tr -> nth_error (st_ns st) ni = Some n -> ni <> s_min s ->
  (X (sedge s) (ht (n_c n)) < cx (n_c n))%Q -> 1 <= dg ni ->
  exists st' ni' tr' n1, mid dg st' si s ni' tl tr' /\ st_ss st' = st_ss st /\ same_ns (st_ns st) (st_ns st') /\
    (forall p q, In p W -> ~ In p (points st') -> loc st p q -> loc st' p q) /\
    nth_error (st_ns st') ni' = Some n1 /\ (ht (n_c n1) < ht (n_c n))%Q /\ grow si st st' /\
    forall k, seg_loop ieqb (S k) st si (s_min s) (s_cmin s) (s_cmax s) ni tl tr = seg_loop ieqb k st' si (s_min s) (s_cmin s) (s_cmax s) ni' tl tr'.
Proof.
  intros Hm Hn Hmin Hright Hdeg. pose proof (m_core _ _ _ _ _ _ _ Hm) as Hc. pose proof (m_s _ _ _ _ _ _ _ Hm) as Hs. set (e := sedge s) in *.
  destruct (m_n _ _ _ _ _ _ _ Hm) as (n0 & Hn0 & Hw & Hat). assert (n0 = n) by congruence. subst n0. clear Hn0. destruct Hw as [Hw|Hw]; [contradiction|]. fold e in Hw, Hat.
  destruct (c_ss _ _ _ _ _ Hc si s Hs) as (Pmin & Pmax & He). fold e in He.
  destruct (points_inv _ _ _ Pmin) as (nmin & Hnmin & Emin). destruct (points_inv _ _ _ Pmax) as (nmax & Hnmax & Emax).
  assert (HnW : In (n_c n) W). { apply (c_W _ _ _ _ _ Hc). eapply nth_error_In. apply points_nth. eauto. }
  assert (Hmax : s_max s <> ni). { intros E. rewrite E in Hnmax. assert (nmax = n) by congruence. subst nmax. destruct Hw as (_ & Hw). rewrite Emax in Hw. cbn in Hw. lra. }
  destruct Hat as [K1 K2 K3 (L & R & ids1 & ids2 & E1 & E2 & LD & LA & HND & Hlen & Hall & Hview)].
  destruct Hview as [(V & _)|[(_ & V & _)|(_ & _ & V1 & V2 & V3 & V4)]]; [contradiction|exfalso; lra|]. subst ids1 E1. cbn [app] in *.
  (* the trapezoid below *)
  set (i := hd 0 (iter_trapezoids n Desc)).
  assert (Hgd : get_down_trapezoid ieqb (st_ns st) (st_ss st) s n = Ok i).
  { rewrite (get_down_mid (st_ns st) (st_ss st) s n nmin nmax); auto.
    - destruct (use_left_x W Es M HG HM e (n_c n) He HnW Hw) as [(U & K)|(U & _)]; [lra|]. cbn in U. unfold is_on_left. cbn in U. now rewrite U.
    - eapply (ieqb_nx st (s_min s) ni); eauto.
    - eapply (ieqb_nx st (s_max s) ni); eauto. }
  destruct (first_lane _ _ _ _ _ _ _ LD (iter_ne n Desc)) as (t & Ht & Tl & Tr & Tu). cbn [opp tend] in Tu. fold i in Ht.
  destruct (m_tl _ _ _ _ _ _ _ Hm) as (ttl & Httl & TLr & TLd). destruct (m_tr _ _ _ _ _ _ _ Hm) as (ttr & Httr & TRl & TRd).
  assert (TLl : t_l ttl = L). { destruct (first_lane _ _ _ _ _ _ _ LA) as (t0 & T1 & T2 & _); [discriminate|]. cbn in T1. congruence. }
  assert (TRr : t_r ttr = hd R (map Some E2)).
  { unfold bnd in LA. cbn [map app] in LA. rewrite lane_cons in LA. destruct LA as (_ & LA).
    destruct (first_lane _ _ _ _ _ _ _ LA) as (t0 & T1 & _ & T2 & _); [discriminate|]. cbn [hd] in T1. congruence. }
  assert (Hitl : i <> tl). { intros E. pose proof Httl as Z. rewrite <- E, Ht in Z. injection Z as Z. apply (du_ne W Es M gv st i t ni Hc Ht); congruence. }
  assert (Hitr : i <> tr). { intros E. pose proof Httr as Z. rewrite <- E, Ht in Z. injection Z as Z. apply (du_ne W Es M gv st i t ni Hc Ht); congruence. }
  assert (HNDl : NoDup (tr :: ids2) /\ ~ In tl (tr :: ids2)). { inversion HND; auto. } destruct HNDl as (HNDl & Hntl).
  destruct (m_a _ _ _ _ _ _ _ Hm) as (a & ta & tb & Ha & Hath & Had & Hta & Eal & Htb & Ear). assert (ta = ttl) by congruence. subst ta. clear Htb tb Hta Ear.
  fold e in Hath. rewrite (points_nth _ _ _ Hn) in Had. symmetry in Had.
  destruct (reg_end W Es M gv st i t Asc ni Hc Ht Tu) as (n0 & Hn0 & Au). assert (n0 = n) by congruence. subst n0. clear Hn0. cbn [aend] in Au.
  assert (Hth : through M e (reg st t)).
  { apply (enter_left W Es M HG HM Desc e a (reg st t) (n_c n)); auto.
    - now apply (c_ag _ _ _ _ _ Hc i).
    - rewrite Eal. unfold reg, rg. cbn. now rewrite Tl, TLl.
    - pose proof (proj2 (c_tu _ _ _ _ _ Hc i t Ht)) as Z. rewrite Au in Z. exact Z. }
  destruct (down_spans st i t e (n_c n) (s_min s) Hc Ht He Hth Au) as (nd & n1 & Ed & Hn1 & Ad & Hsp & Hw1 & Hlt1); auto.
  { destruct Hw. apply Qlt_le_weak. auto. } { now destruct Hw. }
  assert (Hnd : nd <> ni). { intros ->. assert (n1 = n) by congruence. subst. lra. }
  pose proof (m_nx _ _ _ _ _ _ _ Hm nd n1 Hnd Hn1) as Hx1.
  destruct (m_c _ _ _ _ _ _ _ Hm i t Desc nd Ht Ed) as (n1' & Hn1' & Hi1); [tauto|]. assert (n1' = n1) by congruence. subst n1'. clear Hn1'. cbn [opp] in Hi1.
  set (ql := length (st_qs st)).
  set (ti' := mkTrap (Some si) (t_r t) (t_d t) (t_u t) ql). set (tl' := mkTrap (t_l ttl) (t_r ttl) (Some nd) (t_u ttl) (t_k ttl)).
  set (ts' := upd (upd (st_ts st) i ti') tl tl').
  assert (Hne : t_r t <> t_r ttr).
  { intros E. rewrite Tr, TRr in E. rewrite <- (m_dg _ _ _ _ _ _ _ Hm ni n Hn), deg_seps, V4 in Hdeg.
    assert (F : exists f g, t_r t = Some f /\ t_r ttr = Some f /\ nth_error (st_ss st) f = Some g /\ (s_min g = ni \/ s_max g = ni)).
    { destruct E2 as [|f E2'].
      - destruct (seps n Desc) as [|f F'] eqn:EF; [cbn in Hdeg; lia|]. destruct (K2 Desc f) as (g & G1 & G2). { rewrite EF. now left. }
        exists f, g. rewrite Tr, TRr. cbn in *. auto.
      - destruct (K2 Asc f) as (g & G1 & G2). { rewrite V4. now left. } exists f, g. rewrite Tr, TRr. rewrite E. cbn in *. auto. }
    destruct F as (f & g & F1 & F2 & F3 & F4). destruct (reg_r W Es M gv st i t f Hc Ht F1) as (g' & G1 & G2). assert (g' = g) by congruence. subst g'.
    destruct (reg_r W Es M gv st tr ttr f Hc Httr F2) as (g' & G3 & G4). assert (g' = g) by congruence. subst g'. clear G1 G3.
    destruct (a_r _ _ _ _ (c_ag _ _ _ _ _ Hc i t Ht) _ G2) as (_ & S1). destruct (a_r _ _ _ _ (c_ag _ _ _ _ _ Hc tr ttr Httr) _ G4) as (_ & S2).
    destruct (reg_end W Es M gv st tr ttr Desc ni Hc Httr TRd) as (n2 & Hn2 & A2). assert (n2 = n) by congruence. subst n2. cbn [aend] in A2.
    unfold spans in S1, S2. rewrite Au, Ad in S1. rewrite A2 in S2. destruct (au (reg st ttr)) as [u2|] eqn:Eu2; [|easy].
    pose proof (a_du _ _ _ _ (c_ag _ _ _ _ _ Hc tr ttr Httr) _ _ A2 Eu2) as S3. destruct (c_ss _ _ _ _ _ Hc f g F3) as (P1 & P2 & _).
    change (ht (s_cmin g) <= ht (n_c n1) /\ ht (n_c n) <= ht (s_cmax g))%Q in S1. change (ht (s_cmin g) <= ht (n_c n) /\ ht u2 <= ht (s_cmax g))%Q in S2.
    change (ht (n_c n) < ht u2)%Q in S3.
    destruct F4 as [F4|F4].
    - rewrite F4, (points_nth _ _ _ Hn) in P1. injection P1 as P1. rewrite <- P1 in S1. lra.
    - rewrite F4, (points_nth _ _ _ Hn) in P2. injection P2 as P2. rewrite <- P2 in S2. lra. }
  pose proof (nth_lt _ _ _ _ Ht) as Hil. pose proof (nth_lt _ _ _ _ Httl) as Hrl.
  assert (Hti : nth_error ts' i = Some ti'). { unfold ts'. rewrite nth_upd_ne by congruence. now apply nth_upd_eq. }
  assert (Htl : nth_error ts' tl = Some tl'). { unfold ts'. apply nth_upd_eq. now rewrite upd_length. }
  assert (Hto : forall j tj, j <> i -> j <> tl -> nth_error (st_ts st) j = Some tj -> nth_error ts' j = Some tj).
  { intros j tj Hn2 Hn3 Hj. unfold ts'. now rewrite !nth_upd_ne by auto. }
  assert (Htc : forall j tj, nth_error ts' j = Some tj -> (j = i /\ tj = ti') \/ (j = tl /\ tj = tl') \/ (j <> i /\ j <> tl /\ nth_error (st_ts st) j = Some tj)).
  { intros j tj Hj. unfold ts' in Hj. apply nth_upd_cases in Hj. destruct Hj as [(? & ? & _)|(Hj1 & Hj)]; auto.
    apply nth_upd_cases in Hj. destruct Hj as [(? & ? & _)|(? & ?)]; auto. }
  assert (Hnt : ~ In tl (iter_trapezoids n1 Asc)).
  { intros K. destruct Hx1 as [_ _ _ (L1 & R1 & XL1)]. destruct (lane_in _ _ _ _ _ _ (XL1 Asc) K) as (t0 & T1 & T2). assert (t0 = ttl) by congruence. subst. cbn in T2. congruence. }
  destruct (next_at st i t s si nd n1 ts' tl i tl' ti') as (n1' & N1 & N2 & N3 & N4 & N5 & _ & N6); auto.
  { intros j tj Hj Hd. destruct (m_c _ _ _ _ _ _ _ Hm j tj Desc nd Hj Hd) as (n2 & Hn2 & K); [tauto|]. assert (n2 = n1) by congruence. subst. exact K. }
  { intros j tj Hj Hd. destruct (Htc j tj Hj) as [(-> & _)|[(-> & _)|(? & ? & ?)]]; auto. right; right. split; auto. eauto. }
  { cbn. congruence. }
  { intros j tj Hji Hj Hd. destruct (Nat.eq_dec j tl) as [->|Hne'].
    - assert (tj = ttl) by congruence. subst. exists tl'. split; auto.
    - exists tj. auto. }
  specialize (N6 eq_refl).
  set (ns' := upd (st_ns st) nd n1') in *.
  assert (Hsn : same_ns (st_ns st) ns') by (eapply same_upd; eauto).
  destruct (core_merge_left W Es M gv HG HM st ns' si s i t tl ttl ni n nd) as (Hc' & Hkeep); auto. { congruence. }
  fold ql in Hc', Hkeep. fold ti' tl' in Hc', Hkeep. fold ts' in Hc', Hkeep.
  set (st' := mkState ns' (st_ss st) ts' (upd (st_qs st) (t_k t) (QBranch (t_k ttl) ql (QX (s_cmin s) (s_cmax s))) ++ [QSink i])) in *.
  assert (Hpt : points st' = points st) by now apply same_ns_c.
  assert (Hrg : forall x, reg st' x = reg st x) by (intros x; unfold reg; rewrite Hpt; reflexivity).
  assert (Hnn : nth_error ns' nd = Some n1'). { apply nth_upd_eq. eapply nth_lt; eauto. }
  assert (Hno : forall v m, v <> nd -> nth_error ns' v = Some m -> nth_error (st_ns st) v = Some m). { intros v m Hv K. unfold ns' in K. now rewrite nth_upd_ne in K by auto. }
  assert (Hno' : forall v m, nth_error (st_ns st) v = Some m -> exists m', nth_error ns' v = Some m' /\ (forall d, seps m' d = seps m d) /\ iter_trapezoids m' Desc = iter_trapezoids m Desc /\
    (v <> nd -> m' = m)).
  { intros v m K. destruct (Nat.eq_dec v nd) as [->|Hv].
    - assert (m = n1) by congruence. subst. exists n1'. split; auto. split; auto. split; auto. congruence.
    - exists m. split; [|auto]. unfold ns'. rewrite nth_upd_ne by auto. auto. }
  exists st', nd, i, n1'. split.
  { split; auto.
    - exists tl'. auto.
    - exists ti'. auto.
    - exists n1'. split; [auto|]. split; [now rewrite N1|auto].
    - exists (reg st t), tl', ti'. split; [now apply (c_ag _ _ _ _ _ Hc i)|]. split; [auto|]. split; [rewrite Hpt, Ad; now apply points_nth|]. split; [auto|]. split; [rewrite Hrg; unfold reg, rg; cbn; congruence|].
      split; [auto|]. reflexivity.
    - intros j tj Hj. rewrite Hrg. destruct (Htc j tj Hj) as [(-> & ->)|[(-> & ->)|(J1 & J2 & Hj')]].
      + destruct (m_td _ _ _ _ _ _ _ Hm i t Ht) as (_ & D1). split; [congruence|]. intros _. exact (D1 Hitl).
      + destruct (m_td _ _ _ _ _ _ _ Hm i t Ht) as (D1 & _). split; [|congruence]. intros _. specialize (D1 Hitr).
        unfold reg, rg in D1 |- *. cbn in D1 |- *. rewrite TLl, <- Tl. rewrite Ed in D1. exact D1.
      + destruct (m_td _ _ _ _ _ _ _ Hm j tj Hj') as (D1 & D2). split; auto. intros _. destruct (Nat.eq_dec j tr) as [->|J3]; [|auto].
        assert (tj = ttr) by congruence. subst. destruct (reg_l W Es M gv st tr ttr si Hc Httr TRl) as (g & Hg & ->). assert (g = s) by congruence. subst g.
        destruct (reg_end W Es M gv st tr ttr Desc ni Hc Httr TRd) as (n0 & Hn0 & Ed0). assert (n0 = n) by congruence. subst n0. cbn [aend] in Ed0. rewrite Ed0. cbn.
        change (X e (ht (n_c n)) <= cx (n_c n))%Q. lra.
    - intros v m Hv Hm'. apply Hno in Hm'; auto. destruct (Nat.eq_dec v ni) as [->|Hv'].
      + assert (m = n) by congruence. subst m. split; auto. { intros []; auto. now rewrite V3. }
        exists (Some si), R. intros []; cbn [st_ts st'].
        * rewrite V3, V4. unfold bnd in LA. cbn [map app] in LA. rewrite lane_cons in LA. destruct LA as (_ & LA).
          revert LA. apply lane_ext. intros j tj Hj Hj1 Hj2. cbn in Hj2. exists tj. split; [|auto]. apply Hto; auto.
          -- intros ->. assert (tj = t) by congruence. subst. congruence.
          -- intros ->. contradiction.
        * apply (lane_set_first (st_ts st) ts' Desc ni L (Some si) (seps n Desc) R _ i ti'); auto; try discriminate.
          -- intros j tj Hj Hj0 Hj1 Hj2. cbn in Hj2. destruct (Nat.eq_dec j tl) as [->|J].
             ++ assert (tj = ttl) by congruence. subst. exists tl'. auto.
             ++ exists tj. auto.
          -- intros t0 Ht0. assert (t0 = t) by congruence. subst. reflexivity.
      + pose proof (m_nx _ _ _ _ _ _ _ Hm v m Hv' Hm') as [Y1 Y2 Y3 (L1 & R1 & YL)]. split; auto. exists L1, R1. intros d. generalize (YL d). apply lane_ext.
        intros j tj Hj Hj1 Hj2. destruct (Nat.eq_dec j i) as [->|J1].
        { exfalso. assert (tj = t) by congruence. subst. destruct d; cbn in Hj2; congruence. }
        destruct (Nat.eq_dec j tl) as [->|J2].
        { assert (tj = ttl) by congruence. subst. destruct d; cbn in Hj2; [exfalso; congruence|]. exists tl'. auto. }
        exists tj. auto.
    - intros j tj d v Hj Hd Hnot. cbn [st_ns st' st_ts] in *.
      assert (Hold : nth_error (st_ts st) j = Some tj -> j <> tl -> exists n2, nth_error ns' v = Some n2 /\ In j (iter_trapezoids n2 (opp d))).
      { intros Hj' J. destruct d.
        - destruct (m_c _ _ _ _ _ _ _ Hm j tj Asc v Hj' Hd) as (m & Q1 & Q2); [intros (? & _); discriminate|]. destruct (Hno' v m Q1) as (m' & Q3 & _ & Q4 & _). exists m'. split; auto. cbn [opp] in *. now rewrite Q4.
        - assert (Hv : v <> nd) by tauto. destruct (Nat.eq_dec v ni) as [->|Hv'].
          + exists n. split. { unfold ns'. now rewrite nth_upd_ne by auto. } cbn [opp]. rewrite V3. specialize (Hall j tj Hj' Hd).
            destruct Hall as [Q|[Q|Q]]; [congruence|now left|now right].
          + destruct (m_c _ _ _ _ _ _ _ Hm j tj Desc v Hj' Hd) as (m & Q1 & Q2); [tauto|]. exists m. split; auto. unfold ns'. now rewrite nth_upd_ne by auto. }
      destruct (Htc j tj Hj) as [(-> & ->)|[(-> & ->)|(J1 & J2 & Hj')]]; [| |now apply Hold].
      + destruct d; cbn in Hd.
        * destruct (m_c _ _ _ _ _ _ _ Hm i t Asc v Ht Hd) as (m & Q1 & Q2); [intros (? & _); discriminate|]. destruct (Hno' v m Q1) as (m' & Q3 & _ & Q4 & _). exists m'. split; auto. cbn [opp] in *. now rewrite Q4.
        * exfalso. apply Hnot. split; auto. congruence.
      + destruct d; cbn in Hd.
        * destruct (m_c _ _ _ _ _ _ _ Hm tl ttl Asc v Httl Hd) as (m & Q1 & Q2); [intros (? & _); discriminate|]. destruct (Hno' v m Q1) as (m' & Q3 & _ & Q4 & _). exists m'. split; auto. cbn [opp] in *. now rewrite Q4.
        * exfalso. apply Hnot. split; auto. congruence.
    - intros x s' d Hx Hnot. destruct (m_f _ _ _ _ _ _ _ Hm x s' d Hx Hnot) as (m & Q1 & Q2). destruct (Hno' _ m Q1) as (m' & Q3 & Q4 & _). exists m'. split; auto. now rewrite Q4.
    - intros v m Hv. cbn [st_ns st'] in Hv. destruct (Nat.eq_dec v nd) as [->|Hv'].
      + assert (m = n1') by congruence. subst. rewrite deg_seps, !N3, <- deg_seps. now apply (m_dg _ _ _ _ _ _ _ Hm).
      + apply (m_dg _ _ _ _ _ _ _ Hm). auto. }
  split; [reflexivity|]. split; [auto|]. split; [auto|]. split; [auto|]. split; [now rewrite N1|]. split.
  { unfold grow. cbn [st_ts st_qs st']. unfold ts'. rewrite !upd_length. split; [reflexivity|]. rewrite app_length, upd_length. cbn [length].
    pose proof (adj_upd (st_ts st) i t ti' si Ht) as Z1. rewrite (side_through st i t si s Hc Ht Hs Hth) in Z1.
    assert (has_side si ti' = true) as Z2 by (unfold has_side, ti', onat_eqb; cbn; now rewrite Nat.eqb_refl, ?orb_true_r).
    rewrite Z2 in Z1. assert (Z3 : nth_error (upd (st_ts st) i ti') tl = Some ttl) by (now rewrite nth_upd_ne by auto).
    pose proof (adj_upd _ _ _ tl' si Z3) as Z4. change (has_side si tl') with (has_side si ttl) in Z4. cbn [b2n] in Z1. split; [lia|].
    assert (Hkl : t_k t < length (st_qs st)) by (eapply nth_lt; apply (c_q1 _ _ _ _ _ Hc i t Ht)).
    assert (Hkk : t_k ttl <> t_k t). { intros Z. pose proof (c_q1 _ _ _ _ _ Hc _ _ Httl) as Y. rewrite Z, (c_q1 _ _ _ _ _ Hc i t Ht) in Y. congruence. }
    assert (Hsd : has_side si tl' = true) by (unfold has_side, onat_eqb; cbn; rewrite ?TRl, ?TLr, Nat.eqb_refl, ?orb_true_r; reflexivity).
    apply (once_cut _ st st' (t_k t) i (t_k ttl) ql (QX (s_cmin s) (s_cmax s)) tl i tl' ti' t); auto.
    - apply (c_q1 _ _ _ _ _ Hc i t Ht).
    - intros j q Hj Hq. cbn [st_qs st']. apply nth_app_l. now rewrite nth_upd_ne by auto.
    - cbn [st_qs st']. apply nth_app_l. now apply nth_upd_eq.
    - cbn [st_qs st']. apply nth_app_l. rewrite nth_upd_ne by auto. now apply (c_q1 _ _ _ _ _ Hc).
    - cbn [st_qs st']. rewrite nth_error_app2 by (rewrite upd_length; unfold ql; lia). rewrite upd_length. unfold ql. now rewrite Nat.sub_diag.
    - rewrite (side_through st i t si s Hc Ht Hs Hth). discriminate.
    - intros j k Hk tj Hj. destruct (c_q2 _ _ _ _ _ Hc k j Hk) as (tj' & Y1 & Y2). congruence.
    - intros j tj Hj Hjt. destruct (Nat.eq_dec j tl) as [->|Hj2]; [exists tl'; auto|]. exists tj. split; auto. }
  intros k. cbn [seg_loop]. rewrite (proj2 (Nat.eqb_neq _ _) Hmin). unfold rdu, rd. rewrite Hn. cbn [bind]. rewrite Hs. cbn [bind]. rewrite Hgd. cbn [bind].
  rewrite Ht. cbn [bind]. rewrite Ed. cbn [ok_or bind]. rewrite Httl. cbn [bind]. rewrite Httr. cbn [bind].
  replace (onat_eqb (t_r t) (t_r ttr)) with false.
  2:{ symmetry. unfold onat_eqb. destruct (t_r t), (t_r ttr); auto. { apply Nat.eqb_neq. congruence. } congruence. }
  rewrite Tl, TLl. replace (onat_eqb L L) with true by (destruct L; cbn; auto; now rewrite Nat.eqb_refl).
  rewrite (c_q1 _ _ _ _ _ Hc i t Ht). cbn [bind]. unfold modify at 1. rewrite Ht. cbn [bind]. unfold modify at 1. rewrite nth_upd_ne by auto. rewrite Httl. cbn [bind].
  rewrite Hn1. cbn [bind]. destruct (Nat.eqb nd (s_min s)), (is_on_left s (n_c n1)); cbn [orb] in N6; cbn [bind];
    try (rewrite N6; reflexivity). injection N6 as N6. unfold st'. rewrite <- N6. reflexivity.
Qed.

End Step.
