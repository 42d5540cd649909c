(** Following an edge that is not inserted through the trapezoidation, to the trapezoid that contains its other end. *)
From Coq Require Import QArith Lqa List Arith Lia Bool.
From Verif Require Import Base Coord Trap Lanes Plane Geo Region TrapInv AddVertex Recut Cuts LaneOps SegStep AddSegment Segment.
Import ListNotations.
Local Open Scope nat_scope.
Local Open Scope res_scope.

(** Induction on a rational measure of finitely many points. *)
Lemma fin_ind (f : point -> Q) (W : list point) (P : point -> Prop) :
  (forall p, In p W -> (forall q, In q W -> (f q < f p)%Q -> P q) -> P p) -> forall p, In p W -> P p.
Proof.
  intros H. set (below := fun p => filter (fun q => if Qlt_le_dec (f q) (f p) then true else false) W).
  assert (Hb : forall p q, In q (below p) <-> In q W /\ (f q < f p)%Q).
  { intros p q. unfold below. rewrite filter_In. destruct (Qlt_le_dec (f q) (f p)); split; intros (? & ?); split; auto; try discriminate; lra. }
  assert (Hlt : forall p q, In q W -> (f q < f p)%Q -> length (below q) < length (below p)).
  { intros p q Hq Hl. unfold below. clear Hb. assert (G : forall l, In q l -> length (filter (fun x => if Qlt_le_dec (f x) (f q) then true else false) l) < length (filter (fun x => if Qlt_le_dec (f x) (f p) then true else false) l)).
    { assert (Hle : forall l, length (filter (fun x => if Qlt_le_dec (f x) (f q) then true else false) l) <= length (filter (fun x => if Qlt_le_dec (f x) (f p) then true else false) l)).
      { induction l as [|a l IH]; cbn; auto. destruct (Qlt_le_dec (f a) (f q)), (Qlt_le_dec (f a) (f p)); cbn; try lia. exfalso. lra. }
      induction l as [|a l IH]; intros Hin; [contradiction|]. destruct Hin as [->|Hin].
      - cbn. destruct (Qlt_le_dec (f q) (f q)); [exfalso; lra|]. destruct (Qlt_le_dec (f q) (f p)); [|exfalso; lra]. cbn. specialize (Hle l). lia.
      - specialize (IH Hin). cbn. destruct (Qlt_le_dec (f a) (f q)), (Qlt_le_dec (f a) (f p)); cbn; try lia. exfalso. lra. }
    now apply G. }
  assert (G : forall n p, length (below p) < n -> In p W -> P p).
  { induction n as [|n IH]; intros p Hn Hp; [lia|]. apply H; auto. intros q Hq Hl. apply IH; auto. specialize (Hlt p q Hq Hl). lia. }
  intros p Hp. apply (G (S (length (below p)))); auto.
Qed.

Section Walk.
Context {I : Type}.
Variables (W : list point) (Es : list edge) (M : Q) (gv : I -> point).
Hypothesis HG : geo W Es.
Hypothesis HM : shear M W.
Notation stt := (state Q I).
Notation ht := (ht M).
Notation X := (X M).
Notation within := (within M).
Notation inside := (inside M).
Notation agood := (agood W Es M).
Notation core := (core W Es M gv).
Notation full := (full W Es M gv).
Notation loc := (loc M).

Lemma between_eq d e (n : nexus Q I) : get_trapezoid_between d (eend (opp d) e) (eend d e) n =
  if is_left (fst e) (snd e) (n_c n) then last (iter_trapezoids n d) 0 else hd 0 (iter_trapezoids n d).
Proof.
  unfold get_trapezoid_between, iter_trapezoids. destruct (filter_dividers n d); destruct d; cbn [eend opp hd last]; destruct (is_left (fst e) (snd e) (n_c n)); reflexivity.
Qed.

(** One step past a nexus. *)
Lemma walk_step st d e i t v n : full st -> nth_error (st_ts st) i = Some t -> In e Es -> through M e (reg st t) ->
  tend d t = Some v -> nth_error (st_ns st) v = Some n -> within e (ht (n_c n)) ->
  exists t', let i' := get_trapezoid_between d (eend (opp d) e) (eend d e) n in
    nth_error (st_ts st) i' = Some t' /\ through M e (reg st t') /\ tend (opp d) t' = Some v.
Proof.
  intros Hf Ht He Hth Hv Hn Hw. pose proof (f_core _ _ _ _ _ Hf) as Hc. pose proof (f_n _ _ _ _ _ Hf v n Hn) as [X1 X2 X3 (L & R & XL)].
  destruct (f_c _ _ _ _ _ Hf i t d v Ht Hv) as (n0 & Hn0 & Hi). assert (n0 = n) by congruence. subst n0. clear Hn0.
  destruct (lane_pos _ _ _ _ _ _ _ _ (XL (opp d)) Hi) as (ids1 & ids2 & E1 & E2 & t0 & Ei & Ee & Hlen & Ht0 & Tl & Tr & _).
  assert (t0 = t) by congruence. subst t0. clear Ht0.
  pose proof (c_ag _ _ _ _ _ Hc i t Ht) as Hag. destruct (reg_end W Es M gv st i t d v Hc Ht Hv) as (n0 & Hn0 & Ad). assert (n0 = n) by congruence. subst n0. clear Hn0.
  assert (HnW : In (n_c n) W). { apply (c_W _ _ _ _ _ Hc). eapply nth_error_In. apply points_nth. eauto. }
  assert (Hdd : opp (opp d) = d) by (destruct d; reflexivity).
  rewrite between_eq. destruct (use_left_x W Es M HG HM e (n_c n) He HnW Hw) as [(U & K)|(U & K)]; cbn [use_left] in U; rewrite U.
  - assert (E2 = []) as ->.
    { destruct E2 as [|f E2']; auto. exfalso. cbn in Tr. destruct (reg_r W Es M gv st i t f Hc Ht Tr) as (g & Hg & Ag).
      apply (leave_right W Es M HG HM d e (reg st t) (n_c n) (sedge g)); auto.
      destruct (X2 (opp d) f) as (g' & G1 & G2). { rewrite Ee. apply in_or_app. right. now left. } assert (g' = g) by congruence. subst g'. rewrite Hdd in G2.
      destruct (c_ss _ _ _ _ _ Hc f g Hg) as (S1 & S2 & _). destruct d; cbn in G2 |- *; [rewrite G2, (points_nth _ _ _ Hn) in S2|rewrite G2, (points_nth _ _ _ Hn) in S1]; congruence. }
    cbn in Tr. destruct (last_lane _ _ _ _ _ _ _ (XL d) (iter_ne n d) (X3 d)) as (t' & Ht' & Tr' & Te'). exists t'. cbn zeta. split; auto. split; auto.
    destruct (reg_end W Es M gv st _ t' (opp d) v Hc Ht' Te') as (n0 & Hn0 & Ad'). assert (n0 = n) by congruence. subst n0.
    apply (enter_right W Es M HG HM d e (reg st t) (reg st t') (n_c n)); auto.
    + eapply c_ag; eauto.
    + unfold reg, rg. cbn. now rewrite Tr, Tr'.
    + destruct d; cbn [opp aend] in Ad'.
      * pose proof (proj1 (f_td _ _ _ _ _ Hf _ t' Ht')) as Z. rewrite Ad' in Z. exact Z.
      * pose proof (proj1 (c_tu _ _ _ _ _ Hc _ t' Ht')) as Z. rewrite Ad' in Z. exact Z.
  - assert (E1 = []) as ->.
    { destruct E1 as [|f0 F]; auto. exfalso. destruct (@exists_last _ (f0 :: F)) as (F' & f & EF); [discriminate|]. rewrite EF in Ee, Tl.
      rewrite map_app in Tl. cbn [map] in Tl. rewrite last_last in Tl. destruct (reg_l W Es M gv st i t f Hc Ht Tl) as (g & Hg & Ag).
      apply (leave_left W Es M HG HM d e (reg st t) (n_c n) (sedge g)); auto.
      destruct (X2 (opp d) f) as (g' & G1 & G2). { rewrite Ee. apply in_or_app. left. apply in_or_app. right. now left. } assert (g' = g) by congruence. subst g'. rewrite Hdd in G2.
      destruct (c_ss _ _ _ _ _ Hc f g Hg) as (S1 & S2 & _). destruct d; cbn in G2 |- *; [rewrite G2, (points_nth _ _ _ Hn) in S2|rewrite G2, (points_nth _ _ _ Hn) in S1]; congruence. }
    cbn in Tl. destruct (first_lane _ _ _ _ _ _ _ (XL d) (iter_ne n d)) as (t' & Ht' & Tl' & _ & Te'). exists t'. cbn zeta. split; auto. split; auto.
    destruct (reg_end W Es M gv st _ t' (opp d) v Hc Ht' Te') as (n0 & Hn0 & Ad'). assert (n0 = n) by congruence. subst n0.
    apply (enter_left W Es M HG HM d e (reg st t) (reg st t') (n_c n)); auto.
    + eapply c_ag; eauto.
    + unfold reg, rg. cbn. now rewrite Tl, Tl'.
    + destruct d; cbn [opp aend] in Ad'.
      * pose proof (proj2 (f_td _ _ _ _ _ Hf _ t' Ht')) as Z. rewrite Ad' in Z. exact Z.
      * pose proof (proj2 (c_tu _ _ _ _ _ Hc _ t' Ht')) as Z. rewrite Ad' in Z. exact Z.
Qed.

(** When the far end of the trapezoid is past the target, the target is inside; otherwise the far end is passed. *)
Lemma reached_ok st d e i t : full st -> nth_error (st_ts st) i = Some t -> In e Es -> through M e (reg st t) -> ~ In (eend d e) (points st) ->
  (reached (st_ns st) t d (eend d e) = Ok true /\ inside (reg st t) (eend d e)) \/
  (exists v n, reached (st_ns st) t d (eend d e) = Ok false /\ tend d t = Some v /\ nth_error (st_ns st) v = Some n /\ within e (ht (n_c n))).
Proof.
  intros Hf Ht He Hth Hnp. pose proof (f_core _ _ _ _ _ Hf) as Hc. pose proof (c_ag _ _ _ _ _ Hc i t Ht) as Hag.
  pose proof Hth as (h & (W1 & W2) & (Hb & Hu) & _). pose proof (eend_in W Es HG d e He) as HcW.
  destruct (tend d t) as [v|] eqn:Ev.
  - destruct (reg_end W Es M gv st i t d v Hc Ht Ev) as (n & Hn & Ad).
    assert (HnW : In (n_c n) W). { apply (c_W _ _ _ _ _ Hc). eapply nth_error_In. apply points_nth. eauto. }
    assert (Hne : n_c n <> eend d e). { intros E. apply Hnp. rewrite <- E. eapply nth_error_In. apply points_nth. eauto. }
    unfold reached. destruct d; cbn [tend aend eend] in *; rewrite Ev; unfold rd; rewrite Hn; cbn [bind]; rewrite Ad in *; cbn [obot otop] in *.
    + destruct (coords_gt (n_c n) (snd e)) eqn:Eg.
      * left. split; auto. apply coords_gt_spec in Eg. apply (ht_lt W M HM) in Eg; auto. apply (through_end W Es M HG HM Asc e (reg st t)); auto. split; [|rewrite Ad; exact Eg].
        destruct (ad (reg st t)) as [w|]; cbn in *; auto. change (ht (snd e)) with (Geo.ht M (snd e)). lra.
      * right. exists v, n. split; auto. split; auto. split; auto. assert (~ plt (snd e) (n_c n)). { intros K. apply coords_gt_spec in K. congruence. }
        destruct (ht_tri W Es M HG HM (n_c n) (snd e) HnW HcW) as [K|[K|K]]; [|contradiction|exfalso; apply H; now apply (ht_lt W M HM)].
        split; [|exact K]. change (ht (n_c n)) with (Geo.ht M (n_c n)). lra.
    + destruct (coords_lt (n_c n) (fst e)) eqn:Eg.
      * left. split; auto. apply coords_lt_spec in Eg. apply (ht_lt W M HM) in Eg; auto. apply (through_end W Es M HG HM Desc e (reg st t)); auto. split; [rewrite Ad; exact Eg|].
        destruct (au (reg st t)) as [w|]; cbn in *; auto. change (ht (fst e)) with (Geo.ht M (fst e)). lra.
      * right. exists v, n. split; auto. split; auto. split; auto. assert (~ plt (n_c n) (fst e)). { intros K. apply coords_lt_spec in K. congruence. }
        destruct (ht_tri W Es M HG HM (n_c n) (fst e) HnW HcW) as [K|[K|K]]; [exfalso; apply H; now apply (ht_lt W M HM)|contradiction|].
        split; [exact K|]. change (ht (n_c n)) with (Geo.ht M (n_c n)). lra.
  - left. unfold reached. assert (Ea : aend d (reg st t) = None). { unfold reg, rg. destruct d; cbn in *; now rewrite Ev. }
    destruct d; cbn [tend aend eend] in *; rewrite Ev; (split; [reflexivity|]).
    + apply (through_end W Es M HG HM Asc e (reg st t)); auto. split; [|rewrite Ea; exact Logic.I].
      destruct (ad (reg st t)) as [w|]; cbn in *; auto. change (ht (snd e)) with (Geo.ht M (snd e)). lra.
    + apply (through_end W Es M HG HM Desc e (reg st t)); auto. split; [rewrite Ea; exact Logic.I|].
      destruct (au (reg st t)) as [w|]; cbn in *; auto. change (ht (fst e)) with (Geo.ht M (fst e)). lra.
Qed.

Definition toward (d : dir) (p : point) : Q := match d with Asc => - ht p | Desc => ht p end%Q.

(** The walk ends in the trapezoid that contains the target. *)
Lemma walk_ok st d e i t : full st -> nth_error (st_ts st) i = Some t -> In e Es -> through M e (reg st t) -> ~ In (eend d e) (points st) ->
  exists i' t', evt (fun k => walk k st d (eend (opp d) e) (eend d e) i) i' /\ nth_error (st_ts st) i' = Some t' /\ inside (reg st t') (eend d e).
Proof.
  intros Hf Ht He Hth Hnp. pose proof (f_core _ _ _ _ _ Hf) as Hc.
  assert (G : forall p, In p W -> forall i t v n, nth_error (st_ts st) i = Some t -> through M e (reg st t) -> tend d t = Some v -> nth_error (st_ns st) v = Some n -> n_c n = p ->
    exists i' t', evt (fun k => walk k st d (eend (opp d) e) (eend d e) i) i' /\ nth_error (st_ts st) i' = Some t' /\ inside (reg st t') (eend d e)).
  { clear i t Ht Hth. intros p Hp. pattern p. revert p Hp. apply fin_ind with (f := toward d). intros p Hp IH i t v n Ht Hth Hv Hn Ep.
    destruct (reached_ok st d e i t Hf Ht He Hth Hnp) as [(R1 & R2)|(v' & n' & R1 & R2 & R3 & R4)].
    { exists i, t. split; [|auto]. exists 1. intros [|k] Hk; [lia|]. cbn [walk]. unfold rdu. rewrite Ht. cbn [bind]. now rewrite R1. }
    assert (v' = v) by congruence. subst v'. assert (n' = n) by congruence. subst n'.
    destruct (walk_step st d e i t v n Hf Ht He Hth Hv Hn R4) as (t1 & Ht1 & Hth1 & Hv1). set (i1 := get_trapezoid_between d (eend (opp d) e) (eend d e) n) in *.
    assert (Hstep : forall k, walk (S k) st d (eend (opp d) e) (eend d e) i = walk k st d (eend (opp d) e) (eend d e) i1).
    { intros k. cbn [walk]. unfold rdu. rewrite Ht. cbn [bind]. rewrite R1. cbn [bind]. destruct d; cbn [tend] in Hv; rewrite Hv; cbn [ok_or bind]; rewrite Hn; reflexivity. }
    assert (Hgo : forall i' t', evt (fun k => walk k st d (eend (opp d) e) (eend d e) i1) i' -> nth_error (st_ts st) i' = Some t' -> inside (reg st t') (eend d e) ->
      exists i' t', evt (fun k => walk k st d (eend (opp d) e) (eend d e) i) i' /\ nth_error (st_ts st) i' = Some t' /\ inside (reg st t') (eend d e)).
    { intros i' t' (N & HN) K1 K2. exists i', t'. split; auto. exists (S N). intros [|k] Hk; [lia|]. rewrite Hstep. apply HN. lia. }
    destruct (tend d t1) as [v1|] eqn:Ev1.
    - destruct (reg_end W Es M gv st i1 t1 d v1 Hc Ht1 Ev1) as (n1 & Hn1 & Ad1). destruct (reg_end W Es M gv st i1 t1 (opp d) v Hc Ht1 Hv1) as (n0 & Hn0 & Ad0). assert (n0 = n) by congruence. subst n0.
      destruct (IH (n_c n1)) with (i := i1) (t := t1) (v := v1) (n := n1) as (i' & t' & B1 & B2 & B3); eauto.
      + apply (c_W _ _ _ _ _ Hc). eapply nth_error_In. apply points_nth. eauto.
      + pose proof (c_ag _ _ _ _ _ Hc i1 t1 Ht1) as Hag. unfold toward. rewrite <- Ep. destruct d; cbn [opp aend] in *.
        * pose proof (a_du _ _ _ _ Hag _ _ Ad0 Ad1) as Z. change (ht (n_c n) < ht (n_c n1))%Q in Z. lra.
        * pose proof (a_du _ _ _ _ Hag _ _ Ad1 Ad0) as Z. exact Z.
    - destruct (reached_ok st d e i1 t1 Hf Ht1 He Hth1 Hnp) as [(R5 & R6)|(v' & n' & R5 & R6 & _)]; [|congruence].
      apply (Hgo i1 t1); auto. exists 1. intros [|k] Hk; [lia|]. cbn [walk]. unfold rdu. rewrite Ht1. cbn [bind]. now rewrite R5. }
  destruct (tend d t) as [v|] eqn:Ev.
  - destruct (reg_end W Es M gv st i t d v Hc Ht Ev) as (n & Hn & _). eapply (G (n_c n)); eauto. apply (c_W _ _ _ _ _ Hc). eapply nth_error_In. apply points_nth. eauto.
  - destruct (reached_ok st d e i t Hf Ht He Hth Hnp) as [(R1 & R2)|(v' & n' & R1 & R2 & _)]; [|congruence].
    exists i, t. split; [|auto]. exists 1. intros [|k] Hk; [lia|]. cbn [walk]. unfold rdu. rewrite Ht. cbn [bind]. now rewrite R1.
Qed.

(** Leaving an inserted vertex along an edge that is not inserted. *)
Lemma toward_ok st d e v n : full st -> nth_error (st_ns st) v = Some n -> In e Es -> eend (opp d) e = n_c n -> ~ In e (medges st) -> deg n <= 1 ->
  exists i t, get_trapezoid_toward (st_ss st) (st_ns st) d (eend d e) n = Ok i /\ nth_error (st_ts st) i = Some t /\ through M e (reg st t).
Proof.
  intros Hf Hn He Hend Hni Hdeg. pose proof (f_core _ _ _ _ _ Hf) as Hc. pose proof (f_n _ _ _ _ _ Hf v n Hn) as Hx. destruct (x_lane _ _ _ _ Hx) as (L & R & HL).
  assert (G : exists ids1 ids2 E1 E2 i, get_trapezoid_toward (st_ss st) (st_ns st) d (eend d e) n = Ok i /\ iter_trapezoids n d = ids1 ++ i :: ids2 /\ seps n d = E1 ++ E2 /\ length E1 = length ids1 /\
    (forall x g h, In x E1 -> nth_error (st_ss st) x = Some g -> within (sedge g) h -> within e h -> (X (sedge g) h < X e h)%Q) /\
    (forall x g h, In x E2 -> nth_error (st_ss st) x = Some g -> within (sedge g) h -> within e h -> (X e h < X (sedge g) h)%Q)).
  { pose proof (x_sep _ _ _ _ Hx d) as Hsep. rewrite deg_seps in Hdeg.
    assert (Hl : length (seps n d) <= 1) by (destruct d; lia). clear Hdeg.
    unfold get_trapezoid_toward, iter_trapezoids, seps in *. destruct (filter_dividers n d) as [|a|a b] eqn:Efd; [| |cbn in Hl; lia].
    { exists [], [], [], [], (first_trapezoid n d). repeat split; auto; contradiction. }
    destruct (Hsep (d_si a) (or_introl eq_refl)) as (g & Hg & Gv).
    destruct (c_ss _ _ _ _ _ Hc _ _ Hg) as (G1 & G2 & G3). destruct (points_inv _ _ _ G1) as (n1 & Hn1 & En1). destruct (points_inv _ _ _ G2) as (n2 & Hn2 & En2).
    unfold rd. rewrite Hg. cbn [bind]. rewrite Hn1. cbn [bind]. rewrite Hn2. cbn [bind]. rewrite En1, En2.
    assert (Hne2 : sedge g <> e). { intros E. apply Hni. rewrite <- E. eapply nth_error_In. apply medges_nth. eauto. }
    assert (Hsh : match d with Asc => fst (sedge g) = fst e | Desc => snd (sedge g) = snd e end).
    { destruct d; cbn in Gv, Hend |- *; [rewrite Gv, (points_nth _ _ _ Hn) in G1|rewrite Gv, (points_nth _ _ _ Hn) in G2]; congruence. }
    assert (O : (is_left (s_cmin g) (s_cmax g) (eend d e) = true /\ forall h, within (sedge g) h -> within e h -> (X e h < X (sedge g) h)%Q) \/
                (is_left (s_cmin g) (s_cmax g) (eend d e) = false /\ forall h, within (sedge g) h -> within e h -> (X (sedge g) h < X e h)%Q)).
    { destruct d.
      - destruct (ord_min W Es M HG HM (sedge g) e G3 He Hne2 Hsh) as [(O1 & _ & O3)|(O1 & _ & O3)]; auto.
      - destruct (ord_max W Es M HG HM (sedge g) e G3 He Hne2 Hsh) as [(O1 & _ & O3)|(O1 & _ & O3)]; auto. }
    destruct O as [(O1 & O2)|(O1 & O2)]; rewrite O1.
    - exists [], [d_r a], [], [d_si a], (first_trapezoid n d). split; auto. split; auto. split; auto. split; auto. split.
      + intros x g' h [].
      + intros x g' h [<-|[]] Hg'. assert (g' = g) by congruence. subst. auto.
    - exists [first_trapezoid n d], [], [d_si a], [], (d_r a). split; auto. split; auto. split; auto. split; auto. split.
      + intros x g' h [<-|[]] Hg'. assert (g' = g) by congruence. subst. auto.
      + intros x g' h []. }
  destruct G as (ids1 & ids2 & E1 & E2 & i & H1 & H2 & H3 & H4 & H5 & H6). pose proof (HL d) as HLd. rewrite H2, H3 in HLd.
  destruct (lane_pos' _ _ _ _ _ _ _ _ _ _ HLd H4) as (t & Ht & _). exists i, t. split; auto. split; auto.
  apply (start_ok W Es M gv HG HM st v n d ids1 ids2 E1 E2 i t e); auto.
Qed.

End Walk.
