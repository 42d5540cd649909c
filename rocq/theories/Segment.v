(** [add_segment] keeps the invariants. *)
From Coq Require Import QArith Lqa List Arith Lia Bool.
From Verif Require Import Base Coord Trap Lanes Plane Geo Region TrapInv AddVertex Recut Cuts LaneOps SegStep Depth AddSegment.
Import ListNotations.
Local Open Scope nat_scope.
Local Open Scope res_scope.

Section Seg.
Context {I : Type}.
Variables (W : list point) (Es : list edge) (M : Q) (gv : I -> point).
Hypothesis HG : geo W Es.
Hypothesis HM : shear M W.
Notation stt := (state Q I).
Notation ht := (ht M).
Notation X := (X M).
Notation within := (within M).
Notation inside := (inside M).
Notation agood := (agood W Es M).
Notation core := (core W Es M gv).
Notation full := (full W Es M gv).
Notation loc := (loc M).
Notation mid := (mid W Es M gv).
Variable ieqb : I -> I -> bool.
Hypothesis Hieq : forall a b, ieqb a b = true <-> a = b.

Lemma agood_has a : agood a -> exists h, ahas M a h.
Proof.
  intros Ha. unfold ahas, obot, otop. destruct (ad a) as [d|] eqn:Ed, (au a) as [u|] eqn:Eu.
  - destruct (Region.mid _ _ (a_du _ _ _ _ Ha _ _ Ed Eu)) as (K1 & K2). eexists. split; [exact K1|exact K2].
  - exists (ht d + 1)%Q. split; auto. lra.
  - exists (ht u - 1)%Q. split; auto. lra.
  - exists 0%Q. auto.
Qed.

(** ** The trapezoid below the upper end *)

Lemma start_pos st s nx : full st -> nth_error (points st) (s_min s) = Some (s_cmin s) -> nth_error (st_ns st) (s_max s) = Some nx -> n_c nx = s_cmax s ->
  In (sedge s) Es -> ~ In (sedge s) (medges st) -> deg nx <= 1 ->
  exists ids1 ids2 E1 E2 i, get_down_trapezoid ieqb (st_ns st) (st_ss st ++ [s]) s nx = Ok i /\ iter_trapezoids nx Desc = ids1 ++ i :: ids2 /\
    seps nx Desc = E1 ++ E2 /\ length E1 = length ids1 /\
    (forall x g, In x E1 -> nth_error (st_ss st) x = Some g -> is_on_left g (s_cmin s) = false /\
       forall h, within (sedge g) h -> within (sedge s) h -> (X (sedge g) h < X (sedge s) h)%Q) /\
    (forall x g, In x E2 -> nth_error (st_ss st) x = Some g -> is_on_left g (s_cmin s) = true /\
       forall h, within (sedge g) h -> within (sedge s) h -> (X (sedge s) h < X (sedge g) h)%Q).
Proof.
  intros Hf Pmin Hnx Ec He Hni Hdeg. pose proof (f_core _ _ _ _ _ Hf) as Hc. pose proof (f_n _ _ _ _ _ Hf _ _ Hnx) as Hx.
  destruct (points_inv _ _ _ Pmin) as (nmin & Hnmin & Emin).
  pose proof (e_lt W Es M HG HM _ He) as Hlt. cbn in Hlt.
  assert (Hne : s_min s <> s_max s). { intros E. rewrite E, Hnx in Hnmin. assert (nmin = nx) by congruence. subst. rewrite <- Emin, Ec in Hlt. lra. }
  rewrite deg_seps in Hdeg. pose proof (x_sep _ _ _ _ Hx Desc) as Hsep.
  unfold get_down_trapezoid, iter_trapezoids, first_trapezoid, seps in *. destruct (filter_dividers nx Desc) as [|a|a b] eqn:Efd; [| |cbn in Hdeg; lia].
  { exists [], [], [], [], (n_dl nx). repeat split; auto; try contradiction. }
  destruct (Hsep (d_si a) (or_introl eq_refl)) as (g & Hg & Gmax). cbn in Gmax.
  destruct (c_ss _ _ _ _ _ Hc _ _ Hg) as (G1 & G2 & G3). destruct (points_inv _ _ _ G1) as (ng & Hng & Eng).
  unfold rd. rewrite Hnmin. cbn [bind].
  rewrite (ieqb_nx W Es M gv ieqb Hieq st (s_min s) (s_max s) nmin nx Hc Hnmin Hnx Hne). rewrite Hnx. cbn [bind].
  replace (ieqb (n_v nx) (n_v nx)) with true by (symmetry; now apply Hieq).
  rewrite (nth_app_l _ _ _ _ _ Hg). cbn [bind]. rewrite Hng. cbn [bind]. rewrite Eng. unfold is_on_left.
  rewrite Gmax, (points_nth _ _ _ Hnx) in G2. injection G2 as G2.
  assert (Hne2 : sedge s <> sedge g). { intros E. apply Hni. rewrite E. eapply nth_error_In. apply medges_nth. eauto. }
  assert (Hsm : snd (sedge s) = snd (sedge g)) by (cbn; congruence).
  destruct (ord_max W Es M HG HM (sedge s) (sedge g) He G3 Hne2 Hsm) as [(O1 & O2 & O3)|(O1 & O2 & O3)]; cbn [sedge fst snd] in O1, O2; rewrite O1.
  - exists [n_dl nx], [], [d_si a], [], (d_r a). split; auto. split; auto. split; auto. split; auto. split.
    + intros x g' [<-|[]] Hg'. assert (g' = g) by congruence. subst. split; auto.
    + intros x g' [].
  - exists [], [d_r a], [], [d_si a], (n_dl nx). split; auto. split; auto. split; auto. split; auto. split.
    + intros x g' [].
    + intros x g' [<-|[]] Hg'. assert (g' = g) by congruence. subst. split; auto.
Qed.

Lemma modify_other {A} (l l1 : list A) i (f : A -> res ierr A) x x' (b : bool) : nth_error l i = Some x -> nth_error l1 i = Some x ->
  (if b then modify l i f else Ok l) = Ok (upd l i x') -> (if b then modify l1 i f else Ok l1) = Ok (upd l1 i x').
Proof.
  intros H H1 E. assert (K : forall y, upd l i y = upd l i x' -> y = x').
  { intros y Hy. apply (f_equal (fun q => nth_error q i)) in Hy. rewrite !nth_upd_eq in Hy by (eapply nth_lt; eauto). congruence. }
  destruct b.
  - unfold modify in *. rewrite H in E. rewrite H1. destruct (f x) as [y| |]; cbn in *; try discriminate. injection E as E. apply K in E. now subst.
  - injection E as E. rewrite <- (K x); [|rewrite <- E; now apply upd_same]. now rewrite upd_same.
Qed.

(** ** The first cut *)

Definition dg1 (st : stt) (mx v : nat) : nat := (match nth_error (st_ns st) v with Some n => deg n | None => 0 end) + (if Nat.eqb v mx then 1 else 0).

Lemma first_cut st s nx dbg : full st -> nth_error (points st) (s_min s) = Some (s_cmin s) -> nth_error (st_ns st) (s_max s) = Some nx -> n_c nx = s_cmax s ->
  In (sedge s) Es -> ~ In (sedge s) (medges st) -> deg nx <= 1 ->
  let si := length (st_ss st) in
  exists st2 ni tl tr, mid (dg1 st (s_max s)) st2 si s ni tl tr /\ st_ss st2 = st_ss st ++ [s] /\ same_ns (st_ns st) (st_ns st2) /\
    (forall p q, In p W -> ~ In p (points st2) -> loc st p q -> loc st2 p q) /\
    length (st_ts st2) = S (length (st_ts st)) /\ length (st_qs st2) = length (st_qs st) + adj (st_ts st2) si /\ once (fun t => has_side si t = true) st st2 /\
    forall k, add_segment ieqb dbg k st (s_min s) (s_max s) (s_cmin s) (s_cmax s) =
      (do '(st3, ti_upright) <- seg_loop ieqb k st2 si (s_min s) (s_cmin s) (s_cmax s) ni tl tr;
       do ns4 <- nexus_add_segment (st_ns st3) (st_ss st3) (s_min s) si ti_upright;
       let st4 := mkState ns4 (st_ss st3) (st_ts st3) (st_qs st3) in
       do _ <- check_consistency dbg k st4;
       Ok st4).
Proof.
  intros Hf Pmin Hnx Ec He Hni Hdeg si. pose proof (f_core _ _ _ _ _ Hf) as Hc. pose proof (f_n _ _ _ _ _ Hf _ _ Hnx) as Hx.
  destruct (start_pos st s nx Hf Pmin Hnx Ec He Hni Hdeg) as (ids1 & ids2 & E1 & E2 & i & Hgd & Ei & Ee & Hlen & HE1 & HE2).
  set (e := sedge s) in *. set (ss1 := st_ss st ++ [s]) in *. set (mx := s_max s) in *.
  assert (Pmax : nth_error (points st) mx = Some (s_cmax s)) by (rewrite <- Ec; now apply points_nth).
  destruct (points_inv _ _ _ Pmin) as (nmin & Hnmin & Emin).
  pose proof (e_lt W Es M HG HM _ He) as Hlt. cbn in Hlt.
  assert (Hne : s_min s <> mx). { intros E. rewrite E, Hnx in Hnmin. assert (nmin = nx) by congruence. subst. rewrite <- Emin, Ec in Hlt. lra. }
  destruct (x_lane _ _ _ _ Hx) as (L & R & HL). pose proof (HL Desc) as HLD. rewrite Ei, Ee in HLD.
  destruct (lane_pos' _ _ _ _ _ _ _ _ _ _ HLD Hlen) as (t & Ht & Tl & Tr & Tu). cbn [opp tend] in Tu.
  assert (Hth : through M e (reg st t)).
  { apply (start_ok W Es M gv HG HM st mx nx Desc ids1 ids2 E1 E2 i t e); auto.
    - intros x g h Hin Hg. now apply HE1 with (x := x).
    - intros x g h Hin Hg. now apply HE2 with (x := x). }
  destruct (reg_end W Es M gv st i t Asc mx Hc Ht Tu) as (n0 & Hn0 & Au). assert (n0 = nx) by congruence. subst n0. clear Hn0. cbn [aend] in Au. rewrite Ec in Au.
  destruct (down_spans W Es M gv HG HM st i t e (s_cmax s) (s_min s) Hc Ht He Hth Au) as (nd & n1 & Ed & Hn1 & Ad & Hsp & Hw1 & Hlt1); auto. { cbn. lra. }
  assert (Hndmx : nd <> mx). { intros ->. assert (n1 = nx) by congruence. subst. rewrite Ec in Hlt1. lra. }
  pose proof (f_n _ _ _ _ _ Hf nd n1 Hn1) as Hx1.
  destruct (f_c _ _ _ _ _ Hf i t Desc nd Ht Ed) as (n1' & Hn1' & Hi1). assert (n1' = n1) by congruence. subst n1'. clear Hn1'. cbn [opp] in Hi1.
  set (st1 := with_seg st s). assert (Hc1 : core st1) by (apply core_seg; auto).
  assert (Hr1 : reg st1 t = reg st t) by (eapply reg_seg; eauto).
  set (nw := length (st_ts st)). set (ql := length (st_qs st)).
  set (ti' := mkTrap (t_l t) (Some si) (t_d t) (t_u t) ql). set (tn := mkTrap (Some si) (t_r t) (t_d t) (t_u t) (ql + 1)).
  set (ts' := upd (st_ts st) i ti' ++ [tn]).
  pose proof (nth_lt _ _ _ _ Ht) as Hil.
  assert (Hinw : i <> nw) by (unfold nw; lia).
  assert (Hti : nth_error ts' i = Some ti'). { unfold ts'. apply nth_app_l. now apply nth_upd_eq. }
  assert (Htn : nth_error ts' nw = Some tn). { unfold ts', nw. rewrite <- (upd_length _ (st_ts st) i ti'). apply nth_snoc. }
  assert (Hto : forall j tj, j <> i -> nth_error (st_ts st) j = Some tj -> nth_error ts' j = Some tj).
  { intros j tj Hj K. unfold ts'. apply nth_app_l. now rewrite nth_upd_ne by auto. }
  assert (Htc : forall j tj, nth_error ts' j = Some tj -> (j = i /\ tj = ti') \/ (j = nw /\ tj = tn) \/ (j <> i /\ j <> nw /\ nth_error (st_ts st) j = Some tj)).
  { intros j tj Hj. unfold ts' in Hj. apply nth_snoc_cases in Hj. rewrite upd_length in Hj. destruct Hj as [(-> & ->)|(Hl & Hj)]; auto.
    apply nth_upd_cases in Hj. destruct Hj as [(? & ? & _)|(? & ?)]; auto. right; right. split; auto. split; auto. unfold nw. lia. }
  assert (Hnwn : forall v m d, nth_error (st_ns st) v = Some m -> ~ In nw (iter_trapezoids m d)).
  { intros v m d Hm K. destruct (x_lane _ _ _ _ (f_n _ _ _ _ _ Hf v m Hm)) as (L1 & R1 & HL1). destruct (lane_in _ _ _ _ _ _ (HL1 d) K) as (t0 & T1 & _).
    apply nth_lt in T1. unfold nw in T1. lia. }
  assert (Hs1 : nth_error ss1 si = Some s) by apply nth_snoc.
  (* the nexus at the upper end *)
  destruct (nexus_add_ok (st_ns st) ss1 mx si i nw nx s nmin Desc ids1 ids2 E1 E2) as (nx' & A1 & A2 & A3 & A4 & A5 & A6 & A7 & A8 & A9); auto.
  { intros x Hin. destruct (x_sep _ _ _ _ Hx Desc x) as (g & Hg & _); [now rewrite Ee|]. exists g. now apply nth_app_l. }
  { intros x g Hin Hg. destruct (x_sep _ _ _ _ Hx Desc x) as (g' & Hg' & _). { rewrite Ee. apply in_or_app; auto. } pose proof (nth_app_l _ _ [s] _ _ Hg') as Z. fold ss1 in Z. assert (g' = g) by congruence. subst.
    rewrite Emin. now apply (HE1 x). }
  { intros x g Hin Hg. destruct (x_sep _ _ _ _ Hx Desc x) as (g' & Hg' & _). { rewrite Ee. apply in_or_app; auto. } pose proof (nth_app_l _ _ [s] _ _ Hg') as Z. fold ss1 in Z. assert (g' = g) by congruence. subst.
    rewrite Emin. now apply (HE2 x). }
  cbn [opp] in A6, A7. set (ns1 := upd (st_ns st) mx nx') in *.
  (* the nexus at the lower end of the cut *)
  destruct (next_at W Es M gv HG HM st1 i t s si nd n1 ts' i nw ti' tn) as (n1' & N1 & N2 & N3 & N4 & N5 & N6 & _); auto.
  { now rewrite Hr1. }
  { destruct Hx1 as [Y1 Y2 Y3 Y4]. split; auto. intros d x Hin. destruct (Y2 d x Hin) as (g & G1 & G2). exists g. split; auto. now apply nth_app_l. }
  { intros j tj Hj Hd. destruct (f_c _ _ _ _ _ Hf j tj Desc nd Hj Hd) as (n2 & Hn2 & K). assert (n2 = n1) by congruence. subst. exact K. }
  { intros j tj Hj Hd. destruct (Htc j tj Hj) as [(-> & _)|[(-> & _)|(? & ? & ?)]]; auto. right; right. split; auto. exists tj. auto. }
  { intros j tj Hj K Hd. exists tj. auto. }
  { left. split; auto. eapply Hnwn; eauto. }
  specialize (N6 eq_refl). cbn [st_ns st1 with_seg] in N6.
  assert (Hn1b : nth_error ns1 nd = Some n1) by (unfold ns1; rewrite nth_upd_ne by auto; auto).
  apply (modify_other _ ns1 _ _ n1) in N6; auto.
  set (ns2 := upd ns1 nd n1') in *.
  assert (Hsn : same_ns (st_ns st) ns2). { eapply same_ns_trans; [eapply (same_upd (st_ns st) mx); eauto|]. fold ns1. eapply same_upd; eauto. }
  destruct (core_cut W Es M gv HG HM st1 ns2 si s i t) as (Hc' & Hkeep); try assumption.
  { rewrite Hr1. exact Hth. }
  { rewrite Hr1, Au. cbn. change (X e (ht (snd e)) <= cx (snd e))%Q. rewrite (X_max W Es M HG HM e He). lra. }
  { rewrite Hr1, Au. cbn. change (cx (snd e) <= X e (ht (snd e)))%Q. rewrite (X_max W Es M HG HM e He). lra. }
  cbn [st_qs st_ts st_ss st1 with_seg] in Hc', Hkeep. fold ql in Hc', Hkeep. fold ti' tn in Hc', Hkeep. fold ts' nw ss1 in Hc', Hkeep.
  set (st2 := mkState ns2 ss1 ts' ((upd (st_qs st) (t_k t) (QBranch ql (ql + 1) (QX (s_cmin s) (s_cmax s))) ++ [QSink i]) ++ [QSink nw])) in *.
  assert (Hpt : points st2 = points st) by now apply same_ns_c.
  assert (Hrg1 : forall x, reg st2 x = reg st1 x) by (intros x; unfold reg; rewrite Hpt; reflexivity).
  assert (Hrg : forall x tx, nth_error (st_ts st) x = Some tx -> reg st2 tx = reg st tx). { intros x tx Hxx. rewrite Hrg1. eapply reg_seg; eauto. }
  assert (Hnn : nth_error ns2 nd = Some n1'). { apply nth_upd_eq. eapply nth_lt; eauto. }
  assert (Hnm : nth_error ns2 mx = Some nx'). { unfold ns2. rewrite nth_upd_ne by auto. apply nth_upd_eq. eapply nth_lt; eauto. }
  assert (Hno : forall v, v <> nd -> v <> mx -> nth_error ns2 v = nth_error (st_ns st) v). { intros v Hv Hv'. unfold ns2, ns1. now rewrite !nth_upd_ne by auto. }
  exists st2, nd, i, nw. split.
  { split; auto.
    - exists ti'. auto.
    - exists tn. auto.
    - exists n1'. split; [auto|]. split; [now rewrite N1|]. exact N5.
    - exists (reg st t), ti', tn. split; [now apply (c_ag _ _ _ _ _ Hc i)|]. split; [auto|]. split; [rewrite Hpt, Ad; now apply points_nth|]. split; [auto|].
      rewrite <- (Hrg i t Ht). split; [reflexivity|]. split; [auto|]. reflexivity.
    - intros j tj Hj. destruct (Htc j tj Hj) as [(-> & ->)|[(-> & ->)|(J1 & J2 & Hj')]].
      + destruct (f_td _ _ _ _ _ Hf i t Ht) as (D1 & _). split; [|congruence]. intros _. rewrite <- (Hrg i t Ht) in D1. exact D1.
      + destruct (f_td _ _ _ _ _ Hf i t Ht) as (_ & D1). split; [congruence|]. intros _. rewrite <- (Hrg i t Ht) in D1. exact D1.
      + destruct (f_td _ _ _ _ _ Hf j tj Hj') as (D1 & D2). rewrite (Hrg j tj Hj'). auto.
    - intros v m Hv Hm. cbn [st_ns st2 st_ts st_ss] in *. destruct (Nat.eq_dec v mx) as [->|Hv'].
      + assert (m = nx') by congruence. subst m. split; auto.
        * intros [] x Hin.
          -- rewrite A6 in Hin. destruct (x_sep _ _ _ _ Hx Asc x Hin) as (g & G1 & G2). exists g. split; auto. now apply nth_app_l.
          -- rewrite A4 in Hin. apply in_app_or in Hin. destruct Hin as [Hin|[<-|Hin]].
             ++ destruct (x_sep _ _ _ _ Hx Desc x) as (g & G1 & G2). { rewrite Ee. apply in_or_app; auto. } exists g. split; auto. now apply nth_app_l.
             ++ exists s. auto.
             ++ destruct (x_sep _ _ _ _ Hx Desc x) as (g & G1 & G2). { rewrite Ee. apply in_or_app; auto. } exists g. split; auto. now apply nth_app_l.
        * intros []; [rewrite A7; apply (x_nd _ _ _ _ Hx)|]. rewrite A5. pose proof (x_nd _ _ _ _ Hx Desc) as Z. pose proof (Hnwn mx nx Desc Hnx) as Z'. rewrite Ei in Z, Z'.
          change (ids1 ++ i :: nw :: ids2) with (ids1 ++ [i] ++ nw :: ids2). rewrite app_assoc. apply NoDup_insert; rewrite <- app_assoc; auto.
        * exists L, R. intros [].
          -- rewrite A6, A7. generalize (HL Asc). apply lane_ext. intros j tj Hj Hj1 Hj2. cbn in Hj2. exists tj. split; auto. apply Hto; auto.
             intros ->. assert (tj = t) by congruence. subst. congruence.
          -- rewrite A4, A5. apply (lane_insert (st_ts st) ts' Desc mx L E1 E2 R ids1 ids2 i t si i nw ti' tn); auto.
             intros j tj Hj Hj1 Hj2. exists tj. split; auto. apply Hto; auto. intros ->. pose proof (x_nd _ _ _ _ Hx Desc) as Z. rewrite Ei in Z. apply NoDup_remove_2 in Z. apply Z. apply in_or_app. tauto.
      + rewrite Hno in Hm by auto. destruct (f_n _ _ _ _ _ Hf v m Hm) as [Y1 Y2 Y3 (L1 & R1 & YL)]. split; auto.
        * intros d x Hin. destruct (Y2 d x Hin) as (g & G1 & G2). exists g. split; auto. now apply nth_app_l.
        * exists L1, R1. intros d. generalize (YL d). apply lane_ext. intros j tj Hj Hj1 Hj2. exists tj. split; auto. apply Hto; auto.
          intros ->. assert (tj = t) by congruence. subst. destruct d; cbn in Hj2; congruence.
    - intros j tj d v Hj Hd Hnot. cbn [st_ns st2 st_ts] in *.
      assert (Hold : forall tj, nth_error (st_ts st) j = Some tj -> tend d tj = Some v -> exists n2, nth_error ns2 v = Some n2 /\ In j (iter_trapezoids n2 (opp d))).
      { clear tj Hj Hd. intros tj Hj Hd. destruct (f_c _ _ _ _ _ Hf j tj d v Hj Hd) as (m & Q1 & Q2). destruct (Nat.eq_dec v nd) as [->|Hv].
        - assert (m = n1) by congruence. subst m. exists n1'. split; auto. destruct d; [|tauto]. cbn [opp] in *. now rewrite N4.
        - destruct (Nat.eq_dec v mx) as [->|Hv']; [|exists m; rewrite Hno by auto; auto]. assert (m = nx) by congruence. subst m. exists nx'. split; auto.
          destruct d; cbn [opp] in *; [|now rewrite A7]. rewrite A5. rewrite Ei in Q2. apply in_app_or in Q2. apply in_or_app. destruct Q2 as [Q2|[Q2|Q2]]; auto.
          + right. now left. + right. right. now right. }
      destruct (Htc j tj Hj) as [(-> & ->)|[(-> & ->)|(J1 & J2 & Hj')]]; [| |eauto].
      + apply (Hold t); auto.
      + destruct d; cbn [tend tn t_u t_d] in Hd; [|exfalso; apply Hnot; split; auto; congruence].
        assert (v = mx) by congruence. subst v. exists nx'. split; auto. cbn [opp]. rewrite A5. apply in_or_app. right. right. now left.
    - intros x g d Hg Hnot. cbn [st_ss st_ns st2] in *. apply nth_snoc_cases in Hg. destruct Hg as [(-> & ->)|(Hl & Hg)].
      + destruct d; [|exfalso; apply Hnot; auto]. exists nx'. split; auto. cbn [opp]. rewrite A4. apply in_or_app. right. now left.
      + destruct (f_s _ _ _ _ _ Hf x g d Hg) as (m & Q1 & Q2). set (v := send d g) in *. clearbody v. destruct (Nat.eq_dec v nd) as [->|Hv].
        * assert (m = n1) by congruence. subst m. exists n1'. split; auto. now rewrite N3.
        * destruct (Nat.eq_dec v mx) as [->|Hv']; [|exists m; rewrite Hno by auto; auto]. assert (m = nx) by congruence. subst m. exists nx'. split; auto.
          destruct d; cbn [opp] in *; [|now rewrite A6]. rewrite A4. rewrite Ee in Q2. apply in_app_or in Q2. apply in_or_app. destruct Q2; auto. right. now right.
    - intros v m Hm. cbn [st_ns st2] in Hm. unfold dg1. destruct (Nat.eqb_spec v mx) as [->|Hv'].
      + assert (m = nx') by congruence. subst m. rewrite Hnx, A9. lia.
      + destruct (Nat.eq_dec v nd) as [->|Hv].
        * assert (m = n1') by congruence. subst m. rewrite Hn1, deg_seps, !N3, <- deg_seps. lia.
        * rewrite Hno in Hm by auto. rewrite Hm. lia. }
  split; [reflexivity|]. split; [auto|]. split. { intros p q Hp Hnp Hlp. apply Hkeep; auto. eapply loc_seg; eauto. }
  split. { cbn [st_ts st2]. unfold ts'. rewrite app_length, upd_length. cbn. lia. }
  split.
  { cbn [st_ts st_qs st2]. unfold ts'. rewrite adj_app. rewrite !app_length, upd_length. cbn [length].
    assert (Z0 : forall j tj, nth_error (st_ts st) j = Some tj -> has_side si tj = false).
    { intros j tj Hj. destruct (c_in _ _ _ _ _ Hc j tj Hj) as [Y1 Y2 _ _]. unfold has_side, onat_eqb. apply orb_false_iff. split.
      - destruct (t_l tj) as [x|]; auto. apply Nat.eqb_neq. specialize (Y1 x eq_refl). unfold medges in Y1. rewrite map_length in Y1. unfold si. lia.
      - destruct (t_r tj) as [x|]; auto. apply Nat.eqb_neq. specialize (Y2 x eq_refl). unfold medges in Y2. rewrite map_length in Y2. unfold si. lia. }
    pose proof (adj_upd (st_ts st) i t ti' si Ht) as Z1. rewrite (Z0 i t Ht) in Z1.
    assert (has_side si ti' = true) as Z2 by (unfold has_side, ti', onat_eqb; cbn; now rewrite Nat.eqb_refl, ?orb_true_r).
    assert (has_side si tn = true) as Z3 by (unfold has_side, tn, onat_eqb; cbn; now rewrite Nat.eqb_refl, ?orb_true_r).
    assert (adj (st_ts st) si = 0) as Z4.
    { apply adj_none. intros tj Hin. apply In_nth_error in Hin. destruct Hin as (j & Hj). eauto. }
    rewrite Z2, Z4 in Z1. rewrite Z3. cbn [b2n] in *. lia. }
  split.
  { assert (Z0 : forall j tj, nth_error (st_ts st) j = Some tj -> has_side si tj = false).
    { intros j tj Hj. destruct (c_in _ _ _ _ _ Hc j tj Hj) as [Y1 Y2 _ _]. unfold has_side, onat_eqb. apply orb_false_iff. split.
      - destruct (t_l tj) as [x|]; auto. apply Nat.eqb_neq. specialize (Y1 x eq_refl). unfold medges in Y1. rewrite map_length in Y1. unfold si. lia.
      - destruct (t_r tj) as [x|]; auto. apply Nat.eqb_neq. specialize (Y2 x eq_refl). unfold medges in Y2. rewrite map_length in Y2. unfold si. lia. }
    assert (Hkl : t_k t < length (st_qs st)) by (eapply nth_lt; apply (c_q1 _ _ _ _ _ Hc i t Ht)).
    apply (once_cut _ st st2 (t_k t) i ql (ql + 1) (QX (s_cmin s) (s_cmax s)) i nw ti' tn t); auto.
    - apply (c_q1 _ _ _ _ _ Hc i t Ht).
    - intros j q Hj Hq. cbn [st_qs st2]. do 2 apply nth_app_l. now rewrite nth_upd_ne by auto.
    - cbn [st_qs st2]. do 2 apply nth_app_l. now apply nth_upd_eq.
    - cbn [st_qs st2]. apply nth_app_l. rewrite nth_error_app2 by (rewrite upd_length; unfold ql; lia). rewrite upd_length. unfold ql. now rewrite Nat.sub_diag.
    - cbn [st_qs st2]. rewrite nth_error_app2 by (rewrite app_length, upd_length; unfold ql; cbn; lia). rewrite app_length, upd_length. unfold ql. cbn [length]. now rewrite Nat.sub_diag.
    - unfold has_side, ti', onat_eqb. cbn. now rewrite Nat.eqb_refl, ?orb_true_r.
    - unfold has_side, tn, onat_eqb. cbn. now rewrite Nat.eqb_refl, ?orb_true_r.
    - rewrite (Z0 i t Ht). discriminate.
    - intros j k Hk tj Hj. destruct (c_q2 _ _ _ _ _ Hc k j Hk) as (tj' & Y1 & Y2). congruence.
    - intros j tj Hj Hjt. exists tj. split; auto. }
  intros k. unfold add_segment, rdu, rd. cbv zeta. rewrite Hnx. cbn [bind].
  fold mx. replace (mkSeg (s_min s) mx (s_cmin s) (s_cmax s)) with s by (unfold mx; destruct s; reflexivity). fold ss1 si. rewrite Hs1. cbn [bind]. rewrite Hgd. cbn [bind]. rewrite Ht. cbn [bind]. rewrite (c_q1 _ _ _ _ _ Hc i t Ht). cbn [bind].
  cbn [split_vertical set_sink t_d t_l t_r t_u t_k]. fold nw ql. rewrite A1. cbn [bind]. rewrite Ed. cbn [ok_or bind]. rewrite Hn1b. cbn [bind]. rewrite N6. cbn [bind].
  replace (mkTrap (t_l t) (Some si) (Some nd) (t_u t) ql) with ti' by (unfold ti'; now rewrite Ed). replace (mkTrap (Some si) (t_r t) (Some nd) (t_u t) (ql + 1)) with tn by (unfold tn; now rewrite Ed).
  reflexivity.
Qed.

(** ** Same nexus places *)

Lemma core_same st ns' : core st -> same_ns (st_ns st) ns' -> core (mkState ns' (st_ss st) (st_ts st) (st_qs st)).
Proof.
  intros Hc Hsn. set (st' := mkState ns' (st_ss st) (st_ts st) (st_qs st)). assert (Hp : points st' = points st) by now apply same_ns_c.
  assert (Hr : forall x, reg st' x = reg st x) by (intros x; unfold reg; now rewrite Hp).
  assert (Hl : forall p q, loc st p q -> loc st' p q). { intros p q (i & t & L1 & L2 & L3). exists i, t. rewrite Hr. auto. }
  pose proof Hc as [C1 C2 C3 C4 C5 C6 C7 C8 C9 C10 C11 C12 C13 C14 C15 C16]. split; rewrite ?Hp; auto.
  - intros n Hn. apply In_nth_error in Hn. destruct Hn as (v & Hv). cbn [st_ns st'] in Hv.
    destruct (nth_error (st_ns st) v) as [n0|] eqn:E0.
    + destruct (sn_nth _ _ _ _ Hsn E0) as (n' & Hn' & K1 & K2). assert (n' = n) by congruence. subst. rewrite K1, K2. apply C3. eapply nth_error_In; eauto.
    + exfalso. apply nth_error_None in E0. apply nth_lt in Hv. destruct Hsn as (S1 & _). apply (f_equal (@length _)) in S1. rewrite !map_length in S1. lia.
  - intros i t Ht. rewrite Hr. eauto.
  - intros i t p Ht Hpp. rewrite Hr. eauto.
  - intros i t Ht. rewrite Hr. eauto.
  - intros p i j t t' Hpw Hn Hi Hj. rewrite !Hr. eauto.
Qed.

(** ** Reaching the lower end *)

Lemma last_join dg st si s tl tr dbg : mid dg st si s (s_min s) tl tr -> dg (s_min s) <= 1 ->
  exists n', nexus_add_segment (st_ns st) (st_ss st) (s_min s) si tr = Ok (upd (st_ns st) (s_min s) n') /\
    let st4 := mkState (upd (st_ns st) (s_min s) n') (st_ss st) (st_ts st) (st_qs st) in
    full st4 /\ same_ns (st_ns st) (st_ns st4) /\ deg n' = S (dg (s_min s)) /\ evt (fun k => check_consistency dbg k st4) tt.
Proof.
  intros Hm Hdg. pose proof (m_core _ _ _ _ _ _ _ _ _ _ _ Hm) as Hc. pose proof (m_s _ _ _ _ _ _ _ _ _ _ _ Hm) as Hs. set (e := sedge s) in *.
  destruct (m_n _ _ _ _ _ _ _ _ _ _ _ Hm) as (n & Hn & _ & Hat). fold e in Hat.
  destruct (c_ss _ _ _ _ _ Hc si s Hs) as (Pmin & Pmax & He). fold e in He.
  destruct (points_inv _ _ _ Pmax) as (nmax & Hnmax & Emax). pose proof Pmin as Ecn. rewrite (points_nth _ _ _ Hn) in Ecn. injection Ecn as Ecn.
  pose proof (e_lt W Es M HG HM _ He) as Hlt. cbn in Hlt.
  assert (Hne : s_min s <> s_max s). { intros E. rewrite E, Pmax in Pmin. injection Pmin as E'. rewrite E' in Hlt. lra. }
  destruct Hat as [K1 K2 K3 (L & R & ids1 & ids2 & E1 & E2 & LD & LA & HND & Hlen & Hall & Hview)].
  destruct Hview as [(_ & V1 & V2)|[(V & _)|(V & _)]]; [|contradiction|contradiction].
  destruct (m_tl _ _ _ _ _ _ _ _ _ _ _ Hm) as (ttl & Httl & TLr & TLd). destruct (m_tr _ _ _ _ _ _ _ _ _ _ _ Hm) as (ttr & Httr & TRl & TRd).
  pose proof (m_dg _ _ _ _ _ _ _ _ _ _ _ Hm _ n Hn) as Hdn.
  assert (Hlen1 : length E1 + length E2 <= 1). { rewrite deg_seps, V2, app_length in Hdn. lia. }
  (* the edges already at the lower end *)
  assert (Hcut : t_l ttl = last (map Some E1) L /\ t_r ttr = hd R (map Some E2)).
  { pose proof LA as LA1. destruct (lane_pos' (st_ts st) Asc (s_min s) L E1 (si :: E2) R ids1 (tr :: ids2) tl LA Hlen) as (t0 & T1 & T2 & _). assert (t0 = ttl) by congruence. subst. split; auto.
    replace (ids1 ++ tl :: tr :: ids2) with ((ids1 ++ [tl]) ++ tr :: ids2) in LA1 by (rewrite <- app_assoc; reflexivity).
    replace (E1 ++ si :: E2) with ((E1 ++ [si]) ++ E2) in LA1 by (rewrite <- app_assoc; reflexivity).
    destruct (lane_pos' _ _ _ _ _ _ _ _ _ _ LA1) as (t0 & T3 & _ & T4 & _). { rewrite !app_length. cbn. lia. } congruence. }
  destruct Hcut as (TLl & TRr).
  assert (Hsm : forall x g, In x (E1 ++ E2) -> nth_error (st_ss st) x = Some g -> In (sedge g) Es /\ e <> sedge g /\ fst e = fst (sedge g)).
  { intros x g Hin Hg. destruct (K2 Asc x) as (g' & Hg' & G). { now rewrite V2. } assert (g' = g) by congruence. subst g'. cbn in G.
    destruct (c_ss _ _ _ _ _ Hc x g Hg) as (G1 & G2 & G3). split; auto.
    assert (fst e = fst (sedge g)). { rewrite G, Pmin in G1. cbn. congruence. }
    split; auto. intros E. assert (x = si). { apply (medges_eq W Es M gv st x si e Hc); [rewrite E|]; now apply medges_nth. } subst x.
    clear - LA Hlen Hin HND K2 V2 Hc Hs Httl TLr TLl TLd TRr TRl Httr Hlen1 HG HM Hdn.
    apply in_app_or in Hin. destruct Hin as [Hin|Hin].
    - destruct E1 as [|y [|]]; cbn in Hin, Hlen1; try lia; try contradiction. destruct Hin as [->|[]]. cbn in TLl.
      destruct (reg_l W Es M gv st tl ttl si Hc Httl TLl) as (g1 & Hg1 & Al). destruct (reg_r W Es M gv st tl ttl si Hc Httl TLr) as (g2 & Hg2 & Ar). assert (g2 = g1) by congruence. subst.
      pose proof (c_ag _ _ _ _ _ Hc tl ttl Httl) as Hag. destruct (agood_has _ Hag) as (h & Hh). pose proof (a_lr _ _ _ _ Hag _ _ h Al Ar Hh). lra.
    - destruct E2 as [|y [|]]; cbn in Hin, Hlen1; try lia; try contradiction. destruct Hin as [->|[]]. cbn in TRr.
      destruct (reg_l W Es M gv st tr ttr si Hc Httr TRl) as (g1 & Hg1 & Al). destruct (reg_r W Es M gv st tr ttr si Hc Httr TRr) as (g2 & Hg2 & Ar). assert (g2 = g1) by congruence. subst.
      pose proof (c_ag _ _ _ _ _ Hc tr ttr Httr) as Hag. destruct (agood_has _ Hag) as (h & Hh). pose proof (a_lr _ _ _ _ Hag _ _ h Al Ar Hh). lra. }
  destruct (nexus_add_ok (st_ns st) (st_ss st) (s_min s) si tl tr n s nmax Asc ids1 ids2 E1 E2) as (n' & A1 & A2 & A3 & A4 & A5 & A6 & A7 & A8 & A9); auto.
  { lia. }
  { intros x Hin. destruct (K2 Asc x) as (g & Hg & _); [now rewrite V2|]. eauto. }
  { intros x g Hin Hg. destruct (Hsm x g) as (G1 & G2 & G3); auto. { apply in_or_app; auto. } rewrite Emax. unfold is_on_left.
    destruct (ord_min W Es M HG HM e (sedge g) He G1 G2 G3) as [(_ & O2 & _)|(_ & _ & O3)]; [exact O2|exfalso].
    destruct E1 as [|y [|]]; cbn in Hin, Hlen1; try lia; try contradiction. destruct Hin as [->|[]]. cbn in TLl.
    destruct (reg_l W Es M gv st tl ttl x Hc Httl TLl) as (g1 & Hg1 & Al). assert (g1 = g) by congruence. subst.
    destruct (reg_r W Es M gv st tl ttl si Hc Httl TLr) as (g2 & Hg2 & Ar). assert (g2 = s) by congruence. subst.
    pose proof (c_ag _ _ _ _ _ Hc tl ttl Httl) as Hag. destruct (agood_has _ Hag) as (h & Hh). pose proof (a_lr _ _ _ _ Hag _ _ h Al Ar Hh) as Z.
    destruct (a_l _ _ _ _ Hag _ Al) as (_ & S1). destruct (a_r _ _ _ _ Hag _ Ar) as (_ & S2). specialize (O3 h (spans_within M _ _ _ S2 Hh) (spans_within M _ _ _ S1 Hh)). fold e in Z. lra. }
  { intros x g Hin Hg. destruct (Hsm x g) as (G1 & G2 & G3); auto. { apply in_or_app; auto. } rewrite Emax. unfold is_on_left.
    destruct (ord_min W Es M HG HM e (sedge g) He G1 G2 G3) as [(_ & _ & O3)|(_ & O2 & _)]; [exfalso|exact O2].
    destruct E2 as [|y [|]]; cbn in Hin, Hlen1; try lia; try contradiction. destruct Hin as [->|[]]. cbn in TRr.
    destruct (reg_l W Es M gv st tr ttr si Hc Httr TRl) as (g2 & Hg2 & Al). assert (g2 = s) by congruence. subst.
    destruct (reg_r W Es M gv st tr ttr x Hc Httr TRr) as (g1 & Hg1 & Ar). assert (g1 = g) by congruence. subst.
    pose proof (c_ag _ _ _ _ _ Hc tr ttr Httr) as Hag. destruct (agood_has _ Hag) as (h & Hh). pose proof (a_lr _ _ _ _ Hag _ _ h Al Ar Hh) as Z.
    destruct (a_l _ _ _ _ Hag _ Al) as (_ & S1). destruct (a_r _ _ _ _ Hag _ Ar) as (_ & S2). specialize (O3 h (spans_within M _ _ _ S1 Hh) (spans_within M _ _ _ S2 Hh)). fold e in Z. lra. }
  cbn [opp] in A6, A7. exists n'. split; auto. intros st4.
  assert (Hsn : same_ns (st_ns st) (st_ns st4)) by (eapply same_upd; eauto).
  assert (Hpt : points st4 = points st) by now apply same_ns_c.
  assert (Hrg : forall x, reg st4 x = reg st x) by (intros x; unfold reg; rewrite Hpt; reflexivity).
  assert (Hnn : nth_error (st_ns st4) (s_min s) = Some n'). { apply nth_upd_eq. eapply nth_lt; eauto. }
  assert (Hno : forall v, v <> s_min s -> nth_error (st_ns st4) v = nth_error (st_ns st) v). { intros v Hv. cbn. now rewrite nth_upd_ne by auto. }
  assert (HF : full st4).
  { split.
    - now apply core_same.
    - intros j tj Hj. rewrite Hrg. cbn [st_ts st4] in Hj. destruct (m_td _ _ _ _ _ _ _ _ _ _ _ Hm j tj Hj) as (D1 & D2). split.
      + destruct (Nat.eq_dec j tr) as [->|J]; auto. assert (tj = ttr) by congruence. subst.
        destruct (reg_l W Es M gv st tr ttr si Hc Httr TRl) as (g2 & Hg2 & ->). assert (g2 = s) by congruence. subst.
        destruct (reg_end W Es M gv st tr ttr Desc (s_min s) Hc Httr TRd) as (n0 & Hn0 & Ed0). assert (n0 = n) by congruence. subst n0. cbn [aend] in Ed0. rewrite Ed0, Ecn. cbn.
        change (X e (ht (fst e)) <= cx (fst e))%Q. rewrite X_min. lra.
      + destruct (Nat.eq_dec j tl) as [->|J]; auto. assert (tj = ttl) by congruence. subst.
        destruct (reg_r W Es M gv st tl ttl si Hc Httl TLr) as (g2 & Hg2 & ->). assert (g2 = s) by congruence. subst.
        destruct (reg_end W Es M gv st tl ttl Desc (s_min s) Hc Httl TLd) as (n0 & Hn0 & Ed0). assert (n0 = n) by congruence. subst n0. cbn [aend] in Ed0. rewrite Ed0, Ecn. cbn.
        change (cx (fst e) <= X e (ht (fst e)))%Q. rewrite X_min. lra.
    - intros v m Hv. destruct (Nat.eq_dec v (s_min s)) as [->|Hv']; [|rewrite Hno in Hv by auto; now apply (m_nx _ _ _ _ _ _ _ _ _ _ _ Hm)].
      assert (m = n') by congruence. subst m. split; auto.
      + intros [] x Hin.
        * rewrite A4 in Hin. apply in_app_or in Hin. destruct Hin as [Hin|[<-|Hin]].
          -- apply (K2 Asc). rewrite V2. apply in_or_app; auto.
          -- exists s. auto.
          -- apply (K2 Asc). rewrite V2. apply in_or_app; auto.
        * rewrite A6 in Hin. now apply (K2 Desc).
      + intros []; [now rewrite A5|now rewrite A7].
      + exists L, R. intros []; [now rewrite A4, A5|now rewrite A6, A7].
    - intros j tj d v Hj Hd. cbn [st_ts st4] in Hj. destruct (Nat.eq_dec v (s_min s)) as [->|Hv].
      + exists n'. split; auto. destruct d; cbn [opp].
        * rewrite A7. destruct (m_c _ _ _ _ _ _ _ _ _ _ _ Hm j tj Asc (s_min s) Hj Hd) as (m & Q1 & Q2); [intros (? & _); discriminate|]. assert (m = n) by congruence. subst. exact Q2.
        * rewrite A5. eauto.
      + rewrite Hno by auto. apply (m_c _ _ _ _ _ _ _ _ _ _ _ Hm j tj d v); tauto.
    - intros x g d Hg. cbn [st_ss st4] in Hg.
      assert (Hdec : (x = si /\ d = Desc) \/ ~ (x = si /\ d = Desc)). { destruct (Nat.eq_dec x si), d; try (right; intros (? & ?); congruence). left; auto. }
      destruct Hdec as [(-> & ->)|Hx].
      + assert (g = s) by congruence. subst. exists n'. split; auto. cbn [opp]. rewrite A4. apply in_or_app. right. now left.
      + destruct (m_f _ _ _ _ _ _ _ _ _ _ _ Hm x g d Hg Hx) as (m & Q1 & Q2). set (v := send d g) in *. clearbody v.
        destruct (Nat.eq_dec v (s_min s)) as [->|Hv]; [|exists m; rewrite Hno by auto; auto]. assert (m = n) by congruence. subst. exists n'. split; auto.
        destruct d; cbn [opp] in *; [now rewrite A6|]. rewrite A4. rewrite V2 in Q2. apply in_app_or in Q2. apply in_or_app. destruct Q2; auto. right. now right. }
  split; auto. split; auto. split; [lia|]. now apply (check_ok W Es M gv).
Qed.

(** ** [add_segment] (src/trapezoidation.rs 472-558) *)

Theorem add_segment_ok st mn mx cmn cmx dbg : full st ->
  nth_error (points st) mn = Some cmn -> nth_error (points st) mx = Some cmx -> In (cmn, cmx) Es -> ~ In (cmn, cmx) (medges st) ->
  (forall v n, nth_error (st_ns st) v = Some n -> v = mn \/ v = mx -> deg n <= 1) ->
  (forall v n, nth_error (st_ns st) v = Some n -> v <> mn -> v <> mx -> 1 <= deg n) ->
  exists st', evt (fun k => add_segment ieqb dbg k st mn mx cmn cmx) st' /\ full st' /\ st_ss st' = st_ss st ++ [mkSeg mn mx cmn cmx] /\
    same_ns (st_ns st) (st_ns st') /\ (forall p q, In p W -> ~ In p (points st') -> loc st p q -> loc st' p q) /\
    (forall v n n', nth_error (st_ns st) v = Some n -> nth_error (st_ns st') v = Some n' ->
       deg n' = deg n + (if Nat.eqb v mn then 1 else 0) + (if Nat.eqb v mx then 1 else 0)) /\
    length (st_ts st') = S (length (st_ts st)) /\ length (st_qs st') = length (st_qs st) + adj (st_ts st') (length (st_ss st)) /\
    deep 1 (fun t => has_side (length (st_ss st)) t = true) st st'.
Proof.
  intros Hf Pmin Pmax He Hni Hd1 Hd2. set (s := mkSeg mn mx cmn cmx). destruct (points_inv _ _ _ Pmax) as (nx & Hnx & Enx). destruct (points_inv _ _ _ Pmin) as (nn & Hnn & Enn).
  pose proof (e_lt W Es M HG HM _ He) as Hlt. cbn in Hlt.
  assert (Hne : mn <> mx). { intros E. rewrite E, Pmax in Pmin. injection Pmin as E'. rewrite E' in Hlt. lra. }
  destruct (first_cut st s nx dbg) as (st2 & ni & tl & tr & B1 & B2 & B3 & B4 & G1 & G2 & G5 & B5); auto. { apply (Hd1 mx); auto. }
  destruct (seg_loop_ok W Es M gv HG HM ieqb Hieq _ _ _ _ _ _ _ B1) as (st3 & tl3 & tr3 & (N & HN) & D1 & D2 & D3 & D4 & (G3 & G4 & G6)).
  { intros v n Hv V1 V2. unfold dg1. destruct (nth_error (st_ns st) v) as [m|] eqn:Em; [specialize (Hd2 v m Em V1 V2); lia|].
    exfalso. destruct B3 as (B3 & _). apply nth_error_None in Em. apply nth_lt in Hv. apply (f_equal (@length _)) in B3. rewrite !map_length in B3. lia. }
  destruct (last_join _ _ _ _ _ _ dbg D1) as (n' & F1 & F2 & F3 & F4 & (N2 & F5)).
  { unfold dg1. cbn [s_min s_max s]. rewrite Hnn, (proj2 (Nat.eqb_neq _ _) Hne). specialize (Hd1 mn nn Hnn). lia. }
  set (st4 := mkState (upd (st_ns st3) (s_min s) n') (st_ss st3) (st_ts st3) (st_qs st3)) in *.
  exists st4. split.
  { exists (max N N2). intros k Hk. specialize (B5 k). cbn [s_min s_max s_cmin s_cmax s] in B5. rewrite B5. change (seg_loop ieqb k st2 (length (st_ss st)) mn cmn cmx ni tl tr) with (seg_loop ieqb k st2 (length (st_ss st)) (s_min s) (s_cmin s) (s_cmax s) ni tl tr). rewrite HN by lia. cbn [bind].
    cbn [s_min s] in F1. rewrite F1. cbn [bind]. assert (Z : N2 <= k) by lia. specialize (F5 k Z). unfold st4 in F5 |- *. cbn [s_min s] in F5 |- *. rewrite F5. reflexivity. }
  split; auto. split. { cbn [st_ss st4]. rewrite D2, B2. reflexivity. } split. { eapply same_ns_trans; [exact B3|]. eapply same_ns_trans; eauto. }
  assert (Hpt : points st4 = points st3) by now apply same_ns_c. assert (Hpt3 : points st3 = points st2) by now apply same_ns_c.
  split.
  { intros p q Hp Hnp Hl. assert (loc st3 p q) as (i & t & L1 & L2 & L3). { apply D4; auto; [congruence|]. apply B4; auto. congruence. }
    exists i, t. split; auto. split; auto. unfold reg in *. rewrite Hpt. exact L2. }
  split; [|cbn [st_ts st_qs st4]; split; [lia|]; split; [lia|]; apply once_deep; exact (once_trans _ _ _ _ G5 G6)].
  intros v n m Hv Hm. cbn [st_ns st4] in Hm. apply nth_upd_cases in Hm. cbn [s_min s] in Hm. destruct Hm as [(-> & -> & _)|(Hv' & Hm)].
  - rewrite F4. unfold dg1. cbn [s_min s_max s]. rewrite Hv, Nat.eqb_refl, (proj2 (Nat.eqb_neq _ _) Hne). lia.
  - rewrite (m_dg _ _ _ _ _ _ _ _ _ _ _ D1 v m Hm). unfold dg1. cbn [s_max s]. rewrite Hv, (proj2 (Nat.eqb_neq _ _) Hv'). lia.
Qed.

End Seg.
