(** Inserting a vertex keeps the invariants. *)
From Coq Require Import QArith Lqa List Arith Lia Bool.
From Verif Require Import Base Coord Trap Lanes Plane Geo Region TrapInv Depth.
Import ListNotations.
Local Open Scope nat_scope.

Section AddVertex.
Context {I : Type}.
Variables (W : list point) (Es : list edge) (M : Q) (gv : I -> point).
Hypothesis HG : geo W Es.
Hypothesis HM : shear M W.
Notation stt := (state Q I).
Notation ht := (ht M).
Notation X := (X M).
Notation inside := (inside M).
Notation agood := (agood W Es M).
Notation core := (core W Es M gv).
Notation full := (full W Es M gv).
Notation loc := (loc M).

(** What an insertion does to the rest: old searches still work, old nexuses keep their number of dividers. *)
Definition keeps (st st' : stt) : Prop :=
  (forall p q, In p W -> ~ In p (points st') -> loc st p q -> loc st' p q) /\
  (forall v n, nth_error (st_ns st) v = Some n -> exists n', nth_error (st_ns st') v = Some n' /\ n_c n' = n_c n).

Lemma nth_snoc_cases {A} (l : list A) x j y : nth_error (l ++ [x]) j = Some y -> (j = length l /\ y = x) \/ (j < length l /\ nth_error l j = Some y).
Proof.
  intros H. destruct (Nat.lt_ge_cases j (length l)) as [Hl|Hl].
  - right. rewrite nth_error_app1 in H; auto.
  - left. rewrite nth_error_app2 in H by lia. destruct (j - length l) as [|[|m]] eqn:E; cbn in H; try discriminate. split; [lia|congruence].
Qed.

Lemma list_ext {A} (l l' : list A) : (forall i, nth_error l i = nth_error l' i) -> l = l'.
Proof.
  revert l'. induction l as [|a l IH]; intros [|b l'] H; auto.
  - specialize (H 0). discriminate.
  - specialize (H 0). discriminate.
  - pose proof (H 0) as H0. cbn in H0. injection H0 as ->. f_equal. apply IH. intros i. apply (H (S i)).
Qed.

Lemma NoDup_snoc {A} (l : list A) x : NoDup l -> ~ In x l -> NoDup (l ++ [x]).
Proof.
  induction l as [|a l IH]; intros Hn Hx; cbn; [repeat constructor; auto|]. inversion Hn; subst. constructor.
  - intros K. apply in_app_or in K. destruct K as [K|[<-|[]]]; auto. apply Hx. now left.
  - apply IH; auto. intros K. apply Hx. now right.
Qed.

Lemma nth_upd_cases {A} (l : list A) i x j y : nth_error (upd l i x) j = Some y -> (j = i /\ y = x /\ i < length l) \/ (j <> i /\ nth_error l j = Some y).
Proof.
  intros H. rewrite nth_upd in H. destruct (Nat.eqb_spec i j) as [->|Hne].
  - destruct (nth_error l j) eqn:E; [|discriminate]. injection H as <-. left. split; auto. split; auto. eapply nth_lt; eauto.
  - right. auto.
Qed.

Lemma use_left_y c p : In c W -> In p W -> p <> c -> (use_left (QY c) p = true <-> (ht p < ht c)%Q).
Proof.
  intros Hc Hp Hne. cbn. rewrite coords_le_spec. rewrite (ht_lt W M HM) by auto. split; intros H.
  - destruct (ht_tri W Es M HG HM p c Hp Hc) as [K|[K|K]]; auto; contradiction.
  - intros K. lra.
Qed.

(** Each new vertex adds a trapezoid and two query nodes, one more on the way to the two parts. *)
Definition vgrow (n : nat) (st st' : stt) : Prop :=
  (exists l, points st' = points st ++ l) /\
  length (st_ts st') + length (points st) = length (st_ts st) + length (points st') /\
  length (st_qs st') + 2 * length (points st) = length (st_qs st) + 2 * length (points st') /\
  deep n (fun t => exists v, length (points st) <= v /\ (t_d t = Some v \/ t_u t = Some v)) st st'.

Lemma vgrow_refl st : vgrow 0 st st.
Proof. split; [exists []; now rewrite app_nil_r|]. split; auto. split; auto. apply deep_refl. Qed.

Lemma vgrow_trans n m st st1 st2 : vgrow n st st1 -> vgrow m st1 st2 -> vgrow (n + m) st st2.
Proof.
  intros ((l & A1) & A2 & A3 & A4) ((l' & B1) & B2 & B3 & B4). split; [exists (l ++ l'); now rewrite B1, A1, app_assoc|]. split; [lia|]. split; [lia|].
  eapply deep_weaken; [exact (deep_trans _ _ _ _ _ _ _ A4 B4)|lia|]. intros t [?|(v & Hv & K)]; auto. exists v. split; auto. rewrite A1, app_length in Hv. lia.
Qed.

Theorem add_vertex_ok st vi q dbg : full st -> In (gv vi) W -> ~ In (gv vi) (points st) -> loc st (gv vi) q ->
  exists st', evt (fun k => add_vertex gv dbg k st vi q) (st', length (st_ns st)) /\ full st' /\
    points st' = points st ++ [gv vi] /\ st_ss st' = st_ss st /\ keeps st st' /\
    (forall v n', nth_error (st_ns st') v = Some n' ->
       (v = length (st_ns st) /\ deg n' = 0) \/ exists n, nth_error (st_ns st) v = Some n /\ deg n' = deg n) /\
    vgrow 1 st st'.
Proof.
  intros Hf HcW Hcn (i & t & Ht & Hin & Hfind). pose proof (f_core _ _ _ _ _ Hf) as Hc.
  set (c := gv vi) in *. set (k := t_k t) in *. pose proof (c_q1 _ _ _ _ _ Hc i t Ht) as Hk. fold k in Hk.
  set (ti_new := length (st_ts st)). set (qd := length (st_qs st)). set (qu := qd + 1). set (ni := length (st_ns st)).
  set (td := mkTrap (t_l t) (t_r t) (t_d t) (Some ni) qd). set (tu := mkTrap (t_l t) (t_r t) (Some ni) (t_u t) qu).
  set (qs1 := (upd (st_qs st) k (QBranch qd qu (QY c)) ++ [QSink i]) ++ [QSink ti_new]).
  set (ts1 := upd (st_ts st) i td ++ [tu]).
  assert (Hil : i < length (st_ts st)) by (eapply nth_lt; eauto).
  assert (Hkl : k < length (st_qs st)) by (eapply nth_lt; eauto).
  (* the nexuses *)
  assert (Hns : exists ns2,
    (match t_u t with Some nu => modify (st_ns st ++ [nexus_new vi c ti_new i]) nu (replace_trapezoid i ti_new) | None => Ok (st_ns st ++ [nexus_new vi c ti_new i]) end) = Ok ns2 /\
    length ns2 = S ni /\ nth_error ns2 ni = Some (nexus_new vi c ti_new i) /\
    forall v n, nth_error (st_ns st) v = Some n -> exists n', nth_error ns2 v = Some n' /\ n_c n' = n_c n /\ n_v n' = n_v n /\
      (forall d', seps n' d' = seps n d') /\ dorder n' /\ iter_trapezoids n' Asc = iter_trapezoids n Asc /\
      iter_trapezoids n' Desc = replf i ti_new (iter_trapezoids n Desc)).
  { assert (Hnot : forall v n, nth_error (st_ns st) v = Some n -> t_u t <> Some v -> ~ In i (iter_trapezoids n Desc)).
    { intros v n Hn Hne Hi. destruct (x_lane _ _ _ _ (f_n _ _ _ _ _ Hf v n Hn)) as (L & R & HL).
      destruct (lane_in _ _ _ _ _ _ (HL Desc) Hi) as (t' & Ht' & K). assert (t' = t) by congruence. subst. cbn in K. contradiction. }
    assert (Hl1 : length (st_ns st ++ [nexus_new vi c ti_new i]) = S ni) by (rewrite app_length; cbn; unfold ni; lia).
    destruct (t_u t) as [nu|] eqn:Eu.
    - destruct (f_c _ _ _ _ _ Hf i t Asc nu Ht Eu) as (nn & Hnn & Hi). cbn in Hi.
      pose proof (not_both W Es M gv st i nu nn Desc Hf Hnn Hi) as Hno.
      destruct (replace_ok nn i ti_new Desc Hi Hno) as (nn' & R1 & R2 & R3 & R4 & R5 & R6 & R7).
      exists (upd (st_ns st ++ [nexus_new vi c ti_new i]) nu nn'). split; [|split; [|split]].
      + unfold modify. rewrite (nth_app_l _ _ _ _ _ Hnn), R1. reflexivity.
      + rewrite upd_length. auto.
      + rewrite nth_upd_ne by (apply nth_lt in Hnn; unfold ni; lia). apply nth_snoc.
      + intros v n Hn. destruct (Nat.eq_dec v nu) as [->|Hne].
        * assert (n = nn) by congruence. subst. exists nn'. split. { apply nth_upd_eq. apply nth_lt in Hnn. rewrite Hl1. unfold ni. lia. }
          split; auto. split; auto. split; auto. split; auto. apply R7. apply (x_ord _ _ _ _ (f_n _ _ _ _ _ Hf nu nn Hnn)).
        * exists n. rewrite nth_upd_ne by auto. split; [now apply nth_app_l|]. split; auto. split; auto. split; auto.
          split. { apply (x_ord _ _ _ _ (f_n _ _ _ _ _ Hf v n Hn)). } split; auto. symmetry. apply replf_notin. apply (Hnot v n Hn). congruence.
    - exists (st_ns st ++ [nexus_new vi c ti_new i]). split; auto. split; auto. split; [apply nth_snoc|]. intros v n Hn.
      exists n. split; [now apply nth_app_l|]. split; auto. split; auto. split; auto.
      split. { apply (x_ord _ _ _ _ (f_n _ _ _ _ _ Hf v n Hn)). } split; auto. symmetry. apply replf_notin. apply (Hnot v n Hn). congruence. }
  destruct Hns as (ns2 & Ens & Hlen & Hnew & Hold).
  set (st' := mkState ns2 (st_ss st) ts1 qs1).
  assert (Hinv : forall v n', nth_error ns2 v = Some n' -> (v = ni /\ n' = nexus_new vi c ti_new i) \/ exists n, nth_error (st_ns st) v = Some n /\
      n_c n' = n_c n /\ n_v n' = n_v n /\
      (forall d', seps n' d' = seps n d') /\ dorder n' /\ iter_trapezoids n' Asc = iter_trapezoids n Asc /\
      iter_trapezoids n' Desc = replf i ti_new (iter_trapezoids n Desc)).
  { intros v n' Hn'. destruct (Nat.eq_dec v ni) as [->|Hne]; [left; split; congruence|]. right.
    assert (Hv : v < length (st_ns st)) by (apply nth_lt in Hn'; unfold ni in *; lia). destruct (lt_nth _ _ _ Hv) as (n & Hn).
    exists n. split; auto. destruct (Hold v n Hn) as (n'' & E & K). assert (n'' = n') by congruence. now subst. }
  assert (Hpts : points st' = points st ++ [c]).
  { unfold points. cbn [st_ns st']. apply list_ext. intros v. rewrite nth_error_map.
    destruct (Nat.lt_ge_cases v ni) as [Hv|Hv].
    - destruct (lt_nth _ _ _ Hv) as (n & Hn). destruct (Hold v n Hn) as (n' & -> & E & _). cbn.
      rewrite nth_error_app1 by (rewrite map_length; auto). rewrite nth_error_map, Hn. cbn. congruence.
    - rewrite nth_error_app2 by (rewrite map_length; auto). rewrite map_length. fold ni. destruct (Nat.eq_dec v ni) as [->|Hne].
      + rewrite Hnew, Nat.sub_diag. reflexivity.
      + rewrite (proj2 (nth_error_None ns2 v)) by lia. destruct (v - ni) as [|[|m]] eqn:E; cbn; auto. lia. }
  assert (Hreg : forall j t', nth_error (st_ts st) j = Some t' -> reg st' t' = reg st t').
  { intros j t' Hj. unfold reg. rewrite Hpts. change (medges st') with (medges st). rewrite <- (app_nil_r (medges st)) at 1.
    apply rg_ext. now apply (c_in _ _ _ _ _ Hc j). }
  assert (Hlp : length (points st) = ni) by (unfold points; now rewrite map_length).
  assert (Hrd : reg st' td = a_up c (reg st t)).
  { rewrite <- (Hreg i t Ht). unfold reg, rg, a_up, td. cbn [t_l t_r t_d t_u al ar ad au option_map]. rewrite Hpts. do 2 f_equal. rewrite app_nth2 by lia. now rewrite Hlp, Nat.sub_diag. }
  assert (Hru : reg st' tu = a_down c (reg st t)).
  { rewrite <- (Hreg i t Ht). unfold reg, rg, a_down, tu. cbn [t_l t_r t_d t_u al ar ad au option_map]. rewrite Hpts. do 2 f_equal. rewrite app_nth2 by lia. now rewrite Hlp, Nat.sub_diag. }
  assert (Htsi : nth_error ts1 i = Some td).
  { unfold ts1. apply nth_app_l. now apply nth_upd_eq. }
  assert (Htsn : nth_error ts1 ti_new = Some tu).
  { unfold ts1. replace ti_new with (length (upd (st_ts st) i td)) by (now rewrite upd_length). apply nth_snoc. }
  assert (Htso : forall j t', j <> i -> nth_error (st_ts st) j = Some t' -> nth_error ts1 j = Some t').
  { intros j t' Hne Hj. unfold ts1. apply nth_app_l. now rewrite nth_upd_ne by auto. }
  assert (Htsc : forall j t', nth_error ts1 j = Some t' -> (j = i /\ t' = td) \/ (j = ti_new /\ t' = tu) \/ (j <> i /\ nth_error (st_ts st) j = Some t')).
  { intros j t' Hj. unfold ts1 in Hj. apply nth_snoc_cases in Hj. rewrite upd_length in Hj. destruct Hj as [Hj|(_ & Hj)]; auto.
    apply nth_upd_cases in Hj. destruct Hj as [(? & ? & _)|?]; auto. }
  pose proof (c_ag _ _ _ _ _ Hc i t Ht) as Hag.
  (* the search structure *)
  assert (Hqk : nth_error qs1 k = Some (QBranch qd qu (QY c))).
  { unfold qs1. do 2 apply nth_app_l. now apply nth_upd_eq. }
  assert (Hqd : nth_error qs1 qd = Some (QSink i)).
  { unfold qs1. apply nth_app_l. replace qd with (length (upd (st_qs st) k (QBranch qd qu (QY c)))) at 2 by (now rewrite upd_length). apply nth_snoc. }
  assert (Hqu : nth_error qs1 qu = Some (QSink ti_new)).
  { unfold qs1. replace qu with (length (upd (st_qs st) k (QBranch qd qu (QY c)) ++ [QSink i])) at 2
      by (rewrite app_length, upd_length; reflexivity). apply nth_snoc. }
  assert (Hqo : forall j, j <> k -> j < length (st_qs st) -> nth_error qs1 j = nth_error (st_qs st) j).
  { intros j Hne Hj. unfold qs1. rewrite !nth_error_app1 by (rewrite ?app_length, upd_length; cbn; lia). apply nth_upd_ne; congruence. }
  assert (Hrw : regrow (st_qs st) qs1 k). { split; eauto. }
  assert (Hqlen : length qs1 = qd + 2). { unfold qs1. rewrite !app_length, upd_length. cbn. unfold qd. lia. }
  assert (Hinc : forall p, inside (a_up c (reg st t)) p -> inside (reg st t) p).
  { intros p ((H1 & H2) & H3). split; auto. split; auto. cbn in H2. destruct Hin as ((_ & K) & _).
    unfold Region.otop in *. destruct (au (reg st t)); auto. lra. }
  assert (Hinc2 : forall p, inside (a_down c (reg st t)) p -> inside (reg st t) p).
  { intros p ((H1 & H2) & H3). split; auto. split; auto. cbn in H1. destruct Hin as ((K & _) & _).
    unfold Region.obot in *. destruct (ad (reg st t)); auto. lra. }
  assert (Hcut : forall p, In p W -> p <> c -> inside (reg st t) p ->
    (ht p < ht c)%Q /\ inside (a_up c (reg st t)) p \/ (ht c < ht p)%Q /\ inside (a_down c (reg st t)) p).
  { intros p Hp Hne ((H1 & H2) & H3). destruct (ht_tri W Es M HG HM p c Hp HcW) as [K|[K|K]]; [left|contradiction|right].
    - split; auto. split; auto. split; auto.
    - split; auto. split; auto. split; auto. }
  assert (Hkeep : forall p q, In p W -> ~ In p (points st') -> loc st p q -> loc st' p q).
  { intros p q' Hp Hn (j & t' & Hj & Hij & Hfj). rewrite Hpts in Hn. assert (Hpc : p <> c) by (intros ->; apply Hn; apply in_or_app; right; now left).
    destruct (Nat.eq_dec j i) as [->|Hne].
    - assert (t' = t) by congruence. subst t'. pose proof (use_left_y c p HcW Hp Hpc) as Hu.
      destruct (Hcut p Hp Hpc Hij) as [(K1 & K2)|(K1 & K2)].
      + exists i, td. split; auto. split. { now rewrite Hrd. } cbn [t_k td]. apply (finds_at (st_qs st) _ k); auto.
        apply (F_branch _ _ _ qd qu (QY c)); auto. rewrite (proj2 Hu K1). eapply F_sink; eauto.
      + exists ti_new, tu. split; auto. split. { now rewrite Hru. } cbn [t_k tu]. apply (finds_at (st_qs st) _ k); auto.
        apply (F_branch _ _ _ qd qu (QY c)); auto. destruct (use_left (QY c) p) eqn:E. { pose proof (proj1 Hu eq_refl). lra. } eapply F_sink; eauto.
    - exists j, t'. split; [now apply Htso|]. split. { rewrite (Hreg j); auto. } eapply (finds_other (st_qs st) _ k); eauto.
      intros E. pose proof (c_q1 _ _ _ _ _ Hc j t' Hj) as K. rewrite E, Hk in K. congruence. }
  assert (Hcore : core st').
  { split; cbn [st_ns st_ss st_ts st_qs st'].
    - rewrite Hpts. intros p Hp. apply in_app_or in Hp. destruct Hp as [Hp|[<-|[]]]; auto. now apply (c_W _ _ _ _ _ Hc).
    - rewrite Hpts. apply NoDup_snoc; auto. apply (c_nd _ _ _ _ _ Hc).
    - intros n' Hn'. apply In_nth_error in Hn'. destruct Hn' as (v & Hv). destruct (Hinv v n' Hv) as [(-> & ->)|(n & Hn & E1 & E2 & _)]; auto.
      rewrite E1, E2. apply (c_v _ _ _ _ _ Hc). eapply nth_error_In; eauto.
    - intros j s Hs. rewrite Hpts. destruct (c_ss _ _ _ _ _ Hc j s Hs) as (K1 & K2 & K3). split; [now apply nth_app_l|]. split; [now apply nth_app_l|auto].
    - apply (c_snd _ _ _ _ _ Hc).
    - intros j t' Hj. rewrite Hpts, app_length. change (medges st') with (medges st). cbn [length].
      pose proof (c_in _ _ _ _ _ Hc i t Ht) as [T1 T2 T3 T4].
      destruct (Htsc j t' Hj) as [(-> & ->)|[(-> & ->)|(Hne & Hj')]].
      + split; cbn; auto. { intros n Hn. apply T3 in Hn. lia. } intros n [= <-]. lia.
      + split; cbn; auto. { intros n [= <-]. lia. } intros n Hn. apply T4 in Hn. lia.
      + eapply tin_ext; [| |apply (c_in _ _ _ _ _ Hc j t' Hj')]; lia.
    - intros j t' Hj. destruct (Htsc j t' Hj) as [(-> & ->)|[(-> & ->)|(Hne & Hj')]].
      + rewrite Hrd. now apply cut_up.
      + rewrite Hru. now apply cut_down.
      + rewrite (Hreg j) by auto. now apply (c_ag _ _ _ _ _ Hc j).
    - intros j t' p Hj Hp Hins. rewrite Hpts in Hp. apply in_app_or in Hp.
      destruct (Htsc j t' Hj) as [(-> & ->)|[(-> & ->)|(Hne & Hj')]].
      + rewrite Hrd in Hins. destruct Hp as [Hp|[<-|[]]]. { apply (c_emp _ _ _ _ _ Hc i t p Ht Hp). auto. }
        destruct Hins as ((_ & K) & _). change (ht c < ht c)%Q in K. lra.
      + rewrite Hru in Hins. destruct Hp as [Hp|[<-|[]]]. { apply (c_emp _ _ _ _ _ Hc i t p Ht Hp). auto. }
        destruct Hins as ((K & _) & _). change (ht c < ht c)%Q in K. lra.
      + rewrite (Hreg j) in Hins by auto. destruct Hp as [Hp|[<-|[]]]. { now apply (c_emp _ _ _ _ _ Hc j t' p Hj' Hp). }
        apply Hne. eapply (c_one _ _ _ _ _ Hc c j i); eauto.
    - intros j t' Hj. destruct (Htsc j t' Hj) as [(-> & ->)|[(-> & ->)|(Hne & Hj')]].
      + rewrite Hrd. cbn [al ar ad au a_up]. destruct Hin as (_ & K1 & K2). unfold Region.olft, Region.orgt, touch_l, touch_r in *. split.
        * destruct (al (reg st t)); auto. lra.
        * destruct (ar (reg st t)); auto. lra.
      + rewrite Hru. cbn [al ar ad au a_down]. apply (c_tu _ _ _ _ _ Hc i t Ht).
      + rewrite (Hreg j) by auto. now apply (c_tu _ _ _ _ _ Hc j).
    - intros j t' Hj. destruct (Htsc j t' Hj) as [(-> & ->)|[(-> & ->)|(Hne & Hj')]]; auto.
      pose proof (c_q1 _ _ _ _ _ Hc j t' Hj') as K. rewrite Hqo; auto. { intros E. rewrite E, Hk in K. congruence. } eapply nth_lt; eauto.
    - intros k' j Hk'. assert (Hlt : k' < qd + 2) by (rewrite <- Hqlen; eapply nth_lt; eauto).
      destruct (Nat.eq_dec k' k) as [->|Hne]; [congruence|].
      destruct (Nat.lt_ge_cases k' qd) as [Hl|Hl].
      + rewrite Hqo in Hk' by auto. destruct (c_q2 _ _ _ _ _ Hc k' j Hk') as (t' & Hj & E).
        assert (Hji : j <> i). { intros ->. assert (t' = t) by congruence. subst. now apply Hne. }
        exists t'. split; auto.
      + assert (k' = qd \/ k' = qu) as [-> | ->] by (unfold qu; lia).
        * assert (j = i) by congruence. subst. exists td. auto.
        * assert (j = ti_new) by congruence. subst. exists tu. auto.
    - intros k' Hk'. assert (Wk : wfq qs1 k). { apply (W_branch _ _ _ _ _ Hqk); eapply W_sink; eauto. }
      destruct (Nat.lt_ge_cases k' qd) as [Hl|Hl].
      + apply (wfq_regrow (st_qs st) _ k); auto. now apply (c_wq _ _ _ _ _ Hc).
      + assert (k' = qd \/ k' = qu) as [-> | ->] by (unfold qu; lia); eapply W_sink; eauto.
    - lia.
    - destruct (c_top _ _ _ _ _ Hc) as (j & t' & K1 & K2 & K3). destruct (Nat.eq_dec j i) as [->|Hne].
      + exists ti_new, tu. split; [|split; auto]. 2:{ cbn. congruence. }
        apply (topq_at (st_qs st) _ k 0 i); auto.
        * intros k1 H1. destruct (c_q2 _ _ _ _ _ Hc k1 i H1) as (t1 & E1 & E2). assert (t1 = t) by congruence. now subst.
        * apply (T_branch _ _ _ _ _ _ Hqk). now apply T_sink.
      + exists j, t'. split; [|split; auto]. eapply (topq_regrow (st_qs st) _ k); eauto.
    - intros p j j' t1 t2 Hp Hn H1 H2 I1 I2. rewrite Hpts in Hn.
      assert (Hn' : ~ In p (points st)) by (intros K; apply Hn; apply in_or_app; now left).
      assert (A : forall x tx, nth_error ts1 x = Some tx -> inside (reg st' tx) p -> exists y ty, nth_error (st_ts st) y = Some ty /\ inside (reg st ty) p /\
        ((x = i /\ y = i /\ (ht p < ht c)%Q) \/ (x = ti_new /\ y = i /\ (ht c < ht p)%Q) \/ (y <> i /\ x = y))).
      { intros x tx Hx Ix. destruct (Htsc x tx Hx) as [(-> & ->)|[(-> & ->)|(Hne & Hj')]].
        - rewrite Hrd in Ix. exists i, t. split; auto. split; auto. left. split; auto. split; auto. destruct Ix as ((_ & K) & _). exact K.
        - rewrite Hru in Ix. exists i, t. split; auto. split; auto. right; left. split; auto. split; auto. destruct Ix as ((K & _) & _). exact K.
        - rewrite (Hreg x) in Ix by auto. exists x, tx. split; [auto|]. split; [auto|]. right; right. auto. }
      destruct (A _ _ H1 I1) as (y1 & ty1 & B1 & B2 & B3). destruct (A _ _ H2 I2) as (y2 & ty2 & D1 & D2 & D3).
      assert (y1 = y2) by (eapply (c_one _ _ _ _ _ Hc p y1 y2); eauto). subst y2.
      destruct B3 as [(-> & -> & B3)|[(-> & -> & B3)|(B3 & ->)]], D3 as [(-> & D3 & D4)|[(-> & D3 & D4)|(D3 & ->)]]; auto; try contradiction; exfalso; lra.
    - intros p Hp Hn. apply Hkeep; auto. apply (c_loc _ _ _ _ _ Hc); auto. intros K. apply Hn. rewrite Hpts. apply in_or_app. now left. }
  assert (Hfull : full st').
  { split; auto; cbn [st_ns st_ss st_ts st_qs st'].
    - intros j t' Hj. destruct (Htsc j t' Hj) as [(-> & ->)|[(-> & ->)|(Hne & Hj')]].
      + rewrite Hrd. cbn [al ar ad au a_up]. apply (f_td _ _ _ _ _ Hf i t Ht).
      + rewrite Hru. cbn [al ar ad au a_down]. destruct Hin as (_ & K1 & K2). unfold Region.olft, Region.orgt, touch_l, touch_r in *. split.
        * destruct (al (reg st t)); auto. lra.
        * destruct (ar (reg st t)); auto. lra.
      + rewrite (Hreg j) by auto. now apply (f_td _ _ _ _ _ Hf j).
    - intros v n' Hn'. destruct (Hinv v n' Hn') as [(-> & ->)|(n & Hn & E1 & E2 & E3 & E4 & E5 & E6)].
      + split; cbn.
        * exact Logic.I.
        * intros [] e [].
        * intros []; cbn; repeat constructor; intros [].
        * exists (t_l t), (t_r t). intros []; cbn; split; auto; [exists tu|exists td]; auto.
      + destruct (f_n _ _ _ _ _ Hf v n Hn) as [X1 X2 X3 (L & R & XL)]. split; auto.
        * intros d e He. rewrite E3 in He. now apply X2.
        * intros []; [rewrite E5; auto|]. rewrite E6. apply replf_nodup; auto. intros K.
          destruct (lane_in _ _ _ _ _ _ (XL Desc) K) as (tx & Kx & _). apply nth_lt in Kx. unfold ti_new in Kx. lia.
        * exists L, R. intros d. rewrite E3. destruct d; [rewrite E5|rewrite E6].
          -- apply (lane_ext (st_ts st)); [|apply XL]. intros j tj Hj Ej Kj. destruct (Nat.eq_dec j i) as [->|Hne].
             ++ assert (tj = t) by congruence. subst. exists td. auto.
             ++ exists tj. auto.
          -- apply (lane_replf (st_ts st)); auto.
             ++ intros j tj Hj Hne Ej Kj. exists tj. auto.
             ++ intros tj Hj Ej Kj. assert (tj = t) by congruence. subst. exists tu. auto.
    - intros j t' d v Hj Hd. destruct (Htsc j t' Hj) as [(-> & ->)|[(-> & ->)|(Hne & Hj')]].
      + destruct d; cbn in Hd.
        * injection Hd as <-. exists (nexus_new vi c ti_new i). split; auto. now left.
        * destruct (f_c _ _ _ _ _ Hf i t Desc v Ht Hd) as (n & Hn & K). destruct (Hold v n Hn) as (n' & Hn' & _ & _ & _ & _ & E5 & _).
          exists n'. split; auto. cbn [opp] in *. now rewrite E5.
      + destruct d; cbn in Hd.
        * destruct (f_c _ _ _ _ _ Hf i t Asc v Ht Hd) as (n & Hn & K). destruct (Hold v n Hn) as (n' & Hn' & _ & _ & _ & _ & _ & E6).
          exists n'. split; auto. cbn [opp] in *. rewrite E6. now apply replf_new.
        * injection Hd as <-. exists (nexus_new vi c ti_new i). split; auto. now left.
      + destruct (f_c _ _ _ _ _ Hf j t' d v Hj' Hd) as (n & Hn & K). destruct (Hold v n Hn) as (n' & Hn' & _ & _ & _ & _ & E5 & E6).
        exists n'. split; auto. destruct d; cbn [opp] in *; [rewrite E6; now apply replf_keep|now rewrite E5].
    - intros e s d Hs. destruct (f_s _ _ _ _ _ Hf e s d Hs) as (n & Hn & K). destruct (Hold _ n Hn) as (n' & Hn' & _ & _ & E3 & _).
      exists n'. split; auto. now rewrite E3. }
  exists st'. split; [|split; [auto|split; [auto|split; [reflexivity|split; [split|split]]]]].
  - destruct (finds_find (st_qs st) c q k i Hfind Hk) as (N1 & HN1). destruct (check_ok W Es M gv st' dbg Hfull) as (N2 & HN2).
    exists (N1 + N2). intros f Hfu. unfold add_vertex. fold c. rewrite HN1 by lia. cbn [bind].
    unfold rd. rewrite Hk. cbn [bind]. rewrite Ht. cbn [bind]. unfold split_horizontal, set_sink. cbn [t_l t_r t_d t_u t_k].
    fold ti_new qd qu ni. rewrite Ens. cbn [bind]. fold td tu. fold ts1 qs1. fold st'. rewrite HN2 by lia. reflexivity.
  - auto.
  - intros v n Hn. destruct (Hold v n Hn) as (n' & Hn' & E & _). exists n'. auto.
  - intros v n' Hn'. destruct (Hinv v n' Hn') as [(-> & ->)|(n & Hn & E1 & E2 & E3 & _)]; [left; auto|right].
    exists n. split; auto. rewrite !deg_seps, !E3. reflexivity.
  - split; [exists [c]; exact Hpts|]. split; [rewrite Hpts, app_length; cbn [st_ts st']; unfold ts1; rewrite app_length, upd_length; cbn; lia|].
    split; [rewrite Hpts, app_length; cbn [st_qs st']; unfold qs1; rewrite !app_length, upd_length; cbn; lia|].
    rewrite Hlp. apply once_deep. apply (once_cut _ st st' k i qd qu (QY c) i ti_new td tu t); auto.
    + intros j q' Hj Hq. cbn [st_qs st']. unfold qs1. do 2 apply nth_app_l. now rewrite nth_upd_ne by auto.
    + exists ni. split; auto.
    + exists ni. split; auto.
    + intros (v & Hv & K). destruct (c_in _ _ _ _ _ Hc i t Ht) as [_ _ Y1 Y2]. rewrite Hlp in Y1, Y2. destruct K as [K|K]; [specialize (Y1 v K)|specialize (Y2 v K)]; lia.
    + intros j k' Hk' tj Hj. destruct (c_q2 _ _ _ _ _ Hc k' j Hk') as (tj' & Y1 & Y2). congruence.
    + intros j tj Hj Hjt. exists tj. split; auto.
Qed.

End AddVertex.
