(** The three ways [add_segment] cuts a trapezoid keep the core invariants. *)
From Coq Require Import QArith Lqa List Arith Lia Bool.
From Verif Require Import Base Coord Trap Lanes Plane Geo Region TrapInv AddVertex Recut.
Import ListNotations.
Local Open Scope nat_scope.

Section Cuts.
Context {I : Type}.
Variables (W : list point) (Es : list edge) (M : Q) (gv : I -> point).
Hypothesis HG : geo W Es.
Hypothesis HM : shear M W.
Notation stt := (state Q I).
Notation ht := (ht M).
Notation X := (X M).
Notation within := (within M).
Notation inside := (inside M).
Notation agood := (agood W Es M).
Notation core := (core W Es M gv).
Notation loc := (loc M).

Lemma reg_right st t si s k : nth_error (st_ss st) si = Some s ->
  reg (I:=I) st (mkTrap (t_l t) (Some si) (t_d t) (t_u t) k) = a_right (sedge s) (reg st t).
Proof. intros Hs. unfold reg, rg, a_right. cbn. f_equal. f_equal. apply nth_err_nth. unfold medges. now apply map_nth_error. Qed.

Lemma reg_left st t si s k : nth_error (st_ss st) si = Some s ->
  reg (I:=I) st (mkTrap (Some si) (t_r t) (t_d t) (t_u t) k) = a_left (sedge s) (reg st t).
Proof. intros Hs. unfold reg, rg, a_left. cbn. f_equal. f_equal. apply nth_err_nth. unfold medges. now apply map_nth_error. Qed.

Lemma reg_down st t v p k : nth_error (points st) v = Some p ->
  reg (I:=I) st (mkTrap (t_l t) (t_r t) (Some v) (t_u t) k) = a_down p (reg st t).
Proof. intros Hs. unfold reg, rg, a_down. cbn [t_l t_r t_d t_u option_map al ar au]. f_equal. f_equal. now apply nth_err_nth. Qed.

Lemma in_right e a p : In e Es -> agood a -> through M e a -> spans M e a -> inside (a_right e a) p -> inside a p /\ (cx p < X e (ht p))%Q.
Proof.
  intros He Ha Ht Hs (Hh & Hl & Hr). cbn in Hr. split; auto. split; auto. split; auto.
  pose proof (spans_within M e a _ Hs Hh) as Wh. destruct (through_all W Es M HG HM e a _ He Ha Ht Wh Hh) as (_ & K).
  unfold orgt in *. destruct (ar a); auto. change (Geo.ht M p) with (ht p) in *. lra.
Qed.

Lemma in_left e a p : In e Es -> agood a -> through M e a -> spans M e a -> inside (a_left e a) p -> inside a p /\ (X e (ht p) < cx p)%Q.
Proof.
  intros He Ha Ht Hs (Hh & Hl & Hr). cbn in Hl. split; auto. split; auto. split; auto.
  pose proof (spans_within M e a _ Hs Hh) as Wh. destruct (through_all W Es M HG HM e a _ He Ha Ht Wh Hh) as (K & _).
  unfold olft in *. destruct (al a); auto. change (Geo.ht M p) with (ht p) in *. lra.
Qed.

(** The first cut, below the upper end of the edge. *)
Lemma core_cut st ns' si s i t : core st -> same_ns (st_ns st) ns' -> nth_error (st_ss st) si = Some s -> nth_error (st_ts st) i = Some t ->
  through M (sedge s) (reg st t) -> spans M (sedge s) (reg st t) ->
  touch_l M (Some (sedge s)) (au (reg st t)) -> touch_r M (Some (sedge s)) (au (reg st t)) ->
  let ql := length (st_qs st) in let nw := length (st_ts st) in
  let st' := mkState ns' (st_ss st)
    (upd (st_ts st) i (mkTrap (t_l t) (Some si) (t_d t) (t_u t) ql) ++ [mkTrap (Some si) (t_r t) (t_d t) (t_u t) (ql + 1)])
    ((upd (st_qs st) (t_k t) (QBranch ql (ql + 1) (QX (s_cmin s) (s_cmax s))) ++ [QSink i]) ++ [QSink nw]) in
  core st' /\ (forall p q, In p W -> ~ In p (points st') -> loc st p q -> loc st' p q).
Proof.
  intros Hc Hsn Hs Ht Hth Hsp Tl Tr ql nw st'. set (e := sedge s) in *.
  assert (He : In e Es) by now apply (c_ss _ _ _ _ _ Hc si s).
  pose proof (c_ag _ _ _ _ _ Hc i t Ht) as Hag. pose proof (c_in _ _ _ _ _ Hc i t Ht) as Htin. pose proof (c_q1 _ _ _ _ _ Hc i t Ht) as Hk.
  pose proof (nth_lt _ _ _ _ Ht) as Hil. pose proof (nth_lt _ _ _ _ Hk) as Hkl.
  set (tl := mkTrap (t_l t) (Some si) (t_d t) (t_u t) ql) in *. set (tr := mkTrap (Some si) (t_r t) (t_d t) (t_u t) (ql + 1)) in *.
  assert (Rl : reg st tl = a_right e (reg st t)) by now apply reg_right.
  assert (Rr : reg st tr = a_left e (reg st t)) by now apply reg_left.
  assert (Hti : nth_error (st_ts st') i = Some tl) by (cbn; apply nth_app_l; now apply nth_upd_eq).
  assert (Htn : nth_error (st_ts st') nw = Some tr).
  { cbn. replace nw with (length (upd (st_ts st) i tl)) by (now rewrite upd_length). apply nth_snoc. }
  assert (Hto : forall j tj, j <> i -> nth_error (st_ts st) j = Some tj -> nth_error (st_ts st') j = Some tj).
  { intros j tj Hne Hj. cbn. apply nth_app_l. now rewrite nth_upd_ne by auto. }
  assert (Htc : forall j tj, nth_error (st_ts st') j = Some tj -> (j = i /\ tj = tl) \/ (j = nw /\ tj = tr) \/ (j <> i /\ nth_error (st_ts st) j = Some tj)).
  { intros j tj Hj. cbn in Hj. apply nth_snoc_cases in Hj. rewrite upd_length in Hj. destruct Hj as [Hj|(_ & Hj)]; auto.
    apply nth_upd_cases in Hj. destruct Hj as [(? & ? & _)|?]; auto. }
  assert (Hqk : nth_error (st_qs st') (t_k t) = Some (QBranch ql (ql + 1) (QX (fst e) (snd e)))).
  { cbn. do 2 apply nth_app_l. now apply nth_upd_eq. }
  assert (Hq1 : nth_error (st_qs st') ql = Some (QSink i)).
  { cbn. apply nth_app_l. replace ql with (length (upd (st_qs st) (t_k t) (QBranch ql (ql + 1) (QX (s_cmin s) (s_cmax s))))) at 3 by (now rewrite upd_length). apply nth_snoc. }
  assert (Hq2 : nth_error (st_qs st') (ql + 1) = Some (QSink nw)).
  { cbn. replace (ql + 1) with (length (upd (st_qs st) (t_k t) (QBranch ql (ql + 1) (QX (s_cmin s) (s_cmax s))) ++ [QSink i])) at 2
      by (rewrite app_length, upd_length; reflexivity). apply nth_snoc. }
  assert (Hqo : forall j, j <> t_k t -> j < length (st_qs st) -> nth_error (st_qs st') j = nth_error (st_qs st) j).
  { intros j Hne Hj. cbn. rewrite !nth_error_app1 by (rewrite ?app_length, upd_length; cbn; lia). apply nth_upd_ne. congruence. }
  assert (Hqlen : length (st_qs st') = ql + 2). { cbn. rewrite !app_length, upd_length. cbn. unfold ql. lia. }
  apply (core_recut W Es M gv HG HM st st' e i i nw t); auto.
  - intros x tx Hx. destruct (Htc x tx Hx) as [(-> & ->)|[(-> & ->)|(Hne & Hj)]].
    + split. { destruct Htin. split; cbn; auto. intros z [= <-]. unfold medges. rewrite map_length. eapply nth_lt; eauto. }
      rewrite Rl. split; [now apply cut_right|]. cbn [al ar au a_right]. destruct (c_tu _ _ _ _ _ Hc i t Ht). split; [auto|]. split; [auto|]. exact Hq1.
    + split. { destruct Htin. split; cbn; auto. intros z [= <-]. unfold medges. rewrite map_length. eapply nth_lt; eauto. }
      rewrite Rr. split; [now apply cut_left|]. cbn [al ar au a_left]. destruct (c_tu _ _ _ _ _ Hc i t Ht). split; [auto|]. split; [auto|]. exact Hq2.
    + split; [now apply (c_in _ _ _ _ _ Hc x)|]. split; [now apply (c_ag _ _ _ _ _ Hc x)|]. destruct (c_tu _ _ _ _ _ Hc x tx Hj). split; auto. split; auto.
      pose proof (c_q1 _ _ _ _ _ Hc x tx Hj) as K. rewrite Hqo; auto. { intros E. rewrite E, Hk in K. congruence. } eapply nth_lt; eauto.
  - intros p x tx Hp Hx Hix. destruct (Htc x tx Hx) as [(-> & ->)|[(-> & ->)|(Hne & Hj)]].
    + rewrite Rl in Hix. apply in_right in Hix; auto. destruct Hix as (K1 & K2). exists i, t. split; [auto|]. split; [auto|]. right; left. auto.
    + rewrite Rr in Hix. apply in_left in Hix; auto. destruct Hix as (K1 & K2). exists i, t. split; [auto|]. split; [auto|]. right; right. auto.
    + exists x, tx. split; [auto|]. split; [auto|]. left. auto.
  - intros p y ty Hp Hne Hy Hiy. exists ty. auto.
  - intros p Hp (Hh & Hl & Hr) Hx. exists tl. split; auto. rewrite Rl. split; auto.
  - intros p Hp (Hh & Hl & Hr) Hx. exists tr. split; auto. rewrite Rr. split; auto.
  - intros y ty Hy Hu. apply Hto; auto. intros ->. assert (ty = t) by congruence. subst.
    unfold spans in Hsp. unfold reg, rg in Hsp. cbn in Hsp. rewrite Hu in Hsp. cbn in Hsp. destruct (option_map _ (t_d t)); contradiction.
  - intros k' j Hk'. assert (Hlt : k' < ql + 2) by (rewrite <- Hqlen; eapply nth_lt; eauto).
    destruct (Nat.eq_dec k' (t_k t)) as [->|Hne]; [congruence|].
    destruct (Nat.lt_ge_cases k' ql) as [Hl|Hl].
    + rewrite Hqo in Hk' by auto. destruct (c_q2 _ _ _ _ _ Hc k' j Hk') as (t' & Hj & E).
      assert (Hji : j <> i). { intros ->. assert (t' = t) by congruence. subst. now apply Hne. }
      exists t'. split; auto.
    + assert (k' = ql \/ k' = ql + 1) as [-> | ->] by lia.
      * assert (j = i) by congruence. subst. exists tl. auto.
      * assert (j = nw) by congruence. subst. exists tr. auto.
  - exists ql, (ql + 1), tl, tr. split; [auto|]. split; [auto|]. split; [auto|]. split; auto.
  - intros j H1 H2. assert (j = ql \/ j = ql + 1) as [-> | ->] by (unfold ql in *; lia); eauto.
  - rewrite Hqlen. unfold ql. lia.
Qed.

(** Cut [i] and give its right part to the trapezoid [jr] above, which is right of the edge. *)
Lemma core_merge_right st ns' si s i t jr tR v n nd : core st -> same_ns (st_ns st) ns' -> nth_error (st_ss st) si = Some s ->
  nth_error (st_ts st) i = Some t -> nth_error (st_ts st) jr = Some tR ->
  through M (sedge s) (reg st t) -> spans M (sedge s) (reg st t) ->
  t_u t = Some v -> nth_error (st_ns st) v = Some n -> (cx (n_c n) < X (sedge s) (ht (n_c n)))%Q ->
  t_d t = Some nd -> t_d tR = Some v -> t_l tR = Some si -> t_r tR = t_r t ->
  let ql := length (st_qs st) in
  let st' := mkState ns' (st_ss st)
    (upd (upd (st_ts st) i (mkTrap (t_l t) (Some si) (t_d t) (t_u t) ql)) jr (mkTrap (t_l tR) (t_r tR) (Some nd) (t_u tR) (t_k tR)))
    (upd (st_qs st) (t_k t) (QBranch ql (t_k tR) (QX (s_cmin s) (s_cmax s))) ++ [QSink i]) in
  core st' /\ (forall p q, In p W -> ~ In p (points st') -> loc st p q -> loc st' p q).
Proof.
  intros Hc Hsn Hs Ht HtR Hth Hsp Eu Hn Hleft Ed EdR ElR ErR ql st'. set (e := sedge s) in *.
  assert (He : In e Es) by now apply (c_ss _ _ _ _ _ Hc si s).
  pose proof (c_ag _ _ _ _ _ Hc i t Ht) as Hag. pose proof (c_in _ _ _ _ _ Hc i t Ht) as Htin. pose proof (c_q1 _ _ _ _ _ Hc i t Ht) as Hk.
  pose proof (c_ag _ _ _ _ _ Hc jr tR HtR) as HagR. pose proof (c_in _ _ _ _ _ Hc jr tR HtR) as HtinR. pose proof (c_q1 _ _ _ _ _ Hc jr tR HtR) as HkR.
  pose proof (nth_lt _ _ _ _ Ht) as Hil. pose proof (nth_lt _ _ _ _ Hk) as Hkl. pose proof (nth_lt _ _ _ _ HtR) as HjR.
  assert (Hij : i <> jr). { intros <-. assert (tR = t) by congruence. subst. eapply (du_ne W Es M gv st i t v Hc); eauto. }
  set (tl := mkTrap (t_l t) (Some si) (t_d t) (t_u t) ql) in *. set (tr := mkTrap (t_l tR) (t_r tR) (Some nd) (t_u tR) (t_k tR)) in *.
  destruct (reg_end W Es M gv st i t Desc nd Hc Ht Ed) as (nn & Hnn & And). cbn [aend] in And.
  destruct (reg_end W Es M gv st i t Asc v Hc Ht Eu) as (n' & Hn' & Av). assert (n' = n) by congruence. subst n'. cbn [aend] in Av. clear Hn'.
  destruct (reg_end W Es M gv st jr tR Desc v Hc HtR EdR) as (n' & Hn' & AvR). assert (n' = n) by congruence. subst n'. cbn [aend] in AvR. clear Hn'.
  destruct (reg_l W Es M gv st jr tR si Hc HtR ElR) as (g & Hg & AlR). assert (g = s) by congruence. subst g. clear Hg. fold e in AlR.
  assert (ArR : ar (reg st tR) = ar (reg st t)). { unfold reg, rg. cbn. now rewrite ErR. }
  assert (Rl : reg st tl = a_right e (reg st t)) by now apply reg_right.
  assert (Rr : reg st tr = a_down (n_c nn) (reg st tR)) by (apply reg_down; now apply points_nth).
  assert (HvW : In (n_c n) W). { apply (c_W _ _ _ _ _ Hc). eapply nth_error_In. apply points_nth. eauto. }
  pose proof (a_du _ _ _ _ Hag _ _ And Av) as Hdv.
  assert (Hti : nth_error (st_ts st') i = Some tl). { cbn. rewrite nth_upd_ne by congruence. now apply nth_upd_eq. }
  assert (Htn : nth_error (st_ts st') jr = Some tr). { cbn. apply nth_upd_eq. now rewrite upd_length. }
  assert (Hto : forall j tj, j <> i -> j <> jr -> nth_error (st_ts st) j = Some tj -> nth_error (st_ts st') j = Some tj).
  { intros j tj Hne Hne' Hj. cbn. now rewrite !nth_upd_ne by auto. }
  assert (Htc : forall j tj, nth_error (st_ts st') j = Some tj -> (j = i /\ tj = tl) \/ (j = jr /\ tj = tr) \/ (j <> i /\ j <> jr /\ nth_error (st_ts st) j = Some tj)).
  { intros j tj Hj. cbn in Hj. apply nth_upd_cases in Hj. destruct Hj as [(? & ? & _)|(Hj1 & Hj)]; auto.
    apply nth_upd_cases in Hj. destruct Hj as [(? & ? & _)|(? & ?)]; auto. }
  assert (Hqk : nth_error (st_qs st') (t_k t) = Some (QBranch ql (t_k tR) (QX (fst e) (snd e)))).
  { cbn. apply nth_app_l. now apply nth_upd_eq. }
  assert (Hq1 : nth_error (st_qs st') ql = Some (QSink i)).
  { cbn. replace ql with (length (upd (st_qs st) (t_k t) (QBranch ql (t_k tR) (QX (s_cmin s) (s_cmax s))))) at 2 by (now rewrite upd_length). apply nth_snoc. }
  assert (Hqo : forall j, j <> t_k t -> j < length (st_qs st) -> nth_error (st_qs st') j = nth_error (st_qs st) j).
  { intros j Hne Hj. cbn. rewrite !nth_error_app1 by (rewrite ?app_length, upd_length; cbn; lia). apply nth_upd_ne. congruence. }
  assert (Hqlen : length (st_qs st') = ql + 1). { cbn. rewrite !app_length, upd_length. cbn. unfold ql. lia. }
  assert (Hqs : forall x tx, x <> i -> nth_error (st_ts st) x = Some tx -> nth_error (st_qs st') (t_k tx) = Some (QSink x)).
  { intros x tx Hne Hx. pose proof (c_q1 _ _ _ _ _ Hc x tx Hx) as K. rewrite Hqo; auto. { intros E. rewrite E, Hk in K. congruence. } eapply nth_lt; eauto. }
  (* points of the merged trapezoid *)
  assert (Hmg : forall p, In p W -> inside (a_down (n_c nn) (reg st tR)) p ->
    ((ht (n_c n) < ht p)%Q /\ inside (reg st tR) p) \/ ((ht p < ht (n_c n))%Q /\ inside (reg st t) p /\ (X e (ht p) < cx p)%Q)).
  { intros p Hp ((H1 & H2) & H3 & H4). cbn [ad au al ar a_down] in *. rewrite AlR in H3. cbn in H3. change (ht (n_c nn) < ht p)%Q in H1.
    destruct (ht_tri W Es M HG HM p (n_c n) Hp HvW) as [K|[K|K]].
    - right. split; auto. split; auto. apply (in_left e (reg st t) p He Hag Hth Hsp). split; [|split; [exact H3|]].
      + split; cbn [ad au a_left]; [rewrite And|rewrite Av]; auto.
      + cbn [ar a_left]. now rewrite <- ArR.
    - subst p. change (Geo.ht M (n_c n)) with (ht (n_c n)) in H3. lra.
    - left. split; auto. split; [split; [rewrite AvR|]; auto|]. split; auto. now rewrite AlR. }
  assert (Hm1 : forall p, inside (reg st tR) p -> inside (a_down (n_c nn) (reg st tR)) p).
  { intros p ((H1 & H2) & H3). split; auto. split; auto. rewrite AvR in H1. cbn in H1 |- *. change (ht (n_c n) < ht p)%Q in H1. change (ht (n_c nn) < ht p)%Q. lra. }
  assert (Hm2 : forall p, inside (reg st t) p -> (X e (ht p) < cx p)%Q -> inside (a_down (n_c nn) (reg st tR)) p).
  { intros p ((H1 & H2) & H3 & H4) Hx. split; [split|split]; cbn [ad au al ar a_down].
    - now rewrite And in H1.
    - rewrite Av in H2. cbn in H2. destruct (au (reg st tR)) as [u|] eqn:Eu'; cbn; auto. pose proof (a_du _ _ _ _ HagR _ _ AvR Eu').
      change (ht p < ht (n_c n))%Q in H2. change (ht p < ht u)%Q. lra.
    - rewrite AlR. exact Hx.
    - now rewrite ArR. }
  apply (core_recut W Es M gv HG HM st st' e i i jr t); auto.
  - intros x tx Hx. destruct (Htc x tx Hx) as [(-> & ->)|[(-> & ->)|(Hne & Hne' & Hj)]].
    + split. { destruct Htin. split; cbn; auto. intros z [= <-]. unfold medges. rewrite map_length. eapply nth_lt; eauto. }
      rewrite Rl. split; [now apply cut_right|]. cbn [al ar au a_right]. destruct (c_tu _ _ _ _ _ Hc i t Ht). split; [auto|]. split; [|exact Hq1].
      rewrite Av. cbn. change (cx (n_c n) <= X e (ht (n_c n)))%Q. lra.
    + split. { destruct Htin, HtinR. split; cbn; auto. intros z [= <-]. auto. }
      rewrite Rr. split. { eapply (merge_right W Es M HG HM e (reg st tR) (reg st t) (n_c n)); eauto. }
      cbn [al ar au a_down]. destruct (c_tu _ _ _ _ _ Hc jr tR HtR). split; [auto|]. split; [auto|]. cbn [t_k tr]. apply Hqs; [congruence|auto].
    + split; [now apply (c_in _ _ _ _ _ Hc x)|]. split; [now apply (c_ag _ _ _ _ _ Hc x)|]. destruct (c_tu _ _ _ _ _ Hc x tx Hj). split; auto.
  - intros p x tx Hp Hx Hix. destruct (Htc x tx Hx) as [(-> & ->)|[(-> & ->)|(Hne & Hne' & Hj)]].
    + rewrite Rl in Hix. apply in_right in Hix; auto. destruct Hix as (K1 & K2). exists i, t. split; [auto|]. split; [auto|]. right; left. auto.
    + rewrite Rr in Hix. destruct (Hmg p Hp Hix) as [(K1 & K2)|(K1 & K2 & K3)].
      * exists jr, tR. split; [auto|]. split; [auto|]. left. auto.
      * exists i, t. split; [auto|]. split; [auto|]. right; right. auto.
    + exists x, tx. split; [auto|]. split; [auto|]. left. auto.
  - intros p y ty Hp Hne Hy Hiy. destruct (Nat.eq_dec y jr) as [->|Hne'].
    + assert (ty = tR) by congruence. subst. exists tr. split; auto. rewrite Rr. auto.
    + exists ty. auto.
  - intros p Hp (Hh & Hl & Hr) Hx. exists tl. split; auto. rewrite Rl. split; auto.
  - intros p Hp Hi Hx. exists tr. split; auto. rewrite Rr. auto.
  - intros y ty Hy Hu. apply Hto; auto.
    + intros ->. assert (ty = t) by congruence. subst. congruence.
    + intros ->. assert (ty = tR) by congruence. subst. destruct (a_l _ _ _ _ HagR e AlR) as (_ & K). unfold spans in K.
      unfold reg, rg in K. cbn in K. rewrite Hu in K. cbn in K. destruct (option_map _ (t_d tR)); contradiction.
  - intros k' j Hk'. assert (Hlt : k' < ql + 1) by (rewrite <- Hqlen; eapply nth_lt; eauto).
    destruct (Nat.eq_dec k' (t_k t)) as [->|Hne]; [congruence|].
    destruct (Nat.lt_ge_cases k' ql) as [Hl|Hl].
    + rewrite Hqo in Hk' by auto. destruct (c_q2 _ _ _ _ _ Hc k' j Hk') as (t' & Hj & E).
      assert (Hji : j <> i). { intros ->. assert (t' = t) by congruence. subst. now apply Hne. }
      destruct (Nat.eq_dec j jr) as [->|Hne']; [|exists t'; auto]. assert (t' = tR) by congruence. subst t'. exists tr. auto.
    + assert (k' = ql) as -> by lia. assert (j = i) by congruence. subst. exists tl. auto.
  - exists ql, (t_k tR), tl, tr. split; [auto|]. split; [auto|]. split; [auto|]. split; auto.
  - intros j H1 H2. assert (j = ql) as -> by (unfold ql in *; lia); eauto.
  - rewrite Hqlen. unfold ql. lia.
Qed.

(** Cut [i] and give its left part to the trapezoid [jl] above, which is left of the edge. *)
Lemma core_merge_left st ns' si s i t jl tL v n nd : core st -> same_ns (st_ns st) ns' -> nth_error (st_ss st) si = Some s ->
  nth_error (st_ts st) i = Some t -> nth_error (st_ts st) jl = Some tL ->
  through M (sedge s) (reg st t) -> spans M (sedge s) (reg st t) ->
  t_u t = Some v -> nth_error (st_ns st) v = Some n -> (X (sedge s) (ht (n_c n)) < cx (n_c n))%Q ->
  t_d t = Some nd -> t_d tL = Some v -> t_r tL = Some si -> t_l tL = t_l t ->
  let qr := length (st_qs st) in
  let st' := mkState ns' (st_ss st)
    (upd (upd (st_ts st) i (mkTrap (Some si) (t_r t) (t_d t) (t_u t) qr)) jl (mkTrap (t_l tL) (t_r tL) (Some nd) (t_u tL) (t_k tL)))
    (upd (st_qs st) (t_k t) (QBranch (t_k tL) qr (QX (s_cmin s) (s_cmax s))) ++ [QSink i]) in
  core st' /\ (forall p q, In p W -> ~ In p (points st') -> loc st p q -> loc st' p q).
Proof.
  intros Hc Hsn Hs Ht HtR Hth Hsp Eu Hn Hleft Ed EdR ElR ErR ql st'. set (e := sedge s) in *.
  assert (He : In e Es) by now apply (c_ss _ _ _ _ _ Hc si s).
  pose proof (c_ag _ _ _ _ _ Hc i t Ht) as Hag. pose proof (c_in _ _ _ _ _ Hc i t Ht) as Htin. pose proof (c_q1 _ _ _ _ _ Hc i t Ht) as Hk.
  pose proof (c_ag _ _ _ _ _ Hc jl tL HtR) as HagR. pose proof (c_in _ _ _ _ _ Hc jl tL HtR) as HtinR. pose proof (c_q1 _ _ _ _ _ Hc jl tL HtR) as HkR.
  pose proof (nth_lt _ _ _ _ Ht) as Hil. pose proof (nth_lt _ _ _ _ Hk) as Hkl. pose proof (nth_lt _ _ _ _ HtR) as HjR.
  assert (Hij : i <> jl). { intros <-. assert (tL = t) by congruence. subst. eapply (du_ne W Es M gv st i t v Hc); eauto. }
  set (tr := mkTrap (Some si) (t_r t) (t_d t) (t_u t) ql) in *. set (tl := mkTrap (t_l tL) (t_r tL) (Some nd) (t_u tL) (t_k tL)) in *.
  destruct (reg_end W Es M gv st i t Desc nd Hc Ht Ed) as (nn & Hnn & And). cbn [aend] in And.
  destruct (reg_end W Es M gv st i t Asc v Hc Ht Eu) as (n' & Hn' & Av). assert (n' = n) by congruence. subst n'. cbn [aend] in Av. clear Hn'.
  destruct (reg_end W Es M gv st jl tL Desc v Hc HtR EdR) as (n' & Hn' & AvR). assert (n' = n) by congruence. subst n'. cbn [aend] in AvR. clear Hn'.
  destruct (reg_r W Es M gv st jl tL si Hc HtR ElR) as (g & Hg & AlR). assert (g = s) by congruence. subst g. clear Hg. fold e in AlR.
  assert (ArR : al (reg st tL) = al (reg st t)). { unfold reg, rg. cbn. now rewrite ErR. }
  assert (Rr : reg st tr = a_left e (reg st t)) by now apply reg_left.
  assert (Rl : reg st tl = a_down (n_c nn) (reg st tL)) by (apply reg_down; now apply points_nth).
  assert (HvW : In (n_c n) W). { apply (c_W _ _ _ _ _ Hc). eapply nth_error_In. apply points_nth. eauto. }
  pose proof (a_du _ _ _ _ Hag _ _ And Av) as Hdv.
  assert (Hti : nth_error (st_ts st') i = Some tr). { cbn. rewrite nth_upd_ne by congruence. now apply nth_upd_eq. }
  assert (Htn : nth_error (st_ts st') jl = Some tl). { cbn. apply nth_upd_eq. now rewrite upd_length. }
  assert (Hto : forall j tj, j <> i -> j <> jl -> nth_error (st_ts st) j = Some tj -> nth_error (st_ts st') j = Some tj).
  { intros j tj Hne Hne' Hj. cbn. now rewrite !nth_upd_ne by auto. }
  assert (Htc : forall j tj, nth_error (st_ts st') j = Some tj -> (j = i /\ tj = tr) \/ (j = jl /\ tj = tl) \/ (j <> i /\ j <> jl /\ nth_error (st_ts st) j = Some tj)).
  { intros j tj Hj. cbn in Hj. apply nth_upd_cases in Hj. destruct Hj as [(? & ? & _)|(Hj1 & Hj)]; auto.
    apply nth_upd_cases in Hj. destruct Hj as [(? & ? & _)|(? & ?)]; auto. }
  assert (Hqk : nth_error (st_qs st') (t_k t) = Some (QBranch (t_k tL) ql (QX (fst e) (snd e)))).
  { cbn. apply nth_app_l. now apply nth_upd_eq. }
  assert (Hq1 : nth_error (st_qs st') ql = Some (QSink i)).
  { cbn. replace ql with (length (upd (st_qs st) (t_k t) (QBranch (t_k tL) ql (QX (s_cmin s) (s_cmax s))))) at 2 by (now rewrite upd_length). apply nth_snoc. }
  assert (Hqo : forall j, j <> t_k t -> j < length (st_qs st) -> nth_error (st_qs st') j = nth_error (st_qs st) j).
  { intros j Hne Hj. cbn. rewrite !nth_error_app1 by (rewrite ?app_length, upd_length; cbn; lia). apply nth_upd_ne. congruence. }
  assert (Hqlen : length (st_qs st') = ql + 1). { cbn. rewrite !app_length, upd_length. cbn. unfold ql. lia. }
  assert (Hqs : forall x tx, x <> i -> nth_error (st_ts st) x = Some tx -> nth_error (st_qs st') (t_k tx) = Some (QSink x)).
  { intros x tx Hne Hx. pose proof (c_q1 _ _ _ _ _ Hc x tx Hx) as K. rewrite Hqo; auto. { intros E. rewrite E, Hk in K. congruence. } eapply nth_lt; eauto. }
  (* points of the merged trapezoid *)
  assert (Hmg : forall p, In p W -> inside (a_down (n_c nn) (reg st tL)) p ->
    ((ht (n_c n) < ht p)%Q /\ inside (reg st tL) p) \/ ((ht p < ht (n_c n))%Q /\ inside (reg st t) p /\ (cx p < X e (ht p))%Q)).
  { intros p Hp ((H1 & H2) & H3 & H4). cbn [ad au al ar a_down] in *. rewrite AlR in H4. cbn in H4. change (ht (n_c nn) < ht p)%Q in H1.
    destruct (ht_tri W Es M HG HM p (n_c n) Hp HvW) as [K|[K|K]].
    - right. split; auto. split; auto. apply (in_right e (reg st t) p He Hag Hth Hsp). split; [|split; [|exact H4]].
      + split; cbn [ad au a_right]; [rewrite And|rewrite Av]; auto.
      + cbn [al a_right]. now rewrite <- ArR.
    - subst p. change (Geo.ht M (n_c n)) with (ht (n_c n)) in H4. lra.
    - left. split; auto. split; [split; [rewrite AvR|]; auto|]. split; auto. now rewrite AlR. }
  assert (Hm1 : forall p, inside (reg st tL) p -> inside (a_down (n_c nn) (reg st tL)) p).
  { intros p ((H1 & H2) & H3). split; auto. split; auto. rewrite AvR in H1. cbn in H1 |- *. change (ht (n_c n) < ht p)%Q in H1. change (ht (n_c nn) < ht p)%Q. lra. }
  assert (Hm2 : forall p, inside (reg st t) p -> (cx p < X e (ht p))%Q -> inside (a_down (n_c nn) (reg st tL)) p).
  { intros p ((H1 & H2) & H3 & H4) Hx. split; [split|split]; cbn [ad au al ar a_down].
    - now rewrite And in H1.
    - rewrite Av in H2. cbn in H2. destruct (au (reg st tL)) as [u|] eqn:Eu'; cbn; auto. pose proof (a_du _ _ _ _ HagR _ _ AvR Eu').
      change (ht p < ht (n_c n))%Q in H2. change (ht p < ht u)%Q. lra.
    - now rewrite ArR.
    - rewrite AlR. exact Hx. }
  apply (core_recut W Es M gv HG HM st st' e i jl i t); auto.
  - intros x tx Hx. destruct (Htc x tx Hx) as [(-> & ->)|[(-> & ->)|(Hne & Hne' & Hj)]].
    + split. { destruct Htin. split; cbn; auto. intros z [= <-]. unfold medges. rewrite map_length. eapply nth_lt; eauto. }
      rewrite Rr. split; [now apply cut_left|]. cbn [al ar au a_left]. destruct (c_tu _ _ _ _ _ Hc i t Ht). split; [|split; [auto|exact Hq1]].
      rewrite Av. cbn. change (X e (ht (n_c n)) <= cx (n_c n))%Q. lra.
    + split. { destruct Htin, HtinR. split; cbn; auto. intros z [= <-]. auto. }
      rewrite Rl. split. { eapply (merge_left W Es M HG HM e (reg st tL) (reg st t) (n_c n)); eauto. }
      cbn [al ar au a_down]. destruct (c_tu _ _ _ _ _ Hc jl tL HtR). split; [auto|]. split; [auto|]. cbn [t_k tl]. apply Hqs; [congruence|auto].
    + split; [now apply (c_in _ _ _ _ _ Hc x)|]. split; [now apply (c_ag _ _ _ _ _ Hc x)|]. destruct (c_tu _ _ _ _ _ Hc x tx Hj). split; auto.
  - intros p x tx Hp Hx Hix. destruct (Htc x tx Hx) as [(-> & ->)|[(-> & ->)|(Hne & Hne' & Hj)]].
    + rewrite Rr in Hix. apply in_left in Hix; auto. destruct Hix as (K1 & K2). exists i, t. split; [auto|]. split; [auto|]. right; right. auto.
    + rewrite Rl in Hix. destruct (Hmg p Hp Hix) as [(K1 & K2)|(K1 & K2 & K3)].
      * exists jl, tL. split; [auto|]. split; [auto|]. left. auto.
      * exists i, t. split; [auto|]. split; [auto|]. right; left. auto.
    + exists x, tx. split; [auto|]. split; [auto|]. left. auto.
  - intros p y ty Hp Hne Hy Hiy. destruct (Nat.eq_dec y jl) as [->|Hne'].
    + assert (ty = tL) by congruence. subst. exists tl. split; auto. rewrite Rl. auto.
    + exists ty. auto.
  - intros p Hp Hi Hx. exists tl. split; auto. rewrite Rl. auto.
  - intros p Hp (Hh & Hl & Hr) Hx. exists tr. split; auto. rewrite Rr. split; auto.
  - intros y ty Hy Hu. apply Hto; auto.
    + intros ->. assert (ty = t) by congruence. subst. congruence.
    + intros ->. assert (ty = tL) by congruence. subst. destruct (a_r _ _ _ _ HagR e AlR) as (_ & K). unfold spans in K.
      unfold reg, rg in K. cbn in K. rewrite Hu in K. cbn in K. destruct (option_map _ (t_d tL)); contradiction.
  - intros k' j Hk'. assert (Hlt : k' < ql + 1) by (rewrite <- Hqlen; eapply nth_lt; eauto).
    destruct (Nat.eq_dec k' (t_k t)) as [->|Hne]; [congruence|].
    destruct (Nat.lt_ge_cases k' ql) as [Hl|Hl].
    + rewrite Hqo in Hk' by auto. destruct (c_q2 _ _ _ _ _ Hc k' j Hk') as (t' & Hj & E).
      assert (Hji : j <> i). { intros ->. assert (t' = t) by congruence. subst. now apply Hne. }
      destruct (Nat.eq_dec j jl) as [->|Hne']; [|exists t'; auto]. assert (t' = tL) by congruence. subst t'. exists tl. auto.
    + assert (k' = ql) as -> by lia. assert (j = i) by congruence. subst. exists tr. auto.
  - exists (t_k tL), ql, tl, tr. split; [auto|]. split; [auto|]. split; [auto|]. split; auto.
  - intros j H1 H2. assert (j = ql) as -> by (unfold ql in *; lia); eauto.
  - rewrite Hqlen. unfold ql. lia.
Qed.

End Cuts.
