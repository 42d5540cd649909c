(** Invariants of the trapezoidation state and the debug checks. *)
From Coq Require Import QArith Lqa List Arith Lia Bool.
From Verif Require Import Base Coord Trap Lanes Plane Geo Region.
Import ListNotations.
Local Open Scope nat_scope.

(** With enough fuel the result is [a]. *)
Definition evt {E A} (f : nat -> res E A) (a : A) : Prop := exists N, forall k, N <= k -> f k = Ok a.

Definition dpt : point := (0%Q, 0%Q).
Definition sedge (s : seg Q) : edge := (s_cmin s, s_cmax s).

(** The region of a trapezoid, given the coordinates of the nexuses and the edges of the segments. *)
Definition rg (cs : list point) (es : list edge) (t : trap) : atrap :=
  mkA (option_map (fun s => nth s es (dpt, dpt)) (t_l t)) (option_map (fun s => nth s es (dpt, dpt)) (t_r t))
      (option_map (fun n => nth n cs dpt) (t_d t)) (option_map (fun n => nth n cs dpt) (t_u t)).

(** All references of a trapezoid are in range. *)
Record tin (nc ns : nat) (t : trap) : Prop := {
  ti_l : forall s, t_l t = Some s -> s < ns;
  ti_r : forall s, t_r t = Some s -> s < ns;
  ti_d : forall n, t_d t = Some n -> n < nc;
  ti_u : forall n, t_u t = Some n -> n < nc
}.

Lemma rg_ext cs cs' es es' t : tin (length cs) (length es) t -> rg (cs ++ cs') (es ++ es') t = rg cs es t.
Proof.
  intros [H1 H2 H3 H4]. unfold rg. destruct t as [l r d u k]; cbn in *. f_equal.
  - destruct l as [s|]; cbn; auto. f_equal. apply app_nth1. auto.
  - destruct r as [s|]; cbn; auto. f_equal. apply app_nth1. auto.
  - destruct d as [s|]; cbn; auto. f_equal. apply app_nth1. auto.
  - destruct u as [s|]; cbn; auto. f_equal. apply app_nth1. auto.
Qed.

Lemma tin_ext nc nc' ns ns' t : nc <= nc' -> ns <= ns' -> tin nc ns t -> tin nc' ns' t.
Proof. intros H1 H2 [K1 K2 K3 K4]. split; intros x Hx; eapply Nat.lt_le_trans; eauto. Qed.

Lemma nth_err_nth {A} (l : list A) i a d : nth_error l i = Some a -> nth i l d = a.
Proof. revert i. induction l as [|x l IH]; intros [|i] H; cbn in *; try discriminate; [congruence|auto]. Qed.

Section Inv.
Context {I : Type}.
Variables (W : list point) (Es : list edge) (M : Q) (gv : I -> point).
Notation stt := (state Q I).
Notation ht := (ht M).
Notation X := (X M).
Notation inside := (inside M).
Notation agood := (agood W Es M).

Definition points (st : stt) : list point := map n_c (st_ns st).
Definition medges (st : stt) : list edge := map sedge (st_ss st).
Definition reg (st : stt) (t : trap) : atrap := rg (points st) (medges st) t.

(** A search for the point from node [q] ends in the sink of a trapezoid that contains it. *)
Definition loc (st : stt) (p : point) (q : nat) : Prop :=
  exists i t, nth_error (st_ts st) i = Some t /\ inside (reg st t) p /\ finds (st_qs st) p q (t_k t).

Record core (st : stt) : Prop := {
  c_W : incl (points st) W;
  c_nd : NoDup (points st);
  c_v : forall n, In n (st_ns st) -> gv (n_v n) = n_c n;
  c_ss : forall i s, nth_error (st_ss st) i = Some s ->
    nth_error (points st) (s_min s) = Some (s_cmin s) /\ nth_error (points st) (s_max s) = Some (s_cmax s) /\ In (sedge s) Es;
  c_snd : NoDup (medges st);
  c_in : forall i t, nth_error (st_ts st) i = Some t -> tin (length (points st)) (length (medges st)) t;
  c_ag : forall i t, nth_error (st_ts st) i = Some t -> agood (reg st t);
  c_emp : forall i t p, nth_error (st_ts st) i = Some t -> In p (points st) -> ~ inside (reg st t) p;
  c_tu : forall i t, nth_error (st_ts st) i = Some t ->
    touch_l M (al (reg st t)) (au (reg st t)) /\ touch_r M (ar (reg st t)) (au (reg st t));
  c_q1 : forall i t, nth_error (st_ts st) i = Some t -> nth_error (st_qs st) (t_k t) = Some (QSink i);
  c_q2 : forall k i, nth_error (st_qs st) k = Some (QSink i) -> exists t, nth_error (st_ts st) i = Some t /\ t_k t = k;
  c_wq : forall k, k < length (st_qs st) -> wfq (st_qs st) k;
  c_q0 : 0 < length (st_qs st);
  c_top : exists i t, topq (st_qs st) 0 i /\ nth_error (st_ts st) i = Some t /\ t_u t = None;
  c_one : forall p i j t t', In p W -> ~ In p (points st) -> nth_error (st_ts st) i = Some t -> nth_error (st_ts st) j = Some t' ->
    inside (reg st t) p -> inside (reg st t') p -> i = j;
  c_loc : forall p, In p W -> ~ In p (points st) -> loc st p 0
}.

(** The chains of trapezoids above and below a nexus. *)
Record nx_ok (ts : list trap) (ss : list (seg Q)) (v : nat) (n : nexus Q I) : Prop := {
  x_ord : dorder n;
  x_sep : forall d e, In e (seps n d) -> exists s, nth_error ss e = Some s /\ send (opp d) s = v;
  x_nd : forall d, NoDup (iter_trapezoids n d);
  x_lane : exists L R, forall d, lane ts d v (bnd L (seps n d) R) (iter_trapezoids n d)
}.

Record full (st : stt) : Prop := {
  f_core : core st;
  f_td : forall i t, nth_error (st_ts st) i = Some t ->
    touch_l M (al (reg st t)) (ad (reg st t)) /\ touch_r M (ar (reg st t)) (ad (reg st t));
  f_n : forall v n, nth_error (st_ns st) v = Some n -> nx_ok (st_ts st) (st_ss st) v n;
  f_c : forall i t d v, nth_error (st_ts st) i = Some t -> tend d t = Some v ->
    exists n, nth_error (st_ns st) v = Some n /\ In i (iter_trapezoids n (opp d));
  f_s : forall e s d, nth_error (st_ss st) e = Some s ->
    exists n, nth_error (st_ns st) (send d s) = Some n /\ In e (seps n (opp d))
}.

(** ** Points *)

Lemma points_nth st v n : nth_error (st_ns st) v = Some n -> nth_error (points st) v = Some (n_c n).
Proof. intros H. unfold points. now apply map_nth_error. Qed.

Lemma points_inv st v p : nth_error (points st) v = Some p -> exists n, nth_error (st_ns st) v = Some n /\ n_c n = p.
Proof.
  unfold points. rewrite nth_error_map. destruct (nth_error (st_ns st) v) as [n|] eqn:E; [|discriminate]. cbn. intros [= <-]. eauto.
Qed.

Lemma medges_nth st v s : nth_error (st_ss st) v = Some s -> nth_error (medges st) v = Some (sedge s).
Proof. intros H. unfold medges. now apply map_nth_error. Qed.

Lemma medges_inv st v p : nth_error (medges st) v = Some p -> exists s, nth_error (st_ss st) v = Some s /\ sedge s = p.
Proof.
  unfold medges. rewrite nth_error_map. destruct (nth_error (st_ss st) v) as [n|] eqn:E; [|discriminate]. cbn. intros [= <-]. eauto.
Qed.

Lemma points_eq st v w p : core st -> nth_error (points st) v = Some p -> nth_error (points st) w = Some p -> v = w.
Proof.
  intros Hc H1 H2. apply (proj1 (NoDup_nth_error (points st)) (c_nd st Hc)); [|congruence]. eapply nth_lt; eauto.
Qed.

Lemma medges_eq st v w p : core st -> nth_error (medges st) v = Some p -> nth_error (medges st) w = Some p -> v = w.
Proof.
  intros Hc H1 H2. apply (proj1 (NoDup_nth_error (medges st)) (c_snd st Hc)); [|congruence]. eapply nth_lt; eauto.
Qed.

(** ** The region fields *)

Lemma reg_l st i t s : core st -> nth_error (st_ts st) i = Some t -> t_l t = Some s ->
  exists g, nth_error (st_ss st) s = Some g /\ al (reg st t) = Some (sedge g).
Proof.
  intros Hc Ht Hs. pose proof (ti_l _ _ _ (c_in st Hc i t Ht) s Hs) as Hl. destruct (lt_nth _ _ _ Hl) as (e & He).
  destruct (medges_inv _ _ _ He) as (g & Hg & <-). exists g. split; auto. unfold reg, rg. cbn. rewrite Hs. cbn. f_equal.
  now apply nth_err_nth.
Qed.

Lemma reg_r st i t s : core st -> nth_error (st_ts st) i = Some t -> t_r t = Some s ->
  exists g, nth_error (st_ss st) s = Some g /\ ar (reg st t) = Some (sedge g).
Proof.
  intros Hc Ht Hs. pose proof (ti_r _ _ _ (c_in st Hc i t Ht) s Hs) as Hl. destruct (lt_nth _ _ _ Hl) as (e & He).
  destruct (medges_inv _ _ _ He) as (g & Hg & <-). exists g. split; auto. unfold reg, rg. cbn. rewrite Hs. cbn. f_equal.
  now apply nth_err_nth.
Qed.

Lemma reg_end st i t d v : core st -> nth_error (st_ts st) i = Some t -> tend d t = Some v ->
  exists n, nth_error (st_ns st) v = Some n /\ aend d (reg st t) = Some (n_c n).
Proof.
  intros Hc Ht Hs. assert (Hl : v < length (points st)).
  { destruct d; [apply (ti_u _ _ _ (c_in st Hc i t Ht) v Hs)|apply (ti_d _ _ _ (c_in st Hc i t Ht) v Hs)]. }
  destruct (lt_nth _ _ _ Hl) as (e & He).
  destruct (points_inv _ _ _ He) as (g & Hg & <-). exists g. split; auto.
  destruct d; cbn in *; rewrite Hs; cbn; f_equal; now apply nth_err_nth.
Qed.

Lemma reg_end_inv st i t d p : core st -> nth_error (st_ts st) i = Some t -> aend d (reg st t) = Some p ->
  exists v n, tend d t = Some v /\ nth_error (st_ns st) v = Some n /\ n_c n = p.
Proof.
  intros Hc Ht Hp. destruct (tend d t) as [v|] eqn:E.
  - destruct (reg_end st i t d v Hc Ht E) as (n & Hn & K). exists v, n. split; auto. split; auto. congruence.
  - exfalso. destruct d; cbn in *; rewrite E in Hp; discriminate.
Qed.

(** The lower nexus of a trapezoid is not its upper one. *)
Lemma du_ne st i t v : core st -> nth_error (st_ts st) i = Some t -> t_d t = Some v -> t_u t = Some v -> False.
Proof.
  intros Hc Ht Hd Hu. destruct (reg_end st i t Desc v Hc Ht Hd) as (n & Hn & K1).
  destruct (reg_end st i t Asc v Hc Ht Hu) as (n' & Hn' & K2). assert (n' = n) by congruence. subst.
  pose proof (a_du _ _ _ _ (c_ag st Hc i t Ht) _ _ K1 K2). apply Qlt_irrefl in H. exact H.
Qed.

Lemma tend_ne st i t v d : core st -> nth_error (st_ts st) i = Some t -> tend d t = Some v -> tend (opp d) t = Some v -> False.
Proof. intros Hc Ht H1 H2. destruct d; cbn in *; eapply du_ne; eauto. Qed.

(** A trapezoid is not both above and below a nexus. *)
Lemma not_both st i v n d : full st -> nth_error (st_ns st) v = Some n -> In i (iter_trapezoids n d) -> ~ In i (iter_trapezoids n (opp d)).
Proof.
  intros Hf Hn H1 H2. destruct (x_lane _ _ _ _ (f_n st Hf v n Hn)) as (L & R & HL).
  destruct (lane_in _ _ _ _ _ _ (HL d) H1) as (t & Ht & K1). destruct (lane_in _ _ _ _ _ _ (HL (opp d)) H2) as (t' & Ht' & K2).
  assert (t' = t) by congruence. subst. eapply (tend_ne st i t v (opp d)); eauto. apply Hf.
Qed.

(** ** The debug checks *)

Lemma for_all_ok {A} (l : list A) f : (forall a, In a l -> f a = Ok tt) -> for_all l f = Ok tt.
Proof. induction l as [|a l IH]; intros H; cbn; auto. rewrite H by now left. cbn. apply IH. intros b Hb. apply H. now right. Qed.

Lemma outer_iter (n : nexus Q I) d i : In i (outer_trapezoids n d) -> In i (iter_trapezoids n d).
Proof. unfold outer_trapezoids, iter_trapezoids. destruct (filter_dividers n d); cbn; tauto. Qed.

Lemma check_ok st dbg : full st -> evt (fun k => check_consistency dbg k st) tt.
Proof.
  intros Hf. pose proof (f_core _ Hf) as Hc. unfold check_consistency. destruct dbg; [|now exists 0].
  destruct (wfq_check st 0) as (N & HN).
  { intros k i Hk. destruct (c_q2 st Hc k i Hk) as (t & Ht & _). eapply nth_lt; eauto. }
  { apply (c_wq st Hc). apply (c_q0 st Hc). }
  exists N. intros k Hk.
  rewrite for_all_ok; cbn [bind].
  2:{ intros v Hv. apply in_seq in Hv. destruct (lt_nth _ (st_ns st) v) as (n & Hn); [lia|].
      unfold check_nexus, rdu. rewrite Hn. cbn [bind]. destruct (x_lane _ _ _ _ (f_n st Hf v n Hn)) as (L & R & HL).
      rewrite for_all_ok; cbn [bind].
      - apply for_all_ok. intros i Hi. destruct (lane_in _ _ _ _ _ _ (HL Desc) (outer_iter _ _ _ Hi)) as (t & Ht & K).
        rewrite Ht. cbn in *. rewrite K. cbn. now rewrite Nat.eqb_refl.
      - intros i Hi. destruct (lane_in _ _ _ _ _ _ (HL Asc) (outer_iter _ _ _ Hi)) as (t & Ht & K).
        rewrite Ht. cbn in *. rewrite K. cbn. now rewrite Nat.eqb_refl. }
  rewrite for_all_ok; cbn [bind]; [now apply HN|].
  intros i Hi. apply in_seq in Hi. destruct (lt_nth _ (st_ts st) i) as (t & Ht); [lia|].
  unfold check_trapezoid, rdu. rewrite Ht. cbn [bind].
  assert (A : forall d v, tend d t = Some v -> exists n, nth_error (st_ns st) v = Some n /\ existsb (Nat.eqb i) (iter_trapezoids n (opp d)) = true).
  { intros d v Hv. destruct (f_c st Hf i t d v Ht Hv) as (n & Hn & Hi'). exists n. split; auto. apply existsb_exists. exists i. split; auto. apply Nat.eqb_refl. }
  assert (B1 : (match t_d t with Some ni => bind (match nth_error (st_ns st) ni with Some a => Ok a | None => Crash Ub end)
     (fun n => assert (existsb (Nat.eqb i) (iter_trapezoids n Asc))) | None => Ok tt end) = Ok tt).
  { destruct (t_d t) as [v|] eqn:Ev; auto. destruct (A Desc v Ev) as (n & -> & K). cbn [bind opp] in *. now rewrite K. }
  assert (B2 : (match t_u t with Some ni => bind (match nth_error (st_ns st) ni with Some a => Ok a | None => Crash Ub end)
     (fun n => assert (existsb (Nat.eqb i) (iter_trapezoids n Desc))) | None => Ok tt end) = Ok tt).
  { destruct (t_u t) as [v|] eqn:Ev; auto. destruct (A Asc v Ev) as (n & -> & K). cbn [bind opp] in *. now rewrite K. }
  rewrite B1. cbn [bind]. rewrite B2. cbn [bind]. rewrite (c_q1 st Hc i t Ht). cbn [bind]. now rewrite Nat.eqb_refl.
Qed.

End Inv.
