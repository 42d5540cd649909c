(** The finished trapezoidation as a planar graph: the three kinds of nexuses, and a two-colouring of the trapezoids. *)
From Coq Require Import QArith Lqa List Arith Lia Bool.
From Verif Require Import Base Coord Trap Mono Tri Lanes Plane Geo Region TrapInv.
Import ListNotations.
Local Open Scope nat_scope.

Section Faces.
Context {I : Type}.
Variables (W : list point) (Es : list edge) (M : Q) (gv : I -> point) (st : state Q I).
Hypothesis HG : geo W Es.
Hypothesis HM : shear M W.
Hypothesis HF : full W Es M gv st.
Hypothesis HD : forall v n, nth_error (st_ns st) v = Some n -> deg n = 2.

Notation ts := (st_ts st).
Notation ss := (st_ss st).
Notation ns := (st_ns st).

(** The fields of a trapezoid and the ends of a segment by index. *)
Definition tl (i : nat) : option nat := match nth_error ts i with Some t => t_l t | None => None end.
Definition tr (i : nat) : option nat := match nth_error ts i with Some t => t_r t | None => None end.
Definition td (i : nat) : option nat := match nth_error ts i with Some t => t_d t | None => None end.
Definition tu (i : nat) : option nat := match nth_error ts i with Some t => t_u t | None => None end.
Definition smin (s : nat) : nat := match nth_error ss s with Some g => s_min g | None => 0 end.
Definition smax (s : nat) : nat := match nth_error ss s with Some g => s_max g | None => 0 end.
Definition pnt (v : nat) : point := nth v (points st) dpt.
Definition hv (v : nat) : Q := ht M (pnt v).

Let HC : core W Es M gv st := f_core _ _ _ _ _ HF.

Lemma pnt_n v n : nth_error ns v = Some n -> pnt v = n_c n.
Proof. intros H. unfold pnt. apply nth_err_nth. now apply points_nth. Qed.

Lemma pnt_in v n : nth_error ns v = Some n -> In (pnt v) W.
Proof. intros H. rewrite (pnt_n v n H). apply (c_W _ _ _ _ _ HC). eapply nth_error_In. apply points_nth. exact H. Qed.

Lemma hv_inj v w n m : nth_error ns v = Some n -> nth_error ns w = Some m -> (hv v == hv w)%Q -> v = w.
Proof.
  intros Hv Hw H. apply (ht_inj W Es M HG HM) in H; [|eapply pnt_in; eauto..].
  apply (points_eq W Es M gv st v w (n_c n) HC). { now apply points_nth. }
  rewrite <- (pnt_n v n Hv), H, (pnt_n w m Hw). now apply points_nth.
Qed.

Lemma seg_at s g : nth_error ss s = Some g -> smin s = s_min g /\ smax s = s_max g /\ pnt (smin s) = s_cmin g /\ pnt (smax s) = s_cmax g /\
  In (sedge g) Es /\ (hv (smin s) < hv (smax s))%Q /\ (exists n, nth_error ns (smin s) = Some n) /\ (exists n, nth_error ns (smax s) = Some n).
Proof.
  intros H. destruct (c_ss _ _ _ _ _ HC s g H) as (H1 & H2 & H3). unfold smin, smax. rewrite H.
  assert (E1 : pnt (s_min g) = s_cmin g) by (unfold pnt; now apply nth_err_nth).
  assert (E2 : pnt (s_max g) = s_cmax g) by (unfold pnt; now apply nth_err_nth).
  repeat split; auto.
  - unfold hv. rewrite E1, E2. exact (e_lt W Es M HG HM _ H3).
  - destruct (points_inv _ _ _ H1) as (n & Hn & _). eauto.
  - destruct (points_inv _ _ _ H2) as (n & Hn & _). eauto.
Qed.

Lemma td_n i v : td i = Some v -> exists n, nth_error ns v = Some n /\ In i (iter_trapezoids n Asc).
Proof. unfold td. destruct (nth_error ts i) as [t|] eqn:E; [|discriminate]. intros H. exact (f_c _ _ _ _ _ HF i t Desc v E H). Qed.
Lemma tu_n i v : tu i = Some v -> exists n, nth_error ns v = Some n /\ In i (iter_trapezoids n Desc).
Proof. unfold tu. destruct (nth_error ts i) as [t|] eqn:E; [|discriminate]. intros H. exact (f_c _ _ _ _ _ HF i t Asc v E H). Qed.

Lemma du_lt i d u : td i = Some d -> tu i = Some u -> (hv d < hv u)%Q.
Proof.
  unfold td, tu. destruct (nth_error ts i) as [t|] eqn:E; [|discriminate]. intros Hd Hu.
  destruct (reg_end W Es M gv st i t Desc d HC E Hd) as (n & Hn & K1).
  destruct (reg_end W Es M gv st i t Asc u HC E Hu) as (n' & Hn' & K2).
  unfold hv. rewrite (pnt_n _ _ Hn), (pnt_n _ _ Hn'). exact (a_du _ _ _ _ (c_ag _ _ _ _ _ HC i t E) _ _ K1 K2).
Qed.

(** A bounding segment spans its trapezoid. *)
Lemma side_spans i t s e : nth_error ts i = Some t -> nth_error ss s = Some e -> spans M (sedge e) (reg st t) ->
  exists d u, td i = Some d /\ tu i = Some u /\ (hv (smin s) <= hv d)%Q /\ (hv d < hv u)%Q /\ (hv u <= hv (smax s))%Q.
Proof.
  intros Ht Hs H. unfold spans in H. destruct (ad (reg st t)) as [d|] eqn:Ed; [|easy]. destruct (au (reg st t)) as [u|] eqn:Eu; [|easy].
  destruct (reg_end_inv W Es M gv st i t Desc d HC Ht Ed) as (v & n & Hv & Hn & Kd).
  destruct (reg_end_inv W Es M gv st i t Asc u HC Ht Eu) as (w & m & Hw & Hm & Ku).
  exists v, w. unfold td, tu. rewrite Ht. repeat split; auto; destruct (seg_at s e Hs) as (_ & _ & E1 & E2 & _).
  - unfold hv. rewrite E1, (pnt_n _ _ Hn), Kd. apply H.
  - apply (du_lt i); unfold td, tu; now rewrite Ht.
  - unfold hv. rewrite E2, (pnt_n _ _ Hm), Ku. apply H.
Qed.

Lemma tl_spans i s : tl i = Some s -> exists g d u, nth_error ss s = Some g /\ td i = Some d /\ tu i = Some u /\
  (hv (smin s) <= hv d)%Q /\ (hv d < hv u)%Q /\ (hv u <= hv (smax s))%Q.
Proof.
  unfold tl. destruct (nth_error ts i) as [t|] eqn:E; [|discriminate]. intros H.
  destruct (reg_l W Es M gv st i t s HC E H) as (g & Hg & K). exists g.
  destruct (side_spans i t s g E Hg) as (d & u & Hdu); [|exists d, u; tauto]. apply (a_l _ _ _ _ (c_ag _ _ _ _ _ HC i t E)). exact K.
Qed.

Lemma tr_spans i s : tr i = Some s -> exists g d u, nth_error ss s = Some g /\ td i = Some d /\ tu i = Some u /\
  (hv (smin s) <= hv d)%Q /\ (hv d < hv u)%Q /\ (hv u <= hv (smax s))%Q.
Proof.
  unfold tr. destruct (nth_error ts i) as [t|] eqn:E; [|discriminate]. intros H.
  destruct (reg_r W Es M gv st i t s HC E H) as (g & Hg & K). exists g.
  destruct (side_spans i t s g E Hg) as (d & u & Hdu); [|exists d, u; tauto]. apply (a_r _ _ _ _ (c_ag _ _ _ _ _ HC i t E)). exact K.
Qed.

Lemma lr_ne i e f : tl i = Some e -> tr i = Some f -> e <> f.
Proof.
  intros He Hf <-. destruct (tl_spans i e He) as (g & d & u & Hg & Hd & Hu & _ & Hdu & _).
  unfold tl, tr, td, tu in *. destruct (nth_error ts i) as [t|] eqn:E; [|discriminate].
  destruct (reg_l W Es M gv st i t e HC E He) as (g1 & Hg1 & K1). destruct (reg_r W Es M gv st i t e HC E Hf) as (g2 & Hg2 & K2).
  assert (g1 = g2) by congruence. subst g2.
  destruct (reg_end W Es M gv st i t Desc d HC E Hd) as (n & Hn & J1). destruct (reg_end W Es M gv st i t Asc u HC E Hu) as (n' & Hn' & J2).
  unfold hv in Hdu. rewrite (pnt_n _ _ Hn), (pnt_n _ _ Hn') in Hdu. destruct (mid _ _ Hdu) as (M1 & M2).
  assert (X M (sedge g1) ((ht M (n_c n) + ht M (n_c n')) * (1 # 2)) < X M (sedge g1) ((ht M (n_c n) + ht M (n_c n')) * (1 # 2)))%Q as Hbad.
  { apply (a_lr _ _ _ _ (c_ag _ _ _ _ _ HC i t E)); auto. unfold ahas, obot, otop. cbn [aend] in J1, J2. now rewrite J1, J2. }
  lra.
Qed.

(** ** The three kinds of nexuses *)

Definition bot (i : nat) (l r : option nat) (v : nat) : Prop := i < length ts /\ tl i = l /\ tr i = r /\ td i = Some v.
Definition top (i : nat) (l r : option nat) (v : nat) : Prop := i < length ts /\ tl i = l /\ tr i = r /\ tu i = Some v.

Record nodeV (v : nat) (L R : option nat) (s0 s1 ul uc ur dn : nat) : Prop := {
  nv_n : exists n, nth_error ns v = Some n /\ final_type n = Ok (TV ul uc ur dn) /\ seps n Asc = [s0; s1] /\ seps n Desc = [] /\
    iter_trapezoids n Asc = [ul; uc; ur] /\ iter_trapezoids n Desc = [dn];
  nv_ul : bot ul L (Some s0) v; nv_uc : bot uc (Some s0) (Some s1) v; nv_ur : bot ur (Some s1) R v; nv_dn : top dn L R v;
  nv_s0 : smin s0 = v; nv_s1 : smin s1 = v; nv_ne : s0 <> s1; nv_nd : NoDup [ul; uc; ur]
}.

Record nodeI (v : nat) (L R : option nat) (s s' ul ur dl dr : nat) : Prop := {
  ni_n : exists n, nth_error ns v = Some n /\ final_type n = Ok (TI ul ur dl dr) /\ seps n Asc = [s] /\ seps n Desc = [s'] /\
    iter_trapezoids n Asc = [ul; ur] /\ iter_trapezoids n Desc = [dl; dr];
  ni_ul : bot ul L (Some s) v; ni_ur : bot ur (Some s) R v; ni_dl : top dl L (Some s') v; ni_dr : top dr (Some s') R v;
  ni_s : smin s = v; ni_s' : smax s' = v; ni_nd : NoDup [ul; ur]; ni_nd' : NoDup [dl; dr]
}.

Record nodeA (v : nat) (L R : option nat) (s0 s1 up dl dc dr : nat) : Prop := {
  na_n : exists n, nth_error ns v = Some n /\ final_type n = Ok (TA up dl dc dr) /\ seps n Asc = [] /\ seps n Desc = [s0; s1] /\
    iter_trapezoids n Asc = [up] /\ iter_trapezoids n Desc = [dl; dc; dr];
  na_up : bot up L R v; na_dl : top dl L (Some s0) v; na_dc : top dc (Some s0) (Some s1) v; na_dr : top dr (Some s1) R v;
  na_s0 : smax s0 = v; na_s1 : smax s1 = v; na_ne : s0 <> s1; na_nd : NoDup [dl; dc; dr]
}.

Lemma lane_bot i t v l r : nth_error ts i = Some t -> t_l t = l -> t_r t = r -> tend Desc t = Some v -> bot i l r v.
Proof. intros E H1 H2 H3. unfold bot, tl, tr, td. rewrite E. repeat split; auto. eapply nth_lt; eauto. Qed.
Lemma lane_top i t v l r : nth_error ts i = Some t -> t_l t = l -> t_r t = r -> tend Asc t = Some v -> top i l r v.
Proof. intros E H1 H2 H3. unfold top, tl, tr, tu. rewrite E. repeat split; auto. eapply nth_lt; eauto. Qed.

Lemma node_cases v n : nth_error ns v = Some n ->
  (exists L R s0 s1 ul uc ur dn, nodeV v L R s0 s1 ul uc ur dn) \/
  (exists L R s s' ul ur dl dr, nodeI v L R s s' ul ur dl dr) \/
  (exists L R s0 s1 up dl dc dr, nodeA v L R s0 s1 up dl dc dr).
Proof.
  intros Hn. pose proof (HD v n Hn) as H2. destruct (f_n _ _ _ _ _ HF v n Hn) as [Hord Hsep Hnd (L & R & HL)].
  pose proof (HL Asc) as La. pose proof (HL Desc) as Ld. pose proof (Hnd Asc) as Na. pose proof (Hnd Desc) as Nd.
  pose proof (Hsep Asc) as Sa. pose proof (Hsep Desc) as Sd.
  unfold seps, iter_trapezoids, filter_dividers, first_trapezoid, dorder, deg in La, Ld, Na, Nd, Sa, Sd, Hord, H2.
  destruct (n_div n) as [|?|[e0 r0 [|]] [e1 r1 [|]]] eqn:Ed; try discriminate; cbn [d_dir d_si d_r dir_eqb] in *.
  - (* V *)
    left. unfold bnd in La, Ld. cbn [map app] in La, Ld.
    apply lane_cons in La as ((t1 & A1 & A2 & A3 & A4) & La). apply lane_cons in La as ((t2 & B1 & B2 & B3 & B4) & La). apply lane_cons in La as ((t3 & C1 & C2 & C3 & C4) & _).
    apply lane_cons in Ld as ((t4 & D1 & D2 & D3 & D4) & _).
    destruct (Sa e0) as (g0 & G0 & K0); [now left|]. destruct (Sa e1) as (g1 & G1 & K1); [right; now left|].
    assert (Huc : bot r0 (Some e0) (Some e1) v) by (eapply lane_bot; eauto).
    exists L, R, e0, e1, (n_ul n), r0, r1, (n_dl n). split; auto.
    + exists n. unfold final_type, seps, iter_trapezoids, filter_dividers. rewrite Ed. cbn. auto 10.
    + eapply lane_bot; eauto.
    + eapply lane_bot; eauto.
    + eapply lane_top; eauto.
    + unfold smin. now rewrite G0.
    + unfold smin. now rewrite G1.
    + apply (lr_ne r0); apply Huc.
  - (* I *)
    right; left. unfold bnd in La, Ld. cbn [map app] in La, Ld.
    apply lane_cons in La as ((t1 & A1 & A2 & A3 & A4) & La). apply lane_cons in La as ((t2 & B1 & B2 & B3 & B4) & La).
    apply lane_cons in Ld as ((t3 & C1 & C2 & C3 & C4) & Ld). apply lane_cons in Ld as ((t4 & D1 & D2 & D3 & D4) & _).
    destruct (Sa e0) as (g0 & G0 & K0); [now left|]. destruct (Sd e1) as (g1 & G1 & K1); [now left|].
    exists L, R, e0, e1, (n_ul n), r0, (n_dl n), r1. split; auto.
    + exists n. unfold final_type, seps, iter_trapezoids, filter_dividers. rewrite Ed. cbn. auto 10.
    + eapply lane_bot; eauto.
    + eapply lane_bot; eauto.
    + eapply lane_top; eauto.
    + eapply lane_top; eauto.
    + unfold smin. now rewrite G0.
    + unfold smax. now rewrite G1.
  - specialize (Hord eq_refl). discriminate.
  - (* A *)
    right; right. unfold bnd in La, Ld. cbn [map app] in La, Ld.
    apply lane_cons in La as ((t1 & A1 & A2 & A3 & A4) & _).
    apply lane_cons in Ld as ((t2 & B1 & B2 & B3 & B4) & Ld). apply lane_cons in Ld as ((t3 & C1 & C2 & C3 & C4) & Ld). apply lane_cons in Ld as ((t4 & D1 & D2 & D3 & D4) & _).
    destruct (Sd e0) as (g0 & G0 & K0); [now left|]. destruct (Sd e1) as (g1 & G1 & K1); [right; now left|].
    assert (Hdc : top r0 (Some e0) (Some e1) v) by (eapply lane_top; eauto).
    exists L, R, e0, e1, (n_ul n), (n_dl n), r0, r1. split; auto.
    + exists n. unfold final_type, seps, iter_trapezoids, filter_dividers. rewrite Ed. cbn. auto 10.
    + eapply lane_bot; eauto.
    + eapply lane_top; eauto.
    + eapply lane_top; eauto.
    + unfold smax. now rewrite G0.
    + unfold smax. now rewrite G1.
    + apply (lr_ne r0); apply Hdc.
Qed.

(** ** Two colours *)

(** The trapezoid above, and whether the colour changes. *)
Definition par (i : nat) : option (nat * bool) :=
  match tu i with
  | None => None
  | Some v => match nth_error ns v with
    | None => None
    | Some n => match final_type n with
      | Ok (TV ul _ _ _) => Some (ul, false)
      | Ok (TI ul ur dl _) => Some (if Nat.eqb i dl then ul else ur, false)
      | Ok (TA up _ dc _) => Some (up, Nat.eqb i dc)
      | _ => None
      end
    end
  end.

Fixpoint colour_up (k i : nat) : bool :=
  match k with
  | 0 => false
  | S k => match par i with Some (j, b) => xorb (colour_up k j) b | None => false end
  end.

(** Number of vertices at or above a height. *)
Definition above (h : Q) : nat := length (filter (fun p => Qle_bool h (ht M p)) (points st)).

Lemma filter_len_le {A} (f g : A -> bool) l : (forall x, In x l -> f x = true -> g x = true) -> length (filter f l) <= length (filter g l).
Proof.
  induction l as [|x l IH]; intros H; cbn; auto. assert (IH' := IH (fun y Hy => H y (or_intror Hy))).
  destruct (f x) eqn:Ef. { rewrite (H x (or_introl eq_refl) Ef). cbn. lia. } destruct (g x); cbn; lia.
Qed.
Lemma filter_len_lt {A} (f g : A -> bool) l y : (forall x, In x l -> f x = true -> g x = true) -> In y l -> g y = true -> f y = false ->
  length (filter f l) < length (filter g l).
Proof.
  induction l as [|x l IH]; intros H Hy Hg Hf; [easy|]. cbn. destruct Hy as [->|Hy].
  - rewrite Hf, Hg. cbn. pose proof (filter_len_le f g l (fun z Hz => H z (or_intror Hz))). lia.
  - specialize (IH (fun z Hz => H z (or_intror Hz)) Hy Hg Hf). destruct (f x) eqn:Ef. { rewrite (H x (or_introl eq_refl) Ef). cbn. lia. } destruct (g x); cbn; lia.
Qed.

Lemma above_lt v n h : nth_error ns v = Some n -> (hv v < h)%Q -> above h < above (hv v).
Proof.
  intros Hn H. unfold above. apply (filter_len_lt _ _ _ (pnt v)).
  - intros x _ Hx. apply Qle_bool_iff in Hx. apply Qle_bool_iff. lra.
  - rewrite (pnt_n v n Hn). eapply nth_error_In. apply points_nth. exact Hn.
  - apply Qle_bool_iff. unfold hv. lra.
  - destruct (Qle_bool h (ht M (pnt v))) eqn:E; auto. apply Qle_bool_iff in E. unfold hv in H. lra.
Qed.

Definition rank (i : nat) : nat := match tu i with None => 0 | Some v => above (hv v) end.

Lemma bot_rank i l r v n : nth_error ns v = Some n -> bot i l r v -> rank i < above (hv v).
Proof.
  intros Hn (_ & _ & _ & Hd). unfold rank. destruct (tu i) as [u|] eqn:Hu.
  - apply (above_lt v n); auto. now apply (du_lt i).
  - assert (0 < above (hv v)); auto. unfold above.
    assert (Hin : In (pnt v) (filter (fun p => Qle_bool (hv v) (ht M p)) (points st))).
    { apply filter_In. split; [rewrite (pnt_n v n Hn); eapply nth_error_In; apply points_nth; exact Hn|]. apply Qle_bool_iff. unfold hv. lra. }
    destruct (filter _ _); [easy|cbn; lia].
Qed.

Lemma top_rank i l r v : top i l r v -> rank i = above (hv v).
Proof. intros (_ & _ & _ & H). unfold rank. now rewrite H. Qed.

Lemma par_V v L R s0 s1 ul uc ur dn : nodeV v L R s0 s1 ul uc ur dn -> par dn = Some (ul, false).
Proof. intros H. destruct (nv_n _ _ _ _ _ _ _ _ _ H) as (n & Hn & Hf & _). unfold par. destruct (nv_dn _ _ _ _ _ _ _ _ _ H) as (_ & _ & _ & ->). now rewrite Hn, Hf. Qed.

Lemma par_I v L R s s' ul ur dl dr : nodeI v L R s s' ul ur dl dr -> par dl = Some (ul, false) /\ par dr = Some (ur, false).
Proof.
  intros H. destruct (ni_n _ _ _ _ _ _ _ _ _ H) as (n & Hn & Hf & _). unfold par.
  destruct (ni_dl _ _ _ _ _ _ _ _ _ H) as (_ & _ & _ & ->). destruct (ni_dr _ _ _ _ _ _ _ _ _ H) as (_ & _ & _ & ->). rewrite Hn, Hf, Nat.eqb_refl. split; auto.
  destruct (Nat.eqb_spec dr dl) as [->|]; auto. pose proof (ni_nd' _ _ _ _ _ _ _ _ _ H) as N. inversion N; subst. cbn in *. tauto.
Qed.

Lemma par_A v L R s0 s1 up dl dc dr : nodeA v L R s0 s1 up dl dc dr ->
  par dl = Some (up, false) /\ par dc = Some (up, true) /\ par dr = Some (up, false).
Proof.
  intros H. destruct (na_n _ _ _ _ _ _ _ _ _ H) as (n & Hn & Hf & _). unfold par.
  destruct (na_dl _ _ _ _ _ _ _ _ _ H) as (_ & _ & _ & ->). destruct (na_dc _ _ _ _ _ _ _ _ _ H) as (_ & _ & _ & ->). destruct (na_dr _ _ _ _ _ _ _ _ _ H) as (_ & _ & _ & ->).
  rewrite Hn, Hf, Nat.eqb_refl. pose proof (na_nd _ _ _ _ _ _ _ _ _ H) as N. inversion N as [|? ? N1 N2]; subst. inversion N2; subst. cbn in *.
  destruct (Nat.eqb_spec dl dc) as [->|]; [tauto|]. destruct (Nat.eqb_spec dr dc) as [->|]; [tauto|]. auto.
Qed.

(** Every trapezoid is the topmost one or below a nexus. *)
Lemma below_cases i v : tu i = Some v ->
  (exists L R s0 s1 ul uc ur dn, nodeV v L R s0 s1 ul uc ur dn /\ i = dn) \/
  (exists L R s s' ul ur dl dr, nodeI v L R s s' ul ur dl dr /\ (i = dl \/ i = dr)) \/
  (exists L R s0 s1 up dl dc dr, nodeA v L R s0 s1 up dl dc dr /\ (i = dl \/ i = dc \/ i = dr)).
Proof.
  intros H. destruct (tu_n i v H) as (n & Hn & Hin).
  destruct (node_cases v n Hn) as [(L & R & s0 & s1 & ul & uc & ur & dn & N)|[(L & R & s & s' & ul & ur & dl & dr & N)|(L & R & s0 & s1 & up & dl & dc & dr & N)]].
  - left. exists L, R, s0, s1, ul, uc, ur, dn. split; auto. destruct (nv_n _ _ _ _ _ _ _ _ _ N) as (n' & Hn' & _ & _ & _ & _ & E). assert (n' = n) by congruence. subst. rewrite E in Hin. cbn in Hin. intuition.
  - right; left. exists L, R, s, s', ul, ur, dl, dr. split; auto. destruct (ni_n _ _ _ _ _ _ _ _ _ N) as (n' & Hn' & _ & _ & _ & _ & E). assert (n' = n) by congruence. subst. rewrite E in Hin. cbn in Hin. intuition.
  - right; right. exists L, R, s0, s1, up, dl, dc, dr. split; auto. destruct (na_n _ _ _ _ _ _ _ _ _ N) as (n' & Hn' & _ & _ & _ & _ & E). assert (n' = n) by congruence. subst. rewrite E in Hin. cbn in Hin. intuition.
Qed.

Lemma above_cases i v : td i = Some v ->
  (exists L R s0 s1 ul uc ur dn, nodeV v L R s0 s1 ul uc ur dn /\ (i = ul \/ i = uc \/ i = ur)) \/
  (exists L R s s' ul ur dl dr, nodeI v L R s s' ul ur dl dr /\ (i = ul \/ i = ur)) \/
  (exists L R s0 s1 up dl dc dr, nodeA v L R s0 s1 up dl dc dr /\ i = up).
Proof.
  intros H. destruct (td_n i v H) as (n & Hn & Hin).
  destruct (node_cases v n Hn) as [(L & R & s0 & s1 & ul & uc & ur & dn & N)|[(L & R & s & s' & ul & ur & dl & dr & N)|(L & R & s0 & s1 & up & dl & dc & dr & N)]].
  - left. exists L, R, s0, s1, ul, uc, ur, dn. split; auto. destruct (nv_n _ _ _ _ _ _ _ _ _ N) as (n' & Hn' & _ & _ & _ & E & _). assert (n' = n) by congruence. subst. rewrite E in Hin. cbn in Hin. intuition.
  - right; left. exists L, R, s, s', ul, ur, dl, dr. split; auto. destruct (ni_n _ _ _ _ _ _ _ _ _ N) as (n' & Hn' & _ & _ & _ & E & _). assert (n' = n) by congruence. subst. rewrite E in Hin. cbn in Hin. intuition.
  - right; right. exists L, R, s0, s1, up, dl, dc, dr. split; auto. destruct (na_n _ _ _ _ _ _ _ _ _ N) as (n' & Hn' & _ & _ & _ & E & _). assert (n' = n) by congruence. subst. rewrite E in Hin. cbn in Hin. intuition.
Qed.

Lemma par_rank i j b : par i = Some (j, b) -> rank j < rank i.
Proof.
  destruct (tu i) as [v|] eqn:Hu; [|unfold par; now rewrite Hu].
  destruct (below_cases i v Hu) as [(L & R & s0 & s1 & ul & uc & ur & dn & N & ->)|[(L & R & s & s' & ul & ur & dl & dr & N & Hi)|(L & R & s0 & s1 & up & dl & dc & dr & N & Hi)]].
  - destruct (nv_n _ _ _ _ _ _ _ _ _ N) as (n & Hn & _). rewrite (par_V _ _ _ _ _ _ _ _ _ N). intros [= <- <-].
    rewrite (top_rank _ _ _ _ (nv_dn _ _ _ _ _ _ _ _ _ N)). eapply bot_rank; eauto. apply (nv_ul _ _ _ _ _ _ _ _ _ N).
  - destruct (ni_n _ _ _ _ _ _ _ _ _ N) as (n & Hn & _). destruct (par_I _ _ _ _ _ _ _ _ _ N) as (P1 & P2). destruct Hi as [->| ->]; [rewrite P1|rewrite P2]; intros [= <- <-].
    + rewrite (top_rank _ _ _ _ (ni_dl _ _ _ _ _ _ _ _ _ N)). eapply bot_rank; eauto. apply (ni_ul _ _ _ _ _ _ _ _ _ N).
    + rewrite (top_rank _ _ _ _ (ni_dr _ _ _ _ _ _ _ _ _ N)). eapply bot_rank; eauto. apply (ni_ur _ _ _ _ _ _ _ _ _ N).
  - destruct (na_n _ _ _ _ _ _ _ _ _ N) as (n & Hn & _). destruct (par_A _ _ _ _ _ _ _ _ _ N) as (P1 & P2 & P3).
    assert (rank up < above (hv v)) by (eapply bot_rank; eauto; apply (na_up _ _ _ _ _ _ _ _ _ N)).
    destruct Hi as [->|[->| ->]]; [rewrite P1|rewrite P2|rewrite P3]; intros [= <- <-].
    + now rewrite (top_rank _ _ _ _ (na_dl _ _ _ _ _ _ _ _ _ N)).
    + now rewrite (top_rank _ _ _ _ (na_dc _ _ _ _ _ _ _ _ _ N)).
    + now rewrite (top_rank _ _ _ _ (na_dr _ _ _ _ _ _ _ _ _ N)).
Qed.

Lemma colour_stable k : forall i m, rank i < k -> rank i < m -> colour_up k i = colour_up m i.
Proof.
  induction k as [|k IH]; intros i m Hk Hm; [lia|]. destruct m as [|m]; [lia|]. cbn [colour_up].
  destruct (par i) as [[j b]|] eqn:E; auto. pose proof (par_rank _ _ _ E). f_equal. apply IH; lia.
Qed.

(** The colour of a trapezoid: [false] for the topmost one. *)
Definition colour (i : nat) : bool := colour_up (S (rank i)) i.

Lemma colour_par i j b : par i = Some (j, b) -> colour i = xorb (colour j) b.
Proof. intros E. unfold colour at 1. cbn [colour_up]. rewrite E. f_equal. unfold colour. apply colour_stable; [now apply par_rank in E|lia]. Qed.

Lemma colour_top i : tu i = None -> colour i = false.
Proof. intros E. unfold colour. cbn [colour_up]. unfold par. now rewrite E. Qed.

(** The colour to the right of a segment, taken at its upper end. *)
Definition scol (e : nat) : bool :=
  match nth_error ns (smax e) with
  | Some n => match final_type n, seps n Desc with
    | Ok (TI _ _ _ dr), _ => colour dr
    | Ok (TA _ _ dc dr), e0 :: _ => if Nat.eqb e e0 then colour dc else colour dr
    | _, _ => false
    end
  | None => false
  end.

(** Both sides of every segment have one colour each, and the two are different. *)
Lemma scol_ok : forall k i, rank i < k -> forall e, (tl i = Some e -> colour i = scol e) /\ (tr i = Some e -> colour i = negb (scol e)).
Proof.
  induction k as [|k IH]; intros i Hk e; [lia|].
  assert (IHl : forall j e l r v n, nth_error ns v = Some n -> bot j l r v -> above (hv v) < S k -> tl j = Some e -> colour j = scol e).
  { intros j e' l r v n Hn Hb Hv. apply (IH j). pose proof (bot_rank j l r v n Hn Hb). lia. }
  assert (IHr : forall j e l r v n, nth_error ns v = Some n -> bot j l r v -> above (hv v) < S k -> tr j = Some e -> colour j = negb (scol e)).
  { intros j e' l r v n Hn Hb Hv. apply (IH j). pose proof (bot_rank j l r v n Hn Hb). lia. }
  destruct (tu i) as [v|] eqn:Hu.
  2:{ split; intros H; [destruct (tl_spans i e H) as (? & ? & ? & ? & ? & ? & _)|destruct (tr_spans i e H) as (? & ? & ? & ? & ? & ? & _)]; congruence. }
  assert (Hv : above (hv v) < S k) by (unfold rank in Hk; now rewrite Hu in Hk).
  destruct (below_cases i v Hu) as [(L & R & s0 & s1 & ul & uc & ur & dn & N & ->)|[(L & R & s & s' & ul & ur & dl & dr & N & Hi)|(L & R & s0 & s1 & up & dl & dc & dr & N & Hi)]].
  - pose proof (par_V _ _ _ _ _ _ _ _ _ N) as P. destruct N as [(n & Hn & _) Bul Buc Bur Tdn _ _ _ _].
    destruct Bul as (X1 & X2 & X3 & X4) eqn:?, Buc as (Y1 & Y2 & Y3 & Y4) eqn:?, Bur as (Z1 & Z2 & Z3 & Z4) eqn:?, Tdn as (T1 & T2 & T3 & T4).
    rewrite (colour_par _ _ _ P), xorb_false_r.
    split; intros H.
    + eapply IHl; eauto. congruence.
    + rewrite (IHr ul s0 _ _ _ _ Hn Bul Hv X3). rewrite <- (IHl uc s0 _ _ _ _ Hn Buc Hv Y2). rewrite (IHr uc s1 _ _ _ _ Hn Buc Hv Y3), negb_involutive.
      rewrite <- (IHl ur s1 _ _ _ _ Hn Bur Hv Z2). eapply IHr; eauto. congruence.
  - destruct (par_I _ _ _ _ _ _ _ _ _ N) as (P1 & P2). destruct N as [(n & Hn & Hf & _) Bul Bur Tdl Tdr _ Hs' _ _].
    destruct Bul as (X1 & X2 & X3 & X4) eqn:?, Bur as (Z1 & Z2 & Z3 & Z4) eqn:?, Tdl as (T1 & T2 & T3 & T4), Tdr as (U1 & U2 & U3 & U4).
    assert (Es' : scol s' = colour dr) by (unfold scol; now rewrite Hs', Hn, Hf).
    assert (Edr : colour dr = colour ur) by now rewrite (colour_par _ _ _ P2), xorb_false_r.
    assert (Edl : colour dl = colour ul) by now rewrite (colour_par _ _ _ P1), xorb_false_r.
    assert (Eu : colour ul = negb (colour ur)). { rewrite (IHr ul s _ _ _ _ Hn Bul Hv X3). now rewrite (IHl ur s _ _ _ _ Hn Bur Hv Z2). }
    destruct Hi as [->| ->]; split; intros H.
    + rewrite Edl. eapply IHl; eauto. congruence.
    + assert (e = s') by congruence. subst e. now rewrite Es', Edl, Edr.
    + assert (e = s') by congruence. now subst e.
    + rewrite Edr. eapply IHr; eauto. congruence.
  - destruct (par_A _ _ _ _ _ _ _ _ _ N) as (P1 & P2 & P3). destruct N as [(n & Hn & Hf & _ & Hsd & _) Bup Tdl Tdc Tdr Hs0 Hs1 Hne _].
    destruct Bup as (X1 & X2 & X3 & X4) eqn:?, Tdl as (T1 & T2 & T3 & T4), Tdc as (U1 & U2 & U3 & U4), Tdr as (V1 & V2 & V3 & V4).
    assert (E0 : scol s0 = colour dc) by (unfold scol; now rewrite Hs0, Hn, Hf, Hsd, Nat.eqb_refl).
    assert (E1 : scol s1 = colour dr). { unfold scol. rewrite Hs1, Hn, Hf, Hsd. destruct (Nat.eqb_spec s1 s0); congruence. }
    assert (Edl : colour dl = colour up) by now rewrite (colour_par _ _ _ P1), xorb_false_r.
    assert (Edc : colour dc = negb (colour up)) by now rewrite (colour_par _ _ _ P2), xorb_true_r.
    assert (Edr : colour dr = colour up) by now rewrite (colour_par _ _ _ P3), xorb_false_r.
    destruct Hi as [->|[->| ->]]; split; intros H.
    + rewrite Edl. eapply IHl; eauto. congruence.
    + assert (e = s0) by congruence. subst e. now rewrite E0, Edl, Edc, negb_involutive.
    + assert (e = s0) by congruence. now subst e.
    + assert (e = s1) by congruence. subst e. now rewrite E1, Edc, Edr.
    + assert (e = s1) by congruence. now subst e.
    + rewrite Edr. eapply IHr; eauto. congruence.
Qed.

Lemma colour_l i e : tl i = Some e -> colour i = scol e.
Proof. apply (scol_ok (S (rank i))). lia. Qed.
Lemma colour_r i e : tr i = Some e -> colour i = negb (scol e).
Proof. apply (scol_ok (S (rank i))). lia. Qed.

End Faces.
