(** The walk along an edge that is not inserted passes at most as many vertices as there would be trapezoids at the edge if it were. *)
From Coq Require Import QArith Lqa List Arith Lia Bool.
From Verif Require Import Base Coord Trap Lanes Plane Geo Region TrapInv Depth AddVertex SegStep AddSegment Segment Walk Polygons Build Locate Faces Clear Canon Near Sweep Orders Random RandomSize Work.
Import ListNotations.
Local Open Scope nat_scope.

(** A gap around a value. *)
Lemma close (l : list Q) (H : Q) : exists dl, (0 < dl)%Q /\ forall x, In x l -> (x == H \/ x <= H - dl \/ H + dl <= x)%Q.
Proof.
  induction l as [|a l (dl & D1 & D2)]; [exists 1%Q; split; [lra|easy]|].
  assert (K : exists da, (0 < da)%Q /\ (a == H \/ a <= H - da \/ H + da <= a)%Q).
  { destruct (Q_dec a H) as [[K|K]|K].
    - exists (H - a)%Q. split; [lra|]. right. left. lra.
    - exists (a - H)%Q. split; [lra|]. right. right. lra.
    - exists 1%Q. split; [lra|auto]. }
  destruct K as (da & A1 & A2). destruct (qmin_spec da dl) as (Q1 & Q2 & Q3). exists (qmin da dl). split; [destruct Q3 as [-> | ->]; auto|].
  intros x [<-|Hx]; [destruct A2 as [?|[?|?]]; auto; [right; left; lra|right; right; lra]|]. destruct (D2 x Hx) as [?|[?|?]]; auto; [right; left; lra|right; right; lra].
Qed.

Section One.
Context {I : Type}.
Variables (W : list point) (Es : list edge) (M : Q) (gv : I -> point) (st : state Q I).
Hypothesis HG : geo W Es.
Hypothesis HM : shear M W.
Hypothesis HF : full W Es M gv st.
Let HC : core W Es M gv st := f_core _ _ _ _ _ HF.

(** An inserted edge to the right of a position is not before the right side there. *)
Lemma cut_r i t e h x : nth_error (st_ts st) i = Some t -> In e (medges st) -> within M e h -> inpos M (reg st t) h x -> (x < X M e h)%Q ->
  exists f, ar (reg st t) = Some f /\ (X M f h <= X M e h)%Q.
Proof.
  intros Hi He Hw (A1 & A2 & A3) Hx. destruct (ar (reg st t)) as [f|] eqn:Er.
  - exists f. split; auto. destruct (Qlt_le_dec (X M e h) (X M f h)) as [K|K]; auto. exfalso. apply (no_through W Es M gv st HG HM HF i t e Hi He). exists h. split; auto. split; auto. split; [|rewrite Er; exact K].
    unfold olft in *. destruct (al (reg st t)); auto. lra.
  - exfalso. apply (no_through W Es M gv st HG HM HF i t e Hi He). exists h. split; auto. split; auto. split; [|rewrite Er; exact Logic.I]. unfold olft in *. destruct (al (reg st t)); auto. lra.
Qed.

Lemma cut_l i t e h x : nth_error (st_ts st) i = Some t -> In e (medges st) -> within M e h -> inpos M (reg st t) h x -> (X M e h < x)%Q ->
  exists f, al (reg st t) = Some f /\ (X M e h <= X M f h)%Q.
Proof.
  intros Hi He Hw (A1 & A2 & A3) Hx. destruct (al (reg st t)) as [f|] eqn:Er.
  - exists f. split; auto. destruct (Qlt_le_dec (X M f h) (X M e h)) as [K|K]; auto. exfalso. apply (no_through W Es M gv st HG HM HF i t e Hi He). exists h. split; auto. split; auto. split; [rewrite Er; exact K|].
    unfold orgt in *. destruct (ar (reg st t)); auto. lra.
  - exfalso. apply (no_through W Es M gv st HG HM HF i t e Hi He). exists h. split; auto. split; auto. split; [rewrite Er; exact Logic.I|]. unfold orgt in *. destruct (ar (reg st t)); auto. lra.
Qed.

Lemma touch_end i t d : nth_error (st_ts st) i = Some t -> touch_l M (al (reg st t)) (aend d (reg st t)) /\ touch_r M (ar (reg st t)) (aend d (reg st t)).
Proof. intros Ht. destruct d; cbn [aend]; [exact (c_tu _ _ _ _ _ HC i t Ht)|exact (f_td _ _ _ _ _ HF i t Ht)]. Qed.
End One.

Section Pass.
Context {I : Type}.
Variables (W : list point) (Es : list edge) (M : Q) (gv : I -> point) (st st' : state Q I) (e : edge) (s : nat).
Hypothesis HG : geo W Es.
Hypothesis HM : shear M W.
Hypothesis HF : full W Es M gv st.
Hypothesis HF' : full W Es M gv st'.
Hypothesis HeE : In e Es.
Hypothesis HE1 : incl (medges st) (medges st').
Hypothesis HE2 : forall f, In f (medges st') -> f = e \/ In f (medges st).
Hypothesis HP : incl (points st) (points st').
Hypothesis Hs : s < length (st_ss st').
Hypothesis Hse : eat st' s = e.
Let HC : core W Es M gv st := f_core _ _ _ _ _ HF.
Let HC' : core W Es M gv st' := f_core _ _ _ _ _ HF'.

(** The far end of a trapezoid the edge passes through is the far end of a trapezoid at the edge. *)
Lemma pass d i t p : nth_error (st_ts st) i = Some t -> through M e (reg st t) -> aend d (reg st t) = Some p -> within M e (ht M p) ->
  exists j t', nth_error (st_ts st') j = Some t' /\ has_side s t' = true /\ aend d (reg st' t') = Some p.
Proof.
  intros Ht (h0 & Hw0 & Hh0 & Hl0 & Hr0) Hd Hw. set (H := ht M p). fold H in Hw.
  pose proof (c_ag _ _ _ _ _ HC i t Ht) as Ga.
  assert (HpP : In p (points st)). { destruct (reg_end_inv W Es M gv st i t d p HC Ht Hd) as (v & nn & _ & Hn & <-). eapply nth_error_In. apply points_nth. exact Hn. }
  assert (HpW : In p W) by now apply (c_W _ _ _ _ _ HC).
  destruct (close (map (ht M) W) H) as (dl & D1 & D2). assert (Near : forall q, In q W -> (ht M q == H \/ ht M q <= H - dl \/ H + dl <= ht M q)%Q) by (intros q Hq; apply D2, in_map; auto). clear D2.
  set (h := match d with Asc => H - dl * (1 # 2) | Desc => H + dl * (1 # 2) end%Q).
  assert (Hh : (H - dl < h /\ h < H + dl /\ ~ h == H)%Q) by (unfold h; destruct d; split; lra). destruct Hh as (Hh1 & Hh2 & Hh3).
  assert (Wh : forall f, In f Es -> within M f H -> within M f h).
  { intros f Hf (W1 & W2). destruct (g_end _ _ HG f Hf) as (K1 & K2 & _). split; [destruct (Near _ K1) as [?|[?|?]]|destruct (Near _ K2) as [?|[?|?]]]; lra. }
  assert (Hah : ahas M (reg st t) h).
  { unfold h. destruct d; cbn [aend] in Hd; unfold ahas, obot, otop; rewrite Hd; fold H.
    - split; [|lra]. destruct (ad (reg st t)) as [q|] eqn:Eq; auto. pose proof (a_du _ _ _ _ Ga _ _ Eq Hd) as K. fold H in K. destruct (Near q (a_d _ _ _ _ Ga q Eq)) as [?|[?|?]]; lra.
    - split; [lra|]. destruct (au (reg st t)) as [q|] eqn:Eq; auto. pose proof (a_du _ _ _ _ Ga _ _ Hd Eq) as K. fold H in K. destruct (Near q (a_u _ _ _ _ Ga q Eq)) as [?|[?|?]]; lra. }
  assert (Weh : within M e h) by auto.
  (* the edge is between the sides at h *)
  assert (Hlh : olft M (al (reg st t)) h (X M e h)).
  { unfold olft in *. destruct (al (reg st t)) as [f|] eqn:El; auto. apply (order_const W Es M HG HM f e h0 h); auto; [now apply (a_l _ _ _ _ Ga)|eapply within_l; eauto|eapply within_l; eauto]. }
  assert (Hrh : orgt M (ar (reg st t)) h (X M e h)).
  { unfold orgt in *. destruct (ar (reg st t)) as [f|] eqn:El; auto. apply (order_const W Es M HG HM e f h0 h); auto; [now apply (a_r _ _ _ _ Ga)|eapply within_r; eauto|eapply within_r; eauto]. }
  pose proof (off_edge W Es M HG HM e p HeE HpW (proj1 Hw) (proj2 Hw)) as Hoff. fold H in Hoff.
  destruct (lt_nth _ _ _ Hs) as (g & Hg). destruct (seg_at W Es M gv st' HG HM HF' s g Hg) as (_ & _ & E1 & E2 & _).
  assert (Hsg : sedge g = e) by (rewrite <- Hse; symmetry; now apply eat_nth).
  assert (SX : forall b, exists j t', nth_error (st_ts st') j = Some t' /\ sd st' b j = Some s /\ ahas M (reg st' t') h).
  { intros b. destruct (side_ex W Es M gv st' HG HM HF' b s h) as (j & Hj & Hhas); auto.
    - unfold hv. rewrite E1. change (s_cmin g) with (fst (sedge g)). rewrite Hsg. apply Weh.
    - unfold hv. rewrite E2. change (s_cmax g) with (snd (sedge g)). rewrite Hsg. apply Weh.
    - intros v nn Hn K. unfold hv in K. rewrite (pnt_n st' v nn Hn) in K. assert (In (n_c nn) W) by (apply (c_W _ _ _ _ _ HC'); eapply nth_error_In; apply points_nth; exact Hn). destruct (Near _ H0) as [?|[?|?]]; lra.
    - destruct (lt_nth _ _ _ (has_in M st' j h Hhas)) as (t' & Ht'). exists j, t'. split; auto. split; auto. eapply has_ahas; eauto. }
  (* a trapezoid at the edge that does not end at p contains the height of p *)
  assert (EN : forall b j t', nth_error (st_ts st') j = Some t' -> sd st' b j = Some s -> ahas M (reg st' t') h -> aend d (reg st' t') = Some p \/ ahas M (reg st' t') H).
  { intros b j t' Hj Hsd (B1 & B2). pose proof (c_ag _ _ _ _ _ HC' j t' Hj) as Gb. destruct (sd_spans W Es M gv st' HG HM HF' b j s Hsd) as (_ & vd & vu & _ & Hvd & Hvu & _). unfold td, tu in *. rewrite Hj in *.
    destruct (reg_end W Es M gv st' j t' Desc vd HC' Hj Hvd) as (nd & Hnd & Ad). destruct (reg_end W Es M gv st' j t' Asc vu HC' Hj Hvu) as (nu & Hnu & Au). cbn [aend] in Ad, Au.
    pose proof (a_d _ _ _ _ Gb _ Ad) as Wd. pose proof (a_u _ _ _ _ Gb _ Au) as Wu. unfold ahas, obot, otop in *. rewrite Ad, Au in *.
    destruct d; cbn [aend]; unfold h in *.
    - rewrite Au. destruct (Near _ Wu) as [K|[K|K]]; [left; f_equal; apply (ht_inj W Es M HG HM); auto|lra|]. right. split; [|lra]. destruct (Near _ Wd) as [?|[?|?]]; lra.
    - rewrite Ad. destruct (Near _ Wd) as [K|[K|K]]; [left; f_equal; apply (ht_inj W Es M HG HM); auto| |lra]. right. split; [lra|]. destruct (Near _ Wu) as [?|[?|?]]; lra. }
  destruct (touch_end W Es M gv st HF i t d Ht) as (T1 & T2). rewrite Hd in T1, T2.
  destruct (Q_dec (X M e H) (cx p)) as [[Hpx|Hpx]|Hpx]; [| |exfalso; apply Hoff; lra].
  - (* on the right of the edge *)
    destruct (SX false) as (j & t' & Hj & Hsd & Hh'). exists j, t'. split; auto. split; [eapply side_has; eauto|].
    destruct (EN false j t' Hj Hsd Hh') as [K|HhH]; auto. exfalso. pose proof (c_ag _ _ _ _ _ HC' j t' Hj) as Gb.
    pose proof (side_reg st' j t' false s Hj Hsd) as Al. cbn [aside] in Al. rewrite Hse in Al.
    destruct (pick_l M (Some e) (ar (reg st t)) (ar (reg st' t')) h) as (x & X1 & X2 & X3).
    { intros e0 f [= <-] Hf. unfold orgt in Hrh. now rewrite Hf in Hrh. }
    { intros e0 f [= <-] Hf. now apply (a_lr _ _ _ _ Gb). }
    assert (P1 : inpos M (reg st t) h x). { split; auto. split; auto. unfold olft in *. destruct (al (reg st t)); auto. lra. }
    assert (P2 : inpos M (reg st' t') h x). { split; auto. split; auto. now rewrite Al. }
    assert (Er : ar (reg st t) = ar (reg st' t')).
    { destruct (ar (reg st' t')) as [f|] eqn:Ef.
      - assert (Wf : within M f h) by (eapply (within_r W Es M (reg st' t')); eauto). cbn [orgt] in X3. cbn [olft] in X1.
        assert (Hfm : In f (medges st)). { destruct (HE2 f) as [->|K]; auto; [apply (ar_in W Es M gv st' HF' j t' f Hj Ef)|lra]. }
        destruct (cut_r W Es M gv st HG HM HF i t f h x Ht Hfm Wf P1 X3) as (g' & Eg & K1). rewrite Eg in *.
        assert (Wg : within M g' h) by (eapply (within_r W Es M (reg st t)); eauto). cbn [orgt] in X2.
        assert (Hgm : In g' (medges st')) by (apply HE1; eapply (ar_in W Es M gv st HF i t); eauto).
        destruct (cut_r W Es M gv st' HG HM HF' j t' g' h x Hj Hgm Wg P2 X2) as (f' & Ef' & K2). assert (f' = f) by congruence. subst f'.
        f_equal. destruct (edge_dec g' f) as [|Hne]; auto. exfalso. apply (no_meet W Es M HG HM g' f h); auto; [apply (a_r _ _ _ _ Ga); auto|apply (a_r _ _ _ _ Gb); auto|lra].
      - destruct (ar (reg st t)) as [g'|] eqn:Eg; auto. assert (Wg : within M g' h) by (eapply (within_r W Es M (reg st t)); eauto). cbn [orgt] in X2.
        assert (Hgm : In g' (medges st')) by (apply HE1; eapply (ar_in W Es M gv st HF i t); eauto).
        destruct (cut_r W Es M gv st' HG HM HF' j t' g' h x Hj Hgm Wg P2 X2) as (f' & Ef' & _). congruence. }
    apply (half_touch W Es M gv st gv st' HG HM HF HF' HP j t' p); auto.
    + rewrite Al. cbn [touch_l]. fold H. lra.
    + now rewrite <- Er.
  - destruct (SX true) as (j & t' & Hj & Hsd & Hh'). exists j, t'. split; auto. split; [eapply side_has; eauto|].
    destruct (EN true j t' Hj Hsd Hh') as [K|HhH]; auto. exfalso. pose proof (c_ag _ _ _ _ _ HC' j t' Hj) as Gb.
    pose proof (side_reg st' j t' true s Hj Hsd) as Ar. cbn [aside] in Ar. rewrite Hse in Ar.
    destruct (pick_r M (al (reg st t)) (al (reg st' t')) (Some e) h) as (x & X1 & X2 & X3).
    { intros f e0 Hf [= <-]. unfold olft in Hlh. now rewrite Hf in Hlh. }
    { intros f e0 Hf [= <-]. now apply (a_lr _ _ _ _ Gb). }
    assert (P1 : inpos M (reg st t) h x). { split; auto. split; auto. unfold orgt in *. destruct (ar (reg st t)); auto. lra. }
    assert (P2 : inpos M (reg st' t') h x). { split; auto. split; auto. now rewrite Ar. }
    assert (El : al (reg st t) = al (reg st' t')).
    { destruct (al (reg st' t')) as [f|] eqn:Ef.
      - assert (Wf : within M f h) by (eapply (within_l W Es M (reg st' t')); eauto). cbn [orgt] in X3. cbn [olft] in X2.
        assert (Hfm : In f (medges st)). { destruct (HE2 f) as [->|K]; auto; [apply (al_in W Es M gv st' HF' j t' f Hj Ef)|lra]. }
        destruct (cut_l W Es M gv st HG HM HF i t f h x Ht Hfm Wf P1 X2) as (g' & Eg & K1). rewrite Eg in *.
        assert (Wg : within M g' h) by (eapply (within_l W Es M (reg st t)); eauto). cbn [olft] in X1.
        assert (Hgm : In g' (medges st')) by (apply HE1; eapply (al_in W Es M gv st HF i t); eauto).
        destruct (cut_l W Es M gv st' HG HM HF' j t' g' h x Hj Hgm Wg P2 X1) as (f' & Ef' & K2). assert (f' = f) by congruence. subst f'.
        f_equal. destruct (edge_dec g' f) as [|Hne]; auto. exfalso. apply (no_meet W Es M HG HM g' f h); auto; [apply (a_l _ _ _ _ Ga); auto|apply (a_l _ _ _ _ Gb); auto|lra].
      - destruct (al (reg st t)) as [g'|] eqn:Eg; auto. assert (Wg : within M g' h) by (eapply (within_l W Es M (reg st t)); eauto). cbn [olft] in X1.
        assert (Hgm : In g' (medges st')) by (apply HE1; eapply (al_in W Es M gv st HF i t); eauto).
        destruct (cut_l W Es M gv st' HG HM HF' j t' g' h x Hj Hgm Wg P2 X1) as (f' & Ef' & _). congruence. }
    apply (half_touch W Es M gv st gv st' HG HM HF HF' HP j t' p); auto.
    + now rewrite <- El.
    + rewrite Ar. cbn [touch_r]. fold H. lra.
Qed.

Lemma walk_points d k : ~ In (eend d e) (points st) -> forall i t i', nth_error (st_ts st) i = Some t -> through M e (reg st t) ->
  fst (walk_c k st d (eend (opp d) e) (eend d e) i) = Ok i' ->
  exists L, snd (walk_c k st d (eend (opp d) e) (eend d e) i) = S (length L) /\ NoDup L /\
    (forall p, In p L -> exists i t, nth_error (st_ts st) i = Some t /\ through M e (reg st t) /\ aend d (reg st t) = Some p /\ within M e (ht M p)) /\
    (forall p, In p L -> exists q, aend d (reg st t) = Some q /\ (toward M d p <= toward M d q)%Q).
Proof.
  intros Hnp. induction k as [|k IH]; intros i t i' Ht Hth Hw; [discriminate|].
  assert (Ew : forall r, reached (st_ns st) t d (eend d e) = Ok r -> walk_c (S k) st d (eend (opp d) e) (eend d e) i = tick (if r : bool then free (Ok i) else
    cbind (free (ok_or (tend d t) IE_ContainingNotFound)) (fun ni => cbind (free (rdu (st_ns st) ni)) (fun n => walk_c k st d (eend (opp d) e) (eend d e) (get_trapezoid_between d (eend (opp d) e) (eend d e) n))))).
  { intros r Hr. cbn [walk_c]. f_equal. rewrite (cbind_ok (free (rdu (st_ts st) i)) _ t) by (unfold rdu; cbn [free fst]; now rewrite Ht). rewrite (cbind_ok (free (reached (st_ns st) t d (eend d e))) _ r) by exact Hr. cbn [free snd]. rewrite <- !surjective_pairing. reflexivity. }
  destruct (reached_ok W Es M gv HG HM st d e i t HF Ht HeE Hth Hnp) as [(R1 & R2)|(v & n & R1 & R2 & R3 & R4)]; rewrite (Ew _ R1) in Hw |- *; cbn iota in *.
  { exists []. cbn. split; auto. split; [constructor|]. split; intros p []. }
  rewrite (cbind_ok (free (ok_or (tend d t) IE_ContainingNotFound)) _ v) in Hw |- * by (cbn [free fst]; rewrite R2; reflexivity). rewrite (cbind_ok (free (rdu (st_ns st) v)) _ n) in Hw |- * by (unfold rdu; cbn [free fst]; now rewrite R3).
  unfold tick in *. cbn [free fst snd] in *.
  destruct (walk_step W Es M gv HG HM st d e i t v n HF Ht HeE Hth R2 R3 R4) as (t1 & Ht1 & Hth1 & Hv1). cbn zeta in Ht1. set (i1 := get_trapezoid_between d (eend (opp d) e) (eend d e) n) in *.
  destruct (IH i1 t1 i' Ht1 Hth1 Hw) as (L & L1 & L2 & L3 & L4). destruct (reg_end W Es M gv st i t d v HC Ht R2) as (n0 & Hn0 & Ad). assert (n0 = n) by congruence. subst n0.
  destruct (reg_end W Es M gv st i1 t1 (opp d) v HC Ht1 Hv1) as (n0 & Hn0' & Ad0). assert (n0 = n) by congruence. subst n0.
  pose proof (c_ag _ _ _ _ _ HC i1 t1 Ht1) as Hag. assert (Hlt : forall q, aend d (reg st t1) = Some q -> (toward M d q < toward M d (n_c n))%Q).
  { intros q Hq. unfold toward. destruct d; cbn [opp aend] in *; [pose proof (a_du _ _ _ _ Hag _ _ Ad0 Hq) as Z|pose proof (a_du _ _ _ _ Hag _ _ Hq Ad0) as Z]; lra. }
  exists (n_c n :: L). split; [cbn [length]; lia|]. split; [|split].
  - constructor; auto. intros K. destruct (L4 _ K) as (q & Q1 & Q2). specialize (Hlt q Q1). lra.
  - intros p [<-|Hp]; [|auto]. exists i, t. auto.
  - intros p [<-|Hp]; [exists (n_c n); split; auto; lra|]. exists (n_c n). split; auto. destruct (L4 _ Hp) as (q & Q1 & Q2). specialize (Hlt q Q1). lra.
Qed.

(** The iterations of the walk. *)
Lemma walk_adj d k i t i' : ~ In (eend d e) (points st) -> nth_error (st_ts st) i = Some t -> through M e (reg st t) ->
  fst (walk_c k st d (eend (opp d) e) (eend d e) i) = Ok i' -> snd (walk_c k st d (eend (opp d) e) (eend d e) i) <= S (adj (st_ts st') s).
Proof.
  intros Hnp Ht Hth Hw. destruct (walk_points d k Hnp i t i' Ht Hth Hw) as (L & -> & L2 & L3 & _). apply le_n_S.
  assert (K : length (map Some L) <= length (map (fun t' => aend d (reg st' t')) (filter (has_side s) (st_ts st')))).
  { apply NoDup_incl_length. { apply FinFun.Injective_map_NoDup; auto. intros x y [= ->]. reflexivity. }
    intros x Hx. apply in_map_iff in Hx. destruct Hx as (p & <- & Hp). destruct (L3 p Hp) as (i0 & t0 & H1 & H2 & H3 & H4). destruct (pass d i0 t0 p H1 H2 H3 H4) as (j & t' & Hj & Hsd & Ha).
    apply in_map_iff. exists t'. split; auto. apply filter_In. split; auto. eapply nth_error_In; eauto. }
  rewrite !map_length in K. exact K.
Qed.
End Pass.
