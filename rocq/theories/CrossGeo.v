(** A segment accepted by a debug build meets the inserted segments only at common ends. *)
From Coq Require Import QArith Lqa List Arith Lia Bool.
From Verif Require Import Base Coord Trap Lanes Plane Geo Region TrapInv AddVertex Recut Cuts LaneOps SegStep AddSegment Segment Walk Clear Cross.
Import ListNotations.
Local Open Scope nat_scope.
Local Open Scope res_scope.

(** ** Comparing two edges along the heights *)

Section Lines.
Variable M : Q.
Notation X := (X M).

Lemma D_lin e f : exists A B, forall h, (X e h - X f h == A + B * h)%Q.
Proof.
  unfold Geo.X. set (p := ((cx (snd e) - cx (fst e)) / (ht M (snd e) - ht M (fst e)))%Q). set (q := ((cx (snd f) - cx (fst f)) / (ht M (snd f) - ht M (fst f)))%Q). clearbody p q.
  exists (cx (fst e) - ht M (fst e) * p - (cx (fst f) - ht M (fst f) * q))%Q, (p - q)%Q. intros h. ring.
Qed.

Lemma conv_lt e f h1 h h2 : (h1 < h)%Q -> (h < h2)%Q -> (X e h1 <= X f h1)%Q -> (X e h2 <= X f h2)%Q -> (X e h1 < X f h1 \/ X e h2 < X f h2)%Q -> (X e h < X f h)%Q.
Proof.
  destruct (D_lin e f) as (A & B & H). pose proof (H h1) as E1. pose proof (H h) as E. pose proof (H h2) as E2.
  set (a := X e h1) in *. set (b := X f h1) in *. set (c := X e h) in *. set (d := X f h) in *. set (a' := X e h2) in *. set (b' := X f h2) in *. clearbody a b c d a' b'. clear H.
  intros H1 H2 K1 K2 K3. assert (G : (A + B * h < 0)%Q); [|lra]. assert (K1' : (A + B * h1 <= 0)%Q) by lra. assert (K2' : (A + B * h2 <= 0)%Q) by lra.
  destruct K3 as [K|K]; [assert (K' : (A + B * h1 < 0)%Q) by lra|assert (K' : (A + B * h2 < 0)%Q) by lra]; nra.
Qed.

Lemma ext_lt e f h h1 h0 : (h < h1)%Q -> (h1 < h0)%Q -> (X e h0 < X f h0)%Q -> (X f h1 <= X e h1)%Q -> (X f h < X e h)%Q.
Proof.
  intros H1 H0 K0 K1. destruct (Qlt_le_dec (X f h) (X e h)) as [K|K]; auto. exfalso.
  pose proof (conv_lt e f h h1 h0 H1 H0 K (Qlt_le_weak _ _ K0) (or_intror K0)). lra.
Qed.

Lemma near_below e f h1 : (X e h1 < X f h1)%Q -> exists k, (k < h1)%Q /\ forall h, (k < h)%Q -> (h < h1)%Q -> (X e h < X f h)%Q.
Proof.
  destruct (D_lin e f) as (A & B & H). intros K. pose proof (H h1) as E1. assert (K' : (A + B * h1 < 0)%Q) by lra.
  destruct (Qlt_le_dec B 0) as [HB|HB].
  - exists (- A / B)%Q. assert (Hk : (B * (- A / B) == - A)%Q) by (field; lra). set (k := (- A / B)%Q) in *. clearbody k. split.
    + nra.
    + intros h H1 H2. pose proof (H h) as E. assert (A + B * h < 0)%Q by nra. lra.
  - exists (h1 - 1)%Q. split; [lra|]. intros h H1 H2. pose proof (H h) as E. assert (A + B * h < 0)%Q by nra. lra.
Qed.

Lemma near_above e f h1 : (X e h1 < X f h1)%Q -> exists k, (h1 < k)%Q /\ forall h, (h1 < h)%Q -> (h < k)%Q -> (X e h < X f h)%Q.
Proof.
  destruct (D_lin e f) as (A & B & H). intros K. pose proof (H h1) as E1. assert (K' : (A + B * h1 < 0)%Q) by lra.
  destruct (Qlt_le_dec 0 B) as [HB|HB].
  - exists (- A / B)%Q. assert (Hk : (B * (- A / B) == - A)%Q) by (field; lra). set (k := (- A / B)%Q) in *. clearbody k. split.
    + nra.
    + intros h H1 H2. pose proof (H h) as E. assert (A + B * h < 0)%Q by nra. lra.
  - exists (h1 + 1)%Q. split; [lra|]. intros h H1 H2. pose proof (H h) as E. assert (A + B * h < 0)%Q by nra. lra.
Qed.

End Lines.

(** A point on an edge in terms of heights. *)
Lemma on_X W Es M e p : geo W Es -> shear M W -> In e Es -> on_segment (fst e) (snd e) p -> withinc M e (ht M p) /\ (cx p == X M e (ht M p))%Q.
Proof.
  intros HG HM He Hon. pose proof (e_lt W Es M HG HM e He) as Hlt.
  assert (Hc : (cross (fst e) (snd e) p == 0)%Q). { destruct Hon as (t & _ & _ & Tx & Ty). unfold cross. rewrite Tx, Ty. ring. }
  split; [|now apply (cross_zero W Es M HG HM e p He)].
  destruct Hon as (t & T0 & T1 & Tx & Ty). unfold withinc, ht in *. rewrite Tx, Ty. split; nra.
Qed.

Lemma peq_X W Es M e p q : geo W Es -> shear M W -> In e Es -> (ht M p == ht M q)%Q -> (cx p == X M e (ht M p))%Q -> (cx q == X M e (ht M q))%Q -> peq p q.
Proof.
  intros HG HM He Hh Hp Hq. pose proof (X_eq M e _ _ Hh) as HX. assert (Ex : (cx p == cx q)%Q) by lra. split; auto. unfold ht in Hh. pose proof (proj1 HM). nra.
Qed.

(** Two edges with a common upper end that pass no vertex meet nowhere else. *)
Lemma geo_pair W Es M e g : geo W Es -> shear M W -> geo W [e] -> In g Es -> snd e = snd g -> e <> g -> geo W [e; g].
Proof.
  intros HG HM HGe Hg Hs Hne.
  assert (HGg : geo W [g]). { constructor; [apply (g_pt _ _ HG)| | |]; intros x; [intros [<-|[]]; now apply (g_end _ _ HG)|intros y [<-|[]] [<-|[]]; congruence|intros v [<-|[]]; now apply (g_on _ _ HG)]. }
  assert (He : In e [e]) by now left. assert (Hg' : In g [g]) by now left.
  pose proof (e_lt W _ M HGe HM e He) as L1. pose proof (e_lt W _ M HGg HM g Hg') as L2.
  assert (Main : forall p, on_segment (fst e) (snd e) p -> on_segment (fst g) (snd g) p -> peq p (snd e)).
  { intros p P1 P2. destruct (on_X W _ M e p HGe HM He P1) as ((A1 & A2) & A3). destruct (on_X W _ M g p HGg HM Hg' P2) as ((B1 & B2) & B3).
    destruct (Qlt_le_dec (ht M p) (ht M (snd e))) as [K|K].
    2:{ apply (peq_X W _ M e p (snd e) HGe HM He); auto. { lra. } symmetry. now apply (X_max W _ M HGe HM). }
    exfalso. destruct (D_lin M e g) as (A & B & H). pose proof (H (ht M p)) as E1. pose proof (H (ht M (snd e))) as E2.
    pose proof (X_max W _ M HGe HM e He) as U1. pose proof (X_max W _ M HGg HM g Hg') as U2. rewrite <- Hs in U2.
    assert (HB : (B == 0)%Q) by nra. assert (HA : (A == 0)%Q) by nra.
    assert (Eq : forall h, (X M e h == X M g h)%Q). { intros h. pose proof (H h) as E. rewrite HA, HB in E. lra. }
    destruct (Qlt_le_dec (ht M (fst e)) (ht M (fst g))) as [J|J].
    - (* the lower end of g is on e *)
      assert (On : on_segment (fst e) (snd e) (fst g)). { apply (X_on W _ M HGe HM e (ht M (fst g)) (fst g) He); try lra. rewrite Eq. symmetry. apply X_min. }
      destruct (g_on _ _ HGe e (fst g) He (proj1 (g_end _ _ HGg g Hg')) On) as [F|F]; rewrite F in *; rewrite ?Hs in *; lra.
    - assert (On : on_segment (fst g) (snd g) (fst e)). { apply (X_on W _ M HGg HM g (ht M (fst e)) (fst e) Hg'); try lra. rewrite <- Eq. symmetry. apply X_min. }
      destruct (g_on _ _ HGg g (fst e) Hg' (proj1 (g_end _ _ HGe e He)) On) as [F|F].
      + apply Hne. destruct e, g; cbn in *; congruence.
      + rewrite F, Hs in *. lra. }
  constructor; [apply (g_pt _ _ HG)| | |].
  - intros x [<-|[<-|[]]]; [now apply (g_end _ _ HGe)|now apply (g_end _ _ HGg)].
  - intros x y [<-|[<-|[]]] [<-|[<-|[]]] Hxy p P1 P2; try congruence; right; [now apply Main|rewrite <- Hs; now apply Main].
  - intros x v [<-|[<-|[]]]; [now apply (g_on _ _ HGe)|now apply (g_on _ _ HGg)].
Qed.

Section Accept.
Context {I : Type}.
Variables (W : list point) (Es : list edge) (M : Q) (gv : I -> point).
Hypothesis HG : geo W Es.
Hypothesis HM : shear M W.
Notation stt := (state Q I).
Notation ht := (ht M).
Notation X := (X M).
Notation within := (within M).
Variable ieqb : I -> I -> bool.
Hypothesis Hieq : forall a b, ieqb a b = true <-> a = b.
Variable st : stt.
Hypothesis HF : full W Es M gv st.
Let HC : core W Es M gv st := f_core _ _ _ _ _ HF.
Variable s : seg Q.
Notation e := (sedge s).
Hypothesis HGe : geo W [e].
Hypothesis Pmin : nth_error (points st) (s_min s) = Some (s_cmin s).
Hypothesis Pmax : nth_error (points st) (s_max s) = Some (s_cmax s).
Hypothesis Hnew : ~ In e (medges st).

Let He : In e [e] := or_introl eq_refl.
Let Hlt : (ht (s_cmin s) < ht (s_cmax s))%Q := e_lt W [e] M HGe HM e He.
Let Xmin : (X e (ht (s_cmin s)) == cx (s_cmin s))%Q := X_min M e.
Let Xmax : (X e (ht (s_cmax s)) == cx (s_cmax s))%Q := X_max W [e] M HGe HM e He.

(** The edge is weakly (strictly) between the sides at a height. *)
Definition wk (a : atrap) (h : Q) : Prop := (forall l, al a = Some l -> X l h <= X e h)%Q /\ (forall r, ar a = Some r -> X e h <= X r h)%Q.
Definition sk (a : atrap) (h : Q) : Prop := (forall l, al a = Some l -> X l h < X e h)%Q /\ (forall r, ar a = Some r -> X e h < X r h)%Q.

Lemma sk_through a h : sk a h -> olft M (al a) h (X e h) /\ orgt M (ar a) h (X e h).
Proof. intros (H1 & H2). unfold olft, orgt. split; [destruct (al a); auto|destruct (ar a); auto]. Qed.

Lemma sk_all a u v h : through M e a -> ad a = Some v -> au a = Some u -> wk a (ht v) -> wk a (ht u) -> (ht v < h)%Q -> (h < ht u)%Q -> sk a h.
Proof.
  intros (h0 & _ & (B0 & T0) & L0 & R0) Ev Eu (V1 & V2) (U1 & U2) H1 H2. rewrite Ev in B0. rewrite Eu in T0. unfold obot, otop in *.
  change (ht v < h0)%Q in B0. change (h0 < ht u)%Q in T0.
  split; [intros l Hl; rewrite Hl in L0; cbn in L0; specialize (V1 l Hl); specialize (U1 l Hl)|intros r Hr; rewrite Hr in R0; cbn in R0; specialize (V2 r Hr); specialize (U2 r Hr)].
  - change (X l h0 < X e h0)%Q in L0. destruct (Q_dec h h0) as [[K|K]|K].
    + apply (conv_lt M l e (ht v) h h0); auto. now apply Qlt_le_weak.
    + apply (conv_lt M l e h0 h (ht u)); auto. now apply Qlt_le_weak.
    + pose proof (X_eq M l _ _ K) as J1. pose proof (X_eq M e _ _ K) as J2. change (X l h == X l h0)%Q in J1. change (X e h == X e h0)%Q in J2. lra.
  - change (X e h0 < X r h0)%Q in R0. destruct (Q_dec h h0) as [[K|K]|K].
    + apply (conv_lt M e r (ht v) h h0); auto. now apply Qlt_le_weak.
    + apply (conv_lt M e r h0 h (ht u)); auto. now apply Qlt_le_weak.
    + pose proof (X_eq M r _ _ K) as J1. pose proof (X_eq M e _ _ K) as J2. change (X r h == X r h0)%Q in J1. change (X e h == X e h0)%Q in J2. lra.
Qed.

(** Between its sides it meets no inserted edge, nor at a height where it is strictly between them. *)
Lemma miss i t f h : nth_error (st_ts st) i = Some t -> In f (medges st) -> ahas M (reg st t) h -> sk (reg st t) h -> within f h -> ~ (X e h == X f h)%Q.
Proof.
  intros Ht Hf Ha (S1 & S2) Hw E. apply (clear W Es M gv st HG HM HF i t f Ht Hf). exists h. split; auto. split; auto. unfold olft, orgt. split.
  - destruct (al (reg st t)) as [l|]; auto. specialize (S1 l eq_refl). change (X l h < X f h)%Q. lra.
  - destruct (ar (reg st t)) as [l|]; auto. specialize (S2 l eq_refl). change (X f h < X l h)%Q. lra.
Qed.

Lemma miss_bot i t f v : nth_error (st_ts st) i = Some t -> In f (medges st) -> ad (reg st t) = Some v -> sk (reg st t) (ht v) -> within f (ht v) -> ~ (X e (ht v) == X f (ht v))%Q.
Proof.
  intros Ht Hf Ev (S1 & S2) (F1 & F2) E. set (a := reg st t) in *.
  assert (K1 : exists k, (ht v < k)%Q /\ forall h, (ht v < h)%Q -> (h < k)%Q -> olft M (al a) h (X f h)).
  { unfold olft. destruct (al a) as [l|]; [|exists (ht v + 1)%Q; split; [lra|auto]]. specialize (S1 l eq_refl). apply (near_above M l f). change (X l (ht v) < X f (ht v))%Q. lra. }
  assert (K2 : exists k, (ht v < k)%Q /\ forall h, (ht v < h)%Q -> (h < k)%Q -> orgt M (ar a) h (X f h)).
  { unfold orgt. destruct (ar a) as [l|]; [|exists (ht v + 1)%Q; split; [lra|auto]]. specialize (S2 l eq_refl). apply (near_above M f l). change (X f (ht v) < X l (ht v))%Q. lra. }
  assert (K3 : exists k, (ht v < k)%Q /\ forall h, (ht v < h)%Q -> (h < k)%Q -> ahas M a h).
  { unfold ahas, obot, otop. rewrite Ev. destruct (au a) as [u|] eqn:Eu; [exists (ht u)|exists (ht v + 1)%Q; split; [lra|auto]].
    split; auto. apply (a_du _ _ _ _ (c_ag _ _ _ _ _ HC i t Ht)); auto. }
  destruct K1 as (k1 & K1 & K1'), K2 as (k2 & K2 & K2'), K3 as (k3 & K3 & K3'). change (ht v < ht (snd f))%Q in F2. change (ht (fst f) < ht v)%Q in F1.
  assert (K : exists k, (ht v < k /\ k <= k1 /\ k <= k2 /\ k <= k3 /\ k <= ht (snd f))%Q).
  { destruct (qmin_spec k1 k2) as (A1 & A2 & A3). destruct (qmin_spec k3 (ht (snd f))) as (B1 & B2 & B3). destruct (qmin_spec (qmin k1 k2) (qmin k3 (ht (snd f)))) as (C1 & C2 & C3).
    exists (qmin (qmin k1 k2) (qmin k3 (ht (snd f)))). repeat split; try lra. destruct C3 as [-> | ->]; [destruct A3 as [-> | ->]|destruct B3 as [-> | ->]]; lra. }
  destruct K as (k & Ka & Kb & Kc & Kd & Ke). destruct (Region.mid _ _ Ka) as (M1 & M2). set (h := ((ht v + k) * (1 # 2))%Q) in *. clearbody h.
  apply (clear W Es M gv st HG HM HF i t f Ht Hf). exists h. split. { split; [change (ht (fst f) < h)%Q|change (h < ht (snd f))%Q]; lra. }
  split; [apply K3'; lra|]. split; [apply K1'; lra|apply K2'; lra].
Qed.

(** It passes through a region it enters from above. *)
Lemma enter_top i t u : nth_error (st_ts st) i = Some t -> au (reg st t) = Some u -> (ht (s_cmin s) < ht u)%Q -> (ht u <= ht (s_cmax s))%Q ->
  (forall l, al (reg st t) = Some l -> exists k, (k < ht u)%Q /\ forall h, (k < h)%Q -> (h < ht u)%Q -> (X l h < X e h)%Q) ->
  (forall l, ar (reg st t) = Some l -> exists k, (k < ht u)%Q /\ forall h, (k < h)%Q -> (h < ht u)%Q -> (X e h < X l h)%Q) -> through M e (reg st t).
Proof.
  intros Ht Eu H1 H2 Hl Hr. set (a := reg st t) in *.
  assert (K1 : exists k, (k < ht u)%Q /\ forall h, (k < h)%Q -> (h < ht u)%Q -> olft M (al a) h (X e h)).
  { unfold olft. destruct (al a) as [l|]; [now apply Hl|exists (ht u - 1)%Q; split; [lra|auto]]. }
  assert (K2 : exists k, (k < ht u)%Q /\ forall h, (k < h)%Q -> (h < ht u)%Q -> orgt M (ar a) h (X e h)).
  { unfold orgt. destruct (ar a) as [l|]; [now apply Hr|exists (ht u - 1)%Q; split; [lra|auto]]. }
  assert (K3 : exists k, (k < ht u)%Q /\ forall h, (k < h)%Q -> (h < ht u)%Q -> ahas M a h).
  { unfold ahas, obot, otop. rewrite Eu. destruct (ad a) as [v|] eqn:Ev; [exists (ht v)|exists (ht u - 1)%Q; split; [lra|auto]].
    split; auto. apply (a_du _ _ _ _ (c_ag _ _ _ _ _ HC i t Ht)); auto. }
  destruct K1 as (k1 & K1 & K1'), K2 as (k2 & K2 & K2'), K3 as (k3 & K3 & K3').
  assert (K : exists k, (k < ht u /\ k1 <= k /\ k2 <= k /\ k3 <= k /\ ht (s_cmin s) <= k)%Q).
  { destruct (qmax_spec k1 k2) as (A1 & A2 & A3). destruct (qmax_spec k3 (ht (s_cmin s))) as (B1 & B2 & B3). destruct (qmax_spec (qmax k1 k2) (qmax k3 (ht (s_cmin s)))) as (C1 & C2 & C3).
    exists (qmax (qmax k1 k2) (qmax k3 (ht (s_cmin s)))). repeat split; try lra. destruct C3 as [-> | ->]; [destruct A3 as [-> | ->]|destruct B3 as [-> | ->]]; lra. }
  destruct K as (k & Ka & Kb & Kc & Kd & Ke). destruct (Region.mid _ _ Ka) as (M1 & M2). set (h := ((k + ht u) * (1 # 2))%Q) in *. clearbody h.
  exists h. split. { split; cbn [sedge fst snd]; [change (ht (s_cmin s) < h)%Q|change (h < ht (s_cmax s))%Q]; lra. }
  split; [apply K3'; lra|]. split; [apply K1'; lra|apply K2'; lra].
Qed.

(** The side of a vertex below the upper end. *)
Lemma side_v v : In v W -> (ht (s_cmin s) < ht v)%Q -> (ht v < ht (s_cmax s))%Q ->
  if is_on_left s v then (cx v < X e (ht v))%Q else (X e (ht v) < cx v)%Q.
Proof.
  intros Hv H1 H2. pose proof (off_edge W [e] M HGe HM e v He Hv H1 H2) as N. unfold is_on_left. destruct (is_left (s_cmin s) (s_cmax s) v) eqn:E.
  - now apply (left_X W [e] M HGe HM e v He N).
  - now apply (left_X_false W [e] M HGe HM e v He N).
Qed.

Notation dsc := (dsc M st s).
Notation knows := (knows s).
Notation loop k cur ni tl tr := (seg_loop ieqb k cur (length (st_ss st)) (s_min s) (s_cmin s) (s_cmax s) ni tl tr).

Lemma same_r t t' : t_r t' = t_r t -> ar (reg st t') = ar (reg st t).
Proof. intros H. unfold reg, rg. cbn. now rewrite H. Qed.
Lemma same_l t t' : t_l t' = t_l t -> al (reg st t') = al (reg st t).
Proof. intros H. unfold reg, rg. cbn. now rewrite H. Qed.

Lemma dsc_ends cur ni tl tr i t : dsc cur ni tl tr i t -> exists n, nth_error (st_ns st) ni = Some n /\ ad (reg st t) = Some (n_c n) /\ hat M st ni = ht (n_c n) /\ In (n_c n) W.
Proof.
  intros H. destruct (reg_end W Es M gv st i t Desc ni HC (d_i _ _ _ _ _ _ _ _ _ H) (d_d _ _ _ _ _ _ _ _ _ H)) as (n & Hn & A). exists n. split; auto. split; auto.
  split; [now apply hat_nth|]. apply (c_W _ _ _ _ _ HC). eapply nth_error_In. apply points_nth. eauto.
Qed.

Lemma hat_min : hat M st (s_min s) = ht (s_cmin s).
Proof. unfold hat. now rewrite Pmin. Qed.

(** If it leaves through the right side the descent cannot reach its lower end. *)
Lemma exit_right : forall k cur ni tl tr i t fin tr' n r, dsc cur ni tl tr i t -> loop k cur ni tl tr = Ok (fin, tr') -> knows fin ->
  nth_error (st_ns st) ni = Some n -> ni <> s_min s -> (ht (n_c n) < ht (s_cmax s))%Q -> ar (reg st t) = Some r -> (X r (ht (n_c n)) <= X e (ht (n_c n)))%Q ->
  (forall h, (h < ht (n_c n))%Q -> (X r h < X e h)%Q) -> False.
Proof.
  induction k as [|k IH]; intros cur ni tl tr i t fin tr' n r H E Hk Hn Hne Htop Hr Hx Hb; [discriminate|].
  destruct (dsc_ends _ _ _ _ _ _ H) as (n0 & Hn0 & Ed & Eh & HnW). assert (n0 = n) by congruence. subst n0.
  destruct (dsc_keep W Es M gv ieqb st HF s _ _ _ _ _ _ _ _ _ H E) as (_ & Hlow & _). specialize (Hlow Hne). rewrite hat_min, Eh in Hlow.
  pose proof (proj2 (f_td _ _ _ _ _ HF i t (d_i _ _ _ _ _ _ _ _ _ H))) as T. rewrite Hr, Ed in T. cbn in T. change (cx (n_c n) <= X r (ht (n_c n)))%Q in T.
  pose proof (side_v (n_c n) HnW Hlow Htop) as S.
  destruct (dsc_dir W Es M gv ieqb st HF s _ _ _ _ _ _ _ _ _ n H Hne Hn E Hk) as (cur' & ni' & tl' & tr2 & i' & t' & H' & E' & Hu & Hd).
  destruct (is_on_left s (n_c n)); [|lra].
  destruct (dsc_ends _ _ _ _ _ _ H') as (n' & Hn' & Ed' & Eh' & HnW').
  pose proof (hat_du W Es M gv st HF _ _ _ _ (d_i _ _ _ _ _ _ _ _ _ H') (d_d _ _ _ _ _ _ _ _ _ H') Hu) as Hdn. rewrite Eh, Eh' in Hdn.
  pose proof (Hb _ Hdn) as Hx'. pose proof (same_r _ _ Hd) as Hr'. rewrite Hr in Hr'.
  destruct (Nat.eq_dec ni' (s_min s)) as [->|Hne'].
  - pose proof (proj2 (f_td _ _ _ _ _ HF i' t' (d_i _ _ _ _ _ _ _ _ _ H'))) as T'. rewrite Hr', Ed' in T'. cbn in T'. change (cx (n_c n') <= X r (ht (n_c n')))%Q in T'.
    rewrite (points_nth _ _ _ Hn') in Pmin. injection Pmin as Ep. rewrite Ep in *. lra.
  - apply (IH _ _ _ _ _ _ _ _ n' r H' E' Hk Hn' Hne'); auto; try lra. intros h Hh. apply Hb. lra.
Qed.

Lemma exit_left : forall k cur ni tl tr i t fin tr' n r, dsc cur ni tl tr i t -> loop k cur ni tl tr = Ok (fin, tr') -> knows fin ->
  nth_error (st_ns st) ni = Some n -> ni <> s_min s -> (ht (n_c n) < ht (s_cmax s))%Q -> al (reg st t) = Some r -> (X e (ht (n_c n)) <= X r (ht (n_c n)))%Q ->
  (forall h, (h < ht (n_c n))%Q -> (X e h < X r h)%Q) -> False.
Proof.
  induction k as [|k IH]; intros cur ni tl tr i t fin tr' n r H E Hk Hn Hne Htop Hr Hx Hb; [discriminate|].
  destruct (dsc_ends _ _ _ _ _ _ H) as (n0 & Hn0 & Ed & Eh & HnW). assert (n0 = n) by congruence. subst n0.
  destruct (dsc_keep W Es M gv ieqb st HF s _ _ _ _ _ _ _ _ _ H E) as (_ & Hlow & _). specialize (Hlow Hne). rewrite hat_min, Eh in Hlow.
  pose proof (proj1 (f_td _ _ _ _ _ HF i t (d_i _ _ _ _ _ _ _ _ _ H))) as T. rewrite Hr, Ed in T. cbn in T. change (X r (ht (n_c n)) <= cx (n_c n))%Q in T.
  pose proof (side_v (n_c n) HnW Hlow Htop) as S.
  destruct (dsc_dir W Es M gv ieqb st HF s _ _ _ _ _ _ _ _ _ n H Hne Hn E Hk) as (cur' & ni' & tl' & tr2 & i' & t' & H' & E' & Hu & Hd).
  destruct (is_on_left s (n_c n)); [lra|].
  destruct (dsc_ends _ _ _ _ _ _ H') as (n' & Hn' & Ed' & Eh' & HnW').
  pose proof (hat_du W Es M gv st HF _ _ _ _ (d_i _ _ _ _ _ _ _ _ _ H') (d_d _ _ _ _ _ _ _ _ _ H') Hu) as Hdn. rewrite Eh, Eh' in Hdn.
  pose proof (Hb _ Hdn) as Hx'. pose proof (same_l _ _ Hd) as Hr'. rewrite Hr in Hr'.
  destruct (Nat.eq_dec ni' (s_min s)) as [->|Hne'].
  - pose proof (proj1 (f_td _ _ _ _ _ HF i' t' (d_i _ _ _ _ _ _ _ _ _ H'))) as T'. rewrite Hr', Ed' in T'. cbn in T'. change (X r (ht (n_c n')) <= cx (n_c n'))%Q in T'.
    rewrite (points_nth _ _ _ Hn') in Pmin. injection Pmin as Ep. rewrite Ep in *. lra.
  - apply (IH _ _ _ _ _ _ _ _ n' r H' E' Hk Hn' Hne'); auto; try lra. intros h Hh. apply Hb. lra.
Qed.

(** From the trapezoid reached downwards the segment meets no inserted edge. *)
Lemma descent_clear : forall k cur ni tl tr i t fin tr' u, dsc cur ni tl tr i t -> loop k cur ni tl tr = Ok (fin, tr') -> knows fin ->
  au (reg st t) = Some u -> (ht u <= ht (s_cmax s))%Q -> through M e (reg st t) -> wk (reg st t) (ht u) ->
  forall f h, In f (medges st) -> within e h -> within f h -> (h < ht u)%Q -> ~ (X e h == X f h)%Q.
Proof.
  induction k as [|k IH]; intros cur ni tl tr i t fin tr' u H E Hk Eu Hu Hth Hwk f h Hf We Wf Hh; [discriminate|].
  destruct (dsc_ends _ _ _ _ _ _ H) as (n & Hn & Ed & Eh & HnW). pose proof (d_i _ _ _ _ _ _ _ _ _ H) as Ht.
  pose proof (a_du _ _ _ _ (c_ag _ _ _ _ _ HC i t Ht) _ _ Ed Eu) as Hdu. change (ht (n_c n) < ht u)%Q in Hdu.
  pose proof (f_td _ _ _ _ _ HF i t Ht) as (T1 & T2). rewrite Ed in T1, T2.
  assert (Hah : (ht (n_c n) < h)%Q -> ahas M (reg st t) h). { intros K. unfold ahas, obot, otop. rewrite Ed, Eu. auto. }
  destruct (Nat.eq_dec ni (s_min s)) as [Em|Hne].
  - rewrite Em in Hn. pose proof Pmin as Ep. rewrite (points_nth _ _ _ Hn) in Ep. injection Ep as Ep. rewrite Ep in *.
    destruct We as (We1 & We2). cbn [sedge fst snd] in We1. change (ht (s_cmin s) < h)%Q in We1.
    apply (miss i t f h); auto. apply (sk_all (reg st t) u (s_cmin s)); auto.
    split; [intros l Hl; rewrite Hl in T1; cbn in T1; change (X l (ht (s_cmin s)) <= cx (s_cmin s))%Q in T1|intros l Hl; rewrite Hl in T2; cbn in T2; change (cx (s_cmin s) <= X l (ht (s_cmin s)))%Q in T2]; lra.
  - destruct (dsc_keep W Es M gv ieqb st HF s _ _ _ _ _ _ _ _ _ H E) as (_ & Hlow & _). specialize (Hlow Hne). rewrite hat_min, Eh in Hlow.
    assert (Htop : (ht (n_c n) < ht (s_cmax s))%Q) by lra.
    pose proof (side_v (n_c n) HnW Hlow Htop) as S.
    destruct Hth as (h0 & W0 & (B0 & O0) & L0 & R0). assert (B0' : (ht (n_c n) < h0)%Q) by (rewrite Ed in B0; exact B0).
    assert (Hsk : sk (reg st t) (ht (n_c n))).
    { split; [intros l Hl; rewrite Hl in L0; cbn in L0; change (X l h0 < X e h0)%Q in L0|intros l Hl; rewrite Hl in R0; cbn in R0; change (X e h0 < X l h0)%Q in R0].
      - destruct (Qlt_le_dec (X l (ht (n_c n))) (X e (ht (n_c n)))) as [K|K]; auto. exfalso.
        apply (exit_left _ _ _ _ _ _ _ _ _ n l H E Hk Hn Hne Htop Hl K). intros h' Hh'. exact (ext_lt M l e h' _ h0 Hh' B0' L0 K).
      - destruct (Qlt_le_dec (X e (ht (n_c n))) (X l (ht (n_c n)))) as [K|K]; auto. exfalso.
        apply (exit_right _ _ _ _ _ _ _ _ _ n l H E Hk Hn Hne Htop Hl K). intros h' Hh'. exact (ext_lt M e l h' _ h0 Hh' B0' R0 K). }
    destruct (Q_dec h (ht (n_c n))) as [[K|K]|K].
    + destruct (dsc_dir W Es M gv ieqb st HF s _ _ _ _ _ _ _ _ _ n H Hne Hn E Hk) as (cur' & ni' & tl' & tr2 & i' & t' & H' & E' & Hu' & Hd).
      pose proof (d_i _ _ _ _ _ _ _ _ _ H') as Ht'.
      destruct (reg_end W Es M gv st i' t' Asc ni HC Ht' Hu') as (n1 & Hn1 & A). assert (n1 = n) by congruence. subst n1. cbn [aend] in A.
      destruct (c_tu _ _ _ _ _ HC i' t' Ht') as (U1 & U2). rewrite A in U1, U2. destruct Hsk as (S1 & S2).
      assert (Hsk' : sk (reg st t') (ht (n_c n))).
      { destruct (is_on_left s (n_c n)).
        - split; intros l Hl; [rewrite Hl in U1; cbn in U1; change (X l (ht (n_c n)) <= cx (n_c n))%Q in U1; lra|]. apply S2. rewrite <- Hl. symmetry. now apply same_r.
        - split; intros l Hl; [|rewrite Hl in U2; cbn in U2; change (cx (n_c n) <= X l (ht (n_c n)))%Q in U2; lra]. apply S1. rewrite <- Hl. symmetry. now apply same_l. }
      destruct Hsk' as (S1' & S2').
      apply (IH _ _ _ _ _ _ _ _ (n_c n) H' E' Hk A); auto; try lra.
      * apply (enter_top i' t' (n_c n)); auto; try lra; intros l Hl; apply near_below; [now apply S1'|now apply S2'].
      * split; intros l Hl; apply Qlt_le_weak; [now apply S1'|now apply S2'].
    + apply (miss i t f h); auto. apply (sk_all (reg st t) u (n_c n)); auto. { exists h0. exact (conj W0 (conj (conj B0 O0) (conj L0 R0))). } destruct Hsk as (S1 & S2). split; intros l Hl; apply Qlt_le_weak; auto.
    + intros E1. apply (miss_bot i t f (n_c n) Ht Hf Ed Hsk).
      * destruct Wf as (F1 & F2). split; [change (ht (fst f) < ht (n_c n))%Q; change (ht (fst f) < h)%Q in F1|change (ht (n_c n) < ht (snd f))%Q; change (h < ht (snd f))%Q in F2]; lra.
      * pose proof (X_eq M e _ _ K) as J1. pose proof (X_eq M f _ _ K) as J2. change (X e h == X e (ht (n_c n)))%Q in J1. change (X f h == X f (ht (n_c n)))%Q in J2. lra.
Qed.

(** ** The start *)

Lemma start_cross nx i : nth_error (st_ns st) (s_max s) = Some nx -> deg nx <= 1 -> get_down_trapezoid ieqb (st_ns st) (st_ss st ++ [s]) s nx = Ok i ->
  exists t, nth_error (st_ts st) i = Some t /\ t_u t = Some (s_max s) /\ au (reg st t) = Some (s_cmax s) /\ through M e (reg st t) /\ wk (reg st t) (ht (s_cmax s)).
Proof.
  intros Hnx Hdeg Eg. pose proof (gd_in _ _ _ _ _ _ Eg) as Hin. pose proof (f_n _ _ _ _ _ HF _ _ Hnx) as Hx.
  destruct (x_lane _ _ _ _ Hx) as (L & R & HL). destruct (lane_in _ _ _ _ _ _ (HL Desc) Hin) as (t & Ht & Tu). cbn [opp tend] in Tu.
  pose proof Pmax as Ec. rewrite (points_nth _ _ _ Hnx) in Ec. injection Ec as Ec.
  destruct (reg_end W Es M gv st i t Asc _ HC Ht Tu) as (n1 & Hn1 & A). assert (n1 = nx) by congruence. subst n1. cbn [aend] in A. rewrite Ec in A.
  exists t. split; auto. split; auto. split; auto.
  assert (Hwk : wk (reg st t) (ht (s_cmax s))).
  { destruct (c_tu _ _ _ _ _ HC i t Ht) as (U1 & U2). rewrite A in U1, U2.
    split; intros l Hl; [rewrite Hl in U1; cbn in U1; change (X l (ht (s_cmax s)) <= cx (s_cmax s))%Q in U1|rewrite Hl in U2; cbn in U2; change (cx (s_cmax s) <= X l (ht (s_cmax s)))%Q in U2]; lra. }
  split; auto.
  destruct (points_inv _ _ _ Pmin) as (nmin & Hnmin & Emin).
  assert (Hne : s_min s <> s_max s). { intros E. rewrite E, Hnx in Hnmin. assert (nmin = nx) by congruence. subst. rewrite <- Emin, Ec in Hlt. lra. }
  assert (OL : forall l, L = Some l -> t_l t = Some l -> forall l0, al (reg st t) = Some l0 -> exists k, (k < ht (s_cmax s))%Q /\ forall h, (k < h)%Q -> (h < ht (s_cmax s))%Q -> (X l0 h < X e h)%Q).
  { intros l El Tl l0 Hl0. destruct (reg_l W Es M gv st i t l HC Ht Tl) as (g & Hg & A1). assert (l0 = sedge g) by congruence. subst l0.
    destruct (outer_left W Es M gv HG HM st (s_max s) nx L R l HF Hnx HL El) as (g' & Hg' & _ & O). assert (g' = g) by congruence. subst g'. rewrite Ec in O.
    apply near_below. change (X (sedge g) (ht (s_cmax s)) < X e (ht (s_cmax s)))%Q. lra. }
  assert (OR : forall l, R = Some l -> t_r t = Some l -> forall l0, ar (reg st t) = Some l0 -> exists k, (k < ht (s_cmax s))%Q /\ forall h, (k < h)%Q -> (h < ht (s_cmax s))%Q -> (X e h < X l0 h)%Q).
  { intros l El Tl l0 Hl0. destruct (reg_r W Es M gv st i t l HC Ht Tl) as (g & Hg & A1). assert (l0 = sedge g) by congruence. subst l0.
    destruct (outer_right W Es M gv HG HM st (s_max s) nx L R l HF Hnx HL El) as (g' & Hg' & _ & O). assert (g' = g) by congruence. subst g'. rewrite Ec in O.
    apply near_below. change (X e (ht (s_cmax s)) < X (sedge g) (ht (s_cmax s)))%Q. lra. }
  assert (NL : t_l t = None -> al (reg st t) = None) by (intros K; unfold reg, rg; cbn; now rewrite K).
  assert (NR : t_r t = None -> ar (reg st t) = None) by (intros K; unfold reg, rg; cbn; now rewrite K).
  assert (OL' : t_l t = L -> forall l0, al (reg st t) = Some l0 -> exists k, (k < ht (s_cmax s))%Q /\ forall h, (k < h)%Q -> (h < ht (s_cmax s))%Q -> (X l0 h < X e h)%Q).
  { intros K l0 Hl0. destruct L as [l|]; [now apply (OL l)|]. rewrite (NL K) in Hl0. discriminate. }
  assert (OR' : t_r t = R -> forall l0, ar (reg st t) = Some l0 -> exists k, (k < ht (s_cmax s))%Q /\ forall h, (k < h)%Q -> (h < ht (s_cmax s))%Q -> (X e h < X l0 h)%Q).
  { intros K l0 Hl0. destruct R as [l|]; [now apply (OR l)|]. rewrite (NR K) in Hl0. discriminate. }
  clear OL OR NL NR.
  apply (enter_top i t (s_cmax s) Ht A Hlt); [lra| |]; clear Hin; specialize (HL Desc); rewrite deg_seps in Hdeg; pose proof (x_sep _ _ _ _ Hx Desc) as Hsep;
    unfold get_down_trapezoid, iter_trapezoids, first_trapezoid, seps, bnd in *; (destruct (filter_dividers nx Desc) as [|a|a b] eqn:Efd; [| |cbn in Hdeg; lia]); cbn [map app] in HL.
  all: rewrite lane_cons in HL; destruct HL as ((t1 & T1 & T2 & T3 & _) & HL).
  1: injection Eg as <-; assert (t1 = t) by congruence; subst; auto.
  2: injection Eg as <-; assert (t1 = t) by congruence; subst; auto.
  all: rewrite lane_cons in HL; destruct HL as ((t2 & T4 & T5 & T6 & _) & _).
  all: destruct (Hsep (d_si a) (or_introl eq_refl)) as (g & Hg & Gmax); cbn in Gmax; destruct (c_ss _ _ _ _ _ HC _ _ Hg) as (G1 & G2 & G3); destruct (points_inv _ _ _ G1) as (ng & Hng & Eng).
  all: unfold rd in Eg; rewrite Hnmin in Eg; cbn [bind] in Eg; rewrite (ieqb_nx W Es M gv ieqb Hieq st (s_min s) (s_max s) nmin nx HC Hnmin Hnx Hne) in Eg; rewrite Hnx in Eg; cbn [bind] in Eg.
  all: replace (ieqb (n_v nx) (n_v nx)) with true in Eg by (symmetry; now apply Hieq).
  all: rewrite (nth_app_l _ _ _ _ _ Hg) in Eg; cbn [bind] in Eg; rewrite Hng in Eg; cbn [bind] in Eg; rewrite Eng in Eg; unfold is_on_left in Eg.
  all: rewrite Gmax, (points_nth _ _ _ Hnx) in G2; injection G2 as G2.
  all: assert (Hne2 : e <> sedge g) by (intros E; apply Hnew; rewrite E; eapply nth_error_In; apply medges_nth; eauto).
  all: assert (Hsm : snd e = snd (sedge g)) by (cbn; congruence).
  all: pose proof (geo_pair W Es M e (sedge g) HG HM HGe G3 Hsm Hne2) as HP.
  all: assert (Hlg : (ht (s_cmin g) < ht (s_cmax s))%Q) by (pose proof (e_lt W Es M HG HM _ G3) as Z; cbn [sedge fst snd] in Z; change (ht (s_cmin g) < ht (s_cmax g))%Q in Z; rewrite <- G2, Ec in Z; exact Z).
  all: assert (HW : forall h, (qmax (ht (s_cmin s)) (ht (s_cmin g)) < h)%Q -> (h < ht (s_cmax s))%Q -> within e h /\ within (sedge g) h) by
    (intros h K1 K2; destruct (qmax_spec (ht (s_cmin s)) (ht (s_cmin g))) as (Q1 & Q2 & _); split; split; cbn [sedge fst snd]; rewrite <- ?G2, ?Ec;
      [change (ht (s_cmin s) < h)%Q|change (h < ht (s_cmax s))%Q|change (ht (s_cmin g) < h)%Q|change (h < ht (s_cmax s))%Q]; lra).
  all: assert (HQ : (qmax (ht (s_cmin s)) (ht (s_cmin g)) < ht (s_cmax s))%Q) by (destruct (qmax_spec (ht (s_cmin s)) (ht (s_cmin g))) as (_ & _ & [-> | ->]); auto).
  all: destruct (ord_max W _ M HP HM e (sedge g) (or_introl eq_refl) (or_intror (or_introl eq_refl)) Hne2 Hsm) as [(O1 & _ & O3)|(O1 & _ & O3)]; cbn [sedge fst snd] in O1; rewrite O1 in Eg; injection Eg as <-.
  - assert (t2 = t) by congruence. subst t2. intros l Hl. destruct (reg_l W Es M gv st _ t _ HC Ht T5) as (g' & Hg' & A1). assert (g' = g) by congruence. subst g'. assert (l = sedge g) by congruence. subst l.
    exists (qmax (ht (s_cmin s)) (ht (s_cmin g))). split; auto. intros h K1 K2. destruct (HW h K1 K2). now apply O3.
  - assert (t1 = t) by congruence. subst t1. auto.
  - assert (t2 = t) by congruence. subst t2. auto.
  - assert (t1 = t) by congruence. subst t1. intros l Hl. destruct (reg_r W Es M gv st _ t _ HC Ht T3) as (g' & Hg' & A1). assert (g' = g) by congruence. subst g'. assert (l = sedge g) by congruence. subst l.
    exists (qmax (ht (s_cmin s)) (ht (s_cmin g))). split; auto. intros h K1 K2. destruct (HW h K1 K2). now apply O3.
Qed.

(** ** The descent set up by [add_segment] *)

Lemma for_all_inv {A} (l : list A) f : for_all l f = Ok tt -> forall a, In a l -> f a = Ok tt.
Proof.
  induction l as [|x l IH]; cbn; [easy|]. destruct (f x) as [[]| |] eqn:E; cbn; try discriminate. intros H a [<-|Ha]; auto.
Qed.

Lemma check_knows k fin : check_consistency true k fin = Ok tt -> forall j x w, nth_error (st_ts fin) j = Some x -> t_d x = Some w ->
  exists n, nth_error (st_ns fin) w = Some n /\ In j (iter_trapezoids (n : nexus Q I) Asc).
Proof.
  unfold check_consistency. destruct (for_all _ (check_nexus fin)) as [[]| |]; cbn [bind]; try discriminate.
  destruct (for_all _ (check_trapezoid fin)) as [[]| |] eqn:E; cbn [bind]; try discriminate. intros _ j x w Hj Hw.
  pose proof (for_all_inv _ _ E j) as H. assert (Hin : In j (seq 0 (length (st_ts fin)))) by (apply in_seq; apply nth_lt in Hj; lia). specialize (H Hin). clear E Hin.
  unfold check_trapezoid, rdu in H. rewrite Hj in H. cbn [bind] in H. rewrite Hw in H. destruct (nth_error (st_ns fin) w) as [n|]; [|discriminate]. cbn [bind] in H.
  exists n. split; auto. destruct (existsb (Nat.eqb j) (iter_trapezoids n Asc)) eqn:Ex; [|discriminate]. apply existsb_exists in Ex. destruct Ex as (y & Hy & Ey). apply Nat.eqb_eq in Ey. now subst.
Qed.

Lemma add_only ns ss ni si ti ns' : nexus_add_segment ns ss ni si ti = Ok ns' -> forall w, w <> ni -> nth_error (ns' : list (nexus Q I)) w = nth_error ns w.
Proof.
  unfold nexus_add_segment. destruct (get_segment_direction ss ni si) as [d| |]; cbn [bind]; try discriminate. destruct (rd ns ni) as [n| |]; cbn [bind]; try discriminate.
  match goal with |- bind ?x _ = _ -> _ => destruct x as [dv| |]; cbn [bind]; try discriminate end. intros [= <-] w Hw. rewrite nth_upd_ne by auto. reflexivity.
Qed.

Hypothesis Hdeg : forall n, nth_error (st_ns st) (s_max s) = Some n -> deg n <= 1.

(** An accepted segment meets no inserted edge between their ends. *)
Lemma accept_clear k st' : add_segment ieqb true k st (s_min s) (s_max s) (s_cmin s) (s_cmax s) = Ok st' ->
  forall f h, In f (medges st) -> within e h -> within f h -> ~ (X e h == X f h)%Q.
Proof.
  intros E f h Hf We Wf. destruct (points_inv _ _ _ Pmax) as (nx & Hnx & Enx). destruct (points_inv _ _ _ Pmin) as (nn & Hnn & Enn).
  unfold add_segment in E. unfold rdu in E at 1. rewrite Hnx in E. cbn [bind] in E. unfold rdu in E at 1.
  replace (mkSeg (s_min s) (s_max s) (s_cmin s) (s_cmax s)) with s in E by now destruct s.
  rewrite nth_snoc in E. cbn [bind] in E.
  destruct (get_down_trapezoid ieqb (st_ns st) (st_ss st ++ [s]) s nx) as [ti| |] eqn:Eg; try discriminate. cbn [bind] in E.
  destruct (start_cross nx ti Hnx (Hdeg nx Hnx) Eg) as (t & Ht & Tu & Au & Hth & Hwk).
  unfold rdu in E at 1. rewrite Ht in E. cbn [bind] in E. cbv zeta in E.
  destruct (rd (st_qs st) (t_k t)) as [q| |]; try discriminate. cbn [bind] in E. unfold split_vertical in E. cbn [set_sink t_l t_r t_d t_u] in E.
  destruct (nexus_add_segment (st_ns st) (st_ss st ++ [s]) (s_max s) (length (st_ss st)) (length (st_ts st))) as [ns1| |] eqn:Ens; try discriminate. cbn [bind] in E.
  destruct (t_d t) as [ni|] eqn:Ed; [|discriminate]. cbn [ok_or bind] in E.
  destruct (reg_end W Es M gv st ti t Desc ni HC Ht Ed) as (n & Hn & Ad).
  pose proof (hat_du W Es M gv st HF _ _ _ _ Ht Ed Tu) as Hdu.
  assert (Hnm : ni <> s_max s) by (intros ->; lra).
  assert (Hn1 : nth_error ns1 ni = Some n) by (rewrite (add_only _ _ _ _ _ _ Ens) by auto; exact Hn).
  unfold rdu in E at 1. rewrite Hn1 in E. cbn [bind] in E.
  destruct (f_c _ _ _ _ _ HF ti t Desc ni Ht Ed) as (n' & Hn' & Hin). assert (n' = n) by congruence. subst n'. cbn [opp] in Hin.
  pose proof (not_both W Es M gv st ti ni n Asc HF Hn Hin) as Hnb. cbn [opp] in Hnb.
  pose proof (x_nd _ _ _ _ (f_n _ _ _ _ _ HF ni n Hn) Asc) as Hnd.
  assert (Hti : ti < length (st_ts st)) by (eapply nth_lt; eauto).
  assert (Hnew' : ~ In (length (st_ts st)) (iter_trapezoids n Asc)).
  { intros K. destruct (x_lane _ _ _ _ (f_n _ _ _ _ _ HF ni n Hn)) as (L & R & HL). destruct (lane_in _ _ _ _ _ _ (HL Asc) K) as (ty & Hty & _). apply nth_lt in Hty. lia. }
  assert (Hns2 : exists n2, (if negb (Nat.eqb ni (s_min s)) && negb (is_on_left s (n_c n)) then modify ns1 ni (replace_trapezoid ti (length (st_ts st))) else Ok ns1) = Ok (upd ns1 ni n2) /\
    n_c n2 = n_c n /\ iter_trapezoids n2 Desc = iter_trapezoids n Desc /\ (ni <> s_min s -> ~ In (if is_on_left s (n_c n) then length (st_ts st) else ti) (iter_trapezoids n2 Asc))).
  { destruct (Nat.eqb_spec ni (s_min s)) as [Em|Em]; cbn [negb andb].
    - exists n. split; [f_equal; symmetry; now apply upd_same|]. repeat split; auto. all: now intros.
    - destruct (is_on_left s (n_c n)) eqn:Ei; cbn [negb].
      + exists n. split; [f_equal; symmetry; now apply upd_same|]. split; [auto|]. split; [auto|]. intros _. exact Hnew'.
      + destruct (replace_ok n ti (length (st_ts st)) Asc Hin Hnb) as (n2 & P1 & P2 & P3 & P4 & P5 & P6 & _). unfold modify. rewrite Hn1, P1. cbn [bind].
        exists n2. split; [reflexivity|]. split; [auto|]. split; [auto|]. intros _. rewrite P6. apply replf_gone; auto. lia. }
  destruct Hns2 as (n2 & Q1 & Q2 & Q3 & Q4). rewrite Q1 in E. cbn [bind] in E.
  set (tL := mkTrap (t_l t) (Some (length (st_ss st))) (Some ni) (t_u t) (length (st_qs st))) in *.
  set (tR := mkTrap (Some (length (st_ss st))) (t_r t) (Some ni) (t_u t) (length (st_qs st) + 1)) in *.
  set (qs1 := (upd (st_qs st) (t_k t) (QBranch (length (st_qs st)) (length (st_qs st) + 1) (QX (s_cmin s) (s_cmax s))) ++ [q]) ++ [QSink (length (st_ts st))]) in *.
  set (cur := mkState (upd ns1 ni n2) (st_ss st ++ [s]) (upd (st_ts st) ti tL ++ [tR]) qs1) in *.
  destruct (seg_loop ieqb k cur (length (st_ss st)) (s_min s) (s_cmin s) (s_cmax s) ni ti (length (st_ts st))) as [[fin tr']| |] eqn:El; try discriminate. cbn [bind] in E.
  destruct (nexus_add_segment (st_ns fin) (st_ss fin) (s_min s) (length (st_ss st)) tr') as [ns4| |] eqn:E4; try discriminate. cbn [bind] in E. cbv zeta in E.
  destruct (check_consistency true k (mkState ns4 (st_ss fin) (st_ts fin) (st_qs fin))) as [[]| |] eqn:Ec; try discriminate. clear E.
  assert (Hk : knows fin).
  { intros j x w Hj Hw Hne. destruct (check_knows _ _ Ec j x w Hj Hw) as (m & M1 & M2). cbn [st_ns] in M1. rewrite (add_only _ _ _ _ _ _ E4) in M1 by auto. eauto. }
  assert (Hd : dsc cur ni ti (length (st_ts st)) ti t).
  { constructor; cbn [cur st_ss st_ts st_ns]; auto.
    - intros j x w Hj Hw Hle. assert (j <> ti). { intros ->. assert (x = t) by congruence. subst. assert (w = s_max s) by congruence. subst. lra. }
      apply nth_app_l. rewrite nth_upd_ne by auto. exact Hj.
    - intros w m Hm Hw. rewrite nth_upd_ne by (intros <-; lra). rewrite (add_only _ _ _ _ _ _ Ens); auto. intros ->. lra.
    - exists n, n2. split; auto. split; [apply nth_upd_eq; eapply nth_lt; eauto|]. auto.
    - exists tL. split; [apply nth_app_l; now apply nth_upd_eq|]. auto.
    - exists tR. split; [|auto]. replace (length (st_ts st)) with (length (upd (st_ts st) ti tL)) by apply upd_length. apply nth_snoc.
    - intros x Hx. assert (x = t) by congruence. subst. exists ni. split; auto. lra.
    - intros x Hx. apply nth_lt in Hx. lia.
    - lia.
    - intros Hm m Hmm. rewrite nth_upd_eq in Hmm by (eapply nth_lt; eauto). injection Hmm as <-. rewrite Q2. auto. }
  destruct We as (We1 & We2). cbn [sedge snd] in We2. change (h < ht (s_cmax s))%Q in We2.
  apply (descent_clear k cur ni ti (length (st_ts st)) ti t fin tr' (s_cmax s) Hd El Hk Au); auto; [lra|]. split; auto.
Qed.

(** Hence the segment can be added to the edges. *)
Theorem accept_geo k st' : incl Es (medges st) -> add_segment ieqb true k st (s_min s) (s_max s) (s_cmin s) (s_cmax s) = Ok st' -> geo W (e :: Es).
Proof.
  intros Hinc E. pose proof (accept_clear k st' E) as Hcl.
  assert (Main : forall f, In f Es -> forall p, on_segment (fst e) (snd e) p -> on_segment (fst f) (snd f) p -> (peq p (fst e) \/ peq p (snd e)) /\ (peq p (fst f) \/ peq p (snd f))).
  { intros f Hf p P1 P2. destruct (on_X W _ M e p HGe HM He P1) as ((A1 & A2) & A3). destruct (on_X W _ M f p HG HM Hf P2) as ((B1 & B2) & B3).
    destruct (g_end _ _ HGe e He) as (W1 & W2 & _). destruct (g_end _ _ HG f Hf) as (W3 & W4 & _).
    assert (EE : forall v, In v W -> peq p v -> (peq p (fst e) \/ peq p (snd e)) /\ (peq p (fst f) \/ peq p (snd f))).
    { intros v Hv Hpv. assert (Hh : (ht v == ht p)%Q). { destruct Hpv as (V1 & V2). unfold Geo.ht. rewrite V1, V2. reflexivity. }
      assert (On1 : on_segment (fst e) (snd e) v). { apply (X_on W _ M HGe HM e (ht p) v He); auto. destruct Hpv as (V1 & _). rewrite <- V1. exact A3. }
      assert (On2 : on_segment (fst f) (snd f) v). { apply (X_on W _ M HG HM f (ht p) v Hf); auto. destruct Hpv as (V1 & _). rewrite <- V1. exact B3. }
      split; [destruct (g_on _ _ HGe e v He Hv On1) as [<-|<-]|destruct (g_on _ _ HG f v Hf Hv On2) as [<-|<-]]; auto. }
    destruct (Qlt_le_dec (ht (fst e)) (ht p)) as [C1|C1].
    2:{ apply (EE (fst e) W1). apply (peq_X W _ M e p (fst e) HGe HM He); auto. { change (ht p == ht (fst e))%Q. change (ht (fst e) <= ht p)%Q in A1. lra. } symmetry. apply X_min. }
    destruct (Qlt_le_dec (ht p) (ht (snd e))) as [C2|C2].
    2:{ apply (EE (snd e) W2). apply (peq_X W _ M e p (snd e) HGe HM He); auto. { change (ht p == ht (snd e))%Q. change (ht p <= ht (snd e))%Q in A2. lra. } symmetry. now apply (X_max W _ M HGe HM). }
    destruct (Qlt_le_dec (ht (fst f)) (ht p)) as [C3|C3].
    2:{ apply (EE (fst f) W3). apply (peq_X W _ M f p (fst f) HG HM Hf); auto. { change (ht p == ht (fst f))%Q. change (ht (fst f) <= ht p)%Q in B1. lra. } symmetry. apply X_min. }
    destruct (Qlt_le_dec (ht p) (ht (snd f))) as [C4|C4].
    2:{ apply (EE (snd f) W4). apply (peq_X W _ M f p (snd f) HG HM Hf); auto. { change (ht p == ht (snd f))%Q. change (ht p <= ht (snd f))%Q in B2. lra. } symmetry. now apply (X_max W _ M HG HM). }
    exfalso. apply (Hcl f (ht p) (Hinc f Hf)); [split; auto|split; auto|]. change (cx p == X e (ht p))%Q in A3. change (cx p == X f (ht p))%Q in B3. lra. }
  constructor.
  - apply (g_pt _ _ HG).
  - intros x [<-|Hx]; [now apply (g_end _ _ HGe)|now apply (g_end _ _ HG)].
  - intros x y [<-|Hx] [<-|Hy] Hxy p P1 P2; [congruence|exact (proj1 (Main y Hy p P1 P2))|exact (proj2 (Main x Hx p P2 P1))|exact (g_cross _ _ HG x y Hx Hy Hxy p P1 P2)].
  - intros x v [<-|Hx]; [now apply (g_on _ _ HGe)|now apply (g_on _ _ HG)].
Qed.

End Accept.
