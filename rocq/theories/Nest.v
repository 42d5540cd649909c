(** Polygons inside polygons: the even-odd rule along paths that cross no edge. *)
From Coq Require Import QArith Qabs Lqa List Arith Lia Bool ZArith Permutation.
From Verif Require Import Base Coord Trap Lanes Plane MonoGeom Geo Polygons Build Sweep Tile EvenOdd Outline.
Import ListNotations.
Local Open Scope nat_scope.

(** ** Parity of counts *)

Lemma odd_S n : Nat.odd (S n) = negb (Nat.odd n).
Proof. now rewrite Nat.odd_succ, <- Nat.negb_odd. Qed.

Definition par {A} (f : A -> bool) (l : list A) : bool := Nat.odd (length (filter f l)).

Lemma par_cons {A} (f : A -> bool) a l : par f (a :: l) = xorb (f a) (par f l).
Proof. unfold par. cbn [filter]. destruct (f a); cbn [length]; rewrite ?odd_S; destruct (Nat.odd _); reflexivity. Qed.

Lemma par_nil {A} (f : A -> bool) : par f [] = false.
Proof. reflexivity. Qed.

Lemma par_xor {A} (f g : A -> bool) l : par (fun x => xorb (f x) (g x)) l = xorb (par f l) (par g l).
Proof. induction l as [|a l IH]; [reflexivity|]. rewrite !par_cons, IH. destruct (f a), (g a), (par f l), (par g l); reflexivity. Qed.

Lemma par_ext {A} (f g : A -> bool) l : (forall x, In x l -> f x = g x) -> par f l = par g l.
Proof. intros H. unfold par. now rewrite (filter_ext_in f g l H). Qed.

Lemma par_map {A B} (f : B -> bool) (h : A -> B) l : par f (map h l) = par (fun x => f (h x)) l.
Proof. induction l as [|a l IH]; [reflexivity|]. cbn [map]. now rewrite !par_cons, IH. Qed.

Lemma par_perm {A} (f : A -> bool) l l' : Permutation l l' -> par f l = par f l'.
Proof. induction 1; rewrite ?par_cons; auto; try congruence. destruct (f x), (f y), (par f l); reflexivity. Qed.

Lemma par_app {A} (f : A -> bool) l l' : par f (l ++ l') = xorb (par f l) (par f l').
Proof. induction l as [|a l IH]; [cbn [app]; rewrite par_nil; now destruct (par f l')|]. cbn [app]. rewrite !par_cons, IH. now destruct (f a), (par f l), (par f l'). Qed.

Lemma inside_app ps qs z : inside_eo (ps ++ qs) z = xorb (inside_eo ps z) (inside_eo qs z).
Proof. unfold inside_eo, crossings. rewrite map_app, concat_app. apply par_app. Qed.

Lemma inside_cons p ps z : inside_eo (p :: ps) z = xorb (inside_eo [p] z) (inside_eo ps z).
Proof. apply (inside_app [p] ps z). Qed.

(** The number of polygons around a point has the parity of the crossings. *)
Lemma inside_count ps z : inside_eo ps z = par (fun q => inside_eo [q] z) ps.
Proof. induction ps as [|p ps IH]; [reflexivity|]. now rewrite inside_cons, par_cons, IH. Qed.

Local Open Scope Q_scope.

(** ** Two disjoint segments *)
Section Two.
Variables (W : list point) (Es : list edge) (M : Q).
Hypothesis HG : geo W Es.
Hypothesis HM : shear M W.
Notation ht := (ht M).
Notation X := (X M).
Variables (e f : edge).
Hypothesis He : In e Es.
Hypothesis Hf : In f Es.
Hypothesis Hd : forall m, on_segment (fst e) (snd e) m -> ~ on_segment (fst f) (snd f) m.

Lemma two_strict h : withinc M e h -> withinc M f h -> ~ X e h == X f h.
Proof.
  intros (E1 & E2) (F1 & F2) K. assert (HM0 : 0 < M) by apply HM.
  set (m := ((X e h, (h - X e h) / M) : point)). assert (Hh : ht m == h). { unfold Geo.ht, m, cx, cy. cbn. field. lra. }
  apply (Hd m); [apply (X_on W Es M HG HM e h m)|apply (X_on W Es M HG HM f h m)]; auto; unfold m, cx; cbn; try reflexivity; try exact K.
Qed.

Lemma two_const h1 h2 : withinc M e h1 -> withinc M f h1 -> withinc M e h2 -> withinc M f h2 -> X e h1 < X f h1 -> X e h2 < X f h2.
Proof.
  intros E1 F1 E2 F2 K. destruct (Qlt_le_dec (X e h2) (X f h2)) as [|L]; auto. exfalso. pose proof (two_strict h2 E2 F2) as N.
  assert (L' : X f h2 < X e h2) by lra. clear L N. set (d1 := X f h1 - X e h1). set (d2 := X e h2 - X f h2). assert (0 < d1) by (unfold d1; lra). assert (0 < d2) by (unfold d2; lra).
  set (t := d1 / (d1 + d2)). assert (T0 : 0 <= t) by (apply Qle_shift_div_l; lra). assert (T1 : t <= 1) by (apply Qle_shift_div_r; lra).
  apply (two_strict ((1 - t) * h1 + t * h2)).
  - destruct E1, E2. split; nra.
  - destruct F1, F2. split; nra.
  - rewrite !X_affine. assert (Et : (1 - t) * d1 == t * d2) by (unfold t; field; lra). unfold d1, d2 in Et. lra.
Qed.
End Two.

(** [v] is right of the rising segment from [x] to [y]. *)
Definition rt (M : Q) (x y v : point) : bool := Qltb (ht M x) (ht M v) && Qltb (ht M v) (ht M y) && Qltb (cross x y v) 0.

Lemma two_xor W Es M a b x y : geo W Es -> shear M W -> In (a, b) Es -> In (x, y) Es -> (forall m, on_segment a b m -> ~ on_segment x y m) ->
  xorb (hits M x a b) (hits M y a b) = xorb (rt M x y a) (rt M x y b).
Proof.
  intros HG HM He Hf Hd. set (e := (a, b) : edge). set (f := (x, y) : edge).
  destruct (g_end _ _ HG e He) as (Wa & Wb & Lab). destruct (g_end _ _ HG f Hf) as (Wx & Wy & Lxy). cbn [e f fst snd] in *.
  pose proof (proj1 (ht_lt W M HM a b Wa Wb) Lab) as Hab. pose proof (proj1 (ht_lt W M HM x y Wx Wy) Lxy) as Hxy.
  assert (Hd' : forall m, on_segment (fst f) (snd f) m -> ~ on_segment (fst e) (snd e) m) by (intros m H1 H2; apply (Hd m H2 H1)).
  pose proof (two_const W Es M HG HM f e Hf He Hd') as C. pose proof (two_strict W Es M HG HM f e Hf He Hd') as S.
  assert (NE : forall u v, In u [a; b] -> In v [x; y] -> ~ ht M u == ht M v).
  { intros u v Hu Hv K. assert (In u W) by (destruct Hu as [<-|[<-|[]]]; auto). assert (In v W) by (destruct Hv as [<-|[<-|[]]]; auto). apply (ht_inj W Es M HG HM) in K; auto. subst v.
    apply (Hd u); [destruct Hu as [<-|[<-|[]]]; [apply on_start|apply on_end]|destruct Hv as [<-|[<-|[]]]; [apply on_start|apply on_end]]. }
  pose proof (NE a x ltac:(cbn; auto) ltac:(cbn; auto)) as Nax. pose proof (NE a y ltac:(cbn; auto) ltac:(cbn; auto)) as Nay.
  pose proof (NE b x ltac:(cbn; auto) ltac:(cbn; auto)) as Nbx. pose proof (NE b y ltac:(cbn; auto) ltac:(cbn; auto)) as Nby. clear NE.
  assert (Xx : X M f (ht M x) == cx x) by apply (X_min M f). assert (Xy : X M f (ht M y) == cx y) by apply (X_max W Es M HG HM f Hf).
  assert (Xa : X M e (ht M a) == cx a) by apply (X_min M e). assert (Xb : X M e (ht M b) == cx b) by apply (X_max W Es M HG HM e He).
  assert (HX : hits M x a b = true <-> ht M a < ht M x /\ ht M x < ht M b /\ X M f (ht M x) < X M e (ht M x)). { rewrite hits_spec. pose proof (cross_pos W Es M HG HM e x He) as K. cbn [e fst snd] in K. rewrite K, Xx. reflexivity. }
  assert (HY : hits M y a b = true <-> ht M a < ht M y /\ ht M y < ht M b /\ X M f (ht M y) < X M e (ht M y)). { rewrite hits_spec. pose proof (cross_pos W Es M HG HM e y He) as K. cbn [e fst snd] in K. rewrite K, Xy. reflexivity. }
  assert (Neg : forall v, cross x y v < 0 <-> X M f (ht M v) < cx v).
  { intros v. pose proof (cross_pos W Es M HG HM f v Hf) as K1. pose proof (cross_zero W Es M HG HM f v Hf) as K2. cbn [f fst snd] in K1, K2. fold f in K1, K2. split; intros K.
    - destruct (Q_dec (X M f (ht M v)) (cx v)) as [[L|L]|L]; auto; [apply K1 in L|symmetry in L; apply K2 in L]; lra.
    - destruct (Q_dec (cross x y v) 0) as [[L|L]|L]; auto; [apply K1 in L|apply K2 in L]; lra. }
  assert (RT : forall v, rt M x y v = true <-> ht M x < ht M v /\ ht M v < ht M y /\ X M f (ht M v) < cx v). { intros v. unfold rt. rewrite !andb_true_iff, !Qltb_spec, Neg. tauto. }
  pose proof (RT a) as RA. rewrite <- Xa in RA. pose proof (RT b) as RB. rewrite <- Xb in RB. clear RT Neg.
  assert (WE : forall h, ht M a <= h -> h <= ht M b -> withinc M e h) by (intros; now split). assert (WF : forall h, ht M x <= h -> h <= ht M y -> withinc M f h) by (intros; now split).
  assert (F : forall (c : bool) (P : Prop), (c = true <-> P) -> ~ P -> c = false). { intros c P H1 H2. destruct c; auto. exfalso. apply H2, H1. reflexivity. }
  assert (EQ : forall h h' (c c' : bool), ht M a <= h -> h <= ht M b -> ht M x <= h -> h <= ht M y -> ht M a <= h' -> h' <= ht M b -> ht M x <= h' -> h' <= ht M y ->
    (c = true <-> X M f h < X M e h) -> (c' = true <-> X M f h' < X M e h') -> c = c').
  { intros h h' c c' A1 A2 A3 A4 B1 B2 B3 B4 Q1 Q2. apply eq_true_iff_eq. rewrite Q1, Q2. split; apply C; auto. }
  destruct (Qlt_le_dec (ht M a) (ht M x)) as [Lax|Lax].
  - rewrite (F _ _ RA) by lra. destruct (Qlt_le_dec (ht M x) (ht M b)) as [Lxb|Lxb].
    + destruct (Qlt_le_dec (ht M b) (ht M y)) as [Lby|Lby].
      * rewrite (F _ _ HY) by lra. rewrite xorb_false_r, xorb_false_l. apply (EQ (ht M x) (ht M b)); try lra; [rewrite HX|rewrite RB]; tauto.
      * rewrite (F _ _ RB) by lra. cbn [xorb]. assert (hits M x a b = hits M y a b) as ->; [|now destruct (hits M y a b)]. apply (EQ (ht M x) (ht M y)); try lra; [rewrite HX|rewrite HY]; (split; [tauto|intros; repeat split; auto; lra]).
    + rewrite (F _ _ HX), (F _ _ HY), (F _ _ RB) by lra. reflexivity.
  - rewrite (F _ _ HX) by lra. destruct (Qlt_le_dec (ht M a) (ht M y)) as [Lay|Lay].
    + destruct (Qlt_le_dec (ht M b) (ht M y)) as [Lby|Lby].
      * rewrite (F _ _ HY) by lra. assert (rt M x y a = rt M x y b) as ->; [|now destruct (rt M x y b)]. apply (EQ (ht M a) (ht M b)); try lra; [rewrite RA|rewrite RB]; (split; [tauto|intros; repeat split; auto; lra]).
      * rewrite (F _ _ RB) by lra. rewrite xorb_false_r, xorb_false_l. apply (EQ (ht M y) (ht M a)); try lra; [rewrite HY|rewrite RA]; (split; [tauto|intros; repeat split; auto; lra]).
    + rewrite (F _ _ HY), (F _ _ RA), (F _ _ RB) by lra. reflexivity.
Qed.

(** ** Along a segment that meets no edge *)

Lemma on_peq a b m m' : peq m m' -> on_segment a b m -> on_segment a b m'.
Proof. intros (E1 & E2) (t & H1 & H2 & H3 & H4). exists t. rewrite <- E1, <- E2. auto. Qed.

Lemma on_swap a b m : on_segment a b m -> on_segment b a m.
Proof. intros (t & K1 & K2 & K3 & K4). exists (1 - t). split; [lra|]. split; [lra|]. rewrite K3, K4. split; ring. Qed.

Lemma Qltb_comp a b c d : a == b -> c == d -> Qltb a c = Qltb b d.
Proof. intros H1 H2. apply eq_true_iff_eq. rewrite !Qltb_spec, H1, H2. reflexivity. Qed.

Lemma crossed_peq x y d : peq x y -> crossed x d = crossed y d.
Proof.
  intros (E1 & E2). destruct d as [a b]. unfold crossed. rewrite (Qltb_comp (cy a) (cy a) (cy x) (cy y)), (Qltb_comp (cy b) (cy b) (cy x) (cy y)) by (auto; reflexivity).
  rewrite (Qltb_comp 0 0 (cross a b x) (cross a b y)), (Qltb_comp 0 0 (cross b a x) (cross b a y)); auto; try reflexivity; unfold cross; now rewrite E1, E2.
Qed.

Lemma off_vertex qs z q : off qs z -> In q (concat qs) -> ~ peq z q.
Proof.
  intros H Hq (E1 & E2). rewrite <- alledges_fst in Hq. apply in_map_iff in Hq. destruct Hq as (d & <- & Hd). apply (H d Hd). exists 0%Q. split; [lra|]. split; [lra|]. rewrite E1, E2. split; ring.
Qed.

Lemma eo_const_up qs x y : valid qs -> (forall d m, In d (concat (map edges qs)) -> on_segment (fst d) (snd d) m -> ~ on_segment x y m) -> plt x y -> inside_eo qs x = inside_eo qs y.
Proof.
  intros HV Hd Hlt. assert (Ox : off qs x). { intros d Hin H. apply (Hd d x Hin H). apply on_start. } assert (Oy : off qs y). { intros d Hin H. apply (Hd d y Hin H). apply on_end. }
  assert (HG0 : geo (concat qs ++ [x; y]) (uedges qs)).
  { apply valid_geo; auto.
    - assert (N : ~ peq x y) by (intros N; now apply (plt_irrefl x y)). assert (N' : ~ peq y x) by (intros (N1 & N2); apply N; split; now symmetry). intros p q [<-|[<-|[]]] [<-|[<-|[]]]; auto; contradiction.
    - intros p q [<-|[<-|[]]] Hq; now apply (off_vertex qs).
    - intros p e [<-|[<-|[]]] He; auto. }
  set (W := concat qs ++ [x; y]) in *. set (Es := (x, y) :: uedges qs).
  assert (Wx : In x W) by (apply in_or_app; right; now left). assert (Wy : In y W) by (apply in_or_app; right; right; now left).
  assert (Du : forall e m, In e (uedges qs) -> on_segment (fst e) (snd e) m -> ~ on_segment x y m). { intros e m He. apply in_map_iff in He. destruct He as (d & <- & Hin). rewrite on_oedge. now apply Hd. }
  assert (HG : geo W Es).
  { destruct HG0 as [G1 G2 G3 G4]. split; auto.
    - intros e [<-|He]; cbn; auto.
    - intros e f [<-|He] [<-|Hf] Hne p H1 H2; [congruence| | |now apply (G3 e f)]; exfalso; cbn [fst snd] in *; eapply Du; eauto.
    - intros e v [<-|He] Hv H; [|now apply G4]. cbn [fst snd] in *. apply in_app_or in Hv. destruct Hv as [Hv|[<-|[<-|[]]]]; auto. exfalso. rewrite <- alledges_fst in Hv. apply in_map_iff in Hv. destruct Hv as (d & <- & Hin). apply (Hd d (fst d) Hin); auto. apply on_start. }
  destruct (shear_exists W) as (M & HM).
  change (inside_eo qs x) with (par (crossed x) (concat (map edges qs))). change (inside_eo qs y) with (par (crossed y) (concat (map edges qs))).
  enough (K : par (fun d => xorb (crossed x d) (crossed y d)) (concat (map edges qs)) = false). { rewrite par_xor in K. now apply xorb_eq. }
  rewrite (par_ext _ (fun d => xorb (rt M x y (fst d)) (rt M x y (snd d)))).
  - rewrite par_xor. rewrite <- (par_map (rt M x y) fst), <- (par_map (rt M x y) snd), alledges_fst, (par_perm _ _ _ (alledges_snd qs)). apply xorb_nilpotent.
  - intros d Hin. destruct (edge_ends qs HV d Hin) as (Ia & Ib & Hne).
    assert (G : forall a b, In (a, b) (uedges qs) -> xorb (crossed x (a, b)) (crossed y (a, b)) = xorb (rt M x y a) (rt M x y b)).
    { intros a b He. assert (He' : In (a, b) Es) by now right. destruct (g_end _ _ HG _ He') as (Wa & Wb & L). cbn [fst snd] in *. rewrite !(crossed_hits W M _ a b) by auto. apply (two_xor W Es M); auto; [now left|]. intros m. apply (Du (a, b) m He). }
    assert (Ho : In (oedge d) (uedges qs)) by now apply in_map. destruct d as [a b]. cbn [fst snd] in *. destruct (oedge_cases (a, b)) as [Eo|Eo]; rewrite Eo in Ho; cbn [fst snd] in Ho.
    + now apply G.
    + rewrite (crossed_sym x), (crossed_sym y), (G b a Ho). apply xorb_comm.
Qed.

Lemma eo_const qs x y : valid qs -> (forall d m, In d (concat (map edges qs)) -> on_segment (fst d) (snd d) m -> ~ on_segment x y m) -> inside_eo qs x = inside_eo qs y.
Proof.
  intros HV Hd. destruct (plt_total x y) as [L|[L|L]].
  - now apply eo_const_up.
  - unfold inside_eo, crossings. now rewrite (filter_ext _ _ (fun d => crossed_peq x y d L)).
  - symmetry. apply eo_const_up; auto. intros d m H1 H2 H3. apply (Hd d m H1 H2). now apply on_swap.
Qed.

(** ** Parts of valid lists *)

Lemma valid_part l1 l2 l3 : valid (l1 ++ l2 ++ l3) -> valid l2.
Proof.
  intros (H1 & H2 & H3). rewrite !map_app, !concat_app in H3. rewrite !concat_app in H2. split; [|split].
  - apply Forall_app in H1. destruct H1 as (_ & H1). now apply Forall_app in H1.
  - intros i j a b Hi Hj E. assert (K : (length (concat l1) + i = length (concat l1) + j)%nat); [|lia].
    apply (H2 _ _ a b); auto; (rewrite nth_error_app2, Nat.add_comm, Nat.add_sub by lia; rewrite nth_error_app1; auto; eapply nth_lt; eauto).
  - intros i j e f p Hi Hj Hne. apply (H3 (length (concat (map edges l1)) + i)%nat (length (concat (map edges l1)) + j)%nat); try lia;
    (rewrite nth_error_app2, Nat.add_comm, Nat.add_sub by lia; rewrite nth_error_app1; auto; eapply nth_lt; eauto).
Qed.

Lemma valid_one ps p : valid ps -> In p ps -> valid [p].
Proof. intros HV Hp. apply in_split in Hp. destruct Hp as (l1 & l2 & ->). now apply (valid_part l1 [p] l2). Qed.

(** Different polygons of a valid list have no point in common. *)
Lemma apart l1 p l2 q d d' m : valid (l1 ++ p :: l2) -> In q (l1 ++ l2) -> In d (edges p) -> In d' (edges q) ->
  on_segment (fst d) (snd d) m -> ~ on_segment (fst d') (snd d') m.
Proof.
  intros HV Hq Hd Hd' H1 H2. set (ps := l1 ++ p :: l2) in *.
  assert (Hp : In p ps) by (apply in_or_app; right; now left). assert (Hq' : In q ps). { apply in_or_app. apply in_app_or in Hq. destruct Hq; auto. right. now right. }
  assert (ND : forall v, In v p -> In v q -> False).
  { intros v Hv Hv'. pose proof (valid_nd ps HV) as K. unfold ps in K. rewrite concat_app in K. cbn [concat] in K. apply NoDup_app_inv in K. destruct K as (_ & K & K1). apply NoDup_app_inv in K. destruct K as (_ & _ & K2).
    apply in_app_or in Hq. destruct Hq as [Hq|Hq]; [apply (K1 v); [apply in_concat; eauto|apply in_or_app; now left]|apply (K2 v); auto; apply in_concat; eauto]. }
  assert (Ends : forall r (x : point * point), In x (edges r) -> In (fst x) r /\ In (snd x) r).
  { intros r x Hx. split; [rewrite <- edges_fst; now apply in_map|]. eapply Permutation_in; [apply edges_snd|]. now apply in_map. }
  assert (D1 : In d (concat (map edges ps))) by (apply in_concat; exists (edges p); split; auto; now apply in_map). assert (D2 : In d' (concat (map edges ps))) by (apply in_concat; exists (edges q); split; auto; now apply in_map).
  apply In_nth_error in D1, D2. destruct D1 as (i & D1), D2 as (j & D2). destruct (Ends p d Hd) as (A1 & A2). destruct (Ends q d' Hd') as (B1 & B2).
  assert (Hij : i <> j) by (intros ->; assert (d = d') by congruence; subst; eapply ND; eauto).
  pose proof HV as (_ & _ & K). destruct (K i j d d' m D1 D2 Hij H1 H2) as (Q1 & Q2).
  assert (IW : forall r v, In r ps -> In v r -> In v (concat ps)) by (intros r v Hr Hv; apply in_concat; eauto).
  assert (G : forall u v, In u p -> In v q -> peq m u -> peq m v -> False). { intros u v Hu Hv (E1 & E2) (E3 & E4). assert (u = v). { apply (valid_eq ps HV); eauto. split; [rewrite <- E1|rewrite <- E2]; auto. } subst. eapply ND; eauto. }
  destruct Q1 as [Q1|Q1], Q2 as [Q2|Q2]; [exact (G _ _ A1 B1 Q1 Q2)|exact (G _ _ A1 B2 Q1 Q2)|exact (G _ _ A2 B1 Q1 Q2)|exact (G _ _ A2 B2 Q1 Q2)].
Qed.

Lemma along {A B} (f : A -> B) p : (forall d, In d (edges p) -> f (fst d) = f (snd d)) -> forall u v, In u p -> In v p -> f u = f v.
Proof.
  assert (G : forall l : list A, forall a z, (forall d, In d (combine (a :: l) (l ++ [z])) -> f (fst d) = f (snd d)) -> forall u, In u (a :: l) -> f u = f a).
  { induction l as [|b l IH]; intros a z H u [<-|Hu]; auto; [easy|]. cbn [app combine] in H. transitivity (f b).
    - apply (IH b z); auto. intros d Hd. apply H. now right.
    - symmetry. apply (H (a, b)). now left. }
  intros H u v Hu Hv. destruct p as [|a l]; [easy|]. rewrite (G l a a H u Hu), (G l a a H v Hv). reflexivity.
Qed.

(** All vertices of a polygon are on the same side of another. *)
Lemma same_side l1 p l2 q u v : valid (l1 ++ p :: l2) -> In q (l1 ++ l2) -> In u p -> In v p -> inside_eo [q] u = inside_eo [q] v.
Proof.
  intros HV Hq. apply (along (fun u => inside_eo [q] u)). intros d Hd. assert (Hq' : In q (l1 ++ p :: l2)). { apply in_or_app. apply in_app_or in Hq. destruct Hq; auto. right. now right. }
  apply eo_const; [now apply (valid_one (l1 ++ p :: l2))|]. intros d' m Hd' H1 H2. cbn [map concat] in Hd'. rewrite app_nil_r in Hd'. apply (apart l1 p l2 q d d' m); auto.
Qed.
