(** Two points close to an edge of a polygon, one on each side. *)
From Coq Require Import QArith Qabs Qminmax Lqa List Arith Lia Bool ZArith Permutation.
From Verif Require Import Base Coord Trap Lanes Plane MonoGeom Geo Polygons Build Sweep Tile EvenOdd Outline Nest.
Import ListNotations.
Local Open Scope Q_scope.

Lemma avoid (l : list Q) : forall lo hi, lo < hi -> exists h, lo < h /\ h < hi /\ forall x, In x l -> ~ h == x.
Proof.
  induction l as [|x l IH]; intros lo hi H.
  - exists ((lo + hi) / 2). assert (E : (lo + hi) / 2 == lo + (hi - lo) * (1#2)) by field. rewrite E. split; [lra|]. split; [lra|easy].
  - assert (G : exists hi', lo < hi' /\ hi' <= hi /\ (x <= lo \/ hi' <= x)).
    { destruct (Qlt_le_dec lo x) as [L|L]; [|exists hi; split; auto; split; [lra|now left]]. destruct (Qlt_le_dec x hi) as [L'|L']; [exists x|exists hi]; (split; [auto|split; [lra|right; lra]]). }
    destruct G as (hi' & G1 & G2 & G3). destruct (IH lo hi' G1) as (h & H1 & H2 & H3). exists h. split; auto. split; [lra|]. intros y [<-|Hy]; auto. destruct G3; lra.
Qed.

Lemma small (l : list (Q * Q)) : (forall ck, In ck l -> ~ fst ck == 0) -> exists eps, 0 < eps /\ forall c k, In (c, k) l -> Qabs k * eps < Qabs c.
Proof.
  induction l as [|[c k] l IH]; intros H; [exists 1; split; [lra|easy]|]. destruct IH as (e & He & Hl); [intros ck Hck; apply H; now right|].
  assert (Hc : ~ c == 0) by (apply (H (c, k)); now left). assert (Pc : 0 < Qabs c). { destruct (Qlt_le_dec 0 (Qabs c)) as [|L]; auto. exfalso. apply Hc. pose proof (Qabs_nonneg c). pose proof (Qle_Qabs c). pose proof (Qle_Qabs (- c)) as K. rewrite Qabs_opp in K. lra. }
  pose proof (Qabs_nonneg k) as Pk. set (e2 := Qabs c / (Qabs k + 1)). assert (E2 : 0 < e2) by (apply Qlt_shift_div_l; lra).
  assert (K2 : Qabs k * e2 < Qabs c). { assert (Em : (Qabs k + 1) * e2 == Qabs c) by (unfold e2; field; lra). rewrite <- Em. lra. }
  exists (Qmin e e2). split; [now apply Q.min_glb_lt|]. intros c' k' [Q|Hin].
  - injection Q as <- <-. pose proof (Q.le_min_r e e2). assert (0 <= Qabs k * (e2 - Qmin e e2)) by (apply Qmult_le_0_compat; lra). lra.
  - specialize (Hl c' k' Hin). pose proof (Q.le_min_l e e2). pose proof (Qabs_nonneg k'). assert (0 <= Qabs k' * (e - Qmin e e2)) by (apply Qmult_le_0_compat; lra). lra.
Qed.

(** A valid polygon has an edge that is not horizontal. *)
Lemma slanted p : valid [p] -> exists a b, In (a, b) (edges p) /\ ~ cy a == cy b.
Proof.
  intros HV. destruct (existsb (fun d => negb (Qeq_bool (cy (fst d)) (cy (snd d)))) (edges p)) eqn:Ex.
  { apply existsb_exists in Ex. destruct Ex as ([a b] & Hin & K). exists a, b. split; auto. intros E. apply Qeq_bool_iff in E. cbn [fst snd] in K. now rewrite E in K. }
  exfalso. assert (Hor : forall d, In d (edges p) -> cy (fst d) == cy (snd d)).
  { intros d Hd. destruct (Qeq_bool (cy (fst d)) (cy (snd d))) eqn:Eq; [now apply Qeq_bool_iff|]. assert (existsb (fun d => negb (Qeq_bool (cy (fst d)) (cy (snd d)))) (edges p) = true); [|congruence]. apply existsb_exists. exists d. split; auto. cbv beta. change (negb (Qeq_bool (cy (fst d)) (cy (snd d))) = true). now rewrite Eq. }
  clear Ex. assert (Min : forall l : list point, l <> [] -> exists v, In v l /\ forall u, In u l -> cx v <= cx u).
  { induction l as [|a l IH]; [congruence|]. intros _. destruct l as [|b l]; [exists a; split; [now left|intros u [<-|[]]; lra]|]. destruct IH as (v & Hv & Hm); [congruence|].
    destruct (Qlt_le_dec (cx a) (cx v)) as [L|L]; [exists a|exists v]; (split; [auto; try (now left); now right|]); intros u [<-|Hu]; try lra; specialize (Hm u Hu); lra. }
  assert (H3 : (3 <= length p)%nat) by (destruct HV as (K & _); now apply Forall_inv in K).
  destruct (Min p) as (v & Hv & Hm); [intros ->; cbn in H3; lia|].
  assert (ED : concat (map edges [p]) = edges p) by (cbn; apply app_nil_r). assert (EC : concat [p] = p) by (cbn; apply app_nil_r).
  pose proof (edge_ends [p] HV) as EE. rewrite ED, EC in EE. pose proof HV as (_ & V2 & V3). rewrite ED in V3. clear V2.
  assert (H1 : In v (map fst (edges p))) by now rewrite edges_fst. assert (H2 : In v (map snd (edges p))) by (eapply Permutation_in; [symmetry; apply edges_snd|auto]).
  apply in_map_iff in H1, H2. destruct H1 as (d1 & E1 & H1), H2 as (d2 & E2 & H2). pose proof (Hor d1 H1) as C1. pose proof (Hor d2 H2) as C2.
  destruct (EE d1 H1) as (A1 & A2 & A3), (EE d2 H2) as (B1 & B2 & B3). apply In_nth_error in H1, H2. destruct H1 as (i & Hi), H2 as (j & Hj). destruct d1 as [v1 w], d2 as [u v2]. cbn [fst snd] in *. subst v1 v2.
  assert (Hij : i <> j). { intros ->. assert (Q : (v, w) = (u, v)) by congruence. injection Q as _ Q. apply A3. rewrite Q. split; reflexivity. }
  assert (Lw : cx v < cx w). { specialize (Hm w A2). destruct (Qlt_le_dec (cx v) (cx w)); auto. exfalso. apply A3. split; lra. }
  assert (Lu : cx v < cx u). { specialize (Hm u B1). destruct (Qlt_le_dec (cx v) (cx u)); auto. exfalso. apply B3. split; lra. }
  set (x := (cx v + Qmin (cx u) (cx w)) * (1#2)). set (m := (x, cy v) : point). assert (X1 : cx v < x). { assert (cx v < Qmin (cx u) (cx w)) by now apply Q.min_glb_lt. unfold x. lra. }
  assert (X2 : x < cx u) by (pose proof (Q.le_min_l (cx u) (cx w)); unfold x; lra). assert (X3 : x < cx w) by (pose proof (Q.le_min_r (cx u) (cx w)); unfold x; lra).
  assert (On : forall y, cy v == cy y -> x < cx y -> on_segment v y m).
  { intros y Ey Ly. exists ((x - cx v) / (cx y - cx v)). split; [apply Qle_shift_div_l; lra|]. split; [apply Qle_shift_div_r; lra|]. change (cx m) with x. change (cy m) with (cy v). split; [field; lra|rewrite <- Ey; ring]. }
  destruct (V3 i j (v, w) (u, v) m Hi Hj Hij) as ([(Q & _)|(Q & _)] & _); cbn [fst snd].
  - now apply On.
  - apply on_swap. apply On; auto. now symmetry.
  - change (cx m) with x in Q. cbn [fst snd] in Q. lra.
  - change (cx m) with x in Q. cbn [fst snd] in Q. lra.
Qed.

Definition spans (d : point * point) (h : Q) : Prop := (cy (fst d) < h /\ h < cy (snd d)) \/ (cy (snd d) < h /\ h < cy (fst d)).

Lemma span_on d z : spans d (cy z) -> cross (fst d) (snd d) z == 0 -> on_segment (fst d) (snd d) z.
Proof.
  destruct d as [a b]. unfold spans. cbn [fst snd]. intros S C. assert (N : ~ cy b - cy a == 0) by (destruct S; lra).
  exists ((cy z - cy a) / (cy b - cy a)). split; [|split; [|split]].
  - destruct S as [S|S]; [apply Qle_shift_div_l; lra|]. setoid_replace ((cy z - cy a) / (cy b - cy a)) with ((cy a - cy z) / (cy a - cy b)) by (field; lra). apply Qle_shift_div_l; lra.
  - destruct S as [S|S]; [apply Qle_shift_div_r; lra|]. setoid_replace ((cy z - cy a) / (cy b - cy a)) with ((cy a - cy z) / (cy a - cy b)) by (field; lra). apply Qle_shift_div_r; lra.
  - unfold cross in C. apply (Qmult_inj_r _ _ (cy b - cy a) N). field_simplify; auto. lra.
  - field. auto.
Qed.

Lemma on_span d z : on_segment (fst d) (snd d) z -> ~ cy z == cy (fst d) -> ~ cy z == cy (snd d) -> spans d (cy z) /\ cross (fst d) (snd d) z == 0.
Proof.
  destruct d as [a b]. unfold spans. cbn [fst snd]. intros (t & T0 & T1 & Ex & Ey) Na Nb. split; [|unfold cross; rewrite Ex, Ey; ring].
  destruct (Q_dec (cy a) (cy b)) as [[L|L]|L]; [left|right|exfalso].
  - assert (0 <= t * (cy b - cy a)) by nra. assert (t * (cy b - cy a) <= cy b - cy a) by nra. split; lra.
  - assert (0 <= t * (cy a - cy b)) by nra. assert (t * (cy a - cy b) <= cy a - cy b) by nra. split; lra.
  - apply Na. rewrite Ey, L. ring.
Qed.

Lemma no_span d z : ~ spans d (cy z) -> ~ cy z == cy (fst d) -> ~ cy z == cy (snd d) -> crossed z d = false.
Proof.
  destruct d as [a b]. unfold spans, crossed. cbn [fst snd]. intros S Na Nb. destruct (Qltb (cy a) (cy z)) eqn:E1, (Qltb (cy b) (cy z)) eqn:E2; cbn; auto; exfalso; apply S.
  - apply Qltb_spec in E1. apply Qltb_false in E2. left. split; lra.
  - apply Qltb_false in E1. apply Qltb_spec in E2. right. split; lra.
Qed.

Lemma crossed_sign d z z' : cy z == cy z' -> (0 < cross (fst d) (snd d) z <-> 0 < cross (fst d) (snd d) z') -> (cross (fst d) (snd d) z < 0 <-> cross (fst d) (snd d) z' < 0) -> crossed z d = crossed z' d.
Proof.
  destruct d as [a b]. unfold crossed. cbn [fst snd]. intros E H1 H2. rewrite (Qltb_comp (cy a) (cy a) (cy z) (cy z')), (Qltb_comp (cy b) (cy b) (cy z) (cy z')) by (auto; reflexivity).
  assert (Qltb 0 (cross a b z) = Qltb 0 (cross a b z')) as -> by (apply eq_true_iff_eq; now rewrite !Qltb_spec).
  assert (Qltb 0 (cross b a z) = Qltb 0 (cross b a z')) as ->; auto. apply eq_true_iff_eq. rewrite !Qltb_spec. rewrite (cross_swap a b z), (cross_swap a b z'). destruct H2 as (H2 & H2'). split; intros K; [assert (cross a b z < 0) by lra; specialize (H2 H)|assert (cross a b z' < 0) by lra; specialize (H2' H)]; lra.
Qed.

Lemma sign_keep c k eps : 0 < eps -> Qabs k * eps < Qabs c ->
  (0 < c <-> 0 < c - k * eps) /\ (c < 0 <-> c - k * eps < 0) /\ (0 < c <-> 0 < c + k * eps) /\ (c < 0 <-> c + k * eps < 0) /\ ~ c - k * eps == 0 /\ ~ c + k * eps == 0.
Proof.
  intros He. apply (Qabs_case k (fun x => x * eps < Qabs c -> _)); intros Hk; apply (Qabs_case c (fun x => _ < x -> _)); intros Hc H.
  all: assert (0 <= k * eps \/ k * eps <= 0) as [|] by ((left; nra) || (right; nra)); repeat split; intros; try lra; try nra.
Qed.

Lemma alone {A} (f : A -> bool) l x : NoDup l -> In x l -> f x = true -> (forall y, In y l -> y <> x -> f y = false) -> par f l = true.
Proof.
  intros Hnd Hin Hx Ho. apply in_split in Hin. destruct Hin as (l1 & l2 & ->). rewrite par_app, par_cons, Hx.
  assert (K : forall l', (forall y, In y l' -> f y = false) -> par f l' = false). { induction l' as [|y l' IH]; intros H; auto. rewrite par_cons, (H y (or_introl eq_refl)), IH; auto. intros. apply H. now right. }
  apply NoDup_remove_2 in Hnd.
  rewrite (K l1), (K l2); auto; intros y Hy; (apply Ho; [apply in_or_app; cbn; auto|intros ->; apply Hnd; apply in_or_app; auto]).
Qed.

Lemma near l1 p l2 : let ps := l1 ++ p :: l2 in valid ps -> exists z1 z2, off ps z1 /\ off ps z2 /\ inside_eo [p] z1 = negb (inside_eo [p] z2) /\
  forall q v, In q (l1 ++ l2) -> In v p -> inside_eo [q] z1 = inside_eo [q] v /\ inside_eo [q] z2 = inside_eo [q] v.
Proof.
  intros ps HV. assert (Hp : In p ps) by (apply in_or_app; right; now left). destruct (slanted p (valid_one ps p HV Hp)) as (a & b & He & Hs).
  set (D := concat (map edges ps)). assert (Hin : forall q d, In q ps -> In d (edges q) -> In d D) by (intros q d Hq Hd; apply in_concat; exists (edges q); split; auto; now apply in_map).
  assert (He' : In (a, b) D) by eauto.
  assert (Hh : exists h, spans (a, b) h /\ forall v, In v (concat ps) -> ~ h == cy v).
  { unfold spans. cbn [fst snd]. destruct (Q_dec (cy a) (cy b)) as [[L|L]|L]; [| |contradiction];
      destruct (avoid (map cy (concat ps)) _ _ L) as (h & H1 & H2 & H3); exists h; (split; [auto|intros v Hv; apply H3; now apply in_map]). }
  destruct Hh as (h & Hsp & Hav). set (y0 := (cx a + (h - cy a) / (cy b - cy a) * (cx b - cx a), h) : point).
  assert (Nk : ~ cy b - cy a == 0) by lra.
  assert (C0 : cross a b y0 == 0). { unfold cross. change (cx y0) with (cx a + (h - cy a) / (cy b - cy a) * (cx b - cx a)). change (cy y0) with h. field. auto. }
  assert (On0 : on_segment a b y0) by (apply (span_on (a, b) y0); auto).
  assert (Ends : forall d, In d D -> In (fst d) (concat ps) /\ In (snd d) (concat ps)) by (intros d Hd; destruct (edge_ends ps HV d Hd) as (? & ? & _); auto).
  assert (NotOn : forall d, In d D -> d <> (a, b) -> ~ on_segment (fst d) (snd d) y0).
  { intros d Hd Hne Hon. apply In_nth_error in Hd, He'. destruct Hd as (i & Hi), He' as (j & Hj). assert (Hij : i <> j) by (intros ->; congruence). pose proof HV as (_ & _ & K).
    destruct (Ends (a, b) (nth_error_In _ _ Hj)) as (Ia & Ib). destruct (K i j d (a, b) y0 Hi Hj Hij Hon On0) as (_ & [(_ & Q)|(_ & Q)]); [exact (Hav _ Ia Q)|exact (Hav _ Ib Q)]. }
  assert (Sp0 : forall d, In d D -> d <> (a, b) -> spans d h -> ~ cross (fst d) (snd d) y0 == 0) by (intros d Hd Hne S C; apply (NotOn d Hd Hne); now apply span_on).
  set (L := map (fun d : point * point => ((if Qeq_bool (cross (fst d) (snd d) y0) 0 then 1 else cross (fst d) (snd d) y0), cy (snd d) - cy (fst d))) D).
  destruct (small L) as (eps & Heps & Hsm).
  { intros ck Hck. apply in_map_iff in Hck. destruct Hck as (d & <- & Hd). cbn [fst]. destruct (Qeq_bool (cross (fst d) (snd d) y0) 0) eqn:Eq; [lra|]. now apply Qeq_bool_neq. }
  set (z1 := (cx y0 - eps, h) : point). set (z2 := (cx y0 + eps, h) : point).
  assert (E1 : forall c d, cross c d z1 == cross c d y0 + (cy d - cy c) * eps). { intros c d. unfold cross. change (cx z1) with (cx y0 - eps). change (cy z1) with h. change (cy y0) with h. ring. }
  assert (E2 : forall c d, cross c d z2 == cross c d y0 - (cy d - cy c) * eps). { intros c d. unfold cross. change (cx z2) with (cx y0 + eps). change (cy z2) with h. change (cy y0) with h. ring. }
  assert (Keep : forall d, In d D -> d <> (a, b) -> spans d h ->
    crossed z1 d = crossed y0 d /\ crossed z2 d = crossed y0 d /\ ~ cross (fst d) (snd d) z1 == 0 /\ ~ cross (fst d) (snd d) z2 == 0).
  { intros d Hd Hne S. pose proof (Sp0 d Hd Hne S) as C. destruct (sign_keep (cross (fst d) (snd d) y0) (cy (snd d) - cy (fst d)) eps Heps) as (K1 & K2 & K3 & K4 & K5 & K6).
    { apply Hsm. apply in_map_iff. exists d. split; auto. destruct (Qeq_bool (cross (fst d) (snd d) y0) 0) eqn:Eq; auto. now apply Qeq_bool_iff in Eq. }
    split; [|split; [|split]].
    - apply crossed_sign; [reflexivity| |]; rewrite E1; tauto.
    - apply crossed_sign; [reflexivity| |]; rewrite E2; tauto.
    - now rewrite E1.
    - now rewrite E2. }
  assert (Nh : forall d z, In d D -> cy z = h -> ~ cy z == cy (fst d) /\ ~ cy z == cy (snd d)) by (intros d z Hd ->; destruct (Ends d Hd); auto).
  assert (Same : forall d, In d D -> d <> (a, b) -> crossed z1 d = crossed y0 d /\ crossed z2 d = crossed y0 d).
  { intros d Hd Hne. assert (Dec : spans d h \/ ~ spans d h) by (unfold spans; destruct (Qlt_le_dec (cy (fst d)) h), (Qlt_le_dec h (cy (snd d))), (Qlt_le_dec (cy (snd d)) h), (Qlt_le_dec h (cy (fst d))); try (left; left; split; assumption); try (left; right; split; assumption); right; lra).
    destruct Dec as [S|S]; [destruct (Keep d Hd Hne S) as (? & ? & _); auto|].
    assert (R : forall z, cy z = h -> crossed z d = false). { intros z Hz. destruct (Nh d z Hd Hz). apply no_span; auto. now rewrite Hz. }
    rewrite !R by reflexivity. auto. }
  assert (K0 : ~ (cy b - cy a) * eps == 0). { intros Q. apply Nk. apply (Qmult_integral_l eps); [lra|]. rewrite <- Q. ring. }
  assert (Off : forall z, z = z1 \/ z = z2 -> off ps z).
  { intros z Hz d Hd Hon. assert (Cz : cy z = h) by (destruct Hz as [-> | ->]; reflexivity). destruct (Nh d z Hd Cz) as (N1 & N2). destruct (on_span d z Hon N1 N2) as (S & C). rewrite Cz in S.
    destruct (edge_dec d (a, b)) as [->|Hne].
    - cbn [fst snd] in C. destruct Hz as [-> | ->]; [rewrite E1 in C|rewrite E2 in C]; rewrite C0 in C; lra.
    - destruct (Keep d Hd Hne S) as (_ & _ & ? & ?). destruct Hz as [-> | ->]; contradiction. }
  exists z1, z2. split; [apply Off; auto|]. split; [apply Off; auto|]. split.
  - assert (ND : NoDup (edges p)). { apply (NoDup_map_inv fst). rewrite edges_fst. pose proof (valid_nd [p] (valid_one ps p HV Hp)) as K. cbn in K. now rewrite app_nil_r in K. }
    enough (K : par (fun d => xorb (crossed z1 d) (crossed z2 d)) (concat (map edges [p])) = true). { rewrite par_xor in K. change (inside_eo [p] z1) with (par (crossed z1) (concat (map edges [p]))). change (inside_eo [p] z2) with (par (crossed z2) (concat (map edges [p]))). now destruct (par (crossed z1) _), (par (crossed z2) _). }
    cbn [map concat]. rewrite app_nil_r. apply (alone _ _ (a, b)); auto.
    + assert (P1 : cross a b z1 == (cy b - cy a) * eps) by (rewrite E1, C0; ring). assert (P2 : cross a b z2 == - ((cy b - cy a) * eps)) by (rewrite E2, C0; ring).
      assert (P1' : cross b a z1 == - ((cy b - cy a) * eps)) by (rewrite cross_swap, P1; ring). assert (P2' : cross b a z2 == (cy b - cy a) * eps) by (rewrite cross_swap, P2; ring).
      unfold crossed. change (cy z1) with h. change (cy z2) with h. destruct Hsp as [(S1 & S2)|(S1 & S2)]; cbn [fst snd] in S1, S2.
      * assert (Qltb (cy a) h = true) as -> by now apply Qltb_spec. assert (Qltb (cy b) h = false) as -> by (apply Qltb_false; lra). cbn [negb andb]. assert (0 < (cy b - cy a) * eps) by nra.
        assert (Qltb 0 (cross a b z1) = true) as -> by (apply Qltb_spec; lra). assert (Qltb 0 (cross a b z2) = false) as -> by (apply Qltb_false; lra). reflexivity.
      * assert (Qltb (cy a) h = false) as -> by (apply Qltb_false; lra). assert (Qltb (cy b) h = true) as -> by now apply Qltb_spec. cbn [negb andb]. assert ((cy b - cy a) * eps < 0) by nra.
        assert (Qltb 0 (cross b a z1) = true) as -> by (apply Qltb_spec; lra). assert (Qltb 0 (cross b a z2) = false) as -> by (apply Qltb_false; lra). reflexivity.
    + intros d Hd Hne. destruct (Same d (Hin p d Hp Hd) Hne) as (-> & ->). apply xorb_nilpotent.
  - intros q v Hq Hv. assert (Hq' : In q ps). { apply in_or_app. apply in_app_or in Hq. destruct Hq; auto. right. now right. } pose proof (valid_one ps q HV Hq') as HVq.
    assert (Ne : forall d, In d (edges q) -> d <> (a, b)). { intros d Hd ->. apply (apart l1 p l2 q (a, b) (a, b) a HV Hq He Hd); apply on_start. }
    assert (Y : inside_eo [q] y0 = inside_eo [q] v).
    { transitivity (inside_eo [q] a).
      - apply eo_const; auto. intros d m Hd Hm Hs'. cbn [map concat] in Hd. rewrite app_nil_r in Hd. refine (apart l1 p l2 q (a, b) d m HV Hq He Hd _ Hm). cbn [fst snd].
        destruct On0 as (t & T0 & T1 & Tx & Ty). destruct Hs' as (s & S0 & S1 & Sx & Sy). exists (t * (1 - s)). assert (0 <= t * (1 - s)) by nra. assert (t * (1 - s) <= 1) by nra. split; auto. split; auto. rewrite Sx, Sy, Tx, Ty. split; ring.
      - apply (same_side l1 p l2 q); auto. rewrite <- edges_fst. apply (in_map fst) in He. exact He. }
    rewrite <- Y. unfold inside_eo, crossings. cbn [map concat]. rewrite app_nil_r.
    split; f_equal; f_equal; apply filter_ext_in; intros d Hd; apply (Same d); eauto.
Qed.
