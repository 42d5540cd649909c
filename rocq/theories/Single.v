(** The trapezoidation of a single polygon: one component of each colour. *)
From Coq Require Import QArith Lqa List Arith Lia Bool ZArith Permutation.
From Verif Require Import Base Coord Trap Mono Tri Lanes Plane MonoProof MonoGeom Geo Region TrapInv Polygons Build Faces Open Traverse Sweep Tile Outline Graph Count.
Import ListNotations.
Local Open Scope nat_scope.

(** ** The vertex under the top trapezoid *)
Section Top.
Context {I : Type}.
Variables (W : list point) (Es : list edge) (M : Q) (gv : I -> point) (st : state Q I).
Hypothesis HG : geo W Es.
Hypothesis HM : shear M W.
Hypothesis HF : full W Es M gv st.
Hypothesis HD : forall v n, nth_error (st_ns st) v = Some n -> deg n = 2.
Notation td := (Faces.td st).
Notation tu := (Faces.tu st).

Lemma some_above v : v < length (st_ns st) -> exists i, td i = Some v /\ exists l r, Faces.bot st i l r v.
Proof.
  intros Hv. destruct (lt_nth _ _ _ Hv) as (n & Hn).
  destruct (node_cases W Es M gv st HG HM HF HD v n Hn) as [(L & R & s0 & s1 & ul & uc & ur & dn & N)|[(L & R & s & s' & ul & ur & dl & dr & N)|(L & R & s0 & s1 & up & dl & dc & dr & N)]].
  - exists ul. destruct N as [_ B _ _ _ _ _ _ _]. pose proof B as (_ & _ & _ & ?). eauto.
  - exists ul. destruct N as [_ B _ _ _ _ _ _ _]. pose proof B as (_ & _ & _ & ?). eauto.
  - exists up. destruct N as [_ B _ _ _ _ _ _ _]. pose proof B as (_ & _ & _ & ?). eauto.
Qed.

Lemma climb : forall k v, v < length (st_ns st) -> Faces.above M st (Faces.hv M st v) <= k -> exists i v', tu i = None /\ td i = Some v'.
Proof.
  induction k as [|k IH]; intros v Hv Hk; destruct (some_above v Hv) as (i & Hd & l & r & B); destruct (lt_nth _ _ _ Hv) as (n & Hn); pose proof (bot_rank W Es M gv st HF i l r v n Hn B) as Hr.
  - lia.
  - destruct (tu i) as [u|] eqn:Hu; [|eauto]. apply (IH u).
    + destruct (tu_n W Es M gv st HF i u Hu) as (n' & Hn' & _). eapply nth_lt; eauto.
    + unfold rank in Hr. rewrite Hu in Hr. lia.
Qed.

Lemma summit : 0 < length (st_ns st) -> (forall i j, i < length (st_ts st) -> j < length (st_ts st) -> tu i = None -> tu j = None -> i = j) ->
  exists v0 a0 a1 t0 dl dc dr, Faces.nodeA st v0 None None a0 a1 t0 dl dc dr /\ tu t0 = None /\ forall i, i < length (st_ts st) -> tu i = None -> i = t0.
Proof.
  intros Hn Hu. destruct (climb (Faces.above M st (Faces.hv M st 0)) 0 Hn (le_n _)) as (i & v & Ti & Di).
  assert (El : Faces.tl st i = None). { destruct (Faces.tl st i) as [e|] eqn:E; auto. destruct (tl_spans W Es M gv st HG HM HF i e E) as (? & ? & ? & ? & ? & ? & _). congruence. }
  assert (Er : Faces.tr st i = None). { destruct (Faces.tr st i) as [e|] eqn:E; auto. destruct (tr_spans W Es M gv st HG HM HF i e E) as (? & ? & ? & ? & ? & ? & _). congruence. }
  destruct (above_cases W Es M gv st HG HM HF HD i v Di) as
  [(L & R & s0 & s1 & ul & uc & ur & dn & N & Hi)|[(L & R & s & s' & ul & ur & dl & dr & N & Hi)|(L & R & s0 & s1 & up & dl & dc & dr & N & Hi)]].
  - exfalso. destruct N as [_ (_ & _ & B1 & _) (_ & B2 & _ & _) (_ & B3 & _ & _) _ _ _ _ _]. destruct Hi as [->|[->| ->]]; congruence.
  - exfalso. destruct N as [_ (_ & _ & B1 & _) (_ & B2 & _ & _) _ _ _ _ _ _]. destruct Hi as [->| ->]; congruence.
  - subst up. pose proof N as [_ (Hl & B1 & B2 & _) _ _ _ _ _ _ _]. rewrite El in B1. rewrite Er in B2. subst L R.
    exists v, s0, s1, i, dl, dc, dr. split; [exact N|]. split; [exact Ti|]. intros j Hj Tj. now apply Hu.
Qed.
End Top.

Section Single.
Context {I : Type}.
Variables (p : list point) (ex : list point) (M : Q) (gv : I -> point) (st : state Q I).
Hypothesis HV : valid [p].
Notation W := (concat [p] ++ ex).
Notation Es := (uedges [p]).
Hypothesis HG : geo W Es.
Hypothesis HM : shear M W.
Hypothesis HF : full W Es M gv st.
Hypothesis HE : Permutation (medges st) Es.
Hypothesis HP : Permutation (points st) (concat [p]).
Hypothesis HD : forall v n, nth_error (st_ns st) v = Some n -> deg n = 2.
Hypothesis HT : forall i j, i < length (st_ts st) -> j < length (st_ts st) -> Faces.tu st i = None -> Faces.tu st j = None -> i = j.

Notation ts := (st_ts st).
Notation ss := (st_ss st).
Notation ns := (st_ns st).
Notation colour := (Faces.colour M st).
Notation scol := (Faces.scol M st).
Notation sd := (Sweep.sd st).
Let HC : core W Es M gv st := f_core _ _ _ _ _ HF.

Lemma p_3 : 3 <= length p.
Proof. destruct HV as (H & _). now apply Forall_inv in H. Qed.

Lemma ns_len : length ns = length p.
Proof. rewrite <- (map_length n_c). change (length (points st) = length p). rewrite (Permutation_length HP). cbn. now rewrite app_nil_r. Qed.

Section Walk.
Variables (v0 a0 a1 t0 dl0 dc0 dr0 : nat).
Hypothesis H0 : Faces.nodeA st v0 None None a0 a1 t0 dl0 dc0 dr0.
Hypothesis Ht0 : Faces.tu st t0 = None.
Hypothesis Ht : forall i, i < length ts -> Faces.tu st i = None -> i = t0.
Variables (c : bool) (f : nat -> nat).
Hypothesis Hf : forall v i j, v < length ns -> In (i, j) (links st v0 v) -> colour i = c -> f i = f j.

Definition rel (d d' : edge) : Prop := forall e g b i e' g' b' i', nth_error ss e = Some g -> sedge g = oedge d -> nth_error ss e' = Some g' -> sedge g' = oedge d' ->
  sd b i = Some e -> sd b' i' = Some e' -> colour i = c -> colour i' = c -> f i = f i'.

Lemma seg_inj e e' g g' : nth_error ss e = Some g -> nth_error ss e' = Some g' -> sedge g = sedge g' -> e = e'.
Proof. intros H H' E. apply (nodup_nth (medges st) e e' (sedge g)); [apply (c_snd _ _ _ _ _ HC)|exact (map_nth_error sedge _ _ H)|]. rewrite E. exact (map_nth_error sedge _ _ H'). Qed.

Lemma e_in d : In d (edges p) -> In d (concat (map edges [p])).
Proof. intros H. cbn. now rewrite app_nil_r. Qed.

Lemma rel_refl d : rel d d.
Proof.
  intros e g b i e' g' b' i' Hg Hs Hg' Hs' Hi Hi' Ci Ci'. assert (e = e') by (apply (seg_inj e e' g g'); congruence). subst e'.
  apply (same W Es M gv st HG HM HF HD v0 a0 a1 t0 dl0 dc0 dr0 H0 c f Hf e b b'); auto.
Qed.

Lemma rep d : In d (edges p) -> exists e g b i, nth_error ss e = Some g /\ sedge g = oedge d /\ sd b i = Some e /\ colour i = c.
Proof.
  intros Hd. destruct (seg_of [p] st HE d (e_in d Hd)) as (e & g & Hg & Hs). destruct (low_ex W Es M gv st HG HM HF (xorb c (scol e)) e) as (i & Hi & _); [eapply nth_lt; eauto|].
  exists e, g, (xorb c (scol e)), i. split; auto. split; auto. split; auto. rewrite (sd_col W Es M gv st HG HM HF HD _ _ _ Hi). now destruct c, (scol e).
Qed.

Lemma rel_trans d1 d2 d3 : In d2 (edges p) -> rel d1 d2 -> rel d2 d3 -> rel d1 d3.
Proof.
  intros Hd R1 R2 e g b i e' g' b' i' Hg Hs Hg' Hs' Hi Hi' Ci Ci'. destruct (rep d2 Hd) as (e2 & g2 & b2 & i2 & Hg2 & Hs2 & Hi2 & Ci2).
  rewrite (R1 e g b i e2 g2 b2 i2); auto. apply (R2 e2 g2 b2 i2 e' g' b' i'); auto.
Qed.

Lemma rel_step d1 d2 : In d1 (edges p) -> In d2 (edges p) -> snd d1 = fst d2 -> snd d1 <> Faces.pnt st v0 -> rel d1 d2.
Proof.
  intros H1 H2 Ev Hne e g b i e' g' b' i' Hg Hs Hg' Hs' Hi Hi' Ci Ci'.
  destruct (at_end [p] ex M gv st HF HE d1 (e_in d1 H1)) as (e1 & g1 & k1 & n1 & Hg1 & Hs1 & Hn1 & Hc1 & Hi1 & _).
  destruct (at_start [p] ex M gv st HF HE d2 (e_in d2 H2)) as (e2 & g2 & k2 & n2 & Hg2 & Hs2 & Hn2 & Hc2 & Hi2 & _).
  assert (Hk : k1 = k2). { apply (nodup_nth (points st) k1 k2 (n_c n1)); [apply (c_nd _ _ _ _ _ HC)|now apply points_nth|]. rewrite Hc1, Ev, <- Hc2. now apply points_nth. }
  subst k2. assert (n2 = n1) by congruence. subst n2.
  assert (e = e1) by (apply (seg_inj e e1 g g1); congruence). assert (e' = e2) by (apply (seg_inj e' e2 g' g2); congruence). subst e1 e2.
  apply (turn W Es M gv st HG HM HF HD v0 a0 a1 t0 dl0 dc0 dr0 H0 c f Hf k1 n1 e e' b b'); auto.
  - intros ->. apply Hne. rewrite (pnt_n st v0 n1 Hn1). now symmetry.
  - apply in_or_app. destruct (up d1); auto.
  - apply in_or_app. destruct (up d2); auto.
Qed.

Lemma mod_idx n k i : k < n -> i < n -> exists j, j < n /\ (k + j) mod n = i.
Proof.
  intros Hk Hi. destruct (le_lt_dec k i).
  - exists (i - k). split; [lia|]. rewrite Nat.mod_small; lia.
  - exists (i + n - k). split; [lia|]. replace (k + (i + n - k)) with (i + 1 * n) by lia. rewrite Nat.mod_add by lia. apply Nat.mod_small. lia.
Qed.

Lemma rel_all k0 : nth_error p k0 = Some (Faces.pnt st v0) -> forall j d0 d, j < length p -> nth_error (edges p) k0 = Some d0 -> nth_error (edges p) ((k0 + j) mod length p) = Some d -> rel d0 d.
Proof.
  intros Hk. assert (Hkl : k0 < length p) by (eapply nth_lt; eauto). pose proof p_3. induction j as [|j IH]; intros d0 d Hj Hd0 Hd.
  - rewrite Nat.add_0_r, Nat.mod_small in Hd by lia. replace d with d0 by congruence. apply rel_refl.
  - destruct (lt_nth _ (edges p) ((k0 + j) mod length p)) as (d1 & Hd1); [rewrite edges_length; apply Nat.mod_upper_bound; lia|].
    apply (rel_trans d0 d1 d); [eapply nth_error_In; eauto|apply IH; auto; lia|].
    assert (Em : ((k0 + j) mod length p + 1) mod length p = (k0 + S j) mod length p). { rewrite Nat.add_mod_idemp_l by lia. f_equal. lia. }
    destruct d as [a b], d1 as [a1' b1]. assert (E1 := Hd1). apply edges_nth in E1. destruct E1 as (_ & E1). rewrite Em in E1. assert (E2 := Hd). apply edges_nth in E2. destruct E2 as (E2 & _).
    apply rel_step; [eapply nth_error_In; eauto|eapply nth_error_In; eauto|cbn; congruence|].
    cbn. intros ->. assert (Nd : NoDup p). { pose proof (c_nd _ _ _ _ _ HC) as K. apply (Permutation_NoDup HP) in K. cbn in K. now rewrite app_nil_r in K. }
    pose proof (nodup_nth p _ _ _ Nd E1 Hk) as Hm.
    destruct (le_lt_dec (length p) (k0 + S j)).
    + assert (Hm' : (k0 + S j) mod length p = k0 + S j - length p). { replace (k0 + S j) with (k0 + S j - length p + 1 * length p) at 1 by lia. rewrite Nat.mod_add by lia. apply Nat.mod_small. lia. } lia.
    + rewrite Nat.mod_small in Hm by lia. lia.
Qed.

Lemma label_const : exists B, forall i, i < length ts -> colour i = c -> f i = B.
Proof.
  assert (Hin : In (Faces.pnt st v0) p). { assert (Hv := H0). destruct Hv as [(n & Hn & _) _ _ _ _ _ _ _ _]. assert (K : In (Faces.pnt st v0) (points st)).
    { rewrite (pnt_n st v0 n Hn). eapply nth_error_In. apply points_nth. exact Hn. } apply (Permutation_in _ HP) in K. cbn in K. now rewrite app_nil_r in K. }
  apply In_nth_error in Hin. destruct Hin as (k0 & Hk0). pose proof p_3 as H3. assert (Hkl : k0 < length p) by (eapply nth_lt; eauto).
  destruct (lt_nth _ (edges p) k0) as (d0 & Hd0); [now rewrite edges_length|]. destruct (rep d0) as (e0 & g0 & b0 & i0 & Hg0 & Hs0 & Hi0 & Ci0); [eapply nth_error_In; eauto|].
  exists (f i0). intros i Hi Ci. apply (lonely W Es M gv st HG HM HF HD v0 a0 a1 t0 dl0 dc0 dr0 H0 c f Hf i); auto. clear i Hi Ci.
  intros i b e Hi Ci. assert (He : e < length ss). { destruct (sd_spans W Es M gv st HG HM HF b i e Hi) as (? & ? & ? & K & _). eapply nth_lt; eauto. }
  destruct (lt_nth _ _ _ He) as (g & Hg). assert (Hd : In (sedge g) Es). { apply (Permutation_in _ HE). eapply nth_error_In. exact (map_nth_error sedge _ _ Hg). }
  unfold uedges in Hd. apply in_map_iff in Hd. destruct Hd as (d & Hs & Hd). cbn in Hd. rewrite app_nil_r in Hd. apply In_nth_error in Hd. destruct Hd as (m & Hm).
  assert (Hml : m < length p) by (rewrite <- edges_length; eapply nth_lt; eauto). destruct (mod_idx (length p) k0 m Hkl Hml) as (j & Hj & Ej).
  assert (R : rel d0 d) by (apply (rel_all k0 Hk0 j); auto; now rewrite Ej). symmetry. now apply (R e0 g0 b0 i0 e g b i).
Qed.
End Walk.

Lemma single_delta : sumz (delta M st) (seq 0 (length ns)) = (-1)%Z.
Proof.
  destruct (summit W Es M gv st HG HM HF HD) as (v0 & a0 & a1 & t0 & dl & dc & dr & H0 & Ht0 & Ht); auto. { rewrite ns_len. pose proof p_3. lia. }
  apply (delta_one W Es M gv st HG HM HF HD v0 a0 a1 t0 dl dc dr H0 Ht Ht0). intros c f Hf i j Hi Hj.
  destruct (label_const v0 a0 a1 t0 dl dc dr H0 Ht c f) as (B & HB).
  - intros v x y Hv Hxy Hc. apply (Hf x y). unfold linksc. apply filter_In. split; [|cbn [fst]; rewrite Hc; now destruct c]. apply in_concat. exists (links st v0 v). split; auto. apply in_map, in_seq. lia.
  - unfold nodesc in Hi, Hj. apply filter_In in Hi, Hj. destruct Hi as (Hi & Ci), Hj as (Hj & Cj). apply in_seq in Hi, Hj. apply eqb_prop in Ci, Cj. rewrite (HB i), (HB j); auto; lia.
Qed.

Lemma single_count : sumz (kc M st) (seq 0 (length ts)) = (Z.of_nat (length p) - 2)%Z.
Proof. rewrite (kc_sum W Es M gv st HG HM HF HD), single_delta, ns_len. lia. Qed.
End Single.
