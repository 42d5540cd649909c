(** Runs on two valid inputs with the same vertex order and the same side tests are the same; shearing a valid input. *)
From Coq Require Import QArith Lqa List Arith Lia Bool Sorted ZArith Permutation.
From Verif Require Import Base Coord Trap Mono Tri Input Trace Protocol MonoProof Lanes Plane MonoGeom Geo Region TrapInv Locate Faces Open Traverse
  Budget Build Whole Sim SimFacts Flats.
Import ListNotations.
Local Open Scope nat_scope.

(** The states the traversal of a valid input goes through. *)
Section Run.
Context {I E : Type}.
Variables (gv : I -> point) (ieqb : I -> I -> bool) (dbg : bool).
Hypothesis Hieq : forall a b, ieqb a b = true <-> a = b.
Variables (math_n : nat -> nat -> nat) (shuf : nat -> nat -> list nat).
Hypothesis Hshuf : forall k n, Permutation (shuf k n) (seq 0 n).
Variable elems : list (element I).
Notation ps := (map (map gv) (groups elems)).
Hypothesis HV : valid ps.

Lemma valid_run cw fuel st : trapezoidize ieqb gv dbg fuel math_n shuf elems = Ok st ->
  exists J : tstate (C := Q) (I := I) -> Prop,
    (forall ti, top_trapezoid (C := Q) fuel (st_qs st) 0 = Ok ti -> J (mkT ti None [] [])) /\
    (forall x t d n, J x -> nth_error (st_ts st) (x_ti x) = Some t -> t_d t = Some d -> nth_error (st_ns st) d = Some n -> fine st x t d n) /\
    (forall x t d log s x', J x -> nth_error (st_ts st) (x_ti x) = Some t -> t_d t = Some d ->
      tri_step (E := E) gv rec_new rec_ext cw fuel st x t d log = (s, Ok x') -> J x').
Proof.
  intros Hst. destruct (trapezoidize_done gv ieqb dbg Hieq math_n shuf Hshuf elems HV) as (st' & (N0 & HN0) & HD').
  assert (st' = st) as ->.
  { destruct (trapezoidize_mono ieqb gv dbg fuel (fuel + N0) (Nat.le_add_r _ _) math_n shuf elems) as [H|H]; [rewrite H in Hst; discriminate|].
    rewrite (HN0 (fuel + N0)) in H by lia. congruence. }
  clear N0 HN0. destruct (shear_exists (concat ps ++ [])) as (M & HM). assert (Hex : extra gv elems []) by (split; [|split]; easy).
  destruct (HD' [] M Hex HM) as [G _ F _ Pp Dg]. pose proof (f_core _ _ _ _ _ F) as HC.
  exists (fun x => exists t0 ws P Ps, inv (concat ps ++ []) (uedges ps) M gv st t0 x ws P Ps). split; [|split].
  - intros ti Hti. destruct (c_top _ _ _ _ _ HC) as (t0 & t & Hq & Ht & Hu).
    assert (t0 = ti) as ->. { destruct (topq_any _ _ _ fuel Hq) as [H|H]; congruence. }
    assert (Hu' : Faces.tu st ti = None) by (unfold Faces.tu; now rewrite Ht). exists ti, [], [], [].
    assert (El : Faces.tl st ti = None).
    { destruct (Faces.tl st ti) as [e|] eqn:E'; auto. destruct (tl_spans _ _ M gv st G HM F _ e E') as (? & ? & ? & _ & _ & K & _). congruence. }
    assert (Er : Faces.tr st ti = None).
    { destruct (Faces.tr st ti) as [e|] eqn:E'; auto. destruct (tr_spans _ _ M gv st G HM F _ e E') as (? & ? & ? & _ & _ & K & _). congruence. }
    split; cbn [x_ti x_ms x_bs x_mst map]; auto.
    + cbn [ok_at snd fst]. eapply colour_top; eauto.
    + intros w _. cbn. reflexivity.
    + apply reach_start; auto. eapply nth_lt; eauto.
  - intros x t d n (t0 & ws & P & Ps & H) Ht Hd Hn. eapply (fine_ok _ _ M gv st G HM F Dg); eauto.
  - intros x t d log s x' (t0 & ws & P & Ps & H) Ht Hd Hs.
    destruct (step_ok (E := E) _ _ M gv st G HM F Dg cw (piece_d gv cw) (piece_hyp gv cw _ _) t0 x ws P Ps t d H Ht Hd) as (y & ws' & Qs & (_ & calls & _ & _ & _ & _ & _ & He) & Hy).
    specialize (He fuel log). cbv beta in He. rewrite Hs in He. cbn [snd] in He. destruct He as [He|(He & _)]; [discriminate|]. injection He as _ ->. eauto.
Qed.
End Run.

(** ** Two valid inputs that the predicates do not tell apart *)

Theorem same_run {I E Out M} (F : fan_format I E Out M) ieqb (gv1 gv2 : I -> point) dbg fuel math_n shuf elems :
  (forall a b, ieqb a b = true <-> a = b) -> (forall k n, Permutation (shuf k n) (seq 0 n)) ->
  valid (map (map gv1) (groups elems)) -> valid (map (map gv2) (groups elems)) ->
  (forall i k, used elems i -> used elems k -> coords_pcmp (gv2 i) (gv2 k) = coords_pcmp (gv1 i) (gv1 k)) ->
  (forall i k l, used elems i -> used elems k -> used elems l -> is_left (gv2 i) (gv2 k) (gv2 l) = is_left (gv1 i) (gv1 k) (gv1 l)) ->
  triangulate F ieqb gv2 dbg fuel math_n shuf elems = triangulate F ieqb gv1 dbg fuel math_n shuf elems.
Proof.
  intros Hieq Hshuf V1 V2 Hp Hl. rewrite !triangulate_obeys.
  set (RI := fun i j : I => used elems i /\ j = i).
  set (RC := fun c1 c2 => exists i, used elems i /\ c1 = gv1 i /\ c2 = gv2 i).
  assert (Rleft : forall a a' b b' c c', RC a a' -> RC b b' -> RC c c' -> is_left a b c = is_left a' b' c').
  { intros a a' b b' c c' (i & Ui & -> & ->) (k & Uk & -> & ->) (l & Ul & -> & ->). symmetry. auto. }
  assert (Rgv : forall i i', RI i i' -> RC (gv1 i) (gv2 i')). { intros i i' (Ui & ->). exists i. auto. }
  assert (G : Forall2 (rcall RI) (fst (api_calls E ieqb gv1 (ff_cw F) dbg fuel math_n shuf elems)) (fst (api_calls E ieqb gv2 (ff_cw F) dbg fuel math_n shuf elems)) /\
    rres rte eq (snd (api_calls E ieqb gv1 (ff_cw F) dbg fuel math_n shuf elems)) (snd (api_calls E ieqb gv2 (ff_cw F) dbg fuel math_n shuf elems))).
  { assert (H : rres (@eq trap_error) (rst RC RI) (trapezoidize ieqb gv1 dbg fuel math_n shuf elems) (trapezoidize ieqb gv2 dbg fuel math_n shuf elems)).
    { apply (trapezoidize_sim RC RI); auto.
      - intros a a' b b' (i & Ui & -> & ->) (k & Uk & -> & ->). unfold coords_lt. now rewrite Hp.
      - intros a a' b b' (i & Ui & -> & ->) (k & Uk & -> & ->). unfold coords_le. now rewrite Hp.
      - intros a a' b b' (i & Ui & -> & ->) (k & Uk & -> & ->). unfold coords_gt. now rewrite Hp.
      - intros i i' k k' (_ & ->) (_ & ->). reflexivity.
      - assert (K : forall l, incl l elems -> Forall2 (re RI) l l); [|apply K, incl_refl].
        induction l as [|[i|] l IH]; intros Hin; constructor; try (apply IH; intros x Hx'; apply Hin; now right).
        + split; auto. apply Hin. now left.
        + exact Logic.I. }
    unfold api_calls. destruct (trapezoidize ieqb gv1 dbg fuel math_n shuf elems) as [s1|e1|c1] eqn:T1, (trapezoidize ieqb gv2 dbg fuel math_n shuf elems) as [s2|e2|c2] eqn:T2; simpl in H; try contradiction.
    2: { simpl. auto. } 2: { simpl. auto. }
    destruct (valid_run (E := E) gv1 ieqb dbg Hieq math_n shuf Hshuf elems V1 (ff_cw F) fuel s1 T1) as (J1 & A1 & B1 & C1).
    destruct (valid_run (E := E) gv2 ieqb dbg Hieq math_n shuf Hshuf elems V2 (ff_cw F) fuel s2 T2) as (J2 & A2 & B2 & C2).
    pose proof (top_sim RC RI s1 s2 H fuel 0) as HT. unfold run_calls, triangulate_inner.
    destruct (top_trapezoid fuel (st_qs s1) 0) as [t1|e1|c1] eqn:Q1, (top_trapezoid fuel (st_qs s2) 0) as [t2|e2|c2] eqn:Q2; simpl in HT; try contradiction; unfold lift, sbind; cbn [fst snd].
    - subst t2. assert (K : Sim.rp RI (E1 := E) (E2 := E) eq (fun s => tri_loop (E := E) gv1 rec_new rec_ext (ff_cw F) fuel s1 fuel (mkT t1 None [] []) s)
        (fun s => tri_loop (E := E) gv2 rec_new rec_ext (ff_cw F) fuel s2 fuel (mkT t1 None [] []) s)).
      { apply (tri_loop_lock RC RI gv1 gv2 Rleft Rgv (ff_cw F) fuel s1 s2 H J1 J2 B1 B2 C1 C2); auto.
        split; [reflexivity|]. split; [exact Logic.I|]. split; constructor. }
      apply K. constructor.
    - split; [constructor|]. simpl. now subst.
    - split; [constructor|]. simpl. now subst. }
  destruct (api_calls E ieqb gv1 _ _ _ _ _ _) as [l1 r1], (api_calls E ieqb gv2 _ _ _ _ _ _) as [l2 r2]. cbn [fst snd] in G.
  destruct G as (G1 & G2). apply rres_eq in G2. subst r2. assert (l2 = l1) as ->; [|reflexivity].
  revert G1. clear. induction 1 as [|c1 c2 l1 l2 Hc Hl IH]; [reflexivity|]. f_equal; auto.
  destruct c1, c2; simpl in Hc; try contradiction; unfold RI in Hc.
  - destruct Hc as ((_ & ->) & (_ & ->) & (_ & ->)). reflexivity.
  - now destruct Hc as (_ & ->).
Qed.

(** ** Shearing *)

Section Affine.
Local Open Scope Q_scope.
Variables (a b k e f : Q).
Hypotheses (Ha : 0 < a) (Hb : 0 < b).

Definition shr (p : point) : point := (a * cx p + k * cy p + e, b * cy p + f).
Definition unshr (p : point) : point := ((cx p - e - k * ((cy p - f) / b)) / a, (cy p - f) / b).

Lemma shr_unshr p : peq (shr (unshr p)) p.
Proof. unfold shr, unshr, peq. cbn. split; field; repeat split; intros H; lra. Qed.

Lemma shr_peq p q : peq (shr p) (shr q) <-> peq p q.
Proof.
  unfold shr, peq. cbn. split; intros (H1 & H2).
  - assert (G : b * (cy p - cy q) == 0) by lra. apply Qmult_integral in G. destruct G as [G|G]; [lra|]. assert (Y : cy p == cy q) by lra.
    rewrite Y in H1. assert (G' : a * (cx p - cx q) == 0) by lra. apply Qmult_integral in G'. destruct G'; lra.
  - rewrite H1, H2. split; reflexivity.
Qed.

Lemma shr_seg p q r : on_segment (shr p) (shr q) (shr r) <-> on_segment p q r.
Proof.
  unfold shr, on_segment. cbn. split; intros (t & H0 & H1 & H2 & H3); exists t; split; auto; split; auto.
  - assert (G : b * (cy r - (cy p + t * (cy q - cy p))) == 0) by lra. apply Qmult_integral in G. destruct G as [G|G]; [lra|].
    assert (Y : cy r == cy p + t * (cy q - cy p)) by lra. split; [|exact Y]. rewrite Y in H2.
    assert (G' : a * (cx r - (cx p + t * (cx q - cx p))) == 0) by lra. apply Qmult_integral in G'. destruct G'; lra.
  - rewrite H2, H3. split; ring.
Qed.

Lemma seg_peq p q r r' : peq r r' -> on_segment p q r -> on_segment p q r'.
Proof. intros (E1 & E2) (t & H0 & H1 & H2 & H3). exists t. rewrite <- E1, <- E2. auto. Qed.

Lemma peq_sym p q : peq p q -> peq q p. Proof. intros (H & H'). split; now symmetry. Qed.
Lemma peq_trans p q r : peq p q -> peq q r -> peq p r. Proof. intros (H & H') (K & K'). split; [now rewrite H|now rewrite H']. Qed.

Lemma combine_map {A B} (g : A -> B) l : forall m, combine (map g l) (map g m) = map (fun x => (g (fst x), g (snd x))) (combine l m).
Proof. induction l as [|y l IH]; intros [|z m]; cbn; auto. f_equal. apply IH. Qed.

Lemma edges_map {A B} (g : A -> B) l : edges (map g l) = map (fun x => (g (fst x), g (snd x))) (edges l).
Proof.
  destruct l as [|x r]; [reflexivity|]. unfold edges. cbn [map]. replace (map g r ++ [g x]) with (map g (r ++ [x])) by (rewrite map_app; reflexivity).
  exact (combine_map g (x :: r) (r ++ [x])).
Qed.

Lemma shr_valid ps : valid ps -> valid (map (map shr) ps).
Proof.
  intros (V1 & V2 & V3). split; [|split].
  - apply Forall_forall. intros p Hp. apply in_map_iff in Hp. destruct Hp as (p' & <- & Hp'). rewrite map_length. rewrite Forall_forall in V1. auto.
  - intros i j p q Hp Hq E. rewrite <- concat_map, nth_error_map in Hp, Hq. destruct (nth_error (concat ps) i) as [p'|] eqn:P'; [|discriminate].
    destruct (nth_error (concat ps) j) as [q'|] eqn:Q'; [|discriminate]. injection Hp as <-. injection Hq as <-. apply (V2 i j p' q'); auto. now apply shr_peq.
  - assert (E : concat (map edges (map (map shr) ps)) = map (fun x => (shr (fst x), shr (snd x))) (concat (map edges ps))).
    { rewrite concat_map, !map_map. f_equal. apply map_ext. intros. apply edges_map. }
    intros i j p q r Hp Hq Hij Sp Sq. rewrite E, nth_error_map in Hp, Hq. destruct (nth_error (concat (map edges ps)) i) as [p'|] eqn:P'; [|discriminate].
    destruct (nth_error (concat (map edges ps)) j) as [q'|] eqn:Q'; [|discriminate]. injection Hp as <-. injection Hq as <-. cbn [fst snd] in *.
    pose proof (peq_sym _ _ (shr_unshr r)) as Er. apply (seg_peq _ _ _ _ Er) in Sp, Sq. apply (proj1 (shr_seg _ _ _)) in Sp, Sq.
    destruct (V3 i j p' q' (unshr r) P' Q' Hij Sp Sq) as (K1 & K2).
    split; [destruct K1 as [K|K]|destruct K2 as [K|K]]; apply (proj2 (shr_peq _ _)) in K; apply (peq_trans _ _ _ Er) in K; auto.
Qed.

Lemma shr_pcmp p q : coords_pcmp (shr p) (shr q) = coords_pcmp p q.
Proof.
  unfold coords_pcmp, shr. cbn. assert (Y : Qcompare (b * cy p + f) (b * cy q + f) = Qcompare (cy p) (cy q)) by (apply aff_cmp; auto).
  fold (cx p) (cy p) (cx q) (cy q). rewrite Y. destruct (Qcompare (cy p) (cy q)) eqn:C; try reflexivity. apply Qeq_alt in C.
  rewrite (Qcompare_comp (a * cx p + k * cy p + e) (a * cx p + (k * cy q + e)) ltac:(rewrite C; ring) (a * cx q + k * cy q + e) (a * cx q + (k * cy q + e)) ltac:(ring)).
  rewrite aff_cmp; auto.
Qed.

Lemma shr_left p q r : is_left (shr p) (shr q) (shr r) = is_left p q r.
Proof.
  unfold is_left, shr. cbn [cx cy fst snd c_eqb c_ltb c_sub c_mul QOps]. fold (cx p) (cy p) (cx q) (cy q) (cx r) (cy r). rewrite !aff_eqb by auto.
  destruct (Qeq_bool (cy r) (cy q)) eqn:E1; [|destruct (Qeq_bool (cy r) (cy p)) eqn:E2]; apply ltb_iff.
  - apply Qeq_bool_iff in E1. rewrite E1. rewrite !Qplus_lt_l. now apply Qmult_lt_l.
  - apply Qeq_bool_iff in E2. rewrite E2. rewrite !Qplus_lt_l. now apply Qmult_lt_l.
  - set (u := (cx p - cx q) * (cy r - cy q)). set (v := (cy p - cy q) * (cx r - cx q)). set (w := (cy p - cy q) * (cy r - cy q)).
    assert (X1 : (a * cx p + k * cy p + e - (a * cx q + k * cy q + e)) * (b * cy r + f - (b * cy q + f)) == a * b * u + b * k * w) by (unfold u, w; ring).
    assert (X2 : (b * cy p + f - (b * cy q + f)) * (a * cx r + k * cy r + e - (a * cx q + k * cy q + e)) == a * b * v + b * k * w) by (unfold v, w; ring).
    rewrite X1, X2, Qplus_lt_l. assert (0 < a * b) by nra. now apply Qmult_lt_l.
Qed.

Theorem shear_run {I E Out M} (F : fan_format I E Out M) ieqb (gv : I -> point) dbg fuel math_n shuf elems :
  (forall i j, ieqb i j = true <-> i = j) -> (forall k n, Permutation (shuf k n) (seq 0 n)) -> valid (map (map gv) (groups elems)) ->
  triangulate F ieqb (fun i => shr (gv i)) dbg fuel math_n shuf elems = triangulate F ieqb gv dbg fuel math_n shuf elems.
Proof.
  intros Hieq Hshuf HV. apply same_run; auto.
  - assert (G : map (map (fun i => shr (gv i))) (groups elems) = map (map shr) (map (map gv) (groups elems))).
    { rewrite map_map. apply map_ext. intros l. now rewrite map_map. }
    rewrite G. now apply shr_valid.
  - intros. apply shr_pcmp.
  - intros. apply shr_left.
Qed.
End Affine.
