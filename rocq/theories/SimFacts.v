(** Consequences of the simulation: renamed indices, other coordinate types, moved and scaled inputs. *)
From Coq Require Import List Arith Bool Lia QArith Lqa.
From Verif Require Import Base Coord Trap Mono Tri Input Trace Protocol Builders Basic Plane Sim.
Import ListNotations.
Local Open Scope nat_scope.

(** A format that renames every index before passing it on; nothing of it is in /repo. *)
Definition via {I J E Out M} (f : I -> J) (F : fan_format J E Out M) : fan_format I E Out M := {|
  ff_B := ff_B F;
  ff_cw := ff_cw F;
  ff_dropped := ff_dropped F;
  ff_init a b c := ff_init F (f a) (f b) (f c);
  ff_new x a b c := ff_new F x (f a) (f b) (f c);
  ff_ext x v := ff_ext F x (f v);
  ff_build := ff_build F;
  ff_fail := ff_fail F
|}.

(** Indices of an iteration. *)
Definition used {I} (elems : list (element I)) (i : I) : Prop := In (Continue i) elems.

Lemma rte_eq {E} (e1 e2 : tri_error E) : rte e1 e2 -> e1 = e2.
Proof. destruct e1, e2; simpl; intros H; try contradiction; subst; reflexivity. Qed.

Lemma rres_eq {E} (r1 r2 : res (tri_error E) unit) : rres rte eq r1 r2 -> r1 = r2.
Proof. destruct r1, r2; simpl; intros H; try contradiction; try congruence. f_equal. now apply rte_eq. Qed.

Section Via.
Context {I J E Out M : Type} (f : I -> J) (F : fan_format J E Out M).
Let R (P : I -> Prop) (i : I) (j : J) : Prop := P i /\ j = f i.

Lemma drive_via P l1 l2 : Forall2 (rcall (R P)) l1 l2 -> forall b r, drive F b l2 r = drive (via f F) b l1 r.
Proof.
  induction 1 as [|c1 c2 l1 l2 Hc Hl IH]; intros b r; [reflexivity|].
  destruct c1 as [a1 b1 d1|v1], c2 as [a2 b2 d2|v2]; simpl in Hc; try contradiction.
  - destruct Hc as ((_ & ->) & (_ & ->) & (_ & ->)). cbn [drive via ff_new ff_fail]. destruct (ff_new F _ _ _ _) as [b' [e|]]; auto.
  - destruct Hc as (_ & ->). cbn [drive via ff_ext ff_fail]. destruct (ff_ext F _ _) as [b' [e|]]; auto.
Qed.

Lemma obey_via P l1 l2 r : Forall2 (rcall (R P)) l1 l2 -> obey F (l2, r) = obey (via f F) (l1, r).
Proof.
  intros H. unfold obey. cbn [fst snd]. destruct H as [|c1 c2 l1 l2 Hc Hl]; [reflexivity|].
  destruct c1 as [a1 b1 d1|v1], c2 as [a2 b2 d2|v2]; simpl in Hc; try contradiction; [|reflexivity].
  destruct Hc as ((_ & ->) & (_ & ->) & (_ & ->)). cbn [via ff_init]. destruct (ff_init F _ _ _) as [b|[e m]]; [|reflexivity].
  eapply drive_via; eauto.
Qed.
End Via.

(** The form of the simulation used below: [f] renames the indices. *)
Lemma sim_via {C1 C2 I J : Type} {O1 : CoordOps C1} {O2 : CoordOps C2} {E Out M} (f : I -> J) (F : fan_format J E Out M)
  ieqb1 ieqb2 (gv1 : I -> coords C1) (gv2 : J -> coords C2) dbg fuel mn shuf elems elems' :
  (forall i k, used elems i -> used elems k -> ieqb2 (f i) (f k) = ieqb1 i k) ->
  (forall i k, used elems i -> used elems k -> coords_pcmp (gv2 (f i)) (gv2 (f k)) = coords_pcmp (gv1 i) (gv1 k)) ->
  (forall i k l, used elems i -> used elems k -> used elems l ->
    is_left (gv2 (f i)) (gv2 (f k)) (gv2 (f l)) = is_left (gv1 i) (gv1 k) (gv1 l)) ->
  (forall i k, used elems i -> used elems k -> c_eqb (cx (gv2 (f i))) (cx (gv2 (f k))) = c_eqb (cx (gv1 i)) (cx (gv1 k))) ->
  (forall i k, used elems i -> used elems k -> c_eqb (cy (gv2 (f i))) (cy (gv2 (f k))) = c_eqb (cy (gv1 i)) (cy (gv1 k))) ->
  elems' = map (fun e => match e with Continue i => Continue (f i) | NewPolygon => NewPolygon end) elems ->
  triangulate F ieqb2 gv2 dbg fuel mn shuf elems' = triangulate (via f F) ieqb1 gv1 dbg fuel mn shuf elems.
Proof.
  intros Hi Hp Hl Hx Hy ->. rewrite !triangulate_obeys.
  set (RI := fun i j => used elems i /\ j = f i).
  set (RC := fun c1 c2 => exists i, used elems i /\ c1 = gv1 i /\ c2 = gv2 (f i)).
  assert (G : Forall2 (rcall RI) (fst (api_calls E ieqb1 gv1 (ff_cw F) dbg fuel mn shuf elems))
      (fst (api_calls E ieqb2 gv2 (ff_cw F) dbg fuel mn shuf
        (map (fun e => match e with Continue i => Continue (f i) | NewPolygon => NewPolygon end) elems))) /\
    rres rte eq (snd (api_calls E ieqb1 gv1 (ff_cw F) dbg fuel mn shuf elems))
      (snd (api_calls E ieqb2 gv2 (ff_cw F) dbg fuel mn shuf
        (map (fun e => match e with Continue i => Continue (f i) | NewPolygon => NewPolygon end) elems)))).
  { apply (api_calls_sim RC RI).
    - intros a a' b b' (i & Ui & -> & ->) (k & Uk & -> & ->). unfold coords_lt. now rewrite Hp.
    - intros a a' b b' (i & Ui & -> & ->) (k & Uk & -> & ->). unfold coords_le. now rewrite Hp.
    - intros a a' b b' (i & Ui & -> & ->) (k & Uk & -> & ->). unfold coords_gt. now rewrite Hp.
    - intros a a' b b' c c' (i & Ui & -> & ->) (k & Uk & -> & ->) (l & Ul & -> & ->). symmetry. auto.
    - intros a a' b b' (i & Ui & -> & ->) (k & Uk & -> & ->). symmetry. auto.
    - intros a a' b b' (i & Ui & -> & ->) (k & Uk & -> & ->). symmetry. auto.
    - intros i i' k k' (Ui & ->) (Uk & ->). symmetry. auto.
    - intros i i' (Ui & ->). exists i. auto.
    - assert (H : forall l, incl l elems -> Forall2 (re RI) l
        (map (fun e => match e with Continue i => Continue (f i) | NewPolygon => NewPolygon end) l)); [|apply H, incl_refl].
      induction l as [|[i|] l IH]; intros Hin; cbn [map]; constructor; try (apply IH; intros x Hx'; apply Hin; now right).
      + split; auto. apply Hin. now left.
      + exact Logic.I. }
  cbn [ff_cw via].
  destruct (api_calls E ieqb1 gv1 _ _ _ _ _ _) as [l1 r1], (api_calls E ieqb2 gv2 _ _ _ _ _ _) as [l2 r2]. cbn [fst snd] in G.
  destruct G as (G1 & G2). apply rres_eq in G2. subst r2. now apply (obey_via f F (used elems)).
Qed.

(** ** [IndexWith] *)

Lemma iw_elems_ok {I J} (conv : I -> option J) (f : I -> J) elems :
  (forall i, used elems i -> conv i = Some (f i)) ->
  iw_elems conv elems = Ok (map (fun e => match e with Continue i => Continue (f i) | NewPolygon => NewPolygon end) elems).
Proof.
  induction elems as [|[i|] l IH]; intros H; cbn [iw_elems map]; [reflexivity| |].
  - rewrite (H i (or_introl eq_refl)), IH; [reflexivity|]. intros k Hk. apply H. now right.
  - rewrite IH; [reflexivity|]. intros k Hk. apply H. now right.
Qed.

Lemma index_with_ok {C I J : Type} {OC : CoordOps C} {E Out M} (F : fan_format J E Out M) ieqbI ieqbJ
  (conv : I -> option J) (unconv : J -> option I) (f : I -> J) (get : I -> option (coords C)) (gvI : I -> coords C)
  (gvJ : J -> coords C) dbg fuel mn shuf elems :
  (forall i k, ieqbI i k = true <-> i = k) -> (forall i k, ieqbJ i k = true <-> i = k) ->
  (forall i, used elems i -> conv i = Some (f i) /\ unconv (f i) = Some i) ->
  (forall i, used elems i -> get i = Some (gvI i)) ->
  (forall j c, iw_get unconv get j = Some c -> gvJ j = c) ->
  exists elems', iw_elems conv elems = Ok elems' /\
    triangulate F ieqbJ gvJ dbg fuel mn shuf elems' = triangulate (via f F) ieqbI gvI dbg fuel mn shuf elems.
Proof.
  intros HI HJ Hc Hg HgJ. eexists. split. { apply iw_elems_ok. intros i Hi. apply (Hc i Hi). }
  assert (HG : forall i, used elems i -> gvJ (f i) = gvI i).
  { intros i Hi. apply HgJ. unfold iw_get. destruct (Hc i Hi) as (_ & ->). auto. }
  apply sim_via; auto.
  - intros i k Hi Hk. destruct (ieqbI i k) eqn:E1.
    + apply HI in E1. subst. now apply HJ.
    + destruct (ieqbJ (f i) (f k)) eqn:E2; auto. apply HJ in E2. destruct (Hc i Hi) as (_ & U1), (Hc k Hk) as (_ & U2).
      assert (i = k) by congruence. apply HI in H. congruence.
  - intros. now rewrite !HG.
  - intros. now rewrite !HG.
  - intros. now rewrite !HG.
  - intros. now rewrite !HG.
Qed.

Lemma index_with_panics {I J} (conv : I -> option J) elems :
  iw_elems conv elems = Crash Panic <-> exists i, used elems i /\ conv i = None.
Proof.
  assert (G : (exists l, iw_elems conv elems = Ok l) \/ iw_elems conv elems = Crash Panic).
  { induction elems as [|[i|] l [[l' H]|H]]; cbn [iw_elems]; try rewrite H; try destruct (conv i); cbn [bind]; eauto. }
  split.
  - clear G. induction elems as [|[i|] l IH]; cbn [iw_elems]; [discriminate| |].
    + destruct (conv i) as [j|] eqn:Ej.
      * intros H. destruct IH as (k & Hk & Hn). { destruct (iw_elems conv l); try discriminate. cbn in H. congruence. }
        exists k. split; auto. now right.
      * intros _. exists i. split; auto. now left.
    + intros H. destruct IH as (k & Hk & Hn). { destruct (iw_elems conv l); try discriminate. cbn in H. congruence. }
      exists k. split; auto. now right.
  - intros (k & Hk & Hn). destruct G as [[l H]|H]; auto. exfalso. revert l H. unfold used in Hk.
    induction elems as [|e l IH]; [destruct Hk|]. destruct Hk as [->|Hk].
    + cbn [iw_elems]. rewrite Hn. discriminate.
    + specialize (IH Hk). cbn [iw_elems]. destruct (iw_elems conv l) as [l'|[]|c]; [exfalso; eapply IH; reflexivity|].
      destruct e as [i|]; [destruct (conv i)|]; discriminate.
Qed.

(** ** Reuse *)

Section Reuse.
Context {C : Type} {OC : CoordOps C} {I : Type} (gv : I -> coords C) (dbg : bool) (fuel : nat) (st : state C I).

Lemma f2_diag {A} (R : A -> A -> Prop) l : (forall a, R a a) -> Forall2 R l l.
Proof. intros H. induction l; auto. Qed.

Lemma run_calls_same {E1 E2} cw :
  fst (run_calls E1 gv cw fuel st) = fst (run_calls E2 gv cw fuel st) /\
  rres rte eq (snd (run_calls E1 gv cw fuel st)) (snd (run_calls E2 gv cw fuel st)).
Proof.
  pose proof (run_calls_sim (@eq (coords C)) (@eq I) gv gv) as X.
  destruct (X ltac:(congruence) ltac:(congruence) ltac:(congruence) ltac:(congruence) E1 E2 cw fuel st st) as (H1 & H2).
  - split; [|split; [|split; [reflexivity|]]]; apply f2_diag.
    + intros n. repeat split.
    + intros s. repeat split.
    + intros [l r [a b|a]|t]; repeat split.
  - split; auto. apply eq_f2. revert H1. generalize (fst (run_calls E1 gv cw fuel st)), (fst (run_calls E2 gv cw fuel st)).
    induction 1 as [|c1 c2 l1 l2 Hc Hl IH]; constructor; auto. destruct c1, c2; simpl in Hc; try contradiction.
    + destruct Hc as (-> & -> & ->). reflexivity.
    + now subst.
Qed.

Lemma run_logged {E Out M} (F : fan_format I E Out M) r m evs :
  trap_triangulate (logged F) gv dbg fuel st = Returned r (m, evs) -> (forall e, r <> inr (TEFanBuilder e)) ->
  calls_in evs = fst (run_calls E gv (ff_cw F) fuel st).
Proof.
  intros H N. rewrite trap_triangulate_obeys in H. cbn [ff_cw logged] in H.
  pose proof (run_calls_starts (E := E) gv (ff_cw F) fuel st) as Hs.
  pose proof (nf_inner (E := E) gv (ff_cw F) fuel st) as Hn.
  destruct (run_calls E _ _ _ _) as [l rr]. apply logged_obey in H; auto. destruct H as (_ & _ & [H|H]); auto.
  destruct r as [o|[]]; simpl in H; try contradiction. exfalso. eapply N; eauto.
Qed.

Lemma reuse {E1 Out1 M1 E2 Out2 M2} (F1 : fan_format I E1 Out1 M1) (F2 : fan_format I E2 Out2 M2) r1 m1 evs1 r2 m2 evs2 :
  ff_cw F1 = ff_cw F2 ->
  trap_triangulate (logged F1) gv dbg fuel st = Returned r1 (m1, evs1) ->
  trap_triangulate (logged F2) gv dbg fuel st = Returned r2 (m2, evs2) ->
  (forall e, r1 <> inr (TEFanBuilder e)) -> (forall e, r2 <> inr (TEFanBuilder e)) ->
  calls_in evs1 = calls_in evs2 /\ ((exists o, r1 = inl o) <-> (exists o, r2 = inl o)).
Proof.
  intros Hc H1 H2 N1 N2. split.
  - rewrite (run_logged F1 _ _ _ H1 N1), (run_logged F2 _ _ _ H2 N2), Hc. apply run_calls_same.
  - rewrite trap_triangulate_obeys in H1. rewrite trap_triangulate_obeys in H2. cbn [ff_cw logged] in *.
    pose proof (run_calls_starts (E := E1) gv (ff_cw F1) fuel st) as Hs1.
    pose proof (nf_inner (E := E1) gv (ff_cw F1) fuel st) as Hn1.
    pose proof (run_calls_starts (E := E2) gv (ff_cw F2) fuel st) as Hs2.
    pose proof (nf_inner (E := E2) gv (ff_cw F2) fuel st) as Hn2.
    destruct (run_calls_same (E1 := E1) (E2 := E2) (ff_cw F1)) as (G1 & G2). rewrite Hc in G1, G2.
    rewrite <- Hc in Hs2, Hn2, H2. rewrite <- Hc in G1, G2.
    destruct (run_calls E1 _ _ _ _) as [l1 rr1], (run_calls E2 _ _ _ _) as [l2 rr2]. cbn [fst snd] in *. subst l2.
    assert (G : forall E Out M (F : fan_format I E Out M) l rr r m evs, starts l -> nf rr -> (forall e, r <> inr (TEFanBuilder e)) ->
      obey (logged F) (l, rr) = Returned r (m, evs) -> ((exists o, r = inl o) <-> l <> [] /\ rr = Ok tt)).
    { clear. intros E Out M F l rr r m evs Hs Hn N H. unfold obey in H. cbn [fst snd] in H.
      destruct l as [|[i j k|v] l]; [| |destruct Hs].
      - destruct rr as [[]|e|c]; try discriminate; injection H as <- _ _; (split; [intros [o X]; discriminate|intros [X _]; contradiction]).
      - cbn [ff_init logged] in H. destruct (ff_init F i j k) as [b|[e m']].
        + apply logged_drive in H. destruct H as (suf & -> & [(oks & Ho & Hl & Hd)|(oks & x & e & rest & Ho & -> & Hf & -> & Hl)]).
          * destruct Hd as [(o & -> & -> & ->)|[(e & -> & -> & ->)|(e & -> & -> & ->)]].
            -- split; [split; [discriminate|reflexivity]|eauto].
            -- exfalso. eapply N; eauto.
            -- split; [intros [o X]; discriminate|intros [_ X]; discriminate].
          * exfalso. eapply N; eauto.
        + injection H as <- _ _. exfalso. eapply N; eauto. }
    rewrite (G _ _ _ _ _ _ _ _ _ Hs1 Hn1 N1 H1), (G _ _ _ _ _ _ _ _ _ Hs2 Hn2 N2 H2).
    destruct rr1 as [[]|e1|c1], rr2 as [[]|e2|c2]; simpl in G2; try contradiction; split; intros [A B]; split; auto; discriminate.
Qed.
End Reuse.

(** ** One polygon *)

Lemma single_polygon {C : Type} {OC : CoordOps C} {V E Out M} (p : list V) (vert : V -> coords C) (dflt : coords C)
  (F : fan_format (nat * nat) E Out M) dbg fuel mn shuf k : length p + 2 <= k ->
  exists elems, vv_elems k [p] = Ok elems /\
  triangulate F (fun a b => Nat.eqb (fst a) (fst b) && Nat.eqb (snd a) (snd b))
    (fun ij => match vv_get [p] ij with Some v => vert v | None => dflt end) dbg fuel mn shuf elems =
  triangulate (via (pair 0) F) Nat.eqb (fun j => match nth_error p j with Some v => vert v | None => dflt end)
    dbg fuel mn shuf (sp_elems p).
Proof.
  intros Hk. unfold vv_elems. cbn [map].
  assert (G : forall n i k, n + 2 <= k -> vv_collect k [i + n] (0, i) =
    Ok (map (fun j => Continue (0, j)) (seq i n) ++ [NewPolygon])).
  { induction n as [|n IH]; intros i k' Hk'.
    - destruct k' as [|[|k']]; try lia. cbn [vv_collect vv_next nth_error]. rewrite Nat.add_0_r, Nat.ltb_irrefl. reflexivity.
    - destruct k' as [|k']; try lia. cbn [vv_collect vv_next nth_error]. destruct (Nat.ltb_spec i (i + S n)); [|lia].
      replace (i + S n) with (i + 1 + n) by lia. rewrite IH by lia. cbn [bind seq map app]. now rewrite Nat.add_1_r. }
  specialize (G (length p) 0 k Hk). cbn [Nat.add] in G. eexists. split; [exact G|].
  rewrite tri_end_marker. apply sim_via; try reflexivity; try (intros; unfold vv_get; cbn; reflexivity).
  unfold sp_elems. rewrite map_map. apply map_ext. reflexivity.
Qed.

(** ** Moved and scaled inputs *)

Section Affine.
Variables (sx sy tx ty : Q).
Hypothesis (Hsx : (0 < sx)%Q) (Hsy : (0 < sy)%Q).
Local Open Scope Q_scope.

Definition aff (c : coords Q) : coords Q := (sx * cx c + tx, sy * cy c + ty).

Lemma aff_cmp s t a b : 0 < s -> Qcompare (s * a + t) (s * b + t) = Qcompare a b.
Proof.
  intros Hs. destruct (Qcompare_spec a b) as [H|H|H].
  - apply Qeq_alt. rewrite H. reflexivity.
  - apply Qlt_alt. apply Qplus_lt_l. now apply Qmult_lt_l.
  - apply Qgt_alt. apply Qplus_lt_l. now apply Qmult_lt_l.
Qed.
Lemma aff_eqb s t a b : 0 < s -> Qeq_bool (s * a + t) (s * b + t) = Qeq_bool a b.
Proof.
  intros Hs. apply eq_true_iff_eq. rewrite !Qeq_bool_iff. split; intros H.
  - assert (G : s * (a - b) == 0) by lra. apply Qmult_integral in G. destruct G; lra.
  - rewrite H. reflexivity.
Qed.
Lemma ltb_iff a b c d : (a < b <-> c < d) -> Qltb a b = Qltb c d.
Proof. intros H. apply eq_true_iff_eq. now rewrite !Qltb_spec. Qed.

Lemma aff_pcmp a b : coords_pcmp (aff a) (aff b) = coords_pcmp a b.
Proof. unfold coords_pcmp, aff. cbn. rewrite !aff_cmp by auto. reflexivity. Qed.

Lemma aff_left a b c : is_left (aff a) (aff b) (aff c) = is_left a b c.
Proof.
  unfold is_left, aff. cbn [cx cy fst snd c_eqb c_ltb c_sub c_mul QOps]. rewrite !aff_eqb by auto.
  destruct (Qeq_bool _ _); [|destruct (Qeq_bool _ _)]; apply ltb_iff.
  - rewrite Qplus_lt_l. now apply Qmult_lt_l.
  - rewrite Qplus_lt_l. now apply Qmult_lt_l.
  - set (u := cx a - cx b). set (v := cy c - cy b). set (w := cy a - cy b). set (z := cx c - cx b).
    assert (X1 : (sx * cx a + tx - (sx * cx b + tx)) * (sy * cy c + ty - (sy * cy b + ty)) == (sx * sy) * (u * v)) by (unfold u, v; ring).
    assert (X2 : (sy * cy a + ty - (sy * cy b + ty)) * (sx * cx c + tx - (sx * cx b + tx)) == (sx * sy) * (w * z)) by (unfold w, z; ring).
    rewrite X1, X2. assert (0 < sx * sy) by nra. rewrite Qmult_lt_l by auto. reflexivity.
Qed.

Lemma affine_run {I E Out M} (F : fan_format I E Out M) ieqb (gv : I -> coords Q) dbg fuel mn shuf elems :
  triangulate F ieqb (fun i => aff (gv i)) dbg fuel mn shuf elems = triangulate F ieqb gv dbg fuel mn shuf elems.
Proof.
  transitivity (triangulate (via (fun i => i) F) ieqb gv dbg fuel mn shuf elems).
  - apply sim_via; auto.
    + intros. apply aff_pcmp.
    + intros. apply aff_left.
    + intros. apply aff_eqb; auto.
    + intros. apply aff_eqb; auto.
    + rewrite <- map_id at 1. apply map_ext. now intros [].
  - destruct F. reflexivity.
Qed.
End Affine.

(** ** Other coordinate types *)

Lemma other_coords {C1 C2 I : Type} {O1 : CoordOps C1} {O2 : CoordOps C2} {E Out M} (F : fan_format I E Out M)
  ieqb (gv1 : I -> coords C1) (gv2 : I -> coords C2) dbg fuel mn shuf elems :
  (forall i k, used elems i -> used elems k -> coords_pcmp (gv2 i) (gv2 k) = coords_pcmp (gv1 i) (gv1 k)) ->
  (forall i k l, used elems i -> used elems k -> used elems l ->
    is_left (gv2 i) (gv2 k) (gv2 l) = is_left (gv1 i) (gv1 k) (gv1 l)) ->
  (forall i k, used elems i -> used elems k -> c_eqb (cx (gv2 i)) (cx (gv2 k)) = c_eqb (cx (gv1 i)) (cx (gv1 k))) ->
  (forall i k, used elems i -> used elems k -> c_eqb (cy (gv2 i)) (cy (gv2 k)) = c_eqb (cy (gv1 i)) (cy (gv1 k))) ->
  triangulate F ieqb gv2 dbg fuel mn shuf elems = triangulate F ieqb gv1 dbg fuel mn shuf elems.
Proof.
  intros Hp Hl Hx Hy. transitivity (triangulate (via (fun i => i) F) ieqb gv1 dbg fuel mn shuf elems).
  - apply sim_via; auto. rewrite <- map_id at 1. apply map_ext. now intros [].
  - destruct F. reflexivity.
Qed.
