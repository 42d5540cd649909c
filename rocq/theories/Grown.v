(** All states of the trapezoidation of one polygon, segment by segment. *)
From Coq Require Import QArith Lqa List Arith Lia Bool Permutation.
From Verif Require Import Base Coord Trap Lanes Plane Geo Region TrapInv Depth Polygons Build.
Import ListNotations.
Local Open Scope nat_scope.
Local Open Scope res_scope.

Section Loop.
Context {I : Type}.
Variables (W : list point) (Es : list edge) (M : Q) (gv : I -> point).
Hypothesis HG : geo W Es.
Hypothesis HM : shear M W.
Notation stt := (state Q I).
Notation rest := (rest W Es M gv).
Variable ieqb : I -> I -> bool.
Hypothesis Hieq : forall a b, ieqb a b = true <-> a = b.
Hypothesis Hcnt : forall p, cnt p Es <= 2.
Variable dbg : bool.

(** From one state to another by inserting the edges in turn. *)
Inductive grown : stt -> list edge -> stt -> Prop :=
| G_nil st : rest st [] -> grown st [] st
| G_cons st e st1 es st2 : rest st [] -> medges st1 = medges st ++ [e] -> ngrow st st1 -> grown st1 es st2 -> grown st (e :: es) st2.

Variable poly : list I.
Notation len := (length poly).
Hypothesis Hlen : 2 <= len.
Hypothesis Hdist : NoDup (map gv poly).
Hypothesis in_W : forall j a, nth_error poly j = Some a -> In (gv a) W.
Notation sedge_at := (sedge_at gv poly).
Notation vls_ok := (vls_ok M gv poly).
Hypothesis Hedge : forall j e, sedge_at j e -> In e Es.

Lemma polygon_loop_grown math_n order : forall i st vls uc nu, rest st [] -> vls_ok st vls -> NoDup order -> (forall j, In j order -> j < len) ->
  (forall j e, In j order -> sedge_at j e -> ~ In e (medges st)) ->
  (forall j j' e, In j order -> In j' order -> sedge_at j e -> sedge_at j' e -> j = j') ->
  exists st' vls' es, evt (fun k => polygon_loop ieqb gv dbg k math_n len order i st vls (pends vls) uc nu) (st', vls') /\
    Forall2 sedge_at order es /\ grown st es st'.
Proof.
  induction order as [|j order IH]; intros i st vls uc nu HR HV Hnd Hlt Hnot Hinj.
  { exists st, vls, []. split; [apply evt_ret|]. split; auto. now constructor. }
  inversion Hnd as [|? ? Hj Hnd']; subst. assert (Hjl : j < len) by (apply Hlt; now left). destruct (sedge_ex gv poly Hlen j Hjl) as (e & He).
  destruct (add_nth_ok W Es M gv HG HM ieqb Hieq Hcnt dbg poly Hlen Hdist in_W st vls j e HR HV Hjl He (Hedge j e He)) as (st1 & vls1 & added & A1 & A2 & A3 & A4 & A5 & A6 & A7 & A8 & A9). { apply (Hnot j e); [now left|auto]. }
  destruct (relocate_start W Es M gv HG HM Hcnt poly Hlen Hdist Hedge st1 vls1 j coords_zero A2 A3 Hjl A8) as (vls2 & B1 & B2 & B3).
  assert (Hgo : forall vls3 uc nu, vls_ok st1 vls3 -> pends vls3 = pends vls1 -> exists st' vls' es,
    evt (fun k => polygon_loop ieqb gv dbg k math_n len order (i + 1) st1 vls3 (pends vls1) uc nu) (st', vls') /\ Forall2 sedge_at (j :: order) es /\ grown st es st').
  { intros vls3 uc' nu' HV3 Hp3. destruct (IH (i + 1) st1 vls3 uc' nu') as (st' & vls' & es & C1 & C2 & C3); auto.
    - intros j' Hj'. apply Hlt. now right.
    - intros j' e' Hj' He' K. rewrite A4 in K. apply in_app_or in K. destruct K as [K|[<-|[]]].
      + apply (Hnot j' e'); auto. now right.
      + apply Hj. replace j with j'; auto. eapply Hinj; eauto; [now right|now left].
    - intros j' j'' e' H1 H2. apply Hinj; now right.
    - exists st', vls', (e :: es). split; [now rewrite <- Hp3|]. split; [constructor; auto|]. econstructor; eauto. }
  assert (Epd : pends vls - added = pends vls1) by lia.
  destruct (Nat.eqb i nu) eqn:Ei.
  - destruct (Hgo vls2 (uc + 1) (math_n len (uc + 1)) B2 B3) as (st' & vls' & es & C1 & C2). exists st', vls', es. split; auto.
    eapply evt_ext; [|eapply (evt_bind _ (fun k x => let '(st1, vls1, added) := x in
      do vls2 <- relocate k k st1 vls1 (pends vls - added) j (LNexus 0) coords_zero;
      polygon_loop ieqb gv dbg k math_n len order (i + 1) st1 vls2 (pends vls - added) (uc + 1) (math_n len (uc + 1)))); [exact A1|]].
    + intros k. cbn [polygon_loop]. rewrite Ei. destruct (add_nth_segment ieqb gv dbg k st vls j) as [[[? ?] ?]| |]; reflexivity.
    + cbn beta iota. rewrite Epd. eapply (evt_bind (fun k => relocate k k st1 vls1 (pends vls1) j (LNexus 0) coords_zero)); [exact B1|]. exact C1.
  - destruct (Hgo vls1 uc nu A3 eq_refl) as (st' & vls' & es & C1 & C2). exists st', vls', es. split; auto.
    eapply evt_ext; [|eapply (evt_bind _ (fun k x => let '(st1, vls1, added) := x in
      polygon_loop ieqb gv dbg k math_n len order (i + 1) st1 vls1 (pends vls - added) uc nu)); [exact A1|]].
    + intros k. cbn [polygon_loop]. rewrite Ei. destruct (add_nth_segment ieqb gv dbg k st vls j) as [[[? ?] ?]| |]; reflexivity.
    + cbn beta iota. rewrite Epd. exact C1.
Qed.

End Loop.

Section One.
Context {I : Type}.
Variables (gv : I -> point) (ieqb : I -> I -> bool) (dbg : bool).
Hypothesis Hieq : forall a b, ieqb a b = true <-> a = b.
Variables (math_n : nat -> nat -> nat) (shuf : nat -> nat -> list nat).
Hypothesis Hshuf : forall k n, Permutation (shuf k n) (seq 0 n).

(** The run on one polygon. *)
Theorem one_grown poly ex M : valid [map gv poly] -> 
  (forall p q, In p ex -> In q ex -> peq p q -> p = q) -> (forall p q, In p ex -> In q (map gv poly) -> ~ peq p q) ->
  (forall p e, In p ex -> In e (edges (map gv poly)) -> ~ on_segment (fst e) (snd e) p) -> shear M (map gv poly ++ ex) ->
  exists st es, evt (fun k => trapezoidize ieqb gv dbg k math_n shuf (map (@Continue I) poly)) st /\
    geo (map gv poly ++ ex) (uedges [map gv poly]) /\
    Forall2 (sedge_at gv poly) (shuf 0 (length poly)) es /\ grown (map gv poly ++ ex) (uedges [map gv poly]) M gv state_new es st.
Proof.
  intros HV X1 X2 X3 HM. assert (Ecc : concat [map gv poly] = map gv poly) by (cbn; apply app_nil_r).
  assert (Hlen : 3 <= length poly). { destruct HV as (K & _). inversion K; subst. now rewrite map_length in *. }
  pose proof (valid_geo [map gv poly] HV ex X1) as HG. rewrite Ecc in HG. cbn [map concat] in HG. rewrite app_nil_r in HG. specialize (HG X2 X3).
  pose proof (valid_nd [map gv poly] HV) as Hnd. rewrite Ecc in Hnd. pose proof (uedges_nd [map gv poly] HV) as Hne.
  set (W := map gv poly ++ ex) in *. set (Es := uedges [map gv poly]) in *.
  assert (Eu : Es = map oedge (edges (map gv poly))) by (unfold Es, uedges; cbn; now rewrite app_nil_r).
  assert (Hed : forall j e, sedge_at gv poly j e -> In e Es). { intros j e He. apply sedge_edges in He. rewrite Eu. eapply nth_error_In; eauto. }
  assert (HinW : forall j a, nth_error poly j = Some a -> In (gv a) W). { apply (edge_W W Es gv poly HG); auto. lia. }
  assert (F0 : rest W Es M gv (state_new : state Q I) []). { split; [apply full_new| |]; intros [|v] n H; discriminate. }
  set (order := shuf 0 (length poly)). assert (Ho : Permutation order (seq 0 (length poly))) by apply Hshuf.
  destruct (polygon_loop_grown W Es M gv HG HM ieqb Hieq (valid_cnt [map gv poly] HV) dbg poly ltac:(lia) Hnd HinW Hed math_n order 0 state_new (map (pend1 gv) poly) 1 (math_n (length poly) 1)) as (st & vls & es & E1 & E2 & E3); auto.
  - split; [apply map_length|]. intros j a Ha. left. exists 0. rewrite nth_error_map, Ha. split; auto. split; [easy|]. apply (c_loc _ _ _ _ _ (f_core _ _ _ _ _ (r_full _ _ _ _ _ _ F0))); [eapply HinW; eauto|easy].
  - eapply Permutation_NoDup; [symmetry; exact Ho|apply seq_NoDup].
  - intros j Hj. eapply Permutation_in in Hj; [|exact Ho]. apply in_seq in Hj. lia.
  - intros j j' e _ _ He He'. apply sedge_edges in He, He'. rewrite Eu in Hne. apply (proj1 (NoDup_nth_error _) Hne); [eapply nth_lt; eauto|congruence].
  - exists st, es. split; [|auto]. assert (Hps : pends (map (pend1 gv) poly) = length poly). { unfold pends. clear. induction poly; cbn; auto. } rewrite Hps in E1.
    destruct E1 as (N & E1). exists N. intros k Hk. specialize (E1 k Hk). unfold trapezoidize.
    assert (B : forall l vl, build_loop ieqb gv dbg k math_n shuf (map (@Continue I) l ++ [NewPolygon]) 0 state_new vl = build_loop ieqb gv dbg k math_n shuf [NewPolygon] 0 state_new (vl ++ map (pend1 gv) l)).
    { induction l as [|x l IH]; intros vl; cbn; [now rewrite app_nil_r|]. rewrite IH, <- app_assoc. reflexivity. }
    rewrite B. cbn [app build_loop]. rewrite map_length.
    assert (Nat.ltb 0 (length poly) = true) as -> by (apply Nat.ltb_lt; lia). assert (Nat.ltb (length poly) 3 = false) as -> by (apply Nat.ltb_ge; lia).
    unfold add_polygon. rewrite map_length. fold order. rewrite E1. reflexivity.
Qed.

End One.
