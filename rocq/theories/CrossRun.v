(** A debug build accepts no crossing polygons, as long as it relocates no pending vertex. *)
From Coq Require Import QArith Lqa List Arith Lia Bool Permutation.
From Verif Require Import Base Coord Trap Lanes Plane Geo Region TrapInv AddVertex Recut Cuts LaneOps SegStep AddSegment Segment Walk Clear Cross CrossGeo Polygons Build Doc Mono Tri Budget.
Import ListNotations.
Local Open Scope nat_scope.
Local Open Scope res_scope.

(** More edges may be allowed. *)
Lemma core_incl {I} W Es Es' M (gv : I -> point) st : incl Es Es' -> core W Es M gv st -> core W Es' M gv st.
Proof.
  intros Hi [H1 H2 H3 H4 H5 H6 H7 H8 H9 H10 H11 H12 H13 H14 H15 H16]. constructor; auto.
  - intros i s Hs. destruct (H4 i s Hs) as (? & ? & ?). auto.
  - intros i t Ht. destruct (H7 i t Ht) as [A1 A2 A3 A4 A5 A6]. constructor; auto; intros e He; [destruct (A1 e He)|destruct (A2 e He)]; auto.
Qed.

Lemma full_incl {I} W Es Es' M (gv : I -> point) st : incl Es Es' -> full W Es M gv st -> full W Es' M gv st.
Proof. intros Hi [H1 H2 H3 H4 H5]. constructor; auto. now apply (core_incl W Es). Qed.

Lemma rest_incl {I} W Es Es' M (gv : I -> point) st X : incl Es Es' -> rest W Es M gv st X -> rest W Es' M gv st X.
Proof. intros Hi [H1 H2 H3]. constructor; auto. now apply (full_incl W Es). Qed.

Lemma geo_incl W Es Es' : incl Es Es' -> geo W Es' -> geo W Es.
Proof.
  intros Hi [H1 H2 H3 H4]. constructor; auto. intros e f He Hf. apply H3; auto.
Qed.

Lemma lr_ok {E A} (r r' : res E A) a : lr r r' -> r = Ok a -> r' = Ok a.
Proof. intros [H|H] K; congruence. Qed.

Section Run.
Context {I : Type}.
Variables (W : list point) (M : Q) (gv : I -> point).
Hypothesis HM : shear M W.
Notation stt := (state Q I).
Variable ieqb : I -> I -> bool.
Hypothesis Hieq : forall a b, ieqb a b = true <-> a = b.
Variable all : list edge.
Hypothesis Hcnt : forall p, cnt p all <= 2.
Hypothesis Hall : forall e, In e all -> geo W [e].

Definition good (st : stt) : Prop := geo W (medges st) /\ rest W (medges st) M gv st [] /\ incl (medges st) all.

Section OnePoly.
Variable poly : list I.
Notation len := (length poly).
Hypothesis Hlen : 3 <= len.
Hypothesis Hdist : NoDup (map gv poly).
Hypothesis HinW : forall j a, nth_error poly j = Some a -> In (gv a) W.
Hypothesis Hedge : forall j e, sedge_at gv poly j e -> In e all.
Notation vok := (vls_ok M gv poly).

Lemma add_nth_cross k st vls j e R : good st -> vok st vls -> j < len -> sedge_at gv poly j e -> ~ In e (medges st) ->
  add_nth_segment ieqb gv true k st vls j = Ok R ->
  exists st' vls' added, R = (st', vls', added) /\ good st' /\ vok st' vls' /\ medges st' = medges st ++ [e] /\ pends vls' + added = pends vls /\
    incl (points st') (points st ++ map gv poly) /\ incl (points st) (points st').
Proof.
  intros (HG & HR & Hinc) HV Hj He Hni E. pose proof (Hedge j e He) as HeA.
  assert (Hl2 : 2 <= len) by lia. assert (Hjj : (j + 1) mod len <> j) by now apply (next_ne poly Hl2).
  pose proof (f_core _ _ _ _ _ (r_full _ _ _ _ _ _ HR)) as Hc.
  assert (Hcm : forall p, touches p e = true -> cnt p (medges st) <= 1).
  { intros p Hp. assert (K : cnt p (e :: medges st) <= cnt p all).
    { apply cnt_incl. { constructor; auto. apply (c_snd _ _ _ _ _ Hc). } intros x [<-|Hx]; auto. }
    change (e :: medges st) with ([e] ++ medges st) in K. rewrite cnt_app, cnt_one, Hp in K. specialize (Hcnt p). lia. }
  assert (Hcnt' : forall p, cnt p (e :: medges st) <= 2).
  { intros p. etransitivity; [|apply (Hcnt p)]. apply cnt_incl. { constructor; auto. apply (c_snd _ _ _ _ _ Hc). } intros x [<-|Hx]; auto. }
  destruct He as (a & b & Ha & Hb & Ee).
  destruct (add_ends_ok W (medges st) M gv HG HM true poly Hl2 Hdist HinW st vls j a b ((j + 1) mod len) HR HV Hj Ha Hb Hjj)
    as (st1 & vls1 & ni0 & ni1 & added & (N & E1) & R1 & V1 & M1 & P1 & I1 & I1' & V0' & V1' & _).
  assert (Hvl : length vls = len) by apply HV.
  assert (Ek : add_nth_segment ieqb gv true (max k N) st vls j = Ok R) by (eapply lr_ok; [apply add_nth_segment_mono|exact E]; lia).
  specialize (E1 (max k N) ltac:(lia)).
  assert (Q0 : nth_error (points st1) ni0 = Some (gv a)). { destruct (proj2 V1 j a Ha) as [(q & K & _)|(ni & K & L)]; [congruence|]. assert (ni = ni0) by congruence. now subst. }
  assert (Q1 : nth_error (points st1) ni1 = Some (gv b)). { destruct (proj2 V1 _ b Hb) as [(q & K & _)|(ni & K & L)]; [congruence|]. assert (ni = ni1) by congruence. now subst. }
  destruct (points_inv _ _ _ Q0) as (m0 & Hm0 & Em0). destruct (points_inv _ _ _ Q1) as (m1 & Hm1 & Em1).
  destruct R1 as [Rf Rc Rd].
  assert (HGe : geo W (e :: medges st)).
  { unfold add_nth_segment, rd in Ek. rewrite Hvl in Ek. destruct (nth_error vls j) as [vl0|]; [|discriminate]. cbn [bind] in Ek. destruct (nth_error vls ((j + 1) mod len)) as [vl1|]; [|discriminate]. cbn [bind] in Ek.
    match type of Ek with bind ?x _ = _ => assert (Z : x = Ok (st1, vls1, ni0, ni1, added)) by exact E1; rewrite Z in Ek; clear Z end. cbn [bind] in Ek. unfold rdu in Ek. rewrite Hm0, Hm1 in Ek. cbn [bind] in Ek. rewrite Em0, Em1 in Ek.
    match type of Ek with bind ?x _ = _ => destruct x as [st2| |] eqn:E2; [|discriminate|discriminate] end. clear Ek E1.
    set (s := if coords_lt (gv a) (gv b) then mkSeg ni0 ni1 (gv a) (gv b) else mkSeg ni1 ni0 (gv b) (gv a)).
    assert (Es : sedge s = e) by (rewrite Ee; unfold s, orient, sedge; destruct (coords_lt (gv a) (gv b)); reflexivity).
    rewrite <- Es.
    apply (accept_geo W (medges st) M gv HG HM ieqb Hieq st1 Rf s) with (k := max k N) (st' := st2).
    - rewrite Es. now apply Hall.
    - unfold s. destruct (coords_lt (gv a) (gv b)); cbn; auto.
    - unfold s. destruct (coords_lt (gv a) (gv b)); cbn; auto.
    - rewrite Es, M1. auto.
    - intros n Hn. rewrite (Rc _ n Hn), M1. apply Hcm. rewrite Ee. destruct (orient_touch (gv a) (gv b)) as (T1 & T2). apply points_nth in Hn.
      unfold s in Hn. destruct (coords_lt (gv a) (gv b)); cbn in Hn; [rewrite Q1 in Hn|rewrite Q0 in Hn]; injection Hn as <-; auto.
    - rewrite M1. apply incl_refl.
    - unfold s. destruct (coords_lt (gv a) (gv b)); exact E2. }
  assert (HR' : rest W (e :: medges st) M gv st []) by (apply (rest_incl W (medges st)); auto; intros x Hx; now right).
  destruct (add_nth_ok W (e :: medges st) M gv HGe HM ieqb Hieq Hcnt' true poly Hl2 Hdist HinW st vls j e HR' HV Hj) as (st' & vls' & added' & (N' & F1) & F2 & F3 & F4 & F5 & F6 & F7 & _); auto.
  { exists a, b. auto. } { now left. }
  assert (Z : (Ok R : res ierr _) = Ok (st', vls', added')). { rewrite <- (F1 (max (max k N) N')) by lia. symmetry. eapply lr_ok; [apply add_nth_segment_mono|exact Ek]. lia. }
  exists st', vls', added'. split; [congruence|]. assert (Hin : incl (medges st') (e :: medges st)). { rewrite F4. intros x Hx. apply in_app_or in Hx. destruct Hx as [?|[<-|[]]]; cbn; auto. }
  assert (Hin' : incl (e :: medges st) (medges st')). { rewrite F4. intros x [<-|Hx]; apply in_or_app; cbn; auto. }
  split; [|repeat (split; auto)]. split; [eapply geo_incl; eauto|]. split; [eapply rest_incl; eauto|]. rewrite F4. intros x Hx. apply in_app_or in Hx. destruct Hx as [?|[<-|[]]]; auto.
Qed.

Lemma inserted_none (vls : list (vloc Q I)) : (forall x v, nth_error vls x = Some v -> pen v = false) -> pends vls = 0.
Proof.
  unfold pends. intros H. assert (K : forall v, In v vls -> pen v = false) by (intros v Hv; apply In_nth_error in Hv; destruct Hv as (x & Hx); eauto). clear H.
  induction vls as [|v vls IH]; cbn; auto. rewrite (K v) by now left. apply IH. intros; apply K; now right.
Qed.

(** A vertex that is a nexus is not pending. *)
Lemma not_pending st vls x a v : vok st vls -> nth_error poly x = Some a -> In (gv a) (points st) -> nth_error vls x = Some v -> pen v = false.
Proof. intros HV Ha Hp Hv. destruct (proj2 HV x a Ha) as [(q & K & NI & _)|(ni & K & _)]; [contradiction|]. rewrite K in Hv. now injection Hv as <-. Qed.

(** Once all but one of the segments are in, all vertices are in. *)
Lemma all_in st vls (dn : list nat) : vok st vls -> NoDup dn -> (forall j, In j dn -> j < len) -> len <= length dn + 1 ->
  (forall j a, In j dn -> nth_error poly j = Some a \/ nth_error poly ((j + 1) mod len) = Some a -> In (gv a) (points st)) -> pends vls = 0.
Proof.
  intros HV Hnd Hlt Hge H. apply inserted_none. intros x v Hv. pose proof (nth_lt _ _ _ _ Hv) as Hx. rewrite (proj1 HV) in Hx. destruct (lt_nth _ poly x Hx) as (a & Ha).
  apply (not_pending st vls x a); auto.
  destruct (in_dec Nat.eq_dec x dn) as [Hi|Hi]; [eauto|].
  set (y := (x + (len - 1)) mod len). assert (Hy : y < len) by (apply Nat.mod_upper_bound; lia).
  assert (Ey : (y + 1) mod len = x). { unfold y. rewrite Nat.add_mod_idemp_l by lia. replace (x + (len - 1) + 1) with (x + 1 * len) by lia. rewrite Nat.mod_add by lia. now apply Nat.mod_small. }
  destruct (in_dec Nat.eq_dec y dn) as [Hj|Hj]; [apply (H y); auto; right; now rewrite Ey|]. exfalso.
  assert (Hxy : x <> y). { intros E. rewrite <- E in Ey. revert Ey. apply (next_ne poly); auto. lia. }
  assert (K : length (x :: y :: dn) <= length (seq 0 len)).
  { apply NoDup_incl_length. { constructor; [intros [?|?]; [auto|contradiction]|]. constructor; auto. } intros z [<-|[<-|Hz]]; apply in_seq; try lia. specialize (Hlt z Hz). lia. }
  rewrite seq_length in K. cbn in K. lia.
Qed.

Lemma loop_cross k math_n order : forall dn i st vls uc nu R, good st -> vok st vls -> NoDup (dn ++ order) -> (forall j, In j (dn ++ order) -> j < len) -> i = length dn ->
  (len <= nu + 2 \/ pends vls = 0) ->
  (forall j a, In j dn -> nth_error poly j = Some a \/ nth_error poly ((j + 1) mod len) = Some a -> In (gv a) (points st)) ->
  (forall j e, In j order -> sedge_at gv poly j e -> ~ In e (medges st)) ->
  (forall j j' e, In j order -> In j' order -> sedge_at gv poly j e -> sedge_at gv poly j' e -> j = j') ->
  polygon_loop ieqb gv true k math_n len order i st vls (pends vls) uc nu = Ok R ->
  exists es, good (fst R) /\ Forall2 (sedge_at gv poly) order es /\ medges (fst R) = medges st ++ es /\ incl (points (fst R)) (points st ++ map gv poly).
Proof.
  induction order as [|j order IH]; intros dn i st vls uc nu R HS HV Hnd Hlt Hi Hnu D1 Hnot Hinj E.
  { cbn in E. injection E as <-. exists []. cbn [fst]. split; auto. split; auto. split; [now rewrite app_nil_r|apply incl_appl, incl_refl]. }
  cbn [polygon_loop] in E. destruct (add_nth_segment ieqb gv true k st vls j) as [R1| |] eqn:Ea; try discriminate. cbn [bind] in E.
  assert (Hjl : j < len) by (apply Hlt, in_or_app; right; now left). destruct (sedge_ex gv poly ltac:(lia) j Hjl) as (e & He).
  destruct (add_nth_cross k st vls j e R1 HS HV Hjl He) as (st1 & vls1 & added & -> & S1 & V1 & F4 & F5 & F6 & F7); auto. { apply (Hnot j e); [now left|auto]. }
  replace (pends vls - added) with (pends vls1) in E by lia.
  assert (D2 : forall j' a, In j' (dn ++ [j]) -> nth_error poly j' = Some a \/ nth_error poly ((j' + 1) mod len) = Some a -> In (gv a) (points st1)).
  { intros j' a Hj' Ha. apply in_app_or in Hj'. destruct Hj' as [Hj'|[<-|[]]]; [apply F7; eauto|].
    destruct S1 as (_ & R1 & _). pose proof (f_core _ _ _ _ _ (r_full _ _ _ _ _ _ R1)) as Hc. assert (Hin : In e (medges st1)) by (rewrite F4; apply in_or_app; cbn; auto).
    destruct (medges_points _ _ _ _ st1 e Hc Hin) as (P1 & P2 & _). destruct He as (x & y & Hx & Hy & ->). unfold orient in *.
    destruct Ha as [Ha|Ha]; [assert (a = x) by congruence|assert (a = y) by congruence]; subst a; destruct (coords_lt (gv x) (gv y)); auto. }
  assert (Hnd' : NoDup ((dn ++ [j]) ++ order)) by now rewrite <- app_assoc.
  assert (Hlt' : forall x, In x ((dn ++ [j]) ++ order) -> x < len) by (intros x; rewrite <- app_assoc; apply Hlt).
  assert (Hgo : forall uc nu, (len <= nu + 2 \/ pends vls1 = 0) -> polygon_loop ieqb gv true k math_n len order (i + 1) st1 vls1 (pends vls1) uc nu = Ok R ->
    exists es, good (fst R) /\ Forall2 (sedge_at gv poly) (j :: order) es /\ medges (fst R) = medges st ++ es /\ incl (points (fst R)) (points st ++ map gv poly)).
  { intros uc' nu' Hnu' E'. destruct (IH (dn ++ [j]) (i + 1) st1 vls1 uc' nu' R) as (es & G1 & G2 & G3 & G4); auto.
    - rewrite app_length. cbn. lia.
    - intros j' e' Hj' He' K. rewrite F4 in K. apply in_app_or in K. destruct K as [K|[<-|[]]].
      + apply (Hnot j' e'); auto. now right.
      + assert (j = j') by (eapply Hinj; eauto; [now left|now right]). subst j'. apply NoDup_app_inv in Hnd. destruct Hnd as (_ & Hnd & _). inversion Hnd; contradiction.
    - intros j' j'' e' H1 H2. apply Hinj; now right.
    - exists (e :: es). split; auto. split; [constructor; auto|]. split; [rewrite G3, F4, <- app_assoc; reflexivity|]. intros x Hx. apply G4 in Hx. apply in_app_or in Hx. apply in_or_app. destruct Hx as [Hx|Hx]; auto. apply F6 in Hx. apply in_app_or in Hx. auto. }
  destruct (Nat.eqb_spec i nu) as [En|En].
  - assert (Hz : pends vls1 = 0).
    { destruct Hnu as [Hnu|Hnu]; [|lia]. apply (all_in st1 vls1 (dn ++ [j])); auto.
      - apply NoDup_app_inv in Hnd'. tauto.
      - intros x Hx. apply Hlt', in_or_app. now left.
      - rewrite app_length. cbn. lia. }
    assert (Er : forall k', relocate k k' st1 vls1 (pends vls1) j (LNexus 0) coords_zero = (Ok vls1 : res ierr _)) by (intros [|]; rewrite Hz; reflexivity). rewrite Er in E. cbn [bind] in E. apply (Hgo _ _ (or_intror Hz) E).
  - apply (Hgo uc nu); auto. destruct Hnu; [now left|right; lia].
Qed.

End OnePoly.

(** One polygon, then all. *)
Lemma poly_cross k math_n order st poly R : 3 <= length poly -> length poly <= math_n (length poly) 1 + 2 -> NoDup (map gv poly) -> incl (map gv poly) W ->
  (forall p, In p (map gv poly) -> ~ In p (points st)) -> incl (uedges [map gv poly]) all -> NoDup (medges st ++ uedges [map gv poly]) -> Permutation order (seq 0 (length poly)) ->
  good st -> add_polygon ieqb gv true k math_n order st (map (pend1 gv) poly) = Ok R ->
  good (fst R) /\ Permutation (medges (fst R)) (medges st ++ uedges [map gv poly]) /\ incl (points (fst R)) (points st ++ map gv poly).
Proof.
  intros Hlen Hnu Hnd HW Hnew Hinc Hmd Hord HS E. assert (Eu : uedges [map gv poly] = map oedge (edges (map gv poly))) by (unfold uedges; cbn; now rewrite app_nil_r). rewrite Eu in *.
  assert (Hed : forall j e, sedge_at gv poly j e -> In e all). { intros j e He. apply sedge_edges in He. apply Hinc. eapply nth_error_In; eauto. }
  assert (HinW : forall j a, nth_error poly j = Some a -> In (gv a) W). { intros j a Ha. apply HW, in_map. eapply nth_error_In; eauto. }
  pose proof HS as (_ & HR & _). pose proof (f_core _ _ _ _ _ (r_full _ _ _ _ _ _ HR)) as Hc.
  assert (Hps : pends (map (pend1 gv) poly) = length poly). { unfold pends. clear. induction poly; cbn; auto. }
  assert (Hvo : vls_ok M gv poly st (map (pend1 gv) poly)).
  { split; [apply map_length|]. intros j a Ha. left. exists 0. rewrite nth_error_map, Ha. split; auto. assert (~ In (gv a) (points st)) by (apply Hnew, in_map; eapply nth_error_In; eauto).
    split; auto. apply (c_loc _ _ _ _ _ Hc); auto. eapply HinW; eauto. }
  unfold add_polygon in E. rewrite map_length in E. rewrite <- Hps in E at 2.
  destruct (loop_cross poly Hlen Hnd HinW Hed k math_n order [] 0 st (map (pend1 gv) poly) 1 (math_n (length poly) 1) R) as (es & G1 & G2 & G3 & G4); auto.
  - cbn. eapply Permutation_NoDup; [symmetry; exact Hord|apply seq_NoDup].
  - cbn. intros j Hj. eapply Permutation_in in Hj; [|exact Hord]. apply in_seq in Hj. lia.
  - intros j a [].
  - intros j e _ He K. apply sedge_edges in He. apply nth_error_In in He. apply NoDup_app_inv in Hmd. destruct Hmd as (_ & _ & Z). now apply (Z e).
  - intros j j' e _ _ He He'. apply sedge_edges in He, He'. apply NoDup_app_inv in Hmd. destruct Hmd as (_ & Z & _).
    apply (proj1 (NoDup_nth_error _) Z); [eapply nth_lt; eauto|congruence].
  - split; auto. split; auto. rewrite G3. apply Permutation_app_head. eapply forall2_perm; [|exact G2|].
    + intros j e. apply sedge_edges.
    + rewrite map_length. pose proof (edges_length (map gv poly)) as Z. rewrite map_length in Z. unfold edge. rewrite Z. exact Hord.
Qed.

Variables (math_n : nat -> nat -> nat) (shuf : nat -> nat -> list nat).
Hypothesis Hshuf : forall k n, Permutation (shuf k n) (seq 0 n).

Lemma run_cross k elems : forall x st cur R, let gs := groups_from cur elems in let ps := map (map gv) gs in
  (forall g, In g gs -> 3 <= length g) -> (forall g, In g gs -> length g <= math_n (length g) 1 + 2) -> NoDup (concat ps) -> incl (concat ps) W -> (forall p, In p (concat ps) -> ~ In p (points st)) ->
  incl (uedges ps) all -> NoDup (medges st ++ uedges ps) -> good st ->
  build_loop ieqb gv true k math_n shuf (elems ++ [NewPolygon]) x st (map (pend1 gv) cur) = Ok R -> good R /\ Permutation (medges R) (medges st ++ uedges ps).
Proof.
  assert (Hpoly : forall cur gs x st rest' R, cur <> [] -> let qs := map (map gv) (cur :: gs) in let ps := map (map gv) gs in
    3 <= length cur -> length cur <= math_n (length cur) 1 + 2 -> NoDup (concat qs) -> incl (concat qs) W -> (forall p, In p (concat qs) -> ~ In p (points st)) ->
    incl (uedges qs) all -> NoDup (medges st ++ uedges qs) -> good st ->
    (forall st1, NoDup (concat ps) -> incl (concat ps) W -> (forall p, In p (concat ps) -> ~ In p (points st1)) ->
      incl (uedges ps) all -> NoDup (medges st1 ++ uedges ps) -> good st1 ->
      build_loop ieqb gv true k math_n shuf rest' (x + 1) st1 [] = Ok R -> good R /\ Permutation (medges R) (medges st1 ++ uedges ps)) ->
    build_loop ieqb gv true k math_n shuf (NewPolygon :: rest') x st (map (pend1 gv) cur) = Ok R -> good R /\ Permutation (medges R) (medges st ++ uedges qs)).
  { intros cur gs x st rest' R Hcur qs ps Hl Hn Hnd HW Hnew Hinc Hmd HS Hgo E. unfold qs in *. cbn [map] in *. fold ps in Hnd, HW, Hnew, Hinc, Hmd |- *. cbn [concat] in *. rewrite uedges_cons in *.
    apply NoDup_app_inv in Hnd as Hnd'. destruct Hnd' as (Hn1 & Hn2 & Hn3). rewrite app_assoc in Hmd. apply NoDup_app_inv in Hmd as Hmd'. destruct Hmd' as (Hm1 & Hm2 & Hm3).
    cbn [build_loop] in E. rewrite map_length in E. assert (E1 : Nat.ltb 0 (length cur) = true) by (apply Nat.ltb_lt; lia). assert (E2 : Nat.ltb (length cur) 3 = false) by (apply Nat.ltb_ge; lia).
    rewrite E1, E2 in E. destruct (add_polygon ieqb gv true k math_n (shuf x (length cur)) st (map (pend1 gv) cur)) as [R1| |] eqn:Ea; try discriminate. cbn [map_err bind] in E.
    destruct (poly_cross k math_n (shuf x (length cur)) st cur R1) as (G1 & G2 & G3); auto.
    { intros p Hp. apply HW, in_or_app. now left. } { intros p Hp. apply Hnew, in_or_app. now left. } { intros e He. apply Hinc, in_or_app. now left. }
    destruct R1 as (st1 & vls1). cbn [fst] in *. destruct (Hgo st1) as (F1 & F2); auto.
    { intros p Hp. apply HW, in_or_app. now right. }
    { intros p Hp K. apply G3 in K. apply in_app_or in K. destruct K as [K|K]; [apply (Hnew p); auto; apply in_or_app; now right|now apply (Hn3 p)]. }
    { intros e He. apply Hinc, in_or_app. now right. }
    { eapply Permutation_NoDup; [|exact Hmd]. apply Permutation_app_tail. now symmetry. }
    split; auto. rewrite app_assoc. etransitivity; [exact F2|]. now apply Permutation_app_tail. }
  induction elems as [|[i|] elems IH]; intros x st cur R gs ps H3 Hn Hnd HW Hnew Hinc Hmd HS E.
  - cbn [app] in E. unfold gs, ps in *. cbn [groups_from] in *. destruct cur as [|c cur].
    + cbn in E. injection E as <-. split; auto. cbn. now rewrite app_nil_r.
    + apply (Hpoly (c :: cur) [] x st [] R); auto; try easy; [apply H3; now left|apply Hn; now left|]. intros st1 _ _ _ _ _ S1 E1. cbn in E1. injection E1 as <-. split; auto. cbn. now rewrite app_nil_r.
  - cbn [app build_loop] in E. apply (IH x st (cur ++ [i]) R); auto. rewrite map_app. exact E.
  - cbn [app] in E. unfold gs, ps in *. cbn [groups_from] in *. destruct cur as [|c cur].
    + cbn [map build_loop length Nat.ltb Nat.leb] in E. apply (IH x st [] R); auto.
    + apply (Hpoly (c :: cur) (groups_from [] elems) x st (elems ++ [NewPolygon]) R); auto; try easy; [apply H3; now left|apply Hn; now left|].
      intros st1 A1 A2 A3 A4 A5 A6 A7. apply (IH (x + 1) st1 [] R); auto; intros g Hg; [apply H3|apply Hn]; now right.
Qed.

End Run.

(** A trapezoidation that is made has at least three vertices in every polygon. *)
Lemma build_three {C} {OC : CoordOps C} {I} (ieqb : I -> I -> bool) (gv : I -> coords C) dbg k math_n shuf elems : forall x st cur R vls, length vls = length cur ->
  build_loop ieqb gv dbg k math_n shuf (elems ++ [NewPolygon]) x st vls = Ok R -> forall g, In g (groups_from cur elems) -> 3 <= length g.
Proof.
  assert (Hp : forall x st (cur : list I) R vls rest' c, length vls = S (length cur) -> build_loop ieqb gv dbg k math_n shuf (NewPolygon :: rest') x st vls = Ok R ->
    3 <= length (c :: cur) /\ exists x st, build_loop ieqb gv dbg k math_n shuf rest' x st [] = Ok R).
  { intros x st cur R vls rest' c Hl E. cbn [build_loop] in E. rewrite Hl in E. change (Nat.ltb 0 (S (length cur))) with true in E. cbv beta iota in E.
    destruct (Nat.ltb_spec (S (length cur)) 3) as [K|K]; [discriminate|]. split; [cbn; lia|].
    match type of E with bind ?y _ = _ => destruct y as [[st' v]| |]; try discriminate end. cbn [bind] in E. eauto. }
  induction elems as [|[i|] elems IH]; intros x st cur R vls Hl E g Hg; cbn [app groups_from] in *.
  - destruct cur as [|c cur]; [destruct Hg|]. destruct Hg as [<-|[]]. now destruct (Hp x st cur R vls [] c Hl E).
  - cbn [build_loop] in E. apply (IH x st (cur ++ [i]) R _) with (g := g) in E; auto. rewrite !app_length. cbn. lia.
  - destruct cur as [|c cur].
    + destruct vls as [|v vls]; [|exfalso; clear -Hl; cbn in Hl; lia]. cbn [build_loop length Nat.ltb Nat.leb] in E. eapply (IH x st [] R []); eauto.
    + destruct (Hp x st cur R vls _ c Hl E) as (H3 & x' & st' & E'). destruct Hg as [<-|Hg]; auto. eapply (IH x' st' [] R []); eauto.
Qed.

Theorem accepted_valid {I} (ieqb : I -> I -> bool) (gv : I -> point) k math_n shuf elems st : (forall a b, ieqb a b = true <-> a = b) ->
  (forall k n, Permutation (shuf k n) (seq 0 n)) -> let ps := map (map gv) (groups elems) in distinct ps -> apart ps ->
  (forall p, In p ps -> length p <= math_n (length p) 1 + 2) -> trapezoidize ieqb gv true k math_n shuf elems = Ok st -> valid ps.
Proof.
  intros Hieq Hshuf ps HD HA Hn E. unfold trapezoidize in E.
  assert (H3g : forall g, In g (groups elems) -> 3 <= length g) by (eapply (build_three ieqb gv true k math_n shuf elems 0 state_new [] st []); eauto).
  assert (H3 : Forall (fun p => 3 <= length p) ps). { apply Forall_forall. intros p Hp. unfold ps in Hp. apply in_map_iff in Hp. destruct Hp as (g & <- & Hg). rewrite map_length. auto. }
  destruct (shear_exists (concat ps)) as (M & HM).
  assert (Hall : forall e, In e (uedges ps) -> geo (concat ps) [e]).
  { intros e He. apply in_map_iff in He. destruct He as (d & <- & Hd). destruct (dist_ends ps H3 HD d Hd) as (D1 & D2 & _). pose proof (dist_lt ps H3 HD d Hd) as Dl.
    constructor.
    - intros p q. now apply dist_eq.
    - intros e [<-|[]]. destruct (oedge_cases d) as [Ed|Ed]; rewrite Ed in *; cbn [fst snd] in *; auto.
    - intros e f [<-|[]] [<-|[]]. congruence.
    - intros e v [<-|[]] Hv Ho. apply (proj1 (on_oedge _ _)) in Ho. destruct (HA d v Hd Hv Ho) as [K|K]; apply (dist_eq ps HD) in K; auto; destruct (oedge_cases d) as [-> | ->]; cbn; auto. }
  destruct (run_cross (concat ps) M gv HM ieqb Hieq (uedges ps) (dist_cnt ps H3 HD) Hall math_n shuf Hshuf k elems 0 state_new [] st) as ((HG & _ & _) & HP); auto.
  - intros g Hg. replace (length g) with (length (map gv g)) by apply map_length. apply Hn. now apply in_map.
  - now apply dist_nd.
  - apply incl_refl.
  - apply incl_refl.
  - cbn. now apply dist_uedges.
  - split; [|split; [|easy]]. { constructor; try easy. intros p q. now apply dist_eq. }
    split; [apply full_new| |]. { intros [|v] n H; discriminate. } intros [|v] n H; discriminate.
  - split; auto. split; auto. intros i j e f p Hi Hj Hne P1 P2.
    assert (Hx : oedge e <> oedge f) by (intros K; apply Hne; eapply (dist_nth ps H3 HD); eauto).
    assert (He : In (oedge e) (medges st)). { eapply Permutation_in; [symmetry; exact HP|]. cbn. apply in_map. eapply nth_error_In; eauto. }
    assert (Hf : In (oedge f) (medges st)). { eapply Permutation_in; [symmetry; exact HP|]. cbn. apply in_map. eapply nth_error_In; eauto. }
    apply (proj2 (on_oedge _ _)) in P1. apply (proj2 (on_oedge _ _)) in P2.
    pose proof (g_cross _ _ HG _ _ He Hf Hx p P1 P2) as K1. pose proof (g_cross _ _ HG _ _ Hf He (not_eq_sym Hx) p P2 P1) as K2.
    split; [destruct (oedge_cases e) as [Z|Z]; rewrite Z in K1|destruct (oedge_cases f) as [Z|Z]; rewrite Z in K2]; cbn in *; tauto.
Qed.
