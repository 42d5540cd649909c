(** Iterations of one segment of the loop over a polygon and of one re-location of its vertices. *)
From Coq Require Import QArith Lqa List Arith Lia Bool.
From Verif Require Import Base Coord Trap Lanes Plane Geo Region TrapInv Depth AddVertex SegStep AddSegment Segment Walk Polygons Build Locate Faces Clear Canon Near Sweep Orders Random RandomSize Work WorkCount WalkAdj.
Import ListNotations.
Local Open Scope nat_scope.

Section Poly.
Context {I : Type}.
Variables (W : list point) (Es : list edge) (M : Q) (gv : I -> point).
Hypothesis HG : geo W Es.
Hypothesis HM : shear M W.
Notation stt := (state Q I).
Variable ieqb : I -> I -> bool.
Hypothesis Hieq : forall a b, ieqb a b = true <-> a = b.
Hypothesis Hcnt : forall p, cnt p Es <= 2.
Variable dbg : bool.
Variable poly : list I.
Notation len := (length poly).
Hypothesis Hlen : 2 <= len.
Hypothesis Hdist : NoDup (map gv poly).
Hypothesis in_W : forall j a, nth_error poly j = Some a -> In (gv a) W.
Notation rest := (rest W Es M gv).
Notation vls_ok := (vls_ok M gv poly).
Notation add_vertex_at_ok := (add_vertex_at_ok W Es M gv HG HM dbg poly Hlen Hdist in_W).

Lemma upd_pending (vls : list (vloc Q I)) v c m i c' x q : nth_error (upd vls v (Inserted c m)) i = Some (Pending c' x q) -> nth_error vls i = Some (Pending c' x q).
Proof. intros H. rewrite nth_upd in H. destruct (Nat.eqb_spec v i) as [->|]; auto. destruct (nth_error vls i); congruence. Qed.

(** One segment. *)
Lemma add_nth_cost st vls j a b gap : rest st [] -> vls_ok st vls -> j < len -> nth_error poly j = Some a -> nth_error poly ((j + 1) mod len) = Some b ->
  (forall i x q st1 k, nth_error vls i = Some (Pending (gv x) x q) -> (st1 = st \/ vgrow 1 st st1) -> vis k (st_qs st1) (gv x) q <= 2 + gap (gv x)) ->
  exists N, forall k st' vls' ad, N <= k -> fst (add_nth_segment_c ieqb gv dbg k st vls j) = Ok (st', vls', ad) ->
    snd (add_nth_segment_c ieqb gv dbg k st vls j) + length (st_qs st) <= length (st_qs st') + pat vls j * (2 + gap (gv a)) + pat vls ((j + 1) mod len) * (2 + gap (gv b)) /\
    (forall i c x q, nth_error vls' i = Some (Pending c x q) -> nth_error vls i = Some (Pending c x q)).
Proof.
  intros HR HV Hj Ha Hb HB. set (j1 := (j + 1) mod len) in *. assert (Hjj : j1 <> j) by (now apply next_ne). assert (Hvl : length vls = len) by apply HV.
  assert (G : forall vl0 vl1, nth_error vls j = Some vl0 -> nth_error vls j1 = Some vl1 -> exists N, forall k st1 vls1 n0 n1 ad, N <= k -> fst (add_ends_c gv dbg k st vls j j1 vl0 vl1) = Ok (st1, vls1, n0, n1, ad) ->
    snd (add_ends_c gv dbg k st vls j j1 vl0 vl1) + length (st_qs st) <= length (st_qs st1) + pat vls j * (2 + gap (gv a)) + pat vls j1 * (2 + gap (gv b)) /\
    (forall i c x q, nth_error vls1 i = Some (Pending c x q) -> nth_error vls i = Some (Pending c x q))).
  { intros vl0 vl1 E0 E1. unfold pat. rewrite E0, E1.
    destruct (proj2 HV j a Ha) as [(q0 & K1 & K2 & K3)|(n0 & K1 & K2)]; destruct (proj2 HV j1 b Hb) as [(q1 & L1 & L2 & L3)|(n1 & L1 & L2)]; rewrite K1 in E0; rewrite L1 in E1; injection E0 as <-; injection E1 as <-; cbn [add_ends_c].
    - destruct (coords_lt (gv a) (gv b)).
      + destruct (add_vertex_at_ok st vls [] j a q0 HR HV Ha K1) as (st1 & (N & A1) & A2 & A3 & A4 & A5 & A6 & A7). set (m0 := length (st_ns st)) in *. set (vls1 := upd vls j (Inserted (gv a) m0)) in *.
        assert (L1' : nth_error vls1 j1 = Some (Pending (gv b) b q1)) by (unfold vls1; now rewrite nth_upd_ne by auto).
        destruct (add_vertex_at_ok st1 vls1 _ j1 b q1 A2 A3 Hb L1') as (st2 & (N' & B1) & B2 & B3 & B4 & B5 & B6 & B7).
        exists (max N N'). intros k s2 v2 x0 x1 ad Hk H. apply cbind_inv in H. destruct H as ([[s1 v1] y0] & H1 & H & S). rewrite S. clear S. pose proof H1 as H1'. rewrite erase_add_vertex_at, A1 in H1' by lia. injection H1' as <- <- <-.
        apply cbind_inv in H. destruct H as ([[s3 v3] y1] & H2 & H & S). rewrite S. clear S. pose proof H2 as H2'. rewrite erase_add_vertex_at, B1 in H2' by lia. injection H2' as <- <- <-.
        cbn [free fst snd] in *. injection H as <- <- _ _ _. apply count_add_vertex_at in H1. apply count_add_vertex_at in H2. destruct H1 as (-> & H1), H2 as (-> & H2).
        pose proof (HB j a q0 st k K1 (or_introl eq_refl)). pose proof (HB j1 b q1 st1 k L1 (or_intror A7)). split; [lia|]. intros i c x q Hi. apply upd_pending in Hi. now apply upd_pending in Hi.
      + destruct (add_vertex_at_ok st vls [] j1 b q1 HR HV Hb L1) as (st1 & (N & A1) & A2 & A3 & A4 & A5 & A6 & A7). set (m0 := length (st_ns st)) in *. set (vls1 := upd vls j1 (Inserted (gv b) m0)) in *.
        assert (L1' : nth_error vls1 j = Some (Pending (gv a) a q0)) by (unfold vls1; now rewrite nth_upd_ne by auto).
        destruct (add_vertex_at_ok st1 vls1 _ j a q0 A2 A3 Ha L1') as (st2 & (N' & B1) & B2 & B3 & B4 & B5 & B6 & B7).
        exists (max N N'). intros k s2 v2 x0 x1 ad Hk H. apply cbind_inv in H. destruct H as ([[s1 v1] y0] & H1 & H & S). rewrite S. clear S. pose proof H1 as H1'. rewrite erase_add_vertex_at, A1 in H1' by lia. injection H1' as <- <- <-.
        apply cbind_inv in H. destruct H as ([[s3 v3] y1] & H2 & H & S). rewrite S. clear S. pose proof H2 as H2'. rewrite erase_add_vertex_at, B1 in H2' by lia. injection H2' as <- <- <-.
        cbn [free fst snd] in *. injection H as <- <- _ _ _. apply count_add_vertex_at in H1. apply count_add_vertex_at in H2. destruct H1 as (-> & H1), H2 as (-> & H2).
        pose proof (HB j1 b q1 st k L1 (or_introl eq_refl)). pose proof (HB j a q0 st1 k K1 (or_intror A7)). split; [lia|]. intros i c x q Hi. apply upd_pending in Hi. now apply upd_pending in Hi.
    - destruct (add_vertex_at_ok st vls [] j a q0 HR HV Ha K1) as (st1 & (N & A1) & _).
      exists N. intros k s2 v2 x0 x1 ad Hk H. apply cbind_inv in H. destruct H as ([[s1 v1] y0] & H1 & H & S). rewrite S. clear S. pose proof H1 as H1'. rewrite erase_add_vertex_at, A1 in H1' by lia. injection H1' as <- <- <-.
      cbn [free fst snd] in *. injection H as <- <- _ _ _. apply count_add_vertex_at in H1. destruct H1 as (-> & H1). pose proof (HB j a q0 st k K1 (or_introl eq_refl)). split; [lia|]. intros i c x q Hi. now apply upd_pending in Hi.
    - destruct (add_vertex_at_ok st vls [] j1 b q1 HR HV Hb L1) as (st1 & (N & A1) & _).
      exists N. intros k s2 v2 x0 x1 ad Hk H. apply cbind_inv in H. destruct H as ([[s1 v1] y0] & H1 & H & S). rewrite S. clear S. pose proof H1 as H1'. rewrite erase_add_vertex_at, A1 in H1' by lia. injection H1' as <- <- <-.
      cbn [free fst snd] in *. injection H as <- <- _ _ _. apply count_add_vertex_at in H1. destruct H1 as (-> & H1). pose proof (HB j1 b q1 st k L1 (or_introl eq_refl)). split; [lia|]. intros i c x q Hi. now apply upd_pending in Hi.
    - exists 0. intros k s2 v2 x0 x1 ad Hk H. cbn [free fst snd] in *. injection H as <- <- _ _ _. split; [lia|auto]. }
  destruct (lt_nth _ vls j ltac:(lia)) as (vl0 & E0). destruct (lt_nth _ vls j1) as (vl1 & E1). { rewrite Hvl. apply Nat.mod_upper_bound. lia. }
  destruct (G vl0 vl1 E0 E1) as (N & HN). exists N. intros k st' vls' ad Hk H. unfold add_nth_segment_c in *. rewrite Hvl in *. fold j1 in H |- *. cbn zeta in *.
  fi H. unfold rd in Ex. rewrite E0 in Ex. injection Ex as <-. fi H. unfold rd in Ex. rewrite E1 in Ex. injection Ex as <-. apply cbind_inv in H. destruct H as ([[[[s1 v1] m0] m1] ad'] & H1 & H & S). rewrite S. clear S.
  destruct (HN k s1 v1 m0 m1 ad' Hk H1) as (Z1 & Z2). do 2 fi H. apply cbind_inv in H. destruct H as (s2 & H2 & H & S). rewrite S. clear S. cbn [free fst snd] in *. injection H as <- <- _. split; auto.
  destruct (coords_lt (n_c x) (n_c x0)); apply count_add_segment in H2; lia.
Qed.

(** ** Re-location *)
Hypothesis Hedge : forall j e, sedge_at gv poly j e -> In e Es.

(** The node stored for a vertex is the sink of the trapezoid that contains it. *)
Definition fresh (st : stt) (vls : list (vloc Q I)) (j : nat) : Prop :=
  forall c a q, nth_error vls j = Some (Pending c a q) -> exists ti t, nth_error (st_ts st) ti = Some t /\ inside M (reg st t) c /\ q = t_k t.

Lemma sumf_ext_mod (f g : nat -> nat) : (forall i, f i = g i) -> forall r s s', s mod len = s' mod len -> sumf (fun i => f (i mod len)) (seq s r) = sumf (fun i => g (i mod len)) (seq s' r).
Proof.
  intros Hp. induction r as [|r IH]; intros s s' E; auto. cbn [seq]. rewrite !sumf_cons, (IH (S s) (S s')). { now rewrite E, Hp. }
  rewrite <- (Nat.add_1_r s), <- (Nat.add_1_r s'). rewrite <- (Nat.add_mod_idemp_l s), <- (Nat.add_mod_idemp_l s'), E by lia. reflexivity.
Qed.

Lemma relocate_cost st (un : nat -> bool) (wk : nat -> nat) fuel : rest st [] -> (forall j e, sedge_at gv poly j e -> ~ In e (medges st) -> un j = true) ->
  (forall j e d k i t i', j < len -> sedge_at gv poly j e -> ~ In e (medges st) -> ~ In (eend d e) (points st) -> nth_error (st_ts st) i = Some t -> through M e (reg st t) ->
    fst (walk_c k st d (eend (opp d) e) (eend d e) i) = Ok i' -> snd (walk_c k st d (eend (opp d) e) (eend d e) i) <= S (wk j)) ->
  let F j := S (if un j then S (wk j) else 0) in
  forall r k vls vli l c vls', vls_ok st vls -> lok M gv poly st vls vli l c -> vli < len -> length vls = len ->
  fst (relocate_c fuel k st vls (sumf (fun i => pat vls (i mod len)) (seq (vli + 1) r)) vli l c) = Ok vls' ->
  snd (relocate_c fuel k st vls (sumf (fun i => pat vls (i mod len)) (seq (vli + 1) r)) vli l c) <= sumf (fun i => F (i mod len)) (seq vli r) /\
  (forall j, fresh st vls j -> fresh st vls' j) /\ (forall i, i < r -> fresh st vls' ((vli + 1 + i) mod len)).
Proof.
  intros HR Hun Hwk F. pose proof (r_full _ _ _ _ _ _ HR) as Hf. pose proof (f_core _ _ _ _ _ Hf) as Hc. induction r as [|r IH]; intros k vls vli l c vls' HV HL Hvli Hvl H.
  { cbn [seq sumf fold_right] in *. assert (E : forall k, relocate_c fuel k st vls 0 vli l c = free (Ok vls)) by (intros [|k']; reflexivity). rewrite E in *. cbn [free fst snd] in *. injection H as <-. split; auto. split; auto. intros i Hi. lia. }
  remember (sumf (fun i => pat vls (i mod len)) (seq (vli + 1) (S r))) as u eqn:Eu. destruct u as [|u].
  { assert (E : forall k, relocate_c fuel k st vls 0 vli l c = free (Ok vls)) by (intros [|k']; reflexivity). rewrite E in *. cbn [free fst snd] in *. injection H as <-. split; [lia|]. split; auto. intros i Hi c0 a0 q0 Hp. exfalso.
    assert (Z : forall l, In (vli + 1 + i) l -> sumf (fun i => pat vls (i mod len)) l = 0 -> False).
    { induction l0 as [|x l0 IHl]; [easy|]. rewrite sumf_cons. intros [->|K] S0; [|apply IHl; auto; lia]. unfold pat at 1 in S0. rewrite Hp in S0. lia. }
    apply (Z (seq (vli + 1) (S r))); auto. apply in_seq. lia. }
  destruct k as [|k]; [discriminate|].
  set (vn := (vli + 1) mod len) in *. assert (Hvn : vn < len) by (apply Nat.mod_upper_bound; lia). destruct (lt_nth _ poly vn Hvn) as (b & Hb).
  cbn [seq] in Eu |- *. rewrite sumf_cons in Eu |- *. fold vn in Eu. rewrite (Nat.mod_small vli) by auto.
  assert (Ea : S (vli + 1) mod len = (vn + 1) mod len). { unfold vn. rewrite Nat.add_mod_idemp_l by lia. f_equal; lia. }
  assert (Es2 : S vli mod len = vn mod len). { unfold vn. rewrite Nat.mod_mod by lia. f_equal; lia. }
  assert (Hfr : forall vls'', (forall i, i < r -> fresh st vls'' ((vn + 1 + i) mod len)) -> fresh st vls'' vn -> forall i, i < S r -> fresh st vls'' ((vli + 1 + i) mod len)).
  { intros vls'' K K0 [|i] Hi. { rewrite Nat.add_0_r. exact K0. } replace ((vli + 1 + S i) mod len) with ((vn + 1 + i) mod len); [apply K; lia|]. unfold vn. rewrite <- Nat.add_assoc, Nat.add_mod_idemp_l by lia. f_equal; lia. }
  rewrite (sumf_ext_mod F F (fun _ => eq_refl) r _ _ Es2).
  cbn [relocate_c] in H |- *. cbn zeta in H |- *. unfold tick in H |- *. cbn [fst snd] in H |- *. rewrite Hvl in *. fold vn in H |- *.
  fi H. unfold rd in Ex.
  destruct (proj2 HV vn b Hb) as [(q & K1 & K2 & K3)|(ni & K1 & K2)]; rewrite K1 in Ex; injection Ex as <-; cbn iota in H |- *.
  - destruct HL as (a & Ha & -> & HL).
    set (e := orient (gv a) (gv b)). assert (Hse : sedge_at gv poly vli e) by (exists a, b; auto). assert (HeE : In e Es) by (now apply (Hedge vli)).
    set (d := if coords_gt (gv b) (gv a) then Asc else Desc) in *.
    assert (Hd : eend d e = gv b /\ eend (opp d) e = gv a).
    { unfold d, e, orient. destruct (coords_gt (gv b) (gv a)) eqn:Eg.
      - apply coords_gt_spec in Eg. apply coords_lt_spec in Eg. rewrite Eg. auto.
      - assert (coords_lt (gv a) (gv b) = false) as ->; auto. destruct (coords_lt (gv a) (gv b)) eqn:El; auto. apply coords_lt_spec in El. apply coords_gt_spec in El. congruence. }
    destruct Hd as (Hd1 & Hd2).
    assert (Hnm : ~ In e (medges st)).
    { intros K. destruct (medges_points W Es M gv st e Hc K) as (P1 & P2 & _). apply K2. rewrite <- Hd1. destruct d; auto. }
    assert (Hstart : exists ti0 t0, nth_error (st_ts st) ti0 = Some t0 /\ through M e (reg st t0) /\
      match l with LNexus ni => bind (rdu (st_ns st) ni) (fun n => get_trapezoid_toward (st_ss st) (st_ns st) d (gv b) n) | LTrap ti => Ok ti end = Ok ti0).
    { destruct l as [ni|ti].
      - destruct (points_inv _ _ _ HL) as (n & Hn & En).
        destruct (toward_ok W Es M gv HG HM st d e ni n Hf Hn HeE) as (i & t & T1 & T2 & T3); auto. { congruence. }
        { rewrite (r_cnt _ _ _ _ _ _ HR ni n Hn). apply (cnt_new W Es M gv Hcnt st e); auto. rewrite En. apply touches_spec. rewrite <- Hd2. destruct d; auto. }
        exists i, t. split; auto. split; auto. unfold rdu. rewrite Hn. cbn [bind]. now rewrite <- Hd1.
      - destruct HL as (t & Ht & Hin). exists ti, t. split; auto. split; auto. apply (inside_start W Es M HG HM (opp d) e); auto. { now apply (c_ag _ _ _ _ _ Hc ti). } now rewrite Hd2. }
    destruct Hstart as (ti0 & t0 & Ht0 & Hth & Hst).
    fi H. rewrite Hst in Ex. injection Ex as <-. apply cbind_inv in H. destruct H as (ti & H1 & H & S). rewrite S. clear S. fi H. unfold rdu in Ex. destruct (nth_error (st_ts st) ti) as [t|] eqn:Ht; [|discriminate]. injection Ex as <-.
    assert (Hcw : snd (walk_c fuel st d (gv a) (gv b) ti0) <= S (wk vli)). { rewrite <- Hd1, <- Hd2 in H1 |- *. apply (Hwk vli e d fuel ti0 t0 ti); auto. now rewrite Hd1. }
    assert (Hin : inside M (reg st t) (gv b)).
    { destruct (walk_ok W Es M gv HG HM st d e ti0 t0 Hf Ht0 HeE Hth) as (ti' & t' & (Nw & Hw) & Ht' & Hin'); [now rewrite Hd1|]. rewrite Hd1, Hd2 in Hw. rewrite Hd1 in Hin'.
      rewrite erase_walk in H1. assert (walk_mono : forall k ti x, walk k st d (gv a) (gv b) ti = Ok x -> forall k', k <= k' -> walk k' st d (gv a) (gv b) ti = Ok x).
      { clear. induction k as [|k IH]; intros ti x Hx [|k'] Hk; try discriminate; [lia|]. cbn [walk] in *. destruct (rdu (st_ts st) ti) as [t| |]; cbn [bind] in *; try discriminate. destruct (reached (st_ns st) t d (gv b)) as [[|]| |]; cbn [bind] in *; try discriminate; auto.
        destruct (ok_or _ _) as [v| |]; cbn [bind] in *; try discriminate. destruct (rdu (st_ns st) v) as [n| |]; cbn [bind] in *; try discriminate. apply IH; auto. lia. }
      pose proof (walk_mono _ _ _ H1 (max fuel Nw) ltac:(lia)) as Z1. rewrite Hw in Z1 by lia. injection Z1 as <-. assert (t = t') by congruence. now subst t'. }
    set (vls1 := upd vls vn (Pending (gv b) b (t_k t))) in *.
    assert (HV1 : vls_ok st vls1).
    { split; [unfold vls1; now rewrite upd_length|]. intros j' a' Ha'. destruct (Nat.eq_dec j' vn) as [->|Hne].
      - assert (a' = b) by congruence. subst a'. left. exists (t_k t). split; [apply nth_upd_eq; lia|]. split; auto. exists ti, t. split; auto. split; auto.
        eapply F_sink. apply (c_q1 _ _ _ _ _ Hc ti t Ht).
      - unfold vls1. rewrite nth_upd_ne by auto. now apply (proj2 HV). }
    assert (Hpat : forall i, pat vls1 i = pat vls i). { intros i. unfold pat, vls1. rewrite nth_upd. destruct (Nat.eqb_spec vn i) as [<-|]; auto. now rewrite K1. }
    assert (Hu : u = sumf (fun i => pat vls1 (i mod len)) (seq (vn + 1) r)). { rewrite (sumf_ext_mod (pat vls1) (pat vls) Hpat r _ _ (eq_sym Ea)). unfold pat at 1 in Eu. rewrite K1 in Eu. lia. }
    rewrite Hu in H |- *.
    destruct (IH k vls1 vn (LTrap ti) (gv b) vls' HV1) as (I1 & I2 & I3); auto. { exists b. split; auto. split; auto. exists t. auto. } { unfold vls1. now rewrite upd_length. }
    assert (Hf1 : fresh st vls1 vn). { intros c a0 q0 Hp. unfold vls1 in Hp. rewrite nth_upd_eq in Hp by lia. injection Hp as <- <- <-. eauto. }
    split; [|split].
    + unfold F at 1. rewrite (Hun vli e Hse Hnm). lia.
    + intros j Hj. apply I2. destruct (Nat.eq_dec j vn) as [->|Hne]; auto. intros c a0 q0 Hp. unfold vls1 in Hp. rewrite nth_upd_ne in Hp by auto. now apply (Hj c a0 q0).
    + apply Hfr; auto.
  - destruct (points_inv _ _ _ K2) as (n & Hn & En). fi H. unfold rdu in Ex. rewrite Hn in Ex. injection Ex as <-. rewrite En in *.
    assert (Hu : S u = sumf (fun i => pat vls (i mod len)) (seq (vn + 1) r)). { rewrite (sumf_ext_mod (pat vls) (pat vls) (fun _ => eq_refl) r _ _ (eq_sym Ea)). unfold pat at 1 in Eu. rewrite K1 in Eu. lia. }
    rewrite Hu in H |- *.
    destruct (IH k vls vn (LNexus ni) (gv b) vls' HV) as (I1 & I2 & I3); auto. { exists b. auto. }
    split; [unfold F at 1; lia|]. split; auto. apply Hfr; auto. apply I2. intros c0 a0 q0 Hp. congruence.
Qed.

(** A pass over the whole polygon, from a vertex before an inserted one. *)
Lemma pass_cost st (un : nat -> bool) (wk : nat -> nat) : rest st [] -> (forall j e, sedge_at gv poly j e -> ~ In e (medges st) -> un j = true) ->
  (forall j e d k i t i', j < len -> sedge_at gv poly j e -> ~ In e (medges st) -> ~ In (eend d e) (points st) -> nth_error (st_ts st) i = Some t -> through M e (reg st t) ->
    fst (walk_c k st d (eend (opp d) e) (eend d e) i) = Ok i' -> snd (walk_c k st d (eend (opp d) e) (eend d e) i) <= S (wk j)) ->
  forall vls vi0 c0, vls_ok st vls -> vi0 < len -> (exists c ni, nth_error vls ((vi0 + 1) mod len) = Some (Inserted c ni)) ->
  forall fu k vls', fst (relocate_c fu k st vls (pends vls) vi0 (LNexus 0) c0) = Ok vls' ->
  snd (relocate_c fu k st vls (pends vls) vi0 (LNexus 0) c0) <= S (sumf (fun j => S (if un j then S (wk j) else 0)) (seq 0 len)) /\ (forall j, j < len -> fresh st vls' j).
Proof.
  intros HR Hun Hwk vls vi0 c0 HV Hvi (c & ni & Hn) fu k vls' H. pose proof (proj1 HV) as Hvl.
  set (vn := (vi0 + 1) mod len) in *. assert (Hvn : vn < len) by (apply Nat.mod_upper_bound; lia). destruct (lt_nth _ poly vn Hvn) as (b & Hb). destruct (proj2 HV vn b Hb) as [(q & K1 & _)|(ni' & K1 & K2)]; [congruence|].
  assert (ni' = ni) by congruence. subst ni'. destruct (points_inv _ _ _ K2) as (nn & Hnn & En).
  assert (Hps : pends vls = sumf (fun i => pat vls (i mod len)) (seq (vn + 1) (len - 1))).
  { rewrite (pends_sum poly Hlen), Hvl, <- (sumf_rot (pat vls) len vn) by lia. replace len with (S (len - 1)) at 1 by lia. cbn [seq]. rewrite sumf_cons. rewrite Nat.mod_small by auto. unfold pat at 1. rewrite K1, Nat.add_1_r. reflexivity. }
  destruct (pends vls) as [|u] eqn:Ep.
  { assert (E : forall k, relocate_c fu k st vls 0 vi0 (LNexus 0) c0 = free (Ok vls)) by (intros [|k']; reflexivity). rewrite E in *. cbn [free fst snd] in *. injection H as <-. split; [lia|]. intros j Hj c1 a1 q1 Hp. exfalso.
    rewrite (pends_sum poly Hlen), Hvl in Ep. assert (Z : forall l, In j l -> sumf (pat vls) l = 0 -> False).
    { induction l as [|x l IHl]; [easy|]. rewrite sumf_cons. intros [->|K] S0; [|apply IHl; auto; lia]. unfold pat at 1 in S0. rewrite Hp in S0. lia. }
    apply (Z (seq 0 len)); auto. apply in_seq. lia. }
  destruct k as [|k]; [discriminate|]. cbn [relocate_c] in H |- *. cbn zeta in H |- *. unfold tick in H |- *. cbn [fst snd] in H |- *. rewrite Hvl in *. fold vn in H |- *.
  fi H. unfold rd in Ex. rewrite K1 in Ex. injection Ex as <-. cbn iota in H |- *. fi H. unfold rdu in Ex. rewrite Hnn in Ex. injection Ex as <-. rewrite En, Hps in *.
  destruct (relocate_cost st un wk fu HR Hun Hwk (len - 1) k vls vn (LNexus ni) (gv b) vls') as (I1 & I2 & I3); auto. { exists b. auto. }
  split.
  - apply le_n_S. etransitivity; [exact I1|]. rewrite <- (sumf_rot (fun j => S (if un j then S (wk j) else 0)) len vn) by lia. replace (seq vn len) with (seq vn (len - 1 + 1)) by (f_equal; lia). rewrite seq_app, sumf_app. lia.
  - intros j Hj. destruct (Nat.eq_dec j vn) as [->|Hne]. { apply I2. intros c1 a1 q1 Hp. congruence. }
    set (i := (j + len - vn - 1) mod len). assert (Hi : i < len - 1).
    { unfold i. destruct (Nat.lt_ge_cases j vn) as [L|L].
      - rewrite Nat.mod_small; lia.
      - replace (j + len - vn - 1) with (j - vn - 1 + 1 * len) by lia. rewrite Nat.mod_add, Nat.mod_small; lia. }
    replace j with ((vn + 1 + i) mod len); [apply I3; auto|]. unfold i. rewrite Nat.add_mod_idemp_r by lia. replace (vn + 1 + (j + len - vn - 1)) with (j + 1 * len) by lia. rewrite Nat.mod_add, Nat.mod_small; lia.
Qed.
End Poly.
