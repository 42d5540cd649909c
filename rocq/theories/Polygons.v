(** Inserting the segments of a polygon in any order, with relocation of the pending vertices. *)
From Coq Require Import QArith Lqa List Arith Lia Bool Permutation.
From Verif Require Import Base Coord Trap Lanes Plane Geo Region TrapInv Depth AddVertex Recut Cuts LaneOps SegStep AddSegment Segment Walk.
Import ListNotations.
Local Open Scope nat_scope.
Local Open Scope res_scope.

Lemma evt_ret {E A} (a : A) : evt (fun _ => Ok a : res E A) a.
Proof. now exists 0. Qed.

Lemma evt_bind {E A B} (f : nat -> res E A) (g : nat -> A -> res E B) a b : evt f a -> evt (fun k => g k a) b -> evt (fun k => do x <- f k; g k x) b.
Proof. intros (N & H) (N' & H'). exists (max N N'). intros k Hk. rewrite H by lia. cbn. apply H'. lia. Qed.

Lemma evt_ext {E A} (f g : nat -> res E A) a : (forall k, f k = g k) -> evt f a -> evt g a.
Proof. intros H (N & K). exists N. intros k Hk. rewrite <- H. auto. Qed.

Lemma evt_map {E E' A} (f : nat -> res E A) (h : E -> E') a : evt f a -> evt (fun k => map_err h (f k)) a.
Proof. intros (N & H). exists N. intros k Hk. now rewrite H. Qed.

(** ** Edges at a point *)

Definition pt_dec (p q : point) : {p = q} + {p <> q}.
Proof. repeat decide equality. Defined.

Definition touches (p : point) (e : edge) : bool := if pt_dec p (fst e) then true else if pt_dec p (snd e) then true else false.
Definition cnt (p : point) (l : list edge) : nat := length (filter (touches p) l).

Lemma touches_spec p e : touches p e = true <-> p = fst e \/ p = snd e.
Proof. unfold touches. destruct (pt_dec p (fst e)), (pt_dec p (snd e)); split; auto; try discriminate. intros [|]; contradiction. Qed.

Lemma cnt_app p l l' : cnt p (l ++ l') = cnt p l + cnt p l'.
Proof. unfold cnt. now rewrite filter_app, app_length. Qed.

Lemma cnt_one p e : cnt p [e] = if touches p e then 1 else 0.
Proof. unfold cnt. cbn. now destruct (touches p e). Qed.

Lemma cnt_incl p l l' : NoDup l -> incl l l' -> cnt p l <= cnt p l'.
Proof.
  intros Hn Hi. unfold cnt. apply NoDup_incl_length; [now apply NoDup_filter|]. intros e. rewrite !filter_In. intros (? & ?). auto.
Qed.

(** The edge from the lower to the higher point. *)
Definition orient (p q : point) : edge := if coords_lt p q then (p, q) else (q, p).

Lemma orient_touch p q : touches p (orient p q) = true /\ touches q (orient p q) = true.
Proof. rewrite !touches_spec. unfold orient. destruct (coords_lt p q); cbn; auto. Qed.

(** ** Sums over a rotation *)

Definition sumf (f : nat -> nat) (l : list nat) : nat := fold_right (fun i s => f i + s) 0 l.

Lemma sumf_app f l l' : sumf f (l ++ l') = sumf f l + sumf f l'.
Proof. unfold sumf. induction l as [|a l IH]; cbn; auto. rewrite IH. lia. Qed.

Lemma sumf_cons f a l : sumf f (a :: l) = f a + sumf f l.
Proof. reflexivity. Qed.

Lemma sumf_rot f n s : 0 < n -> sumf (fun i => f (i mod n)) (seq s n) = sumf f (seq 0 n).
Proof.
  intros Hn. induction s as [|s IH].
  - assert (G : forall l, (forall i, In i l -> i < n) -> sumf (fun i => f (i mod n)) l = sumf f l).
    { induction l as [|a l IHl]; intros H; auto. rewrite !sumf_cons, IHl by (intros; apply H; now right). rewrite Nat.mod_small; auto. apply H. now left. }
    apply G. intros i Hi. apply in_seq in Hi. lia.
  - rewrite <- IH. pose proof (seq_S n s) as K. change (seq s (S n)) with (s :: seq (S s) n) in K. apply (f_equal (sumf (fun i => f (i mod n)))) in K.
    rewrite sumf_app, !sumf_cons in K. cbn [sumf fold_right] in K. replace ((s + n) mod n) with (s mod n) in K; [lia|]. replace (s + n) with (s + 1 * n) by lia. now rewrite Nat.mod_add by lia.
Qed.

Section Poly.
Context {I : Type}.
Variables (W : list point) (Es : list edge) (M : Q) (gv : I -> point).
Hypothesis HG : geo W Es.
Hypothesis HM : shear M W.
Notation stt := (state Q I).
Notation core := (core W Es M gv).
Notation full := (full W Es M gv).
Notation loc := (loc M).
Variable ieqb : I -> I -> bool.
Hypothesis Hieq : forall a b, ieqb a b = true <-> a = b.
Hypothesis Hcnt : forall p, cnt p Es <= 2.
Variable dbg : bool.

Definition dcount (st : stt) : Prop := forall v n, nth_error (st_ns st) v = Some n -> deg n = cnt (n_c n) (medges st).

(** All nexuses have a segment except possibly those at [X]. *)
Record rest (st : stt) (X : list point) : Prop := {
  r_full : full st;
  r_cnt : dcount st;
  r_deg : forall v n, nth_error (st_ns st) v = Some n -> 1 <= deg n \/ In (n_c n) X
}.

Lemma medges_points st e : core st -> In e (medges st) -> In (fst e) (points st) /\ In (snd e) (points st) /\ In e Es.
Proof.
  intros Hc He. apply In_nth_error in He. destruct He as (x & Hx). destruct (medges_inv _ _ _ Hx) as (g & Hg & <-).
  destruct (c_ss _ _ _ _ _ Hc x g Hg) as (K1 & K2 & K3). split; [eapply nth_error_In; eauto|]. split; [eapply nth_error_In; eauto|auto].
Qed.

Lemma cnt_new st e p : core st -> In e Es -> ~ In e (medges st) -> touches p e = true -> cnt p (medges st) <= 1.
Proof.
  intros Hc He Hn Ht. assert (K : cnt p (e :: medges st) <= cnt p Es).
  { apply cnt_incl. { constructor; auto. apply (c_snd _ _ _ _ _ Hc). } intros x [<-|Hx]; auto. now apply (medges_points st). }
  change (e :: medges st) with ([e] ++ medges st) in K. rewrite cnt_app, cnt_one, Ht in K. specialize (Hcnt p). lia.
Qed.

(** ** One polygon *)

Variable poly : list I.
Notation len := (length poly).
Hypothesis Hlen : 2 <= len.
Hypothesis Hdist : NoDup (map gv poly).

(** The edge from position [j]. *)
Definition sedge_at (j : nat) (e : edge) : Prop := exists a b, nth_error poly j = Some a /\ nth_error poly ((j + 1) mod len) = Some b /\ e = orient (gv a) (gv b).

Lemma sedge_ex j : j < len -> exists e, sedge_at j e.
Proof.
  intros Hj. destruct (lt_nth _ poly j Hj) as (a & Ha). destruct (lt_nth _ poly ((j + 1) mod len)) as (b & Hb). { apply Nat.mod_upper_bound. lia. }
  exists (orient (gv a) (gv b)), a, b. auto.
Qed.

Lemma poly_eq i j a b : nth_error poly i = Some a -> nth_error poly j = Some b -> gv a = gv b -> i = j.
Proof.
  intros Hi Hj E. apply (proj1 (NoDup_nth_error (map gv poly)) Hdist). { rewrite map_length. eapply nth_lt; eauto. }
  rewrite !nth_error_map, Hi, Hj. cbn. now rewrite E.
Qed.

Lemma next_ne j : j < len -> (j + 1) mod len <> j.
Proof.
  intros Hj. destruct (Nat.eq_dec (j + 1) len) as [E|E].
  - rewrite E, Nat.mod_same by lia. lia.
  - rewrite Nat.mod_small by lia. lia.
Qed.

Hypothesis in_W : forall j a, nth_error poly j = Some a -> In (gv a) W.

Definition vls_ok (st : stt) (vls : list (vloc Q I)) : Prop := length vls = len /\
  forall j a, nth_error poly j = Some a ->
    (exists q, nth_error vls j = Some (Pending (gv a) a q) /\ ~ In (gv a) (points st) /\ loc st (gv a) q) \/
    (exists ni, nth_error vls j = Some (Inserted (gv a) ni) /\ nth_error (points st) ni = Some (gv a)).

Definition pen (v : vloc Q I) : bool := match v with Pending _ _ _ => true | Inserted _ _ => false end.
Definition pends (vls : list (vloc Q I)) : nat := length (filter pen vls).

Lemma filter_upd {A} (f : A -> bool) l j x y : nth_error l j = Some x ->
  length (filter f (upd l j y)) + (if f x then 1 else 0) = length (filter f l) + (if f y then 1 else 0).
Proof.
  revert j. induction l as [|a l IH]; intros [|j] H; cbn in *; try discriminate.
  - injection H as ->. destruct (f x), (f y); cbn; lia.
  - specialize (IH j H). destruct (f a); cbn; lia.
Qed.

(** The inner [add_vertex] (src/trapezoidation.rs 294-302). *)
Lemma add_vertex_at_ok st vls X j a q : rest st X -> vls_ok st vls -> nth_error poly j = Some a -> nth_error vls j = Some (Pending (gv a) a q) ->
  exists st', let ni := length (st_ns st) in let vls' := upd vls j (Inserted (gv a) ni) in
    evt (fun k => add_vertex_at gv dbg k st vls j a q) (st', vls', ni) /\ rest st' (gv a :: X) /\ vls_ok st' vls' /\
    points st' = points st ++ [gv a] /\ medges st' = medges st /\ pends vls' + 1 = pends vls /\ vgrow 1 st st'.
Proof.
  intros [Rf Rc Rd] (Vl & Vo) Ha Hv. destruct (Vo j a Ha) as [(q' & K1 & K2 & K3)|(ni & K1 & _)]; [|congruence].
  assert (q' = q) by congruence. subst q'. pose proof (in_W j a Ha) as HW.
  destruct (add_vertex_ok W Es M gv HG HM st a q dbg Rf HW K2 K3) as (st' & B1 & B2 & B3 & B4 & (B5 & B6) & B7 & B8).
  assert (Hm : medges st' = medges st) by (unfold medges; now rewrite B4).
  pose proof (f_core _ _ _ _ _ Rf) as Hc.
  exists st'. cbn zeta. split.
  { eapply evt_ext; [|eapply (evt_bind _ (fun k x => do vls' <- modify vls j (fun vl => Ok (Inserted (vl_coords vl) (snd x))); Ok (fst x, vls', snd x))); [exact B1|]].
    - intros k. unfold add_vertex_at. destruct (add_vertex gv dbg k st a q) as [[s n]| |]; reflexivity.
    - cbn [fst snd]. unfold modify. rewrite Hv. cbn. apply evt_ret. }
  assert (HN : length (st_ns st) = length (points st)) by (unfold points; now rewrite map_length).
  assert (Hnc : forall v n', nth_error (st_ns st') v = Some n' -> (v = length (st_ns st) /\ n_c n' = gv a /\ deg n' = 0) \/ exists n, nth_error (st_ns st) v = Some n /\ n_c n' = n_c n /\ deg n' = deg n).
  { intros v n' Hn'. pose proof (points_nth _ _ _ Hn') as Hp. rewrite B3 in Hp. destruct (B7 v n' Hn') as [(-> & D)|(n & Hn & D)].
    - left. split; auto. rewrite HN, nth_snoc in Hp. split; congruence.
    - right. exists n. split; auto. split; auto. rewrite nth_error_app1 in Hp by (rewrite <- HN; eapply nth_lt; eauto). rewrite (points_nth _ _ _ Hn) in Hp. congruence. }
  split.
  { split; auto.
    - intros v n' Hn'. rewrite Hm. destruct (Hnc v n' Hn') as [(-> & E & D)|(n & Hn & E & D)]; rewrite D, E.
      + symmetry. unfold cnt. destruct (filter (touches (gv a)) (medges st)) as [|e l] eqn:Ef; auto. exfalso.
        assert (K : In e (filter (touches (gv a)) (medges st))) by (rewrite Ef; now left). apply filter_In in K. destruct K as (K & Kt).
        apply touches_spec in Kt. destruct (medges_points st e Hc K) as (P1 & P2 & _). destruct Kt as [-> | ->] in K2; contradiction.
      + now apply Rc with (v := v).
    - intros v n' Hn'. destruct (Hnc v n' Hn') as [(-> & E & D)|(n & Hn & E & D)].
      + right. left. congruence.
      + destruct (Rd v n Hn) as [?|?]; [left; lia|right; right; congruence]. }
  split.
  { split; [now rewrite upd_length|]. intros j' a' Ha'. destruct (Nat.eq_dec j' j) as [->|Hne].
    - assert (a' = a) by congruence. subst a'. right. exists (length (st_ns st)). split; [apply nth_upd_eq; eapply nth_lt; eauto|]. now rewrite B3, HN, nth_snoc.
    - rewrite nth_upd_ne by auto. destruct (Vo j' a' Ha') as [(q' & L1 & L2 & L3)|(ni & L1 & L2)].
      + left. exists q'. assert (~ In (gv a') (points st')).
        { rewrite B3. intros K. apply in_app_or in K. destruct K as [K|[K|[]]]; [contradiction|]. apply Hne. eapply poly_eq; eauto. }
        split; auto. split; auto. apply B5; auto. eapply in_W; eauto.
      + right. exists ni. split; auto. rewrite B3. now apply nth_app_l. }
  split; auto. split; auto. pose proof (filter_upd pen vls j _ (Inserted (gv a) (length (st_ns st))) Hv) as K. cbn [pen] in K. unfold pends. split; [lia|auto].
Qed.

Lemma rest_weaken st X Y : rest st X -> incl X Y -> rest st Y.
Proof. intros [A B C] H. split; auto. intros v n Hn. destruct (C v n Hn); auto. Qed.

(** Both ends of the segment from position [j] are inserted (src/trapezoidation.rs 292-339). *)
Lemma add_ends_ok st vls j a b j1 : rest st [] -> vls_ok st vls -> j < len -> nth_error poly j = Some a -> nth_error poly j1 = Some b -> j1 <> j ->
  exists st1 vls1 ni0 ni1 added,
    evt (fun k => match nth_error vls j, nth_error vls j1 with
      | Some vl0, Some vl1 => match vl0, vl1 with
        | Pending c0 index0 qi0, Pending c1 index1 qi1 =>
          if coords_lt c0 c1 then
            do '(st1, vls1, ni0) <- add_vertex_at gv dbg k st vls j index0 qi0;
            do '(st2, vls2, ni1) <- add_vertex_at gv dbg k st1 vls1 j1 index1 qi1;
            Ok (st2, vls2, ni0, ni1, 2)
          else
            do '(st1, vls1, ni1) <- add_vertex_at gv dbg k st vls j1 index1 qi1;
            do '(st2, vls2, ni0) <- add_vertex_at gv dbg k st1 vls1 j index0 qi0;
            Ok (st2, vls2, ni0, ni1, 2)
        | Pending _ index0 qi0, Inserted _ ni1 =>
          do '(st1, vls1, ni0) <- add_vertex_at gv dbg k st vls j index0 qi0;
          Ok (st1, vls1, ni0, ni1, 1)
        | Inserted _ ni0, Pending _ index1 qi1 =>
          do '(st1, vls1, ni1) <- add_vertex_at gv dbg k st vls j1 index1 qi1;
          Ok (st1, vls1, ni0, ni1, 1)
        | Inserted _ ni0, Inserted _ ni1 => Ok (st, vls, ni0, ni1, 0)
        end
      | _, _ => Crash Panic end) (st1, vls1, ni0, ni1, added) /\
    rest st1 [gv a; gv b] /\ vls_ok st1 vls1 /\ medges st1 = medges st /\ pends vls1 + added = pends vls /\
    incl (points st1) (points st ++ [gv a; gv b]) /\ incl (points st) (points st1) /\
    nth_error vls1 j = Some (Inserted (gv a) ni0) /\ nth_error vls1 j1 = Some (Inserted (gv b) ni1) /\ (exists n, n <= 2 /\ vgrow n st st1).
Proof.
  intros HR HV Hj Ha Hb Hjj. assert (Hvl : length vls = len) by apply HV.
  destruct (proj2 HV j a Ha) as [(q0 & K1 & K2 & K3)|(n0 & K1 & K2)]; destruct (proj2 HV j1 b Hb) as [(q1 & L1 & L2 & L3)|(n1 & L1 & L2)]; rewrite K1, L1.
    - destruct (coords_lt (gv a) (gv b)).
      + destruct (add_vertex_at_ok st vls [] j a q0 HR HV Ha K1) as (st1 & A1 & A2 & A3 & A4 & A5 & A6 & A7). set (m0 := length (st_ns st)) in *. set (vls1 := upd vls j (Inserted (gv a) m0)) in *.
        assert (L1' : nth_error vls1 j1 = Some (Pending (gv b) b q1)) by (unfold vls1; now rewrite nth_upd_ne by auto).
        destruct (add_vertex_at_ok st1 vls1 _ j1 b q1 A2 A3 Hb L1') as (st2 & B1 & B2 & B3 & B4 & B5 & B6 & B7). set (m1 := length (st_ns st1)) in *.
        exists st2, (upd vls1 j1 (Inserted (gv b) m1)), m0, m1, 2. split.
        { eapply evt_bind; [exact A1|]. cbn beta iota. eapply evt_bind; [exact B1|]. apply evt_ret. }
        split; [eapply rest_weaken; eauto; intros ? [<-|[<-|[]]]; cbn; auto|]. split; auto. split; [congruence|]. split; [lia|].
        split; [rewrite B4, A4, <- app_assoc; apply incl_refl|]. split; [rewrite B4, A4, <- app_assoc; apply incl_appl, incl_refl|].
        split; [rewrite nth_upd_ne by auto; apply nth_upd_eq; lia|]. split; [apply nth_upd_eq; unfold vls1; rewrite upd_length; eapply nth_lt; eauto|]. exists 2. split; [lia|]. exact (vgrow_trans _ _ _ _ _ A7 B7).
      + destruct (add_vertex_at_ok st vls [] j1 b q1 HR HV Hb L1) as (st1 & A1 & A2 & A3 & A4 & A5 & A6 & A7). set (m1 := length (st_ns st)) in *. set (vls1 := upd vls j1 (Inserted (gv b) m1)) in *.
        assert (K1' : nth_error vls1 j = Some (Pending (gv a) a q0)) by (unfold vls1; now rewrite nth_upd_ne by auto).
        destruct (add_vertex_at_ok st1 vls1 _ j a q0 A2 A3 Ha K1') as (st2 & B1 & B2 & B3 & B4 & B5 & B6 & B7). set (m0 := length (st_ns st1)) in *.
        exists st2, (upd vls1 j (Inserted (gv a) m0)), m0, m1, 2. split.
        { eapply evt_bind; [exact A1|]. cbn beta iota. eapply evt_bind; [exact B1|]. apply evt_ret. }
        split; [exact B2|]. split; auto. split; [congruence|]. split; [lia|].
        split; [rewrite B4, A4, <- app_assoc; intros x Hx; apply in_app_or in Hx; apply in_or_app; destruct Hx as [?|[<-|[<-|[]]]]; cbn; auto|]. split; [rewrite B4, A4, <- app_assoc; apply incl_appl, incl_refl|].
        split; [apply nth_upd_eq; unfold vls1; rewrite upd_length; lia|]. split; [rewrite nth_upd_ne by auto; apply nth_upd_eq; eapply nth_lt; eauto|]. exists 2. split; [lia|]. exact (vgrow_trans _ _ _ _ _ A7 B7).
    - destruct (add_vertex_at_ok st vls [] j a q0 HR HV Ha K1) as (st1 & A1 & A2 & A3 & A4 & A5 & A6 & A7). set (m0 := length (st_ns st)) in *.
      exists st1, (upd vls j (Inserted (gv a) m0)), m0, n1, 1. split.
      { eapply evt_bind; [exact A1|]. apply evt_ret. }
      split; [eapply rest_weaken; eauto; intros ? [<-|[]]; cbn; auto|]. split; auto. split; [congruence|]. split; [lia|].
      split; [rewrite A4; intros x Hx; apply in_app_or in Hx; apply in_or_app; destruct Hx as [?|[<-|[]]]; cbn; auto|]. split; [rewrite A4; apply incl_appl, incl_refl|].
      split; [apply nth_upd_eq; lia|]. split; [rewrite nth_upd_ne by auto; auto|]. exists 1. auto.
    - destruct (add_vertex_at_ok st vls [] j1 b q1 HR HV Hb L1) as (st1 & A1 & A2 & A3 & A4 & A5 & A6 & A7). set (m1 := length (st_ns st)) in *.
      exists st1, (upd vls j1 (Inserted (gv b) m1)), n0, m1, 1. split.
      { eapply evt_bind; [exact A1|]. apply evt_ret. }
      split; [eapply rest_weaken; eauto; intros ? [<-|[]]; cbn; auto|]. split; auto. split; [congruence|]. split; [lia|].
      split; [rewrite A4; intros x Hx; apply in_app_or in Hx; apply in_or_app; destruct Hx as [?|[<-|[]]]; cbn; auto|]. split; [rewrite A4; apply incl_appl, incl_refl|].
      split; [rewrite nth_upd_ne by auto; auto|]. split; [apply nth_upd_eq; eapply nth_lt; eauto|]. exists 1. auto.
    - exists st, vls, n0, n1, 0. split; [apply evt_ret|]. split; [eapply rest_weaken; eauto; intros ? []|]. split; auto. split; auto. split; [lia|].
      split; [apply incl_appl, incl_refl|]. split; [apply incl_refl|]. split; auto. split; auto. exists 0. split; [lia|apply vgrow_refl].
Qed.

(** What one segment adds: a trapezoid for it and for each new vertex, two query nodes for each new vertex and one for
    each trapezoid with the segment as a side; at most three more nodes on the way to a point. *)
Definition ngrow (st st' : stt) : Prop :=
  (exists l, points st' = points st ++ l) /\
  length (st_ts st') + length (points st) = S (length (st_ts st) + length (points st')) /\
  length (st_qs st') + 2 * length (points st) = length (st_qs st) + 2 * length (points st') + adj (st_ts st') (length (st_ss st)) /\
  deep 3 (fun t => has_side (length (st_ss st)) t = true \/ exists v, length (points st) <= v /\ (t_d t = Some v \/ t_u t = Some v)) st st'.

(** [add_nth_segment] (src/trapezoidation.rs 292-347) *)
Lemma add_nth_ok st vls j e : rest st [] -> vls_ok st vls -> j < len -> sedge_at j e -> In e Es -> ~ In e (medges st) ->
  exists st' vls' added, evt (fun k => add_nth_segment ieqb gv dbg k st vls j) (st', vls', added) /\ rest st' [] /\ vls_ok st' vls' /\
    medges st' = medges st ++ [e] /\ pends vls' + added = pends vls /\ incl (points st') (points st ++ map gv poly) /\ incl (points st) (points st') /\
    (exists c ni, nth_error vls' ((j + 1) mod len) = Some (Inserted c ni)) /\ ngrow st st'.
Proof.
  intros HR HV Hj He HeE Hni. destruct He as (a & b & Ha & Hb & Ee). set (j1 := (j + 1) mod len) in *.
  assert (Hjj : j1 <> j) by now apply next_ne.
  assert (Hvl : length vls = len) by apply HV.
  pose proof (add_ends_ok st vls j a b j1 HR HV Hj Ha Hb Hjj) as Hins.
  destruct Hins as (st1 & vls1 & ni0 & ni1 & added & E1 & R1 & V1 & M1 & P1 & I1 & I1' & V0' & V1' & (vn & Hvn & HVG)).
  assert (Q0 : nth_error (points st1) ni0 = Some (gv a)). { destruct (proj2 V1 j a Ha) as [(q & K & _)|(ni & K & L)]; [congruence|]. assert (ni = ni0) by congruence. now subst. }
  assert (Q1 : nth_error (points st1) ni1 = Some (gv b)). { destruct (proj2 V1 j1 b Hb) as [(q & K & _)|(ni & K & L)]; [congruence|]. assert (ni = ni1) by congruence. now subst. }
  destruct (points_inv _ _ _ Q0) as (m0 & Hm0 & Em0). destruct (points_inv _ _ _ Q1) as (m1 & Hm1 & Em1).
  destruct R1 as [Rf Rc Rd]. pose proof (f_core _ _ _ _ _ Rf) as Hc.
  set (mn := if coords_lt (gv a) (gv b) then ni0 else ni1). set (mx := if coords_lt (gv a) (gv b) then ni1 else ni0).
  set (cmn := if coords_lt (gv a) (gv b) then gv a else gv b). set (cmx := if coords_lt (gv a) (gv b) then gv b else gv a).
  assert (Emn : nth_error (points st1) mn = Some cmn) by (unfold mn, cmn; destruct (coords_lt (gv a) (gv b)); auto).
  assert (Emx : nth_error (points st1) mx = Some cmx) by (unfold mx, cmx; destruct (coords_lt (gv a) (gv b)); auto).
  assert (Eor : e = (cmn, cmx)) by (rewrite Ee; unfold orient, cmn, cmx; destruct (coords_lt (gv a) (gv b)); auto).
  rewrite <- M1 in Hni.
  assert (Hne : cmn <> cmx). { rewrite Eor in HeE. destruct (g_end _ _ HG _ HeE) as (_ & _ & K). cbn in K. intros E. rewrite E in K. eapply plt_irrefl; eauto. split; reflexivity. }
  destruct (add_segment_ok W Es M gv HG HM ieqb Hieq st1 mn mx cmn cmx dbg) as (st2 & B1 & B2 & B3 & B4 & B5 & B6 & B7 & B8 & B9); auto.
  { now rewrite <- Eor. } { now rewrite <- Eor. }
  { intros v n Hn Hv. rewrite (Rc v n Hn). apply (cnt_new st1 e); auto. rewrite Eor. apply touches_spec. cbn.
    apply points_nth in Hn. destruct Hv as [-> | ->]; [left|right]; congruence. }
  { intros v n Hn Hv1 Hv2. destruct (Rd v n Hn) as [?|K]; auto. exfalso. apply points_nth in Hn.
    assert (n_c n = cmn \/ n_c n = cmx) as [K'|K'].
    { unfold cmn, cmx. destruct K as [<-|[<-|[]]]; destruct (coords_lt (gv a) (gv b)); auto. }
    - apply Hv1. eapply (points_eq W Es M gv st1); eauto. congruence.
    - apply Hv2. eapply (points_eq W Es M gv st1); eauto. congruence. }
  pose proof (same_ns_c _ _ B4) as Hpt.
  assert (Hm2 : medges st2 = medges st1 ++ [e]). { unfold medges. rewrite B3, map_app. cbn. now rewrite Eor. }
  exists st2, vls1, added. split.
  { eapply evt_ext; [|eapply (evt_bind _ (fun k x => let '(st1, vls1, ni0, ni1, added) := x in
      do n0 <- rdu (st_ns st1) ni0;
      do n1 <- rdu (st_ns st1) ni1;
      do st2 <- (if coords_lt (n_c n0) (n_c n1) then add_segment ieqb dbg k st1 ni0 ni1 (n_c n0) (n_c n1)
                 else add_segment ieqb dbg k st1 ni1 ni0 (n_c n1) (n_c n0));
      Ok (st2, vls1, added))); [exact E1|]].
    - intros k. cbv beta. unfold add_nth_segment, rd. rewrite Hvl. fold j1. destruct (nth_error vls j) as [vl0|]; [|reflexivity]. cbn [bind]. destruct (nth_error vls j1) as [vl1|]; [|reflexivity].
      cbn [bind]. reflexivity.
    - cbn beta iota. unfold rdu. rewrite Hm0, Hm1. cbn [bind]. rewrite Em0, Em1. eapply evt_bind; [|apply evt_ret].
      unfold mn, mx, cmn, cmx in B1. destruct (coords_lt (gv a) (gv b)); exact B1. }
  assert (Hnn : forall v n', nth_error (st_ns st2) v = Some n' -> exists n, nth_error (st_ns st1) v = Some n /\ n_c n' = n_c n /\
    deg n' = deg n + (if touches (n_c n) e then 1 else 0)).
  { intros v n' Hn'. pose proof (points_nth _ _ _ Hn') as Hp. rewrite Hpt in Hp. destruct (points_inv _ _ _ Hp) as (n & Hn & En). exists n. split; auto. split; auto.
    rewrite (B6 v n n' Hn Hn'). assert (K1 : v = mn <-> n_c n = cmn).
    { split; [intros ->; congruence|]. intros K. eapply (points_eq W Es M gv st1); eauto. congruence. }
    assert (K2 : v = mx <-> n_c n = cmx). { split; [intros ->; congruence|]. intros K. eapply (points_eq W Es M gv st1); eauto. congruence. }
    assert (K3 : touches (n_c n) e = true <-> v = mn \/ v = mx). { rewrite touches_spec, Eor. cbn [fst snd]. tauto. }
    assert (K4 : ~ (v = mn /\ v = mx)). { intros (Z1 & Z2). apply Hne. rewrite <- (proj1 K1 Z1). tauto. }
    destruct (Nat.eqb_spec v mn), (Nat.eqb_spec v mx), (touches (n_c n) e); try lia; exfalso; try tauto; intuition congruence. }
  split.
  { split; auto.
    - intros v n' Hn'. destruct (Hnn v n' Hn') as (n & Hn & E & D). rewrite D, E, Hm2, cnt_app, cnt_one. now rewrite (Rc v n Hn).
    - intros v n' Hn'. left. destruct (Hnn v n' Hn') as (n & Hn & E & D). destruct (Rd v n Hn) as [?|K]; [lia|].
      assert (touches (n_c n) e = true) as T. { rewrite Ee. destruct (orient_touch (gv a) (gv b)). destruct K as [<-|[<-|[]]]; auto. } rewrite T in D. lia. }
  split.
  { split; [apply V1|]. intros j' a' Ha'. rewrite Hpt. destruct (proj2 V1 j' a' Ha') as [(q & L1 & L2 & L3)|(ni & L1 & L2)].
    - left. exists q. split; auto. split; auto. apply B5; auto. { eapply in_W; eauto. } now rewrite Hpt.
    - right. eauto. }
  split; [rewrite Hm2, M1; reflexivity|]. split; [lia|]. split; [|split].
  - rewrite Hpt. intros x Hx. apply I1 in Hx. apply in_app_or in Hx. apply in_or_app. destruct Hx as [?|Hx]; auto. right.
    destruct Hx as [<-|[<-|[]]]; apply in_map; eapply nth_error_In; eauto.
  - now rewrite Hpt.
  - split; [exists (gv b), ni1; exact V1'|]. destruct HVG as (G1 & G2 & G3 & G4). assert (Ess : length (st_ss st1) = length (st_ss st)). { apply (f_equal (@length _)) in M1. unfold medges in M1. now rewrite !map_length in M1. }
    rewrite Ess in B8, B9. unfold ngrow. rewrite Hpt. split; [exact G1|]. split; [lia|]. split; [lia|]. eapply deep_weaken; [exact (deep_trans _ _ _ _ _ _ _ G4 B9)|lia|]. intros t [K|K]; auto.
Qed.

(** ** Relocation *)

Hypothesis Hedge : forall j e, sedge_at j e -> In e Es.

Definition lok (st : stt) (vls : list (vloc Q I)) (vli : nat) (l : location) (c : point) : Prop :=
  exists a, nth_error poly vli = Some a /\ c = gv a /\
    match l with
    | LNexus ni => nth_error (points st) ni = Some c
    | LTrap ti => exists t, nth_error (st_ts st) ti = Some t /\ inside M (reg st t) c
    end.

Definition pat (vls : list (vloc Q I)) (j : nat) : nat := match nth_error vls j with Some (Pending _ _ _) => 1 | _ => 0 end.

Lemma pends_sum vls : pends vls = sumf (pat vls) (seq 0 (length vls)).
Proof.
  induction vls as [|v vls IH] using rev_ind; auto. rewrite app_length. cbn [length]. rewrite Nat.add_1_r, seq_S, sumf_app. unfold pends in *. rewrite filter_app, app_length, IH.
  f_equal.
  - assert (G : forall l, (forall i, In i l -> i < length vls) -> sumf (pat vls) l = sumf (pat (vls ++ [v])) l).
    { induction l as [|a l IHl]; intros H; auto. rewrite !sumf_cons, IHl by (intros; apply H; now right). f_equal. unfold pat. rewrite nth_error_app1; auto. apply H. now left. }
    apply G. intros i Hi. apply in_seq in Hi. lia.
  - cbn. unfold pat. rewrite nth_snoc. destruct v; reflexivity.
Qed.

Lemma mod_next p r : 0 < len -> (p mod len + S r) mod len = ((p + 1) mod len + r) mod len.
Proof. intros H. rewrite !Nat.add_mod_idemp_l by lia. f_equal. lia. Qed.

Lemma relocate_ok st r : rest st [] -> forall vls vli l c u, vls_ok st vls -> lok st vls vli l c -> vli < len ->
  u <= sumf (fun i => pat vls (i mod len)) (seq (vli + 1) r) ->
  exists vls', (exists N, forall fuel k, N <= fuel -> r <= k -> relocate fuel k st vls u vli l c = Ok vls') /\ vls_ok st vls' /\ pends vls' = pends vls.
Proof.
  intros HR. pose proof (r_full _ _ HR) as Hf. pose proof (f_core _ _ _ _ _ Hf) as Hc. induction r as [|r IH]; intros vls vli l c u HV HL Hvli Hu.
  { cbn in Hu. assert (u = 0) by lia. subst u. exists vls. split; auto. exists 0. intros fuel [|k] _ _; reflexivity. }
  destruct u as [|u]. { exists vls. split; auto. exists 0. intros fuel [|k] _ _; reflexivity. }
  set (vn := (vli + 1) mod len). assert (Hvn : vn < len) by (apply Nat.mod_upper_bound; lia).
  pose proof (proj1 HV) as Hvl. destruct (lt_nth _ poly vn Hvn) as (b & Hb).
  assert (Hsum : forall vls', (forall i, pat vls' i = pat vls i) -> sumf (fun i => pat vls' (i mod len)) (seq (vn + 1) r) = sumf (fun i => pat vls (i mod len)) (seq (vli + 2) r)).
  { intros vls' Hp. assert (G : forall r s s', s mod len = s' mod len -> sumf (fun i => pat vls' (i mod len)) (seq s r) = sumf (fun i => pat vls (i mod len)) (seq s' r)).
    { clear r IH Hu. induction r as [|r IH]; intros s s' E; auto. cbn [seq]. rewrite !sumf_cons, (IH (S s) (S s')). { now rewrite E, Hp. }
      rewrite <- (Nat.add_1_r s), <- (Nat.add_1_r s'). rewrite <- (Nat.add_mod_idemp_l s), <- (Nat.add_mod_idemp_l s'), E by lia. reflexivity. }
    apply G. unfold vn. rewrite Nat.add_mod_idemp_l by lia. f_equal. lia. }
  cbn [seq sumf fold_right] in Hu. change (fold_right (fun i s => pat vls (i mod len) + s) 0 (seq (S (vli + 1)) r)) with (sumf (fun i => pat vls (i mod len)) (seq (S (vli + 1)) r)) in Hu.
  replace (S (vli + 1)) with (vli + 2) in Hu by lia. fold vn in Hu.
  destruct (proj2 HV vn b Hb) as [(q & K1 & K2 & K3)|(ni & K1 & K2)].
  - (* pending *)
    destruct HL as (a & Ha & -> & HL).
    set (e := orient (gv a) (gv b)). assert (HeE : In e Es) by (apply (Hedge vli); exists a, b; auto).
    set (d := if coords_gt (gv b) (gv a) then Asc else Desc).
    assert (Hnab : gv a <> gv b). { intros E. apply (next_ne vli Hvli). fold vn. symmetry. eapply poly_eq; eauto. }
    assert (Hd : eend d e = gv b /\ eend (opp d) e = gv a).
    { unfold d, e, orient. destruct (coords_gt (gv b) (gv a)) eqn:Eg.
      - apply coords_gt_spec in Eg. apply coords_lt_spec in Eg. rewrite Eg. auto.
      - assert (coords_lt (gv a) (gv b) = false) as ->; auto. destruct (coords_lt (gv a) (gv b)) eqn:El; auto. apply coords_lt_spec in El. apply coords_gt_spec in El. congruence. }
    destruct Hd as (Hd1 & Hd2).
    assert (Hstart : exists ti0 t0, nth_error (st_ts st) ti0 = Some t0 /\ through M e (reg st t0) /\
      match l with LNexus ni => do n <- rdu (st_ns st) ni; get_trapezoid_toward (st_ss st) (st_ns st) d (gv b) n | LTrap ti => Ok ti end = Ok ti0).
    { destruct l as [ni|ti].
      - destruct (points_inv _ _ _ HL) as (n & Hn & En).
        assert (Hnm : ~ In e (medges st)).
        { intros K. destruct (medges_points st e Hc K) as (P1 & P2 & _). apply K2. rewrite <- Hd1. destruct d; auto. }
        destruct (toward_ok W Es M gv HG HM st d e ni n Hf Hn HeE) as (i & t & T1 & T2 & T3); auto. { congruence. }
        { rewrite (r_cnt _ _ HR ni n Hn). apply (cnt_new st e); auto. rewrite En. apply touches_spec. rewrite <- Hd2. destruct d; auto. }
        exists i, t. split; auto. split; auto. unfold rdu. rewrite Hn. cbn [bind]. now rewrite <- Hd1.
      - destruct HL as (t & Ht & Hin). exists ti, t. split; auto. split; auto. apply (inside_start W Es M HG HM (opp d) e); auto. { now apply (c_ag _ _ _ _ _ Hc ti). } now rewrite Hd2. }
    destruct Hstart as (ti0 & t0 & Ht0 & Hth & Hst).
    destruct (walk_ok W Es M gv HG HM st d e ti0 t0 Hf Ht0 HeE Hth) as (ti & t & (Nw & Hw) & Ht & Hin); [now rewrite Hd1|].
    rewrite Hd1, Hd2 in Hw. rewrite Hd1 in Hin.
    set (vls1 := upd vls vn (Pending (gv b) b (t_k t))).
    assert (Hvnl : vn < length vls) by lia.
    assert (HV1 : vls_ok st vls1).
    { split; [unfold vls1; now rewrite upd_length|]. intros j' a' Ha'. destruct (Nat.eq_dec j' vn) as [->|Hne].
      - assert (a' = b) by congruence. subst a'. left. exists (t_k t). split; [now apply nth_upd_eq|]. split; auto. exists ti, t. split; auto. split; auto.
        eapply F_sink. apply (c_q1 _ _ _ _ _ Hc ti t Ht).
      - unfold vls1. rewrite nth_upd_ne by auto. now apply (proj2 HV). }
    destruct (IH vls1 vn (LTrap ti) (gv b) u) as (vls' & (N & HN) & Q1 & Q2); auto.
    { exists b. split; auto. split; auto. exists t. auto. }
    { rewrite Hsum. { unfold pat at 1 in Hu. rewrite K1 in Hu. lia. }
      intros i. unfold pat, vls1. rewrite nth_upd. destruct (Nat.eqb_spec vn i) as [<-|]; auto. now rewrite K1. }
    exists vls'. split; [|split; auto].
    + exists (max Nw N). intros fuel [|k] Hfu Hk; [lia|]. cbn [relocate]. rewrite Hvl. fold vn. unfold rd. rewrite K1. cbn [bind]. fold d. rewrite Hst. cbn [bind].
      rewrite Hw by lia. cbn [bind]. unfold rdu. rewrite Ht. cbn [bind]. fold vls1. apply HN; lia.
    + rewrite Q2. pose proof (filter_upd pen vls vn _ (Pending (gv b) b (t_k t)) K1) as Z. cbn [pen] in Z. unfold pends, vls1. lia.
  - destruct (points_inv _ _ _ K2) as (n & Hn & En).
    destruct (IH vls vn (LNexus ni) (gv b) (S u)) as (vls' & (N & HN) & Q1 & Q2); auto.
    { exists b. auto. }
    { rewrite Hsum by auto. unfold pat at 1 in Hu. rewrite K1 in Hu. lia. }
    exists vls'. split; [|split; auto]. exists N. intros fuel [|k] Hfu Hk; [lia|]. cbn [relocate]. rewrite Hvl. fold vn. unfold rd. rewrite K1. cbn [bind]. unfold rdu. rewrite Hn. cbn [bind]. rewrite En. apply HN; lia.
Qed.

Lemma relocate_start st vls vi0 c0 : rest st [] -> vls_ok st vls -> vi0 < len -> (exists c ni, nth_error vls ((vi0 + 1) mod len) = Some (Inserted c ni)) ->
  exists vls', evt (fun k => relocate k k st vls (pends vls) vi0 (LNexus 0) c0) vls' /\ vls_ok st vls' /\ pends vls' = pends vls.
Proof.
  intros HR HV Hvi (c & ni & Hn). pose proof (r_full _ _ HR) as Hf. pose proof (f_core _ _ _ _ _ Hf) as Hc.
  set (vn := (vi0 + 1) mod len) in *. assert (Hvn : vn < len) by (apply Nat.mod_upper_bound; lia). pose proof (proj1 HV) as Hvl.
  destruct (lt_nth _ poly vn Hvn) as (b & Hb). destruct (proj2 HV vn b Hb) as [(q & K1 & _)|(ni' & K1 & K2)]; [congruence|].
  assert (ni' = ni) by congruence. subst ni'. destruct (points_inv _ _ _ K2) as (n & Hnn & En).
  destruct (relocate_ok st (len - 1) HR vls vn (LNexus ni) (gv b) (pends vls)) as (vls' & (N & HN) & Q1 & Q2); auto.
  { exists b. auto. }
  { rewrite pends_sum, Hvl, <- (sumf_rot (pat vls) len vn) by lia. replace len with (S (len - 1)) at 1 by lia. cbn [seq sumf fold_right].
    change (fold_right (fun i s => pat vls (i mod len) + s) 0 (seq (S vn) (len - 1))) with (sumf (fun i => pat vls (i mod len)) (seq (S vn) (len - 1))).
    rewrite Nat.mod_small by auto. unfold pat at 1. rewrite K1, Nat.add_1_r. lia. }
  destruct (pends vls) as [|u] eqn:Ep.
  { exists vls. split; [|split; auto]. exists 0. intros [|k] _; reflexivity. }
  exists vls'. split; [|split; auto]. exists (S (max N len)). intros [|k] Hk; [lia|]. cbn [relocate]. rewrite Hvl. fold vn. unfold rd. rewrite K1. cbn [bind]. unfold rdu. rewrite Hnn. cbn [bind]. rewrite En. apply HN; lia.
Qed.

(** ** The loop over the segments *)

(** Sizes of the arrays. *)
Definition sized (st : stt) : Prop :=
  length (st_ts st) = S (length (points st) + length (st_ss st)) /\
  2 * length (st_qs st) <= 4 * length (points st) + 2 + 2 * length (st_ss st) + 3 * (length (st_ss st) * S (length (st_ss st))).

Lemma rest_points st : rest st [] -> length (points st) <= 2 * length (st_ss st).
Proof.
  intros [Rf Rc Rd]. pose proof (f_core _ _ _ _ _ Rf) as Hc. assert (K : length (points st) <= length (flat_map (fun e : edge => [fst e; snd e]) (medges st))).
  { apply NoDup_incl_length; [apply (c_nd _ _ _ _ _ Hc)|]. intros p Hp. apply In_nth_error in Hp. destruct Hp as (v & Hv). destruct (points_inv _ _ _ Hv) as (nn & Hn & <-). destruct (Rd v nn Hn) as [K|[]]. rewrite (Rc v nn Hn) in K.
    unfold cnt in K. destruct (filter (touches (n_c nn)) (medges st)) as [|e m] eqn:Ef; [cbn in K; lia|].
    assert (Ke : In e (filter (touches (n_c nn)) (medges st))) by (rewrite Ef; now left). apply filter_In in Ke. destruct Ke as (Ke & Kt). apply touches_spec in Kt. apply in_flat_map. exists e. split; auto. cbn. destruct Kt; auto. }
  assert (E : forall l : list edge, length (flat_map (fun e : edge => [fst e; snd e]) l) = 2 * length l) by (induction l as [|x l IH]; cbn in *; lia). rewrite E in K. unfold medges in K. now rewrite map_length in K.
Qed.

Lemma sized_step st st' e : rest st' [] -> medges st' = medges st ++ [e] -> ngrow st st' -> sized st -> sized st'.
Proof.
  intros HR HE (_ & G1 & G2 & _) (S1 & S2). apply (f_equal (@length _)) in HE. unfold medges in HE. rewrite app_length, !map_length in HE. cbn in HE. pose proof (rest_points st' HR) as K.
  assert (A : adj (st_ts st') (length (st_ss st)) <= length (st_ts st')).
  { unfold adj. clear. induction (st_ts st') as [|t l IH]; cbn; auto. destruct (has_side _ t); cbn; lia. }
  split; [lia|]. replace (length (st_ss st')) with (S (length (st_ss st))) in * by lia. nia.
Qed.

Lemma polygon_loop_ok math_n order : forall i st vls uc nu, rest st [] -> vls_ok st vls -> NoDup order -> (forall j, In j order -> j < len) ->
  (forall j e, In j order -> sedge_at j e -> ~ In e (medges st)) ->
  (forall j j' e, In j order -> In j' order -> sedge_at j e -> sedge_at j' e -> j = j') ->
  exists st' vls' es, evt (fun k => polygon_loop ieqb gv dbg k math_n len order i st vls (pends vls) uc nu) (st', vls') /\ rest st' [] /\ vls_ok st' vls' /\
    Forall2 sedge_at order es /\ medges st' = medges st ++ es /\ incl (points st') (points st ++ map gv poly) /\ incl (points st) (points st') /\ (sized st -> sized st').
Proof.
  induction order as [|j order IH]; intros i st vls uc nu HR HV Hnd Hlt Hnot Hinj.
  { exists st, vls, []. split; [apply evt_ret|]. split; auto. split; auto. split; auto. split; [now rewrite app_nil_r|]. split; [apply incl_appl, incl_refl|]. split; [apply incl_refl|auto]. }
  inversion Hnd as [|? ? Hj Hnd']; subst. assert (Hjl : j < len) by (apply Hlt; now left). destruct (sedge_ex j Hjl) as (e & He).
  destruct (add_nth_ok st vls j e HR HV Hjl He (Hedge j e He)) as (st1 & vls1 & added & A1 & A2 & A3 & A4 & A5 & A6 & A7 & A8 & A9). { apply (Hnot j e); [now left|auto]. }
  destruct (relocate_start st1 vls1 j coords_zero A2 A3 Hjl A8) as (vls2 & B1 & B2 & B3).
  assert (Hgo : forall vls3 uc nu, vls_ok st1 vls3 -> pends vls3 = pends vls1 -> exists st' vls' es,
    evt (fun k => polygon_loop ieqb gv dbg k math_n len order (i + 1) st1 vls3 (pends vls1) uc nu) (st', vls') /\ rest st' [] /\ vls_ok st' vls' /\
    Forall2 sedge_at (j :: order) es /\ medges st' = medges st ++ es /\ incl (points st') (points st ++ map gv poly) /\ incl (points st) (points st') /\ (sized st -> sized st')).
  { intros vls3 uc' nu' HV3 Hp3. destruct (IH (i + 1) st1 vls3 uc' nu') as (st' & vls' & es & C1 & C2 & C2v & C3 & C4 & C5 & C6 & C7); auto.
    - intros j' Hj'. apply Hlt. now right.
    - intros j' e' Hj' He' K. rewrite A4 in K. apply in_app_or in K. destruct K as [K|[<-|[]]].
      + apply (Hnot j' e'); auto. now right.
      + apply Hj. replace j with j'; auto. eapply Hinj; eauto; [now right|now left].
    - intros j' j'' e' H1 H2. apply Hinj; now right.
    - exists st', vls', (e :: es). split; [now rewrite <- Hp3|]. split; auto. split; auto. split; [constructor; auto|]. split; [rewrite C4, A4, <- app_assoc; reflexivity|]. split.
      + intros x Hx. apply C5 in Hx. apply in_app_or in Hx. apply in_or_app. destruct Hx as [Hx|Hx]; auto. apply A6 in Hx. apply in_app_or in Hx. auto.
      + split; [intros x Hx; auto|]. intros Hz. apply C7. eapply sized_step; eauto. }
  assert (Epd : pends vls - added = pends vls1) by lia.
  destruct (Nat.eqb i nu) eqn:Ei.
  - destruct (Hgo vls2 (uc + 1) (math_n len (uc + 1)) B2 B3) as (st' & vls' & es & C1 & C2). exists st', vls', es. split; auto.
    eapply evt_ext; [|eapply (evt_bind _ (fun k x => let '(st1, vls1, added) := x in
      do vls2 <- relocate k k st1 vls1 (pends vls - added) j (LNexus 0) coords_zero;
      polygon_loop ieqb gv dbg k math_n len order (i + 1) st1 vls2 (pends vls - added) (uc + 1) (math_n len (uc + 1)))); [exact A1|]].
    + intros k. cbn [polygon_loop]. rewrite Ei. destruct (add_nth_segment ieqb gv dbg k st vls j) as [[[? ?] ?]| |]; reflexivity.
    + cbn beta iota. rewrite Epd. eapply (evt_bind (fun k => relocate k k st1 vls1 (pends vls1) j (LNexus 0) coords_zero)); [exact B1|]. exact C1.
  - destruct (Hgo vls1 uc nu A3 eq_refl) as (st' & vls' & es & C1 & C2). exists st', vls', es. split; auto.
    eapply evt_ext; [|eapply (evt_bind _ (fun k x => let '(st1, vls1, added) := x in
      polygon_loop ieqb gv dbg k math_n len order (i + 1) st1 vls1 (pends vls - added) uc nu)); [exact A1|]].
    + intros k. cbn [polygon_loop]. rewrite Ei. destruct (add_nth_segment ieqb gv dbg k st vls j) as [[[? ?] ?]| |]; reflexivity.
    + cbn beta iota. rewrite Epd. exact C1.
Qed.

End Poly.

(** The vertices of a polygon are ends of its edges. *)
Lemma edge_W {I} W Es (gv : I -> point) poly : geo W Es -> 2 <= length poly -> (forall j e, sedge_at gv poly j e -> In e Es) -> forall j a, nth_error poly j = Some a -> In (gv a) W.
Proof.
  intros HG Hlen Hedge j a Ha. pose proof (nth_lt _ _ _ _ Ha) as Hj. destruct (sedge_ex gv poly Hlen j Hj) as (e & He). pose proof (Hedge j e He) as Hin.
  destruct He as (a' & b & Ha' & Hb & ->). assert (a' = a) by congruence. subst a'. destruct (g_end _ _ HG _ Hin) as (K1 & K2 & _).
  unfold orient in *. destruct (coords_lt (gv a) (gv b)); auto.
Qed.
