(** A segment has at least as many trapezoids on its left as there are vertices that see it from the left; adding it costs as many iterations. *)
From Coq Require Import QArith Lqa List Arith Lia Bool Permutation.
From Verif Require Import Base Coord Trap Lanes Plane Geo Region TrapInv Depth AddVertex SegStep AddSegment Segment Walk Polygons Build Locate Faces Clear Canon Near Sweep Orders Random RandomSize Work WorkCount.
Import ListNotations.
Local Open Scope nat_scope.

(** Just above a height. *)
Lemma above (l : list Q) : forall lo hi, (lo < hi)%Q -> exists h, (lo < h)%Q /\ (h < hi)%Q /\ forall x, In x l -> (lo < x)%Q -> (h < x)%Q.
Proof.
  induction l as [|x l IH]; intros lo hi H. { exists ((lo + hi) * (1 # 2))%Q. split; [lra|]. split; [lra|easy]. }
  destruct (Qlt_le_dec lo x) as [Hx|Hx].
  - destruct (Qlt_le_dec x hi) as [Hh|Hh].
    + destruct (IH lo x Hx) as (h & H1 & H2 & H3). exists h. split; auto. split; [lra|]. intros y [<-|Hy] Hl; auto.
    + destruct (IH lo hi H) as (h & H1 & H2 & H3). exists h. split; auto. split; auto. intros y [<-|Hy] Hl; auto. lra.
  - destruct (IH lo hi H) as (h & H1 & H2 & H3). exists h. split; auto. split; auto. intros y [<-|Hy] Hl; auto. lra.
Qed.

Lemma filter_le_idx {A} (f : A -> bool) : forall l k J, NoDup J -> (forall j, In j J -> k <= j /\ exists x, nth_error l (j - k) = Some x /\ f x = true) -> length J <= length (filter f l).
Proof.
  induction l as [|a l IH]; intros k J HN HJ.
  - destruct J as [|j J]; [cbn; lia|]. destruct (HJ j (or_introl eq_refl)) as (_ & x & Hx & _). destruct (j - k); discriminate.
  - destruct (in_dec Nat.eq_dec k J) as [Hk|Hk].
    + destruct (in_split _ _ Hk) as (J1 & J2 & ->). destruct (HJ k Hk) as (_ & x & Hx & Hf). rewrite Nat.sub_diag in Hx. cbn in Hx. injection Hx as ->.
      cbn [filter]. rewrite Hf. pose proof (NoDup_remove_1 _ _ _ HN) as HN1. pose proof (NoDup_remove_2 _ _ _ HN) as HN2. specialize (IH (S k) (J1 ++ J2) HN1). rewrite app_length in *. cbn [length].
      enough (length J1 + length J2 <= length (filter f l)) by lia. apply IH. intros j Hj. assert (Hne : j <> k) by (intros ->; auto).
      destruct (HJ j) as (H1 & y & Hy & Hfy). { apply in_or_app. apply in_app_or in Hj. cbn. tauto. } split; [lia|]. exists y. split; auto. replace (j - k) with (S (j - S k)) in Hy by lia. exact Hy.
    + etransitivity; [apply (IH (S k) J HN)|cbn; destruct (f a); cbn; lia]. intros j Hj. assert (Hne : j <> k) by (intros ->; auto). destruct (HJ j Hj) as (H1 & y & Hy & Hfy).
      split; [lia|]. exists y. split; auto. replace (j - k) with (S (j - S k)) in Hy by lia. exact Hy.
Qed.

Section Seen.
Context {I : Type}.
Variables (W : list point) (Es : list edge) (M : Q) (gv : I -> point) (st : state Q I).
Hypothesis HG : geo W Es.
Hypothesis HM : shear M W.
Hypothesis HF : full W Es M gv st.
Let HC : core W Es M gv st := f_core _ _ _ _ _ HF.

(** [v] sees the edge [e] to its right: no edge of the state between them. *)
Definition sees (e : edge) (v : point) : Prop :=
  In v (points st) /\ within M e (ht M v) /\ (cx v < X M e (ht M v))%Q /\ forall f, In f (medges st) -> within M f (ht M v) -> (X M f (ht M v) < cx v \/ X M e (ht M v) <= X M f (ht M v))%Q.

Theorem adj_seen s vs : s < length (st_ss st) -> NoDup vs -> (forall v, In v vs -> sees (eat st s) v) -> length vs <= adj (st_ts st) s.
Proof.
  intros Hs Hnd Hsee. destruct (lt_nth _ _ _ Hs) as (g & Hg). destruct (seg_at W Es M gv st HG HM HF s g Hg) as (_ & _ & E1 & E2 & HE & _). pose proof (eat_nth st s g Hg) as Ee.
  assert (HP : incl (points st) W) by apply (c_W _ _ _ _ _ HC).
  assert (K : forall v, In v vs -> exists h j, (ht M v < h)%Q /\ (forall w, In w (points st) -> (ht M v < ht M w)%Q -> (h < ht M w)%Q) /\ sd st true j = Some s /\ has M st j h).
  { intros v Hv. destruct (Hsee v Hv) as (V1 & (V2 & V3) & V4 & V5). rewrite Ee in V2, V3. destruct (above (map (ht M) (points st)) _ _ V3) as (h & H1 & H2 & H3).
    assert (H3' : forall w, In w (points st) -> (ht M v < ht M w)%Q -> (h < ht M w)%Q) by (intros w Hw; apply H3; now apply in_map).
    destruct (side_ex W Es M gv st HG HM HF true s h) as (j & Hj & Hh); auto.
    - unfold hv. rewrite E1. cbn [sedge fst snd] in V2. lra.
    - unfold hv. rewrite E2. exact H2.
    - intros x n Hx K. unfold hv in K. rewrite (pnt_n st x n Hx) in K. assert (Hin : In (n_c n) (points st)) by (eapply nth_error_In, points_nth; eauto). destruct (Qlt_le_dec (ht M v) (ht M (n_c n))) as [L|L]; [specialize (H3' _ Hin L)|]; lra.
    - exists h, j. auto. }
  assert (D : forall v w h h' j, In v vs -> In w vs -> (ht M v < ht M w)%Q -> (forall w, In w (points st) -> (ht M v < ht M w)%Q -> (h < ht M w)%Q) -> (ht M w < h')%Q -> sd st true j = Some s -> has M st j h -> has M st j h' -> False).
  { intros v w h h' j Hv Hw Hlt Hh Hh' Hj H1 H2. destruct (Hsee w Hw) as (V1 & V2 & V4 & V5). destruct (lt_nth _ _ _ (has_in M st j h H1)) as (t & Ht).
    assert (H0 : has M st j (ht M w)). { destruct H1 as (d & u & Hd & Hu & A1 & A2). destruct H2 as (d' & u' & Hd' & Hu' & B1 & B2). assert (d' = d) by congruence. assert (u' = u) by congruence. subst. exists d, u. specialize (Hh w V1 Hlt). repeat split; auto; lra. }
    apply (c_emp _ _ _ _ _ HC j t w Ht V1). pose proof (has_ahas W Es M gv st HF j t _ Ht H0) as Ha. pose proof (c_ag _ _ _ _ _ HC j t Ht) as Ga. pose proof (side_reg st j t true s Ht Hj) as Hr. cbn [aside] in Hr.
    split; auto. rewrite Hr. split; [|exact V4]. destruct (al (reg st t)) as [f|] eqn:El; cbn [olft]; auto.
    destruct (reg_side st j t false f Ht El) as (s' & Hs' & Ef). assert (Hin : In f (medges st)). { rewrite <- Ef. apply nth_In. eapply (sd_in W Es M gv st HG HM HF); eauto. }
    assert (Wf : within M f (ht M w)) by (eapply within_l; eauto). destruct (V5 f Hin Wf) as [Z|Z]; auto. pose proof (a_lr _ _ _ _ Ga _ _ _ El Hr Ha). lra. }
  (* one trapezoid for each *)
  assert (G : exists J, length J = length vs /\ NoDup J /\ forall j, In j J -> exists v h, In v vs /\ (ht M v < h)%Q /\ (forall w, In w (points st) -> (ht M v < ht M w)%Q -> (h < ht M w)%Q) /\ sd st true j = Some s /\ has M st j h).
  { assert (G : forall l, NoDup l -> incl l vs -> exists J, length J = length l /\ NoDup J /\ forall j, In j J -> exists v h, In v l /\ (ht M v < h)%Q /\ (forall w, In w (points st) -> (ht M v < ht M w)%Q -> (h < ht M w)%Q) /\ sd st true j = Some s /\ has M st j h).
    { induction l as [|v l IH]; intros HN Hi; [exists []; split; auto; split; [constructor|easy]|]. inversion HN as [|? ? N1 N2]; subst. destruct IH as (J & J1 & J2 & J3); auto. { intros x Hx. apply Hi. now right. }
      destruct (K v (Hi v (or_introl eq_refl))) as (h & j & A1 & A2 & A3 & A4). exists (j :: J). split; [cbn; lia|]. split; [constructor; auto|].
      - intros Hj. destruct (J3 j Hj) as (w & h' & B0 & B1 & B2 & B3 & B4). assert (Hne : v <> w) by (intros ->; auto). assert (Hv : In v vs) by (apply Hi; now left). assert (Hw : In w vs) by (apply Hi; now right).
        destruct (ht_tri W Es M HG HM v w) as [L|[L|L]]; [now apply HP, (Hsee v)|now apply HP, (Hsee w)| |easy|].
        + apply (D v w h h' j); auto.
        + apply (D w v h' h j); auto.
      - intros j' [<-|Hj']; [exists v, h; split; [now left|auto]|]. destruct (J3 j' Hj') as (w & h' & B0 & B1). exists w, h'. split; [now right|auto]. }
    apply G; auto. apply incl_refl. }
  destruct G as (J & J1 & J2 & J3). rewrite <- J1. unfold adj. apply (filter_le_idx _ _ 0); auto. intros j Hj. split; [lia|]. rewrite Nat.sub_0_r. destruct (J3 j Hj) as (v & h & _ & _ & _ & Z & Hh).
  destruct (lt_nth _ _ _ (has_in M st j h Hh)) as (t & Ht). exists t. split; auto. eapply side_has; eauto.
Qed.
End Seen.

(** ** Iterations of the segment *)

Lemma snd_cbind {E A B} (r : cres E A) (f : A -> cres E B) : snd r <= snd (cbind r f).
Proof. unfold cbind. destruct (fst r); cbn; lia. Qed.

Section Low.
Context {I : Type}.
Variables (gv : I -> point) (ieqb : I -> I -> bool) (dbg : bool).
Notation stt := (state Q I).

Lemma add_nth_low k (st : stt) vls j st' vls' ad : fst (add_nth_segment_c ieqb gv dbg k st vls j) = Ok (st', vls', ad) ->
  length (st_qs st') <= snd (add_nth_segment_c ieqb gv dbg k st vls j) + length (st_qs st) + 5.
Proof.
  assert (G : forall v0 v1 l0 l1 st1 vls1 n0 n1 ad, fst (add_ends_c gv dbg k st vls v0 v1 l0 l1) = Ok (st1, vls1, n0, n1, ad) -> length (st_qs st1) <= length (st_qs st) + 4).
  { intros v0 v1 [c0 i0 q0|c0 n0] [c1 i1 q1|c1 n1] st1 vls1 m0 m1 a H; cbn [add_ends_c] in H.
    - destruct (coords_lt c0 c1); apply cbind_inv in H; destruct H as ([[s1 u1] y] & H1 & H & _); apply count_add_vertex_at in H1; apply cbind_inv in H; destruct H as ([[s2 u2] y2] & H2 & H & _); apply count_add_vertex_at in H2; cbn in H; injection H as <- _ _ _ _; lia.
    - apply cbind_inv in H. destruct H as ([[s1 u1] y] & H1 & H & _). apply count_add_vertex_at in H1. cbn in H. injection H as <- _ _ _ _. lia.
    - apply cbind_inv in H. destruct H as ([[s1 u1] y] & H1 & H & _). apply count_add_vertex_at in H1. cbn in H. injection H as <- _ _ _ _. lia.
    - cbn in H. injection H as <- _ _ _ _. lia. }
  intros H. unfold add_nth_segment_c in *. cbn zeta in *. do 2 fi H. apply cbind_inv in H. destruct H as ([[[[s1 v1] m0] m1] ad'] & H1 & H & S). rewrite S. clear S. apply G in H1. do 2 fi H.
  apply cbind_inv in H. destruct H as (s2 & H2 & H & S). rewrite S. clear S. cbn [free fst snd] in *. injection H as <- <- _. destruct (coords_lt (n_c x1) (n_c x2)); apply count_add_segment in H2; lia.
Qed.
End Low.

Section Loop.
Context {I : Type}.
Variables (W : list point) (Es : list edge) (M : Q) (gv : I -> point).
Hypothesis HG : geo W Es.
Hypothesis HM : shear M W.
Notation stt := (state Q I).
Variable ieqb : I -> I -> bool.
Hypothesis Hieq : forall a b, ieqb a b = true <-> a = b.
Hypothesis Hcnt : forall p, cnt p Es <= 2.
Variable dbg : bool.
Variable poly : list I.
Notation len := (length poly).
Hypothesis Hlen : 2 <= len.
Hypothesis Hdist : NoDup (map gv poly).
Hypothesis in_W : forall j a, nth_error poly j = Some a -> In (gv a) W.
Hypothesis Hedge : forall j e, sedge_at gv poly j e -> In e Es.
Notation rest := (rest W Es M gv).
Notation vls_ok := (vls_ok M gv poly).
Notation sedge_at := (sedge_at gv poly).

(** The segment [e0] of the polygon, the segments there are when the polygon has been added, and vertices already there that see [e0] from the left. *)
Variables (j0 : nat) (e0 : edge) (Fs : list edge) (vs : list point).
Hypothesis He0 : sedge_at j0 e0.
Hypothesis HFs : forall j e, sedge_at j e -> In e Fs.
Hypothesis Hvs : NoDup vs.
Hypothesis Hsee : forall v, In v vs -> within M e0 (ht M v) /\ (cx v < X M e0 (ht M v))%Q /\ forall f, In f Fs -> within M f (ht M v) -> (X M f (ht M v) < cx v \/ X M e0 (ht M v) <= X M f (ht M v))%Q.

Lemma loop_low math_n order : forall i st vls uc nu, rest st [] -> vls_ok st vls -> NoDup order -> (forall j, In j order -> j < len) ->
  (forall j e, In j order -> sedge_at j e -> ~ In e (medges st)) ->
  (forall j j' e, In j order -> In j' order -> sedge_at j e -> sedge_at j' e -> j = j') -> incl vs (points st) -> incl (medges st) Fs -> In j0 order ->
  exists N, forall k, N <= k -> length vs <= snd (polygon_loop_c ieqb gv dbg k math_n len order i st vls (pends vls) uc nu) + 4.
Proof.
  induction order as [|j order IH]; intros i st vls uc nu HR HV Hnd Hlt Hnot Hinj Hv HmF H0; [easy|].
  inversion Hnd as [|? ? Hj Hnd']; subst. assert (Hjl : j < len) by (apply Hlt; now left). destruct (sedge_ex gv poly Hlen j Hjl) as (e & He).
  destruct (add_nth_ok W Es M gv HG HM ieqb Hieq Hcnt dbg poly Hlen Hdist in_W st vls j e HR HV Hjl He (Hedge j e He)) as (st1 & vls1 & added & (N1 & A1) & A2 & A3 & A4 & A5 & A6 & A7 & A8 & A9). { apply (Hnot j e); [now left|auto]. }
  assert (HmF1 : incl (medges st1) Fs). { intros f Hf. rewrite A4 in Hf. apply in_app_or in Hf. destruct Hf as [Hf|[<-|[]]]; [auto|now apply (HFs j)]. }
  destruct (Nat.eq_dec j j0) as [->|Hne].
  - assert (e = e0). { destruct He as (x & y & Hx & Hy & ->), He0 as (x' & y' & Hx' & Hy' & ->). congruence. } subst e.
    exists N1. intros k Hk. cbn [polygon_loop_c]. unfold tick. cbn [snd]. etransitivity; [|apply Nat.add_le_mono_r, le_n_S, snd_cbind].
    assert (F : fst (add_nth_segment_c ieqb gv dbg k st vls j0) = Ok (st1, vls1, added)) by (rewrite erase_add_nth; now apply A1).
    apply add_nth_low in F. destruct A9 as ((l & Z0) & _ & Z & _).
    assert (Hpl : length (points st) <= length (points st1)) by (rewrite Z0, app_length; lia).
    assert (Hs : length (st_ss st) < length (st_ss st1)). { assert (E : length (medges st1) = length (medges st) + 1) by (rewrite A4, app_length; reflexivity). unfold medges in E. rewrite !map_length in E. lia. }
    assert (Ea : eat st1 (length (st_ss st)) = e0). { unfold eat. rewrite A4. rewrite app_nth2; unfold medges; rewrite map_length; [|lia]. now rewrite Nat.sub_diag. }
    pose proof (adj_seen W Es M gv st1 HG HM (r_full _ _ _ _ _ _ A2) (length (st_ss st)) vs Hs Hvs) as Za.
    assert (Zb : length vs <= adj (st_ts st1) (length (st_ss st))).
    { apply Za. intros v Hin. rewrite Ea. destruct (Hsee v Hin) as (S1 & S2 & S3). split; [now apply A7, Hv|]. split; auto. }
    lia.
  - assert (H0' : In j0 order) by (destruct H0; [easy|auto]).
    destruct (relocate_start W Es M gv HG HM Hcnt poly Hlen Hdist Hedge st1 vls1 j coords_zero A2 A3 Hjl A8) as (vls2 & (N2 & B1) & B2 & B3).
    assert (Hgo : forall vls3 uc nu, vls_ok st1 vls3 -> pends vls3 = pends vls1 -> exists N, forall k, N <= k -> length vs <= snd (polygon_loop_c ieqb gv dbg k math_n len order (i + 1) st1 vls3 (pends vls1) uc nu) + 4).
    { intros vls3 uc' nu' HV3 Hp3. rewrite <- Hp3. apply IH; auto.
      - intros j' Hj'. apply Hlt. now right.
      - intros j' e' Hj' He' K. rewrite A4 in K. apply in_app_or in K. destruct K as [K|[<-|[]]].
        + apply (Hnot j' e'); auto. now right.
        + apply Hj. replace j with j'; auto. eapply Hinj; eauto; [now right|now left].
      - intros j' j'' e' K1 K2. apply Hinj; now right.
      - intros v Hin. now apply A7, Hv. }
    assert (Epd : pends vls - added = pends vls1) by lia.
    destruct (Nat.eqb i nu) eqn:Ei.
    + destruct (Hgo vls2 (uc + 1) (math_n len (uc + 1)) B2 B3) as (N3 & HN). exists (max N1 (max N2 N3)). intros k Hk. cbn [polygon_loop_c]. rewrite Ei. unfold tick. cbn [snd].
      unfold cbind at 1. rewrite erase_add_nth, A1 by lia. cbn [fst snd]. cbn zeta. rewrite Epd. unfold cbind at 1. rewrite erase_relocate, B1 by lia. cbn [fst snd]. specialize (HN k ltac:(lia)). lia.
    + destruct (Hgo vls1 uc nu A3 eq_refl) as (N3 & HN). exists (max N1 N3). intros k Hk. cbn [polygon_loop_c]. rewrite Ei. unfold tick. cbn [snd].
      unfold cbind at 1. rewrite erase_add_nth, A1 by lia. cbn [fst snd]. cbn zeta. rewrite Epd. specialize (HN k ltac:(lia)). lia.
Qed.
End Loop.

(** ** A polygon after another *)

Section Two.
Context {I : Type}.
Variables (gv : I -> point) (ieqb : I -> I -> bool) (dbg : bool).
Hypothesis Hieq : forall a b, ieqb a b = true <-> a = b.
Variables (math_n : nat -> nat -> nat) (shuf : nat -> nat -> list nat).
Hypothesis Hshuf : forall k n, Permutation (shuf k n) (seq 0 n).
Notation run f es := (trapezoidize_c ieqb gv dbg f math_n shuf es).
Notation cont l := (map (@Continue I) l).

Lemma build_conts f a : forall rest k st vl, build_loop_c ieqb gv dbg f math_n shuf (cont a ++ rest) k st vl =
  (fst (build_loop_c ieqb gv dbg f math_n shuf rest k st (vl ++ map (pend1 gv) a)), length a + snd (build_loop_c ieqb gv dbg f math_n shuf rest k st (vl ++ map (pend1 gv) a))).
Proof.
  induction a as [|x a IH]; intros rest k st vl; cbn [map app length].
  - rewrite app_nil_r. apply surjective_pairing.
  - cbn [build_loop_c]. rewrite IH, <- app_assoc. unfold tick. cbn [fst snd app Nat.add]. reflexivity.
Qed.


(** Some edge of the polygon is seen by at least [L] vertices of the polygons before it. *)
Definition seen (M : Q) (L : nat) (before : list (list point)) (h : list point) : Prop :=
  exists e0 vs, In e0 (uedges [h]) /\ NoDup vs /\ incl vs (concat before) /\ L <= length vs /\
  forall v, In v vs -> within M e0 (ht M v) /\ (cx v < X M e0 (ht M v))%Q /\ forall f, In f (uedges (before ++ [h])) -> within M f (ht M v) -> (X M f (ht M v) < cx v \/ X M e0 (ht M v) <= X M f (ht M v))%Q.

Fixpoint all_seen (M : Q) (L : nat) (before hs : list (list point)) : Prop :=
  match hs with [] => True | h :: hs => seen M L before h /\ all_seen M L (before ++ [h]) hs end.

Section Next.
Variable ps : list (list point).
Hypothesis HV : valid ps.
Variable M : Q.
Notation W := (concat ps ++ []).
Notation Es := (uedges ps).
Hypothesis HM : shear M W.

(** All about the state after some of the polygons. *)
Record after (before : list (list point)) (st : state Q I) : Prop := {
  w_rest : rest W Es M gv st [];
  w_edges : Permutation (medges st) (uedges before);
  w_points : incl (points st) (concat before);
  w_all : incl (concat before) (points st)
}.

Lemma next_ok L before b hs k st : ps = before ++ map gv b :: hs -> after before st -> L = 0 \/ seen M L before (map gv b) ->
  exists st', after (before ++ [map gv b]) st' /\ exists N, forall f, N <= f -> exists c, (forall rest, build_loop_c ieqb gv dbg f math_n shuf ((cont b ++ [NewPolygon]) ++ rest) k st [] =
    (let r := build_loop_c ieqb gv dbg f math_n shuf rest (k + 1) st' [] in (fst r, c + snd r))) /\ L <= c.
Proof.
  set (B := map gv b). intros Eps [E2 E3 E4 E5] HS. assert (HG : geo W Es) by (apply valid_geo; auto; intros ? ? []; easy || (intros; contradiction)).
  pose proof (valid_cnt _ HV) as Hcnt. pose proof (valid_nd _ HV) as Hnd. pose proof (uedges_nd _ HV) as Hmd. pose proof (proj1 HV) as Hl. rewrite Forall_forall in Hl.
  assert (Lb : 3 <= length b). { specialize (Hl B). unfold B in Hl. rewrite map_length in Hl. apply Hl. rewrite Eps. apply in_or_app. right. now left. } clear Hl.
  assert (Eu : Es = uedges before ++ uedges [B] ++ uedges hs). { rewrite Eps. unfold uedges, B. rewrite !map_app, !concat_app, !map_app. cbn [map concat]. now rewrite app_nil_r, map_app. }
  rewrite Eps, concat_app in Hnd. cbn [concat] in Hnd. fold B in Hnd. rewrite app_assoc in Hnd. apply NoDup_app_inv in Hnd. destruct Hnd as (Hnd & _). apply NoDup_app_inv in Hnd. destruct Hnd as (_ & NB & NAB).
  rewrite Eu, app_assoc in Hmd. apply NoDup_app_inv in Hmd. destruct Hmd as (Hmd & _).
  assert (HnB : forall p, In p B -> ~ In p (points st)). { intros p Hp K. apply E4 in K. now apply (NAB p). }
  assert (HmB : NoDup (medges st ++ uedges [B])). { eapply Permutation_NoDup; [|exact Hmd]. apply Permutation_app_tail. now symmetry. }
  assert (HiB : incl (uedges [B]) Es) by (rewrite Eu; apply incl_appr, incl_appl, incl_refl).
  destruct (add_polygon_ok gv ieqb dbg Hieq math_n W Es M HG HM Hcnt st b (shuf k (length b))) as (stB & vlsB & (N2 & F1) & F2 & F3 & F4 & F5 & _); auto.
  assert (Hed : forall j e, sedge_at gv b j e -> In e (uedges [B])). { intros j e K. apply sedge_edges in K. apply nth_error_In in K. unfold uedges. cbn [map concat]. now rewrite app_nil_r. }
  assert (HinW : forall j x, nth_error b j = Some x -> In (gv x) W). { apply (edge_W W Es gv b HG); [lia|]. intros j e K. now apply HiB, (Hed j). }
  assert (Hps : pends (map (pend1 gv) b) = length b). { unfold pends. clear. induction b; cbn; auto. }
  assert (Eub : uedges (before ++ [B]) = uedges before ++ uedges [B]). { unfold uedges. now rewrite !map_app, concat_app, map_app. }
  pose proof (Hshuf k (length b)) as Hsh.
  exists stB. split.
  { split; auto.
    - rewrite Eub. etransitivity; [exact F3|]. now apply Permutation_app_tail.
    - intros p Hp. apply F4 in Hp. rewrite concat_app. cbn [concat]. rewrite app_nil_r. apply in_or_app. apply in_app_or in Hp. destruct Hp; auto.
    - intros p Hp. rewrite concat_app in Hp. cbn [concat] in Hp. rewrite app_nil_r in Hp. apply in_app_or in Hp. destruct Hp as [Hp|Hp]; [now apply F5, E5|].
      unfold B in Hp. apply in_map_iff in Hp. destruct Hp as (x & <- & Hx). apply In_nth_error in Hx. destruct Hx as (j & Hj). destruct (sedge_ex gv b ltac:(lia) j (nth_lt _ _ _ _ Hj)) as (e & He).
      assert (Km : In e (medges stB)). { eapply Permutation_in; [symmetry; exact F3|]. apply in_or_app. right. now apply (Hed j). }
      destruct (medges_points W Es M gv stB e (f_core _ _ _ _ _ (r_full _ _ _ _ _ _ F2)) Km) as (P1 & P2 & _). destruct He as (x' & y & Hx' & _ & ->). assert (x' = x) by congruence. subst x'. unfold orient in P1, P2. destruct (coords_lt (gv x) (gv y)); auto. }
  assert (LB : forall f, N2 <= f -> forall rest, build_loop_c ieqb gv dbg f math_n shuf ((cont b ++ [NewPolygon]) ++ rest) k st [] =
    (let r := build_loop_c ieqb gv dbg f math_n shuf rest (k + 1) stB [] in (fst r, length b + S (snd (add_polygon_c ieqb gv dbg f math_n (shuf k (length b)) st (map (pend1 gv) b))) + snd r))).
  { intros f Hf rest0. rewrite <- app_assoc. rewrite build_conts. cbn [app]. cbn [build_loop_c]. rewrite map_length. assert (Nat.ltb 0 (length b) = true) as -> by (apply Nat.ltb_lt; lia). assert (Nat.ltb (length b) 3 = false) as -> by (apply Nat.ltb_ge; lia). unfold tick, cbind, cmap_err. cbn [fst snd].
    specialize (F1 f Hf). unfold add_polygon in F1. unfold add_polygon_c. rewrite erase_polygon_loop, F1. cbn [map_err fst snd]. cbv zeta. f_equal. lia. }
  assert (G : exists N, forall f, N <= f -> L <= length b + S (snd (add_polygon_c ieqb gv dbg f math_n (shuf k (length b)) st (map (pend1 gv) b)))).
  { destruct HS as [->|(e0 & vs & He0 & Hvs & HvA & HL & Hsee)]; [exists 0; intros; lia|].
      assert (Hj0 : exists j0, j0 < length b /\ sedge_at gv b j0 e0).
      { unfold uedges in He0. cbn [map concat] in He0. rewrite app_nil_r in He0. apply In_nth_error in He0. destruct He0 as (j0 & H0). exists j0. split; [|now apply sedge_edges]. apply nth_lt in H0. pose proof (edges_length B) as Z. rewrite map_length in H0. unfold B at 2 in Z. rewrite map_length in Z. unfold edge in H0. lia. }
      destruct Hj0 as (j0 & Lj0 & Hj0). rewrite Eub in Hsee.
      destruct (loop_low W Es M gv HG HM ieqb Hieq Hcnt dbg b ltac:(lia) NB HinW (fun j e K => HiB e (Hed j e K)) j0 e0 (uedges before ++ uedges [B]) vs Hj0) with (math_n := math_n) (order := shuf k (length b)) (i := 0) (st := st) (vls := map (pend1 gv) b) (uc := 1) (nu := math_n (length b) 1) as (N3 & HN3); auto.
      - intros j e K. apply in_or_app. right. now apply (Hed j).
      - split; [apply map_length|]. intros j x Hx. left. exists 0. rewrite nth_error_map, Hx. split; auto. assert (~ In (gv x) (points st)) by (apply HnB, in_map; eapply nth_error_In; eauto).
        split; auto. apply (c_loc _ _ _ _ _ (f_core _ _ _ _ _ (r_full _ _ _ _ _ _ E2))); auto. eapply HinW; eauto.
      - eapply Permutation_NoDup; [symmetry; exact Hsh|apply seq_NoDup].
      - intros j Hj. eapply Permutation_in in Hj; [|exact Hsh]. apply in_seq in Hj. lia.
      - intros j e _ He K. apply NoDup_app_inv in HmB. destruct HmB as (_ & _ & Z). apply (Z e); auto. now apply (Hed j).
      - intros j j' e _ _ He He'. apply sedge_edges in He, He'. fold B in He, He'. apply NoDup_app_inv in HmB. destruct HmB as (_ & Z & _). unfold uedges in Z. cbn [map concat] in Z. rewrite app_nil_r in Z.
        apply (proj1 (NoDup_nth_error _) Z); [eapply nth_lt; eauto|congruence].
      - intros v Hv. now apply E5, HvA.
      - intros e He. apply in_or_app. left. eapply Permutation_in; [exact E3|exact He].
      - eapply Permutation_in; [symmetry; exact Hsh|]. apply in_seq. lia.
      - exists N3. intros f Hf. specialize (HN3 f Hf). rewrite Hps in HN3. unfold add_polygon_c. rewrite map_length. lia. }
  destruct G as (N & HN). exists (max N2 N). intros f Hf. eexists. split; [apply LB; lia|]. apply HN. lia.
Qed.

Definition total_elems (l : list (list I)) : list (element I) := flat_map (fun b => cont b ++ [NewPolygon]) l.

Lemma all_cost L : forall hs before k st, ps = before ++ map (map gv) hs -> after before st -> all_seen M L before (map (map gv) hs) ->
  exists st', after ps st' /\ exists N, forall f, N <= f -> exists c, build_loop_c ieqb gv dbg f math_n shuf (total_elems hs) k st [] = (Ok st', c) /\ L * length hs <= c.
Proof.
  induction hs as [|b hs IH]; intros before k st Eps HA HS.
  - exists st. cbn [map] in Eps. rewrite app_nil_r in Eps. rewrite Eps. split; auto. exists 0. intros f _. exists 0. split; [reflexivity|cbn; lia].
  - cbn [map all_seen] in *. destruct HS as (S1 & S2). destruct (next_ok L before b _ k st Eps HA (or_intror S1)) as (st1 & A1 & N1 & B1).
    destruct (IH (before ++ [map gv b]) (k + 1) st1) as (st' & A2 & N2 & B2); auto. { rewrite Eps, <- app_assoc. reflexivity. }
    exists st'. split; auto. exists (max N1 N2). intros f Hf. unfold total_elems. cbn [flat_map]. fold (total_elems hs). destruct (B1 f ltac:(lia)) as (c & -> & C). destruct (B2 f ltac:(lia)) as (c' & -> & C').
    cbn [fst snd]. eexists. split; [reflexivity|]. cbn [length]. lia.
Qed.
End Next.

(** The polygons one after another. *)
Definition listing (a : list I) (hs : list (list I)) : list (element I) := cont a ++ flat_map (fun b => NewPolygon :: cont b) hs.

Lemma listing_total hs : forall a, listing a hs ++ [NewPolygon] = total_elems (a :: hs).
Proof.
  unfold listing, total_elems. cbn [flat_map]. induction hs as [|b hs IH]; intros a; cbn [flat_map].
  - now rewrite !app_nil_r.
  - rewrite <- (IH b), <- !app_assoc. reflexivity.
Qed.

Theorem holes_cost M L a hs : valid (map gv a :: map (map gv) hs) -> shear M (concat (map gv a :: map (map gv) hs) ++ []) -> all_seen M L [map gv a] (map (map gv) hs) ->
  exists N, forall f, N <= f -> exists st1 st2 c1 c2, run f (cont a) = (Ok st1, c1) /\ run f (listing a hs) = (Ok st2, c2) /\ c1 + L * length hs <= c2.
Proof.
  intros HV HM HS. set (ps := map gv a :: map (map gv) hs) in *.
  assert (H0 : after ps M [] state_new). { split; try easy. split; [apply full_new| |]; intros [|v] n H; discriminate. }
  destruct (next_ok ps HV M HM 0 [] a (map (map gv) hs) 0 state_new eq_refl H0 (or_introl eq_refl)) as (st1 & A1 & N1 & B1).
  destruct (all_cost ps HV M HM L hs [map gv a] 1 st1 eq_refl A1 HS) as (st2 & _ & N2 & B2).
  exists (max N1 N2). intros f Hf. destruct (B1 f ltac:(lia)) as (c & C & _). pose proof (C []) as C1. pose proof (C (total_elems hs)) as C2. destruct (B2 f ltac:(lia)) as (c2 & D & Dl).
  cbn [Nat.add] in *. unfold trapezoidize_c. rewrite listing_total. exists st1, st2, c, (c + c2). split; [|split].
  - rewrite app_nil_r in C1. rewrite C1. cbn [build_loop_c free fst snd]. now rewrite Nat.add_0_r.
  - unfold total_elems. cbn [flat_map]. fold (total_elems hs). rewrite C2, D. reflexivity.
  - lia.
Qed.
End Two.
