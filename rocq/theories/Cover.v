(** Every point off the polygons, also on an edge between triangles, against the closed triangles. *)
From Coq Require Import QArith Qabs Lqa List Arith Lia Bool ZArith Permutation.
From Verif Require Import Base Coord Trap Mono Tri Trace Protocol Lanes Plane MonoProof MonoGeom Geo Region TrapInv Polygons Build Faces Open Traverse Sweep Tile Whole Outline EvenOdd Outcome Nest.
Import ListNotations.
Local Open Scope Q_scope.

(** ** Specification *)

Definition flat (t : point * point * point) : Prop := let '(a, b, c) := t in cross a b c == 0.

(** A point on no edge of the polygons is inside them iff it is in one of the closed triangles with positive area;
    if it is in one of these and on none of its edges, it is in no other. *)
Definition covers (ps : list (list point)) (T : list (point * point * point)) : Prop :=
  forall z, off ps z ->
    (inside_eo ps z = true <-> exists t, In t T /\ ~ flat t /\ in_closed t z) /\
    (forall j k t u, nth_error T j = Some t -> nth_error T k = Some u -> ~ flat t -> ~ flat u -> in_closed t z -> in_closed u z -> ~ on_tri t z -> j = k).

(** ** Half-open crossings *)
Section Half.
Variable M : Q.
Notation ht := (ht M).

(** As [hits], the edge itself counting when [s] holds. *)
Definition hitx (s : bool) (p a b : point) : bool := Qltb (ht a) (ht p) && Qltb (ht p) (ht b) && (if s then Qle_bool 0 (cross a b p) else Qltb 0 (cross a b p)).
Definition wx (s : bool) (p a b : point) : Q := (if hitx s p a b then 1 else 0) - (if hitx s p b a then 1 else 0).

Lemma wx_anti s p : anti (wx s p).
Proof. intros a b. unfold wx. ring. Qed.

Lemma hitx_no s p a b : ~ (ht a < ht p /\ ht p < ht b) -> hitx s p a b = false.
Proof. intros H. unfold hitx. destruct (Qltb (ht a) (ht p)) eqn:E1; auto. destruct (Qltb (ht p) (ht b)) eqn:E2; auto. apply Qltb_spec in E1, E2. elim H. auto. Qed.

Lemma hitx_yes s p a b : ht a < ht p -> ht p < ht b -> hitx s p a b = if s then Qle_bool 0 (cross a b p) else Qltb 0 (cross a b p).
Proof. intros H1 H2. unfold hitx. apply Qltb_spec in H1, H2. now rewrite H1, H2. Qed.

(** Off the edge the two agree. *)
Lemma wx_off s p a b : 0 < M -> ~ on_segment a b p -> wx s p a b == wp M p a b.
Proof.
  intros HM H. assert (K : forall x y, (on_segment x y p -> on_segment a b p) -> hitx s p x y = hits M p x y).
  { intros x y Hs. unfold hitx, hits. destruct (Qltb (ht x) (ht p)) eqn:E1; auto. destruct (Qltb (ht p) (ht y)) eqn:E2; auto. cbn [andb]. destruct s; auto.
    apply Qltb_spec in E1, E2. destruct (Qltb 0 (cross x y p)) eqn:E3.
    - apply Qltb_spec in E3. apply Qle_bool_iff. lra.
    - apply Qltb_false in E3. destruct (Qle_bool 0 (cross x y p)) eqn:E4; auto. apply Qle_bool_iff in E4. exfalso. apply H, Hs. apply (on_zero M); auto. lra. }
  unfold wx, wp. rewrite (K a b), (K b a); auto; [reflexivity|]. intros (t & K1 & K2 & K3 & K4). exists (1 - t). split; [lra|]. split; [lra|]. rewrite K3, K4. split; ring.
Qed.

Definition ins (a b c p : point) : Prop := 0 <= cross a b p /\ 0 <= cross b c p /\ 0 <= cross c a p.

Lemma tri_lone s p a b c : 0 <= cross a b c -> (ht a < ht p /\ ht p < ht b /\ ht p < ht c) \/ (ht p < ht a /\ ht b < ht p /\ ht c < ht p) ->
  (tri_sum (wx s p) (a, b, c) == 0 \/ tri_sum (wx s p) (a, b, c) == 1 /\ 0 < cross a b c /\ ins a b c p) /\
  (0 < cross a b c -> ins a b c p -> 0 < cross a b p -> 0 < cross c a p -> tri_sum (wx s p) (a, b, c) == 1) /\
  (0 < cross a b c -> ins a b c p -> tri_sum (wx false p) (a, b, c) == 1 \/ tri_sum (wx true p) (a, b, c) == 1).
Proof.
  intros Hc H. pose proof (bary M a b c p) as Eb. pose proof (cross_split a b c p) as Es. pose proof (cross_swap a b p) as S1. pose proof (cross_swap c a p) as S3.
  assert (Ebc : forall s, wx s p b c == 0). { intros s'. unfold wx. rewrite !hitx_no; [ring|intros (K1 & K2); destruct H; lra|intros (K1 & K2); destruct H; lra]. }
  assert (Ts : forall s, tri_sum (wx s p) (a, b, c) == wx s p a b + wx s p c a). { intros s'. unfold tri_sum. rewrite Ebc. ring. }
  set (x := cross a b p) in *. set (y := cross b c p) in *. set (z := cross c a p) in *.
  destruct H as [(H1 & H2 & H3)|(H1 & H2 & H3)].
  - assert (W1 : forall s, wx s p a b == if (if s then Qle_bool 0 x else Qltb 0 x) then 1 else 0). { intros s'. unfold wx. rewrite (hitx_yes s' p a b) by auto. rewrite (hitx_no s' p b a) by lra. fold x. ring. }
    assert (W2 : forall s, wx s p c a == - if (if s then Qle_bool z 0 else Qltb z 0) then 1 else 0).
    { intros s'. unfold wx. rewrite (hitx_yes s' p a c) by auto. rewrite (hitx_no s' p c a) by lra.
      assert ((if s' then Qle_bool 0 (cross a c p) else Qltb 0 (cross a c p)) = (if s' then Qle_bool z 0 else Qltb z 0)) as ->; [|ring].
      destruct s'; apply eq_true_iff_eq; rewrite ?Qle_bool_iff, ?Qltb_spec; split; intros; lra. }
    assert (Y : y * (ht p - ht a) == x * (ht c - ht p) + z * (ht b - ht p)) by lra.
    assert (P0 : 0 < ht p - ht a) by lra. assert (P1 : 0 < ht b - ht p) by lra. assert (P2 : 0 < ht c - ht p) by lra.
    assert (Neg : x <= 0 -> z <= 0 -> x < 0 \/ z < 0 -> False).
    { intros X0 Z0 XZ. assert (x * (ht c - ht p) <= 0) by nra. assert (z * (ht b - ht p) <= 0) by nra. assert (x * (ht c - ht p) + z * (ht b - ht p) < 0) by (destruct XZ; nra). assert (y < 0) by nra. lra. }
    assert (Pos : 0 <= x -> 0 <= z -> 0 < x \/ 0 < z -> 0 < cross a b c /\ ins a b c p).
    { intros X0 Z0 XZ. assert (0 <= x * (ht c - ht p)) by nra. assert (0 <= z * (ht b - ht p)) by nra. assert (0 < x * (ht c - ht p) + z * (ht b - ht p)) by (destruct XZ; nra). assert (0 < y) by nra. unfold ins. fold x y z. lra. }
    split; [|split].
    + rewrite Ts, W1, W2. destruct s.
      * destruct (Qle_bool 0 x) eqn:E1, (Qle_bool z 0) eqn:E2; rewrite ?Qle_bool_iff in *; try (left; ring).
        -- right. split; [ring|]. assert (0 < z). { destruct (Qlt_le_dec 0 z) as [L|L]; auto. apply Qle_bool_iff in L. congruence. } apply Pos; auto. lra.
        -- exfalso. assert (x < 0). { destruct (Qlt_le_dec x 0) as [L|L]; auto. apply Qle_bool_iff in L. congruence. } apply Neg; auto. lra.
      * destruct (Qltb 0 x) eqn:E1, (Qltb z 0) eqn:E2; rewrite ?Qltb_spec, ?Qltb_false in *; try (left; ring).
        -- right. split; [ring|]. apply Pos; auto. lra.
        -- exfalso. apply Neg; auto. lra.
    + intros _ _ X0 Z0. rewrite Ts, W1, W2. assert (Qle_bool 0 x = true) as -> by (apply Qle_bool_iff; lra). assert (Qltb 0 x = true) as -> by (apply Qltb_spec; lra).
      assert (Qltb z 0 = false) as -> by (apply Qltb_false; lra). assert (Qle_bool z 0 = false) as ->. { destruct (Qle_bool z 0) eqn:E; auto. apply Qle_bool_iff in E. lra. } destruct s; ring.
    + intros Cp (X0 & Y0 & Z0). fold x y z in X0, Y0, Z0. rewrite !Ts, !W1, !W2. destruct (Qlt_le_dec 0 x) as [Lx|Lx].
      * left. assert (Qltb 0 x = true) as -> by (apply Qltb_spec; lra). assert (Qltb z 0 = false) as -> by (apply Qltb_false; lra). ring.
      * right. assert (Qle_bool 0 x = true) as -> by (apply Qle_bool_iff; lra). assert (Qle_bool z 0 = false) as ->; [|ring]. destruct (Qle_bool z 0) eqn:E; auto. apply Qle_bool_iff in E. exfalso.
        assert (x == 0) as Ex by lra. assert (z == 0) as Ez by lra. rewrite Ex, Ez in Y. assert (y * (ht p - ht a) == 0) by lra. destruct (Qmult_integral _ _ H); lra.
  - assert (W1 : forall s, wx s p a b == - if (if s then Qle_bool x 0 else Qltb x 0) then 1 else 0).
    { intros s'. unfold wx. rewrite (hitx_yes s' p b a) by auto. rewrite (hitx_no s' p a b) by lra.
      assert ((if s' then Qle_bool 0 (cross b a p) else Qltb 0 (cross b a p)) = (if s' then Qle_bool x 0 else Qltb x 0)) as ->; [|ring].
      destruct s'; apply eq_true_iff_eq; rewrite ?Qle_bool_iff, ?Qltb_spec; split; intros; lra. }
    assert (W2 : forall s, wx s p c a == if (if s then Qle_bool 0 z else Qltb 0 z) then 1 else 0). { intros s'. unfold wx. rewrite (hitx_yes s' p c a) by auto. rewrite (hitx_no s' p a c) by lra. fold z. ring. }
    assert (Y : y * (ht a - ht p) == x * (ht p - ht c) + z * (ht p - ht b)) by lra.
    assert (P0 : 0 < ht a - ht p) by lra. assert (P1 : 0 < ht p - ht b) by lra. assert (P2 : 0 < ht p - ht c) by lra.
    assert (Neg : x <= 0 -> z <= 0 -> x < 0 \/ z < 0 -> False).
    { intros X0 Z0 XZ. assert (x * (ht p - ht c) <= 0) by nra. assert (z * (ht p - ht b) <= 0) by nra. assert (x * (ht p - ht c) + z * (ht p - ht b) < 0) by (destruct XZ; nra). assert (y < 0) by nra. lra. }
    assert (Pos : 0 <= x -> 0 <= z -> 0 < x \/ 0 < z -> 0 < cross a b c /\ ins a b c p).
    { intros X0 Z0 XZ. assert (0 <= x * (ht p - ht c)) by nra. assert (0 <= z * (ht p - ht b)) by nra. assert (0 < x * (ht p - ht c) + z * (ht p - ht b)) by (destruct XZ; nra). assert (0 < y) by nra. unfold ins. fold x y z. lra. }
    split; [|split].
    + rewrite Ts, W1, W2. destruct s.
      * destruct (Qle_bool x 0) eqn:E1, (Qle_bool 0 z) eqn:E2; rewrite ?Qle_bool_iff in *; try (left; ring).
        -- exfalso. assert (z < 0). { destruct (Qlt_le_dec z 0) as [L|L]; auto. apply Qle_bool_iff in L. congruence. } apply Neg; auto. lra.
        -- right. split; [ring|]. assert (0 < x). { destruct (Qlt_le_dec 0 x) as [L|L]; auto. apply Qle_bool_iff in L. congruence. } apply Pos; auto. lra.
      * destruct (Qltb x 0) eqn:E1, (Qltb 0 z) eqn:E2; rewrite ?Qltb_spec, ?Qltb_false in *; try (left; ring).
        -- exfalso. apply Neg; auto. lra.
        -- right. split; [ring|]. apply Pos; auto. lra.
    + intros _ _ X0 Z0. rewrite Ts, W1, W2. assert (Qle_bool 0 z = true) as -> by (apply Qle_bool_iff; lra). assert (Qltb 0 z = true) as -> by (apply Qltb_spec; lra).
      assert (Qltb x 0 = false) as -> by (apply Qltb_false; lra). assert (Qle_bool x 0 = false) as ->. { destruct (Qle_bool x 0) eqn:E; auto. apply Qle_bool_iff in E. lra. } destruct s; ring.
    + intros Cp (X0 & Y0 & Z0). fold x y z in X0, Y0, Z0. rewrite !Ts, !W1, !W2. destruct (Qlt_le_dec 0 z) as [Lx|Lx].
      * left. assert (Qltb 0 z = true) as -> by (apply Qltb_spec; lra). assert (Qltb x 0 = false) as -> by (apply Qltb_false; lra). ring.
      * right. assert (Qle_bool 0 z = true) as -> by (apply Qle_bool_iff; lra). assert (Qle_bool x 0 = false) as ->; [|ring]. destruct (Qle_bool x 0) eqn:E; auto. apply Qle_bool_iff in E. exfalso.
        assert (x == 0) as Ex by lra. assert (z == 0) as Ez by lra. rewrite Ex, Ez in Y. assert (y * (ht a - ht p) == 0) by lra. destruct (Qmult_integral _ _ H); lra.
Qed.

Definition tri_ok (s : bool) (p a b c : point) : Prop :=
  (tri_sum (wx s p) (a, b, c) == 0 \/ tri_sum (wx s p) (a, b, c) == 1 /\ 0 < cross a b c /\ ins a b c p) /\
  (in_tri p (a, b, c) -> tri_sum (wx s p) (a, b, c) == 1) /\
  (0 < cross a b c -> ins a b c p -> tri_sum (wx false p) (a, b, c) == 1 \/ tri_sum (wx true p) (a, b, c) == 1).

Lemma tri_ok_rot s p a b c : tri_ok s p b c a -> tri_ok s p a b c.
Proof.
  assert (R : forall s, tri_sum (wx s p) (a, b, c) == tri_sum (wx s p) (b, c, a)) by (intros; unfold tri_sum; ring). pose proof (cross_rot a b c) as C.
  unfold tri_ok, ins, in_tri. intros (H1 & H2 & H3). rewrite !R, !C. split; [|split].
  - destruct H1 as [H1|H1]; [auto|right; tauto].
  - intros; apply H2; tauto.
  - intros K1 K2. apply H3; auto. tauto.
Qed.

Lemma tri_half s p a b c : 0 <= cross a b c -> ~ ht a == ht p -> ~ ht b == ht p -> ~ ht c == ht p -> tri_ok s p a b c.
Proof.
  intros Hc Ha Hb Hcc. pose proof (cross_rot a b c) as C1. pose proof (cross_rot b c a) as C2. pose proof (bary M a b c p) as Eb. pose proof (cross_split a b c p) as Es.
  assert (L : forall a b c, 0 <= cross a b c -> (ht a < ht p /\ ht p < ht b /\ ht p < ht c) \/ (ht p < ht a /\ ht b < ht p /\ ht c < ht p) -> tri_ok s p a b c).
  { clear. intros a b c Hc H. destruct (tri_lone s p a b c Hc H) as (K1 & K2 & K3). split; auto. split; auto. intros (J1 & J2 & J3). pose proof (cross_split a b c p) as Es. apply K2; auto; [lra|]. unfold ins. lra. }
  assert (All : (ht p < ht a /\ ht p < ht b /\ ht p < ht c) \/ (ht a < ht p /\ ht b < ht p /\ ht c < ht p) -> tri_ok s p a b c).
  { intros K. assert (Z : ~ (0 < cross a b c /\ ins a b c p)).
    { intros (P & X0 & Y0 & Z0). destruct K as [(K1 & K2 & K3)|(K1 & K2 & K3)].
      - assert (0 <= cross a b p * (ht c - ht p)) by nra. assert (0 <= cross b c p * (ht a - ht p)) by nra. assert (0 <= cross c a p * (ht b - ht p)) by nra.
        assert (A1 : cross a b p * (ht c - ht p) == 0) by lra. assert (A2 : cross b c p * (ht a - ht p) == 0) by lra. assert (A3 : cross c a p * (ht b - ht p) == 0) by lra.
        destruct (Qmult_integral _ _ A1); [|lra]. destruct (Qmult_integral _ _ A2); [|lra]. destruct (Qmult_integral _ _ A3); lra.
      - assert (0 <= cross a b p * (ht p - ht c)) by nra. assert (0 <= cross b c p * (ht p - ht a)) by nra. assert (0 <= cross c a p * (ht p - ht b)) by nra.
        assert (A1 : cross a b p * (ht p - ht c) == 0) by lra. assert (A2 : cross b c p * (ht p - ht a) == 0) by lra. assert (A3 : cross c a p * (ht p - ht b) == 0) by lra.
        destruct (Qmult_integral _ _ A1); [|lra]. destruct (Qmult_integral _ _ A2); [|lra]. destruct (Qmult_integral _ _ A3); lra. }
    split; [|split].
    - left. unfold tri_sum, wx. rewrite !hitx_no by (intros (K1 & K2); destruct K; lra). ring.
    - intros (J1 & J2 & J3). exfalso. apply Z. unfold ins. split; [lra|]. lra.
    - intros J1 J2. exfalso. apply Z. auto. }
  destruct (Q_dec (ht a) (ht p)) as [[Ka|Ka]|Ka]; [| |contradiction]; destruct (Q_dec (ht b) (ht p)) as [[Kb|Kb]|Kb]; try contradiction; destruct (Q_dec (ht c) (ht p)) as [[Kc|Kc]|Kc]; try contradiction.
  - apply All. tauto.
  - do 2 apply tri_ok_rot. apply L; lra.
  - apply tri_ok_rot. apply L; lra.
  - apply L; lra.
  - apply L; lra.
  - apply tri_ok_rot. apply L; lra.
  - do 2 apply tri_ok_rot. apply L; lra.
  - apply All. tauto.
Qed.
End Half.

Lemma closed_ins a b c p : 0 < cross a b c -> (in_closed (a, b, c) p <-> ins a b c p).
Proof.
  intros HC. split.
  - intros (u & v & w & Hu & Hv & Hw & Hs & Ex & Ey).
    assert (Ew : cross a b p == w * cross a b c). { unfold cross. rewrite Ex, Ey. setoid_replace u with (1 - v - w) by lra. ring. }
    assert (Eu : cross b c p == u * cross a b c). { unfold cross. rewrite Ex, Ey. setoid_replace u with (1 - v - w) by lra. ring. }
    assert (Ev : cross c a p == v * cross a b c). { unfold cross. rewrite Ex, Ey. setoid_replace u with (1 - v - w) by lra. ring. }
    unfold ins. rewrite Eu, Ev, Ew. repeat split; nra.
  - intros (H1 & H2 & H3). pose proof (cross_split a b c p) as E.
    exists (cross b c p / cross a b c), (cross c a p / cross a b c), (cross a b p / cross a b c).
    assert (NZ : ~ cross a b c == 0) by lra.
    split; [apply Qle_shift_div_l; lra|]. split; [apply Qle_shift_div_l; lra|]. split; [apply Qle_shift_div_l; lra|]. split; [rewrite E in *; field; lra|].
    split; apply (Qmult_inj_r _ _ (cross a b c) NZ); field_simplify; auto; unfold cross; ring.
Qed.

(** ** Sums of nonnegative terms *)
Lemma sum_at {A} (f : A -> Q) l j x : (forall y, In y l -> 0 <= f y) -> nth_error l j = Some x -> f x <= sumq f l.
Proof.
  revert j. induction l as [|a l IH]; intros [|j] H Hj; cbn in *; try discriminate.
  - injection Hj as <-. assert (0 <= sumq f l) by (apply sum_nonneg; auto). lra.
  - assert (0 <= f a) by auto. assert (f x <= sumq f l) by (eapply IH; eauto). lra.
Qed.
Lemma sum_two {A} (f : A -> Q) l : forall j k x y, (forall y, In y l -> 0 <= f y) -> nth_error l j = Some x -> nth_error l k = Some y -> j <> k -> f x + f y <= sumq f l.
Proof.
  induction l as [|a l IH]; intros [|j] [|k] x y H Hj Hk Hne; cbn in *; try discriminate; try (elim Hne; reflexivity).
  - injection Hj as <-. assert (f y <= sumq f l) by (eapply sum_at; eauto). lra.
  - injection Hk as <-. assert (f x <= sumq f l) by (eapply sum_at; eauto). lra.
  - assert (0 <= f a) by auto. assert (f x + f y <= sumq f l) by (eapply (IH j k); eauto). lra.
Qed.
Lemma sum_some {A} (f : A -> Q) l : sumq f l == 1 -> exists x, In x l /\ ~ f x == 0.
Proof.
  induction l as [|a l IH]; cbn [sumq]; intros H; [discriminate|]. destruct (Qeq_dec (f a) 0) as [E|E]; [|exists a; split; auto; now left].
  destruct IH as (x & Hx & K); [rewrite E in H; lra|]. exists x. split; auto. now right.
Qed.

Section Run.
Context {I : Type}.
Variables (gv : I -> point) (elems : list (element I)).
Notation ps := (map (map gv) (groups elems)).
Hypothesis HV : valid ps.
Variables (st : state Q I) (calls : list (call I)).
Hypothesis HD : forall ex M, extra gv elems ex -> shear M (concat ps ++ ex) -> done gv elems ex M st.
Hypothesis HI : forall a b c, In (a, b, c) (tris_of calls) -> In a (indices elems) /\ In b (indices elems) /\ In c (indices elems).
Hypothesis HFa : forall ex M, extra gv elems ex -> shear M (concat ps ++ ex) -> facts gv false M st calls.

Theorem run_covers : covers ps (map (tri_pos gv) (tris_of calls)).
Proof.
  intros z Ho. destruct (shear_exists (concat ps ++ [z])) as (M & HM). pose proof (off_extra gv elems z Ho) as HX. destruct (HD [z] M HX HM) as [G _ F Pe Pp Dg]. destruct (HFa [z] M HX HM) as [_ Kc Ks].
  assert (HN : ~ In z (concat ps)). { intros K. apply (off_vertex ps z z Ho K). split; reflexivity. }
  pose proof (parity ps [z] z M gv st HV (or_introl eq_refl) HN G HM F Pe Pp Dg) as P. assert (M0 : 0 < M) by apply HM.
  set (T := tris_of calls) in *.
  assert (S : forall s, sumq (fun t => tri_sum (wx M s z) (tri_pos gv t)) T == if inside_eo ps z then 1 else 0).
  { intros s. rewrite (Ks eq_refl (wx M s z) (wx_anti M s z)), <- P. rewrite !(ow_edges ps [z] M gv st G HM F Pe). apply sumq_ext. intros d Hd.
    assert (O1 : ~ on_segment (fst d) (snd d) z) by now apply Ho. assert (O2 : ~ on_segment (snd d) (fst d) z).
    { intros (t & K1 & K2 & K3 & K4). apply O1. exists (1 - t). split; [lra|]. split; [lra|]. rewrite K3, K4. split; ring. }
    destruct (inn M st d); now apply wx_off. }
  assert (OK : forall s a b c, In (a, b, c) T -> tri_ok M s z (gv a) (gv b) (gv c)).
  { intros s a b c Hin. destruct (HI a b c Hin) as (Ia & Ib & Ic).
    assert (NH : forall i, In i (indices elems) -> ~ ht M (gv i) == ht M z).
    { intros i Hi K. apply HN. rewrite <- (ht_inj (concat ps ++ [z]) _ M G HM (gv i) z); auto; [now apply idx_W|apply in_or_app; left; now apply idx_W|apply in_or_app; right; now left]. }
    apply tri_half; auto. }
  assert (N0 : forall s t, In t T -> 0 <= tri_sum (wx M s z) (tri_pos gv t)). { intros s [[a b] c] Hin. destruct (OK s a b c Hin) as (K & _). cbn [tri_pos]. destruct K as [K|(K & _)]; rewrite K; lra. }
  assert (CP : forall a b c, In (a, b, c) T -> ~ flat (tri_pos gv (a, b, c)) -> 0 < cross (gv a) (gv b) (gv c)). { intros a b c Hin Hf. cbn [tri_pos flat] in Hf. pose proof (Kc eq_refl a b c Hin). lra. }
  assert (One : forall t, In t T -> ~ flat (tri_pos gv t) -> in_closed (tri_pos gv t) z -> exists s, tri_sum (wx M s z) (tri_pos gv t) == 1).
  { intros [[a b] c] Hin Hf Hc. pose proof (CP a b c Hin Hf) as Cp. cbn [tri_pos] in *. apply closed_ins in Hc; auto. destruct (OK false a b c Hin) as (_ & _ & K). destruct (K Cp Hc); eauto. }
  split; [split|].
  - intros Hi. specialize (S false). rewrite Hi in S. apply sum_some in S. destruct S as ([[a b] c] & Hin & Hne). destruct (OK false a b c Hin) as ([K|(_ & Cp & K)] & _); [contradiction|].
    exists (tri_pos gv (a, b, c)). split; [now apply in_map|]. cbn [tri_pos flat]. split; [lra|]. now apply closed_ins.
  - intros (t' & Hin & Hf & Hc). apply in_map_iff in Hin. destruct Hin as (t & <- & Hin). destruct (One t Hin Hf Hc) as (s & K). specialize (S s). apply In_nth_error in Hin. destruct Hin as (j & Hj).
    pose proof (sum_at (fun t => tri_sum (wx M s z) (tri_pos gv t)) T j t (N0 s) Hj) as L. cbv beta in L. rewrite K, S in L. destruct (inside_eo ps z); auto; lra.
  - intros j k t' u' Hj Hk Hf Hf' Hc Hc' Hon. rewrite nth_error_map in Hj, Hk. destruct (nth_error T j) as [t|] eqn:Ej; [|discriminate]. destruct (nth_error T k) as [u|] eqn:Ek; [|discriminate].
    injection Hj as <-. injection Hk as <-. pose proof (nth_error_In _ _ Ej) as It. pose proof (nth_error_In _ _ Ek) as Iu.
    destruct (One u Iu Hf' Hc') as (s & Ku). destruct (Nat.eq_dec j k) as [|Hne]; auto. exfalso.
    assert (Kt : tri_sum (wx M s z) (tri_pos gv t) == 1).
    { destruct t as [[a b] c]. destruct (OK s a b c It) as (_ & K & _). cbn [tri_pos] in *. apply K. destruct (HI a b c It) as (Ia & Ib & Ic). apply (in_closed_open M); auto.
      intros x y Hx Hy. assert (Q : forall x, In x [gv a; gv b; gv c] -> In x (concat ps ++ [z])). { intros w [<-|[<-|[<-|[]]]]; apply in_or_app; left; now apply idx_W. } apply (ht_inj _ _ M G HM); auto. }
    pose proof (sum_two (fun t => tri_sum (wx M s z) (tri_pos gv t)) T j k t u (N0 s) Ej Ek Hne) as L. cbv beta in L. rewrite Kt, Ku, S in L. destruct (inside_eo ps z); lra.
Qed.
End Run.

Section Returned.
Context {I : Type}.
Variables (gv : I -> point) (ieqb : I -> I -> bool) (dbg : bool).
Hypothesis Hieq : forall a b, ieqb a b = true <-> a = b.
Variables (math_n : nat -> nat -> nat) (shuf : nat -> nat -> list nat).
Hypothesis Hshuf : forall k n, Permutation (shuf k n) (seq 0 n).
Variable elems : list (element I).
Notation ps := (map (map gv) (groups elems)).
Hypothesis HV : valid ps.
Hypothesis Hps : ps <> [].

Lemma returns_covers T : returns gv ieqb dbg math_n shuf elems T -> covers ps (map (tri_pos gv) T).
Proof. intros HT. destruct (returns_run gv ieqb dbg Hieq math_n shuf Hshuf elems HV Hps T HT) as (st & calls & -> & _ & H1 & H2 & H3). now apply (run_covers gv elems HV st calls). Qed.
End Returned.
