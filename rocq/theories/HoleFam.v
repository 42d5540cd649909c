(** A family of convex polygons with a triangular hole that all their vertices but four see. *)
From Coq Require Import QArith Lqa List Arith Lia Bool ZArith Permutation Sorted.
From Verif Require Import Base Coord Trap Lanes Plane Runs MonoGeom Geo Region TrapInv Polygons Build Nest Near EvenOdd SlowFam Mountain Hole.
Import ListNotations.
Local Open Scope nat_scope.

(** Two valid lists without a common point of their edges. *)
Lemma on_end (a b : point) : on_segment a b a /\ on_segment a b b.
Proof. split; [exists 0%Q|exists 1%Q]; repeat split; try lra; ring. Qed.

Lemma edge_start {A} (l : list A) i a : nth_error l i = Some a -> exists b, nth_error (edges l) i = Some (a, b).
Proof.
  intros H. assert (L : i < length (edges l)) by (rewrite edges_length; eapply nth_lt; eauto). destruct (lt_nth _ _ _ L) as ((c, b) & E). exists b.
  assert (F : forall (u v : list A) k c b, nth_error (combine u v) k = Some (c, b) -> nth_error u k = Some (c : A)). { clear. induction u as [|x u IH]; intros [|y v] [|k] c b H; try discriminate; cbn in *; [congruence|eauto]. }
  destruct l as [|x l]; [destruct i; discriminate|]. cbn [edges] in E |- *. rewrite E. apply F in E. congruence.
Qed.

Lemma valid_apart ps qs : valid ps -> valid qs ->
  (forall e f p, In e (concat (map edges ps)) -> In f (concat (map edges qs)) -> on_segment (fst e) (snd e) p -> on_segment (fst f) (snd f) p -> False) -> valid (ps ++ qs).
Proof.
  intros (A1 & A2 & A3) (B1 & B2 & B3) H. split; [now apply Forall_app|]. rewrite map_app, !concat_app.
  assert (V : forall (ps : list (list point)) i a, nth_error (concat ps) i = Some a -> exists b, In (a, b) (concat (map edges ps))).
  { clear. induction ps as [|p ps IH]; intros i a Hi; [destruct i; discriminate|]. cbn [concat map] in *. destruct (Nat.lt_ge_cases i (length p)) as [L|L].
    - rewrite nth_error_app1 in Hi by auto. destruct (edge_start p i a Hi) as (b & Hb). exists b. apply in_or_app. left. eapply nth_error_In; eauto.
    - rewrite nth_error_app2 in Hi by auto. destruct (IH _ _ Hi) as (b & Hb). exists b. apply in_or_app. now right. }
  assert (Peq : forall a b p q, peq a b -> on_segment a q p -> on_segment b q p). { intros a b p q (E1 & E2) (t & T0 & T1 & T2 & T3). exists t. rewrite <- E1, <- E2. auto. }
  assert (Pon : forall a b p q, peq p q -> on_segment a b p -> on_segment a b q). { intros a b p q (E1 & E2) (t & T0 & T1 & T2 & T3). exists t. rewrite <- E1, <- E2. auto. }
  split.
  - intros i j a b Hi Hj E. destruct (Nat.lt_ge_cases i (length (concat ps))) as [Li|Li], (Nat.lt_ge_cases j (length (concat ps))) as [Lj|Lj].
    + rewrite nth_error_app1 in Hi, Hj by auto. eauto.
    + exfalso. rewrite nth_error_app1 in Hi by auto. rewrite nth_error_app2 in Hj by auto. destruct (V _ _ _ Hi) as (x & Hx), (V _ _ _ Hj) as (y & Hy). apply (H _ _ b Hx Hy); cbn; [apply (Pon _ _ a b E)|]; apply on_end.
    + exfalso. rewrite nth_error_app1 in Hj by auto. rewrite nth_error_app2 in Hi by auto. destruct (V _ _ _ Hi) as (x & Hx), (V _ _ _ Hj) as (y & Hy). apply (H _ _ b Hy Hx); cbn; [|apply (Pon _ _ a b E)]; apply on_end.
    + rewrite nth_error_app2 in Hi, Hj by auto. specialize (B2 _ _ _ _ Hi Hj E). lia.
  - intros i j e f p Hi Hj Hne He Hf. set (D := concat (map edges ps)) in *. destruct (Nat.lt_ge_cases i (length D)) as [Li|Li], (Nat.lt_ge_cases j (length D)) as [Lj|Lj].
    + rewrite nth_error_app1 in Hi, Hj by auto. eauto.
    + exfalso. rewrite nth_error_app1 in Hi by auto. rewrite nth_error_app2 in Hj by auto. apply nth_error_In in Hi, Hj. eauto.
    + exfalso. rewrite nth_error_app1 in Hj by auto. rewrite nth_error_app2 in Hi by auto. apply nth_error_In in Hi, Hj. eauto.
    + rewrite nth_error_app2 in Hi, Hj by auto. apply (B3 _ _ _ _ p Hi Hj); auto. lia.
Qed.

(** Between the ends. *)
Lemma seg_box (a b p : point) c : on_segment a b p ->
  ((c <= cx a -> c <= cx b -> c <= cx p) /\ (cx a <= c -> cx b <= c -> cx p <= c) /\ (c <= cy a -> c <= cy b -> c <= cy p) /\ (cy a <= c -> cy b <= c -> cy p <= c))%Q.
Proof. intros (t & T0 & T1 & E1 & E2). rewrite E1, E2. repeat split; intros; nra. Qed.

Lemma X_ge M f h c : within M f h -> (c <= cx (fst f) -> c <= cx (snd f) -> c <= X M f h)%Q.
Proof.
  intros (H1 & H2) C1 C2. unfold X. set (t := ((h - ht M (fst f)) / (ht M (snd f) - ht M (fst f)))%Q).
  assert (T0 : (0 < t)%Q) by (apply Qlt_shift_div_l; lra). assert (T1 : (t < 1)%Q) by (apply Qlt_shift_div_r; lra).
  setoid_replace (cx (fst f) + (h - ht M (fst f)) * ((cx (snd f) - cx (fst f)) / (ht M (snd f) - ht M (fst f))))%Q with (cx (fst f) + t * (cx (snd f) - cx (fst f)))%Q by (unfold t; field; lra). nra.
Qed.

Lemma X_le M f h c : within M f h -> (cx (fst f) <= c -> cx (snd f) <= c -> X M f h <= c)%Q.
Proof.
  intros (H1 & H2) C1 C2. unfold X. set (t := ((h - ht M (fst f)) / (ht M (snd f) - ht M (fst f)))%Q).
  assert (T0 : (0 < t)%Q) by (apply Qlt_shift_div_l; lra). assert (T1 : (t < 1)%Q) by (apply Qlt_shift_div_r; lra).
  setoid_replace (cx (fst f) + (h - ht M (fst f)) * ((cx (snd f) - cx (fst f)) / (ht M (snd f) - ht M (fst f))))%Q with (cx (fst f) + t * (cx (snd f) - cx (fst f)))%Q by (unfold t; field; lra). nra.
Qed.

Section Fam.
Variable m : nat.
Hypothesis Hm : 3 <= m.

Definition bend (i : nat) : point := ((- (4) * iq i * iq (m + 1 - i))%Q, (- (2) * iq i)%Q).
(** The polygon, from top to bottom: a convex chain to the left of the edge from its last to its first vertex. *)
Definition bow : list point := map bend (seq 0 (m + 2)).
(** The holes, from right to left. *)
Definition hole (k : nat) : list point := [((- (2) * iq k - 2)%Q, (-3)%Q); ((- (2) * iq k - 1)%Q, (-4)%Q); ((- (2) * iq k - 2)%Q, (1 - 2 * iq m)%Q)].
(** Their long edges and the vertices that see them. *)
Definition slit (k : nat) : edge := (((- (2) * iq k - 2)%Q, (1 - 2 * iq m)%Q), ((- (2) * iq k - 2)%Q, (-3)%Q)).
Definition seers : list point := map bend (seq 2 (m - 2)).

Lemma iq3 : (3 <= iq m)%Q.
Proof. change 3%Q with (iq 3). now apply iq_le. Qed.

Lemma bow_nth i : i < m + 2 -> nth_error bow i = Some (bend i).
Proof. intros H. unfold bow. rewrite nth_error_map. rewrite (nth_error_nth' _ 0) by (rewrite seq_length; lia). rewrite seq_nth by lia. reflexivity. Qed.
Lemma bow_inv i v : nth_error bow i = Some v -> i < m + 2 /\ v = bend i.
Proof. intros H. assert (L : i < m + 2). { apply nth_lt in H. unfold bow in H. rewrite map_length, seq_length in H. exact H. } split; auto. rewrite bow_nth in H by auto. congruence. Qed.
Lemma bow_len : length bow = m + 2.
Proof. unfold bow. now rewrite map_length, seq_length. Qed.

Lemma bow_3 : 3 <= length bow.
Proof. rewrite bow_len. lia. Qed.

Lemma bend_lt i j : i < j -> plt (bend j) (bend i).
Proof. intros H. left. unfold bend, cy. cbn [snd]. apply iq_lt in H. lra. Qed.

(** The inner vertices are far to the left. *)
Lemma bend_far i : 1 <= i -> i <= m -> (cx (bend i) <= - (4) * iq m)%Q.
Proof.
  intros H1 H2. unfold bend, cx. cbn [fst]. assert (1 <= iq i)%Q by (change 1%Q with (iq 1); now apply iq_le). assert (1 <= iq (m + 1 - i))%Q by (change 1%Q with (iq 1); apply iq_le; lia).
  assert (E : (iq i + iq (m + 1 - i) == iq m + 1)%Q). { unfold iq. rewrite <- inject_Z_plus, <- (inject_Z_plus _ 1). replace (Z.of_nat i + Z.of_nat (m + 1 - i))%Z with (Z.of_nat m + 1)%Z by lia. reflexivity. } nra.
Qed.

Lemma bow_ends : exists Mm, bow = bend 0 :: Mm ++ [bend (m + 1)] /\ forall v, In v Mm -> exists i, 1 <= i /\ i <= m /\ v = bend i.
Proof.
  exists (map bend (seq 1 m)). split.
  - unfold bow. replace (m + 2) with (S (m + 1)) by lia. cbn [seq map]. f_equal. rewrite seq_app, map_app. cbn [seq map]. now rewrite (Nat.add_comm 1 m).
  - intros v Hv. apply in_map_iff in Hv. destruct Hv as (i & <- & Hi). apply in_seq in Hi. exists i. repeat split; lia.
Qed.

Lemma bow_mountain : mountain true bow.
Proof.
  split.
  - unfold bow. generalize (m + 2) as k. generalize 0 as s. intros s k. revert s. induction k as [|k IH]; intros s; cbn [seq map]; constructor; auto.
    apply Forall_forall. intros v Hv. apply in_map_iff in Hv. destruct Hv as (i & <- & Hi). apply in_seq in Hi. apply bend_lt. lia.
  - destruct bow_ends as (Mm & E & H). exists (bend 0), (bend (m + 1)), Mm. split; auto. intros v Hv. destruct (H v Hv) as (i & I1 & I2 & ->). pose proof (bend_far i I1 I2) as F. pose proof iq3 as Z0.
    cbn [sgn]. unfold cross. set (x := cx (bend i)) in *. unfold bend, cx, cy. cbn [fst snd]. rewrite Nat.sub_diag. fold (cx (bend i)).
    assert (E0 : (iq 0 == 0)%Q) by reflexivity. pose proof iq3 as Z. assert (Ei : (iq (m + 1) == iq m + 1)%Q) by (rewrite Nat.add_1_r; apply iq_S). change (fst (bend i)) with x. rewrite E0, Ei. nra.
Qed.

Lemma bow_valid : valid [bow].
Proof. apply (mountain_valid true); [apply bow_mountain|rewrite bow_len; lia]. Qed.

Lemma hole_valid k : valid [hole k].
Proof.
  apply (mountain_valid false); [|cbn; lia]. pose proof iq3 as Z. split.
  - unfold hole. repeat first [apply SSorted_nil | apply Forall_nil | apply SSorted_cons | apply Forall_cons]; left; unfold cy; cbn [fst snd]; lra.
  - eexists _, _, [_]. split; [reflexivity|]. intros v [<-|[]]. cbn [sgn]. unfold cross, cx, cy. cbn [fst snd]. nra.
Qed.

(** The edges of a hole are in a box. *)
Lemma hole_box k e p : In e (edges (hole k)) -> on_segment (fst e) (snd e) p -> (- (2) * iq k - 2 <= cx p /\ cx p <= - (2) * iq k - 1 /\ 1 - 2 * iq m <= cy p /\ cy p <= -3)%Q.
Proof.
  pose proof iq3 as Z. intros He Ho. pose proof (fun c => seg_box _ _ _ c Ho) as B.
  destruct (B (- (2) * iq k - 2)%Q) as (B1 & _), (B (- (2) * iq k - 1)%Q) as (_ & B2 & _), (B (1 - 2 * iq m)%Q) as (_ & _ & B3 & _), (B (-3)%Q) as (_ & _ & _ & B4).
  cbn in He. destruct He as [<-|[<-|[<-|[]]]]; unfold cx, cy in *; cbn [fst snd] in *; repeat split; (apply B1 || apply B2 || apply B3 || apply B4); lra.
Qed.

Lemma bow_hole k e f p : k < m -> In e (edges bow) -> In f (edges (hole k)) -> on_segment (fst e) (snd e) p -> on_segment (fst f) (snd f) p -> False.
Proof.
  intros Hk He Hf Oe Of. destruct (hole_box k f p Hf Of) as (X1 & X2 & Y1 & Y2). clear Of Hf f. pose proof iq3 as Z. pose proof (iq_lt k m Hk) as Kl. pose proof (iq_0 k) as K0.
  apply In_nth_error in He. destruct He as (i & Hi). destruct (edge_at true bow bow_mountain bow_3 i e Hi) as [(L & E1 & E2 & _)|(L & E1 & E2 & _)].
  - rewrite bow_len in L. apply bow_inv in E1, E2. destruct E1 as (_ & E1), E2 as (_ & E2). rewrite E1, E2 in Oe.
    destruct (Nat.eq_dec i 0) as [->|N0]; [|destruct (Nat.eq_dec i m) as [->|Nm]].
    + destruct (seg_box _ _ _ (-2)%Q Oe) as (_ & _ & S & _). unfold bend, cy in S. cbn [fst snd] in S. change (iq 0) with 0%Q in S. change (iq 1) with 1%Q in S. unfold cy in *. lra.
    + destruct (seg_box _ _ _ (- (2) * iq m)%Q Oe) as (_ & _ & _ & S). unfold bend, cy in S. cbn [fst snd] in S. pose proof (iq_S m). unfold cy in *. lra.
    + destruct (seg_box _ _ _ (- (4) * iq m)%Q Oe) as (_ & Sg & _). pose proof (bend_far i ltac:(lia) ltac:(lia)) as F1. pose proof (bend_far (S i) ltac:(lia) ltac:(lia)) as F2. specialize (Sg F1 F2). lra.
  - rewrite bow_len in L. apply bow_inv in E1, E2. destruct E1 as (_ & E1), E2 as (_ & E2). rewrite E1, E2 in Oe. destruct (seg_box _ _ _ 0%Q Oe) as (S & _). replace i with (m + 1) in S by lia. unfold bend, cx in S. cbn [fst snd] in S.
    rewrite Nat.sub_diag in S. change (iq 0) with 0%Q in S. unfold cx in *. assert (0 <= fst p)%Q by (apply S; lra). lra.
Qed.

Lemma holes_valid K : forall s, valid (map hole (seq s K)).
Proof.
  induction K as [|K IH]; intros s; cbn [seq map]. { split; [constructor|]. cbn. split; [intros [|i]; discriminate|intros [|i]; discriminate]. }
  apply (valid_apart [hole s] (map hole (seq (S s) K)) (hole_valid s) (IH (S s))). intros e f p He Hf Oe Of. change (concat (map edges [hole s])) with (edges (hole s) ++ []) in He. rewrite app_nil_r in He.
  apply in_concat in Hf. destruct Hf as (l & Hl & Hf). apply in_map_iff in Hl. destruct Hl as (h & <- & Hl). apply in_map_iff in Hl. destruct Hl as (j & <- & Hj). apply in_seq in Hj.
  destruct (hole_box s e p He Oe) as (X1 & _). destruct (hole_box j f p Hf Of) as (_ & X2 & _). assert (iq (S s) <= iq j)%Q by (apply iq_le; lia). pose proof (iq_S s). lra.
Qed.

Lemma all_valid K : K <= m -> valid (bow :: map hole (seq 0 K)).
Proof.
  intros HK. apply (valid_apart [bow] _ bow_valid (holes_valid K 0)). intros e f p He Hf Oe Of. cbn [map concat] in He. rewrite app_nil_r in He.
  apply in_concat in Hf. destruct Hf as (l & Hl & Hf). apply in_map_iff in Hl. destruct Hl as (h & <- & Hl). apply in_map_iff in Hl. destruct Hl as (j & <- & Hj). apply in_seq in Hj. apply (bow_hole j e f p); auto. lia.
Qed.

(** The holes are inside. *)
Lemma hole_inside k v : k < m -> In v (hole k) -> inside_eo [bow] v = true.
Proof.
  intros Hk Hv. pose proof iq3 as Z. pose proof (iq_lt k m Hk) as Kl. pose proof (iq_0 k) as K0.
  assert (B : (- (2) * iq k - 2 <= cx v /\ cx v <= -1 /\ 1 - 2 * iq m <= cy v /\ cy v <= -3)%Q). { unfold hole in Hv. destruct Hv as [<-|[<-|[<-|[]]]]; unfold cx, cy; cbn [fst snd]; lra. }
  destruct B as (X1 & X2 & Y1 & Y2). unfold inside_eo, crossings. cbn [map concat]. rewrite app_nil_r. fold (par (crossed v) (edges bow)).
  assert (Hq : nth_error bow 0 = Some (bend 0)) by (apply bow_nth; lia). assert (Hp : nth_error bow (m + 1) = Some (bend (m + 1))) by (apply bow_nth; lia).
  assert (L : m + 1 < length (edges bow)) by (rewrite edges_length, bow_len; lia). destruct (lt_nth _ _ _ L) as (e & He). pose proof (edges_length bow) as El. rewrite bow_len in El.
  assert (Hn : NoDup (edges bow)). { apply (NoDup_map_inv fst). assert (E : map fst (edges bow) = bow) by (pose proof (alledges_fst [bow]) as K; cbn in K; now rewrite !app_nil_r in K). rewrite E. pose proof (valid_nd _ bow_valid) as K. cbn in K. now rewrite app_nil_r in K. }
  apply (alone _ _ e Hn (nth_error_In _ _ He)).
  - destruct (edge_at true bow bow_mountain bow_3 _ _ He) as [(K & _)|(_ & E1 & E2 & _)]; [rewrite bow_len in K; lia|]. apply bow_inv in E1, E2. destruct E1 as (_ & E1), E2 as (_ & E2). destruct e as [a b]. cbn [fst snd] in *. subst a b.
    unfold crossed. assert (Ei : (iq (m + 1) == iq m + 1)%Q) by (rewrite Nat.add_1_r; apply iq_S). assert (Qltb (cy (bend (m + 1))) (cy v) = true) as ->. { apply Qltb_spec. unfold bend. unfold cy at 1. cbn [snd]. lra. }
    assert (Qltb (cy (bend 0)) (cy v) = false) as ->. { apply Qltb_false. unfold bend. unfold cy at 2. cbn [snd]. change (iq 0) with 0%Q. lra. }
    cbn [negb andb]. apply Qltb_spec. unfold cross, bend. unfold cx at 1 2 4, cy at 2 3 4. cbn [fst snd]. rewrite Nat.sub_diag. change (iq 0) with 0%Q. rewrite Ei. nra.
  - intros f Hf Hne. apply In_nth_error in Hf. destruct Hf as (i & Hi). assert (Hin : i <> m + 1) by (intros ->; congruence).
    destruct (edge_at true bow bow_mountain bow_3 _ _ Hi) as [(K & E1 & E2 & _)|(K & _)]; [|rewrite bow_len in K; lia]. rewrite bow_len in K. apply bow_inv in E1, E2. destruct E1 as (_ & E1), E2 as (_ & E2). destruct f as [a b]. cbn [fst snd] in *.
    unfold crossed. rewrite E1, E2. pose proof (iq_S i) as Es.
    destruct (Qltb (cy (bend i)) (cy v)) eqn:T1.
    { apply Qltb_spec in T1. assert (Qltb (cy (bend (S i))) (cy v) = true) as ->; [|reflexivity]. apply Qltb_spec. change (cy (bend i)) with (- (2) * iq i)%Q in T1. change (cy (bend (S i))) with (- (2) * iq (S i))%Q. lra. }
    destruct (Qltb (cy (bend (S i))) (cy v)) eqn:T2; [|reflexivity]. cbn [andb]. apply Qltb_false in T1. apply Qltb_spec in T2. apply Qltb_false.
    assert (N0 : 1 <= i). { destruct i as [|i]; [|lia]. exfalso. change (cy (bend 1)) with (- (2) * 1)%Q in T2. lra. }
    assert (Nm : S i <= m). { destruct (Nat.eq_dec i m) as [->|]; [|lia]. exfalso. change (cy (bend m)) with (- (2) * iq m)%Q in T1. lra. }
    pose proof (bend_far i ltac:(lia) ltac:(lia)) as F1. pose proof (bend_far (S i) ltac:(lia) ltac:(lia)) as F2. unfold cross.
    assert (Ed : (cy (bend i) == cy (bend (S i)) + 2)%Q). { unfold bend, cy. cbn [snd]. rewrite Es. ring. }
    set (ax := cx (bend (S i))) in *. set (bx := cx (bend i)) in *. set (ay := cy (bend (S i))) in *. set (by_ := cy (bend i)) in *. set (px := cx v) in *. set (py := cy v) in *. clearbody ax bx ay by_ px py.
    assert (Q1 : ((bx - px) * (py - ay) <= 0)%Q) by nra. assert (Q2 : ((ax - px) * (2 - (py - ay)) <= 0)%Q) by nra. nra.
Qed.

(** All inner vertices but two see every hole when it is added. *)
Lemma hole_seen M K k : K <= m -> k < K -> shear M (concat (bow :: map hole (seq 0 K)) ++ []) -> seen M (m - 2) (bow :: map hole (seq 0 k)) (hole k).
Proof.
  intros HK Hk HM. set (W := concat (bow :: map hole (seq 0 K)) ++ []) in *. pose proof iq3 as Z. assert (Lk : k < m) by lia. pose proof (iq_lt k m Lk) as Kl. pose proof (iq_0 k) as K0.
  assert (WB : forall i, i < m + 2 -> In (bend i) W). { intros i Hi. unfold W. cbn [concat]. rewrite app_nil_r. apply in_or_app. left. eapply nth_error_In. now apply bow_nth. }
  assert (WH : forall p, In p (hole k) -> In p W). { intros p Hp. unfold W. cbn [concat]. rewrite app_nil_r. apply in_or_app. right. apply in_concat. exists (hole k). split; auto. apply in_map, in_seq. lia. }
  assert (Hb : forall i j, i < m + 2 -> j < m + 2 -> (ht M (bend j) < ht M (bend i))%Q -> i < j).
  { intros i j Hi Hj H. destruct (Nat.lt_trichotomy i j) as [L|[->|L]]; auto; exfalso; [lra|]. apply bend_lt in L. apply (proj2 HM) in L; auto. unfold ht in H. lra. }
  assert (EX : forall h, (X M (slit k) h == - (2) * iq k - 2)%Q). { intros h. unfold X, slit. cbn [fst snd]. unfold cx. cbn [fst]. unfold Qdiv. ring. }
  exists (slit k), seers. split; [|split; [|split; [|split]]].
  - unfold uedges. cbn [map concat]. rewrite app_nil_r. apply in_map_iff. exists (((- (2) * iq k - 2)%Q, (1 - 2 * iq m)%Q), ((- (2) * iq k - 2)%Q, (-3)%Q)). split; [|cbn; auto].
    apply (oedge_up (slit k)). left. unfold slit, cy. cbn [fst snd]. lra.
  - unfold seers. apply FinFun.Injective_map_NoDup; [|apply seq_NoDup]. intros i j E. destruct (Nat.lt_trichotomy i j) as [L|[L|L]]; auto; exfalso; apply bend_lt in L; rewrite E in L; now apply plt_no in L.
  - intros v Hv. unfold seers in Hv. apply in_map_iff in Hv. destruct Hv as (i & <- & Hi). apply in_seq in Hi. cbn [concat]. apply in_or_app. left. eapply nth_error_In. apply bow_nth. lia.
  - unfold seers. now rewrite map_length, seq_length.
  - intros v Hv. unfold seers in Hv. apply in_map_iff in Hv. destruct Hv as (i & <- & Hi). apply in_seq in Hi. assert (I2 : (2 <= iq i)%Q) by (change 2%Q with (iq 2); apply iq_le; lia). assert (Im : (iq i + 1 <= iq m)%Q) by (rewrite <- iq_S; apply iq_le; lia).
    pose proof (bend_far i ltac:(lia) ltac:(lia)) as F. split; [|split].
    + split; apply (proj2 HM); auto using WB.
      * apply WH. unfold slit, hole. cbn. auto.
      * apply WB. lia.
      * left. unfold slit, bend, cy. cbn [fst snd]. lra.
      * apply WB. lia.
      * apply WH. unfold slit, hole. cbn. auto.
      * left. unfold slit, bend, cy. cbn [fst snd]. lra.
    + rewrite EX. lra.
    + intros f Hf Hw. right. rewrite EX. cbn [app] in Hf. rewrite uedges_cons in Hf. apply in_app_or in Hf. destruct Hf as [Hf|Hf].
      * destruct (uedge_cases true bow bow_mountain bow_3 f Hf) as [(j & Hj & J1 & J2)|(J1 & J2)].
        -- exfalso. apply bow_inv in J1, J2. destruct J1 as (L1 & J1), J2 as (L2 & J2). destruct Hw as (H1 & H2). rewrite J2 in H1. rewrite J1 in H2. apply Hb in H1, H2; lia.
        -- rewrite bow_len in J2. apply bow_inv in J1, J2. destruct J1 as (L1 & J1), J2 as (L2 & J2). apply X_ge; auto; [rewrite J2|rewrite J1]; unfold bend, cx; cbn [fst snd].
           ++ replace (m + 1 - (m + 2 - 1)) with 0 by lia. change (iq 0) with 0%Q. lra.
           ++ change (iq 0) with 0%Q. lra.
      * assert (Hj : exists j, j <= k /\ In f (uedges [hole j])).
        { unfold uedges in Hf. apply in_map_iff in Hf. destruct Hf as (d & <- & Hd). apply in_concat in Hd. destruct Hd as (l & Hl & Hd). apply in_map_iff in Hl. destruct Hl as (h & <- & Hl). apply in_app_or in Hl. destruct Hl as [Hl|[<-|[]]].
          - apply in_map_iff in Hl. destruct Hl as (j & <- & Hj). apply in_seq in Hj. exists j. split; [lia|]. unfold uedges. cbn [map concat]. rewrite app_nil_r. now apply in_map.
          - exists k. split; auto. unfold uedges. cbn [map concat]. rewrite app_nil_r. now apply in_map. }
        destruct Hj as (j & Lj & Hj). apply iq_le in Lj. unfold uedges in Hj. cbn [map concat] in Hj. rewrite app_nil_r in Hj. apply in_map_iff in Hj. destruct Hj as (d & <- & Hd).
        assert (C : (- (2) * iq k - 2 <= cx (fst d) /\ - (2) * iq k - 2 <= cx (snd d))%Q). { cbn in Hd. destruct Hd as [<-|[<-|[<-|[]]]]; unfold cx; cbn [fst snd]; lra. }
        apply X_ge; auto; unfold oedge, orient; destruct (coords_lt (fst d) (snd d)); cbn [fst snd]; apply C.
Qed.

Lemma holes_seen M K : K <= m -> shear M (concat (bow :: map hole (seq 0 K)) ++ []) -> all_seen M (m - 2) [bow] (map hole (seq 0 K)).
Proof.
  intros HK HM. assert (G : forall j s, s + j = K -> all_seen M (m - 2) (bow :: map hole (seq 0 s)) (map hole (seq s j))).
  { induction j as [|j IH]; intros s E; cbn [seq map all_seen]; auto. split; [apply (hole_seen M K s); auto; lia|]. specialize (IH (S s) ltac:(lia)). rewrite seq_S, map_app in IH. exact IH. }
  apply (G K 0). reflexivity.
Qed.
End Fam.
