(** A family of polygons, and an order of insertion, for which the search structure has quadratically many nodes: tall edges side by side, each of them
    inserted in sight of a chain of as many vertices. *)
From Coq Require Import QArith Lqa List Arith Lia Bool ZArith Permutation Sorted.
From Verif Require Import Base Coord Trap Lanes Plane MonoGeom Geo Region TrapInv Depth SegStep Polygons Build SlowFam Mountain HoleFam Hole Faces Clear Canon Near Sweep Work WorkCount Grown Stage Wave PropVisits.
Import ListNotations.
Local Open Scope nat_scope.

(** A step of the loop makes at most five nodes more than it makes iterations. *)
Lemma loop_nodes {I} (gv : I -> point) ieqb dbg k math_n len order : forall i st vls pd uc nu st' vls',
  fst (polygon_loop_c ieqb gv dbg k math_n len order i st vls pd uc nu) = Ok (st', vls') ->
  length (st_qs st') <= snd (polygon_loop_c ieqb gv dbg k math_n len order i st vls pd uc nu) + length (st_qs st) + 5 * length order.
Proof.
  induction order as [|j order IH]; intros i st vls pd uc nu st' vls' H.
  - cbn in *. injection H as -> _. lia.
  - cbn [polygon_loop_c] in *. unfold tick in *. cbn [fst snd] in *. apply cbind_inv in H. destruct H as ([[st1 vls1] ad] & H1 & H & S). rewrite S. clear S. apply add_nth_low in H1. cbn zeta in *. cbn [length]. destruct (Nat.eqb i nu).
    + apply cbind_inv in H. destruct H as (vls2 & _ & H & S). rewrite S. clear S. apply IH in H. lia.
    + apply IH in H. lia.
Qed.

Section Comb.
Variable k : nat.
Hypothesis Hk : 2 <= k.

(** The vertices of the chain, its edges, and the ends of the tall edge number [i]. *)
Definition notch (j : nat) : point := (0, iq j)%Q.
Definition rung (j : nat) : edge := (notch j, notch (S j)).
Definition foot (i : nat) : point := (iq i, 0)%Q.
Definition head (i : nat) : point := (iq i, iq (k + 1))%Q.
Definition post (i : nat) : edge := (foot i, head i).
Definition toe : point := (iq (k + 1), - iq (k + 1))%Q.

Definition comb : list point := map notch (seq 1 k) ++ flat_map (fun i => [foot i; head i]) (seq 1 k) ++ [toe].

Lemma comb_len : length comb = 3 * k + 1.
Proof. unfold comb. rewrite !app_length, map_length, (flat_len _ 2) by reflexivity. rewrite !seq_length. cbn. lia. Qed.

Let K2 : (2 <= iq k)%Q.
Proof. change 2%Q with (iq 2). now apply iq_le. Qed.
Let EK : (iq (k + 1) == iq k + 1)%Q.
Proof. rewrite Nat.add_1_r. apply iq_S. Qed.

(** ** The polygon is valid *)

Lemma comb_sorted : StronglySorted (fun a b => plt b a) (map flip comb).
Proof.
  set (B := flat_map (fun i => [foot i; head i]) (seq 1 k) ++ [toe]).
  assert (G : forall n s, 1 <= s -> s + n = k + 1 -> StronglySorted (fun a b => plt b a) (map flip (flat_map (fun i => [foot i; head i]) (seq s n)) ++ [flip toe]) /\
    forall v, In v (map flip (flat_map (fun i => [foot i; head i]) (seq s n)) ++ [flip toe]) -> (cy v <= - iq s)%Q).
  { induction n as [|n IH]; intros s Hs Hn; cbn [seq flat_map map app].
    - split; [repeat constructor|]. intros v [<-|[]]. replace s with (k + 1) by lia. apply Qle_refl.
    - destruct (IH (S s)) as (S1 & S2); try lia. pose proof (iq_S s) as Es.
      assert (F : forall x y, In x (map flip (flat_map (fun i => [foot i; head i]) (seq (S s) n)) ++ [flip toe]) -> y = foot s \/ y = head s -> plt x (flip y)).
      { intros x y Hx Hy. left. specialize (S2 x Hx). assert (cy (flip y) == - iq s)%Q as -> by (destruct Hy as [-> | ->]; reflexivity). lra. }
      split.
      + constructor; [constructor; auto|].
        * apply Forall_forall. intros x Hx. apply F; auto.
        * constructor; [|apply Forall_forall; intros x Hx; apply F; auto]. right. split; [reflexivity|]. unfold flip, foot, head, cx, cy. cbn [fst snd]. lra.
      + intros v [<-|[<-|Hv]]; [apply Qle_refl|apply Qle_refl|]. specialize (S2 v Hv). lra. }
  destruct (G k 1 ltac:(lia) ltac:(lia)) as (G1 & G2). rewrite <- (map_app flip _ [toe]) in G1. assert (G3 : forall v, In v (map flip B) -> (cy v < 0)%Q).
  { intros v Hv. unfold B in Hv. rewrite map_app in Hv. specialize (G2 v Hv). change (iq 1) with 1%Q in G2. lra. }
  fold B in G1. unfold comb. fold B. rewrite map_app.
  assert (G4 : forall n s, StronglySorted (fun a b => plt b a) (map flip (map notch (seq s n)) ++ map flip B) /\ forall v, In v (map flip (map notch (seq s n)) ++ map flip B) -> (cy v < 0)%Q \/ exists j, s <= j /\ v = flip (notch j)).
  { induction n as [|n IH]; intros s; cbn [seq map app]; [split; auto|]. destruct (IH (S s)) as (S1 & S2). split.
    - constructor; auto. apply Forall_forall. intros v Hv. destruct (S2 v Hv) as [L|(j & Hj & ->)]; [left; unfold flip, notch, cx, cy in *; cbn [fst snd] in *; lra|].
      right. pose proof (iq_lt s j ltac:(lia)). unfold flip, notch, cx, cy. cbn [fst snd]. split; [reflexivity|lra].
    - intros v [<-|Hv]; [right; exists s; auto|]. destruct (S2 v Hv) as [L|(j & Hj & ->)]; auto. right. exists j. split; auto. lia. }
  apply G4.
Qed.

Lemma seq_two : seq 1 k = 1 :: seq 2 (k - 1).
Proof. clear - Hk. destruct k as [|k']; [lia|]. cbn. now rewrite Nat.sub_0_r. Qed.

Lemma comb_valid : valid [comb].
Proof.
  apply flip_valid. apply (mountain_valid true); [|rewrite map_length, comb_len; lia]. split; [exact comb_sorted|].
  assert (E0 : map notch (seq 1 k) = notch 1 :: map notch (seq 2 (k - 1))) by now rewrite seq_two.
  unfold comb. rewrite E0. cbn [app map]. set (B := flat_map (fun i => [foot i; head i]) (seq 1 k)).
  exists (flip (notch 1)), (flip toe), (map flip (map notch (seq 2 (k - 1)) ++ B)). split. { rewrite !map_app. cbn [map]. now rewrite <- app_assoc. }
  assert (C : forall v, (cross (flip toe) (flip (notch 1)) (flip v) == - cross toe (notch 1) v)%Q) by (intros v; unfold cross, flip, cx, cy; cbn [fst snd]; ring).
  intros v Hv. apply in_map_iff in Hv. destruct Hv as (x & <- & Hx). rewrite C. cbn [sgn]. assert (E1 : (iq 1 == 1)%Q) by reflexivity. apply in_app_or in Hx. destruct Hx as [Hx|Hx].
  - apply in_map_iff in Hx. destruct Hx as (j & <- & Hj). apply in_seq in Hj. assert (I2 : (2 <= iq j)%Q) by (change 2%Q with (iq 2); apply iq_le; lia).
    unfold cross, toe, notch, cx, cy. cbn [fst snd]. rewrite EK, E1. nra.
  - unfold B in Hx. apply in_flat_map in Hx. destruct Hx as (i & Hi & Hx). apply in_seq in Hi. assert (I1 : (1 <= iq i)%Q) by (change 1%Q with (iq 1); apply iq_le; lia). assert (Ik : (iq i <= iq k)%Q) by (apply iq_le; lia).
    assert (Gx : (cx x == iq i)%Q) by (destruct Hx as [<-|[<-|[]]]; reflexivity). assert (Gy : (0 <= cy x)%Q) by (destruct Hx as [<-|[<-|[]]]; unfold foot, head, cy; cbn [snd]; lra).
    unfold cross. rewrite Gx. unfold toe, notch. unfold cx, cy in *. cbn [fst snd]. rewrite EK, E1. nra.
Qed.

(** ** The states *)

Section Run.
Context {I : Type}.
Variables (M : Q) (gv : I -> point).
Notation W := (comb ++ []).
Notation Es := (uedges [comb]).
Hypothesis HG : geo W Es.
Hypothesis HM : shear M W.
Notation stt := (state Q I).
Notation rest := (rest W Es M gv).
Notation grown := (grown W Es M gv).

Lemma comb_W : (forall j, 1 <= j -> j <= k -> In (notch j) W) /\ (forall i, 1 <= i -> i <= k -> In (foot i) W /\ In (head i) W).
Proof.
  unfold comb. rewrite app_nil_r. split.
  - intros j H1 H2. apply in_or_app. left. apply in_map, in_seq. lia.
  - intros i H1 H2. split; apply in_or_app; right; apply in_or_app; left; apply in_flat_map; exists i; (split; [apply in_seq; lia|cbn; auto]).
Qed.

Lemma post_X i h : (X M (post i) h == iq i)%Q.
Proof. unfold X, post. cbn [fst snd]. assert (E : (cx (head i) - cx (foot i) == 0)%Q) by (unfold head, foot, cx; cbn [fst]; ring). rewrite E. unfold Qdiv. rewrite Qmult_0_l, Qmult_0_r. unfold foot, cx. cbn [fst]. ring. Qed.

Lemma grown_app st a : forall es st', grown st (a ++ es) st' -> exists s, grown st a s /\ grown s es st' /\ medges s = medges st ++ a.
Proof.
  revert st. induction a as [|e a IH]; intros st es st' H.
  - exists st. cbn in H. split; [|split; auto; now rewrite app_nil_r]. inversion H; now constructor.
  - cbn [app] in H. inversion H as [|? ? st1 ? ? HR HE HN HGr]; subst. destruct (IH st1 es st' HGr) as (s & A & B & C). exists s. split; [econstructor; eauto|]. split; auto. rewrite C, HE, <- app_assoc. reflexivity.
Qed.

Lemma grown_ends st es st' : grown st es st' -> rest st [] /\ rest st' [] /\ length (st_qs st) <= length (st_qs st').
Proof. induction 1 as [|st e st1 es st2 HR HE HN HG' (I1 & I2 & I3)]; auto. split; auto. split; auto. apply ngrow_stay in HN. lia. Qed.

Lemma posts n : forall st es st', n <= k -> grown st (map post (rev (seq 1 n)) ++ es) st' ->
  (forall f, In f (medges st) -> (exists j, 1 <= j /\ j < k /\ f = rung j) \/ exists i, n < i /\ i <= k /\ f = post i) ->
  incl (map notch (seq 1 k)) (points st) -> n * k + length (st_qs st) <= length (st_qs st').
Proof.
  destruct comb_W as (W1 & W2). induction n as [|n IH]; intros st es st' Hn HGr HE HP.
  - cbn. apply (grown_ends _ _ _ HGr).
  - rewrite seq_S, rev_app_distr in HGr. cbn [rev app map] in HGr. change (1 + n) with (S n) in HGr. inversion HGr as [|? ? st1 ? ? HR HE1 HN HGr1]; subst. destruct (grown_ends _ _ _ HGr1) as (R1 & _ & _).
    pose proof HN as ((l & El) & _ & Hq & _). assert (HP1 : incl (map notch (seq 1 k)) (points st1)) by (rewrite El; now apply incl_appl).
    assert (HE' : forall f, In f (medges st1) -> (exists j, 1 <= j /\ j < k /\ f = rung j) \/ exists i, n < i /\ i <= k /\ f = post i).
    { intros f Hf. rewrite HE1 in Hf. apply in_app_or in Hf. destruct Hf as [Hf|[<-|[]]]; [|right; exists (S n); auto]. destruct (HE f Hf) as [?|(i & ? & ? & ?)]; auto. right. exists i. repeat split; auto. lia. }
    pose proof (IH st1 es st' ltac:(lia) HGr1 HE' HP1) as Z.
    assert (Hs : length (st_ss st) < length (st_ss st1)). { assert (E : length (medges st1) = length (medges st) + 1) by (rewrite HE1, app_length; reflexivity). unfold medges in E. rewrite !map_length in E. lia. }
    assert (Ea : eat st1 (length (st_ss st)) = post (S n)). { unfold eat. rewrite HE1. rewrite app_nth2; unfold medges; rewrite map_length; [|lia]. now rewrite Nat.sub_diag. }
    assert (A : length (map notch (seq 1 k)) <= adj (st_ts st1) (length (st_ss st))).
    { apply (adj_seen W Es M gv st1 HG HM (r_full _ _ _ _ _ _ R1)); auto.
      - apply FinFun.Injective_map_NoDup; [|apply seq_NoDup]. intros a b E. unfold notch in E. injection E as E. lia.
      - intros v Hv. rewrite Ea. split; [now apply HP1|]. apply in_map_iff in Hv. destruct Hv as (j & <- & Hj). apply in_seq in Hj. pose proof (iq_lt 0 j ltac:(lia)) as J0. change (iq 0) with 0%Q in J0. pose proof (iq_lt j (k + 1) ltac:(lia)) as J1. pose proof (iq_lt 0 (S n) ltac:(lia)) as J2. change (iq 0) with 0%Q in J2.
        pose proof (W1 j ltac:(lia) ltac:(lia)) as Wj. destruct (W2 (S n) ltac:(lia) Hn) as (Wf & Wh).
        split; [split; apply (ht_lt W M HM); auto; left; cbn; auto|]. split; [rewrite post_X; exact J2|].
        intros f Hf Hw. destruct (HE' f Hf) as [(j' & L1 & L2 & ->)|(i & L1 & L2 & ->)].
        + exfalso. destruct Hw as (Hw1 & Hw2). unfold rung in Hw1, Hw2. cbn [fst snd] in Hw1, Hw2. pose proof (W1 j' L1 ltac:(lia)) as Wa. pose proof (W1 (S j') ltac:(lia) L2) as Wb. apply (ht_lt W M HM) in Hw1; auto. apply (ht_lt W M HM) in Hw2; auto.
          assert (Q1 : j' < j). { destruct (le_lt_dec j j') as [L|L]; auto. exfalso. pose proof (iq_le _ _ L). unfold plt, notch, cx, cy in Hw1. cbn [fst snd] in Hw1. lra. }
          pose proof (iq_le (S j') j Q1). unfold plt, notch, cx, cy in Hw2. cbn [fst snd] in Hw2. lra.
        + right. rewrite !post_X. apply iq_le. lia. }
    rewrite map_length, seq_length in A. rewrite El, app_length in Hq. cbn [Nat.mul]. lia.
Qed.

Lemma comb_nodes es st' : grown state_new (map rung (seq 1 (k - 1)) ++ map post (rev (seq 1 k)) ++ es) st' -> k * k <= length (st_qs st').
Proof.
  intros H. destruct (grown_app _ _ _ _ H) as (s & A & B & C). cbn [medges state_new st_ss map app] in C. destruct (grown_ends _ _ _ A) as (_ & R & _). pose proof (f_core _ _ _ _ _ (r_full _ _ _ _ _ _ R)) as HC.
  pose proof (posts k s es st' (le_n _) B) as Z. assert (HP : incl (map notch (seq 1 k)) (points s)).
  { intros v Hv. apply in_map_iff in Hv. destruct Hv as (j & <- & Hj). apply in_seq in Hj.
    assert (G : forall j, 1 <= j -> j < k -> In (notch j) (points s) /\ In (notch (S j)) (points s)).
    { intros x X1 X2. assert (Hi : In (rung x) (medges s)) by (rewrite C; apply in_map, in_seq; lia). destruct (medges_points _ _ _ _ s _ HC Hi) as (P1 & P2 & _). auto. }
    destruct (Nat.eq_dec j k) as [->|Hne]; [|apply G; lia]. replace k with (S (k - 1)) by lia. apply G; lia. }
  specialize (Z ltac:(intros f Hf; left; rewrite C in Hf; apply in_map_iff in Hf; destruct Hf as (j & <- & Hj); apply in_seq in Hj; exists j; repeat split; lia) HP). lia.
Qed.
End Run.

(** ** The order *)

Definition comb_order : list nat := seq 0 (k - 1) ++ rev (map (fun i => k + 2 * i) (seq 0 k)) ++ [k - 1] ++ map (fun i => k + (2 * i + 1)) (seq 0 k) ++ [k + 2 * k].

Lemma evens_odds n : Permutation (map (fun i => 2 * i) (seq 0 n) ++ map (fun i => 2 * i + 1) (seq 0 n)) (seq 0 (2 * n)).
Proof.
  induction n as [|n IH]; [constructor|]. rewrite seq_S, !map_app. cbn [map]. replace (2 * S n) with (2 * n + 2) by lia. rewrite (seq_app (2 * n) 2). cbn [seq Nat.add]. replace (2 * n + 1) with (S (2 * n)) by lia.
  rewrite <- IH. rewrite <- !app_assoc. apply Permutation_app_head. cbn [app]. apply Permutation_middle.
Qed.

Lemma comb_perm : Permutation comb_order (seq 0 (3 * k + 1)).
Proof.
  assert (E1 : seq 0 (3 * k + 1) = seq 0 (k - 1) ++ (k - 1) :: map (Nat.add k) (seq 0 (2 * k)) ++ [k + 2 * k]).
  { assert (Es : map (Nat.add k) (seq 0 (2 * k)) = seq k (2 * k)). { clear. generalize (2 * k). intros m. replace (seq k m) with (seq (k + 0) m) by now rewrite Nat.add_0_r. generalize 0. induction m as [|m IH]; intros s; auto. cbn. rewrite IH. repeat f_equal. lia. }
    rewrite Es. replace (3 * k + 1) with ((k - 1) + (1 + (2 * k + 1))) by lia. rewrite seq_app. f_equal. rewrite seq_app. cbn [Nat.add seq app]. f_equal. replace (k - 1 + 1) with k by lia. rewrite seq_app. reflexivity. }
  rewrite E1. unfold comb_order. apply Permutation_app_head. rewrite <- Permutation_rev. cbn [app]. rewrite <- Permutation_middle. constructor. rewrite app_assoc. apply Permutation_app_tail.
  rewrite <- evens_odds, map_app, !map_map. reflexivity.
Qed.

Section Order.
Context {I : Type}.
Variables (gv : I -> point) (poly : list I).
Hypothesis HP : map gv poly = comb.

Lemma comb_at j a : nth_error poly j = Some a -> nth_error comb j = Some (gv a).
Proof. intros H. rewrite <- HP. now apply map_nth_error. Qed.

Lemma poly_len : length poly = 3 * k + 1.
Proof. rewrite <- (map_length gv), HP. apply comb_len. Qed.

Lemma rung_at j e : j < k - 1 -> sedge_at gv poly j e -> e = rung (S j).
Proof.
  intros Hj (a & b & Ha & Hb & ->). rewrite poly_len, Nat.mod_small in Hb by lia. apply comb_at in Ha, Hb. unfold comb in Ha, Hb.
  rewrite nth_error_app1 in Ha, Hb by (rewrite map_length, seq_length; lia).
  assert (G : forall x, x < k -> nth_error (map notch (seq 1 k)) x = Some (notch (S x))). { intros x Hx. apply map_nth_error. rewrite (nth_error_nth' _ 0) by (rewrite seq_length; lia). now rewrite seq_nth by lia. }
  rewrite G in Ha, Hb by lia. injection Ha as <-. injection Hb as <-. replace (S (j + 1)) with (S (S j)) by lia. unfold orient, rung. assert (E : coords_lt (notch (S j)) (notch (S (S j))) = true). { apply coords_lt_spec. left. apply iq_lt. lia. } now rewrite E.
Qed.

Lemma post_at i e : i < k -> sedge_at gv poly (k + 2 * i) e -> e = post (S i).
Proof.
  intros Hi (a & b & Ha & Hb & ->). rewrite poly_len, Nat.mod_small in Hb by lia. apply comb_at in Ha, Hb. unfold comb in Ha, Hb.
  assert (Lm : length (map notch (seq 1 k)) = k) by (rewrite map_length; apply seq_length). assert (Lf : length (flat_map (fun i => [foot i; head i]) (seq 1 k)) = 2 * k) by (rewrite (flat_len _ 2) by reflexivity; now rewrite seq_length).
  rewrite nth_error_app2 in Ha, Hb by lia. rewrite Lm in Ha, Hb. replace (k + 2 * i - k) with (2 * i) in Ha by lia. replace (k + 2 * i + 1 - k) with (S (2 * i)) in Hb by lia. rewrite nth_error_app1 in Ha, Hb by lia.
  destruct (flat_nth foot head k 1 i Hi) as (F1 & F2). rewrite F1 in Ha. rewrite F2 in Hb. injection Ha as <-. injection Hb as <-. change (1 + i) with (S i).
  unfold orient, post. assert (E : coords_lt (foot (S i)) (head (S i)) = true). { apply coords_lt_spec. left. unfold foot, head, cy. cbn [snd]. lra. } now rewrite E.
Qed.

Lemma comb_edges es : Forall2 (sedge_at gv poly) comb_order es -> exists es', es = map rung (seq 1 (k - 1)) ++ map post (rev (seq 1 k)) ++ es'.
Proof.
  unfold comb_order. intros H. apply Forall2_app_inv_l in H. destruct H as (l1 & l2 & H1 & H2 & ->). apply Forall2_app_inv_l in H2. destruct H2 as (l3 & l4 & H3 & _ & ->). exists l4. f_equal; [|f_equal].
  - assert (G : forall n s l, s + n <= k - 1 -> Forall2 (sedge_at gv poly) (seq s n) l -> l = map rung (seq (S s) n)).
    { induction n as [|n IH]; intros s l Hs HF; cbn [seq map] in *; inversion HF; subst; auto. f_equal; [apply rung_at; auto; lia|apply IH; auto; lia]. }
    apply (G (k - 1) 0); auto.
  - assert (G : forall n l, n <= k -> Forall2 (sedge_at gv poly) (rev (map (fun i => k + 2 * i) (seq 0 n))) l -> l = map post (rev (seq 1 n))).
    { induction n as [|n IH]; intros l Hn HF; [cbn in *; now inversion HF|]. rewrite seq_S, map_app, rev_app_distr in HF. rewrite seq_S, rev_app_distr. cbn [map rev app] in *. inversion HF; subst. f_equal; [apply post_at; auto|apply IH; auto; lia]. }
    apply (G k); auto.
Qed.
End Order.
End Comb.
