(** A family of polygons, and an order of insertion, for which the debug check visits exponentially many nodes: tall
    edges side by side, each of them beside a part of the last two. *)
From Coq Require Import QArith Lqa List Arith Lia Bool ZArith Permutation Sorted.
From Verif Require Import Base Coord Trap Lanes Plane MonoGeom Geo Region TrapInv Depth Polygons Build SlowFam Mountain HoleFam Visits Grown Stage.
Import ListNotations.
Local Open Scope nat_scope.

(** ** Reflection in the line [y = - x] *)

Definition flip (p : point) : point := (- cy p, - cx p)%Q.

Lemma flip_on a b p : on_segment a b p -> on_segment (flip a) (flip b) (flip p).
Proof. intros (t & T0 & T1 & E1 & E2). exists t. unfold flip, cx, cy in *. cbn [fst snd] in *. split; auto. split; auto. rewrite E1, E2. split; ring. Qed.
Lemma flip_peq a b : peq (flip a) (flip b) <-> peq a b.
Proof. unfold peq, flip, cx, cy. cbn [fst snd]. split; intros (H1 & H2); split; lra. Qed.

Lemma flip_valid l : valid [map flip l] -> valid [l].
Proof.
  intros (V1 & V2 & V3). cbn [concat map] in *. rewrite app_nil_r in *. rewrite edges_map in V3. split; [|split].
  - inversion V1; subst. constructor; auto. now rewrite map_length in *.
  - intros i j a b. cbn [concat]. rewrite app_nil_r. intros Ha Hb Hp. apply (V2 i j (flip a) (flip b)); [now apply map_nth_error..|now apply flip_peq].
  - intros i j e f p. cbn [concat map]. rewrite app_nil_r. intros He Hf Hij O1 O2.
    pose proof (map_nth_error (fun e => (flip (fst e), flip (snd e))) _ _ He) as He'. pose proof (map_nth_error (fun e => (flip (fst e), flip (snd e))) _ _ Hf) as Hf'.
    destruct (V3 i j _ _ (flip p) He' Hf' Hij (flip_on _ _ _ O1) (flip_on _ _ _ O2)) as (K1 & K2). cbn [fst snd] in K1, K2. rewrite !flip_peq in K1, K2. auto.
Qed.

Fixpoint fib (n : nat) : nat := match n with 0 => 1 | S n' => match n' with 0 => 1 | S n'' => fib n' + fib n'' end end.

Lemma fib_S n : fib (S (S n)) = fib (S n) + fib n.
Proof. reflexivity. Qed.

Lemma fib_mono n : fib n <= fib (S n).
Proof. destruct n as [|n]; [cbn; lia|]. rewrite fib_S. lia. Qed.

Lemma fib_pow n : 2 ^ n <= fib (2 * n) /\ 2 ^ n <= fib (S (2 * n)).
Proof.
  induction n as [|n (IH & IH')]; [cbn; lia|]. replace (2 * S n) with (S (S (2 * n))) by lia. rewrite Nat.pow_succ_r'. rewrite (fib_S (S (2 * n))), (fib_S (2 * n)). lia.
Qed.

Lemma flat_len {A B} (f : A -> list B) c l : (forall x, length (f x) = c) -> length (flat_map f l) = c * length l.
Proof. intros H. induction l as [|x l IH]; cbn; [lia|]. rewrite app_length, H, IH. lia. Qed.

Section Wave.
Variable k : nat.
Hypothesis Hk : 1 <= k.

Notation K := (iq k).

(** The ends of the tall edge number [i]. *)
Definition lo (i : nat) : point := (iq i, if Nat.even i then - iq i else iq i - 10 * K)%Q.
Definition hi (i : nat) : point := (iq i, if Nat.even i then 10 * K - iq i else iq i)%Q.
Definition tall (i : nat) : edge := (lo i, hi i).
Definition tip : point := (iq (k + 1), - (20) * K)%Q.

Definition wave : list point := flat_map (fun i => [lo i; hi i]) (seq 1 k) ++ [tip].

Lemma wave_len : length wave = 2 * k + 1.
Proof. unfold wave. rewrite app_length, (flat_len _ 2) by reflexivity. rewrite seq_length. cbn. lia. Qed.

Lemma wave_inv v : In v wave -> v = tip \/ exists i, 1 <= i /\ i <= k /\ (v = lo i \/ v = hi i).
Proof.
  unfold wave. intros H. apply in_app_or in H. destruct H as [H|[<-|[]]]; auto. right. apply in_flat_map in H. destruct H as (i & Hi & H). apply in_seq in Hi. exists i. split; [lia|]. split; [lia|]. destruct H as [<-|[<-|[]]]; auto.
Qed.

Lemma K1 : (1 <= K)%Q.
Proof. change 1%Q with (iq 1). now apply iq_le. Qed.
Lemma iq1 i : 1 <= i -> (1 <= iq i)%Q.
Proof. intros. change 1%Q with (iq 1). now apply iq_le. Qed.

Lemma lo_hi i : 1 <= i -> i <= k -> (cy (lo i) < cy (hi i))%Q.
Proof. intros H1 H2. pose proof K1. pose proof (iq1 i H1). pose proof (iq_le i k H2). unfold lo, hi, cy. cbn [snd]. destruct (Nat.even i); lra. Qed.

Lemma seq_first : seq 1 k = 1 :: seq 2 (k - 1).
Proof. clear - Hk. destruct k as [|k']; [lia|]. cbn. now rewrite Nat.sub_0_r. Qed.

(** ** The polygon is valid *)

Lemma flip_sorted : StronglySorted (fun a b => plt b a) (map flip wave).
Proof.
  unfold wave. rewrite map_app. cbn [map].
  assert (G : forall n s, 1 <= s -> s + n = k + 1 -> StronglySorted (fun a b => plt b a) (map flip (flat_map (fun i => [lo i; hi i]) (seq s n)) ++ [flip tip]) /\
    forall v, In v (map flip (flat_map (fun i => [lo i; hi i]) (seq s n)) ++ [flip tip]) -> (cy v <= - iq s)%Q).
  { induction n as [|n IH]; intros s Hs Hn; cbn [seq flat_map map app].
    - split; [repeat constructor|]. intros v [<-|[]]. replace s with (k + 1) by lia. apply Qle_refl.
    - destruct (IH (S s)) as (S1 & S2); try lia. pose proof (iq_S s) as Es.
      assert (F : forall x y, In x (map flip (flat_map (fun i => [lo i; hi i]) (seq (S s) n)) ++ [flip tip]) -> y = lo s \/ y = hi s -> plt x (flip y)).
      { intros x y Hx Hy. left. specialize (S2 x Hx). assert (cy (flip y) == - iq s)%Q as -> by (destruct Hy as [-> | ->]; reflexivity). lra. }
      split.
      + constructor; [constructor; auto|].
        * apply Forall_forall. intros x Hx. apply F; auto.
        * constructor; [|apply Forall_forall; intros x Hx; apply F; auto]. right. split; [reflexivity|]. pose proof (lo_hi s Hs ltac:(lia)) as L. unfold flip, cx. cbn [fst]. lra.
      + intros v [<-|[<-|Hv]]; [apply Qle_refl|apply Qle_refl|]. specialize (S2 v Hv). lra. }
  apply (G k 1); lia.
Qed.

Lemma wave_valid : valid [wave].
Proof.
  apply flip_valid. apply (mountain_valid true); [|rewrite map_length, wave_len; lia]. split; [exact flip_sorted|].
  unfold wave. rewrite seq_first. set (k' := k - 1). cbn [flat_map app map].
  exists (flip (lo 1)), (flip tip), (map flip (hi 1 :: flat_map (fun i => [lo i; hi i]) (seq 2 k'))). split; [cbn [map app]; now rewrite map_app|].
  assert (C : forall v, (cross (flip tip) (flip (lo 1)) (flip v) == - cross tip (lo 1) v)%Q) by (intros v; unfold cross, flip, cx, cy; cbn [fst snd]; ring).
  intros v Hv. apply in_map_iff in Hv. destruct Hv as (x & <- & Hx). rewrite C. cbn [sgn]. pose proof K1 as Z.
  assert (Ei : (iq (k + 1) == K + 1)%Q) by (rewrite Nat.add_1_r; apply iq_S). assert (E1 : (iq 1 == 1)%Q) by reflexivity.
  destruct Hx as [<-|Hx].
  - unfold cross, tip, lo, hi, cx, cy. cbn [fst snd Nat.even]. rewrite Ei, E1. nra.
  - apply in_flat_map in Hx. destruct Hx as (i & Hi & Hx). apply in_seq in Hi. assert (I2 : (2 <= iq i)%Q) by (change 2%Q with (iq 2); apply iq_le; lia). assert (Ik : (iq i <= K)%Q) by (apply iq_le; lia).
    assert (Gx : (cx x == iq i)%Q) by (destruct Hx as [<-|[<-|[]]]; reflexivity).
    assert (Gy : (iq i - 10 * K <= cy x)%Q). { destruct Hx as [<-|[<-|[]]]; unfold lo, hi, cy; cbn [snd]; destruct (Nat.even i); lra. }
    unfold cross. rewrite Gx. unfold tip, lo. unfold cx, cy in *. cbn [fst snd Nat.even]. rewrite Ei, E1. nra.
Qed.

(** ** Three points to the right of everything *)

Definition far_x : Q := iq (k + 2).
Definition p0 : point := (far_x, 0)%Q.
Definition pa : point := (far_x, 5 * K)%Q.
Definition pb : point := (far_x, - (5) * K)%Q.
Definition ex : list point := [p0; pa; pb].

(** Of the last two, the one beside an edge and the other one. *)
Definition nearp (i : nat) : point := if Nat.even i then pa else pb.
Definition farp (i : nat) : point := if Nat.even i then pb else pa.

Lemma near_next i : nearp (S i) = farp i /\ farp (S i) = nearp i.
Proof. unfold nearp, farp. rewrite Nat.even_succ, <- Nat.negb_even. now destruct (Nat.even i). Qed.

Lemma wave_x v : In v wave -> (cx v <= iq (k + 1))%Q.
Proof. intros H. destruct (wave_inv v H) as [-> | (i & I1 & I2 & [-> | ->])]; cbn; [apply Qle_refl| |]; apply iq_le; lia. Qed.

Lemma ex_x p : In p ex -> (cx p == far_x)%Q.
Proof. intros [<-|[<-|[<-|[]]]]; reflexivity. Qed.

Lemma far_lt : (iq (k + 1) < far_x)%Q.
Proof. apply iq_lt. lia. Qed.

Lemma ex_ok : (forall p q, In p ex -> In q ex -> peq p q -> p = q) /\ (forall p q, In p ex -> In q wave -> ~ peq p q) /\ (forall p e, In p ex -> In e (edges wave) -> ~ on_segment (fst e) (snd e) p).
Proof.
  pose proof K1 as Z. pose proof far_lt as F. split; [|split].
  - intros p q Hp Hq (_ & Hy). unfold ex in *. destruct Hp as [<-|[<-|[<-|[]]]], Hq as [<-|[<-|[<-|[]]]]; auto; exfalso; unfold p0, pa, pb, cy in Hy; cbn [snd] in Hy; lra.
  - intros p q Hp Hq (Hx & _). rewrite (ex_x p Hp) in Hx. pose proof (wave_x q Hq). lra.
  - intros p e Hp He Ho. destruct e as [a b]. assert (Ha : In a wave). { rewrite <- (edges_fst wave). change a with (fst (a, b)). now apply in_map. }
    assert (Hb : In b wave). { eapply Permutation_in; [apply (edges_snd wave)|]. change b with (snd (a, b)). now apply in_map. }
    destruct (seg_box _ _ _ (iq (k + 1)) Ho) as (_ & S2 & _). cbn [fst snd] in S2. pose proof (S2 (wave_x a Ha) (wave_x b Hb)). pose proof (ex_x p Hp). lra.
Qed.

(** ** The states *)

Section Run.
Context {I : Type}.
Variables (M : Q) (gv : I -> point).
Notation W := (wave ++ ex).
Notation Es := (uedges [wave]).
Hypothesis HG : geo W Es.
Hypothesis HM : shear M W.
Notation stt := (state Q I).
Notation rest := (rest W Es M gv).
Notation grown := (grown W Es M gv).
Notation beside := (beside M).
Notation outside := (outside W).

Lemma lo_W i : 1 <= i -> i <= k -> In (lo i) W /\ In (hi i) W.
Proof. intros H1 H2. split; apply in_or_app; left; apply in_or_app; left; apply in_flat_map; exists i; (split; [apply in_seq; lia|cbn; auto]). Qed.

Lemma tall_X i h : (X M (tall i) h == iq i)%Q.
Proof. unfold X, tall. cbn [fst snd]. assert (E : (cx (hi i) - cx (lo i) == 0)%Q) by (unfold hi, lo, cx; cbn [fst]; ring). rewrite E. unfold Qdiv. rewrite Qmult_0_l, Qmult_0_r. unfold lo, cx. cbn [fst]. ring. Qed.

Lemma tall_within i p : 1 <= i -> i <= k -> In p W -> (within M (tall i) (ht M p) <-> plt (lo i) p /\ plt p (hi i)).
Proof. intros H1 H2 Hp. destruct (lo_W i H1 H2) as (L1 & L2). unfold within, tall. cbn [fst snd]. rewrite <- !(ht_lt W M HM) by auto. reflexivity. Qed.

Lemma ex_W p : In p ex -> In p W.
Proof. intros H. apply in_or_app. auto. Qed.

Lemma ex_beside i p : 1 <= i -> i <= k -> In p ex -> ((cy (lo i) < cy p /\ cy p < cy (hi i))%Q -> beside (tall i) p) /\ ((cy p < cy (lo i) \/ cy (hi i) < cy p)%Q -> ~ beside (tall i) p).
Proof.
  intros H1 H2 Hp. pose proof (ex_W p Hp) as Hw. unfold Stage.beside. rewrite (tall_within i p H1 H2 Hw), tall_X, (ex_x p Hp). split.
  - intros (L1 & L2). split; [split; now left|]. apply iq_lt. lia.
  - intros L ((K1 & K2) & _). unfold plt in *. lra.
Qed.

Lemma beside_0 i : 1 <= i -> i <= k -> beside (tall i) p0.
Proof.
  intros H1 H2. apply ex_beside; auto; [unfold ex; cbn; auto|]. pose proof K1. pose proof (iq1 i H1). pose proof (iq_le i k H2). unfold lo, hi, p0, cy. cbn [snd]. destruct (Nat.even i); lra.
Qed.

Lemma beside_near i : 1 <= i -> i <= k -> beside (tall i) (nearp i).
Proof.
  intros H1 H2. apply ex_beside; auto; [unfold ex, nearp; destruct (Nat.even i); cbn; auto|]. pose proof K1. pose proof (iq1 i H1). pose proof (iq_le i k H2). unfold lo, hi, nearp, pa, pb, cy. destruct (Nat.even i); cbn [snd]; lra.
Qed.

Lemma beside_far i : 1 <= i -> i <= k -> ~ beside (tall i) (farp i).
Proof.
  intros H1 H2. apply ex_beside; auto; [unfold ex, farp; destruct (Nat.even i); cbn; auto|]. pose proof K1. pose proof (iq1 i H1). pose proof (iq_le i k H2). unfold lo, hi, farp, pa, pb, cy. destruct (Nat.even i); cbn [snd]; lra.
Qed.

Lemma outside_ex st p : rest st [] -> In p ex -> outside st p.
Proof.
  intros HR Hp. split; [now apply ex_W|]. intros Hin. destruct (rest_ends W Es M gv st p HR Hin) as (e & He & Hv).
  pose proof (f_core _ _ _ _ _ (r_full _ _ _ _ _ _ HR)) as HC. destruct (medges_points _ _ _ _ st e HC He) as (_ & _ & HE).
  unfold uedges in HE. cbn [map concat] in HE. rewrite app_nil_r in HE. apply in_map_iff in HE. destruct HE as (e0 & <- & He0).
  destruct e0 as [a b]. assert (Ha : In a wave). { rewrite <- (edges_fst wave). change a with (fst (a, b)). now apply in_map. }
  assert (Hb : In b wave). { eapply Permutation_in; [apply (edges_snd wave)|]. change b with (snd (a, b)). now apply in_map. }
  assert (Hpw : In p wave). { destruct (oedge_cases (a, b)) as [E|E]; rewrite E in Hv; cbn [fst snd] in Hv; destruct Hv as [-> | ->]; auto. }
  apply (proj1 (proj2 ex_ok) p p Hp Hpw). split; reflexivity.
Qed.

Lemma right_tall st i : 1 <= i -> i <= k -> rest st [] -> medges st = map tall (seq 1 i) -> rightmost M st (tall i).
Proof.
  intros H1 H2 HR HE. pose proof (f_core _ _ _ _ _ (r_full _ _ _ _ _ _ HR)) as HC. split.
  - rewrite HE. apply in_map. apply in_seq. lia.
  - intros f h Hf _ _ L. rewrite HE in Hf. apply in_map_iff in Hf. destruct Hf as (j & <- & Hj). apply in_seq in Hj. rewrite !tall_X in L. pose proof (iq_le j i ltac:(lia)). lra.
  - intros v Hv Hw L. rewrite tall_X in L. destruct (rest_ends W Es M gv st v HR Hv) as (e & He & Hv'). rewrite HE in He. apply in_map_iff in He. destruct He as (j & <- & Hj). apply in_seq in Hj.
    assert (Ex : (cx v == iq j)%Q) by (destruct Hv' as [-> | ->]; reflexivity). destruct (Nat.eq_dec j i) as [->|Hne].
    + destruct Hw as (W1 & W2). destruct Hv' as [-> | ->]; cbn [tall fst snd] in *; lra.
    + pose proof (iq_lt j i ltac:(lia)). lra.
Qed.

Lemma grown_rest st es st' : grown st es st' -> rest st [] /\ rest st' [].
Proof. induction 1 as [|st e st1 es st2 HR HE HN HG' (I1 & I2)]; auto. Qed.

Lemma grown_paths st es st' p m : grown st es st' -> In p ex -> paths st p m -> paths st' p m.
Proof.
  intros H Hp. induction H as [|st e st1 es st2 HR HE HN HG' IH]; auto. intros Hm. apply IH. destruct (grown_rest _ _ _ HG') as (R1 & _).
  eapply (paths_step W Es M gv); eauto; [apply R1|now apply outside_ex].
Qed.

Lemma stages n : forall i st es st', i + n = k -> 1 <= i -> grown st (map tall (seq (S i) n) ++ es) st' -> medges st = map tall (seq 1 i) ->
  paths st p0 (fib i) -> paths st (farp i) (fib (i - 1)) -> paths st' p0 (fib k).
Proof.
  induction n as [|n IH]; intros i st es st' Hi H1 HGr HE P0 PF.
  - replace i with k in P0 by lia. eapply grown_paths; eauto. unfold ex. cbn. auto.
  - cbn [seq map app] in HGr. inversion HGr as [|? ? st1 ? ? HR HE1 HN HGr1]; subst. destruct (grown_rest _ _ _ HGr1) as (R1 & _).
    assert (Em : medges st1 = map tall (seq 1 (S i))). { rewrite HE1, HE, seq_S, map_app. reflexivity. }
    pose proof (right_tall st i H1 ltac:(lia) HR HE) as RM. pose proof (right_tall st1 (S i) ltac:(lia) ltac:(lia) R1 Em) as RM1.
    destruct (near_next i) as (N1 & N2).
    assert (I0 : In p0 ex) by (unfold ex; cbn; auto). assert (IF : In (farp i) ex) by (unfold ex, farp; destruct (Nat.even i); cbn; auto). assert (IN : In (nearp i) ex) by (unfold ex, nearp; destruct (Nat.even i); cbn; auto).
    destruct (paths_sum W Es M gv HG HM st st1 (tall i) (tall (S i)) p0 (farp i) (fib i) (fib (i - 1))) as (S1 & S2); auto; try apply HR; try apply R1; try (now apply outside_ex).
    { apply beside_0; lia. } { apply beside_far; lia. } { apply beside_0; lia. } { rewrite <- N1. apply beside_near; lia. }
    apply (IH (S i) st1 es st'); auto; try lia.
    + destruct i as [|i]; [lia|]. rewrite fib_S. now replace (S i - 1) with i in S1 by lia.
    + rewrite N2. replace (S i - 1) with i by lia. eapply (paths_step W Es M gv); eauto; [apply R1|now apply outside_ex|].
      destruct (right_same W Es M gv HG HM st (tall i) p0 (nearp i)) as (q & Q1 & Q2); auto; try apply HR; try (now apply outside_ex). { apply beside_0; lia. } { apply beside_near; lia. }
      destruct P0 as (q' & Q1' & Hm). rewrite (finds_det _ _ _ _ Q1 _ Q1') in Hm. exists q. auto.
Qed.

Lemma all_stages es st' : grown state_new (map tall (seq 1 k) ++ es) st' -> paths st' p0 (fib k).
Proof.
  intros HGr. rewrite seq_first in HGr. cbn [map app] in HGr. inversion HGr as [|? ? st1 ? ? HR HE1 HN HGr1]; subst. destruct (grown_rest _ _ _ HGr1) as (R1 & _).
  apply (stages (k - 1) 1 st1 es st'); auto; try lia.
  - eapply (paths_step W Es M gv); eauto; [apply R1|apply outside_ex; auto; unfold ex; cbn; auto|apply paths_new].
  - eapply (paths_step W Es M gv); eauto; [apply R1|apply outside_ex; auto; unfold ex, farp; cbn; auto|apply paths_new].
Qed.

End Run.

End Wave.
