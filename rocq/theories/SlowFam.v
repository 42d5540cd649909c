(** A family of mountains with one fan for each pass: the vertices widen towards the middle, ever faster. *)
From Coq Require Import QArith Lqa List Arith Lia Bool ZArith Permutation Sorted.
From Verif Require Import Base Coord Trap Mono Tri Trace Protocol Plane MonoProof MonoGeom Slow.
Import ListNotations.
Local Open Scope nat_scope.

Section Fam.
Variable m : nat.

Definition iq (k : nat) : Q := inject_Z (Z.of_nat k).
(** The ratio of consecutive widths. *)
Definition ratio : Q := iq (2 * m + 4).
Fixpoint width (k : nat) : Q := match k with 0 => 1%Q | S k => (ratio * width k)%Q end.

(** The upper vertices: [up 0] is the widest, [up (m + 1)] the top; the lower vertices: [dn (m + 1)] is the bottom. *)
Definition up (i : nat) : point := (width (2 * (m + 1 - i)), iq i).
Definition dn (i : nat) : point := (width (2 * (m + 1 - i) + 1), (- iq i)%Q).

(** From top to bottom, 2 m + 3 vertices. *)
Definition slow : list point := rev (map up (seq 0 (m + 2))) ++ map dn (seq 1 (m + 1)).

Lemma iq_S k : (iq (S k) == iq k + 1)%Q.
Proof. unfold iq. rewrite Nat2Z.inj_succ. unfold Z.succ. now rewrite inject_Z_plus. Qed.
Lemma iq_le j k : j <= k -> (iq j <= iq k)%Q.
Proof. intros H. unfold iq. rewrite <- Zle_Qle. lia. Qed.
Lemma iq_0 k : (0 <= iq k)%Q.
Proof. apply (iq_le 0). lia. Qed.
Lemma iq_lt j k : j < k -> (iq j < iq k)%Q.
Proof. intros H. unfold iq. rewrite <- Zlt_Qlt. lia. Qed.

Lemma ratio_i i : i <= m -> (2 * iq i + 4 <= ratio)%Q.
Proof.
  intros H. unfold ratio. apply (Qle_trans _ (iq (2 * i + 4))); [|apply iq_le; lia]. unfold iq. rewrite Nat2Z.inj_add, Nat2Z.inj_mul, inject_Z_plus, inject_Z_mult. apply Qle_refl.
Qed.
Lemma ratio_4 : (4 <= ratio)%Q.
Proof. pose proof (ratio_i 0 ltac:(lia)). pose proof (iq_0 0). lra. Qed.

Lemma width_pos k : (0 < width k)%Q.
Proof. induction k as [|k IH]; cbn [width]; [reflexivity|]. pose proof ratio_4. nra. Qed.
Lemma width_S k : (4 * width k <= width (S k))%Q.
Proof. cbn [width]. pose proof ratio_4. pose proof (width_pos k). nra. Qed.
Lemma width_lt j k : j < k -> (width j < width k)%Q.
Proof. intros H. induction H as [|k H IH]; pose proof (width_S j); pose proof (width_pos j); [lra|]. pose proof (width_S k). pose proof (width_pos k). lra. Qed.
Lemma width_i i k : i <= m -> ((2 * iq i + 4) * width k <= width (S k))%Q.
Proof. intros H. cbn [width]. pose proof (ratio_i i H). pose proof (width_pos k). nra. Qed.

(** ** Ears *)

Notation vert := (nat * coords Q)%type.
Notation ear := (ear (C := Q) (I := nat) false).
Notation noear := (noear (C := Q) (I := nat) false).

Lemma ear_yes (a b c : vert) : plt (snd c) (snd a) -> (cross (snd c) (snd a) (snd b) < 0)%Q -> ear a b c.
Proof. intros Hp Hc. apply sgn_left; auto. cbn [sgn]. lra. Qed.
Lemma ear_no (a b c : vert) : plt (snd c) (snd a) -> (0 < cross (snd c) (snd a) (snd b))%Q -> ~ ear a b c.
Proof. intros Hp Hc H. apply left_sgn in H; auto. cbn [sgn] in H. lra. Qed.

Definition ua (i : nat) : vert := (0, up i).
Definition da (i : nat) : vert := (0, dn i).

Lemma up_up i j : i < j -> plt (up i) (up j).
Proof. intros H. left. cbn. now apply iq_lt. Qed.
Lemma dn_dn i j : i < j -> plt (dn j) (dn i).
Proof. intros H. left. cbn. pose proof (iq_lt i j H). lra. Qed.
Lemma dn_up i j : 0 < i -> plt (dn i) (up j).
Proof. intros H. left. cbn. pose proof (iq_lt 0 i H). pose proof (iq_0 j). change (iq 0) with 0%Q in *. lra. Qed.

Ltac widths i := cbn [snd ua da up dn cx cy fst]; unfold cross; cbn [snd up dn cx cy fst].

Lemma E1 i : S i <= m + 1 -> ear (ua (S i)) (ua i) (da (S i)).
Proof.
  intros H. apply ear_yes; [apply dn_up; lia|]. widths i. replace (2 * (m + 1 - i)) with (S (S (2 * (m + 1 - S i)))) by lia. replace (2 * (m + 1 - S i) + 1) with (S (2 * (m + 1 - S i))) by lia.
  set (k := 2 * (m + 1 - S i)). pose proof (width_S k). pose proof (width_S (S k)). pose proof (width_pos k). pose proof (width_pos (S k)). pose proof (iq_0 i). rewrite iq_S.
  set (x := width k) in *. set (y := width (S k)) in *. set (z := width (S (S k))) in *. set (h := iq i) in *. clearbody x y z h. nra.
Qed.
Lemma N1 i : 0 < i -> i <= m -> ~ ear (ua (S i)) (ua i) (da i).
Proof.
  intros H0 H. apply ear_no; [apply dn_up; lia|]. widths i. replace (2 * (m + 1 - i) + 1) with (S (2 * (m + 1 - i))) by lia. 
  pose proof (width_pos (2 * (m + 1 - S i))). pose proof (width_i i (2 * (m + 1 - i)) H). pose proof (width_pos (2 * (m + 1 - i))). pose proof (iq_0 i). rewrite iq_S.
  set (x := width (2 * (m + 1 - S i))) in *. set (y := width (2 * (m + 1 - i))) in *. set (z := width (S _)) in *. set (h := iq i) in *. clearbody x y z h. nra.
Qed.
Lemma E2 i : 0 < i -> i <= m -> ear (ua i) (da i) (da (S i)).
Proof.
  intros H0 H. apply ear_yes; [apply dn_up; lia|]. widths i. replace (2 * (m + 1 - i) + 1) with (S (2 * (m + 1 - i))) by lia. replace (2 * (m + 1 - i)) with (S (2 * (m + 1 - S i) + 1)) by lia.
  set (k := 2 * (m + 1 - S i) + 1). pose proof (width_S k). pose proof (width_S (S k)). pose proof (width_pos k). pose proof (width_pos (S k)). pose proof (iq_0 i). rewrite iq_S.
  set (x := width k) in *. set (y := width (S k)) in *. set (z := width (S (S k))) in *. set (h := iq i) in *. clearbody x y z h. nra.
Qed.
Lemma N2 i : 0 < i -> S (S i) <= m + 1 -> ~ ear (ua i) (da (S i)) (da (S (S i))).
Proof.
  intros H0 H. apply ear_no; [apply dn_up; lia|]. widths i. replace (2 * (m + 1 - i)) with (S (2 * (m + 1 - S i) + 1)) by lia.
  pose proof (width_i i (2 * (m + 1 - S i) + 1) ltac:(lia)). pose proof (width_pos (2 * (m + 1 - S (S i)) + 1)). pose proof (width_pos (2 * (m + 1 - S i) + 1)). pose proof (iq_0 i). rewrite !iq_S.
  set (x := width (2 * (m + 1 - S (S i)) + 1)) in *. set (y := width (2 * (m + 1 - S i) + 1)) in *. set (z := width (S _)) in *. set (h := iq i) in *. clearbody x y z h. nra.
Qed.
Lemma NA i : S (S i) <= m + 1 -> ~ ear (ua (S (S i))) (ua (S i)) (ua i).
Proof.
  intros H. apply ear_no; [apply up_up; lia|]. widths i. replace (2 * (m + 1 - i)) with (S (S (2 * (m + 1 - S i)))) by lia.
  pose proof (width_S (2 * (m + 1 - S i))). pose proof (width_S (S (2 * (m + 1 - S i)))). pose proof (width_pos (2 * (m + 1 - S (S i)))). pose proof (width_pos (2 * (m + 1 - S i))). rewrite !iq_S.
  set (x := width (2 * (m + 1 - S (S i)))) in *. set (y := width (2 * (m + 1 - S i))) in *. set (z := width (S (S _))) in *. set (h := iq i) in *. clearbody x y z h. nra.
Qed.
Lemma NB i : S (S i) <= m + 1 -> ~ ear (da i) (da (S i)) (da (S (S i))).
Proof.
  intros H. apply ear_no; [apply dn_dn; lia|]. widths i. replace (2 * (m + 1 - i) + 1) with (S (S (2 * (m + 1 - S i) + 1))) by lia.
  pose proof (width_S (2 * (m + 1 - S i) + 1)). pose proof (width_S (S (2 * (m + 1 - S i) + 1))). pose proof (width_pos (2 * (m + 1 - S (S i)) + 1)). pose proof (width_pos (2 * (m + 1 - S i) + 1)). rewrite !iq_S.
  set (x := width (2 * (m + 1 - S (S i)) + 1)) in *. set (y := width (2 * (m + 1 - S i) + 1)) in *. set (z := width (S (S _))) in *. set (h := iq i) in *. clearbody x y z h. nra.
Qed.

Lemma noear_cons (a b c : vert) l : ~ ear a b c -> noear (b :: c :: l) -> noear (a :: b :: c :: l).
Proof. intros H K l0 x y z r E. destruct l0 as [|a' l0]; cbn in E; [now inversion E; subst|]. injection E as _ E. now apply (K l0 x y z r). Qed.
Lemma noear_short (l : list vert) : length l < 3 -> noear l.
Proof. intros H l0 x y z r E. apply (f_equal (@length _)) in E. rewrite app_length in E. cbn in E. lia. Qed.

Lemma noear_up i k : i + S k <= m + 1 -> noear (rev (map ua (seq i (S (S k))))).
Proof.
  revert i. induction k as [|k IH]; intros i H. { apply noear_short. rewrite rev_length, map_length, seq_length. lia. }
  specialize (IH (S i) ltac:(lia)). cbn [seq map rev] in *. rewrite <- !app_assoc in *. cbn [app] in *. apply noear_snoc; auto. apply NA. lia.
Qed.
Lemma noear_dn i k : i + S k <= m + 1 -> noear (map da (seq i (S (S k)))).
Proof.
  revert i. induction k as [|k IH]; intros i H. { apply noear_short. rewrite map_length, seq_length. lia. }
  specialize (IH (S i) ltac:(lia)). cbn [seq map] in *. apply noear_cons; auto. apply NB. lia.
Qed.

Lemma slow_zigzag j : j <= m -> zigzag false (map ua (seq (m - j) (S (S j)))) (map da (seq (S (m - j)) (S j))).
Proof.
  induction j as [|j IH]; intros H. { rewrite Nat.sub_0_r. cbn [seq map]. constructor. }
  specialize (IH ltac:(lia)). replace (m - j) with (S (m - S j)) in IH by lia. set (i := m - S j) in *.
  assert (Hi : i + S j = m) by lia. cbn [seq map] in IH |- *. apply Z_step; auto.
  - apply E1. lia.
  - apply N1; lia.
  - apply E2; lia.
  - exact (noear_up i (S j) ltac:(lia)).
  - destruct j as [|j]; [apply noear_short; cbn; lia|]. cbn [seq map]. apply noear_cons. { apply N2; lia. } exact (noear_dn (S (S i)) j ltac:(lia)).
Qed.

(** ** The polygon *)

Lemma slow_length : length slow = 2 * m + 3.
Proof. unfold slow. rewrite app_length, rev_length, !map_length, !seq_length. lia. Qed.

Lemma sorted_rev_up k : StronglySorted (fun a b => plt b a) (rev (map up (seq 0 k))).
Proof.
  induction k as [|k IH]; [constructor|]. rewrite seq_S, map_app, rev_app_distr. cbn [map rev app Nat.add]. constructor; auto.
  apply Forall_forall. intros x Hx. apply in_rev, in_map_iff in Hx. destruct Hx as (i & <- & Hi). apply in_seq in Hi. apply up_up. lia.
Qed.
Lemma sorted_dn k : forall i, StronglySorted (fun a b => plt b a) (map dn (seq i k)).
Proof.
  induction k as [|k IH]; intros i; [constructor|]. cbn [seq map]. constructor; auto.
  apply Forall_forall. intros x Hx. apply in_map_iff in Hx. destruct Hx as (j & <- & Hj). apply in_seq in Hj. apply dn_dn. lia.
Qed.
Lemma sorted_app (l l' : list point) : StronglySorted (fun a b => plt b a) l -> StronglySorted (fun a b => plt b a) l' -> (forall x y, In x l -> In y l' -> plt y x) -> StronglySorted (fun a b => plt b a) (l ++ l').
Proof.
  induction 1 as [|a l Hl IH HF]; intros Hl' H; auto. cbn. constructor; [apply IH; auto; intros; apply H; auto; now right|].
  apply Forall_app. split; auto. apply Forall_forall. intros y Hy. apply H; auto. now left.
Qed.

Theorem slow_mountain : mountain false slow.
Proof.
  split.
  - apply sorted_app; [apply sorted_rev_up|apply sorted_dn|]. intros x y Hx Hy. apply in_rev, in_map_iff in Hx. destruct Hx as (i & <- & Hi). apply in_map_iff in Hy. destruct Hy as (j & <- & Hj).
    apply in_seq in Hj. apply dn_up. lia.
  - exists (up (m + 1)), (dn (m + 1)), (rev (map up (seq 0 (m + 1))) ++ map dn (seq 1 m)). split.
    + unfold slow. replace (map up (seq 0 (m + 2))) with (map up (seq 0 (m + 1)) ++ [up (m + 1)]) by (replace (m + 2) with (S (m + 1)) by lia; rewrite (seq_S (m + 1) 0), map_app; reflexivity).
      replace (map dn (seq 1 (m + 1))) with (map dn (seq 1 m) ++ [dn (m + 1)]) by (replace (m + 1) with (S m) by lia; rewrite (seq_S m 1), map_app; reflexivity).
      rewrite rev_app_distr. cbn [rev app]. now rewrite <- app_assoc.
    + intros v Hv. cbn [sgn].
      assert (G : (width 1 < cx v)%Q /\ (- iq (m + 1) < cy v)%Q).
      { apply in_app_iff in Hv. destruct Hv as [Hv|Hv].
        - apply in_rev, in_map_iff in Hv. destruct Hv as (i & <- & Hi). apply in_seq in Hi. cbn [up cx cy fst snd]. split; [apply width_lt; lia|]. pose proof (iq_0 i). pose proof (iq_lt 0 (m + 1) ltac:(lia)). change (iq 0) with 0%Q in *. lra.
        - apply in_map_iff in Hv. destruct Hv as (i & <- & Hi). apply in_seq in Hi. cbn [dn cx cy fst snd]. split; [apply width_lt; lia|]. pose proof (iq_lt i (m + 1) ltac:(lia)). lra. }
      destruct G as (G1 & G2). unfold cross. cbn [up dn cx cy fst snd]. rewrite Nat.sub_diag. cbn [Nat.mul Nat.add]. pose proof (width_S 0) as W0. pose proof (width_pos 0). pose proof (iq_lt 0 (m + 1) ltac:(lia)). change (iq 0) with 0%Q in *.
      set (x := cx v) in *. set (y := cy v) in *. set (h := iq (m + 1)) in *. set (w0 := width 0) in *. set (w1 := width 1) in *. clearbody x y h w0 w1. nra.
Qed.
End Fam.

(** ** Other indices *)

Lemma noear_map {I I'} left (l : list (I * coords Q)) (l' : list (I' * coords Q)) : map snd l' = map snd l -> noear left l -> noear left l'.
Proof.
  intros E H l0 a b c r ->. rewrite map_app in E. cbn [map] in E. symmetry in E. apply map_eq_app in E. destruct E as (k0 & k1 & -> & _ & E).
  destruct k1 as [|a' [|b' [|c' k1]]]; try discriminate. cbn [map] in E. injection E as Ea Eb Ec _. intros K. apply (H k0 a' b' c' k1 eq_refl). unfold ear in *. now rewrite Ea, Eb, Ec.
Qed.

Lemma zigzag_map {I I'} left (La Lb : list (I * coords Q)) : zigzag left La Lb -> forall La' Lb' : list (I' * coords Q), map snd La' = map snd La -> map snd Lb' = map snd Lb -> zigzag left La' Lb'.
Proof.
  induction 1 as [x y p|x y w p p' A B H1 H2 H3 H4 H5 HZ IH]; intros La' Lb' Ea Eb.
  - destruct La' as [|y' [|x' [|? ?]]]; try discriminate. destruct Lb' as [|p0 [|? ?]]; try discriminate. constructor.
  - destruct La' as [|y0 [|x0 [|w0 A0]]]; try discriminate. destruct Lb' as [|p0 [|p1 B0]]; try discriminate.
    pose proof Ea as Ea'. pose proof Eb as Eb'. cbn [map] in Ea, Eb. injection Ea as Y X Wx EA. injection Eb as P0 P1 EB. constructor.
    + unfold ear in *. now rewrite Y, X, P0.
    + unfold ear in *. now rewrite Wx, X, P0.
    + unfold ear in *. now rewrite X, P0, P1.
    + apply (noear_map left (rev (y :: x :: w :: A))); auto. rewrite !map_rev. now rewrite Ea'.
    + apply (noear_map left (x :: p' :: B)); auto. cbn. congruence.
    + apply IH; cbn; congruence.
Qed.

(** m (m + 1) iterations are not enough for the piece. *)
Theorem slow_piece {I E : Type} m (U : list (I * coords Q)) cw f k t : map snd U = slow m -> k <= m * (m + 1) ->
  snd (build_fans (E := E) rec_new rec_ext cw f k (mkMono U 2 2 false) t) = Crash Fuel.
Proof.
  intros HU Hk. unfold slow in HU. apply map_eq_app in HU. destruct HU as (A & B & -> & EA & EB).
  pose proof (slow_zigzag m m (le_n m)) as HZ. rewrite Nat.sub_diag in HZ.
  replace A with (rev (rev A)) by apply rev_involutive.
  apply zigzag_fuel.
  - apply (zigzag_map false _ _ HZ).
    + rewrite map_rev, map_map. transitivity (rev (rev (map (up m) (seq 0 (m + 2))))); [f_equal; exact EA|]. rewrite rev_involutive. replace (m + 2) with (S (S m)) by lia. reflexivity.
    + rewrite map_map. transitivity (map (dn m) (seq 1 (m + 1))); [exact EB|]. replace (m + 1) with (S m) by lia. reflexivity.
  - apply (f_equal (@length _)) in EB. rewrite !map_length, seq_length in EB. rewrite EB. nia.
Qed.
