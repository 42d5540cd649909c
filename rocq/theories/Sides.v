(** The sides of the triangles: each one inside is shared, the edges of the polygons are the outline. *)
From Coq Require Import QArith Qabs Lqa List Arith Lia Bool ZArith Permutation.
From Verif Require Import Base Coord Trap Mono Tri Trace Protocol Lanes Plane MonoProof MonoGeom Geo Region TrapInv Polygons Build Faces Open Traverse Sweep Tile Whole Outline EvenOdd Outcome Nest Near Area Graph Count Single Corner Number Cover.
Import ListNotations.
Local Open Scope nat_scope.

(** ** Specification *)

(** The directed sides of a triangle, and how often the triangles have the one from [x] to [y]. *)
Definition sides (t : point * point * point) : list (point * point) := let '(a, b, c) := t in [(a, b); (b, c); (c, a)].
Definition uses (T : list (point * point * point)) (x y : point) : nat := count_occ edge_dec (flat_map sides T) (x, y).

(** The interior of the list is on the left of polygon [k]: counterclockwise at even depth, clockwise at odd depth. *)
Definition left_in (ps : list (list point)) (k : nat) : bool := Bool.eqb (Qltb 0 (shoelace (nth k ps []))) (Nat.even (depth ps k)).

(** A side that is no edge of the polygons is used equally often in both directions; an edge of a polygon is used once more in the
    direction with the interior on its left. *)
Definition conforming (ps : list (list point)) (T : list (point * point * point)) : Prop :=
  (forall x y, ~ In (x, y) (concat (map edges ps)) -> ~ In (y, x) (concat (map edges ps)) -> uses T x y = uses T y x) /\
  (forall k x y, k < length ps -> In (x, y) (edges (nth k ps [])) -> if left_in ps k then uses T x y = S (uses T y x) else uses T y x = S (uses T x y)).

(** ** A polygon has area *)

Lemma area_pos p : valid [p] -> ~ (shoelace p == 0)%Q.
Proof.
  intros HV HZ. assert (Hp : p <> []) by (intros ->; destruct HV as (V & _); apply Forall_inv in V; cbn in V; lia). pose proof (one_group p Hp) as Eg.
  assert (Hptb : forall a b, ptb a b = true <-> a = b) by (intros a b; unfold ptb; destruct (pt_dec a b); split; congruence).
  set (gv := fun x : point => x) in *. set (elems := map (@Continue point) p) in *. assert (HV' : valid (map (map gv) (groups elems))) by now rewrite Eg.
  assert (HN : map (map gv) (groups elems) <> []) by (rewrite Eg; discriminate).
  assert (Hs : forall k n : nat, Permutation ((fun _ n => seq 0 n) k n) (seq 0 n)) by (intros; reflexivity).
  destruct (returns_ex gv ptb false Hptb (fun _ _ => 1) (fun _ n => seq 0 n) Hs elems HV' HN) as (T & HT).
  pose proof (returns_area gv ptb false Hptb (fun _ _ => 1) (fun _ n => seq 0 n) Hs elems HV' HN p T Eg HT) as HA.
  pose proof (returns_covers gv ptb false Hptb (fun _ _ => 1) (fun _ n => seq 0 n) Hs elems HV' HN T HT) as HC. rewrite Eg in HC.
  assert (F : forall t, In t T -> flat (tri_pos gv t)).
  { assert (Z : (sumq (area2 gv) T == 0)%Q) by (rewrite HA, HZ; reflexivity). intros [[a b] c] Hin.
    assert (P : forall t, In t T -> (0 <= area2 gv t)%Q). { intros [[a' b'] c'] H'. apply (returns_ccw gv ptb false Hptb (fun _ _ => 1) (fun _ n => seq 0 n) Hs elems HV' HN T a' b' c' HT H'). }
    pose proof (P _ Hin) as P1. destruct (In_nth_error _ _ Hin) as (j & Hj). pose proof (sum_at (area2 gv) T j _ P Hj) as P2. rewrite Z in P2. cbn in *. lra. }
  destruct (near [] p [] HV) as (z1 & z2 & O1 & O2 & Hne & _). cbn [app] in *.
  assert (N : forall z, off [p] z -> inside_eo [p] z = false).
  { intros z Hz. destruct (inside_eo [p] z) eqn:E; auto. exfalso. destruct (HC z Hz) as ((K & _) & _). destruct (K E) as (t & Ht & Hf & _). apply in_map_iff in Ht. destruct Ht as (t' & <- & Ht'). apply Hf. now apply F. }
  rewrite (N z1 O1), (N z2 O2) in Hne. discriminate.
Qed.

(** ** Sums over one edge *)

Lemma sumq_single {A} (f : A -> Q) l x : NoDup l -> In x l -> (forall y, In y l -> y <> x -> f y == 0)%Q -> (sumq f l == f x)%Q.
Proof.
  intros Hnd Hin Hz. apply in_split in Hin. destruct Hin as (l1 & l2 & ->). apply NoDup_remove_2 in Hnd. rewrite sumq_app. cbn [sumq].
  rewrite !sumq_zero; [ring| |]; intros y Hy; (apply Hz; [apply in_or_app; cbn; tauto|intros ->; apply Hnd; apply in_or_app; tauto]).
Qed.

Lemma swap_out ps x y : valid ps -> In (x, y) (concat (map edges ps)) -> ~ In (y, x) (concat (map edges ps)).
Proof.
  intros HV H1 H2. destruct (edge_ends ps HV _ H1) as (_ & _ & Hne). cbn [fst snd] in Hne. pose proof (uedges_nd ps HV) as Hnd. unfold uedges in Hnd.
  assert (Eo : oedge (y, x) = oedge (x, y)). { unfold oedge, orient. cbn [fst snd]. destruct (coords_lt x y) eqn:L1, (coords_lt y x) eqn:L2; auto; exfalso.
      - apply coords_lt_spec in L1, L2. apply (plt_irrefl x x); [split; reflexivity|]. eapply plt_trans; eauto.
      - destruct (plt_total x y) as [L|[L|L]]; auto; apply coords_lt_spec in L; congruence. }
  apply In_nth_error in H1, H2. destruct H1 as (i & Hi), H2 as (j & Hj). pose proof (map_nth_error oedge _ _ Hi) as Ki. pose proof (map_nth_error oedge _ _ Hj) as Kj. rewrite Eo in Kj.
  pose proof (nodup_nth _ i j _ Hnd Ki Kj) as E. subst j. rewrite Hi in Hj. injection Hj as -> _. apply Hne. split; reflexivity.
Qed.

Definition one_edge (d : edge) (x y : point) : Q := (if edge_dec (x, y) d then 1 else 0) - (if edge_dec (y, x) d then 1 else 0).

Lemma one_edge_anti d : anti (one_edge d).
Proof. intros x y. unfold one_edge. ring. Qed.

Lemma uses_sum T x y : (sumq (fun t => tri_sum (one_edge (x, y)) t) T == inject_Z (Z.of_nat (uses T x y) - Z.of_nat (uses T y x)))%Q.
Proof.
  assert (C : forall d (l : list edge), Z.of_nat (count_occ edge_dec (d :: l) (x, y)) = ((if edge_dec d (x, y) then 1 else 0) + Z.of_nat (count_occ edge_dec l (x, y)))%Z /\
                          Z.of_nat (count_occ edge_dec (d :: l) (y, x)) = ((if edge_dec d (y, x) then 1 else 0) + Z.of_nat (count_occ edge_dec l (y, x)))%Z).
  { intros d l. cbn [count_occ]. destruct (edge_dec d (x, y)), (edge_dec d (y, x)); lia. }
  assert (S : forall a b, (one_edge (x, y) a b == inject_Z ((if edge_dec (a, b) (x, y) then 1 else 0) - (if edge_dec (a, b) (y, x) then 1 else 0)))%Q).
  { intros a b. unfold one_edge. destruct (edge_dec (a, b) (x, y)) as [E1|E1], (edge_dec (b, a) (x, y)) as [E2|E2], (edge_dec (a, b) (y, x)) as [E3|E3]; try reflexivity; exfalso; congruence. }
  unfold uses. induction T as [|[[a b] c] T IH]; [reflexivity|]. cbn [sumq flat_map sides app tri_sum]. rewrite IH, !S. rewrite <- !inject_Z_plus. apply inject_Z_injective.
  rewrite !(proj1 (C _ _)), !(proj2 (C _ _)). lia.
Qed.

Section Run.
Context {I : Type}.
Variables (gv : I -> point) (elems : list (element I)).
Notation ps := (map (map gv) (groups elems)).
Notation D := (concat (map edges ps)).
Hypothesis HV : valid ps.
Variables (st : state Q I) (calls : list (call I)).
Hypothesis HD : forall ex M, extra gv elems ex -> shear M (concat ps ++ ex) -> done gv elems ex M st.
Hypothesis HFa : forall ex M, extra gv elems ex -> shear M (concat ps ++ ex) -> facts gv false M st calls.

Theorem run_conforming : conforming ps (map (tri_pos gv) (tris_of calls)).
Proof.
  destruct (shear_exists (concat ps)) as (M & HM). assert (HM' : shear M (concat ps ++ [])) by now rewrite app_nil_r. assert (X0 : extra gv elems []) by (split; [|split]; easy).
  destruct (HD [] M X0 HM') as [G _ F Pe Pp Dg]. destruct (HFa [] M X0 HM') as [_ _ Ks].
  assert (U : forall x y, (inject_Z (Z.of_nat (uses (map (tri_pos gv) (tris_of calls)) x y) - Z.of_nat (uses (map (tri_pos gv) (tris_of calls)) y x)) ==
                           sumq (fun d => if inn M st d then one_edge (x, y) (fst d) (snd d) else one_edge (x, y) (snd d) (fst d)) D)%Q).
  { intros x y. rewrite <- uses_sum, sumq_map, (Ks eq_refl _ (one_edge_anti (x, y))). apply (ow_edges ps [] M gv st G HM' F Pe). }
  split.
  - intros x y N1 N2. specialize (U x y). rewrite sumq_zero in U.
    + assert (E : (Z.of_nat (uses (map (tri_pos gv) (tris_of calls)) x y) - Z.of_nat (uses (map (tri_pos gv) (tris_of calls)) y x) = 0)%Z) by (apply inject_Z_injective; exact U). lia.
    + intros [a b] Hd. cbn [fst snd]. unfold one_edge. destruct (edge_dec (a, b) (x, y)) as [E|_]; [injection E as -> ->; contradiction|]. destruct (edge_dec (b, a) (x, y)) as [E|_]; [injection E as -> ->; contradiction|].
      destruct (inn M st (a, b)); reflexivity.
  - intros k x y Hk Hin. destruct (lt_nth _ ps k Hk) as (p & Hp). unfold left_in. rewrite (nth_error_nth _ _ [] Hp) in *.
    assert (Hin' : In p ps) by (eapply nth_error_In; eauto). assert (Hd : In (x, y) D) by (apply in_concat; exists (edges p); split; auto; now apply in_map).
    assert (Hnd : NoDup D). { eapply NoDup_map_inv. exact (uedges_nd ps HV). } pose proof (valid_one ps p HV Hin') as HV1.
    specialize (U x y). rewrite (sumq_single _ D (x, y) Hnd Hd) in U.
    2:{ intros [a b] Hab Hne. cbn [fst snd]. unfold one_edge. destruct (edge_dec (a, b) (x, y)) as [E|_]; [contradiction|]. destruct (edge_dec (b, a) (x, y)) as [E|_]; [injection E as -> ->; elim (swap_out ps x y HV Hd Hab)|].
        destruct (inn M st (a, b)); reflexivity. }
    cbn [fst snd] in U. rewrite (pinn_at ps [] M gv st HV G HM' F Pe Dg p (x, y) Hin' Hin) in U.
    assert (W1 : (one_edge (x, y) x y == 1)%Q). { unfold one_edge. destruct (edge_dec (x, y) (x, y)) as [_|C]; [|congruence]. destruct (edge_dec (y, x) (x, y)) as [C|_]; [|reflexivity]. exfalso. injection C as -> _. elim (swap_out ps x x HV Hd Hd). }
    assert (W2 : (one_edge (x, y) y x == -1)%Q). { rewrite (one_edge_anti (x, y) y x), W1. reflexivity. }
    destruct (one_ex p HV1) as (st1 & calls1 & K1). assert (HM1 : shear M p). { destruct HM as (K0 & K). split; auto. intros a b Ha Hb. apply K; apply in_concat; eauto. }
    assert (C1 : concat [p] ++ [] = p) by (cbn; now rewrite !app_nil_r). destruct (K1 [] M) as (T1 & F1); [split; [|split]; easy|now rewrite C1|].
    pose proof (facts_sign p [] M _ st1 calls1 HV1 T1 F1) as S1. pose proof (area_pos p HV1) as NZ.
    assert (S2 : (sgn (pinn M st p) * sgn (pinn M st1 p) == if Nat.even (depth ps k) then 1 else -1)%Q).
    { apply (depth_sign ps k p gv st st1 M M HV Hp); auto; [intros ex M2 Hex HM2; apply done_traps; now apply HD|intros ex M2 Hex HM2; now apply K1]. }
    assert (S3 : pinn M st1 p = Qltb 0 (shoelace p)).
    { pose proof (Qabs_nonneg (shoelace p)) as A. unfold sgn in S1. destruct (Qltb 0 (shoelace p)) eqn:L.
      - apply Qltb_spec in L. destruct (pinn M st1 p); auto. lra.
      - apply Qltb_false in L. destruct (pinn M st1 p); auto. exfalso. apply NZ. lra. }
    rewrite S3 in S2. unfold sgn in S2. destruct (pinn M st p), (Qltb 0 (shoelace p)), (Nat.even (depth ps k)); cbn [Bool.eqb]; try (exfalso; lra).
    all: first [rewrite W1 in U; change 1%Q with (inject_Z 1) in U | rewrite W2 in U; change (-1)%Q with (inject_Z (-1)) in U].
    all: match type of U with (inject_Z ?x == inject_Z ?y)%Q => assert (E : x = y) by (apply inject_Z_injective; exact U) end; lia.
Qed.
End Run.

Section Returned.
Context {I : Type}.
Variables (gv : I -> point) (ieqb : I -> I -> bool) (dbg : bool).
Hypothesis Hieq : forall a b, ieqb a b = true <-> a = b.
Variables (math_n : nat -> nat -> nat) (shuf : nat -> nat -> list nat).
Hypothesis Hshuf : forall k n, Permutation (shuf k n) (seq 0 n).
Variable elems : list (element I).
Notation ps := (map (map gv) (groups elems)).
Hypothesis HV : valid ps.
Hypothesis Hps : ps <> [].

Lemma returns_conforming T : returns gv ieqb dbg math_n shuf elems T -> conforming ps (map (tri_pos gv) T).
Proof. intros HT. destruct (returns_run gv ieqb dbg Hieq math_n shuf Hshuf elems HV Hps T HT) as (st & calls & -> & _ & H1 & _ & H3). now apply (run_conforming gv elems HV st calls). Qed.
End Returned.
