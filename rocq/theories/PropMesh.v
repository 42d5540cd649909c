(** The triangles as a set of points and as a mesh; runs with other random orders and on other descriptions of the same polygons. *)
From Coq Require Import QArith Qabs Lqa List Arith Lia ZArith Permutation.
From Verif Require Import Base Coord Trap Mono Tri Trace Protocol Format Builders Runs Plane MonoGeom ValidRuns EvenOdd Whole Budget Outcome Area Number PropTri PropCount Cover Sides Inv Closed.
Import ListNotations.
Local Open Scope nat_scope.

Section Props.
Context {I : Type}.
Variables (gv : I -> point) (ieqb : I -> I -> bool) (dbg : bool) (math_n : nat -> nat -> nat) (shuf : nat -> nat -> list nat).
Hypothesis Hieq : forall a b, ieqb a b = true <-> a = b.
Hypothesis Hshuf : forall k n, Permutation (shuf k n) (seq 0 n).
Variable elems : list (element I).
Notation ps := (map (map gv) (groups elems)).
Hypothesis HV : valid ps.
Hypothesis Hps : ps <> [].
Notation returns T := (returns gv ieqb dbg math_n shuf elems T).

(** C03: with the points on edges between triangles: a point off the polygons is inside iff it is in a closed triangle with area,
    and a point in the open interior of such a triangle is in no other closed triangle with area. *)
Theorem C03_covers (T : list (I * I * I)) : returns T -> covers ps (map (tri_pos gv) T).
Proof. exact (returns_covers gv ieqb dbg Hieq math_n shuf Hshuf elems HV Hps T). Qed.

(** C46: the union of the closed triangles with area is the closed region, its inside and all points of the edges of the polygons. *)
Theorem C46_closed (T : list (I * I * I)) : returns T -> fills ps (map (tri_pos gv) T).
Proof. exact (returns_fills gv ieqb dbg Hieq math_n shuf Hshuf elems HV Hps T). Qed.

(** C38: no directed side belongs to two triangles with area. *)
Theorem C38_once (T : list (I * I * I)) : returns T -> once (map (tri_pos gv) T).
Proof. exact (returns_once gv ieqb dbg Hieq math_n shuf Hshuf elems HV Hps T). Qed.

(** C38: the sides of the triangles match in opposite pairs, except for the edges of the polygons, which remain with the interior on the left. *)
Theorem C38_conforming (T : list (I * I * I)) : returns T -> conforming ps (map (tri_pos gv) T).
Proof. exact (returns_conforming gv ieqb dbg Hieq math_n shuf Hshuf elems HV Hps T). Qed.

(** C38: so every edge of a polygon is a side of a triangle. *)
Theorem C38_edges (T : list (I * I * I)) (x y : point) : returns T -> In (x, y) (concat (map edges ps)) ->
  exists t, In t T /\ (In (x, y) (sides (tri_pos gv t)) \/ In (y, x) (sides (tri_pos gv t))).
Proof.
  intros HT Hin. destruct (C38_conforming T HT) as (_ & H). apply in_concat in Hin. destruct Hin as (l & Hl & Hin). apply in_map_iff in Hl. destruct Hl as (p & <- & Hp).
  destruct (In_nth _ _ [] Hp) as (k & Hk & E). subst p. specialize (H k x y Hk Hin).
  assert (K : forall u v, 0 < uses (map (tri_pos gv) T) u v -> exists t, In t T /\ In (u, v) (sides (tri_pos gv t))).
  { intros u v H0. apply (count_occ_In Outline.edge_dec) in H0. apply in_flat_map in H0. destruct H0 as (t' & Ht & Hs). apply in_map_iff in Ht. destruct Ht as (t & <- & Ht). eauto. }
  destruct (left_in ps k).
  - destruct (K x y) as (t & K1 & K2); [lia|]. exists t. auto.
  - destruct (K y x) as (t & K1 & K2); [lia|]. exists t. auto.
Qed.

(** C32: whatever the insertion orders and debug assertions of two runs, the total area, the number of triangles and the region they cover are the same. *)
Theorem C32_order dbg' math_n' shuf' (T T' : list (I * I * I)) : (forall k n, Permutation (shuf' k n) (seq 0 n)) -> returns T -> Outcome.returns gv ieqb dbg' math_n' shuf' elems T' ->
  (sumq (area2 gv) T == sumq (area2 gv) T')%Q /\ length T = length T' /\ same_points (map (tri_pos gv) T) (map (tri_pos gv) T').
Proof.
  intros Hshuf' HT HT'. split; [|split].
  - rewrite (C02_area gv ieqb dbg math_n shuf Hieq Hshuf elems HV Hps T HT), (C02_area gv ieqb dbg' math_n' shuf' Hieq Hshuf' elems HV Hps T' HT'). reflexivity.
  - apply Nat2Z.inj. rewrite (C06_number gv ieqb dbg math_n shuf Hieq Hshuf elems HV Hps T HT), (C06_number gv ieqb dbg' math_n' shuf' Hieq Hshuf' elems HV Hps T' HT'). reflexivity.
  - apply (fills_same ps ps); [apply same_refl|now apply C46_closed|]. exact (returns_fills gv ieqb dbg' Hieq math_n' shuf' Hshuf' elems HV Hps T' HT').
Qed.

(** C33: another description of the same polygons (first vertices, directions, order of the polygons; also other indices) is valid too, and its
    triangulation, with any order and debug assertions, succeeds, covers the same region with as many counterclockwise or flat triangles and the same total area. *)
Theorem C33_same {J} (gv' : J -> point) jeqb dbg' math_n' shuf' (elems' : list (element J)) (T : list (I * I * I)) :
  (forall a b, jeqb a b = true <-> a = b) -> (forall k n, Permutation (shuf' k n) (seq 0 n)) ->
  same_polys ps (map (map gv') (groups elems')) -> returns T ->
  valid (map (map gv') (groups elems')) /\
  exists T', Outcome.returns gv' jeqb dbg' math_n' shuf' elems' T' /\
    same_points (map (tri_pos gv) T) (map (tri_pos gv') T') /\
    length T' = length T /\ (sumq (area2 gv') T' == sumq (area2 gv) T)%Q /\
    forall a b c, In (a, b, c) T' -> (0 <= cross (gv' a) (gv' b) (gv' c))%Q.
Proof.
  intros Hj Hs S HT. set (qs := map (map gv') (groups elems')) in *. pose proof (valid_same ps qs HV S) as HV'. split; auto.
  assert (Hqs : qs <> []). { intros E. rewrite E in S. destruct S as (rs & P & F). inversion F; subst. apply Hps. now apply Permutation_sym, Permutation_nil in P. }
  destruct (C01_returns gv' jeqb dbg' math_n' shuf' Hj Hs elems' HV' Hqs) as (T' & HT'). exists T'. split; auto. split; [|split; [|split]].
  - apply (fills_same ps qs); auto; [now apply C46_closed|]. exact (returns_fills gv' jeqb dbg' Hj math_n' shuf' Hs elems' HV' Hqs T' HT').
  - apply Nat2Z.inj. rewrite (C06_number gv ieqb dbg math_n shuf Hieq Hshuf elems HV Hps T HT), (C06_number gv' jeqb dbg' math_n' shuf' Hj Hs elems' HV' Hqs T' HT'). symmetry. now apply ntri_same.
  - rewrite (C02_area gv ieqb dbg math_n shuf Hieq Hshuf elems HV Hps T HT), (C02_area gv' jeqb dbg' math_n' shuf' Hj Hs elems' HV' Hqs T' HT'). symmetry. now apply interior_same.
  - intros a b c Hin. apply (C04_returned gv' jeqb dbg' math_n' shuf' Hj Hs elems' HV' Hqs T' a b c HT' Hin).
Qed.

End Props.

(** ** The quadrilateral with a triangular hole *)

(** The hole first and from another vertex on, the quadrilateral clockwise. *)
Definition holed_elems' : list (element nat) := [Continue 5; Continue 6; Continue 4; NewPolygon; Continue 1; Continue 0; Continue 3; Continue 2].
Example C33_hyp : same_polys holed_ps (map (map (gv_of holed)) (groups holed_elems')).
Proof.
  exists [map (gv_of holed) [4; 5; 6]; map (gv_of holed) [0; 1; 2; 3]]. split; [apply perm_swap|]. constructor; [|constructor; [|constructor]].
  - exists (map (gv_of holed) [4]), (map (gv_of holed) [5; 6]). auto.
  - exists (map (gv_of holed) [0; 1]), (map (gv_of holed) [2; 3]). auto.
Qed.

Definition backwards (_ n : nat) : list nat := rev (seq 0 n).
Lemma backwards_perm : forall k n, Permutation (backwards k n) (seq 0 n).
Proof. intros. symmetry. apply Permutation_rev. Qed.

Definition holed_back : list (nat * nat * nat) :=
  Eval vm_compute in match triangulate (fan_to_list (indexed_list (vec_triples nat) [])) Nat.eqb (gv_of holed) false 100 never backwards holed_elems with
                     | Returned (inl T) _ => T
                     | _ => []
                     end.
Example C32_hyp : returns (gv_of holed) Nat.eqb false never backwards holed_elems holed_back.
Proof. exists 100%nat. vm_compute. reflexivity. Qed.
Example C32_case : same_points (map (tri_pos (gv_of holed)) holed_T) (map (tri_pos (gv_of holed)) holed_back).
Proof. apply (C32_order (gv_of holed) Nat.eqb true never in_order nat_eqb_dec in_order_perm holed_elems holed_valid holed_ne false never backwards holed_T holed_back backwards_perm C02_hyp C32_hyp). Qed.
Example C33_case : exists T', returns (gv_of holed) Nat.eqb true never in_order holed_elems' T' /\ length T' = 7.
Proof.
  destruct (C33_same (gv_of holed) Nat.eqb true never in_order nat_eqb_dec in_order_perm holed_elems holed_valid holed_ne (gv_of holed) Nat.eqb true never in_order holed_elems' holed_T nat_eqb_dec in_order_perm C33_hyp C02_hyp) as (_ & T' & H & _ & L & _).
  exists T'. split; auto.
Qed.

(** (1, 8) - (3, 3) or another side between the outlines is used both ways; the quadrilateral is kept to the left, the hole to the right. *)
Example C38_case : let T := map (tri_pos (gv_of holed)) holed_T in
  uses T (pt 0 0) (pt 9 1) = 1 /\ uses T (pt 9 1) (pt 0 0) = 0 /\ uses T (pt 3 3) (pt 5 4) = 0 /\ uses T (pt 5 4) (pt 3 3) = 1 /\
  uses T (pt 9 1) (pt 5 4) = 1 /\ uses T (pt 5 4) (pt 9 1) = 1 /\ left_in holed_ps 0 = true /\ left_in holed_ps 1 = false.
Proof. vm_compute. repeat split. Qed.

(** A point of the hole's edge is covered though the hole is not. *)
Example C46_case : exists t, In t (map (tri_pos (gv_of holed)) holed_T) /\ ~ flat t /\ in_closed t ((4 # 1), (7 # 2))%Q.
Proof.
  apply (C46_closed (gv_of holed) Nat.eqb true never in_order nat_eqb_dec in_order_perm holed_elems holed_valid holed_ne holed_T C02_hyp). left.
  exists (pt 3 3, pt 5 4). split; [vm_compute; tauto|]. exists (1 # 2)%Q. cbn. repeat split; lra.
Qed.

Print Assumptions C46_closed.
Print Assumptions C38_once.
Print Assumptions C03_covers.
Print Assumptions C38_conforming.
Print Assumptions C38_edges.
Print Assumptions C32_order.
Print Assumptions C33_same.
