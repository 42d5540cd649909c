(** Property C53: the documented expected running time for each further polygon or hole (README.md 52, src/lib.rs 63) is refuted in the trapezoidation:
    a triangular hole takes arbitrarily many iterations, whatever the order of insertion, and a list of polygons of n vertices in total can take a number of iterations quadratic in n. *)
From Coq Require Import QArith List Arith Lia Bool Permutation.
From Verif Require Import Base Coord Trap Plane Geo Build EvenOdd SlowFam Mountain Work Hole HoleFam ValidB PropWork.
Import ListNotations.
Local Open Scope nat_scope.

(** One triangle inside a convex polygon: no bound for the iterations it adds. *)
Theorem C53_each_refuted : forall bound, exists A B : list point,
  valid [A; B] /\ length B = 3 /\ (forall v, In v B -> inside_eo [A] v = true) /\
  forall (I : Type) (gv : I -> point) ieqb dbg math_n shuf (a b : list I), (forall x y, ieqb x y = true <-> x = y) -> (forall k n, Permutation (shuf k n) (seq 0 n)) ->
    map gv a = A -> map gv b = B ->
    exists fuel, forall f, fuel <= f -> exists st1 st2 c1 c2,
      trapezoidize_c ieqb gv dbg f math_n shuf (map (@Continue I) a) = (Ok st1, c1) /\
      trapezoidize_c ieqb gv dbg f math_n shuf (map (@Continue I) a ++ NewPolygon :: map (@Continue I) b) = (Ok st2, c2) /\ c1 + bound <= c2.
Proof.
  intros bound. set (m := bound + 3). assert (Hm : 3 <= m) by lia. exists (bow m), (hole m 0). split; [apply (all_valid m Hm 1); lia|]. split; [reflexivity|]. split; [intros v; apply (hole_inside m Hm 0); lia|].
  intros I gv ieqb dbg math_n shuf a b Hieq Hshuf Ea Eb. destruct (shear_exists (concat [bow m; hole m 0] ++ [])) as (M & HM).
  destruct (holes_cost gv ieqb dbg Hieq math_n shuf Hshuf M (m - 2) a [b]) as (N & HN); cbn [map]; rewrite ?Ea, ?Eb; auto.
  - apply (all_valid m Hm 1). lia.
  - apply (holes_seen m Hm M 1); auto. lia.
  - exists N. intros f Hf. destruct (HN f Hf) as (st1 & st2 & c1 & c2 & H1 & H2 & H3). exists st1, st2, c1, c2. split; auto. unfold listing in H2. cbn [flat_map] in H2. rewrite app_nil_r in H2. split; auto. cbn [length] in H3. lia.
Qed.

(** A polygon with many holes: quadratically many iterations in all. *)
Theorem C53_total_refuted : forall n0, exists ps : list (list point),
  valid ps /\ n0 <= length (concat ps) /\
  forall (I : Type) (gv : I -> point) ieqb dbg math_n shuf (a : list I) (hs : list (list I)), (forall x y, ieqb x y = true <-> x = y) -> (forall k n, Permutation (shuf k n) (seq 0 n)) ->
    map gv a :: map (map gv) hs = ps ->
    exists fuel, forall f, fuel <= f -> exists st c,
      trapezoidize_c ieqb gv dbg f math_n shuf (map (@Continue I) a ++ flat_map (fun b => NewPolygon :: map (@Continue I) b) hs) = (Ok st, c) /\
      length (concat ps) * length (concat ps) <= 32 * c.
Proof.
  intros n0. set (m := n0 + 6). assert (Hm : 3 <= m) by lia. exists (bow m :: map (hole m) (seq 0 m)). split; [now apply all_valid|].
  assert (L : length (concat (bow m :: map (hole m) (seq 0 m))) = 4 * m + 2).
  { cbn [concat]. rewrite app_length, bow_len. assert (G : forall l, length (concat (map (hole m) l)) = 3 * length l) by (induction l as [|x l IH]; cbn [map concat length app]; auto; unfold hole at 1; cbn [app length]; lia). rewrite G, seq_length. lia. }
  rewrite L. split; [lia|]. intros I gv ieqb dbg math_n shuf a hs Hieq Hshuf E. destruct (shear_exists (concat (bow m :: map (hole m) (seq 0 m)) ++ [])) as (M & HM).
  injection E as Ea Eh. destruct (holes_cost gv ieqb dbg Hieq math_n shuf Hshuf M (m - 2) a hs) as (N & HN); rewrite ?Ea, ?Eh; auto.
  - now apply all_valid.
  - now apply holes_seen.
  - exists N. intros f Hf. destruct (HN f Hf) as (st1 & st2 & c1 & c2 & _ & H2 & H3). exists st2, c2. split; auto. assert (Lh : length hs = m). { rewrite <- (map_length (map gv) hs), Eh, map_length. apply seq_length. } rewrite Lh in H3. nia.
Qed.

(** Twelve vertices and a triangle: alone the triangle takes 16 iterations, as a hole 51, and 81 with ten more vertices around. *)
Definition vat (l : list point) (i : nat) : point := nth i l (0%Q, 0%Q).
Definition cost_of (V : list point) (es : list (element nat)) : nat := snd (trapezoidize_c Nat.eqb (vat V) true 1000 (fun _ _ => 5) (fun _ n => seq 0 n) es).
Example C53_case : let V m := bow m ++ hole m 0 in let a m := map (@Continue nat) (seq 0 (m + 2)) in let b m := map (@Continue nat) (seq (m + 2) 3) in
  map (vat (V 10)) (seq 0 12) = bow 10 /\ map (vat (V 10)) (seq 12 3) = hole 10 0 /\
  cost_of (V 10) (b 10) = 16 /\ cost_of (V 10) (a 10) = 96 /\ cost_of (V 10) (a 10 ++ NewPolygon :: b 10) = 96 + 51 /\
  cost_of (V 20) (b 20) = 16 /\ cost_of (V 20) (a 20 ++ NewPolygon :: b 20) = cost_of (V 20) (a 20) + 81.
Proof. vm_compute. repeat split. Qed.

Print Assumptions C53_each_refuted.
Print Assumptions C53_total_refuted.
