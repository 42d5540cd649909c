(** Properties C09 and C45: runs that never end on input that meets the documented preconditions. *)
From Coq Require Import QArith Lqa List Arith Bool Lia Permutation.
From Verif Require Import Base Coord Trap Mono Tri Trace Protocol Format Builders Runs Plane Geo ValidB Doc Outcome PropTri PropCross Stuck.
Import ListNotations.
Local Open Scope nat_scope.

(** C09 is false of a heptagon of different vertices without crossing edges: with and without debug assertions and with every builder that does not
    fail, no step budget is enough.  (An edge overlaps the next one: vertex 5 is on the edge from vertex 6 to vertex 0.) *)
Definition hep : list (coords Q) := [pt 1 5; pt 5 0; pt 5 1; pt 5 5; pt 4 4; pt 2 4; pt 3 3].

(** The values of the code's [math_n] (src/math.rs 15-21) for length seven. *)
Definition math_seven (n h : nat) : nat := match n, h with 7, 1 => 3 | 7, 2 => 5 | _, _ => 100 end.

Theorem C09_distinct_refuted : exists l : list (coords Q), 3 <= length l /\ distinct [l] /\ ~ crossing [l] /\
  forall E Out M (F : fan_format nat E Out M) dbg fuel, willing F -> triangulate F Nat.eqb (gv_of l) dbg fuel math_seven in_order (elems_of l) = Crashed Fuel.
Proof.
  exists hep. split; [cbn; lia|]. split; [apply distinctb_ok; vm_compute; reflexivity|]. split; [rewrite <- crossingb_ok; vm_compute; discriminate|].
  intros E Out M F dbg fuel. apply (hangs_at_hangs _ _ _ _ _ _ 16). destruct dbg; vm_compute; reflexivity.
Qed.
Print Assumptions C09_distinct_refuted.

(** No two edges have more than one point in common. *)
Definition no_overlap (ps : list (list point)) : Prop :=
  forall i j e f p q, nth_error (concat (map edges ps)) i = Some e -> nth_error (concat (map edges ps)) j = Some f -> i <> j ->
    on_segment (fst e) (snd e) p -> on_segment (fst f) (snd f) p -> on_segment (fst e) (snd e) q -> on_segment (fst f) (snd f) q -> peq p q.

Definition askew (e f : edge) : bool :=
  negb (Qeq_bool ((cx (snd e) - cx (fst e)) * (cy (snd f) - cy (fst f)) - (cy (snd e) - cy (fst e)) * (cx (snd f) - cx (fst f))) 0) ||
  negb (Qeq_bool (cross (fst e) (snd e) (fst f)) 0).
Lemma askew_ok e f p q : askew e f = true -> on_segment (fst e) (snd e) p -> on_segment (fst f) (snd f) p -> on_segment (fst e) (snd e) q -> on_segment (fst f) (snd f) q ->
  peq p q.
Proof.
  destruct e as [a b], f as [c d]. cbn [fst snd]. intros H (t & _ & _ & X1 & Y1) (u & _ & _ & X2 & Y2) (t' & _ & _ & X3 & Y3) (u' & _ & _ & X4 & Y4).
  destruct (Qeq_dec t t') as [Et|Et]; [split; [rewrite X1, X3, Et; reflexivity|rewrite Y1, Y3, Et; reflexivity]|].
  destruct (Qeq_dec u u') as [Eu|Eu]; [split; [rewrite X2, X4, Eu; reflexivity|rewrite Y2, Y4, Eu; reflexivity]|].
  exfalso. set (dx := (cx b - cx a)%Q) in *. set (dy := (cy b - cy a)%Q) in *. set (ex := (cx d - cx c)%Q) in *. set (ey := (cy d - cy c)%Q) in *.
  assert (Ex : ((t' - t) * dx == (u' - u) * ex)%Q) by (assert (cx q - cx p == cx q - cx p)%Q by reflexivity; lra).
  assert (Ey : ((t' - t) * dy == (u' - u) * ey)%Q) by lra.
  assert (Z : (dx * ey - dy * ex == 0)%Q).
  { assert (K : ((t' - t) * (u' - u) * (dx * ey - dy * ex) == 0)%Q).
    { setoid_replace ((t' - t) * (u' - u) * (dx * ey - dy * ex))%Q with (((t' - t) * dx) * ((u' - u) * ey) - ((t' - t) * dy) * ((u' - u) * ex))%Q by ring. rewrite Ex, Ey. ring. }
    apply Qmult_integral in K. destruct K as [K|K]; auto. apply Qmult_integral in K. destruct K; exfalso; [apply Et|apply Eu]; lra. }
  unfold askew in H. cbn [fst snd] in H. apply orb_true_iff in H. destruct H as [H|H]; apply negb_true_iff in H; apply Qeq_bool_neq in H; apply H.
  - exact Z.
  - unfold cross. fold dx dy.
    assert (Wx : (cx c == cx a + t * dx - u * ex)%Q) by lra. assert (Wy : (cy c == cy a + t * dy - u * ey)%Q) by lra. rewrite Wx, Wy.
    setoid_replace (dx * (cy a + t * dy - u * ey - cy a) - dy * (cx a + t * dx - u * ex - cx a))%Q with (- u * (dx * ey - dy * ex))%Q by ring. rewrite Z. ring.
Qed.
Lemma no_overlap_ok ps : pairwise askew (concat (map edges ps)) = true -> no_overlap ps.
Proof.
  intros H i j e f p q Hi Hj Hij P1 P2 P3 P4. destruct (Nat.lt_trichotomy i j) as [L|[L|L]]; [|tauto|].
  - exact (askew_ok e f p q (pairwise_lt _ _ _ _ _ _ H Hi Hj L) P1 P2 P3 P4).
  - exact (askew_ok f e p q (pairwise_lt _ _ _ _ _ _ H Hj Hi L) P2 P1 P4 P3).
Qed.

(** C45 and C09 are false of a pentagon of different vertices in which no edges cross or overlap, vertex 3 being on an edge: without debug assertions
    the run never ends, with them it panics. *)
Definition pen : list (coords Q) := [pt 2 0; pt 2 2; pt 1 2; pt 2 1; pt 0 2].
Definition pen_order : list nat := [1; 3; 0; 2; 4].

Theorem C45_hang_refuted : exists l order, 3 <= length l /\ distinct [l] /\ ~ crossing [l] /\ no_overlap [l] /\ (forall k n, Permutation (by_order order k n) (seq 0 n)) /\
  forall E Out M (F : fan_format nat E Out M) fuel, willing F ->
    triangulate F Nat.eqb (gv_of l) false fuel math_real (by_order order) (elems_of l) = Crashed Fuel.
Proof.
  exists pen, pen_order. split; [cbn; lia|]. split; [apply distinctb_ok; vm_compute; reflexivity|]. split; [rewrite <- crossingb_ok; vm_compute; discriminate|].
  split; [apply no_overlap_ok; vm_compute; reflexivity|]. split; [apply by_order_perm; vm_compute; reflexivity|].
  intros E Out M F fuel. apply (hangs_at_hangs _ _ _ _ _ _ 14). vm_compute. reflexivity.
Qed.
Print Assumptions C45_hang_refuted.

(** The builders of the crate do not fail. *)
Example C45_hang_case : willing (fan_to_list (indexed_list (vec_triples nat) [])) /\
  triangulate (fan_to_list (indexed_list (vec_triples nat) [])) Nat.eqb (gv_of pen) false 1000 math_real (by_order pen_order) (elems_of pen) = Crashed Fuel /\
  triangulate (fan_to_list (indexed_list (vec_triples nat) [])) Nat.eqb (gv_of pen) true 1000 math_real (by_order pen_order) (elems_of pen) = Crashed Panic.
Proof. split; [exact C01_hyp|]. split; vm_compute; reflexivity. Qed.
