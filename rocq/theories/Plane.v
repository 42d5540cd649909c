(** Plane geometry over the rationals: the specification side of the vertex order, the side test and validity. *)
From Coq Require Import QArith Lqa List Bool.
From Verif Require Import Base Coord Trap.
Import ListNotations.
Local Open Scope Q_scope.

Definition point : Type := coords Q.

(** Same point of the plane. *)
Definition peq (a b : point) : Prop := cx a == cx b /\ cy a == cy b.

(** Lexicographic order, [y] first. *)
Definition plt (a b : point) : Prop := cy a < cy b \/ (cy a == cy b /\ cx a < cx b).

(** Twice the signed area of the triangle [a b c]: positive when it is counterclockwise. *)
Definition cross (a b c : point) : Q := (cx b - cx a) * (cy c - cy a) - (cy b - cy a) * (cx c - cx a).

(** [p] is on the closed line segment from [a] to [b]. *)
Definition on_segment (a b p : point) : Prop :=
  exists t, 0 <= t /\ t <= 1 /\ cx p == cx a + t * (cx b - cx a) /\ cy p == cy a + t * (cy b - cy a).

(** ** Valid polygon lists *)

(** The edges of a closed polygon, in order. *)
Definition edges {A} (l : list A) : list (A * A) :=
  match l with [] => [] | a :: r => combine l (r ++ [a]) end.

(** Every polygon has at least three vertices, all vertices are different points, and any point of the plane that is
    on two different edges is an end point of both. *)
Definition valid (ps : list (list point)) : Prop :=
  Forall (fun p => (3 <= length p)%nat) ps /\
  (forall i j a b, nth_error (concat ps) i = Some a -> nth_error (concat ps) j = Some b -> peq a b -> i = j) /\
  (forall i j e f p, nth_error (concat (map edges ps)) i = Some e -> nth_error (concat (map edges ps)) j = Some f ->
     i <> j -> on_segment (fst e) (snd e) p -> on_segment (fst f) (snd f) p ->
     (peq p (fst e) \/ peq p (snd e)) /\ (peq p (fst f) \/ peq p (snd f))).

(** The polygons an iteration describes: maximal groups of consecutive indices. *)
Fixpoint groups_from {I} (cur : list I) (l : list (element I)) : list (list I) :=
  match l with
  | [] => match cur with [] => [] | _ => [cur] end
  | Continue i :: l => groups_from (cur ++ [i]) l
  | NewPolygon :: l => match cur with [] => groups_from [] l | _ => cur :: groups_from [] l end
  end.
Definition groups {I} (l : list (element I)) : list (list I) := groups_from [] l.

(** ** The vertex order *)

Lemma plt_irrefl a b : peq a b -> ~ plt a b.
Proof. intros [Hx Hy] [H|[H1 H2]]; lra. Qed.

Lemma plt_trans a b c : plt a b -> plt b c -> plt a c.
Proof. unfold plt. intros [H|[H H']] [K|[K K']]; [left; lra|left; lra|left; lra|right; lra]. Qed.

Lemma plt_total a b : plt a b \/ peq a b \/ plt b a.
Proof.
  unfold plt, peq. destruct (Q_dec (cy a) (cy b)) as [[H|H]|H].
  - auto.
  - auto.
  - destruct (Q_dec (cx a) (cx b)) as [[K|K]|K].
    + left; right; auto.
    + right; right; right. split; [now symmetry|auto].
    + right; left. auto.
Qed.

Lemma coords_pcmp_spec (a b : point) :
  match coords_pcmp a b with
  | Some Lt => plt a b
  | Some Eq => peq a b
  | Some Gt => plt b a
  | None => False
  end.
Proof.
  unfold coords_pcmp. cbn [c_pcmp QOps].
  destruct (Qcompare_spec (cy a) (cy b)) as [H|H|H].
  - destruct (Qcompare_spec (cx a) (cx b)) as [K|K|K].
    + now split.
    + right. auto.
    + right. split; auto. now symmetry.
  - now left.
  - now left.
Qed.

Lemma coords_lt_spec (a b : point) : coords_lt a b = true <-> plt a b.
Proof.
  unfold coords_lt. pose proof (coords_pcmp_spec a b) as H. destruct (coords_pcmp a b) as [[]|]; try contradiction; split; auto; try discriminate.
  - intros K. now apply plt_irrefl in K.
  - intros K. exfalso. eapply (plt_irrefl a a); [split; reflexivity|]. eapply plt_trans; eauto.
Qed.

Lemma coords_gt_spec (a b : point) : coords_gt a b = true <-> plt b a.
Proof.
  unfold coords_gt. pose proof (coords_pcmp_spec a b) as H. destruct (coords_pcmp a b) as [[]|]; try contradiction; split; auto; try discriminate.
  - intros K. apply plt_irrefl in K; [easy|]. destruct H. split; now symmetry.
  - intros K. exfalso. eapply (plt_irrefl a a); [split; reflexivity|]. eapply plt_trans; eauto.
Qed.

Lemma coords_le_spec (a b : point) : coords_le a b = true <-> ~ plt b a.
Proof.
  unfold coords_le. pose proof (coords_pcmp_spec a b) as H. destruct (coords_pcmp a b) as [[]|]; try contradiction; split; auto; try discriminate.
  - intros _ K. apply plt_irrefl in K; [easy|]. destruct H. split; now symmetry.
  - intros _ K. eapply (plt_irrefl a a); [split; reflexivity|]. eapply plt_trans; eauto.
Qed.

(** ** The side test *)

Lemma Qltb_spec a b : Qltb a b = true <-> a < b.
Proof.
  unfold Qltb. rewrite negb_true_iff, <- not_true_iff_false, Qle_bool_iff. split; intros H.
  - now apply Qnot_le_lt.
  - now apply Qlt_not_le.
Qed.

(** Outside the line the side test is the orientation test. *)
Lemma is_left_cross (a b c : point) : plt a b -> ~ cross a b c == 0 -> (is_left a b c = true <-> 0 < cross a b c).
Proof.
  intros Hab Hc. unfold is_left, cross in *. cbn [c_eqb c_ltb c_mul c_sub QOps].
  destruct a as [ax ay], b as [bx b_y], c as [px py]. unfold plt, cx, cy in *. cbn [fst snd] in *.
  destruct (Qeq_bool py b_y) eqn:E1.
  - apply Qeq_bool_iff in E1. rewrite Qltb_spec. destruct Hab as [H|[H H']].
    + split; intros K; nra.
    + exfalso. apply Hc. rewrite E1, H. ring.
  - apply Qeq_bool_neq in E1. destruct (Qeq_bool py ay) eqn:E2.
    + apply Qeq_bool_iff in E2. rewrite Qltb_spec. destruct Hab as [H|[H H']].
      * split; intros K; nra.
      * exfalso. apply E1. lra.
    + rewrite Qltb_spec. split; intros K; nra.
Qed.

(** On the line: [true] exactly for a horizontal line and a point left of its right end. *)
Lemma is_left_on (a b c : point) : plt a b -> cross a b c == 0 ->
  (is_left a b c = true <-> cy a == cy b /\ cx c < cx b).
Proof.
  intros Hab Hc. unfold is_left, cross in *. cbn [c_eqb c_ltb c_mul c_sub QOps].
  destruct a as [ax ay], b as [bx b_y], c as [px py]. unfold plt, cx, cy in *. cbn [fst snd] in *.
  destruct (Qeq_bool py b_y) eqn:E1.
  - apply Qeq_bool_iff in E1. rewrite Qltb_spec. destruct Hab as [H|[H H']].
    + split; intros K; [|lra]. exfalso. nra.
    + split; intros K; [split; lra|lra].
  - apply Qeq_bool_neq in E1. destruct (Qeq_bool py ay) eqn:E2.
    + apply Qeq_bool_iff in E2. rewrite Qltb_spec. destruct Hab as [H|[H H']].
      * split; intros K; [|lra]. exfalso. nra.
      * exfalso. apply E1. lra.
    + rewrite Qltb_spec. destruct Hab as [H|[H H']].
      * split; intros K; [exfalso; nra|lra].
      * exfalso. apply Qeq_bool_neq in E2. assert ((bx - ax) * (py - ay) == 0) by nra.
        apply Qmult_integral in H0. destruct H0; [lra|]. apply E2. lra.
Qed.
