(** The counter is not less than the iterations of any loop: what a counted run finds, the run finds with the count as step budget (without debug checks). *)
From Coq Require Import List Arith Lia Bool.
From Verif Require Import Base Coord Trap Work.
Import ListNotations.
Local Open Scope nat_scope.

(** With a budget of at least the count, [r] finds what [c] found. *)
Definition bud {E A} (F : nat) (r : res E A) (c : cres E A) : Prop := forall x, fst c = Ok x -> snd c <= F -> r = Ok x.

Lemma bud_bind {E A B} F (r : res E A) (c : cres E A) (f : A -> res E B) g : bud F r c -> (forall a, bud F (f a) (g a)) -> bud F (bind r f) (cbind c g).
Proof. intros H1 H2 x. unfold cbind. cbn zeta. destruct (fst c) as [a| |] eqn:E0; cbn [fst snd]; intros H H'; try discriminate. rewrite (H1 a E0 ltac:(lia)). cbn [bind]. apply H2; auto. lia. Qed.

Lemma bud_free {E A} F (r : res E A) : bud F r (free r).
Proof. intros x H _. exact H. Qed.

Lemma bud_tick {E A} F (r : res E A) c : bud F r c -> bud (S F) r (tick c).
Proof. intros H x. unfold tick. cbn [fst snd]. intros H1 H2. apply H; auto. lia. Qed.

Lemma bud_tick0 {E A} (r : res E A) c : bud 0 r (tick c).
Proof. intros x. unfold tick. cbn [fst snd]. lia. Qed.

Lemma bud_crash {E A} F (r : res E A) p : bud F r (free (Crash p)).
Proof. intros x H. discriminate. Qed.

Lemma bud_down {E A} F F' (r : res E A) c : bud F' r c -> F <= F' -> bud F r c.
Proof. intros H L x H1 H2. apply H; auto. lia. Qed.

Lemma bud_err {E1 E2 A} F (h : E1 -> E2) (r : res E1 A) c : bud F r c -> bud F (map_err h r) (cmap_err h c).
Proof. intros H x. unfold cmap_err. cbn [fst snd]. destruct (fst c) as [a| |] eqn:E0; cbn [map_err]; intros H1 H2; try discriminate. rewrite (H a E0 H2). exact H1. Qed.

Ltac bb := repeat (apply bud_bind; [apply bud_free|intros ?]).

Section Budget.
Context {C : Type} {OC : CoordOps C} {I : Type}.
Variables (ieqb : I -> I -> bool) (gv : I -> coords C) (fuel F : nat).
Notation stt := (state C I).

Lemma bud_find qs (c : coords C) : forall k G q, bud G (find G qs c q) (find_c k qs c q).
Proof.
  induction k as [|k IH]; intros G q; [apply bud_crash|]. cbn [find_c]. destruct G as [|G]; [apply bud_tick0|]. cbn [find]. apply bud_tick. bb. destruct a; [apply IH|apply bud_free].
Qed.

Lemma bud_add_vertex (st : stt) vi q : bud F (add_vertex gv false F st vi q) (add_vertex_c gv false fuel st vi q).
Proof.
  unfold add_vertex, add_vertex_c. cbn zeta. apply bud_bind; [apply bud_find|intros [qp ti]]. apply bud_bind; [apply bud_free|intros ql]. apply bud_bind; [apply bud_free|intros t]. cbn [split_horizontal]. apply bud_bind; [apply bud_free|intros ns]. cbn [check_consistency]. bb. apply bud_free.
Qed.

Lemma bud_seg_loop si nm (c0 c1 : coords C) : forall k G (st : stt) ni tl tr, bud G (seg_loop ieqb G st si nm c0 c1 ni tl tr) (seg_loop_c ieqb k st si nm c0 c1 ni tl tr).
Proof.
  induction k as [|k IH]; intros G st ni tl tr; [apply bud_crash|]. cbn [seg_loop_c]. destruct G as [|G]; [apply bud_tick0|]. cbn [seg_loop]. apply bud_tick. destruct (Nat.eqb ni nm); [apply bud_free|]. cbn zeta.
  do 7 (apply bud_bind; [apply bud_free|intros ?]). destruct (onat_eqb _ _); [|destruct (onat_eqb _ _); [|apply bud_free]].
  - do 4 (apply bud_bind; [apply bud_free|intros ?]). apply IH.
  - do 5 (apply bud_bind; [apply bud_free|intros ?]). apply IH.
Qed.

Lemma bud_add_segment (st : stt) a b c0 c1 : bud F (add_segment ieqb false F st a b c0 c1) (add_segment_c ieqb false fuel st a b c0 c1).
Proof.
  unfold add_segment, add_segment_c. cbn zeta. do 5 (apply bud_bind; [apply bud_free|intros ?]). cbn [split_vertical]. do 4 (apply bud_bind; [apply bud_free|intros ?]).
  apply bud_bind; [apply bud_seg_loop|intros [st3 tu]]. cbn [check_consistency]. bb. apply bud_free.
Qed.

Lemma bud_add_vertex_at (st : stt) vls v i q : bud F (add_vertex_at gv false F st vls v i q) (add_vertex_at_c gv false fuel st vls v i q).
Proof. unfold add_vertex_at, add_vertex_at_c. apply bud_bind; [apply bud_add_vertex|intros [st' ni]]. bb. apply bud_free. Qed.

Lemma bud_add_nth (st : stt) vls j : bud F (add_nth_segment ieqb gv false F st vls j) (add_nth_segment_c ieqb gv false fuel st vls j).
Proof.
  unfold add_nth_segment, add_nth_segment_c. cbn zeta. do 2 (apply bud_bind; [apply bud_free|intros ?]). apply bud_bind.
  - unfold add_ends_c. destruct a as [c0 i0 q0|c0 n0], a0 as [c1 i1 q1|c1 n1]; [destruct (coords_lt c0 c1)| | |]; repeat (apply bud_bind; [apply bud_add_vertex_at|intros [[? ?] ?]]); apply bud_free.
  - intros [[[[st1 vls1] ni0] ni1] ad]. do 2 (apply bud_bind; [apply bud_free|intros ?]). apply bud_bind; [destruct (coords_lt _ _); apply bud_add_segment|intros ?]. apply bud_free.
Qed.

Lemma bud_walk (st : stt) d c0 c1 : forall k G ti, bud G (walk G st d c0 c1 ti) (walk_c k st d c0 c1 ti).
Proof.
  induction k as [|k IH]; intros G ti; [apply bud_crash|]. cbn [walk_c]. destruct G as [|G]; [apply bud_tick0|]. cbn [walk]. apply bud_tick. do 2 (apply bud_bind; [apply bud_free|intros ?]). destruct a0; [apply bud_free|]. bb. apply IH.
Qed.

Lemma bud_relocate (st : stt) : forall k G vls u vli l c, G <= F -> bud G (relocate F G st vls u vli l c) (relocate_c fuel k st vls u vli l c).
Proof.
  induction k as [|k IH]; intros G vls [|u] vli l c L; try (destruct G; apply bud_free); try (destruct G; apply bud_crash).
  cbn [relocate_c]. destruct G as [|G]; [apply bud_tick0|]. cbn [relocate]. apply bud_tick. cbn zeta. apply bud_bind; [apply bud_free|intros vl]. destruct vl as [ct ix q|cc ni].
  - apply bud_bind; [apply bud_free|intros ti0]. apply bud_bind; [apply (bud_down G F); [apply bud_walk|lia]|intros ti]. bb. apply IH. lia.
  - bb. apply IH. lia.
Qed.

Lemma bud_loop mn len order : forall i (st : stt) vls pd uc nu, bud F (polygon_loop ieqb gv false F mn len order i st vls pd uc nu) (polygon_loop_c ieqb gv false fuel mn len order i st vls pd uc nu).
Proof.
  induction order as [|x order IH]; intros i st vls pd uc nu; [apply bud_free|]. cbn [polygon_loop_c polygon_loop]. apply (bud_down F (S F)); [|lia]. apply bud_tick. apply bud_bind; [apply bud_add_nth|intros [[st1 vls1] ad]]. cbn zeta.
  destruct (Nat.eqb i nu); [|apply IH]. apply bud_bind; [apply bud_relocate; lia|intros vls2]. apply IH.
Qed.

Lemma bud_build mn shuf elems : forall k (st : stt) vl, bud F (build_loop ieqb gv false F mn shuf elems k st vl) (build_loop_c ieqb gv false fuel mn shuf elems k st vl).
Proof.
  induction elems as [|[ix|] elems IH]; intros k st vl; [apply bud_free| |]; cbn [build_loop_c build_loop]; (apply (bud_down F (S F)); [|lia]); apply bud_tick; [apply IH|]. cbn zeta.
  destruct (Nat.ltb 0 (length vl)); [|apply IH]. destruct (Nat.ltb (length vl) 3); [apply bud_free|]. apply bud_bind; [apply bud_err; apply bud_loop|intros [st' vls']]. apply IH.
Qed.
End Budget.

Theorem budget {C : Type} {OC : CoordOps C} {I : Type} (ieqb : I -> I -> bool) (gv : I -> coords C) fuel mn shuf elems st c :
  trapezoidize_c ieqb gv false fuel mn shuf elems = (Ok st, c) -> trapezoidize ieqb gv false c mn shuf elems = Ok st.
Proof. intros H. apply (bud_build ieqb gv fuel c mn shuf (elems ++ [NewPolygon]) 0 state_new []); unfold trapezoidize_c in H; rewrite H; cbn [fst snd]; auto. Qed.
