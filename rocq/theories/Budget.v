(** The step budget of the model: a run that ends is not changed by a larger budget. *)
From Coq Require Import List Arith Lia Bool.
From Verif Require Import Base Coord Trap Mono Tri.
Import ListNotations.
Local Open Scope nat_scope.

(** Out of budget, or the same. *)
Definition lr {E A} (r r' : res E A) : Prop := r = Crash Fuel \/ r = r'.
Definition ls {S E A} (x y : sres S E A) : Prop := snd x = Crash Fuel \/ x = y.

Lemma lr_refl {E A} (r : res E A) : lr r r.
Proof. now right. Qed.
Lemma ls_refl {S E A} (r : sres S E A) : ls r r.
Proof. now right. Qed.

Lemma lr_bind {E A B} (r r' : res E A) (f g : A -> res E B) : lr r r' -> (forall a, lr (f a) (g a)) -> lr (bind r f) (bind r' g).
Proof. intros [->| ->] H; [now left|]. destruct r'; cbn; auto using lr_refl. Qed.

Lemma lr_map_err {E F A} (h : E -> F) (r r' : res E A) : lr r r' -> lr (map_err h r) (map_err h r').
Proof. intros [->| ->]; [now left|now right]. Qed.

Ltac mono_step := match goal with
  | |- lr ?x ?x => apply lr_refl
  | |- ls ?x ?x => apply ls_refl
  | |- lr (bind _ _) (bind _ _) => apply lr_bind; [|intros]
  | |- lr (match ?x with _ => _ end) _ => destruct x
  | |- lr (map_err _ _) _ => apply lr_map_err
  end.
Ltac mono := repeat (mono_step; try assumption).

Section Trap.
Context {C : Type} {OC : CoordOps C} {I : Type}.
Notation state := (state C I).

Lemma find_mono qs c : forall k k' qi, k <= k' -> lr (find (C := C) k qs c qi) (find k' qs c qi).
Proof. induction k as [|k IH]; intros k' qi Hk; [now left|]. destruct k' as [|k']; [lia|]. cbn [find]. mono; try (apply IH; lia). Qed.

Lemma check_query_mono (st : state) : forall k k' qi, k <= k' -> lr (check_query k st qi) (check_query k' st qi).
Proof. induction k as [|k IH]; intros k' qi Hk; [now left|]. destruct k' as [|k']; [lia|]. cbn [check_query]. mono; try (apply IH; lia). Qed.

Lemma check_consistency_mono dbg k k' (st : state) : k <= k' -> lr (check_consistency dbg k st) (check_consistency dbg k' st).
Proof. intros. unfold check_consistency. mono; try now apply check_query_mono. Qed.

Variables (ieqb : I -> I -> bool) (gv : I -> coords C) (dbg : bool).
Variables k k' : nat.
Hypothesis Hk : k <= k'.

Lemma add_vertex_mono (st : state) vi qi : lr (add_vertex gv dbg k st vi qi) (add_vertex gv dbg k' st vi qi).
Proof. unfold add_vertex. mono; try now apply find_mono. all: try (now apply check_consistency_mono). Qed.

Lemma seg_loop_mono si a cmin cmax : forall j j' (st : state) ni l r, j <= j' -> lr (seg_loop ieqb j st si a cmin cmax ni l r) (seg_loop ieqb j' st si a cmin cmax ni l r).
Proof. induction j as [|j IH]; intros j' st ni l r Hj; [now left|]. destruct j' as [|j']; [lia|]. cbn [seg_loop]. mono; try (apply IH; lia). Qed.

Lemma add_segment_mono (st : state) a b ca cb : lr (add_segment ieqb dbg k st a b ca cb) (add_segment ieqb dbg k' st a b ca cb).
Proof. unfold add_segment. mono; try now apply seg_loop_mono. all: try (now apply check_consistency_mono). Qed.

Lemma add_vertex_at_mono (st : state) vls vli i qi : lr (add_vertex_at gv dbg k st vls vli i qi) (add_vertex_at gv dbg k' st vls vli i qi).
Proof. unfold add_vertex_at. mono; try apply add_vertex_mono. Qed.

Lemma add_nth_segment_mono (st : state) vls si : lr (add_nth_segment ieqb gv dbg k st vls si) (add_nth_segment ieqb gv dbg k' st vls si).
Proof. unfold add_nth_segment. mono; try apply add_vertex_at_mono; try apply add_segment_mono. Qed.

Lemma walk_mono (st : state) d c0 c1 : forall j j' ti, j <= j' -> lr (walk j st d c0 c1 ti) (walk j' st d c0 c1 ti).
Proof. induction j as [|j IH]; intros j' ti Hj; [now left|]. destruct j' as [|j']; [lia|]. cbn [walk]. mono; try (apply IH; lia). Qed.

Lemma relocate_mono (st : state) : forall j j' vls u vli loc c0, j <= j' -> lr (relocate k j st vls u vli loc c0) (relocate k' j' st vls u vli loc c0).
Proof. induction j as [|j IH]; intros j' vls u vli loc c0 Hj; [destruct u; [destruct j'; apply lr_refl|now left]|]. destruct j' as [|j']; [lia|]. cbn [relocate]. mono; try (apply IH; lia); try now apply walk_mono. Qed.

Lemma polygon_loop_mono math_n len order : forall i (st : state) vls p u n, lr (polygon_loop ieqb gv dbg k math_n len order i st vls p u n) (polygon_loop ieqb gv dbg k' math_n len order i st vls p u n).
Proof. induction order as [|o order IH]; intros; cbn [polygon_loop]; mono; try apply add_nth_segment_mono; try apply IH; try now apply relocate_mono. Qed.

Lemma build_loop_mono math_n shuf elems : forall j (st : state) vl, lr (build_loop ieqb gv dbg k math_n shuf elems j st vl) (build_loop ieqb gv dbg k' math_n shuf elems j st vl).
Proof. induction elems as [|[i|] elems IH]; intros; cbn [build_loop]; mono; try apply IH; try apply polygon_loop_mono. Qed.

Lemma trapezoidize_mono math_n shuf elems : lr (trapezoidize ieqb gv dbg k math_n shuf elems) (trapezoidize ieqb gv dbg k' math_n shuf elems).
Proof. unfold trapezoidize. mono. apply build_loop_mono. Qed.
End Trap.

Lemma ls_sbind {S E A B} (r r' : sres S E A) (f g : S -> A -> sres S E B) : ls r r' -> (forall s a, ls (f s a) (g s a)) -> ls (sbind r f) (sbind r' g).
Proof.
  intros [H|H] HF.
  - destruct r as [s [a|e|c]]; cbn in H; try discriminate. left. cbn. congruence.
  - subst r'. destruct r as [s [a|e|c]]; cbn; auto using ls_refl.
Qed.

Ltac smono_step := match goal with
  | |- ls ?x ?x => apply ls_refl
  | |- ls (sbind _ _) (sbind _ _) => apply ls_sbind; [|intros]
  | |- ls (match ?x with _ => _ end) _ => destruct x
  | |- ls (let (_, _) := ?x in _) _ => destruct x
  end.
Ltac smono := repeat (smono_step; try assumption).

Section Tri.
Context {C : Type} {OC : CoordOps C} {I : Type} {St E : Type}.
Variable gv : I -> coords C.
Variable newf : St -> I -> I -> I -> sres St (tri_error E) unit.
Variable ext : St -> I -> sres St (tri_error E) unit.
Variable cw : bool.
Variable st : state C I.
Variables k k' : nat.
Hypothesis Hk : k <= k'.

Lemma back_loop_mono d : forall j j' (m : mono C I) dt s, j <= j' -> ls (back_loop ext j m d dt s) (back_loop ext j' m d dt s).
Proof. induction j as [|j IH]; intros j' m dt s Hj; [now left|]. destruct j' as [|j']; [lia|]. cbn [back_loop]. smono; try (apply IH; lia). Qed.

Lemma advance_loop_mono d : forall j j' (m : mono C I) dt s, j <= j' -> ls (advance_loop ext j m d dt s) (advance_loop ext j' m d dt s).
Proof. induction j as [|j IH]; intros j' m dt s Hj; [now left|]. destruct j' as [|j']; [lia|]. cbn [advance_loop]. smono; try (apply IH; lia). Qed.

Lemma one_fan_mono (m : mono C I) s : ls (one_fan newf ext cw k m s) (one_fan newf ext cw k' m s).
Proof. unfold one_fan. smono; try now apply back_loop_mono. all: now apply advance_loop_mono. Qed.

Lemma build_fans_mono : forall j j' (m : mono C I) s, j <= j' -> ls (build_fans newf ext cw k j m s) (build_fans newf ext cw k' j' m s).
Proof. induction j as [|j IH]; intros j' m s Hj; [now left|]. destruct j' as [|j']; [lia|]. cbn [build_fans]. smono; try (apply IH; lia); apply one_fan_mono. Qed.

Lemma finish_mono (b : mbuilder C I) s : ls (finish newf ext cw k b s) (finish newf ext cw k' b s).
Proof. unfold finish. smono. now apply build_fans_mono. Qed.

Lemma extend_mono t ni n ms s : ls (extend_monotones gv newf ext cw k st t ni n ms s) (extend_monotones gv newf ext cw k' st t ni n ms s).
Proof. unfold extend_monotones. smono; try apply finish_mono. Qed.

Lemma finish_all_mono (ms : ot (mbuilder C I)) s : ls (finish_all newf ext cw k ms s) (finish_all newf ext cw k' ms s).
Proof. unfold finish_all. smono; try apply finish_mono. Qed.

Lemma step_v_mono x ms ul uc ur dn s : ls (step_v (C := C) newf ext cw k x ms ul uc ur dn s) (step_v newf ext cw k' x ms ul uc ur dn s).
Proof. unfold step_v. smono; try apply finish_all_mono. Qed.

Lemma tri_step_mono x t ni s : ls (tri_step gv newf ext cw k st x t ni s) (tri_step gv newf ext cw k' st x t ni s).
Proof. unfold tri_step. smono; try apply extend_mono; try apply step_v_mono. Qed.

Lemma tri_loop_mono : forall j j' x s, j <= j' -> ls (tri_loop gv newf ext cw k st j x s) (tri_loop gv newf ext cw k' st j' x s).
Proof. induction j as [|j IH]; intros j' x s Hj; [now left|]. destruct j' as [|j']; [lia|]. cbn [tri_loop]. smono; try (apply IH; lia); apply tri_step_mono. Qed.

Lemma top_mono : forall j j' qi, j <= j' -> lr (top_trapezoid (C := C) j (st_qs st) qi) (top_trapezoid j' (st_qs st) qi).
Proof. induction j as [|j IH]; intros j' qi Hj; [now left|]. destruct j' as [|j']; [lia|]. cbn [top_trapezoid]. mono; try (apply IH; lia). Qed.

Lemma inner_mono s : ls (triangulate_inner gv newf ext cw k st s) (triangulate_inner gv newf ext cw k' st s).
Proof.
  unfold triangulate_inner. apply ls_sbind; [|intros; now apply tri_loop_mono].
  destruct (top_mono k k' 0 Hk) as [H|H]; unfold lift; rewrite H; [now left|now right].
Qed.
End Tri.

(** The whole run. *)
Theorem triangulate_mono {C} {OC : CoordOps C} {I E Out M} (F : fan_format I E Out M) ieqb gv dbg k k' math_n shuf elems : k <= k' ->
  triangulate F ieqb gv dbg k math_n shuf elems = Crashed Fuel \/ triangulate F ieqb gv dbg k math_n shuf elems = triangulate F ieqb gv dbg k' math_n shuf elems.
Proof.
  intros Hk. unfold triangulate. destruct (trapezoidize_mono ieqb gv dbg k k' Hk math_n shuf elems) as [->| ->]; [now left|].
  destruct (trapezoidize ieqb gv dbg k' math_n shuf elems) as [st|e|c]; [|now right|now right]. unfold trap_triangulate.
  destruct (inner_mono gv (fbs_new F) (fbs_ext F) (ff_cw F) st k k' Hk FUninit) as [H|H].
  - destruct (triangulate_inner gv (fbs_new F) (fbs_ext F) (ff_cw F) k st FUninit) as [s r]. cbn in H. subst r. left. now destruct s.
  - rewrite H. now right.
Qed.

(** A run that ends gives what every large budget gives. *)
Lemma ends_same {C} {OC : CoordOps C} {I E Out M} (F : fan_format I E Out M) ieqb gv dbg math_n shuf elems N r :
  (forall fuel, N <= fuel -> triangulate F ieqb gv dbg fuel math_n shuf elems = r) ->
  forall fuel, triangulate F ieqb gv dbg fuel math_n shuf elems = Crashed Fuel \/ triangulate F ieqb gv dbg fuel math_n shuf elems = r.
Proof.
  intros H fuel. destruct (triangulate_mono F ieqb gv dbg fuel (Nat.max N fuel) math_n shuf elems) as [K|K]; [lia|now left|]. right. rewrite K. apply H. lia.
Qed.

Lemma ends_unique {C} {OC : CoordOps C} {I E Out M} (F : fan_format I E Out M) ieqb gv dbg math_n shuf elems k k' r m r' m' :
  triangulate F ieqb gv dbg k math_n shuf elems = Returned r m -> triangulate F ieqb gv dbg k' math_n shuf elems = Returned r' m' -> r = r' /\ m = m'.
Proof.
  intros H H'. destruct (Nat.le_ge_cases k k') as [K|K]; [destruct (triangulate_mono F ieqb gv dbg k k' math_n shuf elems K)|destruct (triangulate_mono F ieqb gv dbg k' k math_n shuf elems K)]; split; congruence.
Qed.
