(** The two build profiles, and the subtraction in [add_polygon]: debug assertions only turn a run into a crash, and the
    counter of pending vertices never underflows. *)
From Coq Require Import List Arith Bool Lia Permutation.
From Verif Require Import Base Coord Trap Mono Tri Trace Protocol Bounds Panics PanicTri.
Import ListNotations.

(** ** Debug runs crash or are release runs *)

(** [r] is [r'] or a crash. *)
Definition dm {E A} (r r' : res E A) : Prop := (exists c, r = Crash c) \/ r = r'.

Lemma dm_refl {E A} (r : res E A) : dm r r.
Proof. now right. Qed.

Lemma dm_bind {E A B} (r r' : res E A) (f g : A -> res E B) : dm r r' -> (forall a, dm (f a) (g a)) -> dm (bind r f) (bind r' g).
Proof. intros [(c & ->)| ->] H; [left; now exists c|]. destruct r'; cbn [bind]; auto using dm_refl. Qed.

Lemma dm_map_err {E F A} (h : E -> F) (r r' : res E A) : dm r r' -> dm (map_err h r) (map_err h r').
Proof. intros [(c & ->)| ->]; [left; now exists c|now right]. Qed.

Ltac dm_step := match goal with
  | |- dm ?x ?x => apply dm_refl
  | |- dm (bind _ _) (bind _ _) => apply dm_bind; [|intros]
  | |- dm (match ?x with _ => _ end) _ => destruct x
  | |- dm (map_err _ _) _ => apply dm_map_err
  end.
Ltac dms := repeat (dm_step; try assumption).

Section Debug.
Context {C : Type} {OC : CoordOps C} {I : Type}.
Variables (ieqb : I -> I -> bool) (gv : I -> coords C) (fuel : nat) (math_n : nat -> nat -> nat) (shuf : nat -> nat -> list nat).
Notation state := (state C I).

Definition noerr {E A} (r : res E A) : Prop := forall e, r <> Err e.

Lemma noerr_bind {E A B} (r : res E A) (f : A -> res E B) : noerr r -> (forall a, noerr (f a)) -> noerr (bind r f).
Proof. intros H1 H2 e. destruct r; cbn [bind]; [apply H2| |discriminate]. intros H. exact (H1 e0 eq_refl). Qed.

Lemma noerr_rdu {E A} (l : list A) i : noerr (E := E) (rdu l i).
Proof. intros e. unfold rdu. destruct (nth_error l i); discriminate. Qed.

Lemma noerr_all {A} (l : list A) f : (forall a, noerr (f a)) -> noerr (for_all l f).
Proof. intros H. induction l as [|a l IH]; cbn [for_all]; [discriminate|]. apply noerr_bind; auto. Qed.

Lemma noerr_assert b : noerr (assert b).
Proof. destruct b; discriminate. Qed.

Lemma check_noerr dbg k (st : state) : noerr (check_consistency dbg k st).
Proof.
  unfold check_consistency. destruct dbg; [|discriminate]. apply noerr_bind; [|intros _; apply noerr_bind; [|intros _]].
  - apply noerr_all. intros ni. unfold check_nexus. apply noerr_bind; [apply noerr_rdu|]. intros n.
    apply noerr_bind; [|intros _]; apply noerr_all; intros ti; (apply noerr_bind; [apply noerr_rdu|]); intros t; apply noerr_assert.
  - apply noerr_all. intros ti. unfold check_trapezoid. apply noerr_bind; [apply noerr_rdu|]. intros t.
    apply noerr_bind; [destruct (t_d t); [apply noerr_bind; [apply noerr_rdu|]; intros; apply noerr_assert|discriminate]|]. intros _.
    apply noerr_bind; [destruct (t_u t); [apply noerr_bind; [apply noerr_rdu|]; intros; apply noerr_assert|discriminate]|]. intros _.
    apply noerr_bind; [apply noerr_rdu|]. intros [l r b|tj]; [discriminate|apply noerr_assert].
  - generalize 0 as qi. induction k as [|k IH]; intros qi; cbn [check_query]; [discriminate|].
    apply noerr_bind; [apply noerr_rdu|]. intros [l r b|tj].
    + apply noerr_bind; auto.
    + apply noerr_bind; [apply noerr_rdu|]. discriminate.
Qed.

Lemma check_dm (st : state) : dm (check_consistency true fuel st) (check_consistency false fuel st).
Proof.
  pose proof (check_noerr true fuel st) as H. destruct (check_consistency true fuel st) as [[]|e|c].
  - now right.
  - now destruct (H e).
  - left. now exists c.
Qed.

Lemma add_vertex_dm (st : state) vi qi : dm (add_vertex gv true fuel st vi qi) (add_vertex gv false fuel st vi qi).
Proof. unfold add_vertex. dms; apply check_dm. Qed.
Lemma add_segment_dm (st : state) a b ca cb : dm (add_segment ieqb true fuel st a b ca cb) (add_segment ieqb false fuel st a b ca cb).
Proof. unfold add_segment. dms; apply check_dm. Qed.
Lemma add_vertex_at_dm (st : state) vls vli i qi :
  dm (add_vertex_at gv true fuel st vls vli i qi) (add_vertex_at gv false fuel st vls vli i qi).
Proof. unfold add_vertex_at. dms. apply add_vertex_dm. Qed.
Lemma add_nth_segment_dm (st : state) vls si : dm (add_nth_segment ieqb gv true fuel st vls si) (add_nth_segment ieqb gv false fuel st vls si).
Proof. unfold add_nth_segment. dms; try apply add_vertex_at_dm; apply add_segment_dm. Qed.
Lemma polygon_loop_dm len order : forall i (st : state) vls p u n,
  dm (polygon_loop ieqb gv true fuel math_n len order i st vls p u n) (polygon_loop ieqb gv false fuel math_n len order i st vls p u n).
Proof. induction order as [|vi order IH]; intros; cbn [polygon_loop]; dms; try apply IH. apply add_nth_segment_dm. Qed.
Lemma build_loop_dm elems : forall j (st : state) vl,
  dm (build_loop ieqb gv true fuel math_n shuf elems j st vl) (build_loop ieqb gv false fuel math_n shuf elems j st vl).
Proof. induction elems as [|[i|] elems IH]; intros; cbn [build_loop]; dms; try apply IH; apply polygon_loop_dm. Qed.
Lemma trapezoidize_dm elems : dm (trapezoidize ieqb gv true fuel math_n shuf elems) (trapezoidize ieqb gv false fuel math_n shuf elems).
Proof. apply build_loop_dm. Qed.

(** ** The counter of pending vertices *)

Variable dbg : bool.

(** [polygon_loop] with the subtraction [pending_vertices -= added] (src/trapezoidation.rs 363) checked. *)
Fixpoint polygon_loop_k (len : nat) (order : list nat) (i : nat) (st : state)
  (vls : list (vloc C I)) (pending update_count next_update : nat) : res ierr (state * list (vloc C I)) :=
  match order with
  | [] => Ok (st, vls)
  | vi0 :: order =>
    bind (add_nth_segment ieqb gv dbg fuel st vls vi0) (fun '(st1, vls1, added) =>
    if Nat.ltb pending added then Crash Panic
    else
      let pending := pending - added in
      if Nat.eqb i next_update then
        bind (relocate fuel fuel st1 vls1 pending vi0 (LNexus 0) coords_zero) (fun vls2 =>
        polygon_loop_k len order (i + 1) st1 vls2 pending (update_count + 1) (math_n len (update_count + 1)))
      else
        polygon_loop_k len order (i + 1) st1 vls1 pending update_count next_update)
  end.

(** [build_loop] with it (src/trapezoidation.rs 266-284). *)
Fixpoint build_loop_k (elems : list (element I)) (k : nat) (st : state) (v_lookup : list (vloc C I)) : res trap_error state :=
  match elems with
  | [] => Ok st
  | Continue index :: elems => build_loop_k elems k st (v_lookup ++ [Pending (gv index) index 0])
  | NewPolygon :: elems =>
    let v_count := length v_lookup in
    if Nat.ltb 0 v_count then
      if Nat.ltb v_count 3 then Err (NotEnoughVertices v_count)
      else
        bind (map_err TrapInternal (polygon_loop_k v_count (shuf k v_count) 0 st v_lookup v_count 1 (math_n v_count 1)))
          (fun '(st', _) => build_loop_k elems (k + 1) st' [])
    else build_loop_k elems k st v_lookup
  end.

Definition trapezoidize_k (elems : list (element I)) : res trap_error state :=
  build_loop_k (elems ++ [NewPolygon]) 0 state_new [].

Notation okv := (fun _ : I => True).

Lemma bind_ext {E A B} (r : res E A) (f g : A -> res E B) : (forall a, r = Ok a -> f a = g a) -> bind r f = bind r g.
Proof. intros H. destruct r; cbn [bind]; auto. Qed.

Lemma polygon_loop_same len : forall order i (st : state) vls pending uc nu,
  wf okv st -> Forall (vl_wf okv (sz st)) vls -> 1 < length vls -> pending = npend vls ->
  polygon_loop_k len order i st vls pending uc nu = polygon_loop ieqb gv dbg fuel math_n len order i st vls pending uc nu.
Proof.
  induction order as [|vi order IH]; intros i st vls pending uc nu Hw Hv Hl Hp; cbn [polygon_loop_k polygon_loop]; auto.
  apply bind_ext. intros [[st1 vls1] added] E1.
  pose proof (add_nth_safe okv ieqb gv dbg fuel st vls vi Hw Hv Hl) as G. rewrite E1 in G.
  destruct G as (G1 & G2 & G3 & G4 & G5 & G6).
  destruct (Nat.ltb_spec pending added); [lia|]. cbv zeta.
  assert (Hw1 : wf okv st1) by apply G1.
  destruct (i =? nu).
  - apply bind_ext. intros vls2 E2.
    assert (HL : loc_wf (sz st1) (LNexus 0)).
    { destruct G6 as (v & Hv' & Hpv). cbn [loc_wf].
      assert (Hvv : vl_wf okv (sz st1) v) by (rewrite Forall_forall in G2; apply G2; now apply nth_error_In in Hv').
      destruct v as [c' i' q'|c' n']; cbn [vl_wf is_pending] in *; [discriminate|]. lia. }
    pose proof (relocate_safe okv fuel st1 fuel Hw1 vls1 (pending - added) vi (LNexus 0) coords_zero G2 HL) as G.
    rewrite E2 in G. destruct G as (A1 & A2 & A3 & _). apply IH; auto; lia.
  - apply IH; auto; lia.
Qed.

Lemma build_loop_same : forall elems k (st : state) vl, wf okv st -> fresh okv gv vl ->
  build_loop_k elems k st vl = build_loop ieqb gv dbg fuel math_n shuf elems k st vl.
Proof.
  induction elems as [|[i|] elems IH]; intros k st vl Hw Hf; cbn [build_loop_k build_loop]; auto.
  - apply IH; auto. apply Forall_app. split; auto. constructor; auto. exists i. auto.
  - cbv zeta. destruct (0 <? length vl); [|apply IH; auto].
    destruct (Nat.ltb_spec (length vl) 3); auto.
    unfold add_polygon. rewrite polygon_loop_same; auto; [|eapply fresh_wf; eauto|lia|symmetry; eapply fresh_npend; eauto].
    apply bind_ext. intros [st' vls'] E1. apply IH; [|constructor].
    pose proof (add_polygon_safe' okv ieqb gv dbg fuel math_n (shuf k (length vl)) st vl Hw (fresh_wf _ _ _ _ Hw Hf)) as G.
    unfold add_polygon in G. destruct (polygon_loop _ _ _ _ _ _ _ _ _ _ _ _) as [[st1 vls1]|e|c]; cbn [map_err] in E1; try discriminate.
    injection E1 as <- <-. apply G; [lia|eapply fresh_npend; eauto].
Qed.

Lemma trapezoidize_same elems : trapezoidize_k elems = trapezoidize ieqb gv dbg fuel math_n shuf elems.
Proof. apply build_loop_same; [apply wf_new|constructor]. Qed.
End Debug.
