(** Proofs about input enumeration, markers, sizes and reuse. *)
From Coq Require Import List Arith Bool Lia Permutation.
From Verif Require Import Base Coord Trap Mono Tri Input Trace Protocol Bounds Indices Builders FormatRuns.
Import ListNotations.

Section Markers.
Context {C : Type} {OC : CoordOps C} {I : Type}.
Variables (ieqb : I -> I -> bool) (gv : I -> coords C) (dbg : bool) (fuel : nat) (math_n : nat -> nat -> nat)
  (shuf : nat -> nat -> list nat).
Notation bl := (build_loop ieqb gv dbg fuel math_n shuf).
Notation trap elems := (trapezoidize ieqb gv dbg fuel math_n shuf elems).
Notation pend g := (map (fun i => Pending (gv i) i 0) g).

Lemma bl_new_nil l k st : bl (NewPolygon :: l) k st [] = bl l k st [].
Proof. reflexivity. Qed.

Lemma bl_continues g : forall l k st v, bl (map (@Continue I) g ++ l) k st v = bl l k st (v ++ pend g).
Proof.
  induction g as [|i g IH]; intros l k st v; cbn [map app build_loop].
  - now rewrite app_nil_r.
  - rewrite IH, <- app_assoc. reflexivity.
Qed.

(** Reading [a], then a marker, then the rest. *)
Lemma bl_split a : forall b k st v,
  bl (a ++ NewPolygon :: b) k st v =
  match bl (a ++ [NewPolygon]) k st v with
  | Ok st' => bl b (k + length (filter (fun n => 0 <? n)
                (fst (fold_left (fun '(gs, n) e => match e with Continue _ => (gs, S n) | NewPolygon => (gs ++ [n], 0) end)
                       (a ++ [NewPolygon]) ([], length v))))) st' []
  | Err e => Err e
  | Crash c => Crash c
  end.
Proof.
  assert (HF : forall l gs n, fst (fold_left (fun '(gs, n) (e : element I) => match e with Continue _ => (gs, S n) | NewPolygon => (gs ++ [n], 0) end) l (gs, n))
     = gs ++ fst (fold_left (fun '(gs, n) (e : element I) => match e with Continue _ => (gs, S n) | NewPolygon => (gs ++ [n], 0) end) l ([], n))).
  { induction l as [|[i|] l IH]; intros gs n; cbn [fold_left].
    - cbn. now rewrite app_nil_r.
    - apply IH.
    - cbn [app]. rewrite IH, (IH [n]). now rewrite <- app_assoc. }
  induction a as [|[i|] a IH]; intros b k st v.
  - cbn [app]. cbn [build_loop fold_left fst app filter].
    destruct (0 <? length v) eqn:E0.
    + destruct (length v <? 3); auto. cbn [filter length]. destruct (add_polygon _ _ _ _ _ _ _ _) as [[st' ?]|e|c]; cbn [map_err bind]; auto.
    + assert (v = []) as -> by (apply length_zero_iff_nil; apply Nat.ltb_ge in E0; lia).
      cbn [filter length]. now rewrite Nat.add_0_r.
  - cbn [app build_loop fold_left]. rewrite IH. rewrite app_length. cbn [length].
    replace (length v + 1) with (S (length v)) by lia. reflexivity.
  - cbn [app build_loop fold_left].
    destruct (0 <? length v) eqn:E0.
    + destruct (length v <? 3); auto. destruct (add_polygon _ _ _ _ _ _ _ _) as [[st' ?]|e|c]; cbn [map_err bind]; auto.
      rewrite IH. rewrite (HF _ [length v] 0). cbn [app filter]. rewrite E0. cbn [length]. rewrite <- Nat.add_assoc. reflexivity.
    + assert (v = []) as -> by (apply length_zero_iff_nil; apply Nat.ltb_ge in E0; lia).
      rewrite IH. rewrite (HF _ [length (@nil (vloc C I))] 0). cbn [app filter length]. reflexivity.
Qed.

Lemma trap_markers n : trap (repeat NewPolygon n) = Ok state_new.
Proof.
  unfold trapezoidize. induction n as [|n IH]; [reflexivity|]. cbn [repeat app]. now rewrite bl_new_nil.
Qed.

Lemma trap_front l : trap (NewPolygon :: l) = trap l.
Proof. reflexivity. Qed.

Lemma bl_double a : forall b k st v, bl (a ++ NewPolygon :: NewPolygon :: b) k st v = bl (a ++ NewPolygon :: b) k st v.
Proof.
  induction a as [|[i|] a IH]; intros b k st v; cbn [app build_loop].
  - destruct (0 <? length v) eqn:E0.
    + destruct (length v <? 3); auto.
    + assert (v = []) as -> by (apply length_zero_iff_nil; apply Nat.ltb_ge in E0; lia). reflexivity.
  - apply IH.
  - destruct (0 <? length v).
    + destruct (length v <? 3); auto. destruct (add_polygon _ _ _ _ _ _ _ _) as [[st' ?]|e|c]; cbn [map_err bind]; auto.
    + apply IH.
Qed.

Lemma trap_double a b : trap (a ++ NewPolygon :: NewPolygon :: b) = trap (a ++ NewPolygon :: b).
Proof. unfold trapezoidize. rewrite <- !app_assoc. apply bl_double. Qed.

Lemma trap_end a : trap (a ++ [NewPolygon]) = trap a.
Proof. unfold trapezoidize. rewrite <- app_assoc. apply bl_double. Qed.

(** ** NotEnoughVertices *)

(** [g] is a maximal group of consecutive indices of [a ++ g ++ b]. *)
Definition opens (a : list (element I)) : Prop := a = [] \/ exists a', a = a' ++ [NewPolygon].
Definition closes (b : list (element I)) : Prop := b = [] \/ exists b', b = NewPolygon :: b'.

Lemma bl_small l : forall k st g0 n,
  bl (l ++ [NewPolygon]) k st (pend g0) = Err (NotEnoughVertices n) ->
  exists a g b, map (@Continue I) g0 ++ l = a ++ map (@Continue I) g ++ b /\ opens a /\ closes b /\ length g = n /\ (n = 1 \/ n = 2) /\
    ((a = [] /\ exists x, g = g0 ++ x) \/
     (exists a' st', a = map (@Continue I) g0 ++ a' ++ [NewPolygon] /\ bl (a' ++ [NewPolygon]) k st (pend g0) = Ok st')).
Proof.
  induction l as [|[i|] l IH]; intros k st g0 n H; cbn [app build_loop] in H.
  - rewrite map_length in H. destruct (0 <? length g0) eqn:E0; [|discriminate].
    destruct (length g0 <? 3) eqn:E3.
    + injection H as <-. apply Nat.ltb_lt in E0, E3.
      exists [], g0, []. rewrite !app_nil_r. repeat split; try lia; try (now left).
      left. split; auto. exists []. now rewrite app_nil_r.
    + destruct (add_polygon _ _ _ _ _ _ _ _) as [[st' ?]|e|c]; cbn in H; discriminate.
  - specialize (IH k st (g0 ++ [i]) n). rewrite map_app in IH. cbn [map] in IH. destruct (IH H) as (a & g & b & Hl & Ha & Hb & Hg & Hn & Hc).
    exists a, g, b. split. { rewrite <- Hl, map_app, <- app_assoc. reflexivity. }
    repeat split; auto. destruct Hc as [(-> & x & ->)|(a' & st' & -> & Hc)].
    + left. split; auto. exists ([i] ++ x). now rewrite app_assoc.
    + right. exists (Continue i :: a'), st'. split. { rewrite map_app, <- !app_assoc. reflexivity. }
      cbn [app build_loop]. exact Hc.
  - rewrite map_length in H. destruct (0 <? length g0) eqn:E0.
    + destruct (length g0 <? 3) eqn:E3.
      * injection H as <-. apply Nat.ltb_lt in E0, E3.
        exists [], g0, (NewPolygon :: l). repeat split; try lia; try (now left).
        { right. eauto. }
        left. split; auto. exists []. now rewrite app_nil_r.
      * destruct (add_polygon _ _ _ _ _ _ _ _) as [[st' v']|e|c] eqn:EA; cbn [map_err bind] in H; try discriminate.
        destruct (IH (k + 1) st' [] n H) as (a & g & b & Hl & Ha & Hb & Hg & Hn & Hc). cbn [map app] in Hl.
        exists (map (@Continue I) g0 ++ NewPolygon :: a), g, b. split. { rewrite Hl, <- !app_assoc. reflexivity. }
        split.
        { right. destruct Ha as [->|(a' & ->)]; [now exists (map (@Continue I) g0)|].
          exists (map (@Continue I) g0 ++ NewPolygon :: a'). now rewrite <- app_assoc. }
        repeat split; auto. right.
        destruct Hc as [(-> & x & ->)|(a' & st'' & -> & Hc)].
        -- exists [], st'. split; auto. cbn [app build_loop]. rewrite map_length, E0, E3, EA. reflexivity.
        -- exists (NewPolygon :: a'), st''. split; auto. cbn [app build_loop map] in *. rewrite map_length, E0, E3, EA. exact Hc.
    + assert (g0 = []) as -> by (apply length_zero_iff_nil; apply Nat.ltb_ge in E0; lia).
      destruct (IH k st [] n H) as (a & g & b & Hl & Ha & Hb & Hg & Hn & Hc). cbn [map app] in *.
      exists (NewPolygon :: a), g, b. split. { rewrite Hl. reflexivity. } split.
      { right. destruct Ha as [->|(a' & ->)]; [now exists []|]. now exists (NewPolygon :: a'). }
      repeat split; auto. right. destruct Hc as [(-> & x & ->)|(a' & st'' & -> & Hc)].
      * exists [], st. split; auto.
      * exists (NewPolygon :: a'), st''. split; auto.
Qed.

Lemma trap_not_enough elems n :
  trap elems = Err (NotEnoughVertices n) <->
  exists a g b st, elems = a ++ map (@Continue I) g ++ b /\ opens a /\ closes b /\ length g = n /\ (n = 1 \/ n = 2) /\
    trap a = Ok st.
Proof.
  split.
  - intros H. unfold trapezoidize in H. destruct (bl_small elems 0 state_new [] n H) as (a & g & b & Hl & Ha & Hb & Hg & Hn & Hc).
    cbn [map app] in *.
    destruct Hc as [(-> & x & ->)|(a' & st' & -> & Hc)].
    + exists [], ([] ++ x), b, state_new. repeat split; auto.
    + exists (a' ++ [NewPolygon]), g, b, st'. repeat split; auto. now rewrite trap_end.
  - intros (a & g & b & st & -> & Ha & Hb & Hg & Hn & Ht).
    assert (HG : forall k st, bl (map (@Continue I) g ++ b ++ [NewPolygon]) k st [] = Err (NotEnoughVertices n)).
    { intros k s. rewrite bl_continues. cbn [app].
      assert (exists b', b ++ [NewPolygon] = NewPolygon :: b') as (b' & ->).
      { destruct Hb as [->|(b' & ->)]; [now exists []|]. now exists (b' ++ [NewPolygon]). }
      cbn [build_loop]. rewrite map_length, Hg.
      destruct Hn as [-> | ->]; reflexivity. }
    destruct Ha as [->|(a' & ->)].
    + unfold trapezoidize. rewrite <- !app_assoc. apply HG.
    + rewrite trap_end in Ht. unfold trapezoidize in *. rewrite <- !app_assoc. cbn [app]. rewrite bl_split, Ht. apply HG.
Qed.

(** ** Empty input *)

Lemma no_vertices {E Out M} (F : fan_format I E Out M) n : 0 < fuel ->
  triangulate F ieqb gv dbg fuel math_n shuf (repeat NewPolygon n) = Returned (inr TENoVertices) (ff_dropped F).
Proof.
  intros Hf. unfold triangulate. rewrite trap_markers. unfold trap_triangulate, triangulate_inner.
  destruct fuel as [|f]; [lia|]. reflexivity.
Qed.

Lemma tri_front {E Out M} (F : fan_format I E Out M) l :
  triangulate F ieqb gv dbg fuel math_n shuf (NewPolygon :: l) = triangulate F ieqb gv dbg fuel math_n shuf l.
Proof. reflexivity. Qed.
Lemma tri_double {E Out M} (F : fan_format I E Out M) a b :
  triangulate F ieqb gv dbg fuel math_n shuf (a ++ NewPolygon :: NewPolygon :: b) =
  triangulate F ieqb gv dbg fuel math_n shuf (a ++ NewPolygon :: b).
Proof. unfold triangulate. now rewrite trap_double. Qed.
Lemma tri_end_marker {E Out M} (F : fan_format I E Out M) a :
  triangulate F ieqb gv dbg fuel math_n shuf (a ++ [NewPolygon]) = triangulate F ieqb gv dbg fuel math_n shuf a.
Proof. unfold triangulate. now rewrite trap_end. Qed.

(** ** Indices and safety *)

Lemma run_indices {E Out M} (F : fan_format I E Out M) elems r m evs :
  triangulate (logged F) ieqb gv dbg fuel math_n shuf elems = Returned r (m, evs) ->
  forall cl, In cl (calls_in evs) -> forall i, In i (match cl with CNew a b c => [a; b; c] | CExt v => [v] end) ->
  In (Continue i) elems.
Proof.
  rewrite triangulate_obeys. cbn [ff_cw logged]. intros H cl Hcl i Hi.
  pose proof (api_calls_starts (E := E) ieqb gv (ff_cw F) dbg fuel math_n shuf elems) as Hs.
  pose proof (nf_api (E := E) ieqb gv (ff_cw F) dbg fuel math_n shuf elems) as Hn.
  pose proof (api_ok (E := E) (fun i => In (Continue i) elems) ieqb gv (ff_cw F) dbg fuel math_n shuf elems (fun i H => H)) as Ho.
  destruct (api_calls E _ _ _ _ _ _ _ _) as [l rr]. destruct Ho as (Ho & _).
  apply logged_obey in H; auto. destruct H as (_ & (rest & ->) & _).
  rewrite Forall_forall in Ho. specialize (Ho cl (in_or_app _ _ _ (or_introl Hcl))).
  destruct cl as [a b c|v]; simpl in *.
  - destruct Ho as (Ha & Hb & Hc). destruct Hi as [<-|[<-|[<-|[]]]]; auto.
  - destruct Hi as [<-|[]]; auto.
Qed.

Lemma drive_no_ub {E Out M} (F : fan_format I E Out M) l : forall b (r : res (tri_error E) unit),
  safe (fun _ => True) r -> drive F b l r <> Crashed Ub.
Proof.
  induction l as [|[i j k|v] l IH]; intros b r Hr; cbn [drive].
  - destruct r as [[]|e|[]]; try discriminate; [|contradiction]. destruct (ff_build F b) as [[o|e] m]; discriminate.
  - destruct (ff_new F b i j k) as [b' [e|]]; [discriminate|auto].
  - destruct (ff_ext F b v) as [b' [e|]]; [discriminate|auto].
Qed.

Lemma run_no_ub {E Out M} (F : fan_format I E Out M) elems :
  triangulate F ieqb gv dbg fuel math_n shuf elems <> Crashed Ub.
Proof.
  rewrite triangulate_obeys.
  pose proof (api_ok (E := E) (fun i => True) ieqb gv (ff_cw F) dbg fuel math_n shuf elems (fun i H => Logic.I)) as Ho.
  destruct (api_calls E _ _ _ _ _ _ _ _) as [l rr]. destruct Ho as (_ & Ho).
  unfold obey. cbn [fst snd]. destruct l as [|[i j k|v] l]; try (destruct rr as [[]|e|[]]; try discriminate; contradiction).
  destruct (ff_init F i j k) as [b|[e m]]; [|discriminate]. now apply drive_no_ub.
Qed.

Lemma trap_no_ub elems : trap elems <> Crash Ub.
Proof.
  pose proof (trapezoidize_safe (fun _ => True) ieqb gv dbg fuel math_n shuf elems (fun _ _ => Logic.I)) as H.
  intros E. now rewrite E in H.
Qed.

(** Number of indices yielded by an iteration. *)
Definition index_count (elems : list (element I)) : nat :=
  length (flat_map (fun e => match e with Continue i => [i] | NewPolygon => [] end) elems).

Lemma continues_count elems : continues elems = index_count elems.
Proof. unfold index_count. induction elems as [|[i|] l IH]; simpl; auto. Qed.

Lemma trap_sizes elems st : (forall k n, Permutation (shuf k n) (seq 0 n)) -> trap elems = Ok st ->
  length (st_ns st) = index_count elems /\ length (st_ss st) = index_count elems /\
  length (st_ts st) = 2 * index_count elems + 1.
Proof.
  intros Hs H. rewrite <- continues_count. eapply (trapezoidize_sizes (fun _ => True)); eauto.
Qed.
End Markers.

(** ** Nested vectors *)

Section Nested.

(** Specification: all indices of one polygon, then a marker; polygon after polygon. *)
Fixpoint enumerate (o : nat) (counts : list nat) : list (element (nat * nat)) :=
  match counts with
  | [] => []
  | n :: counts => map (fun i => Continue (o, i)) (seq 0 n) ++ NewPolygon :: enumerate (S o) counts
  end.

Lemma vv_collect_spec counts : forall pre fuel i, list_sum counts + length counts < fuel + i ->
  (match counts with n :: _ => i <= n | [] => i = 0 end) ->
  vv_collect fuel (pre ++ counts) (length pre, i) =
  Ok (match counts with
      | [] => []
      | n :: rest => map (fun j => Continue (length pre, j)) (seq i (n - i)) ++ NewPolygon :: enumerate (S (length pre)) rest
      end).
Proof.
  induction counts as [|n counts IH]; intros pre fuel i Hf Hi.
  - destruct fuel as [|fuel]; [simpl in Hf; lia|]. cbn [vv_collect]. unfold vv_next.
    rewrite app_nil_r, (proj2 (nth_error_None pre (length pre))) by lia. reflexivity.
  - simpl list_sum in Hf. cbn [length] in Hf. remember (n - i) as d eqn:Ed. revert i fuel Hf Hi Ed. induction d as [|d IHd]; intros i fuel Hf Hi Ed.
    + destruct fuel as [|fuel]; [lia|]. cbn [vv_collect]. unfold vv_next.
      rewrite nth_error_app2, Nat.sub_diag by lia. cbn [nth_error].
      destruct (i <? n) eqn:E; [apply Nat.ltb_lt in E; lia|].
      replace (length pre + 1) with (length (pre ++ [n])) by (rewrite app_length; reflexivity).
      replace (pre ++ n :: counts) with ((pre ++ [n]) ++ counts) by (now rewrite <- app_assoc).
      rewrite IH; [|lia|destruct counts; lia].
      cbn [bind seq map app]. rewrite app_length. cbn [length]. rewrite Nat.add_1_r. f_equal. f_equal.
      destruct counts; reflexivity || (now rewrite Nat.sub_0_r).
    + destruct fuel as [|fuel]; [lia|]. cbn [vv_collect]. unfold vv_next.
      rewrite nth_error_app2, Nat.sub_diag by lia. cbn [nth_error].
      destruct (i <? n) eqn:E; [|apply Nat.ltb_ge in E; lia]. apply Nat.ltb_lt in E.
      rewrite (IHd (i + 1)) by lia. cbn [bind seq map app]. rewrite Nat.add_1_r. reflexivity.
Qed.

Lemma vv_elems_spec {V} (p : list (list V)) fuel : list_sum (map (@length V) p) + length p < fuel ->
  vv_elems fuel p = Ok (enumerate 0 (map (@length V) p)).
Proof.
  intros Hf. unfold vv_elems. pose proof (vv_collect_spec (map (@length V) p) [] fuel 0) as H. cbn [app length] in H.
  rewrite H; [|rewrite map_length; lia|destruct p; simpl; lia].
  destruct p; cbn [map]; auto. cbn [enumerate]. now rewrite Nat.sub_0_r.
Qed.

Lemma enumerate_count counts : forall o, index_count (enumerate o counts) = list_sum counts.
Proof.
  unfold index_count. induction counts as [|n counts IH]; intros o; auto. cbn [enumerate].
  rewrite flat_map_app, app_length. cbn [flat_map app]. rewrite IH. simpl list_sum. f_equal.
  generalize 0. clear IH. induction n as [|n IHn]; intros s; auto. cbn [seq map flat_map app length]. now rewrite IHn.
Qed.

Lemma enumerate_in counts : forall o i j, In (Continue (i, j)) (enumerate o counts) <->
  o <= i /\ exists n, nth_error counts (i - o) = Some n /\ j < n.
Proof.
  induction counts as [|n counts IH]; intros o i j; cbn [enumerate].
  - split; [intros []|]. intros (_ & n & H & _). now destruct (i - o).
  - rewrite in_app_iff, in_map_iff. split.
    + intros [(x & H & Hx)|[H|H]]; [|discriminate|].
      * injection H as <- <-. apply in_seq in Hx. rewrite Nat.sub_diag. split; auto. exists n. split; auto. lia.
      * apply IH in H. destruct H as (Hi & m & Hm & Hj). split; [lia|]. exists m. replace (i - o) with (S (i - S o)) by lia. auto.
    + intros (Hi & m & Hm & Hj). destruct (Nat.eq_dec i o) as [->|Hne].
      * left. rewrite Nat.sub_diag in Hm. injection Hm as ->. exists j. split; auto. apply in_seq. lia.
      * right. right. apply IH. split; [lia|]. exists m. replace (i - o) with (S (i - S o)) in Hm by lia. auto.
Qed.

Lemma vv_get_in {V} (p : list (list V)) ij : In (Continue ij) (enumerate 0 (map (@length V) p)) <-> exists v, vv_get p ij = Some v.
Proof.
  destruct ij as [i j]. rewrite enumerate_in, Nat.sub_0_r. unfold vv_get. cbn [fst snd].
  rewrite nth_error_map. split.
  - intros (_ & n & H & Hj). destruct (nth_error p i) as [l|]; [|discriminate]. injection H as <-.
    destruct (nth_error l j) eqn:E; eauto. apply nth_error_None in E. lia.
  - intros (v & H). split; [lia|]. destruct (nth_error p i) as [l|]; [|discriminate]. exists (length l). split; auto.
    apply nth_error_Some. congruence.
Qed.
End Nested.
