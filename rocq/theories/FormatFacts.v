(** Facts about the output formats, for every list of calls. *)
From Coq Require Import List Arith Bool Lia.
From Verif Require Import Base Coord Trap Mono Tri Format Trace Protocol.
Import ListNotations.

(** ** Fans *)

Lemma firstn_app_len {A} (l l' : list A) : firstn (length l) (l ++ l') = l.
Proof. now rewrite firstn_app, Nat.sub_diag, firstn_all, firstn_O, app_nil_r. Qed.

Section Fans.
Context {I V : Type} (vertex : I -> V).

Lemma fans_from_map (l : list (call I)) : forall cur,
  map (map vertex) (fans_from cur l) =
  fans_from (map vertex cur)
    (map (fun c => match c with CNew a b d => CNew (vertex a) (vertex b) (vertex d) | CExt v => CExt (vertex v) end) l).
Proof.
  induction l as [|[a b d|v] l IH]; intros cur; simpl; auto.
  - now rewrite IH.
  - now rewrite IH, map_app.
Qed.

Lemma deindexed_drive (fs0 : list (list V)) l : forall x cur (r : res (tri_error Empty_set) unit),
  drive (deindexed_fan vertex (vec_fans _) (vec_fan V) fs0)
    (mkGF (fs0 ++ map (map vertex) x) (map vertex cur) (length fs0)) l r =
  match r with
  | Ok _ => Returned (inl (fs0 ++ map (map vertex) (x ++ fans_from cur l))) (fs0 ++ map (map vertex) (x ++ fans_from cur l))
  | Err e => Returned (inr e) fs0
  | Crash c => Crashed c
  end.
Proof.
  induction l as [|[a b d|v] l IH]; intros x cur r.
  - cbn [drive]. destruct r as [[]|e|c]; cbn.
    + unfold gfans_build; cbn. rewrite map_app, <- app_assoc. reflexivity.
    + unfold gfans_fail; cbn. now rewrite firstn_app_len.
    + reflexivity.
  - cbn [drive]. cbn [ff_new deindexed_fan]. unfold gfans_new. cbn [gf_fans gf_cur gf_n vec_fans fs_push vec_fan fo_new].
    replace ((fs0 ++ map (map vertex) x) ++ [map vertex cur]) with (fs0 ++ map (map vertex) (x ++ [cur]))
      by (now rewrite map_app, app_assoc).
    change [vertex a; vertex b; vertex d] with (map vertex [a; b; d]).
    rewrite IH. cbn [fans_from]. rewrite <- !app_assoc. reflexivity.
  - cbn [drive]. cbn [ff_ext deindexed_fan]. unfold gfans_ext. cbn [gf_fans gf_cur gf_n vec_fan fo_push].
    replace (map vertex cur ++ [vertex v]) with (map vertex (cur ++ [v])) by (now rewrite map_app).
    rewrite IH. reflexivity.
Qed.

Lemma deindexed_obey (fs0 : list (list V)) l (r : res (tri_error Empty_set) unit) : starts l ->
  obey (deindexed_fan vertex (vec_fans _) (vec_fan V) fs0) (l, r) =
  match r, l with
  | Ok _, [] => Returned (inr TENoVertices) fs0
  | Ok _, _ => Returned (inl (fs0 ++ map (map vertex) (fans_of l))) (fs0 ++ map (map vertex) (fans_of l))
  | Err e, _ => Returned (inr e) fs0
  | Crash c, _ => Crashed c
  end.
Proof.
  intros Hs. unfold obey. cbn [fst snd]. destruct l as [|[a b d|v] l]; cbn in Hs; try contradiction.
  - destruct r as [[]|e|c]; reflexivity.
  - cbn [ff_init deindexed_fan]. unfold gfans_init. cbn [vec_fans fs_len vec_fan fo_new].
    pose proof (deindexed_drive fs0 l [] [a; b; d] r) as H. cbn [map app] in H. rewrite app_nil_r in H.
    rewrite H. destruct r as [[]|e|c]; reflexivity.
Qed.
End Fans.

Lemma indexed_is_deindexed {I FS F} (o : fans_ops FS F) (p : fan_ops F I) fs :
  indexed_fan o p fs = deindexed_fan (fun i => i) o p fs.
Proof. reflexivity. Qed.

Lemma map_map_id {I} (l : list (list I)) : map (map (fun i => i)) l = l.
Proof. rewrite <- (map_id l) at 2. apply map_ext. intros. apply map_id. Qed.

Lemma indexed_obey {I} (fs0 : list (list I)) l (r : res (tri_error Empty_set) unit) : starts l ->
  obey (indexed_fan (vec_fans _) (vec_fan I) fs0) (l, r) =
  match r, l with
  | Ok _, [] => Returned (inr TENoVertices) fs0
  | Ok _, _ => Returned (inl (fs0 ++ fans_of l)) (fs0 ++ fans_of l)
  | Err e, _ => Returned (inr e) fs0
  | Crash c, _ => Crashed c
  end.
Proof.
  intros Hs. rewrite indexed_is_deindexed, deindexed_obey by auto. now rewrite map_map_id.
Qed.

Lemma fans_from_nonempty {I} (l : list (call I)) : forall cur, fans_from cur l <> [].
Proof. induction l as [|[a b d|v] l IH]; intros cur; cbn; try discriminate. apply IH. Qed.

(** Every fan has at least three vertices. *)
Lemma fans_from_3 {I} (l : list (call I)) : forall cur, 3 <= length cur ->
  Forall (fun f => 3 <= length f) (fans_from cur l).
Proof.
  induction l as [|[a b d|v] l IH]; intros cur H; simpl.
  - constructor; auto.
  - constructor; auto.
  - apply IH. rewrite app_length; simpl; lia.
Qed.

Lemma fans_of_3 {I} (l : list (call I)) : Forall (fun f => 3 <= length f) (fans_of l).
Proof. destruct l as [|[a b d|v] l]; simpl; auto. apply fans_from_3. simpl; lia. Qed.

(** ** Lists *)

(** Triangles still to come when the current fan has root [v0] and last vertex [v1]. *)
Fixpoint tris_from {I} (v0 v1 : I) (l : list (call I)) : list (I * I * I) :=
  match l with
  | [] => []
  | CNew a b c :: l => (a, b, c) :: tris_from a c l
  | CExt v :: l => (v0, v1, v) :: tris_from v0 v l
  end.

Lemma pairs_app {I} (r : I) (l : list I) : forall b v, pairs r ((l ++ [b]) ++ [v]) = pairs r (l ++ [b]) ++ [(r, b, v)].
Proof.
  induction l as [|a l IH]; intros b v.
  - reflexivity.
  - cbn [app]. destruct l as [|a' l].
    + reflexivity.
    + specialize (IH b v). cbn [app] in *. cbn [pairs] in *. now rewrite IH.
Qed.

Lemma tris_fans {I} (l : list (call I)) : forall r m v,
  concat (map fan_tris (fans_from (r :: m ++ [v]) l)) = fan_tris (r :: m ++ [v]) ++ tris_from r v l.
Proof.
  induction l as [|[a b d|w] l IH]; intros r m v; cbn [fans_from tris_from].
  - reflexivity.
  - cbn [map concat]. f_equal. change [a; b; d] with (a :: [b] ++ [d]). now rewrite IH.
  - replace ((r :: m ++ [v]) ++ [w]) with (r :: (m ++ [v]) ++ [w]) by reflexivity.
    rewrite IH. cbn [fan_tris]. now rewrite pairs_app, <- app_assoc.
Qed.

Lemma tris_of_new {I} (a b d : I) l : tris_of (CNew a b d :: l) = (a, b, d) :: tris_from a d l.
Proof.
  unfold tris_of. cbn [fans_of]. change [a; b; d] with (a :: [b] ++ [d]). now rewrite tris_fans.
Qed.

(** Adding triangles to a list one after the other. *)
Definition push_all {L V} (o : list_ops L V) (l : L) (ts : list (V * V * V)) : L :=
  fold_left (fun l t => let '(a, b, c) := t in lo_push o l a b c) ts l.

Definition tri_map {I V} (f : I -> V) (t : I * I * I) : V * V * V := let '(a, b, c) := t in (f a, f b, f c).

Section Lists.
Context {I V L : Type} (vertex : I -> V) (o : list_ops L V) (l0 : L).

Lemma list_drive c : forall l v0 v1 (r : res (tri_error Empty_set) unit),
  drive (fan_to_list (deindexed_list vertex o l0)) ((l, lo_len o l0), v0, v1) c r =
  match r with
  | Ok _ => let out := push_all o l (map (tri_map vertex) (tris_from v0 v1 c)) in Returned (inl out) out
  | Err e => Returned (inr e) (lo_trunc o (push_all o l (map (tri_map vertex) (tris_from v0 v1 c))) (lo_len o l0))
  | Crash c => Crashed c
  end.
Proof.
  induction c as [|[a b d|v] c IH]; intros l v0 v1 r.
  - destruct r as [[]|e|x]; reflexivity.
  - cbn [drive]. cbn [ff_new fan_to_list lf_add deindexed_list]. unfold glist_add. cbn [fst snd].
    rewrite IH. reflexivity.
  - cbn [drive]. cbn [ff_ext fan_to_list lf_add deindexed_list]. unfold glist_add. cbn [fst snd].
    rewrite IH. reflexivity.
Qed.

Lemma list_obey c (r : res (tri_error Empty_set) unit) : starts c ->
  obey (fan_to_list (deindexed_list vertex o l0)) (c, r) =
  match r, c with
  | Ok _, [] => Returned (inr TENoVertices) l0
  | Ok _, _ => let out := push_all o l0 (map (tri_map vertex) (tris_of c)) in Returned (inl out) out
  | Err e, [] => Returned (inr e) l0
  | Err e, _ => Returned (inr e) (lo_trunc o (push_all o l0 (map (tri_map vertex) (tris_of c))) (lo_len o l0))
  | Crash c, _ => Crashed c
  end.
Proof.
  intros Hs. unfold obey. cbn [fst snd]. destruct c as [|[a b d|v] c]; cbn in Hs; try contradiction.
  - destruct r as [[]|e|x]; reflexivity.
  - cbn [ff_init fan_to_list lf_init deindexed_list lf_add]. unfold glist_add, glist_new. cbn [fst snd].
    rewrite list_drive, tris_of_new. destruct r as [[]|e|x]; reflexivity.
Qed.
End Lists.

Lemma indexed_list_is {I L} (o : list_ops L I) l : indexed_list o l = deindexed_list (fun i => i) o l.
Proof. reflexivity. Qed.

Lemma tri_map_id {I} (l : list (I * I * I)) : map (tri_map (fun i => i)) l = l.
Proof. rewrite <- (map_id l) at 2. apply map_ext. now intros [[a b] c]. Qed.

Lemma push_all_triples {V} ts : forall l, push_all (vec_triples V) l ts = l ++ ts.
Proof.
  unfold push_all. induction ts as [|[[a b] c] ts IH]; intros l; cbn [fold_left].
  - now rewrite app_nil_r.
  - rewrite IH. cbn. now rewrite <- app_assoc.
Qed.

(** Three consecutive entries per triangle. *)
Definition flat3 {V} (ts : list (V * V * V)) : list V := concat (map (fun t => let '(a, b, c) := t in [a; b; c]) ts).

Lemma push_all_flat {V} ts : forall l, push_all (vec_flat V) l ts = l ++ flat3 ts.
Proof.
  unfold push_all, flat3. induction ts as [|[[a b] c] ts IH]; intros l; cbn [fold_left map concat].
  - now rewrite app_nil_r.
  - rewrite IH. cbn. now rewrite <- !app_assoc.
Qed.

(** ** Delimited fans *)

Section Delimited.
Context {I : Type} (ieqb : I -> I -> bool) (delim : I).
Notation F := (delimited_fan (vec_fans I) ieqb delim).

(** Every fan preceded by the delimiter. *)
Definition marked (fs : list (list I)) : list I := concat (map (cons delim) fs).

(** What the collection holds in the end: nothing is written before the first fan of an empty collection. *)
Definition delimited_output (out : list I) (fs : list (list I)) : list I :=
  match out with [] => tl (marked fs) | _ => out ++ marked fs end.

(** Cutting a list at each delimiter. *)
Fixpoint split_at (l : list I) : list (list I) :=
  match l with
  | [] => [[]]
  | x :: l =>
    if ieqb delim x then [] :: split_at l
    else match split_at l with f :: fs => (x :: f) :: fs | [] => [[x]] end
  end.

Definition call_indices (c : call I) : list I := match c with CNew a b d => [a; b; d] | CExt v => [v] end.
Definition indices (l : list (call I)) : list I := concat (map call_indices l).
Definition clash (l : list (call I)) : bool := existsb (ieqb delim) (indices l).

Lemma clash_cons c l : clash (c :: l) = existsb (ieqb delim) (call_indices c) || clash l.
Proof. unfold clash, indices. cbn [map concat]. now rewrite existsb_app. Qed.

Lemma push3_spec fs a b c :
  if existsb (ieqb delim) [a; b; c] then
    exists x, push3 (vec_fans I) ieqb delim fs a b c = (fs ++ x, Some IndexMatchesDelimiter)
  else push3 (vec_fans I) ieqb delim fs a b c = (fs ++ [a; b; c], None).
Proof.
  unfold push3, push_index. cbn [existsb vec_fans fs_push].
  destruct (ieqb delim a); cbn; [exists []; now rewrite app_nil_r|].
  destruct (ieqb delim b); cbn; [exists [a]; reflexivity|].
  destruct (ieqb delim c); cbn; [exists [a; b]; now rewrite <- app_assoc|].
  now rewrite <- !app_assoc.
Qed.

(** What is written after the current fan. *)
Fixpoint rest_from (l : list (call I)) : list I :=
  match l with
  | [] => []
  | CNew a b c :: l => delim :: a :: b :: c :: rest_from l
  | CExt v :: l => v :: rest_from l
  end.

Lemma rest_marked l : forall cur, marked (fans_from cur l) = delim :: cur ++ rest_from l.
Proof.
  unfold marked. induction l as [|[a b c|v] l IH]; intros cur; cbn [fans_from map concat rest_from].
  - now rewrite !app_nil_r.
  - rewrite IH. reflexivity.
  - rewrite IH, <- app_assoc. reflexivity.
Qed.

Lemma delimited_drive out0 l : forall x r,
  drive (F out0) (out0 ++ x, length out0) l r =
  if clash l then Returned (inr (TEFanBuilder IndexMatchesDelimiter)) out0
  else match r with
       | Ok _ => Returned (inl (out0 ++ x ++ rest_from l)) (out0 ++ x ++ rest_from l)
       | Err e => Returned (inr e) out0
       | Crash c => Crashed c
       end.
Proof.
  induction l as [|[a b c|v] l IH]; intros x r.
  - cbn [rest_from]. rewrite app_nil_r. destruct r as [[]|e|y]; cbn; auto.
    now rewrite firstn_app_len.
  - rewrite clash_cons. cbn [drive ff_new delimited_fan fst snd call_indices].
    pose proof (push3_spec ((out0 ++ x) ++ [delim]) a b c) as H3.
    cbn [vec_fans fs_push] in *.
    destruct (existsb (ieqb delim) [a; b; c]); cbn [orb].
    + destruct H3 as (y & ->). cbn. rewrite <- !app_assoc. now rewrite firstn_app_len.
    + rewrite H3. replace (((out0 ++ x) ++ [delim]) ++ [a; b; c]) with (out0 ++ (x ++ [delim; a; b; c]))
        by (now rewrite <- !app_assoc).
      rewrite IH. destruct (clash l); auto. destruct r as [[]|e|y]; auto.
      cbn [rest_from]. now rewrite <- !app_assoc.
  - rewrite clash_cons. cbn [drive ff_ext delimited_fan fst snd call_indices existsb].
    unfold push_index. destruct (ieqb delim v); cbn [orb].
    + cbn. now rewrite firstn_app_len.
    + cbn [vec_fans fs_push]. rewrite <- app_assoc. rewrite IH. destruct (clash l); auto.
      destruct r as [[]|e|y]; auto. cbn [rest_from]. now rewrite <- !app_assoc.
Qed.

(** [first]: the indices of the first triangle, pushed while the builder is being made. *)
Lemma delimited_obey out0 l r : starts l ->
  match l with
  | CNew a b c :: _ =>
    if existsb (ieqb delim) [a; b; c] then
      exists junk, obey (F out0) (l, r) = Returned (inr (TEFanBuilder IndexMatchesDelimiter)) (out0 ++ junk)
    else
      obey (F out0) (l, r) =
      if clash l then Returned (inr (TEFanBuilder IndexMatchesDelimiter)) out0
      else match r with
           | Ok _ => let out := delimited_output out0 (fans_of l) in Returned (inl out) out
           | Err e => Returned (inr e) out0
           | Crash c => Crashed c
           end
  | _ =>
    obey (F out0) (l, r) =
    match r with
    | Ok _ => Returned (inr TENoVertices) out0
    | Err e => Returned (inr e) out0
    | Crash c => Crashed c
    end
  end.
Proof.
  intros Hs. unfold obey. cbn [fst snd]. destruct l as [|[a b c|v] l]; cbn in Hs; try contradiction.
  - reflexivity.
  - rewrite clash_cons. cbn [call_indices ff_init delimited_fan]. cbn zeta.
    pose proof (push3_spec (if 0 <? fs_len (vec_fans I) out0 then fs_push (vec_fans I) out0 delim else out0) a b c) as H3.
    destruct (existsb (ieqb delim) [a; b; c]); cbn [orb].
    + destruct H3 as (y & ->). cbn [vec_fans fs_len fs_push]. destruct (0 <? length out0).
      * exists (delim :: y). now rewrite <- app_assoc.
      * now exists y.
    + rewrite H3. cbn [vec_fans fs_len fs_push].
      destruct out0 as [|o out0].
      * cbn [length]. change (0 <? 0) with false. cbn iota.
        pose proof (delimited_drive [] l [a; b; c] r) as H. cbn [app length] in *. rewrite H.
        destruct (clash l); auto. destruct r as [[]|e|y]; auto.
        unfold delimited_output. cbn [fans_of]. now rewrite rest_marked.
      * change (0 <? length (o :: out0)) with true. cbn iota.
        pose proof (delimited_drive (o :: out0) l (delim :: [a; b; c]) r) as H.
        rewrite <- app_assoc. cbn [app] in *. rewrite H.
        destruct (clash l); auto. destruct r as [[]|e|y]; auto.
        unfold delimited_output. cbn [fans_of]. now rewrite rest_marked.
Qed.

Lemma split_cut l l' : existsb (ieqb delim) l = false -> ieqb delim delim = true ->
  split_at (l ++ delim :: l') = l :: split_at l'.
Proof.
  intros H Hd. induction l as [|x l IH]; cbn [app split_at].
  - now rewrite Hd.
  - cbn [existsb] in H. apply orb_false_iff in H. destruct H as [Hx Hl]. rewrite Hx, IH; auto.
Qed.

Lemma split_none l : existsb (ieqb delim) l = false -> split_at l = [l].
Proof.
  induction l as [|x l IH]; cbn; auto. intros H. apply orb_false_iff in H. destruct H as [Hx Hl].
  now rewrite Hx, IH.
Qed.

Lemma split_marked fs : forall f, ieqb delim delim = true ->
  Forall (fun f => existsb (ieqb delim) f = false) (f :: fs) ->
  split_at (f ++ marked fs) = f :: fs.
Proof.
  induction fs as [|g fs IH]; intros f Hd Hf.
  - cbn. rewrite app_nil_r. apply split_none. now inversion Hf.
  - inversion Hf; subst. change (marked (g :: fs)) with (delim :: (g ++ marked fs)).
    rewrite split_cut; auto. now rewrite IH.
Qed.

Lemma fans_from_indices l : forall cur, existsb (ieqb delim) cur = false -> clash l = false ->
  Forall (fun f => existsb (ieqb delim) f = false) (fans_from cur l).
Proof.
  induction l as [|[a b c|v] l IH]; intros cur Hc Hl; cbn [fans_from].
  - constructor; auto.
  - rewrite clash_cons in Hl. apply orb_false_iff in Hl. destruct Hl. constructor; auto.
  - rewrite clash_cons in Hl. apply orb_false_iff in Hl. destruct Hl as [Hv Hl]. apply IH; auto.
    rewrite existsb_app. now rewrite Hc.
Qed.

Lemma delimited_decode a b c l : ieqb delim delim = true -> clash (CNew a b c :: l) = false ->
  split_at (delimited_output [] (fans_of (CNew a b c :: l))) = fans_of (CNew a b c :: l).
Proof.
  intros Hd Hc. rewrite clash_cons in Hc. apply orb_false_iff in Hc. destruct Hc as [H3 Hl].
  cbn [fans_of delimited_output].
  pose proof (fans_from_indices l [a; b; c] H3 Hl) as Hf.
  destruct (fans_from [a; b; c] l) as [|f fs] eqn:E.
  - now apply fans_from_nonempty in E.
  - change (tl (marked (f :: fs))) with (f ++ marked fs). now apply split_marked.
Qed.
End Delimited.
