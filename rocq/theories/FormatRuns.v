(** The output formats over whole runs, compared with the recorder on the same input. *)
From Coq Require Import List Arith Bool Lia.
From Verif Require Import Base Coord Trap Mono Tri Trace Protocol Format FormatFacts Builders Runs.
Import ListNotations.

(** A format with its winding reversed or not. *)
Definition wind {I E Out M} (cw : bool) (F : fan_format I E Out M) : fan_format I E Out M :=
  if cw then reverse_fan F else F.

Lemma wind_cw {I E Out M} cw (F : fan_format I E Out M) : ff_cw F = false -> ff_cw (wind cw F) = cw.
Proof. intros H. destruct cw; simpl; rewrite ?H; auto. Qed.

Lemma reverse_drive {I E Out M} (F : fan_format I E Out M) l : forall b r, drive (reverse_fan F) b l r = drive F b l r.
Proof.
  induction l as [|[i j k|v] l IH]; intros b r; cbn [drive]; auto.
  - cbn [ff_new reverse_fan]. destruct (ff_new F b i j k) as [b' [e|]]; auto.
  - cbn [ff_ext reverse_fan]. destruct (ff_ext F b v) as [b' [e|]]; auto.
Qed.

Lemma wind_obey {I E Out M} cw (F : fan_format I E Out M) lr : obey (wind cw F) lr = obey F lr.
Proof.
  destruct cw; auto. cbn [wind]. unfold obey. destruct lr as [[|[i j k|v] l] r]; cbn [fst snd]; auto.
  change (ff_init (reverse_fan F) i j k) with (ff_init F i j k). destruct (ff_init F i j k) as [b|[e m]]; auto.
  apply reverse_drive.
Qed.

Section Runs.
Context {C : Type} {OC : CoordOps C} {I : Type}.
Variables (ieqb : I -> I -> bool) (gv : I -> coords C) (dbg : bool) (fuel : nat) (math_n : nat -> nat -> nat)
  (shuf : nat -> nat -> list nat) (elems : list (element I)) (cw : bool).

Notation tri F := (triangulate F ieqb gv dbg fuel math_n shuf elems).

Lemma tri_wind {E Out M} (F : fan_format I E Out M) : ff_cw F = false ->
  tri (wind cw F) = obey F (api_calls E ieqb gv cw dbg fuel math_n shuf elems).
Proof. intros H. rewrite triangulate_obeys, wind_obey, wind_cw; auto. Qed.

Lemma tri_recorder E :
  tri (recorder I E cw) =
  match api_calls E ieqb gv cw dbg fuel math_n shuf elems with
  | ([], Ok _) => Returned (inr TENoVertices) []
  | (l, Ok _) => Returned (inl l) l
  | (l, Err e) => Returned (inr e) l
  | (_, Crash c) => Crashed c
  end.
Proof.
  rewrite triangulate_obeys. cbn [ff_cw recorder].
  pose proof (api_calls_starts (E := E) ieqb gv cw dbg fuel math_n shuf elems) as Hs.
  destruct (api_calls E ieqb gv cw dbg fuel math_n shuf elems) as [l r]. cbn [fst] in Hs.
  rewrite recorder_obey by auto. destruct r, l; reflexivity.
Qed.

(** ** Fans *)

Lemma deindexed_fan_run {V} (vertex : I -> V) (fs0 : list (list V)) :
  tri (wind cw (deindexed_fan vertex (vec_fans _) (vec_fan V) fs0)) =
  match tri (recorder I Empty_set cw) with
  | Returned (inl c) _ => Returned (inl (fs0 ++ map (map vertex) (fans_of c))) (fs0 ++ map (map vertex) (fans_of c))
  | Returned (inr e) _ => Returned (inr e) fs0
  | Crashed c => Crashed c
  end.
Proof.
  rewrite tri_wind, tri_recorder by reflexivity.
  pose proof (api_calls_starts (E := Empty_set) ieqb gv cw dbg fuel math_n shuf elems) as Hs.
  destruct (api_calls Empty_set ieqb gv cw dbg fuel math_n shuf elems) as [l r]. cbn [fst] in Hs.
  rewrite deindexed_obey by auto. destruct r, l; reflexivity.
Qed.

Lemma indexed_fan_run (fs0 : list (list I)) :
  tri (wind cw (indexed_fan (vec_fans _) (vec_fan I) fs0)) =
  match tri (recorder I Empty_set cw) with
  | Returned (inl c) _ => Returned (inl (fs0 ++ fans_of c)) (fs0 ++ fans_of c)
  | Returned (inr e) _ => Returned (inr e) fs0
  | Crashed c => Crashed c
  end.
Proof.
  rewrite indexed_is_deindexed, deindexed_fan_run.
  destruct (tri (recorder I Empty_set cw)) as [[c|e] m|c]; auto. now rewrite map_map_id.
Qed.

(** ** Lists *)

Lemma deindexed_list_run {V L} (vertex : I -> V) (o : list_ops L V) (l0 : L) :
  (forall ts, lo_trunc o (push_all o l0 ts) (lo_len o l0) = l0) ->
  tri (wind cw (fan_to_list (deindexed_list vertex o l0))) =
  match tri (recorder I Empty_set cw) with
  | Returned (inl c) _ => let out := push_all o l0 (map (tri_map vertex) (tris_of c)) in Returned (inl out) out
  | Returned (inr e) _ => Returned (inr e) l0
  | Crashed c => Crashed c
  end.
Proof.
  intros Ht. rewrite tri_wind, tri_recorder by reflexivity.
  pose proof (api_calls_starts (E := Empty_set) ieqb gv cw dbg fuel math_n shuf elems) as Hs.
  destruct (api_calls Empty_set ieqb gv cw dbg fuel math_n shuf elems) as [l r]. cbn [fst] in Hs.
  rewrite list_obey by auto. destruct r, l; try reflexivity. now rewrite Ht.
Qed.

(** Without any condition on the list: what success means. *)
Lemma deindexed_list_success {V L} (vertex : I -> V) (o : list_ops L V) (l0 out m : L) :
  tri (wind cw (fan_to_list (deindexed_list vertex o l0))) = Returned (inl out) m <->
  exists c, tri (recorder I Empty_set cw) = Returned (inl c) c /\
    out = push_all o l0 (map (tri_map vertex) (tris_of c)) /\ m = out.
Proof.
  rewrite tri_wind, tri_recorder by reflexivity.
  pose proof (api_calls_starts (E := Empty_set) ieqb gv cw dbg fuel math_n shuf elems) as Hs.
  destruct (api_calls Empty_set ieqb gv cw dbg fuel math_n shuf elems) as [l r]. cbn [fst] in Hs.
  rewrite list_obey by auto.
  destruct r as [[]|e|c], l as [|x l]; split; intros H; try discriminate;
    try (destruct H as (c' & H & _); discriminate).
  - cbv zeta in H. injection H as <- <-. exists (x :: l). auto.
  - destruct H as (c & H & -> & ->). injection H as <-. reflexivity.
Qed.

Lemma trunc_triples {V} (l0 : list (V * V * V)) ts :
  lo_trunc (vec_triples V) (push_all (vec_triples V) l0 ts) (lo_len (vec_triples V) l0) = l0.
Proof. rewrite push_all_triples. cbn. apply firstn_app_len. Qed.

Lemma trunc_flat {V} (l0 : list V) ts : Nat.divide 3 (length l0) ->
  lo_trunc (vec_flat V) (push_all (vec_flat V) l0 ts) (lo_len (vec_flat V) l0) = l0.
Proof.
  intros (k & Hk). rewrite push_all_flat. cbn [lo_trunc lo_len vec_flat].
  rewrite Hk, Nat.div_mul by lia. rewrite <- Hk. apply firstn_app_len.
Qed.

(** ** Delimited fans *)

Lemma existsb_In_iff d (l : list I) : existsb (ieqb d) l = true <-> exists i, In i l /\ ieqb d i = true.
Proof. apply existsb_exists. Qed.

Lemma delimited_run (delim : I) (out0 : list I) r c :
  tri (recorder I delim_error cw) = Returned r c ->
  let T := tri (wind cw (delimited_fan (vec_fans I) ieqb delim out0)) in
  if clash ieqb delim c then
    exists m, T = Returned (inr (TEFanBuilder IndexMatchesDelimiter)) m /\
    (existsb (ieqb delim) (firstn 3 (indices c)) = false -> m = out0)
  else
    match r with
    | inl _ => T = Returned (inl (delimited_output delim out0 (fans_of c))) (delimited_output delim out0 (fans_of c))
    | inr e => T = Returned (inr e) out0
    end.
Proof.
  rewrite tri_recorder. cbv zeta. rewrite tri_wind by reflexivity.
  pose proof (api_calls_starts (E := delim_error) ieqb gv cw dbg fuel math_n shuf elems) as Hs.
  destruct (api_calls delim_error ieqb gv cw dbg fuel math_n shuf elems) as [l rr]. cbn [fst] in Hs.
  intros H.
  assert (Hc : c = l) by (destruct rr, l; now inversion H). subst c.
  pose proof (delimited_obey ieqb delim out0 l rr Hs) as HO.
  destruct l as [|[a b d|v] l]; [| |destruct Hs].
  - cbn [clash indices map concat existsb].
    destruct rr as [[]|e|x]; inversion H; subst; reflexivity.
  - rewrite clash_cons. unfold indices. cbn [map concat call_indices app firstn].
    destruct (existsb (ieqb delim) [a; b; d]) eqn:E3.
    + destruct HO as (junk & ->). cbn [orb]. eexists. split; [reflexivity|]. intros H'. congruence.
    + rewrite HO, clash_cons. cbn [call_indices]. rewrite E3. cbn [orb].
      destruct (clash ieqb delim l) eqn:El.
      * exists out0. auto.
      * destruct rr as [[]|e|x]; cbv zeta; inversion H; subst; reflexivity.
Qed.
End Runs.
