(** Proofs behind [PropBuilders.v]. *)
From Coq Require Import List Arith Bool Lia.
From Verif Require Import Base Coord Trap Mono Tri Trace Protocol Format FormatFacts Builders Runs FormatRuns.
Import ListNotations.

Section B.
Context {C : Type} {OC : CoordOps C} {I : Type}.
Variables (ieqb : I -> I -> bool) (gv : I -> coords C) (dbg : bool) (fuel : nat) (math_n : nat -> nat -> nat)
  (shuf : nat -> nat -> list nat) (elems : list (element I)) (cw : bool).
Notation tri F := (triangulate F ieqb gv dbg fuel math_n shuf elems).

Lemma list_layout_flat (l0 out m : list I) :
  tri (wind cw (fan_to_list (indexed_list (vec_flat I) l0))) = Returned (inl out) m <->
  exists c, tri (recorder I Empty_set cw) = Returned (inl c) c /\ out = l0 ++ flat3 (tris_of c) /\ m = out.
Proof.
  rewrite indexed_list_is, deindexed_list_success. split; intros (c & H & -> & ->); exists c;
    rewrite tri_map_id, push_all_flat; auto.
Qed.

Lemma list_layout_triples (l0 out m : list (I * I * I)) :
  tri (wind cw (fan_to_list (indexed_list (vec_triples I) l0))) = Returned (inl out) m <->
  exists c, tri (recorder I Empty_set cw) = Returned (inl c) c /\ out = l0 ++ tris_of c /\ m = out.
Proof.
  rewrite indexed_list_is, deindexed_list_success. split; intros (c & H & -> & ->); exists c;
    rewrite tri_map_id, push_all_triples; auto.
Qed.

Lemma fan_layout (fs0 out m : list (list I)) :
  tri (wind cw (indexed_fan (vec_fans (list I)) (vec_fan I) fs0)) = Returned (inl out) m <->
  exists c, tri (recorder I Empty_set cw) = Returned (inl c) c /\ out = fs0 ++ fans_of c /\ m = out /\
    Forall (fun f => 3 <= length f) (fans_of c).
Proof.
  rewrite indexed_fan_run.
  assert (Hr : forall c m', tri (recorder I Empty_set cw) = Returned (inl c) m' -> m' = c).
  { intros c m'. rewrite tri_recorder. destruct (api_calls _ _ _ _ _ _ _ _ _) as [[|x l] [[]|e|y]]; congruence. }
  destruct (tri (recorder I Empty_set cw)) as [[c|e] m'|y].
  - specialize (Hr c m' eq_refl). subst m'. split.
    + intros H. injection H as <- <-. exists c. auto using fans_of_3.
    + intros (c' & H & -> & -> & _). injection H as <-. reflexivity.
  - split; [discriminate|]. intros (c & H & _). discriminate.
  - split; [discriminate|]. intros (c & H & _). discriminate.
Qed.

Lemma fans_equal_lists (out fs0 m1 : list (list I)) :
  tri (wind cw (indexed_fan (vec_fans (list I)) (vec_fan I) fs0)) = Returned (inl out) m1 ->
  exists fs, out = fs0 ++ fs /\ forall l0,
  tri (wind cw (fan_to_list (indexed_list (vec_triples I) l0))) =
    Returned (inl (l0 ++ concat (map fan_tris fs))) (l0 ++ concat (map fan_tris fs)).
Proof.
  intros H. apply fan_layout in H. destruct H as (c & H & -> & -> & _). exists (fans_of c). split; auto.
  intros l0. apply list_layout_triples. exists c. auto.
Qed.

Lemma lists_equal_fans l0 (out m1 : list (I * I * I)) :
  tri (wind cw (fan_to_list (indexed_list (vec_triples I) l0))) = Returned (inl out) m1 ->
  exists fs, out = l0 ++ concat (map fan_tris fs) /\
  tri (wind cw (indexed_fan (vec_fans (list I)) (vec_fan I) [])) = Returned (inl fs) fs.
Proof.
  intros H. apply list_layout_triples in H. destruct H as (c & H & -> & ->). exists (fans_of c). split; auto.
  apply fan_layout. exists c. rewrite app_nil_l. auto using fans_of_3.
Qed.

Section V.
Context {V : Type} (vertex : I -> V).

Lemma deindexed_fans :
  tri (wind cw (deindexed_fan vertex (vec_fans (list V)) (vec_fan V) [])) =
  match tri (wind cw (indexed_fan (vec_fans (list I)) (vec_fan I) [])) with
  | Returned (inl fs) _ => Returned (inl (map (map vertex) fs)) (map (map vertex) fs)
  | Returned (inr e) _ => Returned (inr e) []
  | Crashed c => Crashed c
  end.
Proof.
  rewrite deindexed_fan_run, indexed_fan_run. destruct (tri (recorder I Empty_set cw)) as [[c|e] m|c]; auto.
Qed.

Lemma deindexed_lists :
  tri (wind cw (fan_to_list (deindexed_list vertex (vec_triples V) []))) =
  match tri (wind cw (fan_to_list (indexed_list (vec_triples I) []))) with
  | Returned (inl l) _ => Returned (inl (map (tri_map vertex) l)) (map (tri_map vertex) l)
  | Returned (inr e) _ => Returned (inr e) []
  | Crashed c => Crashed c
  end.
Proof.
  rewrite indexed_list_is, !deindexed_list_run by apply trunc_triples.
  destruct (tri (recorder I Empty_set cw)) as [[c|e] m|c]; auto. cbv zeta.
  rewrite !push_all_triples, !app_nil_l. rewrite tri_map_id. reflexivity.
Qed.

Lemma flat3_map ts : flat3 (map (tri_map vertex) ts) = map vertex (flat3 ts).
Proof. unfold flat3. induction ts as [|[[a b] c] ts IH]; simpl; auto. now rewrite IH. Qed.

Lemma deindexed_lists_flat :
  tri (wind cw (fan_to_list (deindexed_list vertex (vec_flat V) []))) =
  match tri (wind cw (fan_to_list (indexed_list (vec_flat I) []))) with
  | Returned (inl l) _ => Returned (inl (map vertex l)) (map vertex l)
  | Returned (inr e) _ => Returned (inr e) []
  | Crashed c => Crashed c
  end.
Proof.
  rewrite indexed_list_is, !deindexed_list_run by (intros; apply trunc_flat; exists 0; reflexivity).
  destruct (tri (recorder I Empty_set cw)) as [[c|e] m|c]; auto. cbv zeta.
  rewrite !push_all_flat, !app_nil_l. rewrite tri_map_id, flat3_map. reflexivity.
Qed.

Lemma fans_rollback (fs0 m : list (list V)) e :
  tri (wind cw (deindexed_fan vertex (vec_fans (list V)) (vec_fan V) fs0)) = Returned (inr e) m -> m = fs0.
Proof.
  rewrite deindexed_fan_run. destruct (tri (recorder I Empty_set cw)) as [[c|e'] m'|c]; congruence.
Qed.

Lemma triples_rollback (l0 m : list (V * V * V)) e :
  tri (wind cw (fan_to_list (deindexed_list vertex (vec_triples V) l0))) = Returned (inr e) m -> m = l0.
Proof.
  rewrite deindexed_list_run by apply trunc_triples.
  destruct (tri (recorder I Empty_set cw)) as [[c|e'] m'|c]; try congruence; cbv zeta; discriminate.
Qed.

Lemma flat_rollback (l0 m : list V) e : Nat.divide 3 (length l0) ->
  tri (wind cw (fan_to_list (deindexed_list vertex (vec_flat V) l0))) = Returned (inr e) m -> m = l0.
Proof.
  intros Hd. rewrite deindexed_list_run by (intros; now apply trunc_flat).
  destruct (tri (recorder I Empty_set cw)) as [[c|e'] m'|c]; try congruence; cbv zeta; discriminate.
Qed.
End V.

Lemma delimited_error_iff delim out0 r c :
  tri (recorder I delim_error cw) = Returned r c ->
  ((exists m, tri (wind cw (delimited_fan (vec_fans I) ieqb delim out0)) =
      Returned (inr (TEFanBuilder IndexMatchesDelimiter)) m) <->
   exists i, In i (indices c) /\ ieqb delim i = true).
Proof.
  intros H. pose proof (delimited_run _ _ _ _ _ _ _ _ delim out0 _ _ H) as HD. cbv zeta in HD.
  rewrite <- (existsb_In_iff ieqb delim (indices c)). unfold clash in HD.
  destruct (existsb (ieqb delim) (indices c)) eqn:Ec.
  - destruct HD as (m & HD & _). split; auto. intros _. eauto.
  - split; [|discriminate]. intros (m & Hm). exfalso. destruct r as [o|e]; rewrite HD in Hm; try discriminate.
    (* a driver error is never a builder error *)
    injection Hm as -> _.
    pose proof (nf_api (E := delim_error) ieqb gv cw dbg fuel math_n shuf elems) as Hn.
    rewrite tri_recorder in H. destruct (api_calls _ _ _ _ _ _ _ _ _) as [[|x l] [[]|e|y]]; try congruence;
      injection H as -> _; exact Hn.
Qed.

Lemma delimited_decodes delim c m out m' :
  ieqb delim delim = true ->
  tri (recorder I delim_error cw) = Returned (inl c) m ->
  tri (wind cw (delimited_fan (vec_fans I) ieqb delim [])) = Returned (inl out) m' ->
  split_at ieqb delim out = fans_of c /\ m' = out.
Proof.
  intros Hd H HT.
  assert (Hm : m = c /\ exists a b d l, c = CNew a b d :: l).
  { pose proof (api_calls_starts (E := delim_error) ieqb gv cw dbg fuel math_n shuf elems) as Hs.
    rewrite tri_recorder in H.
    destruct (api_calls _ _ _ _ _ _ _ _ _) as [[|x l] [[]|e|y]]; try congruence. injection H as <- <-.
    split; auto. destruct x as [a b d|v]; [eauto 6|destruct Hs]. }
  destruct Hm as (-> & a & b & d & l & ->).
  pose proof (delimited_run _ _ _ _ _ _ _ _ delim [] _ _ H) as HD. cbv zeta in HD. rewrite HT in HD.
  destruct (clash ieqb delim (CNew a b d :: l)) eqn:Ec.
  - destruct HD as (m & HD & _). discriminate.
  - injection HD as -> ->. split; auto. now apply delimited_decode.
Qed.

(** The delimited output after the caller's own content. *)
Lemma delimited_layout delim out0 c m out m' :
  tri (recorder I delim_error cw) = Returned (inl c) m ->
  tri (wind cw (delimited_fan (vec_fans I) ieqb delim out0)) = Returned (inl out) m' ->
  m' = out /\ out = match out0 with
        | [] => tl (concat (map (cons delim) (fans_of c)))
        | _ => out0 ++ concat (map (cons delim) (fans_of c))
        end.
Proof.
  intros H HT.
  assert (m = c) as ->.
  { rewrite tri_recorder in H. destruct (api_calls _ _ _ _ _ _ _ _ _) as [[|x l] [[]|e|y]]; congruence. }
  pose proof (delimited_run _ _ _ _ _ _ _ _ delim out0 _ _ H) as HD. cbv zeta in HD. rewrite HT in HD.
  destruct (clash ieqb delim c); [destruct HD as (m & HD & _); discriminate|].
  injection HD as -> ->. split; auto.
Qed.

Lemma delimited_rollback delim out0 r c e m :
  tri (recorder I delim_error cw) = Returned r c ->
  existsb (ieqb delim) (firstn 3 (indices c)) = false ->
  tri (wind cw (delimited_fan (vec_fans I) ieqb delim out0)) = Returned (inr e) m -> m = out0.
Proof.
  intros H H3 HT. pose proof (delimited_run _ _ _ _ _ _ _ _ delim out0 _ _ H) as HD. cbv zeta in HD.
  rewrite HT in HD. destruct (clash ieqb delim c).
  - destruct HD as (m' & HD & Hm). injection HD as -> ->. auto.
  - destruct r as [o|e']; congruence.
Qed.

Section L.
Context {E Out M : Type} (F : fan_format I E Out M).

Lemma logged_run :
  match tri F, tri (logged F) with
  | Returned r m, Returned r' (m', _) => r = r' /\ m = m'
  | Crashed c, Crashed c' => c = c'
  | _, _ => False
  end.
Proof.
  rewrite !triangulate_obeys. cbn [ff_cw logged].
  pose proof (logged_obey_same F (api_calls E ieqb gv (ff_cw F) dbg fuel math_n shuf elems)) as H.
  destruct (obey F _), (obey (logged F) _) as [r' [m' l']|c']; exact H.
Qed.

Lemma run_protocol r m evs : tri (logged F) = Returned r (m, evs) -> protocol evs r.
Proof.
  rewrite triangulate_obeys. cbn [ff_cw logged].
  pose proof (api_calls_starts (E := E) ieqb gv (ff_cw F) dbg fuel math_n shuf elems) as Hs.
  pose proof (nf_api (E := E) ieqb gv (ff_cw F) dbg fuel math_n shuf elems) as Hn.
  destruct (api_calls E _ _ _ _ _ _ _ _) as [l rr]. intros H. apply logged_obey in H; tauto.
Qed.

Definition event_error (e : event I E) : option E :=
  match e with EInit _ _ _ x | ENew _ _ _ x | EExt _ x | EBuild x => x | EFail => None end.

Lemma run_errors r m evs : tri (logged F) = Returned r (m, evs) ->
  (forall e, r = inr (TEFanBuilder e) <-> exists ev, In ev evs /\ event_error ev = Some e).
Proof.
  intros H. apply run_protocol in H.
  assert (Hok : forall l ev x, Forall ok_event l -> In ev l -> event_error ev = Some x -> False).
  { intros l ev x Hl Hi He. rewrite Forall_forall in Hl. specialize (Hl ev Hi).
    destruct ev as [a b c o|a b c o|v o|o|]; simpl in *; try destruct o; try contradiction; discriminate. }
  destruct H as [e He|a b c e|a b c evs o Ho|a b c evs e Ho|a b c evs e Ho He|a b c evs ev x Ho Hx]; intros x'; split.
  - intros [= ->]. destruct He.
  - intros (ev & [] & _).
  - intros [= <-]. eexists. split; [now left|reflexivity].
  - intros (ev & [<-|[]] & H). simpl in H. congruence.
  - discriminate.
  - intros (ev & [<-|Hi] & H); [discriminate|]. apply in_app_or in Hi. destruct Hi as [Hi|[<-|[]]]; [|discriminate].
    exfalso. eauto.
  - intros [= <-]. exists (EBuild (Some e)). split; auto. right. apply in_or_app. right. now left.
  - intros (ev & [<-|Hi] & H); [discriminate|]. apply in_app_or in Hi. destruct Hi as [Hi|[<-|[]]].
    + exfalso. eauto. + simpl in H. congruence.
  - intros [= ->]. destruct He.
  - intros (ev & [<-|Hi] & H); [discriminate|]. apply in_app_or in Hi. destruct Hi as [Hi|[<-|[]]]; [|discriminate].
    exfalso. eauto.
  - intros [= <-]. exists ev. split.
    + right. apply in_or_app. right. now left.
    + destruct ev as [? ? ? o|? ? ? o|? o|o|]; simpl in *; try destruct o; try contradiction. all: now subst.
  - intros (ev' & [<-|Hi] & H); [discriminate|]. apply in_app_or in Hi. destruct Hi as [Hi|[<-|[<-|[]]]].
    + exfalso. eauto.
    + destruct ev as [? ? ? o|? ? ? o|? o|o|]; simpl in *; try destruct o; try contradiction. all: congruence.
    + discriminate.
Qed.

Lemma run_prefix r m evs : tri (logged F) = Returned r (m, evs) ->
  (forall ro c, tri (recorder I E (ff_cw F)) = Returned ro c ->
     (exists rest, c = calls_in evs ++ rest) /\
     ((forall e, r <> inr (TEFanBuilder e)) -> c = calls_in evs /\ match ro, r with
        | inl _, inl _ => True | inr e, inr e' => e = e' | _, _ => False end)) .
Proof.
  rewrite triangulate_obeys. cbn [ff_cw logged].
  pose proof (api_calls_starts (E := E) ieqb gv (ff_cw F) dbg fuel math_n shuf elems) as Hs.
  pose proof (nf_api (E := E) ieqb gv (ff_cw F) dbg fuel math_n shuf elems) as Hn.
  intros H ro c Hr. rewrite tri_recorder in Hr.
  destruct (api_calls E _ _ _ _ _ _ _ _) as [l rr]. cbn [fst snd] in *.
  assert (Hc : c = l) by (destruct rr, l; congruence). subst c.
  pose proof H as H'. apply logged_obey in H; auto. destruct H as (HP & (rest & Hp) & Hq). split; [eauto|].
  intros Hne. split.
  { destruct Hq as [Hq|Hq]; auto. exfalso. destruct r as [o|[]]; simpl in Hq; try contradiction. eapply Hne; eauto. }
  unfold obey in H'. cbn [fst snd] in H'.
  destruct l as [|[i j k|v] l]; [| |destruct Hs].
  - destruct rr as [[]|e|y]; inversion Hr; inversion H'; subst; reflexivity.
  - cbn [ff_init logged] in H'. destruct (ff_init F i j k) as [b|[e m']].
    + apply logged_drive in H'.
      destruct H' as (suf & -> & [(oks & Ho & Hl & Hd)|(oks & x & e & rest' & Ho & -> & Hf & -> & Hl)]).
      * destruct Hd as [(o & -> & -> & ->)|[(e & -> & -> & ->)|(e & -> & -> & ->)]].
        -- inversion Hr. exact Logic.I.
        -- exfalso. eapply Hne; eauto.
        -- now inversion Hr.
      * exfalso. eapply Hne; eauto.
    + inversion H'; subst. exfalso. eapply Hne; eauto.
Qed.
End L.
End B.
