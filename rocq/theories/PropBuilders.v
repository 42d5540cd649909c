(** Properties C10-C20: output formats and the builder interface.

    Every theorem is about whole runs of [triangulate] on arbitrary input (any coordinate type, any vertices, any
    insertion order, any fuel).  [recorder] never fails and returns the builder calls it received; [fans_of] and
    [tris_of] read those calls as fans and triangles; [wind cw F] is [F] or [F] with reversed winding. *)
From Coq Require Import List Arith Bool QArith.
From Verif Require Import Base Coord Trap Mono Tri Trace Protocol Format FormatFacts Builders Runs FormatRuns BuilderProofs.
Import ListNotations.
Local Open Scope nat_scope.

Section Props.
Context {C : Type} {OC : CoordOps C} {I : Type}.
Variables (ieqb : I -> I -> bool) (gv : I -> coords C) (dbg : bool) (fuel : nat) (math_n : nat -> nat -> nat)
  (shuf : nat -> nat -> list nat) (elems : list (element I)) (cw : bool).
Notation tri F := (triangulate F ieqb gv dbg fuel math_n shuf elems).

(** C10, flat vector: previous content, then three entries per triangle. *)
Theorem C10_list_layout_flat (l0 out m : list I) :
  tri (wind cw (fan_to_list (indexed_list (vec_flat I) l0))) = Returned (inl out) m <->
  exists c, tri (recorder I Empty_set cw) = Returned (inl c) c /\ out = l0 ++ flat3 (tris_of c) /\ m = out.
Proof. exact (list_layout_flat ieqb gv dbg fuel math_n shuf elems cw l0 out m). Qed.

(** C10, vectors of arrays or tuples: previous content, then one entry per triangle. *)
Theorem C10_list_layout_triples (l0 out m : list (I * I * I)) :
  tri (wind cw (fan_to_list (indexed_list (vec_triples I) l0))) = Returned (inl out) m <->
  exists c, tri (recorder I Empty_set cw) = Returned (inl c) c /\ out = l0 ++ tris_of c /\ m = out.
Proof. exact (list_layout_triples ieqb gv dbg fuel math_n shuf elems cw l0 out m). Qed.

(** C11: previous content, then one entry per fan, each of at least three indices. *)
Theorem C11_fan_layout (fs0 out m : list (list I)) :
  tri (wind cw (indexed_fan (vec_fans (list I)) (vec_fan I) fs0)) = Returned (inl out) m <->
  exists c, tri (recorder I Empty_set cw) = Returned (inl c) c /\ out = fs0 ++ fans_of c /\ m = out /\
    Forall (fun f => 3 <= length f) (fans_of c).
Proof. exact (fan_layout ieqb gv dbg fuel math_n shuf elems cw fs0 out m). Qed.

(** C12: expanding the fans of the fan output gives the list output, and the other way round. *)
Theorem C12_fans_give_lists (out fs0 m : list (list I)) :
  tri (wind cw (indexed_fan (vec_fans (list I)) (vec_fan I) fs0)) = Returned (inl out) m ->
  exists fs, out = fs0 ++ fs /\ forall l0,
  tri (wind cw (fan_to_list (indexed_list (vec_triples I) l0))) =
    Returned (inl (l0 ++ concat (map fan_tris fs))) (l0 ++ concat (map fan_tris fs)).
Proof. exact (fans_equal_lists ieqb gv dbg fuel math_n shuf elems cw out fs0 m). Qed.

Theorem C12_lists_give_fans (l0 out m : list (I * I * I)) :
  tri (wind cw (fan_to_list (indexed_list (vec_triples I) l0))) = Returned (inl out) m ->
  exists fs, out = l0 ++ concat (map fan_tris fs) /\
  tri (wind cw (indexed_fan (vec_fans (list I)) (vec_fan I) [])) = Returned (inl fs) fs.
Proof. exact (lists_equal_fans ieqb gv dbg fuel math_n shuf elems cw l0 out m). Qed.

Section Deindexed.
Context {V : Type} (vertex : I -> V).

(** C13: deindexed fans, lists of triples and flat lists are the indexed ones with every index looked up. *)
Theorem C13_deindexed_fans :
  tri (wind cw (deindexed_fan vertex (vec_fans (list V)) (vec_fan V) [])) =
  match tri (wind cw (indexed_fan (vec_fans (list I)) (vec_fan I) [])) with
  | Returned (inl fs) _ => Returned (inl (map (map vertex) fs)) (map (map vertex) fs)
  | Returned (inr e) _ => Returned (inr e) []
  | Crashed c => Crashed c
  end.
Proof. exact (deindexed_fans ieqb gv dbg fuel math_n shuf elems cw vertex). Qed.

Theorem C13_deindexed_lists :
  tri (wind cw (fan_to_list (deindexed_list vertex (vec_triples V) []))) =
  match tri (wind cw (fan_to_list (indexed_list (vec_triples I) []))) with
  | Returned (inl l) _ =>
    Returned (inl (map (fun '(a, b, c) => (vertex a, vertex b, vertex c)) l))
      (map (fun '(a, b, c) => (vertex a, vertex b, vertex c)) l)
  | Returned (inr e) _ => Returned (inr e) []
  | Crashed c => Crashed c
  end.
Proof. exact (deindexed_lists ieqb gv dbg fuel math_n shuf elems cw vertex). Qed.

Theorem C13_deindexed_lists_flat :
  tri (wind cw (fan_to_list (deindexed_list vertex (vec_flat V) []))) =
  match tri (wind cw (fan_to_list (indexed_list (vec_flat I) []))) with
  | Returned (inl l) _ => Returned (inl (map vertex l)) (map vertex l)
  | Returned (inr e) _ => Returned (inr e) []
  | Crashed c => Crashed c
  end.
Proof. exact (deindexed_lists_flat ieqb gv dbg fuel math_n shuf elems cw vertex). Qed.

(** C15: after an error a fan collection is as before (indexed output is the case [vertex = id]). *)
Theorem C15_fans_rollback (fs0 m : list (list V)) e :
  tri (wind cw (deindexed_fan vertex (vec_fans (list V)) (vec_fan V) fs0)) = Returned (inr e) m -> m = fs0.
Proof. exact (fans_rollback ieqb gv dbg fuel math_n shuf elems cw vertex fs0 m e). Qed.

(** C16: the same for lists of triples, and for flat lists whose length is a multiple of three.
    Missing from C16: flat lists of other lengths, see [C16_list_rollback_refuted]. *)
Theorem C16_list_rollback_triples_partial (l0 m : list (V * V * V)) e :
  tri (wind cw (fan_to_list (deindexed_list vertex (vec_triples V) l0))) = Returned (inr e) m -> m = l0.
Proof. exact (triples_rollback ieqb gv dbg fuel math_n shuf elems cw vertex l0 m e). Qed.

Theorem C16_list_rollback_flat_partial (l0 m : list V) e : Nat.divide 3 (length l0) ->
  tri (wind cw (fan_to_list (deindexed_list vertex (vec_flat V) l0))) = Returned (inr e) m -> m = l0.
Proof. exact (flat_rollback ieqb gv dbg fuel math_n shuf elems cw vertex l0 m e). Qed.
End Deindexed.

Theorem C15_indexed_fans_rollback (fs0 m : list (list I)) e :
  tri (wind cw (indexed_fan (vec_fans (list I)) (vec_fan I) fs0)) = Returned (inr e) m -> m = fs0.
Proof. exact (fans_rollback ieqb gv dbg fuel math_n shuf elems cw (fun i => i) fs0 m e). Qed.

(** C14: the delimiter error occurs exactly when some index delivered equals the delimiter. *)
Theorem C14_delimited_error_iff delim out0 r c :
  tri (recorder I delim_error cw) = Returned r c ->
  ((exists m, tri (wind cw (delimited_fan (vec_fans I) ieqb delim out0)) =
      Returned (inr (TEFanBuilder IndexMatchesDelimiter)) m) <->
   exists i, In i (indices c) /\ ieqb delim i = true).
Proof. exact (delimited_error_iff ieqb gv dbg fuel math_n shuf elems cw delim out0 r c). Qed.

(** C14: splitting the output at the delimiters gives back the fans. *)
Theorem C14_delimited_decodes delim c m out m' :
  ieqb delim delim = true ->
  tri (recorder I delim_error cw) = Returned (inl c) m ->
  tri (wind cw (delimited_fan (vec_fans I) ieqb delim [])) = Returned (inl out) m' ->
  split_at ieqb delim out = fans_of c /\ m' = out.
Proof. exact (delimited_decodes ieqb gv dbg fuel math_n shuf elems cw delim c m out m'). Qed.

(** C14, any initial content: every fan is preceded by a delimiter except at the very beginning. *)
Theorem C14_delimited_layout delim out0 c m out m' :
  tri (recorder I delim_error cw) = Returned (inl c) m ->
  tri (wind cw (delimited_fan (vec_fans I) ieqb delim out0)) = Returned (inl out) m' ->
  m' = out /\ out = match out0 with
        | [] => tl (concat (map (cons delim) (fans_of c)))
        | _ => out0 ++ concat (map (cons delim) (fans_of c))
        end.
Proof. exact (delimited_layout ieqb gv dbg fuel math_n shuf elems cw delim out0 c m out m'). Qed.

(** C17: after an error the collection is as before, if the delimiter is not an index of the first triangle.
    Missing from C17: that case, see [C17_delimited_rollback_refuted]. *)
Theorem C17_delimited_rollback_partial delim out0 r c e m :
  tri (recorder I delim_error cw) = Returned r c ->
  existsb (ieqb delim) (firstn 3 (indices c)) = false ->
  tri (wind cw (delimited_fan (vec_fans I) ieqb delim out0)) = Returned (inr e) m -> m = out0.
Proof. exact (delimited_rollback ieqb gv dbg fuel math_n shuf elems cw delim out0 r c e m). Qed.

Section AnyBuilder.
Context {E Out M : Type} (F : fan_format I E Out M).

(** Logging does not change a run. *)
Theorem C18_logged_is_transparent :
  match tri F, tri (logged F) with
  | Returned r m, Returned r' (m', _) => r = r' /\ m = m'
  | Crashed c, Crashed c' => c = c'
  | _, _ => False
  end.
Proof. exact (logged_run ieqb gv dbg fuel math_n shuf elems F). Qed.

(** C18: the log of builder calls follows the protocol ([protocol] lists the six possible shapes). *)
Theorem C18_builder_protocol r m evs : tri (logged F) = Returned r (m, evs) -> protocol evs r.
Proof. exact (run_protocol ieqb gv dbg fuel math_n shuf elems F r m evs). Qed.

(** C19: a builder error is returned exactly when a builder call returned it. *)
Theorem C19_builder_errors r m evs : tri (logged F) = Returned r (m, evs) ->
  (forall e, r = inr (TEFanBuilder e) <-> exists ev, In ev evs /\ event_error ev = Some e).
Proof. exact (run_errors ieqb gv dbg fuel math_n shuf elems F r m evs). Qed.

(** C20: the calls made are a prefix of those the recorder of the same winding receives; and all of them, with the
    same result, unless the builder failed. *)
Theorem C20_calls_are_a_prefix r m evs : tri (logged F) = Returned r (m, evs) ->
  forall ro c, tri (recorder I E (ff_cw F)) = Returned ro c ->
     (exists rest, c = calls_in evs ++ rest) /\
     ((forall e, r <> inr (TEFanBuilder e)) -> c = calls_in evs /\ match ro, r with
        | inl _, inl _ => True | inr e, inr e' => e = e' | _, _ => False end).
Proof. exact (run_prefix ieqb gv dbg fuel math_n shuf elems F r m evs). Qed.
End AnyBuilder.
End Props.

(** C16 is false: a flat list whose length is no multiple of three loses content when a run fails. *)
Theorem C16_list_rollback_refuted :
  exists (l : list (coords Q)) (l0 m : list nat) e,
    run (fan_to_list (indexed_list (vec_flat nat) l0)) true 100 l = Returned (inr e) m /\ m <> l0.
Proof.
  exists overlap, [7], [], (TEInternal IE_EmptyStack). split; [vm_compute; reflexivity|discriminate].
Qed.

(** C17 is false: when the delimiter is an index of the first triangle, part of that triangle stays behind. *)
Theorem C17_delimited_rollback_refuted :
  exists (l : list (coords Q)) (delim : nat) (out0 m : list nat) e,
    run (delimited_fan (vec_fans nat) Nat.eqb delim out0) true 100 l = Returned (inr e) m /\ m <> out0.
Proof.
  exists ell, 3, [8; 9], [8; 9; 3; 4; 5], (TEFanBuilder IndexMatchesDelimiter). split; [vm_compute; reflexivity|discriminate].
Qed.

(** ** The hypotheses can be met *)

Example ex_C10_flat : run (fan_to_list (indexed_list (vec_flat nat) [9])) true 100 ell =
  Returned (inl [9; 4; 5; 3; 2; 3; 1; 0; 1; 3; 0; 3; 5]) [9; 4; 5; 3; 2; 3; 1; 0; 1; 3; 0; 3; 5].
Proof. vm_compute. reflexivity. Qed.
Example ex_C10_triples : run (fan_to_list (indexed_list (vec_triples nat) [])) true 100 ell =
  Returned (inl [(4, 5, 3); (2, 3, 1); (0, 1, 3); (0, 3, 5)]) [(4, 5, 3); (2, 3, 1); (0, 1, 3); (0, 3, 5)].
Proof. vm_compute. reflexivity. Qed.
Example ex_C11_C12 : run (indexed_fan (vec_fans (list nat)) (vec_fan nat) [[9]]) true 100 ell =
  Returned (inl [[9]; [4; 5; 3]; [2; 3; 1]; [0; 1; 3; 5]]) [[9]; [4; 5; 3]; [2; 3; 1]; [0; 1; 3; 5]].
Proof. vm_compute. reflexivity. Qed.
Example ex_C13 : run (deindexed_fan (gv_of ell) (vec_fans _) (vec_fan _) []) true 100 ell =
  Returned (inl [[pt 2 5; pt 0 4; pt 2 2]; [pt 4 2; pt 2 2; pt 4 1]; [pt 0 0; pt 4 1; pt 2 2; pt 0 4]])
    [[pt 2 5; pt 0 4; pt 2 2]; [pt 4 2; pt 2 2; pt 4 1]; [pt 0 0; pt 4 1; pt 2 2; pt 0 4]].
Proof. vm_compute. reflexivity. Qed.
Example ex_C14 : run (delimited_fan (vec_fans nat) Nat.eqb 77 []) true 100 ell =
  Returned (inl [4; 5; 3; 77; 2; 3; 1; 77; 0; 1; 3; 5]) [4; 5; 3; 77; 2; 3; 1; 77; 0; 1; 3; 5].
Proof. vm_compute. reflexivity. Qed.
Example ex_C14_recorder : run (recorder nat delim_error false) true 100 ell = Returned (inl ell_calls) ell_calls.
Proof. vm_compute. reflexivity. Qed.
Example ex_C14_C17_C18_C19_C20 : run (logged (delimited_fan (vec_fans nat) Nat.eqb 1 [8])) true 100 ell =
  Returned (inr (TEFanBuilder IndexMatchesDelimiter))
    ([8], [EInit 4 5 3 None; ENew 2 3 1 (Some IndexMatchesDelimiter); EFail]).
Proof. vm_compute. reflexivity. Qed.
Example ex_C15 : run (indexed_fan (vec_fans (list nat)) (vec_fan nat) [[9]]) true 100 overlap =
  Returned (inr (TEInternal IE_EmptyStack)) [[9]].
Proof. vm_compute. reflexivity. Qed.
Example ex_C16_triples : run (fan_to_list (indexed_list (vec_triples nat) [(1, 1, 1)])) true 100 overlap =
  Returned (inr (TEInternal IE_EmptyStack)) [(1, 1, 1)].
Proof. vm_compute. reflexivity. Qed.
Example ex_C16_flat : run (fan_to_list (indexed_list (vec_flat nat) [1; 1; 1])) true 100 overlap =
  Returned (inr (TEInternal IE_EmptyStack)) [1; 1; 1].
Proof. vm_compute. reflexivity. Qed.

Print Assumptions C10_list_layout_flat.
Print Assumptions C10_list_layout_triples.
Print Assumptions C11_fan_layout.
Print Assumptions C12_fans_give_lists.
Print Assumptions C12_lists_give_fans.
Print Assumptions C13_deindexed_fans.
Print Assumptions C13_deindexed_lists.
Print Assumptions C13_deindexed_lists_flat.
Print Assumptions C14_delimited_error_iff.
Print Assumptions C14_delimited_decodes.
Print Assumptions C14_delimited_layout.
Print Assumptions C15_fans_rollback.
Print Assumptions C15_indexed_fans_rollback.
Print Assumptions C16_list_rollback_triples_partial.
Print Assumptions C16_list_rollback_flat_partial.
Print Assumptions C16_list_rollback_refuted.
Print Assumptions C17_delimited_rollback_partial.
Print Assumptions C17_delimited_rollback_refuted.
Print Assumptions C18_logged_is_transparent.
Print Assumptions C18_builder_protocol.
Print Assumptions C19_builder_errors.
Print Assumptions C20_calls_are_a_prefix.
