(** What a clockwise builder receives (C05). *)
From Coq Require Import QArith Qabs Lqa List Arith Bool Lia Permutation.
From Verif Require Import Base Coord Trap Mono Tri Trace Protocol Format Builders FormatRuns Runs Plane MonoProof MonoGeom ValidRuns ValidB EvenOdd Whole Budget Outcome Area PropBuilders PropTri PropCount Mirror.
Import ListNotations.
Local Open Scope nat_scope.

(** C05, what holds on every input, for all coordinates: the run with a clockwise builder has the outcome of the run with a counterclockwise one, and if
    it succeeds the fans received correspond one to one: each is the counterclockwise fan turned over as a whole ([mirror]), which is what is asked for, or
    this with its first and third vertex exchanged ([swap13]), which is what goes wrong. *)
Theorem C05_fans_partial {C I} {OC : CoordOps C} E ieqb (gv : I -> coords C) dbg fuel math_n shuf elems :
  match triangulate (recorder I E true) ieqb gv dbg fuel math_n shuf elems, triangulate (recorder I E false) ieqb gv dbg fuel math_n shuf elems with
  | Returned (inl c) _, Returned (inl c') _ => Forall2 turned (fans_of c) (fans_of c')
  | Returned (inr e) _, Returned (inr e') _ => e = e'
  | Crashed k, Crashed k' => k = k'
  | _, _ => False
  end.
Proof.
  rewrite !tri_recorder. pose proof (api_calls_starts (E := E) ieqb gv true dbg fuel math_n shuf elems) as S1. pose proof (api_calls_starts (E := E) ieqb gv false dbg fuel math_n shuf elems) as S2.
  destruct (calls_twin (E := E) ieqb gv dbg fuel math_n shuf elems) as (Hr & Hf).
  destruct (api_calls E ieqb gv true dbg fuel math_n shuf elems) as [l r]. destruct (api_calls E ieqb gv false dbg fuel math_n shuf elems) as [l' r']. cbn [fst snd] in *. subst r'.
  assert (Hne : forall c : list (call I), starts c -> fans_of c = [] -> c = []).
  { intros [|[i j k|v] c]; cbn; auto; [|contradiction]. intros _. assert (K : forall cur, fans_from cur c <> []); [|now intros H; elim (K _ H)].
    induction c as [|[i' j' k'|v] c IH]; cbn; intros cur; try discriminate. apply IH. }
  destruct r as [[]|e|k].
  - specialize (Hf ltac:(discriminate)). destruct l as [|x l], l' as [|x' l']; auto.
    + assert (K : fans_of (x' :: l') = []) by (change (fans_of []) with (@nil (list I)) in Hf; remember (fans_of (x' :: l')) as z; inversion Hf; reflexivity). apply Hne in K; [discriminate|exact S2].
    + assert (K : fans_of (x :: l) = []) by (change (fans_of []) with (@nil (list I)) in Hf; remember (fans_of (x :: l)) as z; inversion Hf; reflexivity). apply Hne in K; [discriminate|exact S1].
  - destruct l, l'; reflexivity.
  - destruct l, l'; reflexivity.
Qed.

(** C05: the same for the library's fan output: the fans delivered by the reversed format are those of the format itself, turned over. *)
Theorem C05_fan_output_partial {C I} {OC : CoordOps C} ieqb (gv : I -> coords C) dbg fuel math_n shuf elems :
  let F := indexed_fan (vec_fans (list I)) (vec_fan I) [] in
  (forall fs, triangulate (reverse_fan F) ieqb gv dbg fuel math_n shuf elems = Returned (inl fs) fs ->
    exists gs, triangulate F ieqb gv dbg fuel math_n shuf elems = Returned (inl gs) gs /\ Forall2 turned fs gs) /\
  (forall gs, triangulate F ieqb gv dbg fuel math_n shuf elems = Returned (inl gs) gs ->
    exists fs, triangulate (reverse_fan F) ieqb gv dbg fuel math_n shuf elems = Returned (inl fs) fs /\ Forall2 turned fs gs).
Proof.
  cbv zeta. pose proof (indexed_fan_run ieqb gv dbg fuel math_n shuf elems true []) as H1. pose proof (indexed_fan_run ieqb gv dbg fuel math_n shuf elems false []) as H2.
  cbn [wind app] in H1, H2. rewrite H1, H2. clear H1 H2. pose proof (C05_fans_partial Empty_set ieqb gv dbg fuel math_n shuf elems) as K.
  destruct (triangulate (recorder I Empty_set true) ieqb gv dbg fuel math_n shuf elems) as [[c|e] m|k], (triangulate (recorder I Empty_set false) ieqb gv dbg fuel math_n shuf elems) as [[c'|e'] m'|k']; try contradiction;
    (split; [intros fs H|intros gs H]); try discriminate; injection H as <-; eexists; (split; [reflexivity|exact K]).
Qed.

(** ** Consequences for valid polygons *)

Lemma pairs_in {I} (r a b : I) l : In (r, a, b) (pairs r l) <-> exists u v, l = u ++ a :: b :: v.
Proof.
  induction l as [|x l IH]; [split; [intros []|intros ([|? u] & v & H); discriminate]|]. destruct l as [|y l].
  - split; [intros []|]. intros ([|? [|? u]] & v & H); discriminate.
  - change (pairs r (x :: y :: l)) with ((r, x, y) :: pairs r (y :: l)). cbn [In]. rewrite IH. split.
    + intros [H|(u & v & H)]; [injection H as <- <-; now exists [], l|]. exists (x :: u), v. now rewrite H.
    + intros ([|z u] & v & H); [injection H as <- <- _; now left|]. right. exists u, v. now injection H.
Qed.

Lemma pairs_rev {I} (r a b : I) l : In (r, a, b) (pairs r (rev l)) <-> In (r, b, a) (pairs r l).
Proof.
  rewrite !pairs_in. split; intros (u & v & H); exists (rev v), (rev u).
  - apply (f_equal (@rev _)) in H. rewrite rev_involutive, rev_app_distr in H. cbn [rev] in H. rewrite <- !app_assoc in H. exact H.
  - rewrite H, rev_app_distr. cbn [rev]. now rewrite <- !app_assoc.
Qed.

Lemma pairs_pivot {I} (r a b c : I) l : In (a, b, c) (pairs r l) -> a = r.
Proof.
  induction l as [|x l IH]; [intros []|]. destruct l as [|y l]; [intros []|]. change (pairs r (x :: y :: l)) with ((r, x, y) :: pairs r (y :: l)).
  intros [H|H]; auto. now injection H.
Qed.

Lemma cross_flip (a b c : point) : (cross a c b == - cross a b c)%Q.
Proof. unfold cross. destruct a, b, c. cbn. ring. Qed.
Lemma cross_turn (a b c : point) : (cross b c a == cross a b c)%Q.
Proof. unfold cross. destruct a, b, c. cbn. ring. Qed.

(** A fan none of whose triangles is clockwise, turned over. *)
Lemma turned_signs {I} (gv : I -> point) (f g : list I) : turned f g -> (forall a b c, In (a, b, c) (fan_tris g) -> (0 <= cross (gv a) (gv b) (gv c))%Q) ->
  (forall a b c, In (a, b, c) (fan_tris f) -> (cross (gv a) (gv b) (gv c) <= 0)%Q) \/
  (forall a b c, In (a, b, c) (firstn 2 (fan_tris f)) -> (0 <= cross (gv a) (gv b) (gv c))%Q).
Proof.
  intros Ht Hg. destruct g as [|r l].
  - left. destruct Ht as [-> | ->]; cbn; intros a b c [].
  - assert (Hm : forall a b, In (r, a, b) (pairs r (rev l)) -> (cross (gv r) (gv a) (gv b) <= 0)%Q).
    { intros a b H. apply (proj1 (pairs_rev r a b l)) in H. specialize (Hg r b a H). pose proof (cross_flip (gv r) (gv b) (gv a)). lra. }
    destruct Ht as [-> | ->].
    + left. cbn [mirror fan_tris]. intros a b c H. pose proof (pairs_pivot _ _ _ _ _ H). subst a. now apply Hm.
    + cbn [mirror]. destruct (rev l) as [|y [|x k]]; [left; intros a b c []|left; cbn; intros a b c []|].
      right. cbn [swap13 fan_tris]. intros a b c. destruct k as [|d k].
      * cbn [pairs firstn In]. intros [H|[]]. injection H as <- <- <-. specialize (Hm y x (or_introl eq_refl)).
        pose proof (cross_flip (gv x) (gv r) (gv y)). pose proof (cross_turn (gv x) (gv r) (gv y)). lra.
      * cbn [pairs firstn In]. intros [H|[H|[]]]; injection H as <- <- <-.
        -- specialize (Hm y x (or_introl eq_refl)). pose proof (cross_flip (gv x) (gv r) (gv y)). pose proof (cross_turn (gv x) (gv r) (gv y)). lra.
        -- specialize (Hm x d (or_intror (or_introl eq_refl))). pose proof (cross_turn (gv d) (gv x) (gv r)). pose proof (cross_flip (gv d) (gv r) (gv x)). pose proof (cross_turn (gv d) (gv r) (gv x)). pose proof (cross_turn (gv x) (gv d) (gv r)). pose proof (cross_flip (gv x) (gv d) (gv r)). pose proof (cross_turn (gv r) (gv x) (gv d)). lra.
Qed.

(** The same triangles up to their order and the order of the vertices of each. *)
Definition shuffled {A} (t u : A * A * A) : Prop := let '(a, b, c) := t in let '(a', b', c') := u in Permutation [a; b; c] [a'; b'; c'].
Definition same_shapes {A} (l l' : list (A * A * A)) : Prop := exists m, Forall2 shuffled l m /\ Permutation m l'.

Lemma same_shapes_app {A} (a b c d : list (A * A * A)) : same_shapes a b -> same_shapes c d -> same_shapes (a ++ c) (b ++ d).
Proof. intros (m & H1 & H2) (m' & H3 & H4). exists (m ++ m'). split; [now apply Forall2_app|now apply Permutation_app]. Qed.

Lemma shapes_concat {I} (fs gs : list (list I)) : Forall2 (fun f g => same_shapes (fan_tris f) (fan_tris g)) fs gs -> same_shapes (concat (map fan_tris fs)) (concat (map fan_tris gs)).
Proof. induction 1; cbn; [exists []; split; constructor|]. now apply same_shapes_app. Qed.

Lemma mirror_shapes {I} (g : list I) : same_shapes (fan_tris (mirror g)) (fan_tris g).
Proof.
  destruct g as [|r l]; [exists []; split; constructor|]. cbn [mirror fan_tris].
  exists (rev (pairs r l)). split; [|symmetry; apply Permutation_rev].
  assert (K : forall l' : list I, pairs r (rev l') = rev (map (fun '(a, b, c) => (a, c, b)) (pairs r l'))).
  { intros l'. pose proof (pairs_conse (fun x : I => x) r) as P. rewrite <- (map_id (rev l')), <- (map_id l') at 1. rewrite !P.
    rewrite map_rev, map_id at 1 || idtac. rewrite <- (map_id l') at 2. rewrite P. rewrite map_map. rewrite ?map_id. rewrite conse_rev. rewrite map_rev, map_map. reflexivity. }
  rewrite K. generalize (pairs r l). intros T. rewrite <- map_rev. generalize (rev T). clear. induction l as [|[[a b] c] l IH]; constructor; auto. cbn. constructor. apply perm_swap.
Qed.

Lemma turned_shapes {I} (f g : list I) : turned f g -> length f <= 4 -> same_shapes (fan_tris f) (fan_tris g).
Proof.
  intros [-> | ->] Hl; [apply mirror_shapes|]. destruct (mirror_shapes g) as (m & H1 & H2). exists m. split; auto. clear H2.
  assert (L4 : length (mirror g) <= 4). { revert Hl. destruct (mirror g) as [|a [|b [|c k]]]; auto. }
  destruct (mirror g) as [|a [|b [|c [|d [|e k]]]]]; auto; [| |cbn in L4; lia].
  - cbn [swap13 fan_tris pairs] in *. inversion H1 as [|t u l l' Hs Hn]; subst. inversion Hn; subst. constructor; auto.
    destruct u as [[x y] z]. cbn in *. rewrite <- Hs. exact (Permutation_sym (Permutation_rev [a; b; c])).
  - cbn [swap13 fan_tris pairs] in *. inversion H1 as [|t u l l' Hs Hn]; subst. inversion Hn as [|t' u' l'' l3 Hs' Hn']; subst. inversion Hn'; subst. constructor; [|constructor; auto].
    + destruct u as [[x y] z]. cbn in *. rewrite <- Hs. exact (Permutation_sym (Permutation_rev [a; b; c])).
    + destruct u' as [[x y] z]. cbn in *. rewrite <- Hs'. constructor.
Qed.

Section Valid.
Context {I : Type}.
Variables (gv : I -> point) (ieqb : I -> I -> bool) (dbg : bool) (math_n : nat -> nat -> nat) (shuf : nat -> nat -> list nat).
Hypothesis Hieq : forall a b, ieqb a b = true <-> a = b.
Hypothesis Hshuf : forall k n, Permutation (shuf k n) (seq 0 n).
Variable elems : list (element I).
Notation ps := (map (map gv) (groups elems)).
Hypothesis HV : valid ps.
Hypothesis Hps : ps <> [].
Notation returns T := (returns gv ieqb dbg math_n shuf elems T).

(** The fans collected when clockwise triangles are asked for. *)
Definition returns_clockwise (fs : list (list I)) : Prop :=
  exists fuel, triangulate (reverse_fan (indexed_fan (vec_fans (list I)) (vec_fan I) [])) ieqb gv dbg fuel math_n shuf elems = Returned (inl fs) fs.

Lemma clockwise_pair fs : returns_clockwise fs -> exists gs, Forall2 turned fs gs /\ returns (concat (map fan_tris gs)).
Proof.
  intros (fuel & H). destruct (proj1 (C05_fan_output_partial ieqb gv dbg fuel math_n shuf elems) fs H) as (gs & Hg & Ht). exists gs. split; auto. exists fuel.
  destruct (C12_fans_give_lists ieqb gv dbg fuel math_n shuf elems false gs [] gs Hg) as (fs' & E & K). cbn [app] in E. subst fs'. exact (K []).
Qed.

(** C05: clockwise fans are returned, and of each fan either no triangle is counterclockwise, as it should be, or its first two are not clockwise. *)
Theorem C05_winding_partial : (exists fs, returns_clockwise fs) /\
  forall fs, returns_clockwise fs -> forall f, In f fs ->
    (forall a b c, In (a, b, c) (fan_tris f) -> (cross (gv a) (gv b) (gv c) <= 0)%Q) \/
    (forall a b c, In (a, b, c) (firstn 2 (fan_tris f)) -> (0 <= cross (gv a) (gv b) (gv c))%Q).
Proof.
  split.
  - destruct (C01_returns gv ieqb dbg math_n shuf Hieq Hshuf elems HV Hps) as (T & fuel & H).
    destruct (C12_lists_give_fans ieqb gv dbg fuel math_n shuf elems false [] T T H) as (gs & _ & Hg).
    destruct (proj2 (C05_fan_output_partial ieqb gv dbg fuel math_n shuf elems) gs Hg) as (fs & Hf & _). now exists fs, fuel.
  - intros fs H f Hf. destruct (clockwise_pair fs H) as (gs & Ht & HT).
    assert (K : exists g, In g gs /\ turned f g). { clear H HT. induction Ht as [|x y fs gs H Ht IH]; [elim Hf|]. destruct Hf as [<-|Hf]; [exists y; cbn; auto|]. destruct (IH Hf) as (g & Hg & Hfg). exists g. cbn. auto. }
    destruct K as (g & Hg & Hfg). apply (turned_signs gv f g Hfg). intros a b c Hin.
    apply (C04_returned gv ieqb dbg math_n shuf Hieq Hshuf elems HV Hps _ a b c HT). apply in_concat. exists (fan_tris g). split; auto. now apply in_map.
Qed.

Definition flat_area (t : I * I * I) : Q := let '(a, b, c) := t in Qabs (cross (gv a) (gv b) (gv c)).

Lemma shuffled_area t u : shuffled t u -> (flat_area t == flat_area u)%Q.
Proof.
  destruct t as [[a b] c], u as [[a' b'] c']. unfold shuffled, flat_area. intros H.
  assert (K : forall x y z : I, (Qabs (cross (gv x) (gv z) (gv y)) == Qabs (cross (gv x) (gv y) (gv z)))%Q) by (intros; rewrite cross_flip; apply Qabs_opp).
  assert (K' : forall x y z : I, (Qabs (cross (gv y) (gv z) (gv x)) == Qabs (cross (gv x) (gv y) (gv z)))%Q) by (intros; now rewrite cross_turn).
  assert (Ha : In a [a'; b'; c']) by (apply (Permutation_in a H); now left).
  destruct Ha as [<-|[<-|[<-|[]]]].
  - apply Permutation_cons_inv in H. apply Permutation_length_2_inv in H. destruct H as [H|H]; injection H as <- <-; [reflexivity|apply K].
  - assert (H' : Permutation [b'; b; c] [b'; a'; c']) by (rewrite H; apply perm_swap). apply Permutation_cons_inv in H'. apply Permutation_length_2_inv in H'. destruct H' as [H'|H']; injection H' as <- <-.
    + pose proof (K a' b' c'). pose proof (K' b' a' c'). lra.
    + exact (K' a' b' c').
  - assert (H' : Permutation [c'; b; c] [c'; a'; b']). { rewrite H. change [a'; b'; c'] with ([a'; b'] ++ [c']). rewrite Permutation_app_comm. reflexivity. } apply Permutation_cons_inv in H'. apply Permutation_length_2_inv in H'. destruct H' as [H'|H']; injection H' as <- <-.
    + pose proof (K' c' a' b'). lra.
    + pose proof (K c' a' b'). pose proof (K' c' a' b'). lra.
Qed.

(** C05: if no fan received has more than two triangles, the triangles received are those of the counterclockwise triangulation, orientation disregarded;
    so their areas add up to the area of the interior. *)
Theorem C05_short_fans_partial fs : returns_clockwise fs -> (forall f, In f fs -> length f <= 4) ->
  (exists T, returns T /\ same_shapes (concat (map fan_tris fs)) T) /\ (sumq flat_area (concat (map fan_tris fs)) == interior2 ps)%Q.
Proof.
  intros H Hl. destruct (clockwise_pair fs H) as (gs & Ht & HT).
  assert (Hs : same_shapes (concat (map fan_tris fs)) (concat (map fan_tris gs))).
  { apply shapes_concat. clear H HT. induction Ht as [|x y fs gs H Ht IH]; constructor; [apply turned_shapes; auto; apply Hl; now left|]. apply IH. intros f Hf. apply Hl. now right. }
  split; [exists (concat (map fan_tris gs)); auto|].
  rewrite <- (C02_area gv ieqb dbg math_n shuf Hieq Hshuf elems HV Hps _ HT).
  destruct Hs as (m & H1 & H2). transitivity (sumq flat_area m).
  { clear -H1. induction H1 as [|x y l l' Hxy H1 IH]; [reflexivity|]. cbn [sumq]. now rewrite (shuffled_area x y Hxy), IH. }
  transitivity (sumq flat_area (concat (map fan_tris gs))).
  { clear -H2. induction H2; cbn [sumq]; [reflexivity|now rewrite IHPermutation|ring|now rewrite IHPermutation1]. }
  assert (K : forall t, In t (concat (map fan_tris gs)) -> (flat_area t == area2 gv t)%Q).
  { intros [[a b] c] Hin. change (Qabs (cross (gv a) (gv b) (gv c)) == cross (gv a) (gv b) (gv c))%Q. apply Qabs_pos. exact (proj2 (proj2 (proj2 (C04_returned gv ieqb dbg math_n shuf Hieq Hshuf elems HV Hps _ a b c HT Hin)))). }
  revert K. generalize (concat (map fan_tris gs)). induction l as [|t l IH]; intros K; [reflexivity|]. cbn [sumq]. rewrite (K t (or_introl eq_refl)), IH; [reflexivity|]. intros u Hu. apply K. now right.
Qed.
End Valid.

(** A run that asks for clockwise fans. *)
Definition clockwise_run (l : list (coords Q)) : outcome Empty_set (list (list nat)) (list (list nat)) :=
  triangulate (reverse_fan (indexed_fan (vec_fans (list nat)) (vec_fan nat) [])) Nat.eqb (gv_of l) true 100 never in_order (elems_of l).

(** The L shape: all fans arrive turned over, as they should, and none has more than two triangles. *)
Example C05_short_case : returns_clockwise (gv_of ell) Nat.eqb true never in_order (elems_of ell) [[4; 3; 5]; [2; 1; 3]; [0; 5; 3; 1]] /\
  returns (gv_of ell) Nat.eqb true never in_order (elems_of ell) [(4, 5, 3); (2, 3, 1); (0, 1, 3); (0, 3, 5)] /\
  (sumq (flat_area (gv_of ell)) (concat (map fan_tris [[4; 3; 5]; [2; 1; 3]; [0; 5; 3; 1]]%nat)) == interior2 (map (map (gv_of ell)) (groups (elems_of ell))))%Q.
Proof.
  assert (H : returns_clockwise (gv_of ell) Nat.eqb true never in_order (elems_of ell) [[4; 3; 5]; [2; 1; 3]; [0; 5; 3; 1]]) by (exists 100; vm_compute; reflexivity).
  split; [exact H|]. split; [exact C06_single_case|].
  refine (proj2 (C05_short_fans_partial (gv_of ell) Nat.eqb true never in_order nat_eqb_dec in_order_perm (elems_of ell) ell_valid _ _ H _)); [discriminate|].
  intros f [<-|[<-|[<-|[]]]]; cbn; lia.
Qed.

(** The pentagon of [C05_area_refuted]: the fan 0 4 3 2 1 should arrive as 0 1 2 3 4 and arrives as 2 1 0 3 4. *)
Example C05_exchanged_case : exists f g, clockwise_run penta = Returned (inl [f]) [f] /\
  triangulate (indexed_fan (vec_fans (list nat)) (vec_fan nat) []) Nat.eqb (gv_of penta) true 100 never in_order (elems_of penta) = Returned (inl [g]) [g] /\
  g = [0; 4; 3; 2; 1] /\ f = [2; 1; 0; 3; 4] /\ f = swap13 (mirror g).
Proof.
  exists [2; 1; 0; 3; 4], [0; 4; 3; 2; 1]. split; [vm_compute; reflexivity|]. split; [vm_compute; reflexivity|]. split; [reflexivity|]. split; reflexivity.
Qed.

Print Assumptions C05_fans_partial.
Print Assumptions C05_fan_output_partial.
Print Assumptions C05_winding_partial.
Print Assumptions C05_short_fans_partial.
