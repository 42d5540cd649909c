(** The count of [TriWork] bounds every loop: a step budget as large as the count is enough. *)
From Coq Require Import List Arith Bool Lia.
From Verif Require Import Base Coord Trap Mono Tri TriWork.
Import ListNotations.

(** The counter does not decrease, and if the counted run ends with at most [D] then [r] has its result. *)
Definition suf {S E A} (D c : nat) (rc : sres (S * nat) E A) (r : sres S E A) : Prop :=
  c <= snd (fst rc) /\ (snd rc <> Crash Fuel -> snd (fst rc) <= D -> fst r = fst (fst rc) /\ snd r = snd rc).

Section Rules.
Context {S E : Type}.
Variable D : nat.

Lemma suf_bind {A B} c (rc : sres (S * nat) E A) r (fc : S * nat -> A -> sres (S * nat) E B) f : suf D c rc r ->
  (forall s c' a, c <= c' -> suf D c' (fc (s, c') a) (f s a)) -> suf D c (sbind rc fc) (sbind r f).
Proof.
  intros (H1 & H2) HF. destruct rc as [[s c'] [a|e|cr]]; cbn in H1, H2; unfold sbind; cbn [fst snd].
  - destruct (HF s c' a H1) as (K1 & K2). split; [lia|]. intros Hn Hd. destruct H2 as (E1 & E2); [discriminate|lia|]. destruct r as [s' x]. cbn in E1, E2. subst s' x. cbn. auto.
  - split; auto. cbn. intros _ Hd. destruct H2 as (E1 & E2); [discriminate|lia|]. destruct r as [s' x]. cbn in E1, E2. subst s' x. cbn. auto.
  - split; auto. cbn. intros Hn Hd. destruct H2 as (E1 & E2); [congruence|lia|]. destruct r as [s' x]. cbn in E1, E2. subst s' x. cbn. auto.
Qed.

Lemma suf_ret {A} c c' (s : S) (r : res E A) : c <= c' -> suf D c ((s, c'), r) (s, r).
Proof. split; cbn; auto. Qed.
Lemma suf_out {A} c c' (s : S) (r : sres S E A) : c <= c' -> suf D c ((s, c'), Crash Fuel) r.
Proof. split; cbn; auto. intros Hn. now destruct Hn. Qed.
Lemma suf_over {A} c (f : S -> sres S E A) s : suf D c (over f (s, c)) (f s).
Proof. split; cbn; auto. Qed.
Lemma suf_le {A} c c' (rc : sres (S * nat) E A) r : suf D c' rc r -> c <= c' -> suf D c rc r.
Proof. intros (H1 & H2) H. split; auto. lia. Qed.
(** A tick beyond the budget. *)
Lemma suf_over_budget {A} c (rc : sres (S * nat) E A) r r' : suf D (Datatypes.S c) rc r' -> D <= c -> suf D c rc r.
Proof. intros (H1 & H2) H. split; [lia|]. intros _ Hd. lia. Qed.
End Rules.

Ltac sf := repeat (cbv beta; match goal with
  | |- suf _ _ (sbind _ _) (sbind _ _) => apply suf_bind; [|intros ? ? ? ?]
  | |- suf _ _ (lift (inc _) _) (lift _ _) => apply suf_ret; cbn; lia
  | |- suf _ _ (lift _ _) (lift _ _) => apply suf_ret; cbn; lia
  | |- suf _ _ (_, _) (_, _) => apply suf_ret; cbn; lia
  | |- suf _ _ (over ?f _) _ => apply (suf_over _ _ f)
  | |- suf _ _ (match new_c ?n (?s, _) ?a ?b ?d with _ => _ end) _ => unfold new_c, over; cbn [fst snd]; destruct (n s a b d) as [? [?|?|?]]; cbn [fst snd]
  | |- suf _ _ (let '(_, _) := ?x in _) _ => destruct x
  | |- suf _ _ (if ?x then _ else _) _ => destruct x
  | |- suf _ _ (match ?x with _ => _ end) _ => destruct x
  end).

Section Bud.
Context {C : Type} {OC : CoordOps C} {I : Type} {S E : Type}.
Variable newf : S -> I -> I -> I -> sres S (tri_error E) unit.
Variable ext : S -> I -> sres S (tri_error E) unit.
Variable cw : bool.
Variable D : nat.
Notation err := (tri_error E).

Lemma add_triangle_bud direct dt s c v : suf D c (add_triangle (ext_c ext) direct dt (s, c) v) (add_triangle ext direct dt s v).
Proof. unfold add_triangle, ext_c, over. destruct direct; [|apply suf_ret; lia]. cbn. destruct (ext s v) as [s' [u|e|cr]]; apply suf_ret; lia. Qed.

Lemma new_bud c s a b d : suf D c (new_c newf (s, c) a b d) (newf s a b d).
Proof. apply (suf_over D c (fun s => newf s a b d)). Qed.
Lemma ext_bud c s a : suf D c (ext_c ext (s, c) a) (ext s a).
Proof. apply (suf_over D c (fun s => ext s a)). Qed.

(** The counter is larger after an iteration, whatever the budget. *)
Lemma back_bud : forall k k' (m : mono C I) direct dt s c, D <= c + k' -> suf D c (back_loop_c ext k m direct dt (s, c)) (back_loop ext k' m direct dt s).
Proof.
  induction k as [|k IH]; intros k' m direct dt s c Hk; [now apply suf_out|].
  assert (G : forall j, D <= Datatypes.S c + j -> suf D (Datatypes.S c) (back_loop_c ext (Datatypes.S k) m direct dt (s, c)) (back_loop ext (Datatypes.S j) m direct dt s)).
  { intros j Hj. cbn [back_loop_c back_loop]. sf; [apply add_triangle_bud|]. apply IH. lia. }
  destruct k' as [|k']; [apply (suf_over_budget _ _ _ _ _ (G 0 ltac:(lia))); lia|apply (suf_le _ _ _ _ _ (G k' ltac:(lia))); lia].
Qed.

Lemma advance_bud : forall k k' (m : mono C I) direct dt s c, D <= c + k' -> suf D c (advance_loop_c ext k m direct dt (s, c)) (advance_loop ext k' m direct dt s).
Proof.
  induction k as [|k IH]; intros k' m direct dt s c Hk; [now apply suf_out|].
  assert (G : forall j, D <= Datatypes.S c + j -> suf D (Datatypes.S c) (advance_loop_c ext (Datatypes.S k) m direct dt (s, c)) (advance_loop ext (Datatypes.S j) m direct dt s)).
  { intros j Hj. cbn [advance_loop_c advance_loop]. sf; [apply add_triangle_bud|]. apply IH. lia. }
  destruct k' as [|k']; [apply (suf_over_budget _ _ _ _ _ (G 0 ltac:(lia))); lia|apply (suf_le _ _ _ _ _ (G k' ltac:(lia))); lia].
Qed.

Lemma deferred_bud (m : mono C I) back : forall n i s c, suf D c (deferred_loop_c ext m back i n (s, c)) (deferred_loop ext m back i n s).
Proof. induction n as [|n IH]; intros i s c; cbn [deferred_loop_c deferred_loop]; sf; [apply ext_bud|]. apply IH. Qed.

Lemma one_fan_bud fuel (m : mono C I) s c : suf D c (one_fan_c newf ext cw fuel m (s, c)) (one_fan newf ext cw D m s).
Proof.
  unfold one_fan_c, one_fan. sf; try apply add_triangle_bud; try (apply back_bud; lia); try (apply advance_bud; lia); try apply new_bud; try apply deferred_bud.
Qed.

Lemma fans_bud fuel : forall k k' (m : mono C I) s c, D <= c + k' -> suf D c (build_fans_c newf ext cw fuel k m (s, c)) (build_fans newf ext cw D k' m s).
Proof.
  induction k as [|k IH]; intros k' m s c Hk; [now apply suf_out|].
  assert (G : forall j, D <= Datatypes.S c + j -> suf D (Datatypes.S c) (build_fans_c newf ext cw fuel (Datatypes.S k) m (s, c)) (build_fans newf ext cw D (Datatypes.S j) m s)).
  { intros j Hj. cbn [build_fans_c build_fans]. sf; try apply one_fan_bud; apply IH; lia. }
  destruct k' as [|k']; [apply (suf_over_budget _ _ _ _ _ (G 0 ltac:(lia))); lia|apply (suf_le _ _ _ _ _ (G k' ltac:(lia))); lia].
Qed.

Variable gv : I -> coords C.
Variable fuel : nat.
Variable st : state C I.

Lemma finish_bud b s c : suf D c (finish_c newf ext cw fuel b (s, c)) (finish newf ext cw D b s).
Proof. unfold finish_c, finish. destruct (mb_build b) as [[m|]|e|cr]; sf. apply fans_bud. lia. Qed.

Lemma extend_bud t nd n ms s c : suf D c (extend_monotones_c newf ext cw gv fuel st t nd n ms (s, c)) (extend_monotones gv newf ext cw D st t nd n ms s).
Proof. unfold extend_monotones_c, extend_monotones. sf; apply finish_bud. Qed.

Lemma finish_all_bud ms s c : suf D c (finish_all_c newf ext cw fuel ms (s, c)) (finish_all newf ext cw D ms s).
Proof. unfold finish_all_c, finish_all. sf; apply finish_bud. Qed.

Lemma step_v_bud x ms ul uc ur dn s c : suf D c (step_v_c newf ext cw fuel x ms ul uc ur dn (s, c)) (step_v newf ext cw D x ms ul uc ur dn s).
Proof. unfold step_v_c, step_v. cbn zeta. sf; apply finish_all_bud. Qed.

Lemma step_a_bud x t n ms dl dc dr s c : suf D c (step_a (E := E) st x t n ms dl dc dr (s : S, c)) (step_a st x t n ms dl dc dr s).
Proof. unfold step_a. sf. Qed.

Lemma tri_step_bud x t nd s c : suf D c (tri_step_c newf ext cw gv fuel st x t nd (s, c)) (tri_step gv newf ext cw D st x t nd s).
Proof. unfold tri_step_c, tri_step. sf; try apply extend_bud; try apply step_v_bud; try apply step_a_bud. Qed.

Lemma loop_bud : forall k k' x s c, D <= c + k' -> suf D c (tri_loop_c newf ext cw gv fuel st k x (s, c)) (tri_loop gv newf ext cw D st k' x s).
Proof.
  induction k as [|k IH]; intros k' x s c Hk; [now apply suf_out|].
  assert (G : forall j, D <= Datatypes.S c + j -> suf D (Datatypes.S c) (tri_loop_c newf ext cw gv fuel st (Datatypes.S k) x (s, c)) (tri_loop gv newf ext cw D st (Datatypes.S j) x s)).
  { intros j Hj. cbn [tri_loop_c tri_loop]. sf; try apply tri_step_bud. apply IH; lia. }
  destruct k' as [|k']; [apply (suf_over_budget _ _ _ _ _ (G 0 ltac:(lia))); lia|apply (suf_le _ _ _ _ _ (G k' ltac:(lia))); lia].
Qed.

Lemma top_bud : forall k k' qs qi (s : S) c, D <= c + k' -> suf D c (top_trapezoid_c (C := C) k qs qi (s, c)) (s, top_trapezoid k' qs qi).
Proof.
  induction k as [|k IH]; intros k' qs qi s c Hk; [now apply suf_out|].
  assert (G : forall j, D <= Datatypes.S c + j -> suf D (Datatypes.S c) (top_trapezoid_c (C := C) (Datatypes.S k) qs qi (s, c)) (s, top_trapezoid (Datatypes.S j) qs qi)).
  { intros j Hj. cbn [top_trapezoid_c top_trapezoid]. unfold sbind, inc. cbn [fst snd]. destruct (rd qs qi) as [q|e|cr]; cbn [bind]; try (apply suf_ret; lia).
    destruct q as [l r [|]|ti]; try (apply suf_ret; lia). apply IH. lia. }
  destruct k' as [|k']; [apply (suf_over_budget _ _ _ _ _ (G 0 ltac:(lia))); lia|apply (suf_le _ _ _ _ _ (G k' ltac:(lia))); lia].
Qed.

Lemma inner_bud s c : suf D c (triangulate_inner_c newf ext cw gv fuel st (s, c)) (triangulate_inner gv newf ext cw D st s).
Proof.
  unfold triangulate_inner_c, triangulate_inner. cbn zeta. apply suf_bind.
  - destruct (top_bud fuel D (st_qs st) 0 s c ltac:(lia)) as (H1 & H2). destruct (top_trapezoid_c fuel (st_qs st) 0 (s, c)) as [[s' c'] r]. cbn [fst snd] in *. split; [exact H1|].
    unfold lift. cbn [fst snd]. intros Hn Hd. destruct H2 as (E1 & E2); auto; [intros ->; now apply Hn|]. now rewrite E1, E2.
  - intros s' c' t Hc. apply loop_bud. lia.
Qed.
End Bud.
