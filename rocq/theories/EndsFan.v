(** Whether the cutting of one piece ends, for arbitrary coordinates, builders and pieces: either it ends, or it never
    does, and then cutting ears leads to a chain in which no three consecutive vertices form an ear. *)
From Coq Require Import List Arith Bool Lia.
From Verif Require Import Base Coord Trap Mono Tri Trace Protocol MonoProof.
Import ListNotations.

(** ** Families of runs, indexed by the budgets of the inner and of the outer loop *)

Section Conv.
Context {S E : Type}.

Definition fam (A : Type) := nat -> nat -> sres S E A.

(** From the budgets [Nf] and [Nj] on always the same result, for smaller ones the same or out of budget. *)
Definition conv {A} (Nf Nj : nat) (Q : A -> Prop) (r : fam A) : Prop :=
  exists x, (forall a, snd x = Ok a -> Q a) /\ snd x <> Crash Fuel /\
    (forall f j, Nf <= f -> Nj <= j -> r f j = x) /\ (forall f j, r f j = x \/ snd (r f j) = Crash Fuel).

Definition within {A} (Nf Nj : nat) (D : Prop) (Q : A -> Prop) (r : fam A) : Prop :=
  conv Nf Nj Q r \/ ((forall f j, snd (r f j) = Crash Fuel) /\ D).

Lemma win_const {A} Nf Nj D (Q : A -> Prop) (x : sres S E A) : (forall a, snd x = Ok a -> Q a) -> snd x <> Crash Fuel ->
  within Nf Nj D Q (fun _ _ => x).
Proof. intros H1 H2. left. exists x. repeat split; auto. Qed.

Lemma win_weaken {A} Nf Nj (D D' : Prop) (Q R : A -> Prop) r : (D -> D') -> (forall a, Q a -> R a) -> within Nf Nj D Q r -> within Nf Nj D' R r.
Proof.
  intros HD HQ [(x & H1 & H2)|(H & HDv)]; [left|right; auto]. exists x. split; auto.
Qed.

Lemma win_more {A} Nf Nj Nf' Nj' (D : Prop) (Q : A -> Prop) r : Nf <= Nf' -> Nj <= Nj' -> within Nf Nj D Q r -> within Nf' Nj' D Q r.
Proof.
  intros Hf Hj [(x & H1 & H2 & H3 & H4)|H]; [left|right; auto]. exists x. repeat split; auto. intros f j K1 K2. apply H3; lia.
Qed.

Lemma bind_within {A B} (P : nat -> nat -> Prop) Nf Nj D (Q : A -> Prop) (R : B -> Prop) (r : fam A) (g : nat -> nat -> S -> A -> sres S E B) :
  P Nf Nj -> within Nf Nj D Q r ->
  (forall s a, Q a -> exists Mf Mj, Nf <= Mf /\ Nj <= Mj /\ P Mf Mj /\ within Mf Mj D R (fun f j => g f j s a)) ->
  exists Mf Mj, P Mf Mj /\ within Mf Mj D R (fun f j => sbind (r f j) (g f j)).
Proof.
  intros HP [([s x] & H1 & H2 & HN & H3)|(H & HD)] Hg.
  - destruct x as [a|e|c]; cbn [snd] in *.
    + destruct (Hg s a (H1 a eq_refl)) as (Mf & Mj & Lf & Lj & HPM & [(y & K1 & K2 & HM & K3)|(K & HD)]).
      * exists Mf, Mj. split; auto. left. exists y. split; auto. split; auto. split.
        -- intros f j Hf Hj. rewrite HN by lia. cbn. apply HM; lia.
        -- intros f j. destruct (H3 f j) as [->|Hc]; [apply (K3 f j)|right].
           unfold sbind. destruct (r f j) as [s' [a'|e|c]]; cbn in *; congruence.
      * exists Mf, Mj. split; auto. right. split; auto. intros f j. destruct (H3 f j) as [->|Hc]; [apply K|].
        unfold sbind. destruct (r f j) as [s' [a'|e|c]]; cbn in *; congruence.
    + exists Nf, Nj. split; auto. left. exists (s, Err e). split; [cbn; congruence|]. split; [cbn; congruence|]. split.
      * intros f j Hf Hj. rewrite HN by lia. reflexivity.
      * intros f j. destruct (H3 f j) as [->|Hc]; [left; reflexivity|right].
        unfold sbind. destruct (r f j) as [s' [a'|e'|c]]; cbn in *; congruence.
    + exists Nf, Nj. split; auto. left. exists (s, Crash c). split; [cbn; congruence|]. split; [cbn; congruence|]. split.
      * intros f j Hf Hj. rewrite HN by lia. reflexivity.
      * intros f j. destruct (H3 f j) as [->|Hc]; [left; reflexivity|right].
        unfold sbind. destruct (r f j) as [s' [a'|e'|c']]; cbn in *; congruence.
  - exists Nf, Nj. split; auto. right. split; auto. intros f j. specialize (H f j). unfold sbind.
    destruct (r f j) as [s' [a'|e'|c']]; cbn in *; congruence.
Qed.

Lemma win_bind {A B} Nf Nj D (Q : A -> Prop) (R : B -> Prop) (r : fam A) (g : nat -> nat -> S -> A -> sres S E B) :
  within Nf Nj D Q r -> (forall s a, Q a -> within Nf Nj D R (fun f j => g f j s a)) ->
  within Nf Nj D R (fun f j => sbind (r f j) (g f j)).
Proof.
  intros Hr Hg. destruct (bind_within (fun a b => a = Nf /\ b = Nj) Nf Nj D Q R r g) as (? & ? & (-> & ->) & H); auto.
  intros s a Ha. exists Nf, Nj. auto.
Qed.

(** One more step of the outer loop. *)
Lemma win_step {A} Nf Nj D (Q : A -> Prop) (r r' : fam A) : (forall f, snd (r' f 0) = Crash Fuel) ->
  (forall f j, r' f (Datatypes.S j) = r f j) -> within Nf Nj D Q r -> within Nf (Datatypes.S Nj) D Q r'.
Proof.
  intros H0 HS [(x & H1 & H2 & HN & H3)|(H & HD)].
  - left. exists x. split; auto. split; auto. split.
    + intros f [|j] Hf Hj; [lia|]. rewrite HS. apply HN; lia.
    + intros f [|j]; [right; apply H0|]. rewrite HS. apply H3.
  - right. split; auto. intros f [|j]; [apply H0|]. rewrite HS. apply H.
Qed.

(** Same budget for both loops. *)
Lemma win_diag {A} Nf Nj D (Q : A -> Prop) (r : fam A) : within Nf Nf D Q r -> within Nf Nj D Q (fun f _ => r f f).
Proof.
  intros [(x & H1 & H2 & HN & H3)|(H & HD)].
  - left. exists x. split; auto.
  - right. auto.
Qed.

Lemma win_lift {A} Nf Nj D (Q : A -> Prop) (s : S) (r : res E A) : r <> Crash Fuel -> (forall a, r = Ok a -> Q a) ->
  within Nf Nj D Q (fun _ _ => (s, r)).
Proof. intros H1 H2. apply win_const; cbn; auto. Qed.

(** The same for some budget. *)
Definition decided {A} (D : Prop) (Q : A -> Prop) (r : fam A) : Prop := exists N, within N N D Q r.

Lemma dec_const {A} D (Q : A -> Prop) (x : sres S E A) : (forall a, snd x = Ok a -> Q a) -> snd x <> Crash Fuel ->
  decided D Q (fun _ _ => x).
Proof. exists 0. now apply win_const. Qed.

Lemma dec_bind {A B} D (Q : A -> Prop) (R : B -> Prop) (r : fam A) (g : nat -> nat -> S -> A -> sres S E B) :
  decided D Q r -> (forall s a, Q a -> decided D R (fun f j => g f j s a)) ->
  decided D R (fun f j => sbind (r f j) (g f j)).
Proof.
  intros (N & Hr) Hg. destruct (bind_within (fun a b => a = b) N N D Q R r g) as (M & ? & <- & H); auto.
  - intros s a Ha. destruct (Hg s a Ha) as (M & HM). exists (N + M), (N + M). repeat split; try lia. eapply win_more; [| |exact HM]; lia.
  - now exists M.
Qed.

Lemma dec_step {A} D (Q : A -> Prop) (r r' : fam A) : (forall f, snd (r' f 0) = Crash Fuel) ->
  (forall f j, r' f (Datatypes.S j) = r f j) -> decided D Q r -> decided D Q r'.
Proof.
  intros H0 HS (N & H). exists (Datatypes.S N). eapply win_more; [| |eapply win_step; [exact H0|exact HS|exact H]]; lia.
Qed.

Lemma dec_diag {A} D (Q : A -> Prop) (r : fam A) : decided D Q r -> decided D Q (fun f _ => r f f).
Proof. intros (N & H). exists N. now apply win_diag. Qed.

End Conv.

Section Cut.
Context {C : Type} {OC : CoordOps C} {I : Type}.
Notation vert := (I * coords C)%type.
Context {S E : Type}.
Variable newf : S -> I -> I -> I -> sres S (tri_error E) unit.
Variable ext : S -> I -> sres S (tri_error E) unit.
Hypothesis newf_ok : forall s a b c, snd (newf s a b c) <> Crash Fuel.
Hypothesis ext_ok : forall s a, snd (ext s a) <> Crash Fuel.
Variable cw : bool.
Notation err := (tri_error E).
Notation fm := (fam (S := S) (E := err)).

Ltac nf := repeat match goal with
  | |- context [rd ?l ?i] => unfold rd
  | |- context [match nth_error ?l ?i with _ => _ end] => destruct (nth_error l i)
  | |- context [if ?b then _ else _] => destruct b
  end; cbn; try congruence.

Lemma peek_nf (m : mono C I) : skipped_peek (E := E) m <> Crash Fuel.
Proof. unfold skipped_peek. nf. Qed.
Lemma peek2_nf (m : mono C I) : skipped_peek2 (E := E) m <> Crash Fuel.
Proof. unfold skipped_peek2. nf. Qed.
Lemma pending_nf (m : mono C I) : pending_peek (E := E) m <> Crash Fuel.
Proof. unfold pending_peek. nf. Qed.
Lemma deferred_nf (m : mono C I) b i : deferred_index (E := E) m b i <> Crash Fuel.
Proof. unfold deferred_index. nf. Qed.

Lemma add_triangle_dec Nf Nj D direct dt s v : within (E := err) Nf Nj D (fun _ => True) (fun _ _ => add_triangle ext direct dt s v).
Proof.
  apply win_const; auto. unfold add_triangle. destruct direct; [|cbn; congruence].
  pose proof (ext_ok s v). destruct (ext s v) as [s' [u|e|c]]; cbn in *; congruence.
Qed.

Lemma deferred_dec Nf Nj D (m : mono C I) back : forall n i s, within (E := err) Nf Nj D (fun _ => True) (fun _ _ => deferred_loop ext m back i n s).
Proof.
  induction n as [|n IH]; intros i s; cbn [deferred_loop]; [apply win_const; cbn; auto; congruence|].
  eapply (win_bind _ _ D (fun _ => True)); [apply win_lift; auto; apply deferred_nf|]. intros s1 vi _.
  eapply (win_bind _ _ D (fun _ => True)); [apply win_const; auto; apply ext_ok|]. intros s2 _ _. apply IH.
Qed.

(** The state [m] of the array after cutting at least one ear off the chain [V]; at most [np] vertices are pending. *)
Definition cut_state (left : bool) (V : list vert) (np : nat) (m : mono C I) : Prop :=
  exists U J P T, view m left U J P /\ clips left V T (U ++ P) /\ T <> [] /\ length P <= np /\
    ((P <> [] /\ U <> []) \/ 2 <= length U).

Lemma can_dec Nf Nj D left (m : mono C I) U J P s : view m left U J P ->
  within (E := err) Nf Nj D (fun b => if b : bool then exists U0 x y p P', U = U0 ++ [x; y] /\ P = p :: P' /\ ear left x y p
    else forall U0 x y p P', U = U0 ++ [x; y] -> P = p :: P' -> ~ ear left x y p) (fun _ _ => lift (S := S) s (can_triangulate m)).
Proof.
  intros Hv. unfold lift. destruct (v_can_dec (E := E) _ _ _ _ _ Hv) as [(U0 & x & y & p & P' & H1 & H2 & H3 & Hc)|(Hc & Hn)];
    rewrite Hc; apply win_lift; try congruence; intros a Ha; injection Ha as <-; eauto 8.
Qed.

Lemma back_dec Nf D left V p P np : length (p :: P) <= np -> forall n (m : mono C I) U J T direct dt s, length U <= n -> U <> [] -> view m left U J (p :: P) ->
  clips left V T (U ++ p :: P) -> T <> [] ->
  within (E := err) Nf n D (fun q => cut_state left V np (fst q)) (fun _ j => back_loop ext j m direct dt s).
Proof.
  intros Hnp. induction n as [|n IH]; intros m U J T direct dt s Hl Hne Hv Hc HT; [destruct U; [congruence|cbn in Hl; lia]|].
  eapply (win_step _ _ D _ (fun _ j => _)); [reflexivity|intros f j; cbn [back_loop]; reflexivity|].
  eapply win_bind; [apply (can_dec _ _ D _ _ _ _ _ _ Hv)|].
  intros s1 [|] Hb.
  2:{ apply win_const; cbn; [|congruence]. intros a Ha. injection Ha as <-. cbn. exists U, J, (p :: P), T.
      repeat split; auto. left. split; auto. discriminate. }
  destruct Hb as (U0 & x & y & p' & P' & -> & Hp & He). injection Hp as <- <-.
  replace (U0 ++ [x; y]) with ((U0 ++ [x]) ++ [y]) in * by now rewrite <- app_assoc.
  destruct (v_pop (E := E) _ _ _ _ _ _ Hv) as (m' & Hpop & Hv').
  eapply (win_bind _ _ D (fun q => q = (m', y))).
  { unfold lift. rewrite Hpop. apply win_lift; [congruence|]. intros a Ha. now injection Ha as <-. }
  intros s2 [m2 v2] Hm. injection Hm as -> ->.
  eapply (win_bind _ _ D (fun _ => True)); [apply win_lift; auto; apply peek_nf|]. intros s3 v _.
  eapply (win_bind _ _ D (fun _ => True)); [apply add_triangle_dec|]. intros s4 dt' _.
  eapply (IH m' (U0 ++ [x]) (y :: J) (T ++ [orient left x y p])); auto.
  - rewrite !app_length in *. cbn in *. lia.
  - destruct U0; discriminate.
  - eapply clips_app; [exact Hc|].
    replace (((U0 ++ [x]) ++ [y]) ++ p :: P) with (U0 ++ x :: y :: p :: P) by (rewrite <- !app_assoc; reflexivity).
    replace ((U0 ++ [x]) ++ p :: P) with (U0 ++ x :: p :: P) by (rewrite <- !app_assoc; reflexivity).
    constructor; auto. constructor.
  - destruct T; discriminate.
Qed.

Lemma adv_dec Nf D left V np : forall n (m : mono C I) U J P T direct dt s, length P < n -> length P <= np -> 2 <= length U -> view m left U J P ->
  clips left V T (U ++ P) -> T <> [] ->
  within (E := err) Nf n D (fun q => cut_state left V np (fst q)) (fun _ j => advance_loop ext j m direct dt s).
Proof.
  induction n as [|n IH]; intros m U J P T direct dt s Hl Hnp H2 Hv Hc HT; [lia|].
  eapply (win_step _ _ D _ (fun _ j => _)); [reflexivity|intros f j; cbn [advance_loop]; reflexivity|].
  eapply win_bind; [apply (can_dec _ _ D _ _ _ _ _ _ Hv)|].
  intros s1 [|] Hb.
  2:{ apply win_const; cbn; [|congruence]. intros a Ha. injection Ha as <-. cbn. exists U, J, P, T. repeat split; auto. }
  destruct Hb as (U0 & x & y & p & P' & -> & -> & He).
  replace (U0 ++ [x; y]) with ((U0 ++ [x]) ++ [y]) in * by now rewrite <- app_assoc.
  destruct (v_pop (E := E) _ _ _ _ _ _ Hv) as (m' & Hpop & Hv').
  eapply (win_bind _ _ D (fun q => q = (m', y))).
  { unfold lift. rewrite Hpop. apply win_lift; [congruence|]. intros a Ha. now injection Ha as <-. }
  intros s2 [m2 v2] Hm. injection Hm as -> ->.
  eapply (win_bind _ _ D (fun _ => True)); [apply win_lift; auto; apply pending_nf|]. intros s3 v _.
  eapply (win_bind _ _ D (fun _ => True)); [apply add_triangle_dec|]. intros s4 dt' _.
  destruct (v_transfer (E := E) _ _ _ _ _ _ Hv') as (m3 & Htr & Hv3).
  eapply (win_bind _ _ D (fun q => q = m3)).
  { unfold lift. rewrite Htr. apply win_lift; [congruence|]. intros a Ha. now injection Ha as <-. }
  intros s5 m4 ->.
  eapply (IH m3 ((U0 ++ [x]) ++ [p]) _ P' (T ++ [orient left x y p])); auto.
  - cbn in Hl. lia.
  - cbn in Hnp. lia.
  - rewrite !app_length. cbn. lia.
  - exact Hv3.
  - eapply clips_app; [exact Hc|].
    replace (((U0 ++ [x]) ++ [y]) ++ p :: P') with (U0 ++ x :: y :: p :: P') by (rewrite <- !app_assoc; reflexivity).
    replace (((U0 ++ [x]) ++ [p]) ++ P') with (U0 ++ x :: p :: P') by (rewrite <- !app_assoc; reflexivity).
    constructor; auto. constructor.
  - destruct T; discriminate.
Qed.

Lemma one_fan_dec Nf Nj D left (m : mono C I) U x y J p P s : view m left (U ++ [x; y]) J (p :: P) -> length (U ++ x :: y :: p :: P) <= Nf -> ear left x y p ->
  within (E := err) Nf Nj D (cut_state left (U ++ x :: y :: p :: P) (length (p :: P))) (fun f _ => one_fan newf ext cw f m s).
Proof.
  intros Hv HNf He. set (V := U ++ x :: y :: p :: P). unfold one_fan.
  replace (U ++ [x; y]) with ((U ++ [x]) ++ [y]) in Hv by now rewrite <- app_assoc.
  destruct (v_pop (E := E) _ _ _ _ _ _ Hv) as (m1 & Hpop & Hv1).
  eapply (win_bind _ _ D (fun q => q = (m1, y))).
  { unfold lift. rewrite Hpop. apply win_lift; [congruence|]. intros a Ha. now injection Ha as <-. }
  intros s1 [m2 v1] Hm. injection Hm as -> ->.
  eapply (win_bind _ _ D (fun _ => True)); [apply win_lift; auto; apply peek_nf|]. intros s2 v0 _.
  eapply (win_bind _ _ D (fun _ => True)); [apply win_lift; auto; apply pending_nf|]. intros s3 v2 _.
  eapply win_bind; [apply (can_dec _ _ D _ _ _ _ _ _ Hv1)|]. intros s4 back Hback.
  set (direct := xorb (xorb back (m_left m1)) cw).
  assert (Hc1 : clips left V [orient left x y p] ((U ++ [x]) ++ p :: P)).
  { unfold V. replace ((U ++ [x]) ++ p :: P) with (U ++ x :: p :: P) by (rewrite <- !app_assoc; reflexivity).
    constructor; auto. constructor. }
  eapply (win_bind _ _ D (fun _ => True)).
  { destruct direct; [|apply win_const; cbn; auto; congruence].
    destruct (if negb (m_left m1) then _ else _) as [i0 i2].
    apply win_const; auto. pose proof (newf_ok s4 i0 (fst y) i2). destruct (newf s4 i0 (fst y) i2) as [s' [u|e|c]]; cbn in *; congruence. }
  intros s5 dt _.
  eapply (win_bind _ _ D (fun q => cut_state left V (length (p :: P)) (fst q))).
  { destruct back.
    - destruct Hback as (U0 & a & b & q & P' & HU & Hq & Ha). injection Hq as <- <-.
      assert (b = x /\ U = U0 ++ [a]) as (-> & ->).
      { replace (U0 ++ [a; b]) with ((U0 ++ [a]) ++ [b]) in HU by now rewrite <- app_assoc.
        apply app_inj_tail in HU. destruct HU as (-> & ->). auto. }
      destruct (v_pop (E := E) _ _ _ _ _ _ Hv1) as (m3 & Hpop3 & Hv3).
      eapply (win_bind _ _ D (fun q => q = (m3, x))).
      { unfold lift. rewrite Hpop3. apply win_lift; [congruence|]. intros q Hq. now injection Hq as <-. }
      intros s6 [m4 v4] Hm. injection Hm as -> ->.
      eapply (win_bind _ _ D (fun _ => True)); [apply win_lift; auto; apply peek_nf|]. intros s7 v _.
      eapply (win_bind _ _ D (fun _ => True)); [apply add_triangle_dec|]. intros s8 dt' _.
      apply (win_diag _ _ D _ (fun f j => back_loop ext j m3 direct dt' s8)).
      eapply (back_dec _ D left V p P (length (p :: P)) (le_n _) Nf m3 (U0 ++ [a]) _ ([orient left x y p] ++ [orient left a x p])); auto.
      + rewrite !app_length in *. cbn in *. lia.
      + destruct U0; discriminate.
      + exact Hv3.
      + eapply clips_app; [exact Hc1|].
        replace (((U0 ++ [a]) ++ [x]) ++ p :: P) with (U0 ++ a :: x :: p :: P) by (rewrite <- !app_assoc; reflexivity).
        replace ((U0 ++ [a]) ++ p :: P) with (U0 ++ a :: p :: P) by (rewrite <- !app_assoc; reflexivity).
        constructor; auto. constructor.
      + discriminate.
    - destruct (v_transfer (E := E) _ _ _ _ _ _ Hv1) as (m3 & Htr & Hv3).
      eapply (win_bind _ _ D (fun q => q = m3)).
      { unfold lift. rewrite Htr. apply win_lift; [congruence|]. intros a Ha. now injection Ha as <-. }
      intros s6 m4 ->.
      apply (win_diag _ _ D _ (fun f j => advance_loop ext j m3 direct dt s6)).
      eapply (adv_dec _ D left V (length (p :: P)) Nf m3 ((U ++ [x]) ++ [p]) _ P [orient left x y p]); auto.
      + rewrite app_length in HNf. cbn in HNf. lia.
      + cbn. lia.
      + rewrite !app_length. cbn. lia.
      + exact Hv3.
      + replace (((U ++ [x]) ++ [p]) ++ P) with ((U ++ [x]) ++ p :: P) by (rewrite <- !app_assoc; reflexivity). exact Hc1.
      + discriminate. }
  intros s6 [m3 dt3] Hcs. cbn [fst] in Hcs.
  destruct direct; [apply win_const; cbn; [|congruence]; intros a Ha; injection Ha as <-; exact Hcs|].
  eapply (win_bind _ _ D (fun _ => True)).
  { destruct back.
    - eapply (win_bind _ _ D (fun _ => True)); [apply win_lift; auto; apply pending_nf|]. intros s7 a _.
      eapply (win_bind _ _ D (fun _ => True)); [apply win_lift; auto; apply peek_nf|]. intros s8 b _.
      eapply (win_bind _ _ D (fun _ => True)); [apply win_lift; auto; apply deferred_nf|]. intros s9 c _.
      apply win_const; cbn; auto. congruence.
    - eapply (win_bind _ _ D (fun _ => True)); [apply win_lift; auto; apply peek2_nf|]. intros s7 [a b] _.
      eapply (win_bind _ _ D (fun _ => True)); [apply win_lift; auto; apply deferred_nf|]. intros s9 c _.
      apply win_const; cbn; auto. congruence. }
  intros s7 [[i0 i1] i2] _.
  eapply (win_bind _ _ D (fun _ => True)); [apply win_const; auto; apply newf_ok|]. intros s8 _ _.
  eapply (win_bind _ _ D (fun _ => True)); [apply deferred_dec|]. intros s9 _ _.
  apply win_const; cbn; [|congruence]. intros a Ha. injection Ha as <-. exact Hcs.
Qed.

(** Cutting ears off [V] can lead to a chain of at least three vertices without an ear. *)
Definition stuck (left : bool) (V : list vert) : Prop := exists T V', clips left V T V' /\ noear left V' /\ 3 <= length V'.

Lemma stuck_clips left V T V' : clips left V T V' -> stuck left V' -> stuck left V.
Proof. intros Hc (T' & V'' & H1 & H2). exists (T ++ T'), V''. split; auto. eapply clips_app; eauto. Qed.

Lemma noear_dec left : forall V : list vert, noear left V \/ exists l a b c r, V = l ++ a :: b :: c :: r /\ ear left a b c.
Proof.
  induction V as [|v V IH].
  - left. intros l a b c r H. destruct l; discriminate.
  - destruct IH as [IH|(l & a & b & c & r & -> & He)].
    2:{ right. exists (v :: l), a, b, c, r. auto. }
    destruct V as [|b [|c r]].
    + left. intros l a b c r H. destruct l as [|? [|? l]]; discriminate.
    + left. intros l a b' c r H. destruct l as [|? [|? [|? l]]]; discriminate.
    + destruct (Bool.bool_dec (is_left (snd c) (snd v) (snd b)) left) as [He|He].
      * right. exists [], v, b, c, r. auto.
      * left. intros l a b' c' r' H. destruct l as [|w l]; cbn in H.
        -- injection H as <- <- <- <-. exact He.
        -- injection H as <- H. eapply IH; eauto.
Qed.

Ltac sok := unfold sbind at 1; cbn [fst snd].

(** Without an ear the loop goes round forever. *)
Lemma noear_loops left V : noear left V -> 3 <= length V -> forall f k U P (m : mono C I) s,
  U ++ P = V -> 2 <= length U -> view m left U [] P -> snd (build_fans newf ext cw f k m s) = Crash Fuel.
Proof.
  intros Hno H3 f. induction k as [|k IH]; intros U P m s HV HU Hv; [reflexivity|]. cbn [build_fans].
  assert (Hlen : length U + length P = length V) by (rewrite <- HV, app_length; reflexivity).
  unfold lift at 1. rewrite (v_remaining (E := E) _ _ _ _ _ Hv). sok. rewrite Hlen.
  destruct (Nat.leb_spec 3 (length V)); [|lia].
  destruct (v_can_dec (E := E) _ _ _ _ _ Hv) as [(U0 & x & y & p & P' & -> & -> & He & _)|(Hc & _)].
  { exfalso. apply (Hno U0 x y p P'); auto. rewrite <- HV, <- app_assoc. reflexivity. }
  unfold lift at 1. rewrite Hc. sok. cbv iota. sok. rewrite (v_has _ _ _ _ _ Hv).
  destruct P as [|p P].
  - rewrite app_nil_r in HV. subst U. destruct V as [|x [|y R]]; [cbn in H3; lia|cbn in H3; lia|].
    apply (IH [x; y] R); auto. eapply v_reset; eauto.
  - destruct (v_transfer (E := E) _ _ _ _ _ _ Hv) as (m' & Htr & Hv').
    unfold lift. rewrite Htr. sok. apply (IH (U ++ [p]) P); auto.
    + rewrite <- app_assoc. exact HV.
    + rewrite app_length. lia.
Qed.

Notation bf m s := (fun f j => build_fans newf ext cw f j m s).
Notation T1 := (fun _ : unit => True).

Definition fresh_dec (left : bool) (n : nat) : Prop := forall (m : mono C I) s x y R, length (x :: y :: R) < n ->
  view m left [x; y] [] R -> forall Nf, length (x :: y :: R) <= Nf ->
  within (E := err) Nf (length (x :: y :: R) * length (x :: y :: R)) (stuck left (x :: y :: R)) T1 (bf m s).

Lemma sq_pred n q : pred n * pred n <= q + n * n.
Proof. destruct n; cbn [pred]; nia. Qed.

(** What follows a fan (or no fan) in one iteration. *)
Lemma after_dec Nf Nj left n V np (m : mono C I) s : fresh_dec left n -> length V <= n -> length V <= Nf -> pred (length V) * pred (length V) <= Nj ->
  (forall m' s' U J P, view m' left U J P -> 2 <= length U -> length (U ++ P) < length V -> length P < np -> (exists T, clips left V T (U ++ P)) ->
     within (E := err) Nf Nj (stuck left V) T1 (bf m' s')) ->
  cut_state left V np m ->
  within (E := err) Nf Nj (stuck left V) T1 (fun f j => if has_pending m then sbind (lift s (transfer_pending m)) (fun s m => build_fans newf ext cw f j m s)
    else build_fans newf ext cw f j (reset_position m) s).
Proof.
  intros Hfr HV HNf HNj Hd (U & J & P & T & Hv & Hc & HT & Hnp & Hne).
  pose proof (clips_len _ _ _ _ Hc) as Hl. assert (0 < length T) by (destruct T; [congruence|cbn; lia]).
  rewrite (v_has _ _ _ _ _ Hv). destruct P as [|p P].
  - assert (HU : 2 <= length U) by (destruct Hne as [(Hne & _)|]; [congruence|auto]).
    destruct U as [|x [|y R]]; [cbn in HU; lia|cbn in HU; lia|].
    rewrite app_nil_r in *. eapply win_weaken; [intros Hs; eapply stuck_clips; [exact Hc|exact Hs]|auto|].
    eapply win_more; [apply le_n| |apply Hfr; [lia|eapply v_reset; eauto|lia]].
    assert (length (x :: y :: R) <= pred (length V)) by lia. nia.
  - destruct (v_transfer (E := E) _ _ _ _ _ _ Hv) as (m' & Htr & Hv').
    eapply (win_bind _ _ _ (fun q => q = m')).
    { unfold lift. rewrite Htr. apply win_lift; [congruence|]. intros a Ha. now injection Ha as <-. }
    intros s1 m1 ->. eapply Hd; [exact Hv'| | | |].
    + rewrite app_length. cbn. destruct Hne as [(_ & Hne)|]; [destruct U; [congruence|cbn; lia]|lia].
    + rewrite <- app_assoc. cbn [app]. lia.
    + cbn in Hnp. lia.
    + exists T. rewrite <- app_assoc. exact Hc.
Qed.

(** A state in the middle of a pass in which something has been cut. *)
Lemma dirty_dec Nf left n : n <= Datatypes.S Nf -> fresh_dec left n -> forall q (m : mono C I) s U J P, view m left U J P -> 2 <= length U -> length (U ++ P) < n -> length P <= q ->
  within (E := err) Nf (Datatypes.S (q + length (U ++ P) * length (U ++ P))) (stuck left (U ++ P)) T1 (bf m s).
Proof.
  intros HNf Hfr. induction q as [q IHq] using (well_founded_induction lt_wf). intros m s U J P Hv HU Hn Hq.
  eapply (win_step _ _ _ _ (fun f j => _)); [reflexivity|intros f j; cbn [build_fans]; reflexivity|].
  eapply (win_bind _ _ _ (fun r => r = length U + length P)).
  { unfold lift. rewrite (v_remaining (E := E) _ _ _ _ _ Hv). apply win_lift; [congruence|]. intros a Ha. now injection Ha as <-. }
  intros s1 r ->. destruct (Nat.leb_spec 3 (length U + length P)) as [H3|H3].
  2:{ destruct (_ =? 2); apply win_const; cbn; auto; congruence. }
  eapply win_bind; [apply (can_dec _ _ _ _ _ _ _ _ _ Hv)|]. intros s2 [|] Hb.
  - destruct Hb as (U0 & x & y & p & P' & -> & -> & He).
    replace ((U0 ++ [x; y]) ++ p :: P') with (U0 ++ x :: y :: p :: P') in * by (rewrite <- app_assoc; reflexivity).
    eapply win_bind; [eapply one_fan_dec; eauto; lia|]. intros s3 m3 Hcs.
    eapply after_dec; [exact Hfr|lia|lia|apply sq_pred| |exact Hcs].
    intros m' s' U' J' P'' Hv' HU' Hl' HP' (T & Hc). eapply win_weaken; [intros Hs; eapply stuck_clips; [exact Hc|exact Hs]|auto|].
    eapply win_more; [apply le_n| |eapply (IHq (length P'')); eauto; cbn in *; lia].
    pose proof (Nat.mul_le_mono _ _ _ _ (Nat.lt_le_incl _ _ Hl') (Nat.lt_le_incl _ _ Hl')). cbn [length] in HP', Hq. lia.
  - eapply (win_bind _ _ _ (fun q => q = m)); [apply win_const; cbn; [congruence|congruence]|]. intros s3 m3 ->.
    rewrite (v_has _ _ _ _ _ Hv). destruct P as [|p P].
    + destruct U as [|x [|y R]]; [cbn in HU; lia|cbn in HU; lia|]. rewrite app_nil_r in *.
      eapply win_more; [apply le_n| |apply Hfr; [auto|eapply v_reset; eauto|lia]]. lia.
    + destruct (v_transfer (E := E) _ _ _ _ _ _ Hv) as (m' & Htr & Hv').
      eapply (win_bind _ _ _ (fun q => q = m')).
      { unfold lift. rewrite Htr. apply win_lift; [congruence|]. intros a Ha. now injection Ha as <-. }
      intros s4 m4 ->. replace (U ++ p :: P) with ((U ++ [p]) ++ P) in * by (rewrite <- app_assoc; reflexivity).
      eapply win_more; [apply le_n| |eapply (IHq (length P)); [cbn in Hq; lia|exact Hv'|rewrite app_length; lia|auto|lia]].
      cbn in Hq. lia.
Qed.

(** A state in the middle of a pass in which nothing has been cut yet, with an ear ahead. *)
Lemma clean_dec Nf left n V : length V <= Nf -> fresh_dec left n -> length V = n -> ~ noear left V -> 3 <= length V ->
  forall P (m : mono C I) s U, view m left U [] P -> 2 <= length U -> U ++ P = V -> noear left U ->
  within (E := err) Nf (Datatypes.S (length P + pred (length V) * pred (length V))) (stuck left V) T1 (bf m s).
Proof.
  intros HNf Hfr Hn Hear H3. induction P as [|p P IH]; intros m s U Hv HU HV Hno.
  { exfalso. apply Hear. rewrite <- HV, app_nil_r. exact Hno. }
  eapply (win_step _ _ _ _ (fun f j => _)); [reflexivity|intros f j; cbn [build_fans]; reflexivity|].
  eapply (win_bind _ _ _ (fun r => r = length V)).
  { unfold lift. rewrite (v_remaining (E := E) _ _ _ _ _ Hv). apply win_lift; [congruence|]. intros a Ha. injection Ha as <-.
    rewrite <- HV, app_length. reflexivity. }
  intros s1 r ->. destruct (Nat.leb_spec 3 (length V)) as [_|]; [|lia].
  eapply win_bind; [apply (can_dec _ _ _ _ _ _ _ _ _ Hv)|]. intros s2 [|] Hb.
  - destruct Hb as (U0 & x & y & p' & P' & -> & Hp & He). injection Hp as <- <-.
    assert (HV' : U0 ++ x :: y :: p :: P = V) by (rewrite <- HV, <- app_assoc; reflexivity).
    eapply win_bind; [eapply one_fan_dec; eauto; rewrite HV'; exact HNf|]. intros s3 m3 Hcs. rewrite HV' in Hcs.
    eapply after_dec; [exact Hfr|lia|exact HNf|lia| |exact Hcs].
    intros m' s' U' J' P'' Hv' HU' Hl' HP' (T & Hc). eapply win_weaken; [intros Hs; eapply stuck_clips; [exact Hc|exact Hs]|auto|].
    eapply win_more; [apply le_n| |eapply (dirty_dec Nf left n ltac:(lia) Hfr (length P'')); eauto; lia].
    assert (length (U' ++ P'') <= pred (length V)) as K by lia. pose proof (Nat.mul_le_mono _ _ _ _ K K). cbn [length] in *. lia.
  - eapply (win_bind _ _ _ (fun q => q = m)); [apply win_const; cbn; [congruence|congruence]|]. intros s3 m3 ->.
    rewrite (v_has _ _ _ _ _ Hv).
    destruct (v_transfer (E := E) _ _ _ _ _ _ Hv) as (m' & Htr & Hv').
    eapply (win_bind _ _ _ (fun q => q = m')).
    { unfold lift. rewrite Htr. apply win_lift; [congruence|]. intros a Ha. now injection Ha as <-. }
    intros s4 m4 ->. apply (IH m' s4 (U ++ [p])); auto.
    + rewrite app_length. lia.
    + rewrite <- app_assoc. exact HV.
    + destruct (two_last U HU) as (U0 & x & y & ->). rewrite <- app_assoc. cbn [app].
      apply noear_snoc; auto. eapply Hb; eauto.
Qed.

Lemma fresh_all left : forall n, fresh_dec left n.
Proof.
  induction n as [n IH] using (well_founded_induction lt_wf). intros m s x y R Hl Hv Nf HNf.
  set (V := x :: y :: R) in *.
  assert (Hfr : fresh_dec left (length V)) by (apply IH; auto).
  destruct (le_lt_dec 3 (length V)) as [H3|H3].
  - destruct (noear_dec left V) as [Hno|(l & a & b & c & r & HV & He)].
    + right. split.
      * intros f j. apply (noear_loops left V Hno H3 f j [x; y] R m s); auto.
      * exists [], V. repeat split; auto. constructor.
    + eapply win_more; [apply le_n| |apply (clean_dec Nf left (length V) V HNf Hfr eq_refl) with (P := R) (U := [x; y]); auto].
      * assert (length V = Datatypes.S (Datatypes.S (length R))) as -> by reflexivity. cbn [pred]. nia.
      * intros Hno. eapply Hno; eauto.
      * intros l' a' b' c' r' H. apply (f_equal (@length _)) in H. rewrite app_length in H. cbn in H. lia.
  - destruct R; [|cbn in H3; lia].
    eapply (win_more Nf 1); [apply le_n|cbn; lia|].
    eapply (win_step _ _ _ _ (fun f j => _)); [reflexivity|intros f j; cbn [build_fans]; reflexivity|].
    eapply (win_bind _ _ _ (fun r => r = 2)).
    { unfold lift. rewrite (v_remaining (E := E) _ _ _ _ _ Hv). apply win_lift; [congruence|]. intros a Ha. now injection Ha as <-. }
    intros s1 r ->. cbn. apply win_const; cbn; auto. congruence.
Qed.

(** ** One finished piece *)

(** The piece: its vertices in the order in which it was built; it is cut on the side on which its last edge lies. *)
Definition stuck_piece (V : list vert) : Prop := exists a b R, V = a :: b :: R /\
  stuck (is_left (snd (last V a)) (snd a) (snd b)) V.

Lemma last_nth {A} (l : list A) a d : last (a :: l) d = nth (length l) (a :: l) d.
Proof.
  revert a. induction l as [|b l IH]; intros a; [reflexivity|]. change (last (b :: l) d = nth (length l) (b :: l) d). apply IH.
Qed.

Lemma finish_within Nf Nj (D : Prop) b s : length (mb_vec b) * length (mb_vec b) <= Nf -> (stuck_piece (mb_vec b) -> D) ->
  within (E := err) Nf Nj D T1 (fun f _ => finish newf ext cw f b s).
Proof.
  intros HNf HD. unfold finish. destruct (mb_build b) as [[m|]|e|c] eqn:Eb.
  - unfold mb_build in Eb. destruct (length (mb_vec b) <? 3) eqn:El; [discriminate|]. apply Nat.ltb_ge in El.
    destruct (mb_dx b && mb_dy b); [|discriminate].
    destruct (mb_vec b) as [|x [|y R]] eqn:EV; [cbn in El; lia|cbn in El; lia|].
    unfold rd in Eb. cbn [length] in Eb. replace (Datatypes.S (Datatypes.S (length R)) - 1) with (length (y :: R)) in Eb by (cbn; lia).
    destruct (nth_error (x :: y :: R) (length (y :: R))) as [vl|] eqn:Evl; cbn [bind] in Eb; [|discriminate].
    cbn [nth_error bind] in Eb. injection Eb as <-.
    apply (win_diag _ _ D _ (fun f j => build_fans newf ext cw f j _ s)).
    eapply win_weaken; [|auto|eapply win_more; [apply le_n| |eapply (fresh_all _ (Datatypes.S (length (x :: y :: R)))); [auto|reflexivity|]]]; [|exact HNf|cbn [length] in *; nia].
    intros Hs. apply HD. exists x, y, R. split; auto.
    replace (last (x :: y :: R) x) with vl; [exact Hs|].
    rewrite last_nth. symmetry. now apply nth_error_nth.
  - apply win_const; cbn; auto. congruence.
  - apply win_const; cbn; auto. congruence.
  - apply win_const; cbn; auto. unfold mb_build in Eb. repeat (destruct (_ <? _) in Eb; try discriminate).
    destruct (_ && _); [|discriminate].
    unfold rd in Eb. destruct (nth_error _ _) in Eb; cbn [bind nth_error] in Eb; [|congruence].
    destruct (mb_vec b) as [|x [|y R]]; cbn in Eb; congruence.
Qed.

Lemma finish_dec (D : Prop) b s : (stuck_piece (mb_vec b) -> D) ->
  decided (E := err) D T1 (fun f _ => finish newf ext cw f b s).
Proof. intros H. eexists. apply finish_within; [apply le_n|exact H]. Qed.

End Cut.
