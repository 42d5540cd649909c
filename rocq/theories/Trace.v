(** The driver only talks to its receiver through [new_fan]/[extend_fan]: every run is the replay of one fixed list of
    calls, obtained with a recording receiver. *)
From Coq Require Import List Arith Bool Lia.
From Verif Require Import Base Coord Trap Mono Tri.
Import ListNotations.

(** A call made to the builder. *)
Inductive call (I : Type) := CNew (a b c : I) | CExt (v : I).
Arguments CNew {I} a b c.
Arguments CExt {I} v.

Section Trace.
Context {C : Type} {OC : CoordOps C} {I E : Type}.
Notation err := (tri_error E).

(** The recording receiver never fails. *)
Definition rec_new (s : list (call I)) (a b c : I) : sres (list (call I)) err unit := (s ++ [CNew a b c], Ok tt).
Definition rec_ext (s : list (call I)) (v : I) : sres (list (call I)) err unit := (s ++ [CExt v], Ok tt).

(** The calls and the result of a run, independently of any receiver. *)
Definition calls_of {A} (x : sres (list (call I)) err A) : list (call I) := fst x.

Section Sink.
Context {S : Type}.
Variable newf : S -> I -> I -> I -> sres S err unit.
Variable ext : S -> I -> sres S err unit.

Fixpoint replay (s : S) (l : list (call I)) : sres S err unit :=
  match l with
  | [] => (s, Ok tt)
  | CNew a b c :: l => sbind (newf s a b c) (fun s _ => replay s l)
  | CExt v :: l => sbind (ext s v) (fun s _ => replay s l)
  end.

Lemma replay_app s l l' : replay s (l ++ l') = sbind (replay s l) (fun s _ => replay s l').
Proof.
  revert s; induction l as [|[a b c|v] l IH]; intros s; cbn [replay app]; auto.
  - destruct (newf s a b c) as [s' [[]|e|c']]; cbn; auto.
  - destruct (ext s v) as [s' [[]|e|c']]; cbn; auto.
Qed.

(** [q] (with the sink) does what [p] (with the recorder) records. *)
Definition tracks {A} (q : S -> sres S err A) (p : list (call I) -> sres (list (call I)) err A) : Prop :=
  exists c r, (forall t, p t = (t ++ c, r)) /\ (forall s, q s = sbind (replay s c) (fun s _ => (s, r))).

Lemma tracks_ret {A} (r : res err A) : tracks (fun s => (s, r)) (fun s => (s, r)).
Proof. exists [], r. split; intros; simpl; now rewrite ?app_nil_r. Qed.

Lemma tracks_bind {A B} q p (q' : A -> S -> sres S err B) p' :
  tracks q p -> (forall a, tracks (q' a) (p' a)) ->
  tracks (fun s => sbind (q s) (fun s a => q' a s)) (fun s => sbind (p s) (fun s a => p' a s)).
Proof.
  intros (c & r & Hp & Hq) H.
  destruct r as [a|e|x].
  - destruct (H a) as (c' & r' & Hp' & Hq').
    exists (c ++ c'), r'. split.
    + intros t. rewrite Hp. unfold sbind at 1; simpl. now rewrite Hp', app_assoc.
    + intros s. rewrite Hq, replay_app.
      destruct (replay s c) as [s' [[]|e|x]]; simpl; auto.
      unfold sbind at 1; simpl. now rewrite Hq'.
  - exists c, (Err e). split.
    + intros t. now rewrite Hp.
    + intros s. rewrite Hq. destruct (replay s c) as [s' [[]|e'|x]]; simpl; auto.
  - exists c, (Crash x). split.
    + intros t. now rewrite Hp.
    + intros s. rewrite Hq. destruct (replay s c) as [s' [[]|e'|x']]; simpl; auto.
Qed.

Lemma tracks_new a b c : tracks (fun s => newf s a b c) (fun s => rec_new s a b c).
Proof.
  exists [CNew a b c], (Ok tt). split; intros; simpl; auto.
  destruct (newf s a b c) as [s' [[]|e|x]]; reflexivity.
Qed.

Lemma tracks_ext v : tracks (fun s => ext s v) (fun s => rec_ext s v).
Proof.
  exists [CExt v], (Ok tt). split; intros; simpl; auto.
  destruct (ext s v) as [s' [[]|e|x]]; reflexivity.
Qed.

Lemma tracks_equiv {A} (q q' : S -> sres S err A) p p' :
  (forall s, q' s = q s) -> (forall s, p' s = p s) -> tracks q p -> tracks q' p'.
Proof.
  intros Eq Ep (c & r & Hp & Hq). exists c, r. split; intros; rewrite ?Eq, ?Ep; auto.
Qed.

(** [match x with (s, Ok _) => (s, Ok a) | ...] is a bind. *)
Lemma match_bind {T A B} (x : sres T err A) (b : B) :
  match x with
  | (s', Ok _) => (s', Ok b)
  | (s', Err e) => (s', Err e)
  | (s', Crash c) => (s', Crash c)
  end = sbind x (fun s _ => (s, Ok b)).
Proof. now destruct x as [s [a|e|c]]. Qed.

Ltac tk :=
  repeat first
    [ apply tracks_ret
    | apply tracks_new
    | apply tracks_ext
    | progress unfold lift
    | match goal with
      | |- tracks (fun s => sbind (@?q s) (fun s' a => @?q' a s')) (fun t => sbind (@?p t) (fun t' a' => @?p' a' t')) =>
        apply (tracks_bind q p q' p'); [|intros ?]
      | |- tracks (fun s => match ?x with _ => _ end) _ => destruct x
      | |- tracks (fun s => (if ?x then _ else _)) _ => destruct x
      end ].

Lemma add_triangle_tracks direct dt v :
  tracks (fun s => add_triangle ext direct dt s v) (fun s => add_triangle rec_ext direct dt s v).
Proof.
  unfold add_triangle. destruct direct.
  - eapply tracks_equiv; [intros; apply match_bind | intros; apply match_bind |].
    tk.
  - tk.
Qed.

Lemma back_loop_tracks k : forall (m : mono C I) direct dt,
  tracks (fun s => back_loop ext k m direct dt s) (fun s => back_loop rec_ext k m direct dt s).
Proof.
  induction k as [|k IH]; intros m direct dt; cbn [back_loop]; tk.
  - apply add_triangle_tracks.
  - apply IH.
Qed.

Lemma advance_loop_tracks k : forall (m : mono C I) direct dt,
  tracks (fun s => advance_loop ext k m direct dt s) (fun s => advance_loop rec_ext k m direct dt s).
Proof.
  induction k as [|k IH]; intros m direct dt; cbn [advance_loop]; tk.
  - apply add_triangle_tracks.
  - apply IH.
Qed.

Lemma deferred_loop_tracks n : forall (m : mono C I) back i,
  tracks (fun s => deferred_loop ext m back i n s) (fun s => deferred_loop rec_ext m back i n s).
Proof.
  induction n as [|n IH]; intros m back i; cbn [deferred_loop]; tk. apply IH.
Qed.

Lemma one_fan_tracks cw fuel (m : mono C I) :
  tracks (fun s => one_fan newf ext cw fuel m s) (fun s => one_fan rec_new rec_ext cw fuel m s).
Proof.
  unfold one_fan.
  repeat first
    [ apply add_triangle_tracks | apply back_loop_tracks | apply advance_loop_tracks | apply deferred_loop_tracks
    | progress tk
    | match goal with
      | |- tracks (fun s => match newf _ _ _ _ with _ => _ end) _ =>
        eapply tracks_equiv; [intros; apply match_bind | intros; apply match_bind |]
      | |- context [let (_, _) := ?x in _] => destruct x
      end ].
Qed.

Lemma build_fans_tracks cw fuel k : forall (m : mono C I),
  tracks (fun s => build_fans newf ext cw fuel k m s) (fun s => build_fans rec_new rec_ext cw fuel k m s).
Proof.
  induction k as [|k IH]; intros m; cbn [build_fans];
    repeat first [ apply IH | apply one_fan_tracks | progress tk ].
Qed.

Lemma finish_tracks cw fuel (b : mbuilder C I) :
  tracks (fun s => finish newf ext cw fuel b s) (fun s => finish rec_new rec_ext cw fuel b s).
Proof.
  unfold finish. destruct (mb_build b) as [[m|]|e|c]; tk. apply build_fans_tracks.
Qed.

Section Drive.
Variable gv : I -> coords C.
Variable cw : bool.
Variable fuel : nat.
Variable st : state C I.

Lemma extend_tracks t ni n ms :
  tracks (fun s => extend_monotones gv newf ext cw fuel st t ni n ms s)
         (fun s => extend_monotones gv rec_new rec_ext cw fuel st t ni n ms s).
Proof.
  unfold extend_monotones.
  repeat first
    [ apply finish_tracks | progress tk
    | match goal with |- context [let '(_, _) := ?x in _] => destruct x as [[?|] [?|]] end ].
Qed.

Lemma finish_all_tracks ms :
  tracks (fun s => finish_all newf ext cw fuel ms s) (fun s => finish_all rec_new rec_ext cw fuel ms s).
Proof. unfold finish_all. repeat first [ apply finish_tracks | progress tk ]. Qed.

Lemma step_v_tracks x ms ul uc ur down :
  tracks (fun s => step_v newf ext cw fuel x ms ul uc ur down s)
         (fun s => step_v rec_new rec_ext cw fuel x ms ul uc ur down s).
Proof. unfold step_v. repeat first [ apply finish_all_tracks | progress tk ]. Qed.

Lemma step_a_tracks x t n ms dl dc dr :
  tracks (fun s => step_a st x t n ms dl dc dr s)
         (fun s => step_a (S := list (call I)) (E := E) st x t n ms dl dc dr s).
Proof. unfold step_a. repeat first [ progress tk ]. Qed.

Lemma tri_step_tracks x t ni :
  tracks (fun s => tri_step gv newf ext cw fuel st x t ni s)
         (fun s => tri_step gv rec_new rec_ext cw fuel st x t ni s).
Proof.
  unfold tri_step.
  repeat first [ apply extend_tracks | apply step_v_tracks | apply step_a_tracks | progress tk ].
Qed.

Lemma tri_loop_tracks k : forall x,
  tracks (fun s => tri_loop gv newf ext cw fuel st k x s)
         (fun s => tri_loop gv rec_new rec_ext cw fuel st k x s).
Proof.
  induction k as [|k IH]; intros x; cbn [tri_loop].
  - tk.
  - repeat first [ apply tri_step_tracks | apply IH | progress tk ].
Qed.

Lemma inner_tracks :
  tracks (fun s => triangulate_inner gv newf ext cw fuel st s)
         (fun s => triangulate_inner gv rec_new rec_ext cw fuel st s).
Proof.
  unfold triangulate_inner. repeat first [ apply tri_loop_tracks | progress tk ].
Qed.

Lemma inner_replay s :
  triangulate_inner gv newf ext cw fuel st s =
  let (c, r) := triangulate_inner gv rec_new rec_ext cw fuel st [] in
  sbind (replay s c) (fun s _ => (s, r)).
Proof.
  destruct inner_tracks as (c & r & Hp & Hq). rewrite Hp. simpl. apply Hq.
Qed.
End Drive.
End Sink.
End Trace.
