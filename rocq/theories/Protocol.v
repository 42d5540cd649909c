(** What a builder sees.  An independent specification ([obey]) of the builder protocol, and the proof that
    [triangulate] follows it. *)
From Coq Require Import List Arith Bool Lia.
From Verif Require Import Base Coord Trap Mono Tri Trace.
Import ListNotations.

(** ** Specification *)

(** The fans described by a list of calls. *)
Fixpoint fans_from {I} (cur : list I) (l : list (call I)) : list (list I) :=
  match l with
  | [] => [cur]
  | CNew a b c :: l => cur :: fans_from [a; b; c] l
  | CExt v :: l => fans_from (cur ++ [v]) l
  end.

Definition fans_of {I} (l : list (call I)) : list (list I) :=
  match l with
  | CNew a b c :: l => fans_from [a; b; c] l
  | _ => []
  end.

(** The triangles of a fan: all share the first vertex; the others are consecutive. *)
Fixpoint pairs {I} (r : I) (l : list I) : list (I * I * I) :=
  match l with
  | a :: l' => match l' with b :: _ => (r, a, b) :: pairs r l' | [] => [] end
  | [] => []
  end.
Definition fan_tris {I} (f : list I) : list (I * I * I) :=
  match f with r :: l => pairs r l | [] => [] end.

Definition tris_of {I} (l : list (call I)) : list (I * I * I) := concat (map fan_tris (fans_of l)).

(** How a driver that wants to make the calls [l] and then end with [r] has to treat a builder in state [b]: stop at
    the first error and call [fail] once, or call [build] once at the end. *)
Fixpoint drive {I E Out M} (F : fan_format I E Out M) (b : ff_B F) (l : list (call I)) (r : res (tri_error E) unit)
  : outcome E Out M :=
  match l with
  | [] =>
    match r with
    | Ok _ => match ff_build F b with
              | (inl o, m) => Returned (inl o) m
              | (inr e, m) => Returned (inr (TEFanBuilder e)) m
              end
    | Err e => Returned (inr e) (ff_fail F b e)
    | Crash c => Crashed c
    end
  | CNew i j k :: l =>
    match ff_new F b i j k with
    | (b, None) => drive F b l r
    | (b, Some e) => Returned (inr (TEFanBuilder e)) (ff_fail F b (TEFanBuilder e))
    end
  | CExt v :: l =>
    match ff_ext F b v with
    | (b, None) => drive F b l r
    | (b, Some e) => Returned (inr (TEFanBuilder e)) (ff_fail F b (TEFanBuilder e))
    end
  end.

(** The whole run: the first call initializes the builder; without any call the format is dropped. *)
Definition obey {I E Out M} (F : fan_format I E Out M) (lr : list (call I) * res (tri_error E) unit)
  : outcome E Out M :=
  match fst lr with
  | CNew i j k :: l =>
    match ff_init F i j k with
    | inl b => drive F b l (snd lr)
    | inr (e, m) => Returned (inr (TEFanBuilder e)) m
    end
  | _ =>
    match snd lr with
    | Ok _ => Returned (inr TENoVertices) (ff_dropped F)
    | Err e => Returned (inr e) (ff_dropped F)
    | Crash c => Crashed c
    end
  end.

Section Protocol.
Context {C : Type} {OC : CoordOps C} {I : Type}.

(** The calls made by a run, as seen by a receiver that only records. *)
Definition run_calls (E : Type) (gv : I -> coords C) (cw : bool) (fuel : nat) (st : state C I)
  : list (call I) * res (tri_error E) unit :=
  triangulate_inner gv rec_new rec_ext cw fuel st [].

Definition api_calls (E : Type) (ieqb : I -> I -> bool) (gv : I -> coords C) (cw dbg : bool) (fuel : nat)
  (math_n : nat -> nat -> nat) (shuf : nat -> nat -> list nat) (elems : list (element I))
  : list (call I) * res (tri_error E) unit :=
  match trapezoidize ieqb gv dbg fuel math_n shuf elems with
  | Ok st => run_calls E gv cw fuel st
  | Err e => ([], Err (TETrapezoidation e))
  | Crash c => ([], Crash c)
  end.

(** ** Every list of calls starts with [new_fan] *)

Section Opens.
Context {E : Type}.
Notation err := (tri_error E).
Notation log := (list (call I)).

Definition starts (c : log) : Prop := match c with CExt _ :: _ => False | _ => True end.
Definition silent {A} (p : log -> sres log err A) : Prop := exists r, forall t, p t = (t, r).
Definition logs {A} (p : log -> sres log err A) : Prop := exists c r, forall t, p t = (t ++ c, r).
Definition opens {A} (p : log -> sres log err A) : Prop :=
  exists c r, (forall t, p t = (t ++ c, r)) /\ starts c.
Definition heads {A} (p : log -> sres log err A) : Prop :=
  exists i j k c r, forall t, p t = (t ++ CNew i j k :: c, r).

Lemma tracks_logs {A} (p : log -> sres log err A) : tracks rec_new rec_ext p p -> logs p.
Proof. intros (c & r & Hp & _). now exists c, r. Qed.

Lemma silent_ret {A} (r : res err A) : silent (fun s => (s, r)).
Proof. now exists r. Qed.

Lemma silent_bind {A B} p (p' : A -> log -> sres log err B) :
  silent p -> (forall a, silent (p' a)) -> silent (fun s => sbind (p s) (fun s a => p' a s)).
Proof.
  intros (r & Hp) H. destruct r as [a|e|x].
  - destruct (H a) as (r' & Hp'). exists r'. intros t. rewrite Hp. cbn. apply Hp'.
  - exists (Err e). intros t. now rewrite Hp.
  - exists (Crash x). intros t. now rewrite Hp.
Qed.

Lemma silent_opens {A} (p : log -> sres log err A) : silent p -> opens p.
Proof. intros (r & Hp). exists [], r. split; simpl; auto. intros t. now rewrite Hp, app_nil_r. Qed.

Lemma heads_opens {A} (p : log -> sres log err A) : heads p -> opens p.
Proof. intros (i & j & k & c & r & Hp). exists (CNew i j k :: c), r. split; simpl; auto. Qed.

Lemma opens_bind {A B} p (p' : A -> log -> sres log err B) :
  opens p -> (forall a, opens (p' a)) -> opens (fun s => sbind (p s) (fun s a => p' a s)).
Proof.
  intros (c & r & Hp & Hc) H. destruct r as [a|e|x].
  - destruct (H a) as (c' & r' & Hp' & Hc'). exists (c ++ c'), r'. split.
    + intros t. rewrite Hp. cbn. now rewrite Hp', app_assoc.
    + destruct c as [|[] c]; simpl in *; auto.
  - exists c, (Err e). split; auto. intros t. now rewrite Hp.
  - exists c, (Crash x). split; auto. intros t. now rewrite Hp.
Qed.

Lemma heads_bind {A B} p (p' : A -> log -> sres log err B) :
  heads p -> (forall a, logs (p' a)) -> heads (fun s => sbind (p s) (fun s a => p' a s)).
Proof.
  intros (i & j & k & c & r & Hp) H. destruct r as [a|e|x].
  - destruct (H a) as (c' & r' & Hp'). exists i, j, k, (c ++ c'), r'. 
    intros t. rewrite Hp. cbn. now rewrite Hp', <- app_assoc.
  - exists i, j, k, c, (Err e). intros t. now rewrite Hp.
  - exists i, j, k, c, (Crash x). intros t. now rewrite Hp.
Qed.

Lemma opens_equiv {A} (p p' : log -> sres log err A) : (forall s, p' s = p s) -> opens p -> opens p'.
Proof. intros Ep (c & r & Hp & Hc). exists c, r. split; auto. intros. now rewrite Ep. Qed.

Lemma heads_new i j k : heads (fun s => rec_new (E := E) s i j k).
Proof. exists i, j, k, [], (Ok tt). reflexivity. Qed.

Ltac sb := match goal with
  | |- silent (fun s => sbind (@?q s) (fun s' a => @?q' a s')) => apply (silent_bind q q') end.
Ltac ob := match goal with
  | |- opens (fun s => sbind (@?q s) (fun s' a => @?q' a s')) => apply (opens_bind q q') end.
Ltac hb := match goal with
  | |- heads (fun s => sbind (@?q s) (fun s' a => @?q' a s')) => apply (heads_bind q q') end.
Ltac tb := match goal with
  | |- tracks _ _ (fun s => sbind (@?q s) (fun s' a => @?q' a s')) (fun t => sbind (@?p t) (fun t' a' => @?p' a' t')) =>
    apply (tracks_bind _ _ q p q' p') end.

Lemma back_silent k : forall (m : mono C I) dt, silent (fun s => back_loop rec_ext k m false dt s).
Proof.
  induction k as [|k IH]; intros m dt; cbn [back_loop]; [apply silent_ret|].
  sb; [apply silent_ret|intros [|]]; [|apply silent_ret].
  sb; [apply silent_ret|intros [m' ?]].
  sb; [apply silent_ret|intros v].
  sb; [apply silent_ret|intros dt'].
  apply IH.
Qed.

Lemma advance_silent k : forall (m : mono C I) dt, silent (fun s => advance_loop rec_ext k m false dt s).
Proof.
  induction k as [|k IH]; intros m dt; cbn [advance_loop]; [apply silent_ret|].
  sb; [apply silent_ret|intros [|]]; [|apply silent_ret].
  sb; [apply silent_ret|intros [m' ?]].
  sb; [apply silent_ret|intros v].
  sb; [apply silent_ret|intros dt'].
  sb; [apply silent_ret|intros m''].
  apply IH.
Qed.

(** The tail of [one_fan] after the first call. *)
Lemma one_fan_opens cw fuel (m : mono C I) : opens (fun s => one_fan rec_new rec_ext cw fuel m s).
Proof.
  unfold one_fan.
  ob; [apply silent_opens, silent_ret|intros [m1 v1]].
  ob; [apply silent_opens, silent_ret|intros v0].
  ob; [apply silent_opens, silent_ret|intros v2].
  ob; [apply silent_opens, silent_ret|intros back].
  cbv zeta. set (direct := xorb (xorb back (m_left m1)) cw). destruct direct.
  - (* direct *)
    apply heads_opens.
    destruct (if negb (m_left m1) then (fst v2, fst v0) else (fst v0, fst v2)) as [i0 i2].
    hb.
    + exists i0, (fst v1), i2, [], (Ok 0). reflexivity.
    + intros dt.
      apply tracks_logs. 
      tb;
        [|intros [m' dt']; apply tracks_ret].
      destruct back.
      * tb; [apply tracks_ret|intros [m' ?]].
        tb; [apply tracks_ret|intros v].
        tb; [apply add_triangle_tracks|intros dt'].
        apply back_loop_tracks.
      * tb; [apply tracks_ret|intros v].
        apply advance_loop_tracks.
  - ob; [apply silent_opens, silent_ret|intros dt].
    ob.
    + apply silent_opens. destruct back.
      * sb; [apply silent_ret|intros [m' ?]].
        sb; [apply silent_ret|intros v].
        sb; [apply silent_ret|intros dt'].
        apply back_silent.
      * sb; [apply silent_ret|intros m'].
        apply advance_silent.
    + intros [m' dt'].
      ob.
      * apply silent_opens. destruct back.
        -- sb; [apply silent_ret|intros v].
           sb; [apply silent_ret|intros w].
           sb; [apply silent_ret|intros x].
           apply silent_ret.
        -- sb; [apply silent_ret|intros [a b]].
           sb; [apply silent_ret|intros x].
           apply silent_ret.
      * intros [[i0 i1] i2]. apply heads_opens.
        hb; [apply heads_new|intros _].
        apply tracks_logs.
        tb; [apply deferred_loop_tracks|intros v].
        apply tracks_ret.
Qed.

Ltac op :=
  repeat first
    [ apply one_fan_opens
    | apply silent_opens, silent_ret
    | progress unfold lift
    | match goal with
      | |- opens (fun s => sbind (@?q s) (fun s' a => @?q' a s')) => apply (opens_bind q q'); [|intros ?]
      | |- opens (fun s => match ?x with _ => _ end) => destruct x
      end ].

Lemma build_fans_opens cw fuel k : forall (m : mono C I), opens (fun s => build_fans rec_new rec_ext cw fuel k m s).
Proof.
  induction k as [|k IH]; intros m; cbn [build_fans]; [apply silent_opens, silent_ret|].
  repeat first [ apply IH | progress op ].
Qed.

Lemma finish_opens cw fuel (b : mbuilder C I) : opens (fun s => finish rec_new rec_ext cw fuel b s).
Proof.
  unfold finish. repeat first [ apply build_fans_opens | progress op ].
Qed.

Lemma finish_all_opens cw fuel (b : ot (mbuilder C I)) : opens (fun s => finish_all rec_new rec_ext cw fuel b s).
Proof.
  unfold finish_all. repeat first [ apply finish_opens | progress op ].
Qed.

Lemma extend_opens gv cw fuel st t ni n ms :
  opens (fun s => extend_monotones gv rec_new rec_ext cw fuel st t ni n ms s).
Proof.
  unfold extend_monotones.
  repeat first [ apply finish_opens | progress op
    | match goal with |- context [let '(_, _) := ?x in _] => destruct x as [[?|] [?|]] end ].
Qed.

Lemma tri_step_opens gv cw fuel st x t ni : opens (fun s => tri_step gv rec_new rec_ext cw fuel st x t ni s).
Proof.
  unfold tri_step, step_v, step_a.
  repeat first [ apply extend_opens | apply finish_all_opens | progress op ].
Qed.

Lemma tri_loop_opens gv cw fuel st k : forall x, opens (fun s => tri_loop gv rec_new rec_ext cw fuel st k x s).
Proof.
  induction k as [|k IH]; intros x; cbn [tri_loop]; [apply silent_opens, silent_ret|].
  repeat first [ apply tri_step_opens | apply IH | progress op ].
Qed.

Lemma run_calls_starts gv cw fuel st : starts (fst (run_calls E gv cw fuel st)).
Proof.
  assert (H : opens (fun s => triangulate_inner gv rec_new rec_ext cw fuel st s)).
  { unfold triangulate_inner. repeat first [ apply tri_loop_opens | progress op ]. }
  destruct H as (c & r & Hp & Hc). unfold run_calls. rewrite Hp. exact Hc.
Qed.
End Opens.

(** ** [triangulate] obeys the protocol *)

Section Obey.
Context {E Out M : Type} (F : fan_format I E Out M).

Lemma complete_drive dbg l : forall b r,
  (let (s, x) := sbind (replay (fbs_new F) (fbs_ext F) (FInit b) l) (fun s _ => (s, r)) in fbs_complete F dbg s x)
  = drive F b l r.
Proof.
  induction l as [|[i j k|v] l IH]; intros b r.
  - cbn. destruct r as [[]|e|c]; try reflexivity.
  - cbn [replay drive]. unfold fbs_new at 1. destruct (ff_new F b i j k) as [b' [e|]]; cbn.
    + reflexivity.
    + apply IH.
  - cbn [replay drive]. unfold fbs_ext at 1. destruct (ff_ext F b v) as [b' [e|]]; cbn.
    + reflexivity.
    + apply IH.
Qed.

Lemma trap_triangulate_obeys gv dbg fuel st :
  trap_triangulate F gv dbg fuel st = obey F (run_calls E gv (ff_cw F) fuel st).
Proof.
  unfold trap_triangulate. rewrite inner_replay.
  pose proof (run_calls_starts (E := E) gv (ff_cw F) fuel st) as Hs.
  unfold run_calls in *.
  destruct (triangulate_inner gv rec_new rec_ext (ff_cw F) fuel st []) as [l r]. cbn [fst] in Hs.
  unfold obey. cbn [fst snd].
  destruct l as [|[i j k|v] l].
  - cbn. destruct r as [[]|e|c]; reflexivity.
  - cbn [replay]. unfold fbs_new at 1. destruct (ff_init F i j k) as [b|[e m]]; cbn.
    + apply complete_drive.
    + reflexivity.
  - destruct Hs.
Qed.

Lemma triangulate_obeys ieqb gv dbg fuel math_n shuf elems :
  triangulate F ieqb gv dbg fuel math_n shuf elems =
  obey F (api_calls E ieqb gv (ff_cw F) dbg fuel math_n shuf elems).
Proof.
  unfold triangulate, api_calls.
  destruct (trapezoidize ieqb gv dbg fuel math_n shuf elems) as [st|e|c]; try reflexivity.
  apply trap_triangulate_obeys.
Qed.

Lemma api_calls_starts ieqb gv cw dbg fuel math_n shuf elems :
  starts (fst (api_calls E ieqb gv cw dbg fuel math_n shuf elems)).
Proof.
  unfold api_calls. destruct (trapezoidize _ _ _ _ _ _ _); simpl; auto. apply run_calls_starts.
Qed.
End Obey.
End Protocol.
