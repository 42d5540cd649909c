(** Observing builders: a recorder that never fails and a wrapper that logs every call made to a builder. *)
From Coq Require Import List Arith Bool Lia.
From Verif Require Import Base Coord Trap Mono Tri Trace Protocol.
Import ListNotations.

(** A format that never fails and returns the calls it received; nothing of it is in /repo. *)
Definition recorder (I E : Type) (cw : bool) : fan_format I E (list (call I)) (list (call I)) := {|
  ff_B := list (call I);
  ff_cw := cw;
  ff_dropped := [];
  ff_init a b c := inl [CNew a b c];
  ff_new l a b c := (l ++ [CNew a b c], None);
  ff_ext l v := (l ++ [CExt v], None);
  ff_build l := (inl l, l);
  ff_fail l _ := l
|}.

(** What happened at the builder interface; the [option] is the error returned, if any. *)
Inductive event (I E : Type) :=
| EInit (a b c : I) (e : option E)
| ENew (a b c : I) (e : option E)
| EExt (v : I) (e : option E)
| EBuild (e : option E)
| EFail.
Arguments EInit {I E}. Arguments ENew {I E}. Arguments EExt {I E}. Arguments EBuild {I E}. Arguments EFail {I E}.

(** Any format, with a log of the calls made to it beside the caller's storage. *)
Definition logged {I E Out M} (F : fan_format I E Out M) : fan_format I E Out (M * list (event I E)) := {|
  ff_B := (ff_B F * list (event I E))%type;
  ff_cw := ff_cw F;
  ff_dropped := (ff_dropped F, []);
  ff_init a b c :=
    match ff_init F a b c with
    | inl x => inl (x, [EInit a b c None])
    | inr (e, m) => inr (e, (m, [EInit a b c (Some e)]))
    end;
  ff_new s a b c := let (x, e) := ff_new F (fst s) a b c in ((x, snd s ++ [ENew a b c e]), e);
  ff_ext s v := let (x, e) := ff_ext F (fst s) v in ((x, snd s ++ [EExt v e]), e);
  ff_build s :=
    match ff_build F (fst s) with
    | (inl o, m) => (inl o, (m, snd s ++ [EBuild None]))
    | (inr e, m) => (inr e, (m, snd s ++ [EBuild (Some e)]))
    end;
  ff_fail s e := (ff_fail F (fst s) e, snd s ++ [EFail])
|}.

(** Specification of the protocol: which logs go with which results. *)
Section Spec.
Context {I E Out : Type}.

Definition ok_event (e : event I E) : Prop :=
  match e with ENew _ _ _ None | EExt _ None => True | _ => False end.

(** A [new_fan] or [extend_fan] call that returned error [x]. *)
Definition failed_event (e : event I E) (x : E) : Prop :=
  match e with ENew _ _ _ (Some y) | EExt _ (Some y) => x = y | _ => False end.

(** An error that does not come from the builder. *)
Definition internal (e : tri_error E) : Prop := match e with TEFanBuilder _ => False | _ => True end.

Inductive protocol : list (event I E) -> Out + tri_error E -> Prop :=
| P_unused e : internal e -> protocol [] (inr e)
| P_init_failed a b c e : protocol [EInit a b c (Some e)] (inr (TEFanBuilder e))
| P_built a b c evs o : Forall ok_event evs ->
    protocol (EInit a b c None :: evs ++ [EBuild None]) (inl o)
| P_build_failed a b c evs e : Forall ok_event evs ->
    protocol (EInit a b c None :: evs ++ [EBuild (Some e)]) (inr (TEFanBuilder e))
| P_driver_failed a b c evs e : Forall ok_event evs -> internal e ->
    protocol (EInit a b c None :: evs ++ [EFail]) (inr e)
| P_call_failed a b c evs ev x : Forall ok_event evs -> failed_event ev x ->
    protocol (EInit a b c None :: evs ++ [ev; EFail]) (inr (TEFanBuilder x)).

(** The fan calls in a log. *)
Definition event_call (e : event I E) : list (call I) :=
  match e with
  | EInit a b c _ | ENew a b c _ => [CNew a b c]
  | EExt v _ => [CExt v]
  | EBuild _ | EFail => []
  end.
Definition calls_in (l : list (event I E)) : list (call I) := flat_map event_call l.
End Spec.

(** ** The driver itself never reports a builder error *)

Section NoBuilderError.
Context {C : Type} {OC : CoordOps C} {I E : Type}.
Notation err := (tri_error E).
Notation log := (list (call I)).

Definition nf {A} (r : res err A) : Prop := match r with Err (TEFanBuilder _) => False | _ => True end.
Definition nfp {A} (p : log -> sres log err A) : Prop := forall t, nf (snd (p t)).

Lemma nfp_ret {A} (r : res err A) : nf r -> nfp (fun s => (s, r)).
Proof. intros H t. exact H. Qed.

Lemma nfp_bind {A B} p (p' : A -> log -> sres log err B) :
  nfp p -> (forall a, nfp (p' a)) -> nfp (fun s => sbind (p s) (fun s a => p' a s)).
Proof.
  intros Hp H t. specialize (Hp t). unfold sbind. destruct (p t) as [t' [a|e|x]]; simpl in *; auto. apply H.
Qed.

Lemma nf_bind {A B} (r : res err A) (f : A -> res err B) : nf r -> (forall a, nf (f a)) -> nf (bind r f).
Proof. destruct r as [a|e|x]; simpl; auto. Qed.

Lemma nf_rd {A} (l : list A) i : nf (rd l i).
Proof. unfold rd. now destruct (nth_error l i). Qed.

Lemma nf_ok_or {A} (o : option A) e : nf (ok_or o (TEInternal e)).
Proof. now destruct o. Qed.

Lemma nf_map {A} (r : res ierr A) : nf (map_err TEInternal r).
Proof. now destruct r. Qed.

Lemma nfp_match {A B} (p : log -> sres log err A) (b : B) : nfp p ->
  nfp (fun s => match p s with
    | (s', Ok _) => (s', Ok b) | (s', Err e) => (s', Err e) | (s', Crash c) => (s', Crash c) end).
Proof. intros H t. specialize (H t). destruct (p t) as [t' [a|e|x]]; simpl in *; auto. Qed.

Lemma nfp_new a b c : nfp (fun s => rec_new s a b c).
Proof. intros t. exact Logic.I. Qed.
Lemma nfp_ext v : nfp (fun s => rec_ext s v).
Proof. intros t. exact Logic.I. Qed.

Ltac nfr := repeat first
  [ exact Logic.I | apply nf_rd | apply nf_ok_or | apply nf_map
  | match goal with
    | |- nf (bind _ _) => apply nf_bind; [|intros ?]
    | |- nf (if ?b then _ else _) => destruct b
    | |- nf (match ?x with _ => _ end) => destruct x
    | |- nf (can_triangulate _) => unfold can_triangulate
    | |- nf (skipped_peek _) => unfold skipped_peek
    | |- nf (skipped_peek2 _) => unfold skipped_peek2
    | |- nf (skipped_pop _) => unfold skipped_pop
    | |- nf (pending_peek _) => unfold pending_peek
    | |- nf (transfer_pending _) => unfold transfer_pending
    | |- nf (swap _ _ _) => unfold swap
    | |- nf (remaining _) => unfold remaining
    | |- nf (deferred_index _ _ _) => unfold deferred_index
    | |- nf (add_to_all _ _) => unfold add_to_all
    | |- nf (mb_add _ _ _) => unfold mb_add
    | |- nf (single _) => unfold single
    | |- nf (resume _ _) => unfold resume
    | |- nf (tri_end _) => unfold tri_end
    end ].

Ltac np := repeat first
  [ apply nfp_new | apply nfp_ext
  | progress unfold lift
  | match goal with
    | |- nfp (fun s => (s, ?r)) => apply nfp_ret; nfr
    | |- nfp (fun s => sbind (@?q s) (fun s' a => @?q' a s')) => apply (nfp_bind q q'); [|intros ?]
    | |- nfp (fun s => match rec_new s ?a ?b ?c with _ => _ end) => apply (nfp_match (fun s => rec_new s a b c))
    | |- nfp (fun s => match rec_ext s ?v with _ => _ end) => apply (nfp_match (fun s => rec_ext s v))
    | |- nfp (fun s => match ?x with _ => _ end) => destruct x
    | |- nfp (fun s => if ?x then _ else _) => destruct x
    end ].

Lemma nfp_add_triangle direct dt v : nfp (fun s => add_triangle rec_ext direct dt s v).
Proof. unfold add_triangle. np. Qed.
Lemma nfp_back k : forall (m : mono C I) direct dt, nfp (fun s => back_loop rec_ext k m direct dt s).
Proof. induction k as [|k IH]; intros; cbn [back_loop]; np; [apply nfp_add_triangle|apply IH]. Qed.
Lemma nfp_advance k : forall (m : mono C I) direct dt, nfp (fun s => advance_loop rec_ext k m direct dt s).
Proof. induction k as [|k IH]; intros; cbn [advance_loop]; np; [apply nfp_add_triangle|apply IH]. Qed.
Lemma nfp_deferred n : forall (m : mono C I) back i, nfp (fun s => deferred_loop rec_ext m back i n s).
Proof. induction n as [|n IH]; intros; cbn [deferred_loop]; np. apply IH. Qed.
Lemma nfp_one_fan cw fuel (m : mono C I) : nfp (fun s => one_fan rec_new rec_ext cw fuel m s).
Proof.
  unfold one_fan. cbv zeta.
  repeat first [ apply nfp_add_triangle | apply nfp_back | apply nfp_advance | apply nfp_deferred | progress np
   | match goal with |- context [let (_, _) := ?x in _] => destruct x end ].
Qed.
Lemma nfp_build_fans cw fuel k : forall m : mono C I, nfp (fun s => build_fans rec_new rec_ext cw fuel k m s).
Proof.
  induction k as [|k IH]; intros; cbn [build_fans]; repeat first [apply IH | apply nfp_one_fan | progress np].
Qed.
Lemma nfp_finish cw fuel (b : mbuilder C I) : nfp (fun s => finish rec_new rec_ext cw fuel b s).
Proof. unfold finish. destruct (mb_build b) as [[m|]|e|c]; np. apply nfp_build_fans. Qed.

Lemma nf_inner gv cw fuel (st : state C I) : nf (snd (run_calls E gv cw fuel st)).
Proof.
  unfold run_calls.
  assert (H : nfp (fun s => triangulate_inner gv rec_new rec_ext cw fuel st s)); [|apply H].
  unfold triangulate_inner. np. match goal with |- context [mkT ?a ?b ?c ?d] => generalize (mkT a b c d) end. generalize fuel at 2. intros k.
  induction k as [|k IH]; intros x; cbn [tri_loop]; [np|].
  np; [|apply IH]. unfold tri_step, step_a. np.
  - unfold extend_monotones. repeat first [ apply nfp_finish | progress np
      | match goal with |- context [let '(_, _) := ?x in _] => destruct x as [[?|] [?|]] end ].
  - unfold step_v, finish_all. cbv zeta. repeat first [ apply nfp_finish | progress np ].
Qed.

Lemma nf_api ieqb gv cw dbg fuel math_n shuf elems :
  nf (snd (api_calls E (C := C) (I := I) ieqb gv cw dbg fuel math_n shuf elems)).
Proof.
  unfold api_calls. destruct (trapezoidize _ _ _ _ _ _ _); try exact Logic.I. apply nf_inner.
Qed.
End NoBuilderError.

(** ** The recorder returns the calls *)

Section Recorder.
Context {I E : Type} (cw : bool).

Lemma recorder_drive l : forall b (r : res (tri_error E) unit),
  drive (recorder I E cw) b l r =
  match r with
  | Ok _ => Returned (inl (b ++ l)) (b ++ l)
  | Err e => Returned (inr e) (b ++ l)
  | Crash c => Crashed c
  end.
Proof.
  induction l as [|[i j k|v] l IH]; intros b r.
  - rewrite app_nil_r. destruct r as [[]|e|c]; reflexivity.
  - cbn [drive ff_new recorder]. rewrite IH, <- app_assoc. reflexivity.
  - cbn [drive ff_ext recorder]. rewrite IH, <- app_assoc. reflexivity.
Qed.

Lemma recorder_obey l (r : res (tri_error E) unit) : starts l ->
  obey (recorder I E cw) (l, r) =
  match r, l with
  | Ok _, [] => Returned (inr TENoVertices) []
  | Ok _, _ => Returned (inl l) l
  | Err e, _ => Returned (inr e) l
  | Crash c, _ => Crashed c
  end.
Proof.
  intros Hs. destruct l as [|[i j k|v] l]; [| |destruct Hs].
  - destruct r as [[]|e|c]; reflexivity.
  - unfold obey. cbn [fst snd ff_init recorder]. rewrite recorder_drive. destruct r as [[]|e|c]; reflexivity.
Qed.
End Recorder.

(** ** The log *)

Section Logged.
Context {I E Out M : Type} (F : fan_format I E Out M).

Definition same {A} (o : outcome E Out M) (ol : outcome E Out (M * A)) : Prop :=
  match o, ol with
  | Returned r m, Returned r' (m', _) => r = r' /\ m = m'
  | Crashed c, Crashed c' => c = c'
  | _, _ => False
  end.

Lemma logged_same l : forall b ev r, same (drive F b l r) (drive (logged F) (b, ev) l r).
Proof.
  induction l as [|[i j k|v] l IH]; intros b ev r; cbn [drive ff_new ff_ext ff_build ff_fail logged fst snd].
  - destruct r as [[]|e|c]; cbn; auto. destruct (ff_build F b) as [[o|e] m]; cbn; auto.
  - destruct (ff_new F b i j k) as [b' [e|]]; cbn; auto.
  - destruct (ff_ext F b v) as [b' [e|]]; cbn; auto.
Qed.

Lemma logged_obey_same lr : same (obey F lr) (obey (logged F) lr).
Proof.
  destruct lr as [l r]. unfold obey. cbn [fst snd].
  destruct l as [|[i j k|v] l]; try (destruct r as [[]|e|c]; cbn; auto).
  all: cbn [ff_init logged]; destruct (ff_init F i j k) as [b|[e' m]]; cbn [same]; auto; apply logged_same.
Qed.

(** What a log says, given the calls the driver wants to make and its own result. *)
Definition log_ok (ev : list (event I E)) (l : list (call I)) (rr : res (tri_error E) unit)
  (evs : list (event I E)) (r : Out + tri_error E) : Prop :=
  exists suffix, evs = ev ++ suffix /\
  ((exists oks, Forall ok_event oks /\ calls_in oks = l /\
     ((exists o, suffix = oks ++ [EBuild None] /\ r = inl o /\ rr = Ok tt) \/
      (exists e, suffix = oks ++ [EBuild (Some e)] /\ r = inr (TEFanBuilder e) /\ rr = Ok tt) \/
      (exists e, suffix = oks ++ [EFail] /\ r = inr e /\ rr = Err e))) \/
   (exists oks x e rest, Forall ok_event oks /\ suffix = oks ++ [x; EFail] /\ failed_event x e /\
     r = inr (TEFanBuilder e) /\ calls_in (oks ++ [x]) ++ rest = l)).

Lemma logged_drive l : forall b ev rr r m evs,
  drive (logged F) (b, ev) l rr = Returned r (m, evs) -> log_ok ev l rr evs r.
Proof.
  induction l as [|c0 l IH]; intros b ev rr r m evs.
  - cbn [drive ff_build ff_fail logged fst snd]. intros H.
    destruct rr as [[]|e|c]; [|injection H as <- <- <-|discriminate].
    + destruct (ff_build F b) as [[o|e] m']; injection H as <- <- <-.
      * exists [EBuild None]. split; auto. left. exists []. repeat split; auto. left. now exists o.
      * exists [EBuild (Some e)]. split; auto. left. exists []. repeat split; auto. right; left. now exists e.
    + exists [EFail]. split; auto. left. exists []. repeat split; auto. right; right. now exists e.
  - assert (G : forall x b', (ok_event x /\ event_call x = [c0] /\ drive (logged F) (b', ev ++ [x]) l rr = Returned r (m, evs)) \/
      (exists e, failed_event x e /\ event_call x = [c0] /\ r = inr (TEFanBuilder e) /\ evs = (ev ++ [x]) ++ [EFail]) ->
      log_ok ev (c0 :: l) rr evs r).
    { intros x b' [(Hx & Hc & Hd)|(e & Hx & Hc & -> & ->)].
      - apply IH in Hd. destruct Hd as (suf & -> & Hd). exists (x :: suf). split; [now rewrite <- app_assoc|].
        destruct Hd as [(oks & Ho & Hl & Hd)|(oks & y & e & rest & Ho & -> & Hf & -> & Hl)].
        + left. exists (x :: oks). split; [auto|]. split. { unfold calls_in in *. cbn [flat_map]. now rewrite Hc, Hl. }
          destruct Hd as [(o & -> & -> & ->)|[(e & -> & -> & ->)|(e & -> & -> & ->)]];
            [left|right; left|right; right]; eexists; repeat split; reflexivity.
        + right. exists (x :: oks), y, e, rest. repeat split; auto. unfold calls_in in *. cbn [flat_map app]. rewrite Hc. cbn [app]. now rewrite Hl.
      - exists [x; EFail]. split; [now rewrite <- app_assoc|]. right. exists [], x, e, l. repeat split; auto.
        unfold calls_in. cbn [flat_map app]. now rewrite Hc. }
    destruct c0 as [i j k|v]; cbn [drive ff_new ff_ext ff_fail logged fst snd].
    + destruct (ff_new F b i j k) as [b' [e|]]; cbn; intros H.
      * injection H as <- <- <-. apply (G (ENew i j k (Some e)) b'). right. exists e. now cbn.
      * apply (G (ENew i j k None) b'). left. now cbn.
    + destruct (ff_ext F b v) as [b' [e|]]; cbn; intros H.
      * injection H as <- <- <-. apply (G (EExt v (Some e)) b'). right. exists e. now cbn.
      * apply (G (EExt v None) b'). left. now cbn.
Qed.

Lemma calls_in_app (a b : list (event I E)) : calls_in (a ++ b) = calls_in a ++ calls_in b.
Proof. apply flat_map_app. Qed.

Lemma calls_in_init a b c e (l : list (event I E)) : calls_in (EInit a b c e :: l) = CNew a b c :: calls_in l.
Proof. reflexivity. Qed.

Definition prefix {A} (a b : list A) : Prop := exists c, b = a ++ c.

Definition is_fb (r : Out + tri_error E) : Prop := match r with inr (TEFanBuilder _) => True | _ => False end.

(** Protocol, and: the calls made are a prefix of those wanted, all of them unless the builder failed. *)
Lemma logged_obey l rr r m evs : starts l -> nf rr ->
  obey (logged F) (l, rr) = Returned r (m, evs) ->
  protocol evs r /\ prefix (calls_in evs) l /\ (is_fb r \/ calls_in evs = l).
Proof.
  intros Hs Hn. unfold obey. cbn [fst snd].
  destruct l as [|[i j k|v] l]; [| |destruct Hs].
  - destruct rr as [[]|e|c]; intros H; [| |discriminate]; injection H as <- <- <-.
    + repeat split; auto. { constructor. exact Logic.I. } now exists [].
    + repeat split; auto. { constructor. destruct e; simpl in *; auto. } now exists [].
  - cbn [ff_init logged]. destruct (ff_init F i j k) as [b|[e m']].
    + intros H. apply logged_drive in H.
      destruct H as (suf & -> & [(oks & Ho & Hl & Hd)|(oks & x & e & rest & Ho & -> & Hf & -> & Hl)]).
      * destruct Hd as [(o & -> & -> & ->)|[(e & -> & -> & ->)|(e & -> & -> & ->)]].
        -- cbn [app]. split; [now constructor|]. rewrite calls_in_init, calls_in_app, Hl. cbn [calls_in flat_map event_call app]. rewrite app_nil_r. split; [exists []; now rewrite app_nil_r|auto].
        -- cbn [app]. split; [now constructor|]. rewrite calls_in_init, calls_in_app, Hl. cbn [calls_in flat_map event_call app]. rewrite app_nil_r. split; [exists []; now rewrite app_nil_r|auto].
        -- cbn [app]. split. { constructor; auto. }
           rewrite calls_in_init, calls_in_app, Hl. cbn [calls_in flat_map event_call app]. rewrite app_nil_r. split; [exists []; now rewrite app_nil_r|auto].
      * cbn [app]. split; [now constructor|]. split; [|left; exact Logic.I].
        exists rest. rewrite <- Hl, calls_in_init. cbn [app]. f_equal. rewrite !calls_in_app. f_equal.
    + intros H. injection H as <- <- <-. split; [constructor|]. split; [|left; exact Logic.I]. now exists l.
Qed.
End Logged.
