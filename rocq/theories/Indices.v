(** Every index handed to a builder is an index of the input, and the traversal never reads out of range unchecked. *)
From Coq Require Import List Arith Bool Lia.
From Verif Require Import Base Coord Trap Mono Tri Trace Protocol Bounds.
Import ListNotations.

Section Indices.
Context {C : Type} {OC : CoordOps C} {I E : Type}.
Variable okv : I -> Prop.
Notation err := (tri_error E).
Notation log := (list (call I)).

Definition ok_call (c : call I) : Prop :=
  match c with CNew i j k => okv i /\ okv j /\ okv k | CExt v => okv v end.

Definition hr {A} (Q : A -> Prop) (p : log -> sres log err A) : Prop :=
  forall t, Forall ok_call t -> Forall ok_call (fst (p t)) /\ safe Q (snd (p t)).

Lemma hr_ret {A} (Q : A -> Prop) r : safe Q r -> hr Q (fun s => (s, r)).
Proof. intros H t Ht. split; auto. Qed.

Lemma hr_bind {A B} (Q : A -> Prop) (R : B -> Prop) p (p' : A -> log -> sres log err B) :
  hr Q p -> (forall a, Q a -> hr R (p' a)) -> hr R (fun s => sbind (p s) (fun s a => p' a s)).
Proof.
  intros Hp H t Ht. specialize (Hp t Ht). destruct Hp as (H1 & H2). unfold sbind.
  destruct (p t) as [t' [a|e|x]]; simpl in *; auto. apply H; auto.
Qed.

Lemma hr_new a b c : okv a -> okv b -> okv c -> hr (fun _ => True) (fun s => rec_new s a b c).
Proof.
  intros Ha Hb Hc t Ht. split; simpl; auto. apply Forall_app. split; auto. repeat constructor; auto.
Qed.

Lemma hr_ext v : okv v -> hr (fun _ => True) (fun s => rec_ext s v).
Proof.
  intros Ha t Ht. split; simpl; auto. apply Forall_app. split; auto.
Qed.

Lemma hr_equiv {A} Q (p p' : log -> sres log err A) : (forall s, p' s = p s) -> hr Q p -> hr Q p'.
Proof. intros He H t Ht. rewrite He. now apply H. Qed.

Lemma hr_weaken {A} (Q R : A -> Prop) (p : log -> sres log err A) : (forall a, Q a -> R a) -> hr Q p -> hr R p.
Proof. intros He H t Ht. destruct (H t Ht). split; auto. eapply safe_weaken; eauto. Qed.

Definition okp (p : I * coords C) : Prop := okv (fst p).
Definition okm (m : mono C I) : Prop := Forall okp (m_a m).
Definition okb (b : mbuilder C I) : Prop := Forall okp (mb_vec b).

Ltac hb Q := match goal with
  | |- hr _ (fun s => sbind (@?q s) (fun s' a => @?q' a s')) => apply (hr_bind Q _ q q') end.

Lemma can_safe m : okm m -> safe (fun _ => True) (can_triangulate (E := E) m).
Proof.
  intros Hm. unfold can_triangulate. destruct (_ && _); [|exact Logic.I].
  eapply safe_bind; [apply (safe_rd _ _ okp); auto|]. intros p _.
  eapply (safe_bind (fun _ => True)).
  { unfold skipped_peek2. destruct (_ <? _); [exact Logic.I|].
    eapply safe_bind; [apply (safe_rd _ _ okp); auto|]. intros a _.
    eapply safe_bind; [apply (safe_rd _ _ okp); auto|]. intros b _. exact Logic.I. }
  intros [a b] _. exact Logic.I.
Qed.

Lemma pop_safe m : okm m -> safe (fun p => okm (fst p) /\ okp (snd p)) (skipped_pop (E := E) m).
Proof.
  intros Hm. unfold skipped_pop. destruct (_ <? _); [exact Logic.I|].
  eapply safe_bind; [apply (safe_rd _ _ okp); auto|]. intros a Ha. simpl. auto.
Qed.

Lemma peek_safe m : okm m -> safe okp (skipped_peek (E := E) m).
Proof. intros Hm. unfold skipped_peek. destruct (_ <? _); [exact Logic.I|]. now apply safe_rd. Qed.

Lemma peek2_safe m : okm m -> safe (fun p => okp (fst p) /\ okp (snd p)) (skipped_peek2 (E := E) m).
Proof.
  intros Hm. unfold skipped_peek2. destruct (_ <? _); [exact Logic.I|].
  eapply safe_bind; [apply (safe_rd _ _ okp); auto|]. intros a Ha.
  eapply safe_bind; [apply (safe_rd _ _ okp); auto|]. intros b Hb. simpl; auto.
Qed.

Lemma ppeek_safe m : okm m -> safe okp (pending_peek (E := E) m).
Proof. intros Hm. now apply safe_rd. Qed.

Lemma transfer_safe m : okm m -> safe okm (transfer_pending (E := E) m).
Proof.
  intros Hm. unfold transfer_pending. eapply (safe_bind (Forall okp)).
  - destruct (negb _); [|exact Hm]. unfold swap.
    eapply safe_bind; [apply (safe_rd _ _ okp); auto|]. intros a Ha.
    eapply safe_bind; [apply (safe_rd _ _ okp); auto|]. intros b Hb. simpl. auto using Forall_upd.
  - intros a Ha. exact Ha.
Qed.

Lemma deferred_index_safe m back i : okm m -> safe okv (deferred_index (E := E) m back i).
Proof.
  intros Hm. unfold deferred_index. destruct back.
  - eapply safe_bind; [apply (safe_rd _ _ okp); auto|]. intros a Ha. exact Ha.
  - destruct (_ <? _); [exact Logic.I|].
    eapply safe_bind; [apply (safe_rd _ _ okp); auto|]. intros a Ha. exact Ha.
Qed.

Lemma add_triangle_hr direct dt v : okv v -> hr (fun _ => True) (fun s => add_triangle rec_ext direct dt s v).
Proof.
  intros Hv. unfold add_triangle. destruct direct; [|now apply hr_ret].
  eapply hr_equiv; [intros; apply match_bind|]. hb (fun _ : unit => True); [now apply hr_ext|].
  intros _ _. now apply hr_ret.
Qed.

Lemma back_hr k : forall m direct dt, okm m -> hr (fun p => okm (fst p)) (fun s => back_loop rec_ext k m direct dt s).
Proof.
  induction k as [|k IH]; intros m direct dt Hm; cbn [back_loop]; [now apply hr_ret|].
  hb (fun _ : bool => True). { apply hr_ret. now apply can_safe. }
  intros [|] _; [|now apply hr_ret].
  hb (fun p : mono C I * (I * coords C) => okm (fst p) /\ okp (snd p)). { apply hr_ret. now apply pop_safe. }
  intros [m' ?] (Hm' & _). hb okp. { apply hr_ret. now apply peek_safe. }
  intros v Hv. hb (fun _ : nat => True). { now apply add_triangle_hr. }
  intros dt' _. now apply IH.
Qed.

Lemma advance_hr k : forall m direct dt, okm m -> hr (fun p => okm (fst p)) (fun s => advance_loop rec_ext k m direct dt s).
Proof.
  induction k as [|k IH]; intros m direct dt Hm; cbn [advance_loop]; [now apply hr_ret|].
  hb (fun _ : bool => True). { apply hr_ret. now apply can_safe. }
  intros [|] _; [|now apply hr_ret].
  hb (fun p : mono C I * (I * coords C) => okm (fst p) /\ okp (snd p)). { apply hr_ret. now apply pop_safe. }
  intros [m' ?] (Hm' & _). hb okp. { apply hr_ret. now apply ppeek_safe. }
  intros v Hv. hb (fun _ : nat => True). { now apply add_triangle_hr. }
  intros dt' _. hb okm. { apply hr_ret. now apply transfer_safe. }
  intros m'' Hm''. now apply IH.
Qed.

Lemma deferred_hr n : forall m back i, okm m -> hr (fun _ => True) (fun s => deferred_loop rec_ext m back i n s).
Proof.
  induction n as [|n IH]; intros m back i Hm; cbn [deferred_loop]; [now apply hr_ret|].
  hb okv. { apply hr_ret. now apply deferred_index_safe. }
  intros v Hv. hb (fun _ : unit => True). { now apply hr_ext. }
  intros _ _. now apply IH.
Qed.

Lemma one_fan_hr cw fuel m : okm m -> hr okm (fun s => one_fan rec_new rec_ext cw fuel m s).
Proof.
  intros Hm. unfold one_fan.
  hb (fun p : mono C I * (I * coords C) => okm (fst p) /\ okp (snd p)). { apply hr_ret. now apply pop_safe. }
  intros [m' v1] (Hm' & Hv1). simpl in Hm', Hv1. hb okp. { apply hr_ret. now apply peek_safe. }
  intros v0 Hv0. hb okp. { apply hr_ret. now apply ppeek_safe. }
  intros v2 Hv2. hb (fun _ : bool => True). { apply hr_ret. now apply can_safe. }
  intros back _. cbv zeta. hb (fun _ : nat => True).
  { destruct (xorb _ _); [|now apply hr_ret].
    assert (Hn : forall a b c, okv a -> okv b -> okv c -> hr (fun _ => True)
      (fun s => match rec_new (E := E) s a b c with
                | (s', Ok _) => (s', Ok 0) | (s', Err e) => (s', Err e) | (s', Crash c) => (s', Crash c) end)).
    { intros a b c Ha Hb Hc. eapply hr_equiv; [intros; apply match_bind|]. hb (fun _ : unit => True).
      - now apply hr_new. - intros _ _. now apply hr_ret. }
    destruct (negb _); now apply Hn. }
  intros dt _. hb (fun p : mono C I * nat => okm (fst p)).
  { destruct back.
    - hb (fun p : mono C I * (I * coords C) => okm (fst p) /\ okp (snd p)). { apply hr_ret. now apply pop_safe. }
      intros [m2 ?] (Hm2 & _). hb okp. { apply hr_ret. now apply peek_safe. }
      intros v Hv. hb (fun _ : nat => True). { now apply add_triangle_hr. }
      intros dt' _. now apply back_hr.
    - hb okm. { apply hr_ret. now apply transfer_safe. } intros m2 Hm2. now apply advance_hr. }
  intros [m2 dt2] Hm2. simpl in Hm2. destruct (xorb _ _); [now apply hr_ret|].
  hb (fun p : I * I * I => let '(a, b, c) := p in okv a /\ okv b /\ okv c).
  { destruct back.
    - hb okp. { apply hr_ret. now apply ppeek_safe. } intros a Ha.
      hb okp. { apply hr_ret. now apply peek_safe. } intros b Hb.
      hb okv. { apply hr_ret. now apply deferred_index_safe. } intros c Hc. apply hr_ret. now simpl.
    - hb (fun p : (I * coords C) * (I * coords C) => okp (fst p) /\ okp (snd p)). { apply hr_ret. now apply peek2_safe. }
      intros [a b] (Ha & Hb).
      hb okv. { apply hr_ret. now apply deferred_index_safe. } intros c Hc. apply hr_ret. now simpl. }
  intros [[a b] c] (Ha & Hb & Hc). hb (fun _ : unit => True). { now apply hr_new. }
  intros _ _. hb (fun _ : unit => True). { now apply deferred_hr. }
  intros _ _. now apply hr_ret.
Qed.

Lemma build_fans_hr cw fuel k : forall m, okm m -> hr (fun _ => True) (fun s => build_fans rec_new rec_ext cw fuel k m s).
Proof.
  induction k as [|k IH]; intros m Hm; cbn [build_fans]; [now apply hr_ret|].
  hb (fun _ : nat => True). { apply hr_ret. unfold remaining. destruct (_ <? _); exact Logic.I. }
  intros r _. destruct (3 <=? r).
  - hb (fun _ : bool => True). { apply hr_ret. now apply can_safe. }
    intros b _. hb okm. { destruct b; [now apply one_fan_hr|now apply hr_ret]. }
    intros m' Hm'. destruct (has_pending m').
    + hb okm. { apply hr_ret. now apply transfer_safe. } intros m'' Hm''. now apply IH.
    + apply IH. unfold okm, reset_position; cbn [m_a]. apply Forall_forall. intros p Hp.
      apply (proj1 (Forall_forall okp (m_a m')) Hm'). rewrite <- (firstn_skipn (m_st m') (m_a m')). apply in_or_app. now left.
  - destruct (r =? 2); now apply hr_ret.
Qed.

Lemma finish_hr cw fuel b : okb b -> hr (fun _ => True) (fun s => finish rec_new rec_ext cw fuel b s).
Proof.
  intros Hb. unfold finish, mb_build.
  destruct (_ <? _); [now apply hr_ret|]. destruct (_ && _); [|now apply hr_ret].
  unfold rd. destruct (nth_error _ _); cbn [bind]; [|now apply hr_ret].
  destruct (nth_error _ _); cbn [bind]; [|now apply hr_ret].
  destruct (nth_error _ _); cbn [bind]; [|now apply hr_ret].
  now apply build_fans_hr.
Qed.

Lemma mb_new_ok v c : okv v -> okb (mb_new v c).
Proof. intros H. constructor; auto. Qed.

Lemma mb_add_safe b v c : okb b -> okv v -> safe okb (mb_add (E := err) b v c).
Proof.
  intros Hb Hv. unfold mb_add. eapply safe_bind; [apply (safe_rd _ _ okp); auto|]. intros v0 _. simpl.
  unfold okb; simpl. apply Forall_app; auto.
Qed.

Section Drive.
Variable gv : I -> coords C.
Variable cw : bool.
Variable fuel : nat.
Variable st : state C I.
Hypothesis Hst : wf okv st.

Definition okot (m : ot (mbuilder C I)) : Prop := match m with OOne a => okb a | OTwo a b => okb a /\ okb b end.
Definition okopt (o : option (ot (mbuilder C I))) : Prop := match o with Some m => okot m | None => True end.
Definition okx (x : tstate) : Prop :=
  okopt (x_ms x) /\ Forall (fun p => okopt (snd p)) (x_bs x) /\ Forall okb (x_mst x).

Lemma ns_safe {E'} ni : safe (E := E') (fun n : nexus C I => okv (n_v n)) (rd (st_ns st) ni).
Proof.
  destruct Hst as ((Hn & _) & _). eapply safe_weaken; [|apply (safe_rd _ _ (nexus_wf okv (sz st))); auto].
  intros n (H & _). exact H.
Qed.

Lemma any_safe {E' A} (l : list A) i : safe (E := E') (fun _ => True) (rd l i).
Proof. unfold rd. now destruct (nth_error l i). Qed.
Lemma ok_or_safe {E' A} (o : option A) (e : E') : safe (fun _ => True) (ok_or o e).
Proof. now destruct o. Qed.

Lemma extend_hr t ni n ms : okv (n_v n) -> okot ms ->
  hr okot (fun s => extend_monotones gv rec_new rec_ext cw fuel st t ni n ms s).
Proof.
  intros Hn Hms. unfold extend_monotones.
  hb okot.
  { apply hr_ret. unfold add_to_all. destruct ms as [a|a b].
    - eapply safe_bind; [apply mb_add_safe; auto|]. intros a' Ha. exact Ha.
    - destruct Hms. eapply safe_bind; [apply mb_add_safe; auto|]. intros a' Ha.
      eapply safe_bind; [apply mb_add_safe; auto|]. intros b' Hb. simpl; auto. }
  intros ms' Hms'.
  hb (fun _ : nat => True). { apply hr_ret, ok_or_safe. } intros sl _.
  hb (fun _ : seg C => True). { apply hr_ret, any_safe. } intros s_l _.
  hb (fun _ : nat => True). { apply hr_ret, ok_or_safe. } intros sr _.
  hb (fun _ : seg C => True). { apply hr_ret, any_safe. } intros s_r _.
  hb (fun _ : nat => True). { apply hr_ret, ok_or_safe. } intros nu _.
  assert (G : forall (b : mbuilder C I) (rest : option (ot (mbuilder C I))), okb b -> (forall m, rest = Some m -> okot m) ->
    hr okot (fun s =>
      sbind (finish rec_new rec_ext cw fuel b s) (fun s _ =>
       match rest with
       | Some ms => (s, Ok ms)
       | None =>
         sbind (lift s (rd (st_ns st) nu)) (fun s n_up =>
         sbind (lift s (mb_add (mb_new (n_v n_up) (gv (n_v n_up))) (n_v n) (n_c n))) (fun s b' => (s, Ok (OOne b'))))
       end))).
  { intros b rest Hb Hr. hb (fun _ : unit => True). { now apply finish_hr. }
    intros _ _. destruct rest as [m|]. { apply hr_ret. simpl. auto. }
    hb (fun n : nexus C I => okv (n_v n)). { apply hr_ret, ns_safe. } intros nn Hnn.
    hb okb. { apply hr_ret. apply mb_add_safe; auto. now apply mb_new_ok. } intros b' Hb'. now apply hr_ret. }
  destruct (_ && _).
  - destruct ms' as [a|a b]; simpl in Hms'; [apply (G a None)|apply (G a (Some (OOne b)))]; try tauto;
      intros m; try discriminate; intros [= <-]; simpl; tauto.
  - destruct (_ && _).
    + destruct ms' as [a|a b]; simpl in Hms'; [apply (G a None)|apply (G b (Some (OOne a)))]; try tauto;
        intros m; try discriminate; intros [= <-]; simpl; tauto.
    + now apply hr_ret.
Qed.

Lemma finish_all_hr ms : okot ms -> hr (fun _ => True) (fun s => finish_all rec_new rec_ext cw fuel ms s).
Proof.
  intros Hms. destruct ms as [a|a b]; cbn [finish_all]; [now apply finish_hr|]. destruct Hms as (Ha & Hb).
  hb (fun _ : unit => True). { now apply finish_hr. } intros _ _. now apply finish_hr.
Qed.

Lemma single_safe m : okot m -> safe okb (single (E := E) m).
Proof. destruct m; simpl; auto. Qed.

Lemma step_v_hr x ms ul uc ur down : okx x -> okopt ms ->
  hr okx (fun s => step_v rec_new rec_ext cw fuel x ms ul uc ur down s).
Proof.
  intros (Hx1 & Hx2 & Hx3) Hms. unfold step_v. cbv zeta.
  hb (fun p : option (ot (mbuilder C I)) * list (mbuilder C I) => okopt (fst p) /\ Forall okb (snd p)).
  { destruct ms as [m|]; [|apply hr_ret; simpl; auto].
    destruct (_ =? _).
    { hb okb. { apply hr_ret. now apply single_safe. } intros a Ha. apply hr_ret. simpl. auto. }
    destruct (_ =? _).
    { hb (fun _ : unit => True). { now apply finish_all_hr. } intros _ _. apply hr_ret. simpl. auto. }
    destruct (_ =? _); [|now apply hr_ret].
    destruct (x_mst x) as [|l mst]; [now apply hr_ret|]. inversion Hx3; subst.
    hb okb. { apply hr_ret. now apply single_safe. } intros r Hr. apply hr_ret. simpl. auto. }
  intros [ms' mst] (H1 & H2). simpl in H1, H2. destruct (_ =? _).
  - apply hr_ret. simpl. repeat split; auto.
  - apply hr_ret. unfold resume. destruct (x_bs x) as [|[ti m] bs]; [exact Logic.I|]. inversion Hx2; subst.
    simpl. repeat split; auto.
Qed.

Lemma step_a_hr x t n ms dl dc dr : okx x -> okv (n_v n) -> okopt ms ->
  hr okx (fun s => step_a st x t n ms dl dc dr s).
Proof.
  intros (Hx1 & Hx2 & Hx3) Hn Hms. unfold step_a. destruct ms as [m|].
  - hb (fun p : mbuilder C I * mbuilder C I => okb (fst p) /\ okb (snd p)).
    { destruct m as [a|a b]; [|apply hr_ret; exact Hms].
      hb (fun _ : nat => True). { apply hr_ret, ok_or_safe. } intros nu _.
      hb (fun n : nexus C I => okv (n_v n)). { apply hr_ret, ns_safe. } intros nn Hnn.
      hb okb. { apply hr_ret. apply mb_add_safe; auto. now apply mb_new_ok. } intros b Hb.
      hb (fun _ : nat => True). { apply hr_ret, ok_or_safe. } intros sl _.
      hb (fun _ : seg C => True). { apply hr_ret, any_safe. } intros s_l _.
      destruct (_ =? _). { apply hr_ret. simpl. auto. }
      hb (fun _ : nat => True). { apply hr_ret, ok_or_safe. } intros sr _.
      hb (fun _ : seg C => True). { apply hr_ret, any_safe. } intros s_r _.
      destruct (_ =? _); apply hr_ret; simpl; auto. }
    intros [ml mr] (Hl & Hr). simpl in Hl, Hr. apply hr_ret. split; [exact Hl|split; [|exact Hx3]].
    constructor; [exact Logic.I|constructor; auto].
  - apply hr_ret. simpl. repeat split; auto. repeat constructor; auto.
Qed.

Lemma tri_step_hr x t ni : okx x -> hr okx (fun s => tri_step gv rec_new rec_ext cw fuel st x t ni s).
Proof.
  intros Hx. unfold tri_step.
  hb (fun n : nexus C I => okv (n_v n)). { apply hr_ret, ns_safe. } intros n Hn.
  hb okopt.
  { destruct Hx as (Hx1 & _). destruct (x_ms x) as [m|]; [|now apply hr_ret].
    hb okot. { now apply extend_hr. } intros m' Hm'. now apply hr_ret. }
  intros ms Hms.
  hb (fun _ : ntype => True). { apply hr_ret. unfold final_type. destruct (n_div n); exact Logic.I. }
  intros [ul uc ur down|ul ur dl dr|up dl dc dr] _.
  - now apply step_v_hr.
  - destruct Hx as (Hx1 & Hx2 & Hx3).
    destruct (_ =? _); [|destruct (_ =? _)]; apply hr_ret; simpl; auto; repeat split; auto.
  - now apply step_a_hr.
Qed.

Lemma tri_loop_hr k : forall x, okx x -> hr (fun _ => True) (fun s => tri_loop gv rec_new rec_ext cw fuel st k x s).
Proof.
  induction k as [|k IH]; intros x Hx; cbn [tri_loop]; [now apply hr_ret|].
  hb (fun _ : trap => True). { apply hr_ret, any_safe. } intros t _.
  destruct (t_d t).
  - hb okx. { now apply tri_step_hr. } intros x' Hx'. now apply IH.
  - apply hr_ret. unfold tri_end. destruct (x_mst x), (x_bs x), (x_ms x); exact Logic.I.
Qed.

Lemma top_safe k : forall qs qi, safe (fun _ => True) (top_trapezoid k (C := C) qs qi).
Proof.
  induction k as [|k IH]; intros qs qi; cbn [top_trapezoid]; [exact Logic.I|].
  eapply safe_bind; [apply any_safe|]. intros [l r [a b|c]|t] _; simpl; auto.
Qed.

Lemma inner_ok : let (c, r) := run_calls E gv cw fuel st in Forall ok_call c /\ safe (fun _ => True) r.
Proof.
  assert (H : hr (fun _ : unit => True) (fun s => triangulate_inner gv rec_new rec_ext cw fuel st s)).
  { unfold triangulate_inner. hb (fun _ : nat => True).
    - apply hr_ret. pose proof (top_safe fuel (st_qs st) 0) as H. destruct (top_trapezoid _ _ _) as [|?|[]]; auto.
    - intros ti _. apply tri_loop_hr. repeat split; constructor. }
  unfold run_calls. specialize (H [] (Forall_nil _)). cbv beta in H.
  destruct (triangulate_inner _ _ _ _ _ _ _) as [c r]. exact H.
Qed.
End Drive.

Lemma api_ok ieqb gv cw dbg fuel math_n shuf elems : (forall i, In (Continue i) elems -> okv i) ->
  let (c, r) := api_calls E ieqb gv cw dbg fuel math_n shuf elems in Forall ok_call c /\ safe (fun _ => True) r.
Proof.
  intros He. unfold api_calls.
  pose proof (trapezoidize_safe okv ieqb gv dbg fuel math_n shuf elems He) as H.
  destruct (trapezoidize ieqb gv dbg fuel math_n shuf elems) as [st|e|[]]; simpl in *; auto.
  now apply inner_ok.
Qed.
End Indices.
