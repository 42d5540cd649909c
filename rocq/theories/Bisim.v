(** Traversals of two trapezoidations that correspond to each other up to the numbering of trapezoids, nexuses and
    segments make the same calls. *)
From Coq Require Import QArith List Arith Bool Lia.
From Verif Require Import Base Coord Trap Mono Tri Trace Protocol Plane Sim.
Import ListNotations.
Local Open Scope nat_scope.

Definition orel {A B} (R : A -> B -> Prop) (a : option A) (b : option B) : Prop :=
  match a, b with Some x, Some y => R x y | None, None => True | _, _ => False end.

Section Bisim.
Context {I J E : Type}.
Variables (gv : I -> point) (gv' : J -> point) (st : state Q I) (st' : state Q J).
Variables (rt rv rs : nat -> nat -> Prop).

Definition rty (a b : ntype) : Prop :=
  match a, b with
  | TV ul uc ur dn, TV ul' uc' ur' dn' => rt ul ul' /\ rt uc uc' /\ rt ur ur' /\ rt dn dn'
  | TI ul ur dl dr, TI ul' ur' dl' dr' => rt ul ul' /\ rt ur ur' /\ rt dl dl' /\ rt dr dr'
  | TA up dl dc dr, TA up' dl' dc' dr' => rt up up' /\ rt dl dl' /\ rt dc dc' /\ rt dr dr'
  | _, _ => False
  end.

Hypothesis HT : forall i i', rt i i' -> exists t t', nth_error (st_ts st) i = Some t /\ nth_error (st_ts st') i' = Some t' /\
  orel rs (t_l t) (t_l t') /\ orel rs (t_r t) (t_r t') /\ orel rv (t_d t) (t_d t') /\ orel rv (t_u t) (t_u t').
Hypothesis HS : forall s s', rs s s' -> exists g g', nth_error (st_ss st) s = Some g /\ nth_error (st_ss st') s' = Some g' /\
  rv (s_min g) (s_min g') /\ rv (s_max g) (s_max g').
Hypothesis HV : forall v v', rv v v' -> exists n n' ty ty', nth_error (st_ns st) v = Some n /\ nth_error (st_ns st') v' = Some n' /\
  gv (n_v n) = gv' (n_v n') /\ n_c n = n_c n' /\ final_type n = Ok ty /\ final_type n' = Ok ty' /\ rty ty ty'.
Hypothesis HVi : forall v v' w w', rv v v' -> rv w w' -> (v = w <-> v' = w').
Hypothesis HTi : forall v v' w w', rt v v' -> rt w w' -> (v = w <-> v' = w').

Notation RI := (fun (i : I) (j : J) => gv i = gv' j).
Notation RC := (@eq (coords Q)).
Notation rp := (rp (E1 := E) (E2 := E) RI).
Notation rmb := (rmb RC RI).
Notation rot := (rot RC RI).
Notation ropt := (ropt RC RI).

Let Hleft : forall a a' b b' c c', RC a a' -> RC b b' -> RC c c' -> is_left a b c = is_left a' b' c'.
Proof. intros; subst; reflexivity. Qed.
Let Heqx : forall a a' b b', RC a a' -> RC b b' -> c_eqb (cx a) (cx b) = c_eqb (cx a') (cx b').
Proof. intros; subst; reflexivity. Qed.
Let Heqy : forall a a' b b', RC a a' -> RC b b' -> c_eqb (cy a) (cy b) = c_eqb (cy a') (cy b').
Proof. intros; subst; reflexivity. Qed.

Lemma v_eqb v v' w w' : rv v v' -> rv w w' -> Nat.eqb v w = Nat.eqb v' w'.
Proof. intros H1 H2. pose proof (HVi v v' w w' H1 H2). destruct (Nat.eqb_spec v w), (Nat.eqb_spec v' w'); tauto. Qed.
Lemma t_eqb v v' w w' : rt v v' -> rt w w' -> Nat.eqb v w = Nat.eqb v' w'.
Proof. intros H1 H2. pose proof (HTi v v' w w' H1 H2). destruct (Nat.eqb_spec v w), (Nat.eqb_spec v' w'); tauto. Qed.

Definition nx (n : nexus Q I) (n' : nexus Q J) : Prop := gv (n_v n) = gv' (n_v n') /\ n_c n = n_c n'.

Lemma rr_seg s s' : rs s s' -> rres (rte (E1 := E) (E2 := E)) (fun g g' => rv (s_min g) (s_min g') /\ rv (s_max g) (s_max g')) (rd (st_ss st) s) (rd (st_ss st') s').
Proof. intros H. destruct (HS s s' H) as (g & g' & H1 & H2 & H3). unfold rd. rewrite H1, H2. exact H3. Qed.
Lemma rr_nx v v' : rv v v' -> rres (rte (E1 := E) (E2 := E)) nx (rd (st_ns st) v) (rd (st_ns st') v').
Proof. intros H. destruct (HV v v' H) as (g & g' & ty & ty' & H1 & H2 & H3 & H4 & _). unfold rd. rewrite H1, H2. split; auto. Qed.
Lemma rr_opt (R : nat -> nat -> Prop) o o' e : orel R o o' -> rres (rte (E1 := E) (E2 := E)) R (ok_or o (TEInternal e)) (ok_or o' (TEInternal e)).
Proof. destruct o, o'; cbn; auto; try contradiction. Qed.

Lemma add_all ms ms' n n' : rot ms ms' -> nx n n' -> rres (rte (E1 := E) (E2 := E)) rot (add_to_all ms n) (add_to_all ms' n').
Proof.
  intros Hm (Hv & Hc). destruct ms as [a|a b], ms' as [a'|a' b']; simpl in Hm; try contradiction; cbn [add_to_all].
  - eapply (rr_bind rte rmb). { now apply mb_add_sim. } intros x y H. exact H.
  - destruct Hm. eapply (rr_bind rte rmb). { now apply mb_add_sim. } intros x y H'. eapply (rr_bind rte rmb). { now apply mb_add_sim. } intros x' y' H''. now split.
Qed.

Lemma fin cw fuel b b' : rmb b b' -> rp eq (fun s => finish (E := E) rec_new rec_ext cw fuel b s) (fun s => finish (E := E) rec_new rec_ext cw fuel b' s).
Proof. apply finish_sim. exact Hleft. Qed.

Section T.
Variables (cw : bool) (fuel : nat).

Lemma extend t t' nd nd' n n' ms ms' : orel rs (t_l t) (t_l t') -> orel rs (t_r t) (t_r t') -> orel rv (t_u t) (t_u t') -> rv nd nd' -> nx n n' -> rot ms ms' ->
  rp rot (fun s => extend_monotones (E := E) gv rec_new rec_ext cw fuel st t nd n ms s)
    (fun s => extend_monotones (E := E) gv' rec_new rec_ext cw fuel st' t' nd' n' ms' s).
Proof.
  intros Hl Hr Hu Hnd Hn Hm. unfold extend_monotones.
  eapply rp_bind. { apply rp_ret, add_all; eauto. } clear ms ms' Hm. intros ms ms' Hm.
  eapply (rp_bind _ rs). { now apply rp_ret, rr_opt. } intros sl sl' Hsl.
  eapply (rp_bind RI (fun g g' => rv (s_min g) (s_min g') /\ rv (s_max g) (s_max g'))). { now apply rp_ret, rr_seg. } intros gl gl' (Gl1 & Gl2).
  eapply (rp_bind _ rs). { now apply rp_ret, rr_opt. } intros sr sr' Hsr.
  eapply (rp_bind RI (fun g g' => rv (s_min g) (s_min g') /\ rv (s_max g) (s_max g'))). { now apply rp_ret, rr_seg. } intros gr gr' (Gr1 & Gr2).
  eapply (rp_bind _ rv). { now apply rp_ret, rr_opt. } intros nu nu' Hnu.
  rewrite (v_eqb nd nd' _ _ Hnd Gl1), (v_eqb nd nd' _ _ Hnd Gr1), (v_eqb nu nu' _ _ Hnu Gl2), (v_eqb nu nu' _ _ Hnu Gr2).
  assert (HN : rp rot (fun s => sbind (lift s (rd (st_ns st) nu)) (fun s n_up =>
      sbind (lift s (mb_add (mb_new (n_v n_up) (gv (n_v n_up))) (n_v n) (n_c n))) (fun s b' => (s, Ok (OOne b')))))
    (fun s => sbind (lift s (rd (st_ns st') nu')) (fun s n_up =>
      sbind (lift s (mb_add (mb_new (n_v n_up) (gv' (n_v n_up))) (n_v n') (n_c n'))) (fun s b' => (s, Ok (OOne b')))))).
  { eapply (rp_bind _ nx). { now apply rp_ret, rr_nx. } intros u1 u2 Hu'.
    eapply (rp_bind _ rmb). { apply rp_ret, mb_add_sim; auto; [|apply Hn|apply Hn]. apply mb_new_sim; apply Hu'. }
    intros b1 b2 Hb. now apply rp_ret. }
  destruct (_ && _ && _).
  - destruct ms as [a|a b], ms' as [a'|a' b']; simpl in Hm; try contradiction.
    + eapply (rp_bind _ eq). { now apply fin. } intros _ _ _. exact HN.
    + destruct Hm. eapply (rp_bind _ eq). { now apply fin. } intros _ _ _. now apply rp_ret.
  - destruct (_ && _ && _).
    + destruct ms as [a|a b], ms' as [a'|a' b']; simpl in Hm; try contradiction.
      * eapply (rp_bind _ eq). { now apply fin. } intros _ _ _. exact HN.
      * destruct Hm. eapply (rp_bind _ eq). { now apply fin. } intros _ _ _. now apply rp_ret.
    + now apply rp_ret.
Qed.

Definition rb (a : nat * option (ot (mbuilder Q I))) (b : nat * option (ot (mbuilder Q J))) : Prop := rt (fst a) (fst b) /\ ropt (snd a) (snd b).
Definition rx (x : tstate (C := Q) (I := I)) (y : tstate (C := Q) (I := J)) : Prop :=
  rt (x_ti x) (x_ti y) /\ ropt (x_ms x) (x_ms y) /\ Forall2 rb (x_bs x) (x_bs y) /\ Forall2 rmb (x_mst x) (x_mst y).

Lemma vstep x x' ms ms' ul uc ur dn ul' uc' ur' dn' : rx x x' -> ropt ms ms' -> rt ul ul' -> rt uc uc' -> rt ur ur' -> rt dn dn' ->
  rp rx (fun s => step_v (E := E) rec_new rec_ext cw fuel x ms ul uc ur dn s) (fun s => step_v (E := E) rec_new rec_ext cw fuel x' ms' ul' uc' ur' dn' s).
Proof.
  intros (Hti & Hms & Hbs & Hmst) Hm R1 R2 R3 R4. unfold step_v. cbv zeta. rewrite (t_eqb _ _ _ _ Hti R1), (t_eqb _ _ _ _ Hti R2), (t_eqb _ _ _ _ Hti R3).
  eapply (rp_bind _ (fun p q => ropt (fst p) (fst q) /\ Forall2 rmb (snd p) (snd q))).
  - destruct ms as [m1|], ms' as [m2|]; simpl in Hm; try contradiction; [|apply rp_ret; now split].
    destruct (_ =? _).
    { eapply (rp_bind _ rmb). { now apply rp_ret, single_sim. } intros a b H. apply rp_ret. split; simpl; auto. }
    destruct (_ =? _).
    { eapply (rp_bind _ eq).
      - unfold finish_all. destruct m1 as [a|a b], m2 as [a'|a' b']; simpl in Hm; try contradiction; [now apply fin|].
        destruct Hm. eapply (rp_bind _ eq). { now apply fin. } intros _ _ _. now apply fin.
      - intros _ _ _. apply rp_ret. now split. }
    destruct (_ =? _); [|now apply rp_ret].
    destruct Hmst as [|l1 l2 r1 r2 Hl Hr]; [now apply rp_ret|].
    eapply (rp_bind _ rmb). { now apply rp_ret, single_sim. } intros a b H. apply rp_ret. split; simpl; auto.
  - intros [p1 q1] [p2 q2] [Hp Hq]. cbn [fst snd] in *. destruct (_ =? _).
    + apply rp_ret. repeat split; auto.
    + apply rp_ret. unfold resume. destruct Hbs as [|[t1 o1] [t2 o2] r1 r2 Hl Hr]; [reflexivity|].
      destruct Hl as [Hl1 Hl2]. cbn [fst snd] in *. repeat split; auto.
Qed.

Lemma astep x x' t t' n n' ms ms' dl dc dr dl' dc' dr' : orel rs (t_l t) (t_l t') -> orel rs (t_r t) (t_r t') -> orel rv (t_u t) (t_u t') ->
  rx x x' -> nx n n' -> ropt ms ms' -> rt dl dl' -> rt dc dc' -> rt dr dr' ->
  rp rx (fun s => step_a (E := E) st x t n ms dl dc dr s) (fun s => step_a (E := E) st' x' t' n' ms' dl' dc' dr' s).
Proof.
  intros Tl Tr Tu (Hti & Hms & Hbs & Hmst) Hn Hm R1 R2 R3. unfold step_a.
  destruct ms as [m1|], ms' as [m2|]; simpl in Hm; try contradiction.
  - eapply (rp_bind _ (fun p q => rmb (fst p) (fst q) /\ rmb (snd p) (snd q))).
    + destruct m1 as [a|a b], m2 as [a'|a' b']; simpl in Hm; try contradiction; [|now apply rp_ret].
      eapply (rp_bind _ rv). { now apply rp_ret, rr_opt. } intros nu nu' Hnu.
      eapply (rp_bind _ nx). { now apply rp_ret, rr_nx. } intros u1 u2 Hu.
      eapply (rp_bind _ rmb). { apply rp_ret, mb_add_sim; auto; [|apply Hn|apply Hn]. apply mb_new_sim; apply Hu. } intros b1 b2 Hb.
      eapply (rp_bind _ rs). { now apply rp_ret, rr_opt. } intros sl sl' Hsl.
      eapply (rp_bind RI (fun g g' => rv (s_min g) (s_min g') /\ rv (s_max g) (s_max g'))). { now apply rp_ret, rr_seg. } intros gl gl' (Gl1 & Gl2).
      rewrite (v_eqb _ _ _ _ Hnu Gl2).
      destruct (_ =? _). { apply rp_ret. now split. }
      eapply (rp_bind _ rs). { now apply rp_ret, rr_opt. } intros sr sr' Hsr.
      eapply (rp_bind RI (fun g g' => rv (s_min g) (s_min g') /\ rv (s_max g) (s_max g'))). { now apply rp_ret, rr_seg. } intros gr gr' (Gr1 & Gr2).
      rewrite (v_eqb _ _ _ _ Hnu Gr2).
      destruct (_ =? _); apply rp_ret; [now split|reflexivity].
    + intros [p1 q1] [p2 q2] [Hp Hq]. cbn [fst snd] in *. apply rp_ret. split; [exact R1|]. split; [exact Hp|]. split; auto. cbn.
      constructor; [split; [exact R2|exact Logic.I]|]. constructor; [|exact Hbs]. now split.
  - apply rp_ret. split; [exact R1|]. split; [|split; auto].
    + exact Logic.I.
    + cbn. constructor; [split; [exact R2|]|constructor; [split; [exact R3|exact Logic.I]|exact Hbs]].
      apply mb_new_sim; apply Hn.
Qed.

Lemma tstep x x' t t' nd nd' : orel rs (t_l t) (t_l t') -> orel rs (t_r t) (t_r t') -> orel rv (t_u t) (t_u t') -> rv nd nd' -> rx x x' ->
  rp rx (fun s => tri_step (E := E) gv rec_new rec_ext cw fuel st x t nd s) (fun s => tri_step (E := E) gv' rec_new rec_ext cw fuel st' x' t' nd' s).
Proof.
  intros Tl Tr Tu Hnd Hx. unfold tri_step. pose proof Hx as (Hti & Hms & Hbs & Hmst).
  destruct (HV nd nd' Hnd) as (n & n' & ty & ty' & Hn & Hn' & K1 & K2 & Ht & Ht' & Hty). assert (Hnx : nx n n') by now split.
  eapply (rp_bind _ (fun a b => a = n /\ b = n')). { apply rp_ret. unfold rd. rewrite Hn, Hn'. now split. } intros ? ? (-> & ->).
  eapply (rp_bind _ ropt).
  { destruct (x_ms x) as [m1|], (x_ms x') as [m2|]; simpl in Hms; try contradiction; [|now apply rp_ret].
    eapply (rp_bind _ rot). { now apply extend. } intros a b H. now apply rp_ret. }
  intros ms ms' Hm. rewrite Ht, Ht'. eapply (rp_bind _ (fun a b => a = ty /\ b = ty')). { apply rp_ret. now split. } intros ? ? (-> & ->).
  destruct ty, ty'; cbn [rty] in Hty; try contradiction; destruct Hty as (R1 & R2 & R3 & R4).
  - now apply vstep.
  - rewrite (t_eqb _ _ _ _ Hti R1), (t_eqb _ _ _ _ Hti R2). destruct (_ =? _). { apply rp_ret. repeat split; auto. }
    destruct (_ =? _); apply rp_ret; [repeat split; auto|reflexivity].
  - now apply astep.
Qed.

Lemma tloop k : forall x x', rx x x' ->
  rp eq (fun s => tri_loop (E := E) gv rec_new rec_ext cw fuel st k x s) (fun s => tri_loop (E := E) gv' rec_new rec_ext cw fuel st' k x' s).
Proof.
  induction k as [|k IH]; intros x x' Hx; cbn [tri_loop]; [now apply rp_ret|].
  pose proof Hx as (Hti & Hms & Hbs & Hmst). destruct (HT _ _ Hti) as (t & t' & H1 & H2 & Tl & Tr & Td & Tu).
  eapply (rp_bind _ (fun a b => a = t /\ b = t')). { apply rp_ret. unfold rd. rewrite H1, H2. now split. } intros ? ? (-> & ->).
  destruct (t_d t) as [nd|], (t_d t') as [nd'|]; cbn in Td; try contradiction.
  - eapply (rp_bind _ rx). { now apply tstep. } intros y1 y2 Hy. now apply IH.
  - apply rp_ret. unfold tri_end. destruct Hmst; [|reflexivity]. destruct Hbs; [|reflexivity].
    destruct (x_ms x), (x_ms x'); simpl in Hms; try contradiction; reflexivity.
Qed.

Theorem run_bisim i i' : top_trapezoid fuel (st_qs st) 0 = Ok i -> top_trapezoid fuel (st_qs st') 0 = Ok i' -> rt i i' ->
  Forall2 (rcall RI) (fst (run_calls E gv cw fuel st)) (fst (run_calls E gv' cw fuel st')) /\
  rres (rte (E1 := E) (E2 := E)) eq (snd (run_calls E gv cw fuel st)) (snd (run_calls E gv' cw fuel st')).
Proof.
  intros H1 H2 Hr. unfold run_calls.
  assert (H : rp eq (fun s => triangulate_inner (E := E) gv rec_new rec_ext cw fuel st s)
    (fun s => triangulate_inner (E := E) gv' rec_new rec_ext cw fuel st' s)); [|apply H; constructor].
  unfold triangulate_inner. eapply (rp_bind _ rt). { apply rp_ret. now rewrite H1, H2. }
  intros ti ti' Ht. apply tloop. split; [exact Ht|]. split; [exact Logic.I|]. split; constructor.
Qed.
End T.
End Bisim.
