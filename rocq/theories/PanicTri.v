(** No function of the traversal and of the cutting of monotone pieces panics, for arbitrary coordinates: the stack
    positions of [Monotone] never underflow and every checked index is in range. *)
From Coq Require Import List Arith Bool Lia.
From Verif Require Import Base Coord Trap Mono Tri Trace Bounds Panics.
Import ListNotations.

Section PanicTri.
Context {C : Type} {OC : CoordOps C} {I S E : Type}.
Notation err := (tri_error E).
Variable newf : S -> I -> I -> I -> sres S err unit.
Variable ext : S -> I -> sres S err unit.
Hypothesis new_calm : forall s a b c, calm (fun _ => True) (snd (newf s a b c)).
Hypothesis ext_calm : forall s a, calm (fun _ => True) (snd (ext s a)).

Definition cr {A} (Q : A -> Prop) (p : S -> sres S err A) : Prop := forall s, calm Q (snd (p s)).

Lemma cr_ret {A} (Q : A -> Prop) r : calm Q r -> cr Q (fun s => (s, r)).
Proof. intros H s. exact H. Qed.

Lemma cr_bind {A B} (Q : A -> Prop) (R : B -> Prop) p (p' : A -> S -> sres S err B) :
  cr Q p -> (forall a, Q a -> cr R (p' a)) -> cr R (fun s => sbind (p s) (fun s a => p' a s)).
Proof.
  intros Hp H s. specialize (Hp s). unfold sbind.
  destruct (p s) as [s' [a|e|[]]]; simpl in *; auto; try contradiction. now apply H.
Qed.

Lemma cr_equiv {A} Q (p p' : S -> sres S err A) : (forall s, p' s = p s) -> cr Q p -> cr Q p'.
Proof. intros He H s. rewrite He. apply H. Qed.

Ltac hb Q := match goal with
  | |- cr _ (fun s => sbind (@?q s) (fun s' a => @?q' a s')) => apply (cr_bind Q _ q q') end.

Lemma calm_any {E' A} (l : list A) i : i < length l -> calm (E := E') (fun _ => True) (rd l i).
Proof. intros H. apply calm_rd; auto. apply Forall_forall. auto. Qed.

(** ** Pieces *)

Notation len m := (length (m_a m)).

(** The positions of the two stacks. *)
Definition at_ (l s p : nat) (m : mono C I) : Prop := len m = l /\ m_st m = s /\ m_pt m = p.

Lemma can_calm l s p m : at_ l s p m -> s <= l ->
  calm (fun b => b = true -> 2 <= s /\ p < l) (can_triangulate (E := E) m).
Proof.
  intros (Hl & Hs & Hp) Hle. unfold can_triangulate, has_pending.
  destruct (Nat.leb_spec 2 (m_st m)) as [H2|H2]; cbn [andb]; [|discriminate].
  destruct (Nat.ltb_spec (m_pt m) (len m)) as [H3|H3]; [|discriminate].
  eapply calm_bind; [apply calm_any; unfold pending_peek; lia|]. intros v _.
  eapply (calm_bind (fun _ => True)).
  { unfold skipped_peek2. destruct (Nat.ltb_spec (m_st m) 2); [lia|].
    eapply calm_bind; [apply calm_any; lia|]. intros a _.
    eapply calm_bind; [apply calm_any; lia|]. intros b _. exact Logic.I. }
  intros [a b] _. cbn [calm]. lia.
Qed.

Lemma pop_calm l s p m : at_ l s p m -> 1 <= s -> s <= l ->
  calm (fun q => at_ l (s - 1) p (fst q)) (skipped_pop (E := E) m).
Proof.
  intros (Hl & Hs & Hp) H1 Hle. unfold skipped_pop. destruct (Nat.ltb_spec (m_st m) 1); [lia|].
  eapply calm_bind; [apply calm_any; lia|]. intros a _. cbn [calm fst]. unfold at_; cbn [m_a m_st m_pt]. lia.
Qed.

Lemma peek_calm l s p m : at_ l s p m -> 1 <= s -> s <= l -> calm (fun _ => True) (skipped_peek (E := E) m).
Proof.
  intros (Hl & Hs & Hp) H1 Hle. unfold skipped_peek. destruct (Nat.ltb_spec (m_st m) 1); [lia|]. apply calm_any. lia.
Qed.

Lemma peek2_calm l s p m : at_ l s p m -> 2 <= s -> s <= l -> calm (fun _ => True) (skipped_peek2 (E := E) m).
Proof.
  intros (Hl & Hs & Hp) H1 Hle. unfold skipped_peek2. destruct (Nat.ltb_spec (m_st m) 2); [lia|].
  eapply calm_bind; [apply calm_any; lia|]. intros a _.
  eapply calm_bind; [apply calm_any; lia|]. intros b _. exact Logic.I.
Qed.

Lemma ppeek_calm l s p m : at_ l s p m -> p < l -> calm (fun _ => True) (pending_peek (E := E) m).
Proof. intros (Hl & Hs & Hp) H1. apply calm_any. lia. Qed.

Lemma transfer_calm l s p m : at_ l s p m -> s <= p -> p < l ->
  calm (at_ l (s + 1) (p + 1)) (transfer_pending (E := E) m).
Proof.
  intros (Hl & Hs & Hp) H1 H2. unfold transfer_pending. eapply (calm_bind (fun a : list (I * coords C) => length a = l)).
  - destruct (negb _); [|exact Hl]. unfold swap.
    eapply calm_bind; [apply calm_any; lia|]. intros a _.
    eapply calm_bind; [apply calm_any; lia|]. intros b _. cbn [calm]. now rewrite !upd_length.
  - intros a Ha. cbn [calm]. unfold at_; cbn [m_a m_st m_pt]. lia.
Qed.

Lemma deferred_index_calm l s p m back i : at_ l s p m -> (if back : bool then s + i < l else i < p /\ p <= l) ->
  calm (fun _ => True) (deferred_index (E := E) m back i).
Proof.
  intros (Hl & Hs & Hp) H. unfold deferred_index. destruct back.
  - eapply calm_bind; [apply calm_any; lia|]. intros a _. exact Logic.I.
  - destruct (Nat.ltb_spec (m_pt m) (1 + i)); [lia|].
    eapply calm_bind; [apply calm_any; lia|]. intros a _. exact Logic.I.
Qed.

Lemma add_triangle_calm direct dt v : cr (fun d => d <= dt + 1) (fun s => add_triangle ext direct dt s v).
Proof.
  unfold add_triangle. destruct direct; [|apply cr_ret; cbn [calm]; lia].
  eapply cr_equiv; [intros; apply match_bind|]. hb (fun _ : unit => True); [intros s; apply ext_calm|].
  intros _ _. apply cr_ret. cbn [calm]. lia.
Qed.

(** In a backward fan the deferred triangles use the slots just freed above the skipped stack. *)
Lemma back_calm k l p s0 : s0 <= l -> p < l -> forall m direct dt s, at_ l s p m -> 1 <= s -> s + dt <= s0 ->
  cr (fun q => exists s', at_ l s' p (fst q) /\ 1 <= s' /\ s' + snd q <= s0) (fun x => back_loop ext k m direct dt x).
Proof.
  intros H0 Hp. induction k as [|k IH]; intros m direct dt s Hm Hs Hd; cbn [back_loop]; [now apply cr_ret|].
  hb (fun b : bool => b = true -> 2 <= s /\ p < l). { apply cr_ret. apply can_calm; auto. lia. }
  intros [|] Hb; [|apply cr_ret; cbn [calm fst snd]; eauto]. destruct (Hb eq_refl) as (H2 & _).
  hb (fun q : mono C I * (I * coords C) => at_ l (s - 1) p (fst q)). { apply cr_ret. apply pop_calm; auto; lia. }
  intros [m' v'] Hm'. cbn [fst] in Hm'.
  hb (fun _ : I * coords C => True). { apply cr_ret. apply (peek_calm l (s - 1) p); auto; lia. }
  intros v _. hb (fun d : nat => d <= dt + 1). { apply add_triangle_calm. }
  intros dt' Hdt. apply (IH m' direct dt' (s - 1)); auto; lia.
Qed.

(** In a forward fan they use the slots already transferred below the pending stack. *)
Lemma advance_calm k l p0 : forall m direct dt s p, at_ l s p m -> 2 <= s -> s <= p -> p <= l -> p0 + dt <= p ->
  cr (fun q => exists s' p', at_ l s' p' (fst q) /\ 2 <= s' /\ s' <= p' /\ p' <= l /\ p0 + snd q <= p')
     (fun x => advance_loop ext k m direct dt x).
Proof.
  induction k as [|k IH]; intros m direct dt s p Hm Hs Hsp Hpl Hd; cbn [advance_loop]; [now apply cr_ret|].
  hb (fun b : bool => b = true -> 2 <= s /\ p < l). { apply cr_ret. apply can_calm; auto. lia. }
  intros [|] Hb; [|apply cr_ret; cbn [calm fst snd]; exists s, p; auto]. destruct (Hb eq_refl) as (H2 & H3).
  hb (fun q : mono C I * (I * coords C) => at_ l (s - 1) p (fst q)). { apply cr_ret. apply pop_calm; auto; lia. }
  intros [m' v'] Hm'. cbn [fst] in Hm'.
  hb (fun _ : I * coords C => True). { apply cr_ret. now apply (ppeek_calm l (s - 1) p). }
  intros v _. hb (fun d : nat => d <= dt + 1). { apply add_triangle_calm. }
  intros dt' Hdt. hb (at_ l (s - 1 + 1) (p + 1)). { apply cr_ret. apply transfer_calm; auto; lia. }
  intros m'' Hm''. apply (IH m'' direct dt' (s - 1 + 1) (p + 1)); auto; lia.
Qed.

Lemma deferred_calm l s p m back n : at_ l s p m -> forall i,
  (if back : bool then s + (i + n) <= l else i + n <= p /\ p <= l) ->
  cr (fun _ => True) (fun x => deferred_loop ext m back i n x).
Proof.
  intros Hm. induction n as [|n IH]; intros i Hi; cbn [deferred_loop]; [now apply cr_ret|].
  hb (fun _ : I => True). { apply cr_ret. apply (deferred_index_calm l s p); auto. destruct back; lia. }
  intros v _. hb (fun _ : unit => True). { intros x. apply ext_calm. }
  intros _ _. apply IH. destruct back; lia.
Qed.

Lemma one_fan_calm cw fuel l s p m : at_ l s p m -> 2 <= s -> s <= p -> p < l ->
  cr (fun m' => exists s' p', at_ l s' p' m' /\ 1 <= s' /\ (p' = l -> 2 <= s') /\ s' <= p' /\ p' <= l)
     (fun x => one_fan newf ext cw fuel m x).
Proof.
  intros Hm Hs Hsp Hpl. unfold one_fan.
  hb (fun q : mono C I * (I * coords C) => at_ l (s - 1) p (fst q)). { apply cr_ret. apply pop_calm; auto; lia. }
  intros [m' v1] Hm'. cbn [fst] in Hm'.
  hb (fun _ : I * coords C => True). { apply cr_ret. apply (peek_calm l (s - 1) p); auto; lia. }
  intros v0 _. hb (fun _ : I * coords C => True). { apply cr_ret. now apply (ppeek_calm l (s - 1) p). }
  intros v2 _. hb (fun b : bool => b = true -> 2 <= s - 1 /\ p < l). { apply cr_ret. apply can_calm; auto. lia. }
  intros back Hback. cbv zeta. hb (fun d : nat => d <= 1).
  { destruct (xorb _ _); [|apply cr_ret; cbn [calm]; lia].
    assert (Hn : forall a b c, cr (fun d => d <= 1)
      (fun s => match newf s a b c with
                | (s', Ok _) => (s', Ok 0) | (s', Err e) => (s', Err e) | (s', Crash c) => (s', Crash c) end)).
    { intros a b c. eapply cr_equiv; [intros; apply match_bind|]. hb (fun _ : unit => True).
      - intros x. apply new_calm. - intros _ _. apply cr_ret. cbn [calm]. lia. }
    destruct (negb _); apply Hn. }
  intros dt Hdt.
  hb (fun q : mono C I * nat => exists s' p', at_ l s' p' (fst q) /\ 1 <= s' /\ (back = false -> 2 <= s') /\ s' <= p' /\
        p' <= l /\ (back = true -> p' < l /\ s' + snd q <= l) /\ (back = false -> 1 <= p' /\ snd q <= p')).
  { destruct back.
    - destruct (Hback eq_refl) as (H2 & _).
      hb (fun q : mono C I * (I * coords C) => at_ l (s - 1 - 1) p (fst q)). { apply cr_ret. apply pop_calm; auto; lia. }
      intros [m2 ?] Hm2. cbn [fst] in Hm2.
      hb (fun _ : I * coords C => True). { apply cr_ret. apply (peek_calm l (s - 1 - 1) p); auto; lia. }
      intros v _. hb (fun d : nat => d <= dt + 1). { apply add_triangle_calm. }
      intros dt' Hdt' x.
      assert (B : s - 1 - 1 + dt' <= s) by lia. assert (B1 : 1 <= s - 1 - 1) by lia.
      pose proof (back_calm fuel l p s ltac:(lia) Hpl m2 (xorb (xorb true (m_left m')) cw) dt' _ Hm2 B1 B x) as G.
      eapply calm_weaken; [|exact G]. intros [m3 d3] (s' & H3 & H4 & H5). cbn [fst snd] in *.
      exists s', p. repeat split; try (apply H3); try discriminate; lia.
    - hb (at_ l (s - 1 + 1) (p + 1)). { apply cr_ret. apply transfer_calm; auto; lia. }
      intros m2 Hm2 x.
      pose proof (advance_calm fuel l p m2 (xorb (xorb false (m_left m')) cw) dt _ _ Hm2 ltac:(lia) ltac:(lia) ltac:(lia)
                    ltac:(lia) x) as G.
      eapply calm_weaken; [|exact G]. intros [m3 d3] (s' & p' & H3 & H4 & H5 & H6 & H7). cbn [fst snd] in *.
      exists s', p'. repeat split; try (apply H3); try discriminate; lia. }
  intros [m2 dt2] (s' & p' & Hm2 & H1 & H2 & H3 & H4 & H5 & H6). cbn [fst snd] in *.
  assert (Hend : exists s'0 p'0, at_ l s'0 p'0 m2 /\ 1 <= s'0 /\ (p'0 = l -> 2 <= s'0) /\ s'0 <= p'0 /\ p'0 <= l).
  { exists s', p'. repeat split; try apply Hm2; auto. intros Hp'. destruct back; auto. destruct (H5 eq_refl). lia. }
  destruct (xorb _ _). { apply cr_ret. exact Hend. }
  hb (fun _ : I * I * I => True).
  { destruct back.
    - destruct (H5 eq_refl) as (H7 & H8).
      hb (fun _ : I * coords C => True). { apply cr_ret. now apply (ppeek_calm l s' p'). } intros a _.
      hb (fun _ : I * coords C => True). { apply cr_ret. apply (peek_calm l s' p'); auto; lia. } intros b _.
      hb (fun _ : I => True). { apply cr_ret. apply (deferred_index_calm l s' p'); auto. lia. } intros c _.
      now apply cr_ret.
    - hb (fun _ : (I * coords C) * (I * coords C) => True).
      { apply cr_ret. apply (peek2_calm l s' p'); auto. lia. }
      intros [a b] _.
      hb (fun _ : I => True). { apply cr_ret. apply (deferred_index_calm l s' p'); auto. lia. } intros c _.
      now apply cr_ret. }
  intros [[a b] c] _. hb (fun _ : unit => True). { intros x. apply new_calm. }
  intros _ _. hb (fun _ : unit => True).
  { apply (deferred_calm l s' p' m2 back _ Hm2). destruct back.
    - destruct (H5 eq_refl). lia.
    - destruct (H6 eq_refl). lia. }
  intros _ _. apply cr_ret. exact Hend.
Qed.

Lemma build_fans_calm cw fuel k : forall l s p m, at_ l s p m -> 2 <= s -> s <= p -> p <= l ->
  cr (fun _ => True) (fun x => build_fans newf ext cw fuel k m x).
Proof.
  induction k as [|k IH]; intros l s p m Hm Hs Hsp Hpl; cbn [build_fans]; [now apply cr_ret|].
  hb (fun r : nat => r = l - p + s).
  { apply cr_ret. destruct Hm as (Hl & Hs' & Hp). unfold remaining. destruct (Nat.ltb_spec (len m) (m_pt m)); [lia|].
    cbn [calm]. lia. }
  intros r Hr. destruct (Nat.leb_spec 3 r).
  - hb (fun b : bool => b = true -> 2 <= s /\ p < l). { apply cr_ret. apply can_calm; auto. lia. }
    intros b Hb.
    hb (fun m' => exists s' p', at_ l s' p' m' /\ 1 <= s' /\ (p' = l -> 2 <= s') /\ s' <= p' /\ p' <= l).
    { destruct b.
      - destruct (Hb eq_refl). now apply (one_fan_calm cw fuel l s p).
      - apply cr_ret. exists s, p. repeat split; try apply Hm; lia. }
    intros m' (s' & p' & Hm' & H1 & H2 & H3 & H4). pose proof Hm' as (Hl' & Hs' & Hp').
    unfold has_pending. destruct (Nat.ltb_spec (m_pt m') (len m')).
    + hb (at_ l (s' + 1) (p' + 1)). { apply cr_ret. apply transfer_calm; auto; lia. }
      intros m'' Hm''. apply (IH l (s' + 1) (p' + 1) m''); auto; lia.
    + apply (IH s' 2 2); auto; try lia.
      unfold at_, reset_position; cbn [m_a m_st m_pt]. rewrite firstn_length. lia.
  - destruct (r =? 2); now apply cr_ret.
Qed.

(** ** The traversal *)

Definition okb (b : mbuilder C I) : Prop := 0 < length (mb_vec b).

Lemma finish_calm cw fuel b : okb b -> cr (fun _ => True) (fun s => finish newf ext cw fuel b s).
Proof.
  intros Hb. unfold finish, mb_build.
  destruct (Nat.ltb_spec (length (mb_vec b)) 3) as [Hl|Hl]; [now apply cr_ret|]. destruct (_ && _); [|now apply cr_ret].
  unfold rd. destruct (nth_error (mb_vec b) (length (mb_vec b) - 1)) eqn:E1; cbn [bind];
    [|apply nth_error_None in E1; lia].
  destruct (nth_error (mb_vec b) 0) eqn:E2; cbn [bind]; [|apply nth_error_None in E2; lia].
  destruct (nth_error (mb_vec b) 1) eqn:E3; cbn [bind]; [|apply nth_error_None in E3; lia].
  apply (build_fans_calm cw fuel fuel (length (mb_vec b)) 2 2); auto. unfold at_; cbn [m_a m_st m_pt]. auto. lia.
Qed.

Lemma mb_new_ok (v : I) c : okb (mb_new v c).
Proof. unfold okb. simpl. lia. Qed.

Lemma mb_add_calm b v c : okb b -> calm okb (mb_add (E := err) b v c).
Proof.
  intros Hb. unfold mb_add. eapply calm_bind; [apply calm_any; exact Hb|]. intros v0 _. cbn [calm].
  unfold okb; cbn [mb_vec]. rewrite app_length. simpl. lia.
Qed.

Section Drive.
Variable okv : I -> Prop.
Variable gv : I -> coords C.
Variable cw : bool.
Variable fuel : nat.
Variable st : state C I.
Hypothesis Hst : wf okv st.

Definition okot (m : ot (mbuilder C I)) : Prop := match m with OOne a => okb a | OTwo a b => okb a /\ okb b end.
Definition okopt (o : option (ot (mbuilder C I))) : Prop := match o with Some m => okot m | None => True end.
Definition okx (x : tstate) : Prop :=
  x_ti x < length (st_ts st) /\ okopt (x_ms x) /\
  Forall (fun p => fst p < length (st_ts st) /\ okopt (snd p)) (x_bs x) /\ Forall okb (x_mst x).

Lemma ok_or_calm {E' A} (o : option A) (e : E') (Q : A -> Prop) : (forall a, o = Some a -> Q a) -> calm Q (ok_or o e).
Proof. destruct o; simpl; auto. Qed.

Lemma extend_calm t ni n ms : trap_wf (sz st) t -> okot ms ->
  cr okot (fun s => extend_monotones gv newf ext cw fuel st t ni n ms s).
Proof.
  intros (T1 & T2 & T3 & T4 & T5) Hms. unfold extend_monotones.
  hb okot.
  { apply cr_ret. unfold add_to_all. destruct ms as [a|a b].
    - eapply calm_bind; [apply mb_add_calm; auto|]. intros a' Ha. exact Ha.
    - destruct Hms. eapply calm_bind; [apply mb_add_calm; auto|]. intros a' Ha.
      eapply calm_bind; [apply mb_add_calm; auto|]. intros b' Hb. simpl; auto. }
  intros ms' Hms'.
  hb (fun i : nat => i < length (st_ss st)). { apply cr_ret, ok_or_calm. intros a Ha. now rewrite Ha in T1. } intros sl Hsl.
  hb (fun _ : seg C => True). { apply cr_ret, calm_any. exact Hsl. } intros s_l _.
  hb (fun i : nat => i < length (st_ss st)). { apply cr_ret, ok_or_calm. intros a Ha. now rewrite Ha in T2. } intros sr Hsr.
  hb (fun _ : seg C => True). { apply cr_ret, calm_any. exact Hsr. } intros s_r _.
  hb (fun i : nat => i < length (st_ns st)). { apply cr_ret, ok_or_calm. intros a Ha. now rewrite Ha in T4. } intros nu Hnu.
  assert (G : forall (b : mbuilder C I) (rest : option (ot (mbuilder C I))), okb b -> (forall m, rest = Some m -> okot m) ->
    cr okot (fun s =>
      sbind (finish newf ext cw fuel b s) (fun s _ =>
       match rest with
       | Some ms => (s, Ok ms)
       | None =>
         sbind (lift s (rd (st_ns st) nu)) (fun s n_up =>
         sbind (lift s (mb_add (mb_new (n_v n_up) (gv (n_v n_up))) (n_v n) (n_c n))) (fun s b' => (s, Ok (OOne b'))))
       end))).
  { intros b rest Hb Hr. hb (fun _ : unit => True). { now apply finish_calm. }
    intros _ _. destruct rest as [m|]. { apply cr_ret. simpl. auto. }
    hb (fun _ : nexus C I => True). { apply cr_ret, calm_any. exact Hnu. } intros nn _.
    hb okb. { apply cr_ret. apply mb_add_calm; auto. now apply mb_new_ok. } intros b' Hb'. now apply cr_ret. }
  destruct (_ && _).
  - destruct ms' as [a|a b]; simpl in Hms'; [apply (G a None)|apply (G a (Some (OOne b)))]; try tauto;
      intros m; try discriminate; intros [= <-]; simpl; tauto.
  - destruct (_ && _).
    + destruct ms' as [a|a b]; simpl in Hms'; [apply (G a None)|apply (G b (Some (OOne a)))]; try tauto;
        intros m; try discriminate; intros [= <-]; simpl; tauto.
    + now apply cr_ret.
Qed.

Lemma finish_all_calm ms : okot ms -> cr (fun _ => True) (fun s => finish_all newf ext cw fuel ms s).
Proof.
  intros Hms. destruct ms as [a|a b]; cbn [finish_all]; [now apply finish_calm|]. destruct Hms as (Ha & Hb).
  hb (fun _ : unit => True). { now apply finish_calm. } intros _ _. now apply finish_calm.
Qed.

Lemma single_calm m : okot m -> calm okb (single (E := E) m).
Proof. destruct m; simpl; auto. Qed.

Lemma step_v_calm x ms ul uc ur down : okx x -> okopt ms -> down < length (st_ts st) ->
  cr okx (fun s => step_v newf ext cw fuel x ms ul uc ur down s).
Proof.
  intros (Hx0 & Hx1 & Hx2 & Hx3) Hms Hdown. unfold step_v. cbv zeta.
  hb (fun p : option (ot (mbuilder C I)) * list (mbuilder C I) => okopt (fst p) /\ Forall okb (snd p)).
  { destruct ms as [m|]; [|apply cr_ret; simpl; auto].
    destruct (_ =? _).
    { hb okb. { apply cr_ret. now apply single_calm. } intros a Ha. apply cr_ret. simpl. auto. }
    destruct (_ =? _).
    { hb (fun _ : unit => True). { now apply finish_all_calm. } intros _ _. apply cr_ret. simpl. auto. }
    destruct (_ =? _); [|now apply cr_ret].
    destruct (x_mst x) as [|l mst]; [now apply cr_ret|]. inversion Hx3; subst.
    hb okb. { apply cr_ret. now apply single_calm. } intros r Hr. apply cr_ret. simpl. auto. }
  intros [ms' mst] (H1 & H2). simpl in H1, H2. destruct (_ =? _).
  - apply cr_ret. simpl. repeat split; auto.
  - apply cr_ret. unfold resume. destruct (x_bs x) as [|[ti m] bs]; [exact Logic.I|]. inversion Hx2 as [|? ? (Ha & Hb)]; subst.
    simpl. repeat split; auto.
Qed.

Lemma step_a_calm x t n ms dl dc dr : trap_wf (sz st) t -> okx x -> okopt ms ->
  dl < length (st_ts st) -> dc < length (st_ts st) -> dr < length (st_ts st) ->
  cr okx (fun s => step_a st x t n ms dl dc dr s).
Proof.
  intros (T1 & T2 & T3 & T4 & T5) (Hx0 & Hx1 & Hx2 & Hx3) Hms Hdl Hdc Hdr. unfold step_a. destruct ms as [m|].
  - hb (fun p : mbuilder C I * mbuilder C I => okb (fst p) /\ okb (snd p)).
    { destruct m as [a|a b]; [|apply cr_ret; exact Hms].
      hb (fun i : nat => i < length (st_ns st)). { apply cr_ret, ok_or_calm. intros i Ha. now rewrite Ha in T4. } intros nu Hnu.
      hb (fun n : nexus C I => True). { apply cr_ret, calm_any. exact Hnu. } intros nn Hnn.
      hb okb. { apply cr_ret. apply mb_add_calm; auto. now apply mb_new_ok. } intros b Hb.
      hb (fun i : nat => i < length (st_ss st)). { apply cr_ret, ok_or_calm. intros i Ha. now rewrite Ha in T1. } intros sl Hsl.
      hb (fun _ : seg C => True). { apply cr_ret, calm_any. exact Hsl. } intros s_l _.
      destruct (_ =? _). { apply cr_ret. simpl. auto. }
      hb (fun i : nat => i < length (st_ss st)). { apply cr_ret, ok_or_calm. intros i Ha. now rewrite Ha in T2. } intros sr Hsr.
      hb (fun _ : seg C => True). { apply cr_ret, calm_any. exact Hsr. } intros s_r _.
      destruct (_ =? _); apply cr_ret; simpl; auto. }
    intros [ml mr] (Hl & Hr). simpl in Hl, Hr. apply cr_ret. split; [exact Hdl|]. split; [exact Hl|split; [|exact Hx3]].
    constructor; [simpl; auto|constructor; simpl; auto].
  - apply cr_ret. split; [exact Hdl|]. split; [exact Logic.I|]. split; [|exact Hx3].
    constructor; [|constructor; [|exact Hx2]]; cbn [fst snd]; split; auto. apply mb_new_ok.
Qed.

Lemma tri_step_calm x t ni : trap_wf (sz st) t -> ni < length (st_ns st) -> okx x ->
  cr okx (fun s => tri_step gv newf ext cw fuel st x t ni s).
Proof.
  intros Ht Hni Hx. pose proof Hst as ((Wn & Ws & Wt & Wq) & _ & _). unfold tri_step.
  hb (nexus_wf (C := C) okv (sz st)). { apply cr_ret. apply calm_rd; auto. } intros n (Hv & Hul & Hdl & Hz).
  hb okopt.
  { destruct Hx as (_ & Hx1 & _). destruct (x_ms x) as [m|]; [|now apply cr_ret].
    hb okot. { now apply extend_calm. } intros m' Hm'. now apply cr_ret. }
  intros ms Hms.
  hb (fun y : ntype => match y with
       | TV ul uc ur down => down < length (st_ts st)
       | TI ul ur dl dr => dl < length (st_ts st) /\ dr < length (st_ts st)
       | TA _ dl dc dr => dl < length (st_ts st) /\ dc < length (st_ts st) /\ dr < length (st_ts st) end).
  { apply cr_ret. unfold final_type. destruct (n_div n) as [|a|a b]; try exact Logic.I. destruct Hz as ((_ & Ha) & (_ & Hb)).
    cbn [z_t sz] in *. destruct (dir_eqb _ _); [|destruct (dir_eqb _ _)]; cbn [map_err calm]; auto. }
  intros [ul uc ur down|ul ur dl dr|up dl dc dr] Hy.
  - now apply step_v_calm.
  - destruct Hy as (Y1 & Y2), Hx as (Hx0 & Hx1 & Hx2 & Hx3).
    destruct (_ =? _); [|destruct (_ =? _)]; apply cr_ret; simpl; auto; repeat split; auto.
  - apply step_a_calm; tauto.
Qed.

Lemma tri_loop_calm k : forall x, okx x -> cr (fun _ => True) (fun s => tri_loop gv newf ext cw fuel st k x s).
Proof.
  pose proof Hst as ((Wn & Ws & Wt & Wq) & _ & _).
  induction k as [|k IH]; intros x Hx; cbn [tri_loop]; [now apply cr_ret|].
  hb (trap_wf (sz st)). { apply cr_ret. apply calm_rd; auto. apply Hx. } intros t Ht.
  destruct (t_d t) as [ni|] eqn:Ed.
  - hb okx. { apply tri_step_calm; auto. destruct Ht as (_ & _ & Hd & _). now rewrite Ed in Hd. }
    intros x' Hx'. now apply IH.
  - apply cr_ret. unfold tri_end. destruct (x_mst x), (x_bs x), (x_ms x); exact Logic.I.
Qed.

Lemma top_calm k : forall qi, qi < length (st_qs st) ->
  calm (fun ti => ti < length (st_ts st)) (top_trapezoid k (st_qs st) qi).
Proof.
  pose proof Hst as ((Wn & Ws & Wt & Wq) & _ & _).
  induction k as [|k IH]; intros qi Hqi; cbn [top_trapezoid]; [exact Logic.I|].
  eapply calm_bind; [apply (calm_rd _ _ (q_wf (sz st))); auto|]. intros [l r [a b|c]|t] Hq; cbn [calm]; auto.
  apply IH. apply Hq.
Qed.

Lemma inner_calm : cr (fun _ => True) (fun s => triangulate_inner gv newf ext cw fuel st s).
Proof.
  pose proof Hst as (_ & _ & Hq0). unfold triangulate_inner. hb (fun ti : nat => ti < length (st_ts st)).
  - apply cr_ret. pose proof (top_calm fuel 0 Hq0) as H. destruct (top_trapezoid _ _ _) as [|?|[]]; exact H.
  - intros ti Hti. apply tri_loop_calm. split; [exact Hti|]. repeat split; constructor.
Qed.
End Drive.
End PanicTri.
