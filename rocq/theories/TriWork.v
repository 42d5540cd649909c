(** The number of loop iterations made by the triangulation (the second phase): the functions of [Mono.v] and [Tri.v] with
    a counter beside the state of the receiver.  Counted are the nodes visited by [top_trapezoid], the iterations of the
    traversal, of the scan of each piece, of its two inner loops and of the loop over deferred triangles. *)
From Coq Require Import List Arith Bool Lia.
From Verif Require Import Base Coord Trap Mono Tri Trace Protocol MonoProof EndsFan.
Import ListNotations.

(** One more iteration. *)
Definition inc {S : Type} (s : S * nat) : S * nat := (fst s, Datatypes.S (snd s)).

(** A call to the receiver leaves the counter alone. *)
Definition over {S E A : Type} (f : S -> sres S E A) (s : S * nat) : sres (S * nat) E A :=
  let r := f (fst s) in ((fst r, snd s), snd r).

Section Count.
Context {C : Type} {OC : CoordOps C} {I : Type} {S E : Type}.
Variable newf : S -> I -> I -> I -> sres S (tri_error E) unit.
Variable ext : S -> I -> sres S (tri_error E) unit.
Variable cw : bool.
Notation err := (tri_error E).
Notation T := (S * nat)%type.
Notation mb := (mbuilder C I).

Definition new_c (s : T) (a b c : I) : sres T err unit := over (fun s => newf s a b c) s.
Definition ext_c (s : T) (v : I) : sres T err unit := over (fun s => ext s v) s.

Local Open Scope sres_scope.

(** Backtracking loop (src/monotone.rs 130-133), one more for each evaluation of the condition. *)
Fixpoint back_loop_c (k : nat) (m : mono C I) (direct : bool) (dt : nat) (s : T) : sres T err (mono C I * nat) :=
  match k with
  | 0 => (s, Crash Fuel)
  | Datatypes.S k =>
    sdo s, b <- lift (inc s) (can_triangulate m);
    if b : bool then
      sdo s, '(m, _) <- lift s (skipped_pop m);
      sdo s, v <- lift s (skipped_peek m);
      sdo s, dt <- add_triangle ext_c direct dt s (fst v);
      back_loop_c k m direct dt s
    else (s, Ok (m, dt))
  end.

(** Advancing loop (src/monotone.rs 136-141). *)
Fixpoint advance_loop_c (k : nat) (m : mono C I) (direct : bool) (dt : nat) (s : T) : sres T err (mono C I * nat) :=
  match k with
  | 0 => (s, Crash Fuel)
  | Datatypes.S k =>
    sdo s, b <- lift (inc s) (can_triangulate m);
    if b : bool then
      sdo s, '(m, _) <- lift s (skipped_pop m);
      sdo s, v <- lift s (pending_peek m);
      sdo s, dt <- add_triangle ext_c direct dt s (fst v);
      sdo s, m <- lift s (transfer_pending m);
      advance_loop_c k m direct dt s
    else (s, Ok (m, dt))
  end.

(** The deferred [extend_fan] calls (src/monotone.rs 153-157). *)
Fixpoint deferred_loop_c (m : mono C I) (back : bool) (i n : nat) (s : T) : sres T err unit :=
  match n with
  | 0 => (s, Ok tt)
  | Datatypes.S n =>
    sdo s, vi <- lift (inc s) (deferred_index m back i);
    sdo s, _ <- ext_c s vi;
    deferred_loop_c m back (i + 1) n s
  end.

(** One fan (src/monotone.rs 104-158). *)
Definition one_fan_c (fuel : nat) (m : mono C I) (s : T) : sres T err (mono C I) :=
  sdo s, '(m, v1) <- lift s (skipped_pop m);
  sdo s, v0 <- lift s (skipped_peek m);
  sdo s, v2 <- lift s (pending_peek m);
  sdo s, back <- lift s (can_triangulate m);
  let direct := xorb (xorb back (m_left m)) cw in
  sdo s, dt <-
    (if direct then
       let (vi0, vi2) := if negb (m_left m) then (fst v2, fst v0) else (fst v0, fst v2) in
       match new_c s vi0 (fst v1) vi2 with
       | (s', Ok _) => (s', Ok 0)
       | (s', Err e) => (s', Err e)
       | (s', Crash c) => (s', Crash c)
       end
     else (s, Ok 1));
  sdo s, '(m, dt) <-
    (if back : bool then
       sdo s, '(m, _) <- lift s (skipped_pop m);
       sdo s, v <- lift s (skipped_peek m);
       sdo s, dt <- add_triangle ext_c direct dt s (fst v);
       back_loop_c fuel m direct dt s
     else
       sdo s, m <- lift s (transfer_pending m);
       advance_loop_c fuel m direct dt s);
  if direct then (s, Ok m)
  else
    sdo s, '(vi0, vi1, vi2) <-
      (if back : bool then
         sdo s, a <- lift s (pending_peek m);
         sdo s, b <- lift s (skipped_peek m);
         sdo s, c <- lift s (deferred_index m back 0);
         (s, Ok (fst a, fst b, c))
       else
         sdo s, '(a, b) <- lift s (skipped_peek2 m);
         sdo s, c <- lift s (deferred_index m back 0);
         (s, Ok (fst a, fst b, c)));
    sdo s, _ <- new_c s vi0 vi1 vi2;
    sdo s, _ <- deferred_loop_c m back 1 (dt - 1) s;
    (s, Ok m).

(** The scan (src/monotone.rs 87-176). *)
Fixpoint build_fans_c (fuel k : nat) (m : mono C I) (s : T) : sres T err unit :=
  match k with
  | 0 => (s, Crash Fuel)
  | Datatypes.S k =>
    sdo s, r <- lift (inc s) (remaining m);
    if Nat.leb 3 r then
      sdo s, b <- lift s (can_triangulate m);
      sdo s, m <- (if b : bool then one_fan_c fuel m s else (s, Ok m));
      if has_pending m then
        sdo s, m <- lift s (transfer_pending m);
        build_fans_c fuel k m s
      else build_fans_c fuel k (reset_position m) s
    else if Nat.eqb r 2 then (s, Ok tt)
    else (s, Err (TEInternal (IE_Remaining r)))
  end.

Variable gv : I -> coords C.
Variable fuel : nat.
Variable st : state C I.

Definition finish_c (b : mb) (s : T) : sres T err unit :=
  match mb_build b with
  | Ok (Some m) => build_fans_c fuel fuel m s
  | Ok None => (s, Ok tt)
  | Err e => (s, Err (TEInternal e))
  | Crash c => (s, Crash c)
  end.

(** src/trapezoidation.rs 715-781. *)
Definition extend_monotones_c (t : trap) (ni_down : nat) (n_down : nexus C I) (ms : ot mb) (s : T) : sres T err (ot mb) :=
  sdo s, ms <- lift s (add_to_all ms n_down);
  sdo s, si_left <- lift s (ok_or (t_l t) (TEInternal IE_Inner));
  sdo s, s_left <- lift s (rd (st_ss st) si_left);
  sdo s, si_right <- lift s (ok_or (t_r t) (TEInternal IE_Inner));
  sdo s, s_right <- lift s (rd (st_ss st) si_right);
  sdo s, ni_up <- lift s (ok_or (t_u t) (TEInternal IE_Inner));
  let '(complete, rest) :=
    if Nat.eqb ni_down (s_min s_left) && negb (Nat.eqb ni_down (s_min s_right))
         && negb (Nat.eqb ni_up (s_max s_left)) then
      match ms with
      | OOne a => (Some a, None)
      | OTwo a b => (Some a, Some (OOne b))
      end
    else if Nat.eqb ni_down (s_min s_right) && negb (Nat.eqb ni_down (s_min s_left))
              && negb (Nat.eqb ni_up (s_max s_right)) then
      match ms with
      | OOne a => (Some a, None)
      | OTwo a b => (Some b, Some (OOne a))
      end
    else (None, Some ms) in
  match complete with
  | Some b =>
    sdo s, _ <- finish_c b s;
    match rest with
    | Some ms => (s, Ok ms)
    | None =>
      sdo s, n_up <- lift s (rd (st_ns st) ni_up);
      sdo s, b' <- lift s (mb_add (mb_new (n_v n_up) (gv (n_v n_up))) (n_v n_down) (n_c n_down));
      (s, Ok (OOne b'))
    end
  | None => match rest with Some ms => (s, Ok ms) | None => (s, Ok ms) end
  end.

Definition finish_all_c (ms : ot mb) (s : T) : sres T err unit :=
  match ms with
  | OOne a => finish_c a s
  | OTwo a b => sdo s, _ <- finish_c a s; finish_c b s
  end.

(** src/trapezoidation.rs 784-820. *)
Definition step_v_c (x : tstate (C := C) (I := I)) (ms : option (ot mb)) (ul uc ur down : nat) (s : T) : sres T err tstate :=
  let ti := x_ti x in
  sdo s, '(ms', mst) <-
    match ms with
    | Some m =>
      if Nat.eqb ti ul then
        sdo s, a <- lift s (single m); (s, Ok (None, a :: x_mst x))
      else if Nat.eqb ti uc then
        sdo s, _ <- finish_all_c m s; (s, Ok (None, x_mst x))
      else if Nat.eqb ti ur then
        match x_mst x with
        | [] => (s, Err (TEInternal IE_EmptyStack))
        | l :: mst => sdo s, r <- lift s (single m); (s, Ok (Some (OTwo l r), mst))
        end
      else (s, Err (TEInternal IE_InvalidTrapezoidation))
    | None => (s, Ok (None, x_mst x))
    end;
  if Nat.eqb ti ur then (s, Ok (mkT down ms' (x_bs x) mst))
  else lift s (resume (x_bs x) mst).

(** src/trapezoidation.rs 711-868; the [A] case has no loop. *)
Definition tri_step_c (x : tstate (C := C) (I := I)) (t : trap) (ni_down : nat) (s : T) : sres T err tstate :=
  sdo s, n_down <- lift s (rd (st_ns st) ni_down);
  sdo s, ms <-
    match x_ms x with
    | Some ms => sdo s, ms <- extend_monotones_c t ni_down n_down ms s; (s, Ok (Some ms))
    | None => (s, Ok None)
    end;
  sdo s, ty <- lift s (map_err TEInternal (final_type n_down));
  match ty with
  | TV ul uc ur down => step_v_c x ms ul uc ur down s
  | TI ul ur dl dr =>
    if Nat.eqb (x_ti x) ul then (s, Ok (mkT dl ms (x_bs x) (x_mst x)))
    else if Nat.eqb (x_ti x) ur then (s, Ok (mkT dr ms (x_bs x) (x_mst x)))
    else (s, Err (TEInternal IE_InvalidI))
  | TA _ dl dc dr => step_a st x t n_down ms dl dc dr s
  end.

Fixpoint tri_loop_c (k : nat) (x : tstate (C := C) (I := I)) (s : T) : sres T err unit :=
  match k with
  | 0 => (s, Crash Fuel)
  | Datatypes.S k =>
    sdo s, t <- lift (inc s) (rd (st_ts st) (x_ti x));
    match t_d t with
    | None => (s, tri_end x)
    | Some ni_down =>
      sdo s, x' <- tri_step_c x t ni_down s;
      tri_loop_c k x' s
    end
  end.

(** [top_trapezoid] (src/trapezoidation.rs 670-681), one for each node. *)
Fixpoint top_trapezoid_c (k : nat) (qs : list (qnode C)) (qi : nat) (s : T) : sres T ierr nat :=
  match k with
  | 0 => (s, Crash Fuel)
  | Datatypes.S k =>
    sbind (inc s, rd qs qi) (fun s q =>
    match q with
    | QBranch _ _ (QX _ _) => (s, Err IE_TopX)
    | QBranch _ r (QY _) => top_trapezoid_c k qs r s
    | QSink ti => (s, Ok ti)
    end)
  end.

(** [triangulate_inner] (src/trapezoidation.rs 683-879). *)
Definition triangulate_inner_c (s : T) : sres T err unit :=
  let r := top_trapezoid_c fuel (st_qs st) 0 s in
  sdo s, ti <- lift (fst r) (map_err TEInternal (snd r));
  tri_loop_c fuel (mkT ti None [] []) s.

End Count.

(** ** Counted and uncounted runs *)

(** The counted run [rc] has the result and the receiver state of [r]; unless it runs out of budget the counter is at most
    [B], and a normal result satisfies [Q]. *)
Definition cst {S E A} (B : nat) (Q : A -> nat -> Prop) (r : sres S E A) (rc : sres (S * nat) E A) : Prop :=
  fst (fst rc) = fst r /\ snd rc = snd r /\ (snd r <> Crash Fuel -> snd (fst rc) <= B /\ forall a, snd r = Ok a -> Q a (snd (fst rc))).

Section Rules.
Context {S E : Type}.

Lemma cst_bind {A B'} B (Q : A -> nat -> Prop) (R : B' -> nat -> Prop) (r : sres S E A) rc f fc : cst B Q r rc ->
  (forall s c a, c <= B -> Q a c -> cst B R (f s a) (fc (s, c) a)) -> cst B R (sbind r f) (sbind rc fc).
Proof.
  intros (H1 & H2 & H3) HF. destruct r as [s r], rc as [[s' c] rc]. cbn in *. subst s' rc. unfold sbind. cbn. destruct r as [a|e|cr]; cbn.
  - destruct H3 as (Hc & HQ); [discriminate|]. apply HF; auto.
  - split; [|split]; auto. intros H. split; [apply H3; discriminate|discriminate].
  - split; [|split]; auto. cbn. intros H. split; [apply H3; congruence|discriminate].
Qed.

Lemma cst_lift {A} B (Q : A -> nat -> Prop) (s : S) (c : nat) (r : res E A) : c <= B -> (forall a, r = Ok a -> Q a c) -> cst B Q (s, r) ((s, c), r).
Proof. intros Hc HQ. repeat split; auto. Qed.

Lemma cst_weaken {A} B B' (Q R : A -> nat -> Prop) (r : sres S E A) rc : cst B Q r rc -> B <= B' -> (forall a c, Q a c -> R a c) -> cst B' R r rc.
Proof. intros (H1 & H2 & H3) Hb HQ. split; [|split]; auto. intros Hr. destruct (H3 Hr). split; [lia|auto]. Qed.

Lemma cst_out {A} B (Q : A -> nat -> Prop) (s : S) (c : nat) : cst (E := E) B Q (s, Crash Fuel) ((s, c), Crash Fuel).
Proof. split; [|split]; auto. intros H. now destruct H. Qed.

Lemma cst_over {A} B (f : S -> sres S E A) s c : c <= B -> cst B (fun _ c' => c' = c) (f s) (over f (s, c)).
Proof. intros Hc. unfold over. repeat split; auto. Qed.
End Rules.

Section Piece.
Context {C : Type} {OC : CoordOps C} {I : Type} {S E : Type}.
Variable newf : S -> I -> I -> I -> sres S (tri_error E) unit.
Variable ext : S -> I -> sres S (tri_error E) unit.
Variable cw : bool.
Notation err := (tri_error E).
Notation mono := (mono C I).

(** What is left of the piece. *)
Definition rem (m : mono) : nat := m_st m + (length (m_a m) - m_pt m).

Lemma can_true (m : mono) : can_triangulate (E := E) m = Ok true -> 2 <= m_st m /\ m_pt m < length (m_a m).
Proof.
  unfold can_triangulate, has_pending. destruct (2 <=? m_st m) eqn:E1; cbn [andb]; [|discriminate]. destruct (m_pt m <? length (m_a m)) eqn:E2; [|discriminate].
  intros _. apply Nat.leb_le in E1. apply Nat.ltb_lt in E2. auto.
Qed.

Lemma pop_fact (m m' : mono) v : skipped_pop (E := E) m = Ok (m', v) -> 1 <= m_st m /\ m_st m' = m_st m - 1 /\ m_pt m' = m_pt m /\ m_a m' = m_a m /\ m_left m' = m_left m.
Proof.
  unfold skipped_pop. destruct (m_st m <? 1) eqn:E1; [discriminate|]. apply Nat.ltb_ge in E1. destruct (rd _ _) as [a|e|c]; cbn; try discriminate.
  intros H. injection H as <- _. cbn. auto.
Qed.

Lemma transfer_fact (m m' : mono) : transfer_pending (E := E) m = Ok m' -> m_st m' = m_st m + 1 /\ m_pt m' = m_pt m + 1 /\ length (m_a m') = length (m_a m).
Proof.
  unfold transfer_pending. destruct (negb _).
  - unfold swap. destruct (rd _ _) as [a|e|c]; cbn; try discriminate. destruct (rd _ _) as [b|e|c]; cbn; try discriminate.
    intros H. injection H as <-. cbn. now rewrite !upd_length.
  - cbn. intros H. injection H as <-. cbn. auto.
Qed.

Lemma pending_fact (m : mono) v : pending_peek (E := E) m = Ok v -> m_pt m < length (m_a m).
Proof. unfold pending_peek, rd. destruct (nth_error _ _) eqn:E1; cbn; try discriminate. intros _. apply nth_error_Some. congruence. Qed.

Lemma add_triangle_cst B direct dt s c v : c <= B -> cst B (fun dt' c' => c' = c /\ dt' <= dt + 1) (add_triangle ext direct dt s v) (add_triangle (ext_c ext) direct dt (s, c) v).
Proof.
  intros Hc. unfold add_triangle, ext_c, over. destruct direct; cbn.
  - destruct (ext s v) as [s' [u|e|cr]]; cbn; (split; [|split]); auto; cbn; intros _; split; auto; try discriminate. intros a H. injection H as <-. lia.
  - repeat split; auto. cbn in *. injection H0 as <-. lia.
Qed.

Lemma back_cst B : forall k (m : mono) direct dt s c, c + 1 + rem m <= B ->
  cst B (fun r c' => c' + rem (fst r) <= c + 1 + rem m /\ snd r + rem (fst r) <= dt + rem m /\ (2 <= rem m -> 2 <= rem (fst r)))
    (back_loop ext k m direct dt s) (back_loop_c ext k m direct dt (s, c)).
Proof.
  induction k as [|k IH]; intros m direct dt s c HB; cbn [back_loop back_loop_c].
  - apply cst_out.
  - eapply (cst_bind _ (fun b c' => c' = c + 1 /\ can_triangulate (E := E) m = Ok b)); [apply cst_lift; cbn; [lia|intros a Ha; split; [lia|exact Ha]]|].
    intros s1 c1 b Hc1 (-> & Hb). destruct b; [|apply cst_lift; [exact Hc1|intros a Ha; injection Ha as <-; cbn; lia]].
    apply can_true in Hb.
    eapply (cst_bind _ (fun p c' => c' = c + 1 /\ rem (fst p) + 1 = rem m /\ 2 <= rem (fst p))).
    { apply cst_lift; auto. intros [m' v] Hp. apply pop_fact in Hp. cbn. unfold rem in *. destruct Hp as (H1 & -> & -> & -> & _). lia. }
    intros s2 c2 [m' v] Hc2 (-> & Hr & Hr2). cbn [fst] in *.
    eapply (cst_bind _ (fun _ c' => c' = c + 1)); [now apply cst_lift|]. intros s3 c3 w _ ->.
    eapply (cst_bind _ (fun dt' c' => c' = c + 1 /\ dt' <= dt + 1)); [now apply add_triangle_cst|]. intros s4 c4 dt' _ (-> & Hd).
    eapply cst_weaken; [apply IH; lia|lia|]. cbn. intros [m2 d2] c5. cbn. lia.
Qed.

Lemma advance_cst B : forall k (m : mono) direct dt s c, c + 1 + rem m <= B ->
  cst B (fun r c' => c' + rem (fst r) <= c + 1 + rem m /\ snd r + rem (fst r) <= dt + rem m /\ (2 <= rem m -> 2 <= rem (fst r)))
    (advance_loop ext k m direct dt s) (advance_loop_c ext k m direct dt (s, c)).
Proof.
  induction k as [|k IH]; intros m direct dt s c HB; cbn [advance_loop advance_loop_c].
  - apply cst_out.
  - eapply (cst_bind _ (fun b c' => c' = c + 1 /\ can_triangulate (E := E) m = Ok b)); [apply cst_lift; cbn; [lia|intros a Ha; split; [lia|exact Ha]]|].
    intros s1 c1 b Hc1 (-> & Hb). destruct b; [|apply cst_lift; [exact Hc1|intros a Ha; injection Ha as <-; cbn; lia]].
    apply can_true in Hb.
    eapply (cst_bind _ (fun p c' => c' = c + 1 /\ rem (fst p) + 1 = rem m /\ 2 <= rem (fst p) /\ m_pt (fst p) < length (m_a (fst p)))).
    { apply cst_lift; auto. intros [m' v] Hp. apply pop_fact in Hp. cbn. unfold rem in *. destruct Hp as (H1 & -> & -> & -> & _). lia. }
    intros s2 c2 [m' v] Hc2 (-> & Hr & Hr2 & Hpt). cbn [fst] in *.
    eapply (cst_bind _ (fun _ c' => c' = c + 1)); [now apply cst_lift|]. intros s3 c3 w _ ->.
    eapply (cst_bind _ (fun dt' c' => c' = c + 1 /\ dt' <= dt + 1)); [now apply add_triangle_cst|]. intros s4 c4 dt' _ (-> & Hd).
    eapply (cst_bind _ (fun m2 c' => c' = c + 1 /\ rem m2 = rem m')).
    { apply cst_lift; auto. intros m2 Hm. apply transfer_fact in Hm. split; auto. unfold rem. destruct Hm as (-> & -> & ->). lia. }
    intros s5 c5 m2 _ (-> & Hm2).
    eapply cst_weaken; [apply IH; lia|lia|]. cbn. intros [m3 d3] c6. cbn. lia.
Qed.

Lemma deferred_cst B (m : mono) back : forall n i s c, c + n <= B -> cst B (fun _ c' => c' = c + n) (deferred_loop ext m back i n s) (deferred_loop_c ext m back i n (s, c)).
Proof.
  induction n as [|n IH]; intros i s c HB; cbn [deferred_loop deferred_loop_c].
  - apply cst_lift; [lia|]. intros. lia.
  - eapply (cst_bind _ (fun _ c' => c' = c + 1)); [apply cst_lift; cbn; lia|]. intros s1 c1 vi _ ->.
    eapply (cst_bind _ (fun _ c' => c' = c + 1)); [apply (cst_over _ (fun s => ext s vi)); lia|]. intros s2 c2 _ _ ->.
    eapply cst_weaken; [apply IH; lia|lia|]. cbn. intros; lia.
Qed.

Lemma one_fan_cst B fuel (m : mono) s c : can_triangulate (E := E) m = Ok true -> c + 2 * rem m <= B ->
  cst B (fun m' c' => c' + 2 * rem m' <= c + 2 * rem m /\ 2 <= rem m') (one_fan newf ext cw fuel m s) (one_fan_c newf ext cw fuel m (s, c)).
Proof.
  intros Hcan HB. apply can_true in Hcan. unfold one_fan, one_fan_c.
  eapply (cst_bind _ (fun p c' => c' = c /\ rem (fst p) + 1 = rem m /\ 2 <= rem (fst p) /\ m_pt (fst p) < length (m_a (fst p)))).
  { apply cst_lift; [lia|]. intros [m' v] Hp. apply pop_fact in Hp. cbn. unfold rem in *. destruct Hp as (H1 & -> & -> & -> & _). lia. }
  intros s1 c1 [m1 v1] _ (-> & Hr & Hr2 & Hpt). cbn [fst] in *.
  eapply (cst_bind _ (fun _ c' => c' = c)); [apply cst_lift; [lia|auto]|]. intros s2 c2 v0 _ ->.
  eapply (cst_bind _ (fun _ c' => c' = c)); [apply cst_lift; [lia|auto]|]. intros s3 c3 v2 _ ->.
  eapply (cst_bind _ (fun b c' => c' = c /\ can_triangulate (E := E) m1 = Ok b)); [apply cst_lift; [lia|auto]|]. intros s4 c4 back _ (-> & Hb).
  cbn zeta. set (direct := xorb (xorb back (m_left m1)) cw). clearbody direct.
  eapply (cst_bind _ (fun dt c' => c' = c /\ dt <= 1)).
  { destruct direct; [|apply cst_lift; [lia|intros a Ha; injection Ha as <-; lia]].
    destruct (if negb (m_left m1) then (fst v2, fst v0) else (fst v0, fst v2)) as [vi0 vi2]. unfold new_c, over. cbn.
    destruct (newf s4 vi0 (fst v1) vi2) as [s' [u|e|cr]]; cbn; (split; [|split]); auto; cbn; intros _; (split; [lia|]); try discriminate. intros a H. injection H as <-. lia. }
  intros s5 c5 dt _ (-> & Hdt).
  eapply (cst_bind _ (fun r c' => c' + rem (fst r) <= c + 1 + rem m1 /\ snd r + rem (fst r) <= 1 + rem m1 /\ 2 <= rem (fst r))).
  { destruct back.
    - apply can_true in Hb.
      eapply (cst_bind _ (fun p c' => c' = c /\ rem (fst p) + 1 = rem m1 /\ 2 <= rem (fst p))).
      { apply cst_lift; [lia|]. intros [m' v] Hp. apply pop_fact in Hp. cbn. unfold rem in *. destruct Hp as (H1 & -> & -> & -> & _). lia. }
      intros s6 c6 [m2 w] _ (-> & Hr3 & Hr4). cbn [fst] in *.
      eapply (cst_bind _ (fun _ c' => c' = c)); [apply cst_lift; [lia|auto]|]. intros s7 c7 u _ ->.
      eapply (cst_bind _ (fun dt' c' => c' = c /\ dt' <= dt + 1)); [apply add_triangle_cst; lia|]. intros s8 c8 dt' _ (-> & Hd).
      eapply cst_weaken; [apply (back_cst B); lia|lia|]. intros [m3 d3] c9. cbn. lia.
    - eapply (cst_bind _ (fun m2 c' => c' = c /\ rem m2 = rem m1)).
      { apply cst_lift; [lia|]. intros m2 Hm. apply transfer_fact in Hm. split; auto. unfold rem. destruct Hm as (-> & -> & ->). lia. }
      intros s6 c6 m2 _ (-> & Hm2).
      eapply cst_weaken; [apply (advance_cst B); lia|lia|]. intros [m3 d3] c9. cbn. lia. }
  intros s6 c6 [m2 d2] _ (Hc6 & Hd2 & Hm2). cbn [fst snd] in *.
  destruct direct; [apply cst_lift; [lia|intros a Ha; injection Ha as <-; lia]|].
  eapply (cst_bind _ (fun _ c' => c' = c6)).
  { destruct back.
    - eapply (cst_bind _ (fun _ c' => c' = c6)); [apply cst_lift; [lia|auto]|]. intros s7 c7 a _ ->.
      eapply (cst_bind _ (fun _ c' => c' = c6)); [apply cst_lift; [lia|auto]|]. intros s8 c8 b _ ->.
      eapply (cst_bind _ (fun _ c' => c' = c6)); [apply cst_lift; [lia|auto]|]. intros s9 c9 d _ ->. apply cst_lift; [lia|auto].
    - eapply (cst_bind _ (fun _ c' => c' = c6)); [apply cst_lift; [lia|auto]|]. intros s7 c7 [a b] _ ->.
      eapply (cst_bind _ (fun _ c' => c' = c6)); [apply cst_lift; [lia|auto]|]. intros s9 c9 d _ ->. apply cst_lift; [lia|auto]. }
  intros s7 c7 [[vi0 vi1] vi2] _ ->.
  eapply (cst_bind _ (fun _ c' => c' = c6)); [apply (cst_over _ (fun s => newf s vi0 vi1 vi2)); lia|]. intros s8 c8 _ _ ->.
  eapply (cst_bind _ (fun _ c' => c' = c6 + (d2 - 1))); [apply deferred_cst; lia|]. intros s9 c9 _ _ ->.
  apply cst_lift; [lia|]. intros a Ha. injection Ha as <-. lia.
Qed.

Lemma fans_cst fuel : forall k (m : mono) s c,
  cst (c + k + 2 * rem m) (fun _ _ => True) (build_fans newf ext cw fuel k m s) (build_fans_c newf ext cw fuel k m (s, c)).
Proof.
  induction k as [|k IH]; intros m s c; cbn [build_fans build_fans_c]; [apply cst_out|].
  eapply (cst_bind _ (fun r c' => c' = c + 1 /\ (3 <= r -> r = rem m))).
  { apply cst_lift; cbn [snd inc]; [lia|]. intros r Hr. split; [lia|]. unfold remaining in Hr. destruct (_ <? _) in Hr; [discriminate|]. injection Hr as <-. unfold rem. lia. }
  intros s1 c1 r _ (-> & Hr). destruct (3 <=? r) eqn:E3.
  - apply Nat.leb_le in E3. specialize (Hr E3).
    eapply (cst_bind _ (fun b c' => c' = c + 1 /\ can_triangulate (E := E) m = Ok b)); [apply cst_lift; [lia|auto]|]. intros s2 c2 b _ (-> & Hb).
    eapply (cst_bind _ (fun m' c' => c' + 2 * rem m' <= c + 1 + 2 * rem m /\ 2 <= rem m')).
    { destruct b; [|apply cst_lift; [lia|intros a Ha; injection Ha as <-; lia]]. apply one_fan_cst; auto. lia. }
    intros s3 c3 m' _ (Hc3 & Hm'). destruct (has_pending m') eqn:Ep; unfold has_pending in Ep.
    + apply Nat.ltb_lt in Ep. eapply (cst_bind _ (fun m2 c' => c' = c3 /\ rem m2 = rem m')).
      { apply cst_lift; [lia|]. intros m2 Hm. apply transfer_fact in Hm. split; auto. unfold rem. destruct Hm as (-> & -> & ->). lia. }
      intros s4 c4 m2 _ (-> & Hm2). eapply cst_weaken; [apply IH|lia|auto].
    + apply Nat.ltb_ge in Ep. eapply cst_weaken; [apply IH| |auto]. unfold reset_position, rem in *. cbn [m_st m_a m_pt]. rewrite firstn_length. lia.
  - destruct (r =? 2); apply cst_lift; auto; lia.
Qed.

Lemma sb_more {A B'} (r : sres (S * nat) err A) (f g : S * nat -> A -> sres (S * nat) err B') :
  (forall s a, snd (f s a) = Crash Fuel \/ g s a = f s a) -> snd (sbind r f) = Crash Fuel \/ sbind r g = sbind r f.
Proof. intros H. unfold sbind. destruct (snd r) as [a|e|cr]; auto. Qed.

Lemma fans_more fuel : forall k k' (m : mono) s, k <= k' -> snd (build_fans_c newf ext cw fuel k m s) = Crash Fuel \/
  build_fans_c newf ext cw fuel k' m s = build_fans_c newf ext cw fuel k m s.
Proof.
  induction k as [|k IH]; intros [|k'] m s Hk; auto; [lia|]. cbn [build_fans_c]. apply sb_more. intros s1 r. destruct (3 <=? r); auto.
  apply sb_more. intros s2 b. apply sb_more. intros s3 m'. destruct (has_pending m'); [|apply IH; lia]. apply sb_more. intros s4 m2. apply IH. lia.
Qed.

Hypothesis newf_ok : forall s a b c, snd (newf s a b c) <> Crash Fuel.
Hypothesis ext_ok : forall s a, snd (ext s a) <> Crash Fuel.

Lemma finish_cst B fuel b s c : let L := length (mb_vec b) in c + L * L + 2 * L <= B ->
  cst B (fun _ c' => c' <= c + L * L + 2 * L) (finish newf ext cw fuel b s) (finish_c newf ext cw fuel b (s, c)).
Proof.
  intros L HB. unfold finish, finish_c. destruct (mb_build b) as [[m|]|e|cr] eqn:Eb; try (apply cst_lift; [lia|intros; try discriminate; lia]).
  assert (Hm : exists x y R left, mb_vec b = x :: y :: R /\ m = mkMono (x :: y :: R) 2 2 left).
  { unfold mb_build in Eb. destruct (length (mb_vec b) <? 3) eqn:El; [discriminate|]. apply Nat.ltb_ge in El.
    destruct (mb_dx b && mb_dy b); [|discriminate].
    destruct (rd _ _) as [vl|e|cr] in Eb; cbn [bind] in Eb; try discriminate.
    destruct (rd _ _) as [v0|e|cr] in Eb; cbn [bind] in Eb; try discriminate.
    destruct (rd _ _) as [v1|e|cr] in Eb; cbn [bind] in Eb; try discriminate. injection Eb as <-.
    destruct (mb_vec b) as [|x [|y R]]; [cbn in El; lia|cbn in El; lia|]. eauto 8. }
  destruct Hm as (x & y & R & left & HV & ->). set (m := mkMono (x :: y :: R) 2 2 left).
  assert (Hrem : rem m = L) by (unfold rem, m, L; rewrite HV; cbn; lia).
  pose proof (fans_cst fuel fuel m s c) as (H1 & H2 & H3). rewrite Hrem in H3. split; [exact H1|]. split; [exact H2|]. intros Hne.
  enough (snd (fst (build_fans_c newf ext cw fuel fuel m (s, c))) <= c + L * L + 2 * L) by (split; [lia|auto]).
  destruct (Nat.le_ge_cases fuel (L * L)) as [Hf|Hf]; [destruct (H3 Hne); lia|].
  pose proof (fans_cst fuel (L * L) m s c) as (K1 & K2 & K3). rewrite Hrem in K3.
  assert (Hn : snd (build_fans newf ext cw fuel (L * L) m s) <> Crash Fuel).
  { destruct (fresh_all newf ext newf_ok ext_ok cw left (Datatypes.S L) m s x y R) with (Nf := fuel) as [(z & _ & Hz & Hr & _)|(Hd & _)].
    - rewrite <- HV. auto.
    - reflexivity.
    - rewrite <- HV. fold L. nia.
    - rewrite <- HV in Hr. fold L in Hr. rewrite (Hr fuel (L * L)); [exact Hz| |lia]. nia.
    - destruct Hne. apply Hd. }
  destruct (fans_more fuel (L * L) fuel m (s, c) Hf) as [H|H]; [congruence|]. rewrite H. apply K3. exact Hn.
Qed.
End Piece.

(** ** The traversal *)

Section Trav.
Context {C : Type} {OC : CoordOps C} {I : Type} {S E : Type}.
Variable newf : S -> I -> I -> I -> sres S (tri_error E) unit.
Variable ext : S -> I -> sres S (tri_error E) unit.
Hypothesis newf_ok : forall s a b c, snd (newf s a b c) <> Crash Fuel.
Hypothesis ext_ok : forall s a, snd (ext s a) <> Crash Fuel.
Variable cw : bool.
Variable gv : I -> coords C.
Variable st : state C I.
Variable fuel : nat.
Notation err := (tri_error E).
Notation mb := (mbuilder C I).
Notation tstate := (tstate (C := C) (I := I)).

(** The number of vertices in the unfinished pieces. *)
Definition lenb (b : mb) : nat := length (mb_vec b).
Definition lenms (m : ot mb) : nat := match m with OOne a => lenb a | OTwo a b => lenb a + lenb b end.
Definition leno (m : option (ot mb)) : nat := match m with Some m => lenms m | None => 0 end.
Definition lenx (x : tstate) : nat := leno (x_ms x) + (list_sum (map (fun b => leno (snd b)) (x_bs x)) + list_sum (map lenb (x_mst x))).

Variable c0 : nat.

(** [c0] iterations before the traversal, then [j] iterations, when [T] vertices were put into pieces of which [N] are in unfinished ones. *)
Definition pay (T j N c : nat) : Prop := exists a, a + N <= T /\ c <= c0 + (a * a + 2 * a + j).
Notation most T j := (c0 + (T * T + 2 * T + j)).

Lemma pay_most T j N c : pay T j N c -> c <= most T j.
Proof. intros (a & H1 & H2). nia. Qed.

Lemma pay_less T j N N' c : pay T j N c -> N' <= N -> pay T j N' c.
Proof. intros (a & H1 & H2) H. exists a. split; lia. Qed.

Lemma pay_piece T j L N c c' : pay T j (L + N) c -> c' <= c + L * L + 2 * L -> pay T j N c'.
Proof. intros (a & H1 & H2) H. exists (a + L). split; [lia|nia]. Qed.

Lemma finish_pay T j N b s c : pay T j (lenb b + N) c -> cst (most T j) (fun _ c' => pay T j N c') (finish newf ext cw fuel b s) (finish_c newf ext cw fuel b (s, c)).
Proof.
  intros H. assert (HB : c + lenb b * lenb b + 2 * lenb b <= most T j) by (apply (pay_most T j N); eapply pay_piece; eauto).
  eapply cst_weaken; [apply (finish_cst newf ext cw newf_ok ext_ok (most T j)); exact HB|lia|]. cbn. intros _ c' Hc. eapply pay_piece; eauto.
Qed.

Lemma mb_add_len {F} b vi c b' : mb_add (E := F) (C := C) (I := I) b vi c = Ok b' -> lenb b' = lenb b + 1.
Proof. unfold mb_add, lenb. destruct (rd (mb_vec b) 0); cbn; try discriminate. intros H. injection H as <-. cbn. rewrite app_length. cbn. lia. Qed.

Lemma add_all_len ms n ms' : add_to_all (E := E) ms n = Ok ms' -> match ms, ms' with
  | OOne a, OOne a' => lenb a' = lenb a + 1 | OTwo a b, OTwo a' b' => lenb a' = lenb a + 1 /\ lenb b' = lenb b + 1 | _, _ => False end.
Proof.
  unfold add_to_all. destruct ms as [a|a b].
  - destruct (mb_add a _ _) as [a'|e|cr] eqn:E1; cbn; try discriminate. intros H. injection H as <-. eapply mb_add_len; eauto.
  - destruct (mb_add a _ _) as [a'|e|cr] eqn:E1; cbn; try discriminate. destruct (mb_add b _ _) as [b'|e|cr] eqn:E2; cbn; try discriminate.
    intros H. injection H as <-. split; eapply mb_add_len; eauto.
Qed.

Lemma extend_pay T j R t nd n ms s c : pay T j (lenms ms + R + 5) c ->
  cst (most T j) (fun ms' c' => pay T j (lenms ms' + R + 2) c') (extend_monotones gv newf ext cw fuel st t nd n ms s)
    (extend_monotones_c newf ext cw gv fuel st t nd n ms (s, c)).
Proof.
  intros H0. unfold extend_monotones, extend_monotones_c.
  eapply (cst_bind _ (fun ms' c' => match ms' with OOne a => pay T j (lenb a + R + 4) c' | OTwo a b => pay T j (lenb a + lenb b + R + 3) c' end)).
  { apply cst_lift; [eauto using pay_most|]. intros ms' H. apply add_all_len in H. destruct ms as [a|a b], ms' as [a'|a' b']; try tauto; cbn in H0; eapply pay_less; eauto; lia. }
  clear ms c H0. intros s0 c8 ms Hc8 H0. set (P := fun c' : nat => c' <= most T j /\ match ms with OOne a => pay T j (lenb a + R + 4) c' | OTwo a b => pay T j (lenb a + lenb b + R + 3) c' end).
  assert (HP : P c8) by (split; auto). clear Hc8 H0.
  assert (PS : forall {A} s c (r : res err A), P c -> cst (most T j) (fun _ c' => P c') (s, r) ((s : S, c), r)) by (intros; apply cst_lift; auto; now destruct H).
  eapply (cst_bind _ (fun _ c' => P c')); [now apply PS|]. clear s0 c8 HP. intros s0 c8 sl _ HP.
  eapply (cst_bind _ (fun _ c' => P c')); [now apply PS|]. clear s0 c8 HP. intros s0 c8 xl _ HP.
  eapply (cst_bind _ (fun _ c' => P c')); [now apply PS|]. clear s0 c8 HP. intros s0 c8 sr _ HP.
  eapply (cst_bind _ (fun _ c' => P c')); [now apply PS|]. clear s0 c8 HP. intros s0 c8 xr _ HP.
  eapply (cst_bind _ (fun _ c' => P c')); [now apply PS|]. clear s0 c8 HP. intros s0 c8 nu _ HP.
  assert (Hnew : forall s c, c <= most T j -> pay T j (R + 4) c -> cst (most T j) (fun ms' c' => pay T j (lenms ms' + R + 2) c')
    (sbind (lift s (rd (st_ns st) nu)) (fun s n_up => sbind (lift s (mb_add (mb_new (n_v n_up) (gv (n_v n_up))) (n_v n) (n_c n))) (fun s b' => (s, Ok (OOne b')))))
    (sbind (lift (s : S, c) (rd (st_ns st) nu)) (fun s n_up => sbind (lift s (mb_add (mb_new (n_v n_up) (gv (n_v n_up))) (n_v n) (n_c n))) (fun s b' => (s, Ok (OOne b')))) : sres (S * nat) err (ot mb))).
  { intros s8 c Hc H. eapply (cst_bind _ (fun _ c' => c' = c)); [apply cst_lift; auto|]. intros s1 c1 n_up _ ->.
    eapply (cst_bind _ (fun b c' => c' = c /\ lenb b = 2)); [apply cst_lift; auto; intros b Hb; apply mb_add_len in Hb; cbn in Hb; auto|]. intros s2 c2 b _ (-> & Hb).
    apply cst_lift; auto. intros a Ha. injection Ha as <-. cbn. rewrite Hb. eapply pay_less; eauto. lia. }
  destruct HP as (Hc & HP). destruct (_ && _).
  - destruct ms as [a|a b].
    + eapply (cst_bind _ (fun _ c' => pay T j (R + 4) c')); [apply finish_pay; eapply pay_less; eauto; lia|]. intros s1 c1 _ Hc1 H1. now apply Hnew.
    + eapply (cst_bind _ (fun _ c' => pay T j (lenb b + R + 3) c')); [apply finish_pay; eapply pay_less; eauto; lia|]. intros s1 c1 _ Hc1 H1.
      apply cst_lift; auto. intros x Hx. injection Hx as <-. cbn. eapply pay_less; eauto. lia.
  - destruct (_ && _).
    + destruct ms as [a|a b].
      * eapply (cst_bind _ (fun _ c' => pay T j (R + 4) c')); [apply finish_pay; eapply pay_less; eauto; lia|]. intros s1 c1 _ Hc1 H1. now apply Hnew.
      * eapply (cst_bind _ (fun _ c' => pay T j (lenb a + R + 3) c')); [apply finish_pay; eapply pay_less; eauto; lia|]. intros s1 c1 _ Hc1 H1.
        apply cst_lift; auto. intros x Hx. injection Hx as <-. cbn. eapply pay_less; eauto. lia.
    + apply cst_lift; auto. intros x Hx. injection Hx as <-. destruct ms; cbn; eapply pay_less; eauto; lia.
Qed.

Lemma finish_all_pay T j N ms s c : pay T j (lenms ms + N) c ->
  cst (most T j) (fun _ c' => pay T j N c') (finish_all newf ext cw fuel ms s) (finish_all_c newf ext cw fuel ms (s, c)).
Proof.
  intros H. destruct ms as [a|a b]; cbn in *; [now apply finish_pay|].
  eapply (cst_bind _ (fun _ c' => pay T j (lenb b + N) c')); [apply finish_pay; eapply pay_less; eauto; lia|]. intros s1 c1 _ _ H1. now apply finish_pay.
Qed.

Ltac sumlia := unfold lenx, list_sum in *; cbn [leno lenms fst snd map fold_right x_ms x_bs x_mst] in *; lia.

Lemma step_v_pay T j x ms ul uc ur dn s c : pay T j (leno ms + (list_sum (map (fun b => leno (snd b)) (x_bs x)) + list_sum (map lenb (x_mst x)))) c ->
  cst (most T j) (fun x' c' => pay T j (lenx x') c') (step_v newf ext cw fuel x ms ul uc ur dn s) (step_v_c newf ext cw fuel x ms ul uc ur dn (s, c)).
Proof.
  intros H. assert (Hc := pay_most _ _ _ _ H). unfold step_v, step_v_c.
  eapply (cst_bind _ (fun p c' => pay T j (leno (fst p) + (list_sum (map (fun b => leno (snd b)) (x_bs x)) + list_sum (map lenb (snd p)))) c')).
  - destruct ms as [m|]; [|apply cst_lift; auto; intros p Hp; injection Hp as <-; exact H]. cbn [leno] in H.
    destruct (_ =? ul).
    { eapply (cst_bind _ (fun a c' => c' = c /\ lenb a = lenms m)); [apply cst_lift; auto; intros a Ha; destruct m; cbn in Ha; [injection Ha as <-; auto|discriminate]|].
      intros s1 c1 a _ (-> & Ha). apply cst_lift; auto. intros p Hp. injection Hp as <-. eapply pay_less; eauto. sumlia. }
    destruct (_ =? uc).
    { eapply (cst_bind _ (fun _ c' => pay T j (list_sum (map (fun b => leno (snd b)) (x_bs x)) + list_sum (map lenb (x_mst x))) c')); [now apply finish_all_pay|].
      intros s1 c1 _ Hc1 H1. apply cst_lift; auto. intros p Hp. injection Hp as <-. exact H1. }
    destruct (_ =? ur); [|apply cst_lift; auto; discriminate]. destruct (x_mst x) as [|l mst]; [apply cst_lift; auto; discriminate|].
    eapply (cst_bind _ (fun a c' => c' = c /\ lenb a = lenms m)); [apply cst_lift; auto; intros a Ha; destruct m; cbn in Ha; [injection Ha as <-; auto|discriminate]|].
    intros s1 c1 a _ (-> & Ha). apply cst_lift; auto. intros p Hp. injection Hp as <-. eapply pay_less; eauto. sumlia.
  - clear c H Hc. intros s1 c [ms' mst] Hc H. cbn [fst snd] in H. destruct (_ =? ur).
    + apply cst_lift; auto. intros x' Hx. injection Hx as <-. exact H.
    + apply cst_lift; auto. unfold resume. destruct (x_bs x) as [|[ti m] bs]; intros x' Hx; [discriminate|]. injection Hx as <-. eapply pay_less; eauto. sumlia.
Qed.

Lemma step_a_pay T j x t n ms dl dc dr s c : pay T j (leno ms + (list_sum (map (fun b => leno (snd b)) (x_bs x)) + list_sum (map lenb (x_mst x))) + 2) c ->
  cst (most T j) (fun x' c' => pay T j (lenx x') c') (step_a (E := E) st x t n ms dl dc dr s) (step_a st x t n ms dl dc dr (s : S, c)).
Proof.
  intros H. assert (Hc := pay_most _ _ _ _ H). unfold step_a. destruct ms as [m|]; cbn [leno] in H.
  - eapply (cst_bind _ (fun p c' => c' = c /\ lenb (fst p) + lenb (snd p) <= lenms m + 2)).
    + destruct m as [a|a b]; [|apply cst_lift; auto; intros p Hp; injection Hp as <-; cbn; lia].
      eapply (cst_bind _ (fun _ c' => c' = c)); [apply cst_lift; auto|]. intros s1 c1 nu _ ->.
      eapply (cst_bind _ (fun _ c' => c' = c)); [apply cst_lift; auto|]. intros s2 c2 nn _ ->.
      eapply (cst_bind _ (fun b c' => c' = c /\ lenb b = 2)); [apply cst_lift; auto; intros b Hb; apply mb_add_len in Hb; cbn in Hb; auto|]. intros s3 c3 b _ (-> & Hb).
      eapply (cst_bind _ (fun _ c' => c' = c)); [apply cst_lift; auto|]. intros s4 c4 sl _ ->.
      eapply (cst_bind _ (fun _ c' => c' = c)); [apply cst_lift; auto|]. intros s5 c5 xl _ ->.
      destruct (_ =? _); [apply cst_lift; auto; intros p Hp; injection Hp as <-; cbn; lia|].
      eapply (cst_bind _ (fun _ c' => c' = c)); [apply cst_lift; auto|]. intros s6 c6 sr _ ->.
      eapply (cst_bind _ (fun _ c' => c' = c)); [apply cst_lift; auto|]. intros s7 c7 xr _ ->.
      destruct (_ =? _); apply cst_lift; auto; [intros p Hp; injection Hp as <-; cbn; lia|discriminate].
    + intros s1 c1 [ml mr] _ (-> & Hp). cbn [fst snd] in Hp. apply cst_lift; auto. intros x' Hx. injection Hx as <-. eapply pay_less; eauto. sumlia.
  - apply cst_lift; auto. intros x' Hx. injection Hx as <-. eapply pay_less; eauto. assert (Hn : lenb (mb_new (n_v n) (n_c n)) = 1) by reflexivity. sumlia.
Qed.

Lemma tri_step_pay T j x t nd s c : pay T j (lenx x + 5) c ->
  cst (most T j) (fun x' c' => pay T j (lenx x') c') (tri_step gv newf ext cw fuel st x t nd s) (tri_step_c newf ext cw gv fuel st x t nd (s, c)).
Proof.
  intros H. assert (Hc := pay_most _ _ _ _ H). unfold tri_step, tri_step_c. set (R := list_sum (map (fun b => leno (snd b)) (x_bs x)) + list_sum (map lenb (x_mst x))).
  change (lenx x) with (leno (x_ms x) + R) in H.
  eapply (cst_bind _ (fun _ c' => c' = c)); [apply cst_lift; auto|]. intros s1 c1 n _ ->.
  eapply (cst_bind _ (fun ms c' => pay T j (leno ms + R + 2) c')).
  { destruct (x_ms x) as [ms|]; cbn [leno] in H.
    - eapply (cst_bind _ (fun ms c' => pay T j (lenms ms + R + 2) c')); [now apply extend_pay|]. intros s2 c2 ms' Hc2 H2. apply cst_lift; auto. intros a Ha. injection Ha as <-. exact H2.
    - apply cst_lift; auto. intros a Ha. injection Ha as <-. cbn. eapply pay_less; eauto. lia. }
  clear c H Hc. intros s2 c ms Hc H.
  eapply (cst_bind _ (fun _ c' => c' = c)); [apply cst_lift; auto|]. intros s3 c1 ty _ ->. destruct ty as [ul uc ur dn|ul ur dl dr|up dl dc dr].
  - apply step_v_pay. eapply pay_less; eauto. unfold R. lia.
  - destruct (_ =? ul); [|destruct (_ =? ur)]; apply cst_lift; auto; try discriminate; intros x' Hx; injection Hx as <-; eapply pay_less; eauto; unfold R; sumlia.
  - apply step_a_pay. exact H.
Qed.

Lemma loop_pay : forall k j x s c, pay (5 * j) j (lenx x) c ->
  cst (most (5 * (j + k)) (j + k)) (fun _ _ => True) (tri_loop gv newf ext cw fuel st k x s) (tri_loop_c newf ext cw gv fuel st k x (s, c)).
Proof.
  induction k as [|k IH]; intros j x s c H; cbn [tri_loop tri_loop_c]; [apply cst_out|]. assert (Hc := pay_most _ _ _ _ H).
  eapply (cst_bind _ (fun _ c' => c' = c + 1)); [apply cst_lift; cbn; [nia|lia]|]. intros s1 c1 t _ ->.
  destruct (t_d t) as [nd|]; [|apply cst_lift; auto; nia].
  assert (H1 : pay (5 * Datatypes.S j) (Datatypes.S j) (lenx x + 5) (c + 1)) by (destruct H as (a & Ha & Hb); exists a; split; lia).
  eapply (cst_bind _ (fun x' c' => pay (5 * Datatypes.S j) (Datatypes.S j) (lenx x') c')).
  { eapply cst_weaken; [apply tri_step_pay; exact H1|nia|auto]. }
  intros s2 c2 x' _ H2. replace (j + Datatypes.S k) with (Datatypes.S j + k) by lia. now apply IH.
Qed.

Lemma loop_more : forall k k' x s, k <= k' -> snd (tri_loop_c newf ext cw gv fuel st k x s) = Crash Fuel \/
  tri_loop_c newf ext cw gv fuel st k' x s = tri_loop_c newf ext cw gv fuel st k x s.
Proof.
  induction k as [|k IH]; intros [|k'] x s Hk; auto; [lia|]. cbn [tri_loop_c]. apply sb_more. intros s1 t. destruct (t_d t) as [nd|]; auto. apply sb_more. intros s2 x'. apply IH. lia.
Qed.

Lemma top_cst : forall k qs qi s c, cst (c + k) (fun _ c' => c' <= c + k) (s : S, top_trapezoid (C := C) k qs qi) (top_trapezoid_c k qs qi (s, c)).
Proof.
  induction k as [|k IH]; intros qs qi s c; cbn [top_trapezoid top_trapezoid_c]; [apply cst_out|]. unfold sbind, inc. cbn [fst snd].
  destruct (rd qs qi) as [q|e|cr]; cbn [bind].
  - destruct q as [l r [|]|ti]; try (apply cst_lift; [lia|intros; lia]). eapply cst_weaken; [apply IH|lia|cbn; intros; lia].
  - apply cst_lift; [lia|intros; lia].
  - apply cst_lift; [lia|intros; lia].
Qed.

Lemma top_more : forall k k' qs qi (s : S * nat), k <= k' -> snd (top_trapezoid_c (C := C) k qs qi s) = Crash Fuel \/ top_trapezoid_c k' qs qi s = top_trapezoid_c k qs qi s.
Proof.
  induction k as [|k IH]; intros [|k'] qs qi s Hk; auto; [lia|]. cbn [top_trapezoid_c]. unfold sbind. cbn [fst snd]. destruct (rd qs qi) as [[l r [|]|ti]|e|cr]; auto. apply IH. lia.
Qed.
End Trav.
