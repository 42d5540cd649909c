(** Index bounds of the trapezoidation, for arbitrary coordinates: no unchecked read is out of range, and the sizes of
    the vectors are determined by the number of insertions. *)
From Coq Require Import List Arith Bool Lia Permutation.
From Verif Require Import Base Coord Trap Mono Tri.
Import ListNotations.

(** ** Outcomes without undefined behaviour *)

Definition safe {E A} (Q : A -> Prop) (r : res E A) : Prop :=
  match r with
  | Ok a => Q a
  | Err _ => True
  | Crash Ub => False
  | Crash _ => True
  end.

Lemma safe_bind {E A B} (Q : A -> Prop) (R : B -> Prop) (r : res E A) (f : A -> res E B) :
  safe Q r -> (forall a, Q a -> safe R (f a)) -> safe R (bind r f).
Proof. destruct r as [a|e|[]]; simpl; auto. Qed.

Lemma safe_weaken {E A} (Q R : A -> Prop) (r : res E A) : (forall a, Q a -> R a) -> safe Q r -> safe R r.
Proof. destruct r as [a|e|[]]; simpl; auto. Qed.

Lemma safe_rd {E A} (l : list A) i (Q : A -> Prop) : Forall Q l -> safe (E := E) Q (rd l i).
Proof.
  intros H. unfold rd. destruct (nth_error l i) eqn:En; simpl; auto.
  rewrite Forall_forall in H. apply H. now apply nth_error_In in En.
Qed.

Lemma safe_rdu {E A} (l : list A) i (Q : A -> Prop) : Forall Q l -> i < length l -> safe (E := E) Q (rdu l i).
Proof.
  intros H Hi. unfold rdu. destruct (nth_error l i) eqn:En; simpl.
  - rewrite Forall_forall in H. apply H. now apply nth_error_In in En.
  - apply nth_error_None in En. lia.
Qed.

Lemma Forall_upd {A} (Q : A -> Prop) l i x : Forall Q l -> Q x -> Forall Q (upd l i x).
Proof.
  intros H Hx. revert i. induction H as [|a l Ha Hl IH]; intros [|i]; simpl; auto.
Qed.

Lemma safe_modify {E A} (l : list A) i f (Q : A -> Prop) :
  Forall Q l -> (forall a, Q a -> safe Q (f a)) ->
  safe (E := E) (fun l' => Forall Q l' /\ length l' = length l) (modify l i f).
Proof.
  intros H Hf. unfold modify. destruct (nth_error l i) eqn:En; simpl; auto.
  assert (Qa : Q a) by (rewrite Forall_forall in H; apply H; now apply nth_error_In in En).
  specialize (Hf a Qa). destruct (f a) as [b|e|[]]; simpl in *; auto.
  split; [now apply Forall_upd | apply upd_length].
Qed.

Definition opt_lt (o : option nat) (n : nat) : Prop := match o with Some i => i < n | None => True end.

Lemma opt_lt_mono o n m : n <= m -> opt_lt o n -> opt_lt o m.
Proof. destruct o; simpl; lia. Qed.

Definition zot_all {A} (Q : A -> Prop) (z : zot A) : Prop :=
  match z with Zero => True | One a => Q a | Two a b => Q a /\ Q b end.

Section Bounds.
Context {C : Type} {OC : CoordOps C} {I : Type}.
Variable okv : I -> Prop.   (* the indices of the input *)

Record sizes := mkSz { z_n : nat; z_s : nat; z_t : nat; z_q : nat }.
Definition sz (st : state C I) : sizes :=
  mkSz (length (st_ns st)) (length (st_ss st)) (length (st_ts st)) (length (st_qs st)).
Definition sz_le (a b : sizes) : Prop := z_n a <= z_n b /\ z_s a <= z_s b /\ z_t a <= z_t b /\ z_q a <= z_q b.

Definition div_wf (z : sizes) (d : divider) : Prop := d_si d < z_s z /\ d_r d < z_t z.
Definition nexus_wf (z : sizes) (n : nexus C I) : Prop :=
  okv (n_v n) /\ n_ul n < z_t z /\ n_dl n < z_t z /\ zot_all (div_wf z) (n_div n).
Definition seg_wf (z : sizes) (s : seg C) : Prop := s_min s < z_n z /\ s_max s < z_n z.
Definition trap_wf (z : sizes) (t : trap) : Prop :=
  opt_lt (t_l t) (z_s z) /\ opt_lt (t_r t) (z_s z) /\ opt_lt (t_d t) (z_n z) /\ opt_lt (t_u t) (z_n z) /\ t_k t < z_q z.
Definition q_wf (z : sizes) (q : qnode C) : Prop :=
  match q with QBranch l r _ => l < z_q z /\ r < z_q z | QSink t => t < z_t z end.

Definition vecs_wf (z : sizes) ns ss ts qs : Prop :=
  Forall (nexus_wf z) ns /\ Forall (seg_wf z) ss /\ Forall (trap_wf z) ts /\ Forall (q_wf z) qs.

Definition wf (st : state C I) : Prop :=
  vecs_wf (sz st) (st_ns st) (st_ss st) (st_ts st) (st_qs st) /\ 0 < z_t (sz st) /\ 0 < z_q (sz st).

Lemma zot_all_mono {A} (P Q : A -> Prop) z : (forall a, P a -> Q a) -> zot_all P z -> zot_all Q z.
Proof. destruct z; simpl; intuition. Qed.

Lemma div_mono z z' d : sz_le z z' -> div_wf z d -> div_wf z' d.
Proof. unfold sz_le, div_wf. lia. Qed.
Lemma nexus_mono z z' n : sz_le z z' -> nexus_wf z n -> nexus_wf z' n.
Proof.
  intros Hz (Hv & Hu & Hd & Ha). unfold nexus_wf. unfold sz_le in Hz. repeat split; auto; try lia.
  eapply zot_all_mono; [|exact Ha]. intros a. now apply div_mono.
Qed.
Lemma seg_mono z z' s : sz_le z z' -> seg_wf z s -> seg_wf z' s.
Proof. unfold sz_le, seg_wf. lia. Qed.
Lemma trap_mono z z' t : sz_le z z' -> trap_wf z t -> trap_wf z' t.
Proof.
  unfold sz_le, trap_wf. intros Hz (H1 & H2 & H3 & H4 & H5).
  repeat split; try (eapply opt_lt_mono; [|eassumption]); lia.
Qed.
Lemma q_mono z z' q : sz_le z z' -> q_wf z q -> q_wf z' q.
Proof. unfold sz_le, q_wf. destruct q; lia. Qed.

Lemma vecs_mono z z' ns ss ts qs : sz_le z z' -> vecs_wf z ns ss ts qs -> vecs_wf z' ns ss ts qs.
Proof.
  intros Hz (H1 & H2 & H3 & H4). repeat split; (eapply Forall_impl; [|eassumption]); intros.
  - eapply nexus_mono; eauto. - eapply seg_mono; eauto. - eapply trap_mono; eauto. - eapply q_mono; eauto.
Qed.

Lemma wf_new : wf state_new.
Proof.
  unfold wf, vecs_wf, sz; simpl. repeat split; auto; constructor; simpl; auto.
  unfold trap_wf; simpl. repeat split; auto.
Qed.

(** ** Functions that only read *)

Lemma find_safe k qs z c : Forall (q_wf z) qs -> z_q z = length qs -> forall qi, qi < z_q z ->
  safe (fun p => fst p < z_q z /\ snd p < z_t z) (find k qs c qi).
Proof.
  intros Hq Hz. induction k as [|k IH]; intros qi Hi; cbn [find]; [exact Logic.I|].
  eapply safe_bind. { apply (safe_rdu _ _ (q_wf z)); auto. lia. }
  intros [l r b|t] Hw; simpl in Hw.
  - destruct (use_left b c); apply IH; lia.
  - simpl. lia.
Qed.

Lemma filter_all (n : nexus C I) P d : zot_all P (n_div n) -> zot_all P (filter_dividers n d).
Proof.
  unfold filter_dividers. destruct (n_div n) as [|a|a b]; simpl; auto.
  - destruct (dir_eqb (d_dir a) d); simpl; auto.
  - destruct (dir_eqb (d_dir a) d), (dir_eqb (d_dir b) d); simpl; intuition.
Qed.

Lemma down_trap_safe ieqb z ns ss s n : Forall (nexus_wf z) ns -> Forall (seg_wf z) ss -> nexus_wf z n ->
  safe (fun t => t < z_t z) (get_down_trapezoid ieqb ns ss s n).
Proof.
  intros Hns Hss (Hv & Hu & Hd & Ha). unfold get_down_trapezoid.
  apply (filter_all n _ Desc) in Ha.
  assert (G : forall dr, div_wf z dr ->
    safe (fun t => t < z_t z)
      (bind (rd ns (s_min s)) (fun n_min => if ieqb (n_v n_min) (n_v n) then Err IE_SegNexus
        else bind (rd ns (s_max s)) (fun n_max =>
             bind (if ieqb (n_v n_max) (n_v n) then bind (rd ss (d_si dr)) (fun s_r => bind (rd ns (s_min s_r)) (fun n_r => Ok (n_c n_r)))
                   else Ok (n_c n)) (fun c => Ok (if is_on_left s c then d_r dr else n_dl n)))))).
  { intros dr (_ & Hr).
    eapply safe_bind; [apply (safe_rd _ _ (nexus_wf z)); auto|]. intros n_min _.
    destruct (ieqb _ _); [exact Logic.I|].
    eapply safe_bind; [apply (safe_rd _ _ (nexus_wf z)); auto|]. intros n_max _.
    eapply (safe_bind (fun _ => True)).
    { destruct (ieqb _ _); [|exact Logic.I].
      eapply safe_bind; [apply (safe_rd _ _ (seg_wf z)); auto|]. intros sr _.
      eapply safe_bind; [apply (safe_rd _ _ (nexus_wf z)); auto|]. intros nr _. exact Logic.I. }
    intros c _. simpl. destruct (is_on_left s c); auto. }
  destruct (filter_dividers n Desc) as [|a|a b]; simpl in Ha.
  - simpl. auto.
  - apply G; auto.
  - apply G; tauto.
Qed.

Lemma toward_safe z ns ss d c n : Forall (nexus_wf z) ns -> Forall (seg_wf z) ss -> nexus_wf z n ->
  safe (fun t => t < z_t z) (get_trapezoid_toward ss ns d c n).
Proof.
  intros Hns Hss (Hv & Hu & Hd & Ha). unfold get_trapezoid_toward.
  apply (filter_all n _ d) in Ha.
  assert (Hf : first_trapezoid n d < z_t z) by (destruct d; auto).
  destruct (filter_dividers n d) as [|a|a b]; simpl in Ha; simpl; auto.
  eapply safe_bind; [apply (safe_rd _ _ (seg_wf z)); auto|]. intros s _.
  eapply safe_bind; [apply (safe_rd _ _ (nexus_wf z)); auto|]. intros n_min _.
  eapply safe_bind; [apply (safe_rd _ _ (nexus_wf z)); auto|]. intros n_max _.
  simpl. destruct (is_left _ _ _); auto. apply Ha.
Qed.

Lemma between_lt z d c1 c2 n : nexus_wf z n -> get_trapezoid_between d c1 c2 n < z_t z.
Proof.
  intros (Hv & Hu & Hd & Ha). unfold get_trapezoid_between.
  apply (filter_all n _ d) in Ha.
  assert (Hf : first_trapezoid n d < z_t z) by (destruct d; auto).
  destruct (filter_dividers n d) as [|a|a b]; simpl in Ha; auto;
    destruct (match d with Desc => _ | Asc => _ end) as [x y]; destruct (is_left x y (n_c n)); auto; apply Ha.
Qed.

(** ** Nexus updates *)

Lemma replace_safe z old new n : nexus_wf z n -> new < z_t z ->
  safe (nexus_wf z) (replace_trapezoid old new n).
Proof.
  intros (Hv & Hu & Hd & Ha) Hn. unfold replace_trapezoid.
  destruct (n_ul n =? old); [simpl; repeat split; auto|].
  destruct (n_dl n =? old); [simpl; repeat split; auto|].
  destruct (n_div n) as [|a|a b]; simpl in *; auto.
  - destruct (d_r a =? old); simpl; auto. unfold nexus_wf, div_wf in *; simpl. intuition.
  - destruct (d_r a =? old); simpl.
    + unfold nexus_wf, div_wf in *; simpl. intuition.
    + destruct (d_r b =? old); simpl; auto. unfold nexus_wf, div_wf in *; simpl. intuition.
Qed.

Lemma add_div_safe z ns ss ni si tr : Forall (nexus_wf z) ns -> Forall (seg_wf z) ss -> si < z_s z -> tr < z_t z ->
  safe (fun ns' => Forall (nexus_wf z) ns' /\ length ns' = length ns) (nexus_add_segment ns ss ni si tr).
Proof.
  intros Hns Hss Hs Ht. unfold nexus_add_segment.
  eapply (safe_bind (fun _ => True)).
  { unfold get_segment_direction. eapply safe_bind; [apply (safe_rd _ _ (seg_wf z)); auto|].
    intros s _. destruct (ni =? s_max s); simpl; auto. destruct (ni =? s_min s); simpl; auto. }
  intros d _. cbv zeta.
  eapply safe_bind; [apply (safe_rd _ _ (nexus_wf z)); auto|]. intros n Hn.
  eapply (safe_bind (zot_all (div_wf z))).
  { destruct Hn as (Hv & Hu & Hd & Ha). destruct (n_div n) as [|a|a b]; simpl.
    - split; auto.
    - eapply (safe_bind (fun _ => True)).
      + destruct (dir_eqb (d_dir a) d); [|exact Logic.I].
        eapply safe_bind; [apply (safe_rd _ _ (seg_wf z)); auto|]. intros s0 _.
        eapply safe_bind; [apply (safe_rd _ _ (seg_wf z)); auto|]. intros s1 _.
        eapply safe_bind; [apply (safe_rd _ _ (nexus_wf z)); auto|]. intros n1 _. exact Logic.I.
      + intros [|] _; simpl; simpl in Ha; unfold div_wf in *; simpl; tauto.
    - exact Logic.I. }
  intros dv Hdv. simpl. split; [|apply upd_length].
  apply Forall_upd; auto. destruct Hn as (Hv & Hu & Hd & Ha). repeat split; auto.
Qed.

(** ** The debug checks *)

Lemma for_all_safe {A} (l : list A) f : (forall a, In a l -> safe (fun _ => True) (f a)) ->
  safe (fun _ => True) (for_all l f).
Proof.
  induction l as [|a l IH]; intros H; simpl; auto.
  eapply safe_bind; [apply H; now left|]. intros _ _. apply IH. intros b Hb. apply H. now right.
Qed.

Lemma check_safe dbg fuel st : wf st -> safe (fun _ => True) (check_consistency dbg fuel st).
Proof.
  intros ((Hn & Hs & Ht & Hq) & Ht0 & Hq0). unfold check_consistency. destruct dbg; [|exact Logic.I].
  assert (G : forall n d (Q : trap -> bool), nexus_wf (sz st) n ->
    safe (fun _ => True) (for_all (outer_trapezoids n d) (fun ti => bind (rdu (st_ts st) ti) (fun t => assert (Q t))))).
  { intros n d Q (Hv & Hu & Hd & Ha). apply for_all_safe. intros ti Hti.
    assert (ti < z_t (sz st)).
    { unfold outer_trapezoids in Hti. apply (filter_all n _ d) in Ha. destruct Hti as [<-|Hti]; [destruct d; auto|].
      destruct (filter_dividers n d) as [|a|a b]; simpl in *; try tauto; destruct Hti as [<-|[]]; apply Ha. }
    eapply safe_bind; [apply (safe_rdu _ _ (trap_wf (sz st))); auto|]. intros t _.
    unfold assert. now destruct (Q t). }
  eapply (safe_bind (fun _ => True)).
  { apply for_all_safe. intros ni Hni. apply in_seq in Hni. unfold check_nexus.
    eapply safe_bind; [apply (safe_rdu _ _ (nexus_wf (sz st))); auto; simpl in *; lia|]. intros n Hw.
    eapply safe_bind; [apply (G n Asc _ Hw)|]. intros _ _. apply (G n Desc _ Hw). }
  intros _ _.
  eapply (safe_bind (fun _ => True)).
  { apply for_all_safe. intros ti Hti. apply in_seq in Hti. unfold check_trapezoid.
    eapply safe_bind; [apply (safe_rdu _ _ (trap_wf (sz st))); auto; simpl in *; lia|].
    intros t (H1 & H2 & H3 & H4 & H5).
    eapply (safe_bind (fun _ => True)).
    { destruct (t_d t); [|exact Logic.I].
      eapply safe_bind; [apply (safe_rdu _ _ (nexus_wf (sz st))); auto|]. intros nn _.
      unfold assert. now destruct (existsb _ _). }
    intros _ _.
    eapply (safe_bind (fun _ => True)).
    { destruct (t_u t); [|exact Logic.I].
      eapply safe_bind; [apply (safe_rdu _ _ (nexus_wf (sz st))); auto|]. intros nn _.
      unfold assert. now destruct (existsb _ _). }
    intros _ _.
    eapply safe_bind; [apply (safe_rdu _ _ (q_wf (sz st))); auto|]. intros [l r b|tj] _; simpl; auto.
    unfold assert. now destruct (ti =? tj). }
  intros _ _.
  assert (Hqi : 0 < z_q (sz st)) by auto. revert Hqi. generalize 0 as qi.
  induction fuel as [|fuel IH]; intros qi Hqi; cbn [check_query]; [exact Logic.I|].
  eapply safe_bind; [apply (safe_rdu _ _ (q_wf (sz st))); auto|]. intros [l r b|tj] Hw; simpl in Hw.
  - eapply safe_bind; [apply IH; tauto|]. intros _ _. apply IH; tauto.
  - eapply safe_bind; [apply (safe_rdu _ _ (trap_wf (sz st))); auto|]. intros t _. exact Logic.I.
Qed.

(** ** Insertions *)

Section Ins.
Variable ieqb : I -> I -> bool.
Variable gv : I -> coords C.
Variable dbg : bool.
Variable fuel : nat.

Definition grow (n s t : nat) (st st' : state C I) : Prop :=
  wf st' /\ z_n (sz st') = z_n (sz st) + n /\ z_s (sz st') = z_s (sz st) + s /\ z_t (sz st') = z_t (sz st) + t /\
  z_q (sz st) <= z_q (sz st').

Lemma upd_Forall_app {A} (P : A -> Prop) l i x y : Forall P l -> P x -> P y -> Forall P (upd l i x ++ [y]).
Proof. intros. apply Forall_app. split; auto using Forall_upd. Qed.

Lemma add_vertex_safe st vi qi : wf st -> okv vi -> qi < z_q (sz st) ->
  safe (fun p => grow 1 0 1 st (fst p) /\ snd p = z_n (sz st)) (add_vertex gv dbg fuel st vi qi).
Proof.
  intros Hw Hv Hqi. pose proof Hw as ((Hn & Hs & Ht & Hq) & Ht0 & Hq0). unfold add_vertex.
  eapply safe_bind; [apply (find_safe fuel _ (sz st)); auto|].
  intros [qp ti] (Hqp & Hti). simpl in Hqp, Hti. cbv zeta.
  eapply safe_bind; [apply (safe_rd _ _ (q_wf (sz st))); auto|]. intros ql Hql.
  eapply safe_bind; [apply (safe_rd _ _ (trap_wf (sz st))); auto|]. intros t (H1 & H2 & H3 & H4 & H5).
  unfold split_horizontal, set_sink. cbn [t_l t_r t_d t_u t_k].
  set (z' := mkSz (z_n (sz st) + 1) (z_s (sz st)) (z_t (sz st) + 1) (z_q (sz st) + 2)).
  assert (Hz : sz_le (sz st) z') by (unfold sz_le; simpl; lia).
  set (nn := nexus_new vi (gv vi) (length (st_ts st)) ti).
  assert (Hns1 : Forall (nexus_wf z') (st_ns st ++ [nn])).
  { apply Forall_app. split.
    - eapply Forall_impl; [|exact Hn]. intros. eapply nexus_mono; eauto.
    - constructor; auto. unfold nexus_wf; simpl in *. repeat split; auto; lia. }
  eapply (safe_bind (fun ns2 => Forall (nexus_wf z') ns2 /\ length ns2 = length (st_ns st) + 1)).
  { destruct (t_u t) as [nu|].
    - eapply safe_weaken; [|apply (safe_modify _ _ _ (nexus_wf z'))]; auto.
      + intros ns2 (Ha & Hb). split; auto. rewrite Hb, app_length. simpl. lia.
      + intros a Ha. apply replace_safe; auto. simpl. lia.
    - simpl. split; auto. rewrite app_length. simpl; lia. }
  intros ns2 (Hns2 & Hl2).
  match goal with |- context [mkState ns2 ?a ?b ?c] => set (st' := mkState ns2 a b c) end.
  assert (Hsz : sz st' = z').
  { unfold sz, st', z'; cbn [st_ns st_ss st_ts st_qs]. rewrite !app_length, !upd_length; simpl. f_equal; try lia. }
  assert (Hw' : wf st').
  { unfold wf. rewrite Hsz. split; [|simpl; lia]. unfold st'; cbn [st_ns st_ss st_ts st_qs]. repeat split; auto.
    - eapply Forall_impl; [|exact Hs]. intros. eapply seg_mono; eauto.
    - apply upd_Forall_app.
      + eapply Forall_impl; [|exact Ht]. intros. eapply trap_mono; eauto.
      + unfold trap_wf; simpl in *. repeat split; auto; try (eapply opt_lt_mono; [|eassumption]; lia); lia.
      + unfold trap_wf; simpl in *. repeat split; auto; try (eapply opt_lt_mono; [|eassumption]; lia); lia.
    - apply Forall_app. split.
      + apply upd_Forall_app.
        * eapply Forall_impl; [|exact Hq]. intros. eapply q_mono; eauto.
        * simpl. lia.
        * eapply q_mono; eauto.
      + constructor; auto. simpl. lia. }
  eapply safe_bind; [apply check_safe; auto|]. intros _ _. simpl.
  split; auto. unfold grow. rewrite Hsz. simpl. split; [auto|lia].
Qed.

Lemma seg_loop_safe k : forall st si nmin c1 c2 ni tl tr, wf st -> si < z_s (sz st) ->
  ni < z_n (sz st) -> tl < z_t (sz st) -> tr < z_t (sz st) ->
  safe (fun p => grow 0 0 0 st (fst p) /\ snd p < z_t (sz st)) (seg_loop ieqb k st si nmin c1 c2 ni tl tr).
Proof.
  induction k as [|k IH]; intros st si nmin c1 c2 ni tl tr Hw Hsi Hni Htl Htr; cbn [seg_loop]; [exact Logic.I|].
  destruct (ni =? nmin). { simpl. unfold grow. intuition lia. }
  pose proof Hw as ((Hn & Hs & Ht & Hq) & Ht0 & Hq0).
  eapply safe_bind; [apply (safe_rdu _ _ (nexus_wf (sz st))); auto|]. intros n Hnw.
  eapply safe_bind; [apply (safe_rdu _ _ (seg_wf (sz st))); auto|]. intros s Hsw.
  eapply safe_bind; [apply (down_trap_safe ieqb (sz st)); auto|]. intros ti Hti.
  eapply safe_bind; [apply (safe_rdu _ _ (trap_wf (sz st))); auto|]. intros t (H1 & H2 & H3 & H4 & H5).
  eapply (safe_bind (fun ni' => ni' < z_n (sz st))).
  { unfold ok_or. destruct (t_d t); simpl in *; auto. }
  intros ni' Hni'.
  eapply safe_bind; [apply (safe_rdu _ _ (trap_wf (sz st))); auto|]. intros tul (L1 & L2 & L3 & L4 & L5).
  eapply safe_bind; [apply (safe_rdu _ _ (trap_wf (sz st))); auto|]. intros tur (R1 & R2 & R3 & R4 & R5).
  cbv zeta.
  set (z' := mkSz (z_n (sz st)) (z_s (sz st)) (z_t (sz st)) (z_q (sz st) + 1)).
  assert (Hz : sz_le (sz st) z') by (unfold sz_le; simpl; lia).
  (* the common end of both branches *)
  assert (G : forall ns1 ts2 q k1 k2 a b (x y : nat), Forall (nexus_wf (sz st)) ns1 -> length ns1 = length (st_ns st) ->
     Forall (trap_wf z') ts2 -> length ts2 = length (st_ts st) -> q_wf (sz st) q -> k1 < z_q z' -> k2 < z_q z' ->
     x < z_t (sz st) -> y < z_t (sz st) ->
     safe (fun p => grow 0 0 0 st (fst p) /\ snd p < z_t (sz st))
       (seg_loop ieqb k (mkState ns1 (st_ss st) ts2 (upd (st_qs st) (t_k t) (QBranch k1 k2 (QX a b)) ++ [q]))
          si nmin c1 c2 ni' x y)).
  { intros ns1 ts2 q k1 k2 a b x y Hns1 Hl1 Hts2 Hl2 Hqw Hk1 Hk2 Hx Hy.
    match goal with |- context [seg_loop _ _ ?s] => set (st' := s) end.
    assert (Hsz : sz st' = z').
    { unfold sz, st', z'; cbn [st_ns st_ss st_ts st_qs]. rewrite !app_length, !upd_length; simpl. f_equal; lia. }
    assert (Hw' : wf st').
    { unfold wf. rewrite Hsz. split; [|simpl in *; lia]. unfold st'; cbn [st_ns st_ss st_ts st_qs]. split; [|split; [|split]]; [| |exact Hts2|].
      - eapply Forall_impl; [|exact Hns1]. intros. eapply nexus_mono; eauto.
      - eapply Forall_impl; [|exact Hs]. intros. eapply seg_mono; eauto.
      - apply upd_Forall_app.
        + eapply Forall_impl; [|exact Hq]. intros. eapply q_mono; eauto.
        + simpl; auto.
        + eapply q_mono; eauto. }
    eapply safe_weaken; [|apply IH; auto; rewrite Hsz; simpl; auto].
    intros [st'' r] ((Hw'' & G1 & G2 & G3 & G4) & Hr). rewrite Hsz in *. simpl in *.
    unfold grow. split; [split; auto|]; simpl in *; lia. }
  assert (Hts : Forall (trap_wf z') (st_ts st)).
  { eapply Forall_impl; [|exact Ht]. intros. eapply trap_mono; eauto. }
  destruct (onat_eqb (t_r t) (t_r tur)); [|destruct (onat_eqb (t_l t) (t_l tul)); [|exact Logic.I]].
  - eapply safe_bind; [apply (safe_rd _ _ (q_wf (sz st))); auto|]. intros q Hqw.
    eapply safe_bind; [apply (safe_modify _ _ _ (trap_wf z')); auto|].
    { intros a (A1 & A2 & A3 & A4 & A5). unfold trap_wf; simpl in *. repeat split; auto. lia. }
    intros ts1 (Hts1 & Hlt1).
    eapply safe_bind; [apply (safe_modify _ _ _ (trap_wf z')); auto|].
    { intros a (A1 & A2 & A3 & A4 & A5). unfold trap_wf; simpl in *. repeat split; auto. }
    intros ts2 (Hts2 & Hlt2).
    eapply (safe_bind (fun ns1 => Forall (nexus_wf (sz st)) ns1 /\ length ns1 = length (st_ns st))).
    { destruct (negb (ni' =? nmin)); [|simpl; auto].
      eapply safe_bind; [apply (safe_rdu _ _ (nexus_wf (sz st))); auto|]. intros n' Hn'.
      destruct (negb _); [|simpl; auto].
      apply safe_modify; auto. intros a Ha. apply replace_safe; auto. }
    intros ns1 (Hns1 & Hl1).
    apply G; auto; simpl in *; try lia.
  - eapply safe_bind; [apply (safe_rd _ _ (q_wf (sz st))); auto|]. intros q Hqw.
    eapply safe_bind; [apply (safe_modify _ _ _ (trap_wf z')); auto|].
    { intros a (A1 & A2 & A3 & A4 & A5). unfold trap_wf; simpl in *. repeat split; auto. lia. }
    intros ts1 (Hts1 & Hlt1).
    eapply safe_bind; [apply (safe_modify _ _ _ (trap_wf z')); auto|].
    { intros a (A1 & A2 & A3 & A4 & A5). unfold trap_wf; simpl in *. repeat split; auto. }
    intros ts2 (Hts2 & Hlt2).
    eapply (safe_bind (fun _ => True)).
    { destruct (ni' =? nmin); [exact Logic.I|].
      eapply safe_bind; [apply (safe_rdu _ _ (nexus_wf (sz st))); auto|]. intros n' Hn'. exact Logic.I. }
    intros ol _.
    eapply (safe_bind (fun ns1 => Forall (nexus_wf (sz st)) ns1 /\ length ns1 = length (st_ns st))).
    { destruct ol; [|simpl; auto].
      apply safe_modify; auto. intros a Ha. apply replace_safe; auto. }
    intros ns1 (Hns1 & Hl1).
    apply G; auto; simpl in *; try lia.
Qed.

Lemma add_segment_safe st nmin nmax c1 c2 : wf st -> nmin < z_n (sz st) -> nmax < z_n (sz st) ->
  safe (fun st' => grow 0 1 1 st st') (add_segment ieqb dbg fuel st nmin nmax c1 c2).
Proof.
  intros Hw Hmin Hmax. pose proof Hw as ((Hn & Hs & Ht & Hq) & Ht0 & Hq0). unfold add_segment. cbv zeta.
  set (ss1 := st_ss st ++ [mkSeg nmin nmax c1 c2]).
  set (z1 := mkSz (z_n (sz st)) (z_s (sz st) + 1) (z_t (sz st)) (z_q (sz st))).
  assert (Hz1 : sz_le (sz st) z1) by (unfold sz_le; simpl; lia).
  assert (Hss1 : Forall (seg_wf z1) ss1).
  { apply Forall_app. split; [eapply Forall_impl; [|exact Hs]; intros; eapply seg_mono; eauto|].
    constructor; auto. unfold seg_wf; simpl; auto. }
  assert (Hns1 : Forall (nexus_wf z1) (st_ns st)).
  { eapply Forall_impl; [|exact Hn]; intros; eapply nexus_mono; eauto. }
  assert (Hlen1 : length ss1 = length (st_ss st) + 1) by (unfold ss1; rewrite app_length; simpl; lia).
  eapply safe_bind; [apply (safe_rdu _ _ (nexus_wf z1)); auto|]. intros nM HnM.
  eapply safe_bind; [apply (safe_rdu _ _ (seg_wf z1)); auto; lia|]. intros s Hsw.
  eapply safe_bind; [apply (down_trap_safe ieqb z1); auto|]. intros ti Hti.
  eapply safe_bind; [apply (safe_rdu _ _ (trap_wf (sz st))); auto|]. intros t (H1 & H2 & H3 & H4 & H5).
  eapply safe_bind; [apply (safe_rd _ _ (q_wf (sz st))); auto|]. intros ql Hql.
  unfold split_vertical, set_sink. cbn [t_l t_r t_d t_u t_k].
  set (z' := mkSz (z_n (sz st)) (z_s (sz st) + 1) (z_t (sz st) + 1) (z_q (sz st) + 2)).
  assert (Hz' : sz_le z1 z') by (unfold sz_le; simpl; lia).
  assert (Hz : sz_le (sz st) z') by (unfold sz_le; simpl; lia).
  assert (Hns' : Forall (nexus_wf z') (st_ns st)).
  { eapply Forall_impl; [|exact Hn]; intros; eapply nexus_mono; eauto. }
  assert (Hss' : Forall (seg_wf z') ss1).
  { eapply Forall_impl; [|exact Hss1]; intros; eapply seg_mono; eauto. }
  eapply safe_bind; [apply (add_div_safe z'); auto; simpl; lia|]. intros ns1 (Hw1 & Hl1).
  eapply (safe_bind (fun ni => ni < z_n (sz st))).
  { unfold ok_or. destruct (t_d t); simpl in *; auto. }
  intros ni Hni.
  eapply safe_bind; [apply (safe_rdu _ _ (nexus_wf z')); auto; simpl in *; lia|]. intros n Hnw.
  eapply (safe_bind (fun ns2 => Forall (nexus_wf z') ns2 /\ length ns2 = length (st_ns st))).
  { destruct (negb _ && negb _); [|simpl; auto].
    eapply safe_weaken; [|apply (safe_modify _ _ _ (nexus_wf z')); auto].
    - intros a (Ha & Hb). split; auto. lia.
    - intros a Ha. apply replace_safe; auto. simpl. lia. }
  intros ns2 (Hw2 & Hl2).
  match goal with |- context [seg_loop _ _ ?s] => set (st2 := s) end.
  assert (Hsz2 : sz st2 = z').
  { unfold sz, st2, z'; cbn [st_ns st_ss st_ts st_qs]. rewrite !app_length, !upd_length; simpl. f_equal; lia. }
  assert (Hwf2 : wf st2).
  { unfold wf. rewrite Hsz2. split; [|simpl in *; lia]. unfold st2; cbn [st_ns st_ss st_ts st_qs]. repeat split; auto.
    - apply upd_Forall_app.
      + eapply Forall_impl; [|exact Ht]. intros. eapply trap_mono; eauto.
      + unfold trap_wf; simpl in *. repeat split; auto; try (eapply opt_lt_mono; [|eassumption]; lia); lia.
      + unfold trap_wf; simpl in *. repeat split; auto; try (eapply opt_lt_mono; [|eassumption]; lia); lia.
    - apply Forall_app. split.
      + apply upd_Forall_app.
        * eapply Forall_impl; [|exact Hq]. intros. eapply q_mono; eauto.
        * simpl. lia.
        * eapply q_mono; eauto.
      + constructor; auto. simpl. lia. }
  eapply safe_bind.
  { apply seg_loop_safe; auto; rewrite Hsz2; simpl in *; lia. }
  intros [st3 tr] ((Hw3 & G1 & G2 & G3 & G4) & Htr). rewrite Hsz2 in *. simpl in G1, G2, G3, G4, Htr.
  pose proof Hw3 as ((Hn3 & Hs3 & Ht3 & Hq3) & Ht30 & Hq30).
  eapply safe_bind; [apply (add_div_safe (sz st3)); auto; simpl in *; lia|]. intros ns4 (Hw4 & Hl4).
  set (st4 := mkState ns4 (st_ss st3) (st_ts st3) (st_qs st3)).
  assert (Hsz4 : sz st4 = sz st3) by (unfold sz, st4; simpl; now rewrite Hl4).
  assert (Hwf4 : wf st4).
  { unfold wf. rewrite Hsz4. repeat split; auto. }
  eapply safe_bind; [apply check_safe; auto|]. intros _ _. simpl.
  unfold grow. rewrite Hsz4. split; auto. simpl in *. lia.
Qed.

(** ** Polygons *)

Definition vl_wf (z : sizes) (v : vloc C I) : Prop :=
  match v with Pending _ i q => okv i /\ q < z_q z | Inserted _ n => n < z_n z end.

Lemma vl_mono z z' v : sz_le z z' -> vl_wf z v -> vl_wf z' v.
Proof. unfold sz_le. destruct v; simpl; intuition lia. Qed.

Lemma grow_le n s t st st' : grow n s t st st' -> sz_le (sz st) (sz st').
Proof. unfold grow, sz_le. lia. Qed.

Definition is_pending (v : vloc C I) : bool := match v with Pending _ _ _ => true | Inserted _ _ => false end.
Definition npend (vls : list (vloc C I)) : nat := length (filter is_pending vls).

Lemma npend_upd vls i v w : nth_error vls i = Some v -> is_pending v = true -> is_pending w = false ->
  npend (upd vls i w) + 1 = npend vls.
Proof.
  unfold npend. revert i. induction vls as [|a vls IH]; intros [|i] Hi Hv Hw; simpl in *; try discriminate.
  - injection Hi as ->. rewrite Hv, Hw. simpl. lia.
  - specialize (IH i Hi Hv Hw). destruct (is_pending a); simpl; lia.
Qed.

Lemma npend_upd_same vls i v w : nth_error vls i = Some v -> is_pending v = is_pending w ->
  npend (upd vls i w) = npend vls.
Proof.
  unfold npend. revert i. induction vls as [|a vls IH]; intros [|i] Hi Hv; simpl in *; try discriminate.
  - injection Hi as ->. rewrite Hv. destruct (is_pending w); reflexivity.
  - specialize (IH i Hi Hv). destruct (is_pending a); simpl; lia.
Qed.

(** Entries once inserted stay inserted. *)
Definition ins_mono (vls vls' : list (vloc C I)) : Prop :=
  forall i v, nth_error vls i = Some v -> is_pending v = false -> exists v', nth_error vls' i = Some v' /\ is_pending v' = false.

Lemma ins_refl vls : ins_mono vls vls.
Proof. intros i v H1 H2. eauto. Qed.
Lemma ins_trans a b c : ins_mono a b -> ins_mono b c -> ins_mono a c.
Proof. intros H1 H2 i v Hi Hv. destruct (H1 i v Hi Hv) as (v' & H3 & H4). eauto. Qed.

Lemma ins_upd vls i w : is_pending w = false -> ins_mono vls (upd vls i w).
Proof.
  intros Hw j v Hj Hv. rewrite nth_upd. destruct (i =? j); rewrite ?Hj; eauto.
Qed.

Lemma ins_upd_pending vls i v w : nth_error vls i = Some v -> is_pending v = true -> ins_mono vls (upd vls i w).
Proof.
  intros Hi Hp j x Hj Hx. rewrite nth_upd. destruct (Nat.eqb_spec i j) as [->|]; eauto. congruence.
Qed.

Lemma add_vertex_at_safe st vls vli c i q :
  wf st -> Forall (vl_wf (sz st)) vls -> nth_error vls vli = Some (Pending c i q) ->
  safe (fun p => let '(st', vls', ni) := p in
          grow 1 0 1 st st' /\ ni = z_n (sz st) /\ vls' = upd vls vli (Inserted c ni) /\ Forall (vl_wf (sz st')) vls')
    (add_vertex_at gv dbg fuel st vls vli i q).
Proof.
  intros Hw Hv Hn. unfold add_vertex_at.
  assert (Hp : vl_wf (sz st) (Pending c i q)).
  { rewrite Forall_forall in Hv. apply Hv. now apply nth_error_In in Hn. }
  destruct Hp as (Hi & Hq).
  eapply safe_bind; [apply add_vertex_safe; auto|].
  intros [st' ni] (Hg & Hni). cbn [fst snd] in Hg, Hni.
  unfold modify. rewrite Hn. simpl. split; auto. split; auto. split; auto.
  apply Forall_upd.
  - eapply Forall_impl; [|exact Hv]. intros a Ha. eapply vl_mono; [eapply grow_le; exact Hg|exact Ha].
  - cbn [vl_wf]. unfold grow in Hg. lia.
Qed.

Lemma grow_trans n s t n' s' t' a b c : grow n s t a b -> grow n' s' t' b c -> grow (n + n') (s + s') (t + t') a c.
Proof. unfold grow. intuition lia. Qed.

Lemma add_two_safe st vls a b ca ia qa cb ib qb :
  wf st -> Forall (vl_wf (sz st)) vls -> a <> b ->
  nth_error vls a = Some (Pending ca ia qa) -> nth_error vls b = Some (Pending cb ib qb) ->
  safe (fun p => let '(st2, vls2, ni0, ni1) := p in
     grow 2 0 2 st st2 /\ Forall (vl_wf (sz st2)) vls2 /\ length vls2 = length vls /\
     npend vls2 + 2 = npend vls /\ ins_mono vls vls2 /\
     (forall x, x = a \/ x = b -> exists v, nth_error vls2 x = Some v /\ is_pending v = false) /\
     ni0 < z_n (sz st2) /\ ni1 < z_n (sz st2))
  (bind (add_vertex_at gv dbg fuel st vls a ia qa) (fun '(st1, vls1, na) =>
   bind (add_vertex_at gv dbg fuel st1 vls1 b ib qb) (fun '(st2, vls2, nb) => Ok (st2, vls2, na, nb)))).
Proof.
  intros Hw Hv Hab Ea Eb.
  eapply safe_bind; [apply (add_vertex_at_safe st vls a ca ia qa); auto|].
  intros [[st1 vls1] na] (Hg1 & Hna & Hvls1 & Hwv1).
  assert (Hb1 : nth_error vls1 b = Some (Pending cb ib qb)) by (rewrite Hvls1, nth_upd_ne; auto).
  eapply safe_bind; [apply (add_vertex_at_safe st1 vls1 b cb ib qb); auto; apply Hg1|].
  intros [[st2 vls2] nb] (Hg2 & Hnb & Hvls2 & Hwv2). cbn [bind safe].
  assert (La : a < length vls) by (apply nth_error_Some; congruence).
  assert (Lb : b < length vls) by (apply nth_error_Some; congruence).
  split; [exact (grow_trans _ _ _ _ _ _ _ _ _ Hg1 Hg2)|].
  split; auto.
  split. { rewrite Hvls2, upd_length, Hvls1, upd_length. reflexivity. }
  split. { pose proof (npend_upd vls a _ (Inserted ca na) Ea eq_refl eq_refl) as N1. rewrite <- Hvls1 in N1.
           pose proof (npend_upd vls1 b _ (Inserted cb nb) Hb1 eq_refl eq_refl) as N2. rewrite <- Hvls2 in N2. lia. }
  split. { apply (ins_trans _ vls1); [rewrite Hvls1|rewrite Hvls2]; apply ins_upd; reflexivity. }
  split. { intros x [-> | ->].
    - rewrite Hvls2, nth_upd_ne by auto. rewrite Hvls1, nth_upd_eq by auto. eauto.
    - rewrite Hvls2, nth_upd_eq by (rewrite Hvls1, upd_length; auto). eauto. }
  destruct Hg1 as (_ & Hg1), Hg2 as (_ & Hg2). rewrite Hna, Hnb. lia.
Qed.

Lemma bind_assoc {E A B D} (r : res E A) (f : A -> res E B) (g : B -> res E D) :
  bind (bind r f) g = bind r (fun a => bind (f a) g).
Proof. now destruct r. Qed.

Lemma add_nth_safe st vls si : wf st -> Forall (vl_wf (sz st)) vls -> 1 < length vls ->
  safe (fun p => let '(st', vls', added) := p in
          grow added 1 (added + 1) st st' /\ Forall (vl_wf (sz st')) vls' /\ length vls' = length vls /\
          npend vls' + added = npend vls /\ ins_mono vls vls' /\
          exists v, nth_error vls' si = Some v /\ is_pending v = false)
    (add_nth_segment ieqb gv dbg fuel st vls si).
Proof.
  intros Hw Hv Hlen. unfold add_nth_segment. cbv zeta.
  set (vli1 := (si + 1) mod length vls).
  unfold rd at 1. destruct (nth_error vls si) as [vl0|] eqn:E0; cbn [bind]; [|exact Logic.I].
  unfold rd at 1. destruct (nth_error vls vli1) as [vl1|] eqn:E1; cbn [bind]; [|exact Logic.I].
  eapply (safe_bind (fun p => let '(st1, vls1, ni0, ni1, added) := p in
     grow added 0 added st st1 /\ Forall (vl_wf (sz st1)) vls1 /\ length vls1 = length vls /\
     npend vls1 + added = npend vls /\ ins_mono vls vls1 /\ (exists v, nth_error vls1 si = Some v /\ is_pending v = false) /\
     ni0 < z_n (sz st1) /\ ni1 < z_n (sz st1))).
  { assert (V0 : vl_wf (sz st) vl0) by (rewrite Forall_forall in Hv; apply Hv; now apply nth_error_In in E0).
    assert (V1 : vl_wf (sz st) vl1) by (rewrite Forall_forall in Hv; apply Hv; now apply nth_error_In in E1).
    assert (L0 : si < length vls) by (apply nth_error_Some; congruence).
    assert (L1 : vli1 < length vls) by (apply nth_error_Some; congruence).
    assert (Hne : si <> vli1).
    { unfold vli1. intros He. destruct (Nat.eq_dec (si + 1) (length vls)) as [Hl|Hl].
      - rewrite Hl, Nat.mod_same in He; lia.
      - rewrite Nat.mod_small in He; lia. }
    destruct vl0 as [c0 i0 q0|c0 n0], vl1 as [c1 i1 q1|c1 n1].
    - destruct (coords_lt c0 c1).
      + pose proof (add_two_safe st vls si vli1 c0 i0 q0 c1 i1 q1 Hw Hv Hne E0 E1) as H.
        destruct (add_vertex_at gv dbg fuel st vls si i0 q0) as [[[st1 vls1] na]|e|[]]; cbn [bind safe] in *; auto.
        destruct (add_vertex_at gv dbg fuel st1 vls1 vli1 i1 q1) as [[[st2 vls2] nb]|e|[]]; cbn [bind safe] in *; auto.
        destruct H as (H1 & H2 & H3 & H4 & H5 & H6 & H7 & H8). repeat split; auto; try apply H1.
      + assert (Hne' : vli1 <> si) by auto.
        pose proof (add_two_safe st vls vli1 si c1 i1 q1 c0 i0 q0 Hw Hv Hne' E1 E0) as H.
        destruct (add_vertex_at gv dbg fuel st vls vli1 i1 q1) as [[[st1 vls1] na]|e|[]]; cbn [bind safe] in *; auto.
        destruct (add_vertex_at gv dbg fuel st1 vls1 si i0 q0) as [[[st2 vls2] nb]|e|[]]; cbn [bind safe] in *; auto.
        destruct H as (H1 & H2 & H3 & H4 & H5 & H6 & H7 & H8). repeat split; auto; try apply H1.
    - eapply safe_bind; [apply (add_vertex_at_safe st vls si c0 i0 q0); auto|].
      intros [[st1 vls1] na] (Hg1 & Hna & Hvls1 & Hwv1). cbn [bind safe].
      pose proof (npend_upd vls si _ (Inserted c0 na) E0 eq_refl eq_refl) as N1. rewrite <- Hvls1 in N1.
      split; auto. split; auto. split; [now rewrite Hvls1, upd_length|]. split; auto.
      split; [rewrite Hvls1; now apply ins_upd|].
      split; [rewrite Hvls1, nth_upd_eq by auto; eauto|]. cbn [vl_wf] in V1. unfold grow in Hg1. lia.
    - eapply safe_bind; [apply (add_vertex_at_safe st vls vli1 c1 i1 q1); auto|].
      intros [[st1 vls1] na] (Hg1 & Hna & Hvls1 & Hwv1). cbn [bind safe].
      pose proof (npend_upd vls vli1 _ (Inserted c1 na) E1 eq_refl eq_refl) as N1. rewrite <- Hvls1 in N1.
      split; auto. split; auto. split; [now rewrite Hvls1, upd_length|]. split; auto.
      split; [rewrite Hvls1; now apply ins_upd|].
      split; [rewrite Hvls1, nth_upd_ne by auto; eauto|]. cbn [vl_wf] in V0. unfold grow in Hg1. lia.
    - simpl in *. split; [unfold grow; intuition lia|]. split; auto. split; auto. split; [lia|].
      split; [apply ins_refl|]. split; [eauto|]. auto. }
  intros [[[[st1 vls1] ni0] ni1] added] (Hg & Hv1 & Hl1 & Hp & Him & Hsi & Hn0 & Hn1).
  pose proof Hg as (Hw1 & Hg').
  pose proof Hw1 as ((Hns & _ & _ & _) & _ & _).
  eapply safe_bind; [apply (safe_rdu _ _ (nexus_wf (sz st1))); auto|]. intros m0 _.
  eapply safe_bind; [apply (safe_rdu _ _ (nexus_wf (sz st1))); auto|]. intros m1 _.
  eapply (safe_bind (grow 0 1 1 st1)).
  { destruct (coords_lt _ _); apply add_segment_safe; auto. }
  intros st2 Hg2. simpl.
  split. { pose proof (grow_trans _ _ _ _ _ _ _ _ _ Hg Hg2) as H. now rewrite Nat.add_0_r in H. }
  split; auto.
  eapply Forall_impl; [|exact Hv1]. intros a Ha. eapply vl_mono; [eapply grow_le; exact Hg2|exact Ha].
Qed.

(** ** Relocation *)

Lemma walk_safe st d c1 c2 k : wf st -> forall ti, ti < z_t (sz st) ->
  safe (fun t => t < z_t (sz st)) (walk k st d c1 c2 ti).
Proof.
  intros ((Hn & Hs & Ht & Hq) & _ & _). induction k as [|k IH]; intros ti Hti; cbn [walk]; [exact Logic.I|].
  eapply safe_bind; [apply (safe_rdu _ _ (trap_wf (sz st))); auto|]. intros t (H1 & H2 & H3 & H4 & H5).
  eapply (safe_bind (fun _ => True)).
  { unfold reached. destruct (match d with Asc => t_u t | Desc => t_d t end); [|exact Logic.I].
    eapply safe_bind; [apply (safe_rd _ _ (nexus_wf (sz st))); auto|]. intros n' _. exact Logic.I. }
  intros [|] _; [exact Hti|].
  eapply (safe_bind (fun ni => ni < z_n (sz st))).
  { unfold ok_or. destruct d; [destruct (t_u t)|destruct (t_d t)]; simpl in *; auto. }
  intros ni Hni.
  eapply safe_bind; [apply (safe_rdu _ _ (nexus_wf (sz st))); auto|]. intros n' Hn'.
  apply IH. now apply between_lt.
Qed.

Definition loc_wf (z : sizes) (l : location) : Prop :=
  match l with LNexus n => n < z_n z | LTrap t => t < z_t z end.

Lemma relocate_safe st k : wf st -> forall vls un vli loc c,
  Forall (vl_wf (sz st)) vls -> loc_wf (sz st) loc ->
  safe (fun vls' => Forall (vl_wf (sz st)) vls' /\ length vls' = length vls /\ npend vls' = npend vls /\ ins_mono vls vls')
    (relocate fuel k st vls un vli loc c).
Proof.
  intros Hw. pose proof Hw as ((Hn & Hs & Ht & Hq) & _ & _).
  induction k as [|k IH]; intros vls un vli loc c Hv Hl; cbn [relocate].
  - destruct un; simpl; auto. repeat split; auto using ins_refl.
  - destruct un; [simpl; repeat split; auto using ins_refl|].
    set (v := (vli + 1) mod length vls).
    unfold rd. destruct (nth_error vls v) as [[ct i q|ct ni]|] eqn:Ev; cbn [bind]; [| |exact Logic.I].
    + eapply (safe_bind (fun t => t < z_t (sz st))).
      { destruct loc as [ni|ti]; [|exact Hl].
        eapply safe_bind; [apply (safe_rdu _ _ (nexus_wf (sz st))); auto|]. intros n' Hn'.
        apply toward_safe; auto. }
      intros ti0 Hti0.
      eapply safe_bind; [apply walk_safe; eauto|]. intros ti Hti.
      eapply safe_bind; [apply (safe_rdu _ _ (trap_wf (sz st))); auto|]. intros t (H1 & H2 & H3 & H4 & H5).
      assert (Hvp : vl_wf (sz st) (Pending ct i q)) by (rewrite Forall_forall in Hv; apply Hv; now apply nth_error_In in Ev).
      eapply safe_weaken; [|apply IH; simpl; auto].
      * intros vls' (A1 & A2 & A3 & A4). rewrite upd_length in A2.
        rewrite (npend_upd_same vls v _ _ Ev) in A3 by reflexivity.
        repeat split; auto. eapply ins_trans; [|exact A4]. eapply ins_upd_pending; eauto.
      * apply Forall_upd; auto. simpl. split; [apply Hvp|auto].
    + assert (Hvp : vl_wf (sz st) (Inserted ct ni)) by (rewrite Forall_forall in Hv; apply Hv; now apply nth_error_In in Ev).
      eapply safe_bind; [apply (safe_rdu _ _ (nexus_wf (sz st))); auto|]. intros n' Hn'.
      apply IH; auto.
Qed.

(** ** Whole polygons and inputs *)

Lemma npend_zero vls : (forall i v, nth_error vls i = Some v -> is_pending v = false) -> npend vls = 0.
Proof.
  unfold npend. induction vls as [|a vls IH]; intros H; simpl; auto.
  rewrite (H 0 a eq_refl). apply IH. intros i v. apply (H (S i)).
Qed.

Lemma polygon_loop_safe math_n len : forall order i st vls pending uc nu,
  wf st -> Forall (vl_wf (sz st)) vls -> 1 < length vls ->
  pending = npend vls ->
  safe (fun p => let '(st', vls') := p in
    grow (npend vls - npend vls') (length order) (npend vls - npend vls' + length order) st st' /\
    length vls' = length vls /\ npend vls' <= npend vls /\ ins_mono vls vls' /\
    (forall vi, In vi order -> exists v, nth_error vls' vi = Some v /\ is_pending v = false))
  (polygon_loop ieqb gv dbg fuel math_n len order i st vls pending uc nu).
Proof.
  induction order as [|vi order IH]; intros i st vls pending uc nu Hw Hv Hl Hp; cbn [polygon_loop].
  { simpl. rewrite Nat.sub_diag. repeat split; auto using ins_refl; try apply Hw; try lia; try contradiction. }
  eapply safe_bind; [apply (add_nth_safe st vls vi); auto|].
  intros [[st1 vls1] added] (Hg1 & Hv1 & Hl1 & Hp1 & Hm1 & Hi1). cbv zeta.
  assert (Hw1 : wf st1) by apply Hg1.
  assert (K : forall vls2 uc nu, Forall (vl_wf (sz st1)) vls2 -> length vls2 = length vls1 -> npend vls2 = npend vls1 ->
    ins_mono vls1 vls2 ->
    safe (fun p => let '(st', vls') := p in
    grow (npend vls - npend vls') (length (vi :: order)) (npend vls - npend vls' + length (vi :: order)) st st' /\
    length vls' = length vls /\ npend vls' <= npend vls /\ ins_mono vls vls' /\
    (forall x, In x (vi :: order) -> exists v, nth_error vls' x = Some v /\ is_pending v = false))
    (polygon_loop ieqb gv dbg fuel math_n len order (i + 1) st1 vls2 (pending - added) uc nu)).
  { intros vls2 uc' nu' Hv2 Hl2 Hp2 Hm2.
    eapply safe_weaken; [|apply (IH (i + 1) st1 vls2 (pending - added) uc' nu'); auto; lia].
    intros [st' vls'] (Hg' & Hl' & Hp' & Hm' & Hi').
    split. { unfold grow in *. simpl length. intuition lia. }
    split; [lia|]. split; [lia|].
    assert (Hm12 : ins_mono vls1 vls') by (eapply ins_trans; eauto).
    split; [eapply ins_trans; eauto|].
    intros x [<-|Hx]; [|auto]. destruct Hi1 as (v & Hv' & Hpv). apply (Hm12 vi v); auto. }
  destruct (i =? nu).
  - eapply safe_bind.
    { apply (relocate_safe st1 fuel Hw1 vls1 (pending - added) vi (LNexus 0) coords_zero); auto.
      simpl. destruct Hi1 as (v & Hv' & Hpv).
      assert (Hvv : vl_wf (sz st1) v) by (rewrite Forall_forall in Hv1; apply Hv1; now apply nth_error_In in Hv').
      destruct v as [c' i' q'|c' n']; simpl in *; [discriminate|]. lia. }
    intros vls2 (A1 & A2 & A3 & A4). apply K; auto.
  - apply K; auto using ins_refl.
Qed.

Lemma add_polygon_safe math_n order st vls :
  wf st -> Forall (vl_wf (sz st)) vls -> 1 < length vls ->
  Permutation order (seq 0 (length vls)) -> npend vls = length vls ->
  safe (fun p => grow (length vls) (length vls) (length vls + length vls) st (fst p))
    (add_polygon ieqb gv dbg fuel math_n order st vls).
Proof.
  intros Hw Hv Hl Hperm Hp. unfold add_polygon.
  eapply safe_weaken; [|apply polygon_loop_safe; auto].
  intros [st' vls'] (Hg & Hl' & Hp' & _ & Hi). simpl.
  assert (Hz : npend vls' = 0).
  { apply npend_zero. intros i v Hn. destruct (Hi i) as (v' & H1 & H2).
    - apply (Permutation_in i (Permutation_sym Hperm)). apply in_seq. apply nth_lt in Hn. lia.
    - congruence. }
  rewrite Hz, Nat.sub_0_r in Hg. rewrite (Permutation_length Hperm), seq_length, Hp in Hg. exact Hg.
Qed.

Lemma add_polygon_safe' math_n order st vls :
  wf st -> Forall (vl_wf (sz st)) vls -> 1 < length vls -> npend vls = length vls ->
  safe (fun p => wf (fst p)) (add_polygon ieqb gv dbg fuel math_n order st vls).
Proof.
  intros Hw Hv Hl Hp. unfold add_polygon.
  eapply safe_weaken; [|apply polygon_loop_safe; auto].
  intros [st' vls'] (Hg & _). apply Hg.
Qed.

Definition fresh (vl : list (vloc C I)) : Prop := Forall (fun v => exists i, v = Pending (gv i) i 0 /\ okv i) vl.

Lemma fresh_npend vl : fresh vl -> npend vl = length vl.
Proof.
  unfold npend. induction 1 as [|v vl (i & -> & _) Hvl IH]; simpl; auto.
Qed.

Lemma fresh_wf st vl : wf st -> fresh vl -> Forall (vl_wf (sz st)) vl.
Proof.
  intros (_ & _ & Hq) Hf. eapply Forall_impl; [|exact Hf]. intros v (i & -> & Hi). simpl. auto.
Qed.

Lemma build_loop_safe math_n shuf : forall elems k st vl,
  (forall i, In (Continue i) elems -> okv i) -> wf st -> fresh vl ->
  safe wf (build_loop ieqb gv dbg fuel math_n shuf elems k st vl).
Proof.
  induction elems as [|[i|] elems IH]; intros k st vl He Hw Hf; cbn [build_loop]; auto.
  - apply IH; auto.
    + intros j Hj. apply He. now right.
    + apply Forall_app. split; auto. constructor; auto. exists i. split; auto. apply He. now left.
  - assert (He' : forall i, In (Continue i) elems -> okv i) by (intros j Hj; apply He; now right).
    cbv zeta. destruct (0 <? length vl); [|apply IH; auto].
    destruct (Nat.ltb_spec (length vl) 3); [exact Logic.I|].
    eapply (safe_bind (fun p => wf (fst p))).
    { pose proof (add_polygon_safe' math_n (shuf k (length vl)) st vl Hw (fresh_wf _ _ Hw Hf)) as G.
      destruct (add_polygon _ _ _ _ _ _ _ _) as [p|e|c]; simpl in *; apply G; auto using fresh_npend; lia. }
    intros [st' vls'] Hw'. apply IH; auto. constructor.
Qed.

Fixpoint continues (elems : list (element I)) : nat :=
  match elems with [] => 0 | Continue _ :: l => S (continues l) | NewPolygon :: l => continues l end.

Definition final_sizes (n : nat) (st : state C I) : Prop :=
  length (st_ns st) = n /\ length (st_ss st) = n /\ length (st_ts st) = n + n + 1.

Lemma build_loop_sizes math_n shuf : (forall k n, Permutation (shuf k n) (seq 0 n)) ->
  forall elems k st vl,
  (forall i, In (Continue i) elems -> okv i) -> wf st -> fresh vl ->
  forall st', build_loop ieqb gv dbg fuel math_n shuf (elems ++ [NewPolygon]) k st vl = Ok st' ->
  z_n (sz st') = z_n (sz st) + (length vl + continues elems) /\
  z_s (sz st') = z_s (sz st) + (length vl + continues elems) /\
  z_t (sz st') = z_t (sz st) + 2 * (length vl + continues elems).
Proof.
  intros Hshuf.
  assert (P : forall elems k st vl st', wf st -> fresh vl ->
    (forall k st1, wf st1 -> forall st', build_loop ieqb gv dbg fuel math_n shuf elems k st1 [] = Ok st' ->
       z_n (sz st') = z_n (sz st1) + continues elems /\ z_s (sz st') = z_s (sz st1) + continues elems /\
       z_t (sz st') = z_t (sz st1) + 2 * continues elems) ->
    build_loop ieqb gv dbg fuel math_n shuf (NewPolygon :: elems) k st vl = Ok st' ->
    z_n (sz st') = z_n (sz st) + (length vl + continues elems) /\
    z_s (sz st') = z_s (sz st) + (length vl + continues elems) /\
    z_t (sz st') = z_t (sz st) + 2 * (length vl + continues elems)).
  { intros elems k st vl st' Hw Hf IH. cbn [build_loop]. cbv zeta.
    destruct (Nat.ltb_spec 0 (length vl)) as [Hl|Hl].
    - destruct (Nat.ltb_spec (length vl) 3) as [Hl3|Hl3]; [discriminate|].
      pose proof (add_polygon_safe math_n (shuf k (length vl)) st vl Hw (fresh_wf _ _ Hw Hf)) as G.
      destruct (add_polygon _ _ _ _ _ _ _ _) as [[st1 vls1]|e|c]; cbn [map_err bind]; try discriminate.
      simpl in G. intros H. apply IH in H.
      + assert (grow (length vl) (length vl) (length vl + length vl) st st1) as G'.
        { apply G; auto using fresh_npend. lia. }
        unfold grow in G'. lia.
      + apply G; auto using fresh_npend. lia.
    - destruct vl; simpl in Hl; [|lia]. intros H. apply IH in H; auto. }
  induction elems as [|[i|] elems IH]; intros k st vl He Hw Hf st' H.
  - apply P in H; auto. simpl. intros k' st1 Hw1 st'' [= <-]. lia.
  - apply IH in H; auto.
    + rewrite app_length in H. simpl in *. lia.
    + intros j Hj. apply He. now right.
    + apply Forall_app. split; auto. constructor; auto. exists i. split; auto. apply He. now left.
  - assert (He' : forall i, In (Continue i) elems -> okv i) by (intros j Hj; apply He; now right).
    assert (Hc : continues (elems ++ [NewPolygon]) = continues elems).
    { clear. induction elems as [|[i|] l IH]; simpl; auto. }
    cbn [app] in H. apply P in H; auto.
    + rewrite Hc in H. simpl. exact H.
    + intros k' st1 Hw1 st'' H1. rewrite Hc. apply IH in H1; auto. constructor.
Qed.

Lemma trapezoidize_safe math_n shuf elems : (forall i, In (Continue i) elems -> okv i) ->
  safe wf (trapezoidize ieqb gv dbg fuel math_n shuf elems).
Proof.
  intros He. apply build_loop_safe; auto using wf_new; [|constructor].
  intros i Hi. apply in_app_or in Hi. destruct Hi as [Hi|[Hi|[]]]; auto. discriminate.
Qed.

Lemma trapezoidize_sizes math_n shuf elems st : (forall i, In (Continue i) elems -> okv i) ->
  (forall k n, Permutation (shuf k n) (seq 0 n)) ->
  trapezoidize ieqb gv dbg fuel math_n shuf elems = Ok st ->
  length (st_ns st) = continues elems /\ length (st_ss st) = continues elems /\
  length (st_ts st) = 2 * continues elems + 1.
Proof.
  intros He Hs H. apply build_loop_sizes in H; auto using wf_new; [|constructor].
  simpl in H. lia.
Qed.

End Ins.
End Bounds.
