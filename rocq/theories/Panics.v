(** No function of the trapezoidation panics when the debug assertions are compiled out, for arbitrary coordinates:
    every checked index is in range. *)
From Coq Require Import List Arith Bool Lia Permutation.
From Verif Require Import Base Coord Trap Mono Tri Bounds.
Import ListNotations.

(** ** Outcomes without a panic or undefined behaviour *)

Definition calm {E A} (Q : A -> Prop) (r : res E A) : Prop :=
  match r with
  | Ok a => Q a
  | Err _ => True
  | Crash Fuel => True
  | Crash _ => False
  end.

Lemma calm_bind {E A B} (Q : A -> Prop) (R : B -> Prop) (r : res E A) (f : A -> res E B) :
  calm Q r -> (forall a, Q a -> calm R (f a)) -> calm R (bind r f).
Proof. destruct r as [a|e|[]]; simpl; auto; contradiction. Qed.

Lemma calm_weaken {E A} (Q R : A -> Prop) (r : res E A) : (forall a, Q a -> R a) -> calm Q r -> calm R r.
Proof. destruct r as [a|e|[]]; simpl; auto. Qed.

Lemma calm_rd {E A} (l : list A) i (Q : A -> Prop) : Forall Q l -> i < length l -> calm (E := E) Q (rd l i).
Proof.
  intros H Hi. unfold rd. destruct (nth_error l i) eqn:En; simpl.
  - rewrite Forall_forall in H. apply H. now apply nth_error_In in En.
  - apply nth_error_None in En. lia.
Qed.

Lemma calm_rdu {E A} (l : list A) i (Q : A -> Prop) : Forall Q l -> i < length l -> calm (E := E) Q (rdu l i).
Proof.
  intros H Hi. unfold rdu. destruct (nth_error l i) eqn:En; simpl.
  - rewrite Forall_forall in H. apply H. now apply nth_error_In in En.
  - apply nth_error_None in En. lia.
Qed.

Lemma calm_modify {E A} (l : list A) i f (Q : A -> Prop) :
  Forall Q l -> i < length l -> (forall a, Q a -> calm Q (f a)) ->
  calm (E := E) (fun l' => Forall Q l' /\ length l' = length l) (modify l i f).
Proof.
  intros H Hi Hf. unfold modify. destruct (nth_error l i) eqn:En; simpl.
  - assert (Qa : Q a) by (rewrite Forall_forall in H; apply H; now apply nth_error_In in En).
    specialize (Hf a Qa). destruct (f a) as [b|e|[]]; simpl in *; auto.
    split; [now apply Forall_upd | apply upd_length].
  - apply nth_error_None in En. lia.
Qed.

Section Panics.
Context {C : Type} {OC : CoordOps C} {I : Type}.
Variable okv : I -> Prop.
Notation wf := (Bounds.wf (C := C) okv).
Notation nexus_wf := (Bounds.nexus_wf (C := C) okv).
Notation vl_wf := (Bounds.vl_wf (C := C) okv).
Notation grow := (Bounds.grow (C := C) okv).

(** ** Functions that only read *)

Lemma find_calm k qs z c : Forall (q_wf z) qs -> z_q z = length qs -> forall qi, qi < z_q z ->
  calm (fun p => fst p < z_q z /\ snd p < z_t z) (find k qs c qi).
Proof.
  intros Hq Hz. induction k as [|k IH]; intros qi Hi; cbn [find]; [exact Logic.I|].
  eapply calm_bind. { apply (calm_rdu _ _ (q_wf z)); auto. lia. }
  intros [l r b|t] Hw; simpl in Hw.
  - destruct (use_left b c); apply IH; lia.
  - simpl. lia.
Qed.

Lemma down_trap_calm ieqb z ns ss s n : length ns = z_n z -> length ss = z_s z -> seg_wf z s -> Forall (nexus_wf z) ns -> Forall (seg_wf z) ss -> nexus_wf z n ->
  calm (fun t => t < z_t z) (get_down_trapezoid ieqb ns ss s n).
Proof.
  intros Ln Ls (Hs0 & Hs1) Hns Hss (Hv & Hu & Hd & Ha). unfold get_down_trapezoid.
  apply (filter_all n _ Desc) in Ha.
  assert (G : forall dr, div_wf z dr ->
    calm (fun t => t < z_t z)
      (bind (rd ns (s_min s)) (fun n_min => if ieqb (n_v n_min) (n_v n) then Err IE_SegNexus
        else bind (rd ns (s_max s)) (fun n_max =>
             bind (if ieqb (n_v n_max) (n_v n) then bind (rd ss (d_si dr)) (fun s_r => bind (rd ns (s_min s_r)) (fun n_r => Ok (n_c n_r)))
                   else Ok (n_c n)) (fun c => Ok (if is_on_left s c then d_r dr else n_dl n)))))).
  { intros dr (Hsi & Hr).
    eapply calm_bind; [apply (calm_rd _ _ (nexus_wf z)); auto; lia|]. intros n_min _.
    destruct (ieqb _ _); [exact Logic.I|].
    eapply calm_bind; [apply (calm_rd _ _ (nexus_wf z)); auto; lia|]. intros n_max _.
    eapply (calm_bind (fun _ => True)).
    { destruct (ieqb _ _); [|exact Logic.I].
      eapply calm_bind; [apply (calm_rd _ _ (seg_wf z)); auto; lia|]. intros sr (Hsr & _).
      eapply calm_bind; [apply (calm_rd _ _ (nexus_wf z)); auto; lia|]. intros nr _. exact Logic.I. }
    intros c _. simpl. destruct (is_on_left s c); auto. }
  destruct (filter_dividers n Desc) as [|a|a b]; simpl in Ha.
  - simpl. auto.
  - apply G; auto.
  - apply G; tauto.
Qed.

Lemma toward_calm z ns ss d c n : length ns = z_n z -> length ss = z_s z -> Forall (nexus_wf z) ns -> Forall (seg_wf z) ss -> nexus_wf z n ->
  calm (fun t => t < z_t z) (get_trapezoid_toward ss ns d c n).
Proof.
  intros Ln Ls Hns Hss (Hv & Hu & Hd & Ha). unfold get_trapezoid_toward.
  apply (filter_all n _ d) in Ha.
  assert (Hf : first_trapezoid n d < z_t z) by (destruct d; auto).
  destruct (filter_dividers n d) as [|a|a b]; simpl in Ha; simpl; auto.
  eapply calm_bind; [apply (calm_rd _ _ (seg_wf z)); auto; destruct Ha; lia|]. intros s (Hs0 & Hs1).
  eapply calm_bind; [apply (calm_rd _ _ (nexus_wf z)); auto; lia|]. intros n_min _.
  eapply calm_bind; [apply (calm_rd _ _ (nexus_wf z)); auto; lia|]. intros n_max _.
  simpl. destruct (is_left _ _ _); auto. apply Ha.
Qed.

(** ** Nexus updates *)

Lemma replace_calm z old new n : nexus_wf z n -> new < z_t z ->
  calm (nexus_wf z) (replace_trapezoid old new n).
Proof.
  intros (Hv & Hu & Hd & Ha) Hn. unfold replace_trapezoid.
  destruct (n_ul n =? old); [simpl; repeat split; auto|].
  destruct (n_dl n =? old); [simpl; repeat split; auto|].
  destruct (n_div n) as [|a|a b]; simpl in *; auto.
  - destruct (d_r a =? old); simpl; auto. unfold nexus_wf, div_wf in *; simpl. intuition.
  - destruct (d_r a =? old); simpl.
    + unfold nexus_wf, div_wf in *; simpl. intuition.
    + destruct (d_r b =? old); simpl; auto. unfold nexus_wf, div_wf in *; simpl. intuition.
Qed.

Lemma add_div_calm z ns ss ni si tr : length ns = z_n z -> length ss = z_s z -> ni < z_n z -> Forall (nexus_wf z) ns -> Forall (seg_wf z) ss -> si < z_s z -> tr < z_t z ->
  calm (fun ns' => Forall (nexus_wf z) ns' /\ length ns' = length ns) (nexus_add_segment ns ss ni si tr).
Proof.
  intros Ln Ls Hni Hns Hss Hs Ht. unfold nexus_add_segment.
  eapply (calm_bind (fun _ => True)).
  { unfold get_segment_direction. eapply calm_bind; [apply (calm_rd _ _ (seg_wf z)); auto; lia|].
    intros s _. destruct (ni =? s_max s); simpl; auto. destruct (ni =? s_min s); simpl; auto. }
  intros d _. cbv zeta.
  eapply calm_bind; [apply (calm_rd _ _ (nexus_wf z)); auto; lia|]. intros n Hn.
  eapply (calm_bind (zot_all (div_wf z))).
  { destruct Hn as (Hv & Hu & Hd & Ha). destruct (n_div n) as [|a|a b]; simpl.
    - split; auto.
    - eapply (calm_bind (fun _ => True)).
      + destruct (dir_eqb (d_dir a) d); [|exact Logic.I].
        eapply calm_bind; [apply (calm_rd _ _ (seg_wf z)); auto; destruct Ha; lia|]. intros s0 _.
        eapply calm_bind; [apply (calm_rd _ _ (seg_wf z)); auto; lia|]. intros s1 (Hs0 & Hs1).
        eapply calm_bind; [apply (calm_rd _ _ (nexus_wf z)); auto; destruct d; lia|]. intros n1 _. exact Logic.I.
      + intros [|] _; simpl; simpl in Ha; unfold div_wf in *; simpl; tauto.
    - exact Logic.I. }
  intros dv Hdv. simpl. split; [|apply upd_length].
  apply Forall_upd; auto. destruct Hn as (Hv & Hu & Hd & Ha). repeat split; auto.
Qed.

Section Ins.
Variable ieqb : I -> I -> bool.
Variable gv : I -> coords C.
Variable fuel : nat.
Notation fresh := (Bounds.fresh okv gv).


Lemma add_vertex_calm st vi qi : wf st -> okv vi -> qi < z_q (sz st) ->
  calm (fun p => grow 1 0 1 st (fst p) /\ snd p = z_n (sz st)) (add_vertex gv false fuel st vi qi).
Proof.
  intros Hw Hv Hqi. pose proof Hw as ((Hn & Hs & Ht & Hq) & Ht0 & Hq0). unfold add_vertex.
  eapply calm_bind; [apply (find_calm fuel _ (sz st)); auto|].
  intros [qp ti] (Hqp & Hti). simpl in Hqp, Hti. cbv zeta.
  eapply calm_bind; [apply (calm_rd _ _ (q_wf (sz st))); auto|]. intros ql Hql.
  eapply calm_bind; [apply (calm_rd _ _ (trap_wf (sz st))); auto|]. intros t (H1 & H2 & H3 & H4 & H5).
  unfold split_horizontal, set_sink. cbn [t_l t_r t_d t_u t_k].
  set (z' := mkSz (z_n (sz st) + 1) (z_s (sz st)) (z_t (sz st) + 1) (z_q (sz st) + 2)).
  assert (Hz : sz_le (sz st) z') by (unfold sz_le; simpl; lia).
  set (nn := nexus_new vi (gv vi) (length (st_ts st)) ti).
  assert (Hns1 : Forall (nexus_wf z') (st_ns st ++ [nn])).
  { apply Forall_app. split.
    - eapply Forall_impl; [|exact Hn]. intros. eapply nexus_mono; eauto.
    - constructor; auto. unfold nexus_wf; simpl in *. repeat split; auto; lia. }
  eapply (calm_bind (fun ns2 => Forall (nexus_wf z') ns2 /\ length ns2 = length (st_ns st) + 1)).
  { destruct (t_u t) as [nu|].
    - eapply calm_weaken; [|apply (calm_modify _ _ _ (nexus_wf z'))]; auto.
      + intros ns2 (Ha & Hb). split; auto. rewrite Hb, app_length. simpl. lia.
      + rewrite app_length. simpl in *. lia.
      + intros a Ha. apply replace_calm; auto. simpl. lia.
    - simpl. split; auto. rewrite app_length. simpl; lia. }
  intros ns2 (Hns2 & Hl2).
  match goal with |- context [mkState ns2 ?a ?b ?c] => set (st' := mkState ns2 a b c) end.
  assert (Hsz : sz st' = z').
  { unfold sz, st', z'; cbn [st_ns st_ss st_ts st_qs]. rewrite !app_length, !upd_length; simpl. f_equal; try lia. }
  assert (Hw' : wf st').
  { unfold wf. rewrite Hsz. split; [|simpl; lia]. unfold st'; cbn [st_ns st_ss st_ts st_qs]. repeat split; auto.
    - eapply Forall_impl; [|exact Hs]. intros. eapply seg_mono; eauto.
    - apply upd_Forall_app.
      + eapply Forall_impl; [|exact Ht]. intros. eapply trap_mono; eauto.
      + unfold trap_wf; simpl in *. repeat split; auto; try (eapply opt_lt_mono; [|eassumption]; lia); lia.
      + unfold trap_wf; simpl in *. repeat split; auto; try (eapply opt_lt_mono; [|eassumption]; lia); lia.
    - apply Forall_app. split.
      + apply upd_Forall_app.
        * eapply Forall_impl; [|exact Hq]. intros. eapply q_mono; eauto.
        * simpl. lia.
        * eapply q_mono; eauto.
      + constructor; auto. simpl. lia. }
  cbn [check_consistency bind calm fst snd].
  split; auto. unfold grow. rewrite Hsz. simpl. split; [auto|lia].
Qed.

Lemma seg_loop_calm k : forall st si nmin c1 c2 ni tl tr, wf st -> si < z_s (sz st) ->
  ni < z_n (sz st) -> tl < z_t (sz st) -> tr < z_t (sz st) ->
  calm (fun p => grow 0 0 0 st (fst p) /\ snd p < z_t (sz st)) (seg_loop ieqb k st si nmin c1 c2 ni tl tr).
Proof.
  induction k as [|k IH]; intros st si nmin c1 c2 ni tl tr Hw Hsi Hni Htl Htr; cbn [seg_loop]; [exact Logic.I|].
  destruct (ni =? nmin). { simpl. unfold grow. intuition lia. }
  pose proof Hw as ((Hn & Hs & Ht & Hq) & Ht0 & Hq0).
  eapply calm_bind; [apply (calm_rdu _ _ (nexus_wf (sz st))); auto|]. intros n Hnw.
  eapply calm_bind; [apply (calm_rdu _ _ (seg_wf (sz st))); auto|]. intros s Hsw.
  eapply calm_bind; [apply (down_trap_calm ieqb (sz st)); auto|]. intros ti Hti.
  eapply calm_bind; [apply (calm_rdu _ _ (trap_wf (sz st))); auto|]. intros t (H1 & H2 & H3 & H4 & H5).
  eapply (calm_bind (fun ni' => ni' < z_n (sz st))).
  { unfold ok_or. destruct (t_d t); simpl in *; auto. }
  intros ni' Hni'.
  eapply calm_bind; [apply (calm_rdu _ _ (trap_wf (sz st))); auto|]. intros tul (L1 & L2 & L3 & L4 & L5).
  eapply calm_bind; [apply (calm_rdu _ _ (trap_wf (sz st))); auto|]. intros tur (R1 & R2 & R3 & R4 & R5).
  cbv zeta.
  set (z' := mkSz (z_n (sz st)) (z_s (sz st)) (z_t (sz st)) (z_q (sz st) + 1)).
  assert (Hz : sz_le (sz st) z') by (unfold sz_le; simpl; lia).
  (* the common end of both branches *)
  assert (G : forall ns1 ts2 q k1 k2 a b (x y : nat), Forall (nexus_wf (sz st)) ns1 -> length ns1 = length (st_ns st) ->
     Forall (trap_wf z') ts2 -> length ts2 = length (st_ts st) -> q_wf (sz st) q -> k1 < z_q z' -> k2 < z_q z' ->
     x < z_t (sz st) -> y < z_t (sz st) ->
     calm (fun p => grow 0 0 0 st (fst p) /\ snd p < z_t (sz st))
       (seg_loop ieqb k (mkState ns1 (st_ss st) ts2 (upd (st_qs st) (t_k t) (QBranch k1 k2 (QX a b)) ++ [q]))
          si nmin c1 c2 ni' x y)).
  { intros ns1 ts2 q k1 k2 a b x y Hns1 Hl1 Hts2 Hl2 Hqw Hk1 Hk2 Hx Hy.
    match goal with |- context [seg_loop _ _ ?s] => set (st' := s) end.
    assert (Hsz : sz st' = z').
    { unfold sz, st', z'; cbn [st_ns st_ss st_ts st_qs]. rewrite !app_length, !upd_length; simpl. f_equal; lia. }
    assert (Hw' : wf st').
    { unfold wf. rewrite Hsz. split; [|simpl in *; lia]. unfold st'; cbn [st_ns st_ss st_ts st_qs]. split; [|split; [|split]]; [| |exact Hts2|].
      - eapply Forall_impl; [|exact Hns1]. intros. eapply nexus_mono; eauto.
      - eapply Forall_impl; [|exact Hs]. intros. eapply seg_mono; eauto.
      - apply upd_Forall_app.
        + eapply Forall_impl; [|exact Hq]. intros. eapply q_mono; eauto.
        + simpl; auto.
        + eapply q_mono; eauto. }
    eapply calm_weaken; [|apply IH; auto; rewrite Hsz; simpl; auto].
    intros [st'' r] ((Hw'' & G1 & G2 & G3 & G4) & Hr). rewrite Hsz in *. simpl in *.
    unfold grow. split; [split; auto|]; simpl in *; lia. }
  assert (Hts : Forall (trap_wf z') (st_ts st)).
  { eapply Forall_impl; [|exact Ht]. intros. eapply trap_mono; eauto. }
  destruct (onat_eqb (t_r t) (t_r tur)); [|destruct (onat_eqb (t_l t) (t_l tul)); [|exact Logic.I]].
  - eapply calm_bind; [apply (calm_rd _ _ (q_wf (sz st))); auto|]. intros q Hqw.
    eapply calm_bind; [apply (calm_modify _ _ _ (trap_wf z')); auto|].
    { intros a (A1 & A2 & A3 & A4 & A5). unfold trap_wf; simpl in *. repeat split; auto. lia. }
    intros ts1 (Hts1 & Hlt1).
    eapply calm_bind; [apply (calm_modify _ _ _ (trap_wf z')); [exact Hts1|rewrite Hlt1; assumption|]|].
    { intros a (A1 & A2 & A3 & A4 & A5). unfold trap_wf; simpl in *. repeat split; auto. }
    intros ts2 (Hts2 & Hlt2).
    eapply (calm_bind (fun ns1 => Forall (nexus_wf (sz st)) ns1 /\ length ns1 = length (st_ns st))).
    { destruct (negb (ni' =? nmin)); [|simpl; auto].
      eapply calm_bind; [apply (calm_rdu _ _ (nexus_wf (sz st))); auto|]. intros n' Hn'.
      destruct (negb _); [|simpl; auto].
      apply calm_modify; auto. intros a Ha. apply replace_calm; auto. }
    intros ns1 (Hns1 & Hl1).
    apply G; auto; simpl in *; try lia.
  - eapply calm_bind; [apply (calm_rd _ _ (q_wf (sz st))); auto|]. intros q Hqw.
    eapply calm_bind; [apply (calm_modify _ _ _ (trap_wf z')); auto|].
    { intros a (A1 & A2 & A3 & A4 & A5). unfold trap_wf; simpl in *. repeat split; auto. lia. }
    intros ts1 (Hts1 & Hlt1).
    eapply calm_bind; [apply (calm_modify _ _ _ (trap_wf z')); [exact Hts1|rewrite Hlt1; assumption|]|].
    { intros a (A1 & A2 & A3 & A4 & A5). unfold trap_wf; simpl in *. repeat split; auto. }
    intros ts2 (Hts2 & Hlt2).
    eapply (calm_bind (fun _ => True)).
    { destruct (ni' =? nmin); [exact Logic.I|].
      eapply calm_bind; [apply (calm_rdu _ _ (nexus_wf (sz st))); auto|]. intros n' Hn'. exact Logic.I. }
    intros ol _.
    eapply (calm_bind (fun ns1 => Forall (nexus_wf (sz st)) ns1 /\ length ns1 = length (st_ns st))).
    { destruct ol; [|simpl; auto].
      apply calm_modify; auto. intros a Ha. apply replace_calm; auto. }
    intros ns1 (Hns1 & Hl1).
    apply G; auto; simpl in *; try lia.
Qed.

Lemma add_segment_calm st nmin nmax c1 c2 : wf st -> nmin < z_n (sz st) -> nmax < z_n (sz st) ->
  calm (fun st' => grow 0 1 1 st st') (add_segment ieqb false fuel st nmin nmax c1 c2).
Proof.
  intros Hw Hmin Hmax. pose proof Hw as ((Hn & Hs & Ht & Hq) & Ht0 & Hq0). unfold add_segment. cbv zeta.
  set (ss1 := st_ss st ++ [mkSeg nmin nmax c1 c2]).
  set (z1 := mkSz (z_n (sz st)) (z_s (sz st) + 1) (z_t (sz st)) (z_q (sz st))).
  assert (Hz1 : sz_le (sz st) z1) by (unfold sz_le; simpl; lia).
  assert (Hss1 : Forall (seg_wf z1) ss1).
  { apply Forall_app. split; [eapply Forall_impl; [|exact Hs]; intros; eapply seg_mono; eauto|].
    constructor; auto. unfold seg_wf; simpl; auto. }
  assert (Hns1 : Forall (nexus_wf z1) (st_ns st)).
  { eapply Forall_impl; [|exact Hn]; intros; eapply nexus_mono; eauto. }
  assert (Hlen1 : length ss1 = length (st_ss st) + 1) by (unfold ss1; rewrite app_length; simpl; lia).
  eapply calm_bind; [apply (calm_rdu _ _ (nexus_wf z1)); auto|]. intros nM HnM.
  eapply calm_bind; [apply (calm_rdu _ _ (seg_wf z1)); auto; lia|]. intros s Hsw.
  eapply calm_bind; [apply (down_trap_calm ieqb z1); auto|]. intros ti Hti.
  eapply calm_bind; [apply (calm_rdu _ _ (trap_wf (sz st))); auto|]. intros t (H1 & H2 & H3 & H4 & H5).
  eapply calm_bind; [apply (calm_rd _ _ (q_wf (sz st))); auto|]. intros ql Hql.
  unfold split_vertical, set_sink. cbn [t_l t_r t_d t_u t_k].
  set (z' := mkSz (z_n (sz st)) (z_s (sz st) + 1) (z_t (sz st) + 1) (z_q (sz st) + 2)).
  assert (Hz' : sz_le z1 z') by (unfold sz_le; simpl; lia).
  assert (Hz : sz_le (sz st) z') by (unfold sz_le; simpl; lia).
  assert (Hns' : Forall (nexus_wf z') (st_ns st)).
  { eapply Forall_impl; [|exact Hn]; intros; eapply nexus_mono; eauto. }
  assert (Hss' : Forall (seg_wf z') ss1).
  { eapply Forall_impl; [|exact Hss1]; intros; eapply seg_mono; eauto. }
  eapply calm_bind; [apply (add_div_calm z'); auto; simpl; lia|]. intros ns1 (Hw1 & Hl1).
  eapply (calm_bind (fun ni => ni < z_n (sz st))).
  { unfold ok_or. destruct (t_d t); simpl in *; auto. }
  intros ni Hni.
  eapply calm_bind; [apply (calm_rdu _ _ (nexus_wf z')); auto; simpl in *; lia|]. intros n Hnw.
  eapply (calm_bind (fun ns2 => Forall (nexus_wf z') ns2 /\ length ns2 = length (st_ns st))).
  { destruct (negb _ && negb _); [|simpl; auto].
    eapply calm_weaken; [|apply (calm_modify _ _ _ (nexus_wf z')); auto].
    - intros a (Ha & Hb). split; auto. lia.
    - simpl in *. lia.
    - intros a Ha. apply replace_calm; auto. simpl. lia. }
  intros ns2 (Hw2 & Hl2).
  match goal with |- context [seg_loop _ _ ?s] => set (st2 := s) end.
  assert (Hsz2 : sz st2 = z').
  { unfold sz, st2, z'; cbn [st_ns st_ss st_ts st_qs]. rewrite !app_length, !upd_length; simpl. f_equal; lia. }
  assert (Hwf2 : wf st2).
  { unfold wf. rewrite Hsz2. split; [|simpl in *; lia]. unfold st2; cbn [st_ns st_ss st_ts st_qs]. repeat split; auto.
    - apply upd_Forall_app.
      + eapply Forall_impl; [|exact Ht]. intros. eapply trap_mono; eauto.
      + unfold trap_wf; simpl in *. repeat split; auto; try (eapply opt_lt_mono; [|eassumption]; lia); lia.
      + unfold trap_wf; simpl in *. repeat split; auto; try (eapply opt_lt_mono; [|eassumption]; lia); lia.
    - apply Forall_app. split.
      + apply upd_Forall_app.
        * eapply Forall_impl; [|exact Hq]. intros. eapply q_mono; eauto.
        * simpl. lia.
        * eapply q_mono; eauto.
      + constructor; auto. simpl. lia. }
  eapply calm_bind.
  { apply seg_loop_calm; auto; rewrite Hsz2; simpl in *; lia. }
  intros [st3 tr] ((Hw3 & G1 & G2 & G3 & G4) & Htr). rewrite Hsz2 in *. simpl in G1, G2, G3, G4, Htr.
  pose proof Hw3 as ((Hn3 & Hs3 & Ht3 & Hq3) & Ht30 & Hq30).
  eapply calm_bind; [apply (add_div_calm (sz st3)); auto; simpl in *; lia|]. intros ns4 (Hw4 & Hl4).
  set (st4 := mkState ns4 (st_ss st3) (st_ts st3) (st_qs st3)).
  assert (Hsz4 : sz st4 = sz st3) by (unfold sz, st4; simpl; now rewrite Hl4).
  assert (Hwf4 : wf st4).
  { unfold wf. rewrite Hsz4. repeat split; auto. }
  cbn [check_consistency bind calm fst snd].
  unfold grow. rewrite Hsz4. split; auto. simpl in *. lia.
Qed.

Lemma add_vertex_at_calm st vls vli c i q :
  wf st -> Forall (vl_wf (sz st)) vls -> nth_error vls vli = Some (Pending c i q) ->
  calm (fun p => let '(st', vls', ni) := p in
          grow 1 0 1 st st' /\ ni = z_n (sz st) /\ vls' = upd vls vli (Inserted c ni) /\ Forall (vl_wf (sz st')) vls')
    (add_vertex_at gv false fuel st vls vli i q).
Proof.
  intros Hw Hv Hn. unfold add_vertex_at.
  assert (Hp : vl_wf (sz st) (Pending c i q)).
  { rewrite Forall_forall in Hv. apply Hv. now apply nth_error_In in Hn. }
  destruct Hp as (Hi & Hq).
  eapply calm_bind; [apply add_vertex_calm; auto|].
  intros [st' ni] (Hg & Hni). cbn [fst snd] in Hg, Hni.
  unfold modify. rewrite Hn. simpl. split; auto. split; auto. split; auto.
  apply Forall_upd.
  - eapply Forall_impl; [|exact Hv]. intros a Ha. eapply (vl_mono okv ieqb gv); [eapply grow_le; exact Hg|exact Ha].
  - cbn [vl_wf]. unfold grow in Hg. lia.
Qed.

Lemma add_two_calm st vls a b ca ia qa cb ib qb :
  wf st -> Forall (vl_wf (sz st)) vls -> a <> b ->
  nth_error vls a = Some (Pending ca ia qa) -> nth_error vls b = Some (Pending cb ib qb) ->
  calm (fun p => let '(st2, vls2, ni0, ni1) := p in
     grow 2 0 2 st st2 /\ Forall (vl_wf (sz st2)) vls2 /\ length vls2 = length vls /\
     npend vls2 + 2 = npend vls /\ ins_mono vls vls2 /\
     (forall x, x = a \/ x = b -> exists v, nth_error vls2 x = Some v /\ is_pending v = false) /\
     ni0 < z_n (sz st2) /\ ni1 < z_n (sz st2))
  (bind (add_vertex_at gv false fuel st vls a ia qa) (fun '(st1, vls1, na) =>
   bind (add_vertex_at gv false fuel st1 vls1 b ib qb) (fun '(st2, vls2, nb) => Ok (st2, vls2, na, nb)))).
Proof.
  intros Hw Hv Hab Ea Eb.
  eapply calm_bind; [apply (add_vertex_at_calm st vls a ca ia qa); auto|].
  intros [[st1 vls1] na] (Hg1 & Hna & Hvls1 & Hwv1).
  assert (Hb1 : nth_error vls1 b = Some (Pending cb ib qb)) by (rewrite Hvls1, nth_upd_ne; auto).
  eapply calm_bind; [apply (add_vertex_at_calm st1 vls1 b cb ib qb); auto; apply Hg1|].
  intros [[st2 vls2] nb] (Hg2 & Hnb & Hvls2 & Hwv2). cbn [bind calm].
  assert (La : a < length vls) by (apply nth_error_Some; congruence).
  assert (Lb : b < length vls) by (apply nth_error_Some; congruence).
  split; [exact (grow_trans okv _ _ _ _ _ _ _ _ _ Hg1 Hg2)|].
  split; auto.
  split. { rewrite Hvls2, upd_length, Hvls1, upd_length. reflexivity. }
  split. { pose proof (npend_upd vls a _ (Inserted ca na) Ea eq_refl eq_refl) as N1. rewrite <- Hvls1 in N1.
           pose proof (npend_upd vls1 b _ (Inserted cb nb) Hb1 eq_refl eq_refl) as N2. rewrite <- Hvls2 in N2. lia. }
  split. { apply (ins_trans _ vls1); [rewrite Hvls1|rewrite Hvls2]; apply ins_upd; reflexivity. }
  split. { intros x [-> | ->].
    - rewrite Hvls2, nth_upd_ne by auto. rewrite Hvls1, nth_upd_eq by auto. eauto.
    - rewrite Hvls2, nth_upd_eq by (rewrite Hvls1, upd_length; auto). eauto. }
  destruct Hg1 as (_ & Hg1), Hg2 as (_ & Hg2). rewrite Hna, Hnb. lia.
Qed.

Lemma add_nth_calm st vls si : wf st -> Forall (vl_wf (sz st)) vls -> 1 < length vls -> si < length vls ->
  calm (fun p => let '(st', vls', added) := p in
          grow added 1 (added + 1) st st' /\ Forall (vl_wf (sz st')) vls' /\ length vls' = length vls /\
          npend vls' + added = npend vls /\ ins_mono vls vls' /\
          exists v, nth_error vls' si = Some v /\ is_pending v = false)
    (add_nth_segment ieqb gv false fuel st vls si).
Proof.
  intros Hw Hv Hlen Hsi0. unfold add_nth_segment. cbv zeta.
  set (vli1 := (si + 1) mod length vls).
  assert (Hvli : vli1 < length vls) by (apply Nat.mod_upper_bound; lia).
  unfold rd at 1. destruct (nth_error vls si) as [vl0|] eqn:E0; cbn [bind]; [|apply nth_error_None in E0; lia].
  unfold rd at 1. destruct (nth_error vls vli1) as [vl1|] eqn:E1; cbn [bind]; [|apply nth_error_None in E1; lia].
  eapply (calm_bind (fun p => let '(st1, vls1, ni0, ni1, added) := p in
     grow added 0 added st st1 /\ Forall (vl_wf (sz st1)) vls1 /\ length vls1 = length vls /\
     npend vls1 + added = npend vls /\ ins_mono vls vls1 /\ (exists v, nth_error vls1 si = Some v /\ is_pending v = false) /\
     ni0 < z_n (sz st1) /\ ni1 < z_n (sz st1))).
  { assert (V0 : vl_wf (sz st) vl0) by (rewrite Forall_forall in Hv; apply Hv; now apply nth_error_In in E0).
    assert (V1 : vl_wf (sz st) vl1) by (rewrite Forall_forall in Hv; apply Hv; now apply nth_error_In in E1).
    assert (L0 : si < length vls) by (apply nth_error_Some; congruence).
    assert (L1 : vli1 < length vls) by (apply nth_error_Some; congruence).
    assert (Hne : si <> vli1).
    { unfold vli1. intros He. destruct (Nat.eq_dec (si + 1) (length vls)) as [Hl|Hl].
      - rewrite Hl, Nat.mod_same in He; lia.
      - rewrite Nat.mod_small in He; lia. }
    destruct vl0 as [c0 i0 q0|c0 n0], vl1 as [c1 i1 q1|c1 n1].
    - destruct (coords_lt c0 c1).
      + pose proof (add_two_calm st vls si vli1 c0 i0 q0 c1 i1 q1 Hw Hv Hne E0 E1) as H.
        destruct (add_vertex_at gv false fuel st vls si i0 q0) as [[[st1 vls1] na]|e|[]]; cbn [bind calm] in *; auto.
        destruct (add_vertex_at gv false fuel st1 vls1 vli1 i1 q1) as [[[st2 vls2] nb]|e|[]]; cbn [bind calm] in *; auto.
        destruct H as (H1 & H2 & H3 & H4 & H5 & H6 & H7 & H8). repeat split; auto; try apply H1.
      + assert (Hne' : vli1 <> si) by auto.
        pose proof (add_two_calm st vls vli1 si c1 i1 q1 c0 i0 q0 Hw Hv Hne' E1 E0) as H.
        destruct (add_vertex_at gv false fuel st vls vli1 i1 q1) as [[[st1 vls1] na]|e|[]]; cbn [bind calm] in *; auto.
        destruct (add_vertex_at gv false fuel st1 vls1 si i0 q0) as [[[st2 vls2] nb]|e|[]]; cbn [bind calm] in *; auto.
        destruct H as (H1 & H2 & H3 & H4 & H5 & H6 & H7 & H8). repeat split; auto; try apply H1.
    - eapply calm_bind; [apply (add_vertex_at_calm st vls si c0 i0 q0); auto|].
      intros [[st1 vls1] na] (Hg1 & Hna & Hvls1 & Hwv1). cbn [bind calm].
      pose proof (npend_upd vls si _ (Inserted c0 na) E0 eq_refl eq_refl) as N1. rewrite <- Hvls1 in N1.
      split; auto. split; auto. split; [now rewrite Hvls1, upd_length|]. split; auto.
      split; [rewrite Hvls1; now apply ins_upd|].
      split; [rewrite Hvls1, nth_upd_eq by auto; eauto|]. cbn [vl_wf] in V1. unfold grow in Hg1. lia.
    - eapply calm_bind; [apply (add_vertex_at_calm st vls vli1 c1 i1 q1); auto|].
      intros [[st1 vls1] na] (Hg1 & Hna & Hvls1 & Hwv1). cbn [bind calm].
      pose proof (npend_upd vls vli1 _ (Inserted c1 na) E1 eq_refl eq_refl) as N1. rewrite <- Hvls1 in N1.
      split; auto. split; auto. split; [now rewrite Hvls1, upd_length|]. split; auto.
      split; [rewrite Hvls1; now apply ins_upd|].
      split; [rewrite Hvls1, nth_upd_ne by auto; eauto|]. cbn [vl_wf] in V0. unfold grow in Hg1. lia.
    - simpl in *. split; [unfold grow; intuition lia|]. split; auto. split; auto. split; [lia|].
      split; [apply ins_refl|]. split; [eauto|]. auto. }
  intros [[[[st1 vls1] ni0] ni1] added] (Hg & Hv1 & Hl1 & Hp & Him & Hsi & Hn0 & Hn1).
  pose proof Hg as (Hw1 & Hg').
  pose proof Hw1 as ((Hns & _ & _ & _) & _ & _).
  eapply calm_bind; [apply (calm_rdu _ _ (nexus_wf (sz st1))); auto|]. intros m0 _.
  eapply calm_bind; [apply (calm_rdu _ _ (nexus_wf (sz st1))); auto|]. intros m1 _.
  eapply (calm_bind (grow 0 1 1 st1)).
  { destruct (coords_lt _ _); apply add_segment_calm; auto. }
  intros st2 Hg2. simpl.
  split. { pose proof (grow_trans okv _ _ _ _ _ _ _ _ _ Hg Hg2) as H. now rewrite Nat.add_0_r in H. }
  split; auto.
  eapply Forall_impl; [|exact Hv1]. intros a Ha. eapply (vl_mono okv ieqb gv); [eapply grow_le; exact Hg2|exact Ha].
Qed.

(** ** Relocation *)

Lemma walk_calm st d c1 c2 k : wf st -> forall ti, ti < z_t (sz st) ->
  calm (fun t => t < z_t (sz st)) (walk k st d c1 c2 ti).
Proof.
  intros ((Hn & Hs & Ht & Hq) & _ & _). induction k as [|k IH]; intros ti Hti; cbn [walk]; [exact Logic.I|].
  eapply calm_bind; [apply (calm_rdu _ _ (trap_wf (sz st))); auto|]. intros t (H1 & H2 & H3 & H4 & H5).
  eapply (calm_bind (fun _ => True)).
  { unfold reached. assert (Ho : opt_lt (match d with Asc => t_u t | Desc => t_d t end) (z_n (sz st))) by (destruct d; auto).
    destruct (match d with Asc => t_u t | Desc => t_d t end); [|exact Logic.I].
    eapply calm_bind; [apply (calm_rd _ _ (nexus_wf (sz st))); auto|]. intros n' _. exact Logic.I. }
  intros [|] _; [exact Hti|].
  eapply (calm_bind (fun ni => ni < z_n (sz st))).
  { unfold ok_or. destruct d; [destruct (t_u t)|destruct (t_d t)]; simpl in *; auto. }
  intros ni Hni.
  eapply calm_bind; [apply (calm_rdu _ _ (nexus_wf (sz st))); auto|]. intros n' Hn'.
  apply IH. now apply (between_lt okv).
Qed.


Lemma relocate_calm st k : wf st -> forall vls un vli loc c,
  Forall (vl_wf (sz st)) vls -> 0 < length vls -> loc_wf (sz st) loc ->
  calm (fun vls' => Forall (vl_wf (sz st)) vls' /\ length vls' = length vls /\ npend vls' = npend vls /\ ins_mono vls vls')
    (relocate fuel k st vls un vli loc c).
Proof.
  intros Hw. pose proof Hw as ((Hn & Hs & Ht & Hq) & _ & _).
  induction k as [|k IH]; intros vls un vli loc c Hv Hlen Hl; cbn [relocate].
  - destruct un; simpl; auto. repeat split; auto using ins_refl.
  - destruct un; [simpl; repeat split; auto using ins_refl|].
    set (v := (vli + 1) mod length vls).
    unfold rd. destruct (nth_error vls v) as [[ct i q|ct ni]|] eqn:Ev; cbn [bind];
      [| |apply nth_error_None in Ev; assert (v < length vls) by (apply Nat.mod_upper_bound; lia); lia].
    + eapply (calm_bind (fun t => t < z_t (sz st))).
      { destruct loc as [ni|ti]; [|exact Hl].
        eapply calm_bind; [apply (calm_rdu _ _ (nexus_wf (sz st))); auto|]. intros n' Hn'.
        apply toward_calm; auto. }
      intros ti0 Hti0.
      eapply calm_bind; [apply walk_calm; eauto|]. intros ti Hti.
      eapply calm_bind; [apply (calm_rdu _ _ (trap_wf (sz st))); auto|]. intros t (H1 & H2 & H3 & H4 & H5).
      assert (Hvp : vl_wf (sz st) (Pending ct i q)) by (rewrite Forall_forall in Hv; apply Hv; now apply nth_error_In in Ev).
      eapply calm_weaken; [|apply IH; simpl; auto].
      * intros vls' (A1 & A2 & A3 & A4). rewrite upd_length in A2.
        rewrite (npend_upd_same vls v _ _ Ev) in A3 by reflexivity.
        repeat split; auto. eapply ins_trans; [|exact A4]. eapply ins_upd_pending; eauto.
      * apply Forall_upd; auto. simpl. split; [apply Hvp|auto].
      * rewrite upd_length. exact Hlen.
    + assert (Hvp : vl_wf (sz st) (Inserted ct ni)) by (rewrite Forall_forall in Hv; apply Hv; now apply nth_error_In in Ev).
      eapply calm_bind; [apply (calm_rdu _ _ (nexus_wf (sz st))); auto|]. intros n' Hn'.
      apply IH; auto.
Qed.

Lemma polygon_loop_calm math_n len : forall order i st vls pending uc nu,
  wf st -> Forall (vl_wf (sz st)) vls -> 1 < length vls ->
  (forall vi, In vi order -> vi < length vls) -> pending = npend vls ->
  calm (fun p => let '(st', vls') := p in
    grow (npend vls - npend vls') (length order) (npend vls - npend vls' + length order) st st' /\
    length vls' = length vls /\ npend vls' <= npend vls /\ ins_mono vls vls' /\
    (forall vi, In vi order -> exists v, nth_error vls' vi = Some v /\ is_pending v = false))
  (polygon_loop ieqb gv false fuel math_n len order i st vls pending uc nu).
Proof.
  induction order as [|vi order IH]; intros i st vls pending uc nu Hw Hv Hl Ho Hp; cbn [polygon_loop].
  { simpl. rewrite Nat.sub_diag. repeat split; auto using ins_refl; try apply Hw; try lia; try contradiction. }
  eapply calm_bind; [apply (add_nth_calm st vls vi); auto; apply Ho; now left|].
  intros [[st1 vls1] added] (Hg1 & Hv1 & Hl1 & Hp1 & Hm1 & Hi1). cbv zeta.
  assert (Hw1 : wf st1) by apply Hg1.
  assert (K : forall vls2 uc nu, Forall (vl_wf (sz st1)) vls2 -> length vls2 = length vls1 -> npend vls2 = npend vls1 ->
    ins_mono vls1 vls2 ->
    calm (fun p => let '(st', vls') := p in
    grow (npend vls - npend vls') (length (vi :: order)) (npend vls - npend vls' + length (vi :: order)) st st' /\
    length vls' = length vls /\ npend vls' <= npend vls /\ ins_mono vls vls' /\
    (forall x, In x (vi :: order) -> exists v, nth_error vls' x = Some v /\ is_pending v = false))
    (polygon_loop ieqb gv false fuel math_n len order (i + 1) st1 vls2 (pending - added) uc nu)).
  { intros vls2 uc' nu' Hv2 Hl2 Hp2 Hm2.
    eapply calm_weaken; [|apply (IH (i + 1) st1 vls2 (pending - added) uc' nu'); auto; try lia].
    2: { intros x Hx. rewrite Hl2, Hl1. apply Ho. now right. }
    intros [st' vls'] (Hg' & Hl' & Hp' & Hm' & Hi').
    split. { unfold grow in *. simpl length. intuition lia. }
    split; [lia|]. split; [lia|].
    assert (Hm12 : ins_mono vls1 vls') by (eapply ins_trans; eauto).
    split; [eapply ins_trans; eauto|].
    intros x [<-|Hx]; [|auto]. destruct Hi1 as (v & Hv' & Hpv). apply (Hm12 vi v); auto. }
  destruct (i =? nu).
  - eapply calm_bind.
    { apply (relocate_calm st1 fuel Hw1 vls1 (pending - added) vi (LNexus 0) coords_zero); auto; [lia|].
      simpl. destruct Hi1 as (v & Hv' & Hpv).
      assert (Hvv : vl_wf (sz st1) v) by (rewrite Forall_forall in Hv1; apply Hv1; now apply nth_error_In in Hv').
      destruct v as [c' i' q'|c' n']; simpl in *; [discriminate|]. lia. }
    intros vls2 (A1 & A2 & A3 & A4). apply K; auto.
  - apply K; auto using ins_refl.
Qed.

Lemma add_polygon_calm math_n order st vls :
  wf st -> Forall (vl_wf (sz st)) vls -> 1 < length vls -> (forall vi, In vi order -> vi < length vls) -> npend vls = length vls ->
  calm (fun p => wf (fst p)) (add_polygon ieqb gv false fuel math_n order st vls).
Proof.
  intros Hw Hv Hl Ho Hp. unfold add_polygon.
  eapply calm_weaken; [|apply polygon_loop_calm; auto].
  intros [st' vls'] (Hg & _). apply Hg.
Qed.

Lemma build_loop_calm math_n shuf : (forall k n, Permutation (shuf k n) (seq 0 n)) -> forall elems k st vl,
  (forall i, In (Continue i) elems -> okv i) -> wf st -> fresh vl ->
  calm wf (build_loop ieqb gv false fuel math_n shuf elems k st vl).
Proof.
  intros Hshuf. induction elems as [|[i|] elems IH]; intros k st vl He Hw Hf; cbn [build_loop]; auto.
  - apply IH; auto.
    + intros j Hj. apply He. now right.
    + apply Forall_app. split; auto. constructor; auto. exists i. split; auto. apply He. now left.
  - assert (He' : forall i, In (Continue i) elems -> okv i) by (intros j Hj; apply He; now right).
    cbv zeta. destruct (0 <? length vl); [|apply IH; auto].
    destruct (Nat.ltb_spec (length vl) 3); [exact Logic.I|].
    eapply (calm_bind (fun p => wf (fst p))).
    { pose proof (add_polygon_calm math_n (shuf k (length vl)) st vl Hw (fresh_wf _ _ _ _ Hw Hf)) as G.
      assert (Ho : forall vi, In vi (shuf k (length vl)) -> vi < length vl).
      { intros vi Hvi. apply (Permutation_in vi (Hshuf _ _)) in Hvi. apply in_seq in Hvi. lia. }
      specialize (G ltac:(lia) Ho (fresh_npend _ _ _ Hf)).
      destruct (add_polygon _ _ _ _ _ _ _ _) as [p|e|[]]; exact G. }
    intros [st' vls'] Hw'. apply IH; auto. constructor.
Qed.

Lemma trapezoidize_calm math_n shuf elems : (forall k n, Permutation (shuf k n) (seq 0 n)) ->
  (forall i, In (Continue i) elems -> okv i) ->
  calm wf (trapezoidize ieqb gv false fuel math_n shuf elems).
Proof.
  intros Hs He. apply build_loop_calm; auto using wf_new; [|constructor].
  intros i Hi. apply in_app_or in Hi. destruct Hi as [Hi|[Hi|[]]]; auto. discriminate.
Qed.

End Ins.
End Panics.
