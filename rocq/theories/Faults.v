(** The internal errors that a run can report, for arbitrary coordinates and input: the number of segments at every
    nexus, and the errors of the trapezoidation. *)
From Coq Require Import List Arith Bool Lia Permutation.
From Verif Require Import Base Coord Trap.
Import ListNotations.

(** The run ends with a value in [Q], an error in [W] or a crash. *)
Definition fine {E A} (W : E -> Prop) (Q : A -> Prop) (r : res E A) : Prop :=
  match r with Ok a => Q a | Err e => W e | Crash _ => True end.

Lemma fine_bind {E A B} {W : E -> Prop} (Q : A -> Prop) (R : B -> Prop) r f :
  fine W Q r -> (forall a, Q a -> fine W R (f a)) -> fine W R (bind r f).
Proof. destruct r; simpl; auto. Qed.

Lemma fine_weaken {E A} {W : E -> Prop} (Q R : A -> Prop) r : (forall a, Q a -> R a) -> fine W Q r -> fine W R r.
Proof. destruct r; simpl; auto. Qed.

Lemma fine_rd {E A} {W : E -> Prop} (l : list A) i : fine W (fun a => nth_error l i = Some a) (rd l i).
Proof. unfold rd. destruct (nth_error l i) eqn:H; simpl; auto. Qed.

Lemma fine_rdu {E A} {W : E -> Prop} (l : list A) i : fine W (fun a => nth_error l i = Some a) (rdu l i).
Proof. unfold rdu. destruct (nth_error l i) eqn:H; simpl; auto. Qed.

Lemma fine_modify {E A} {W : E -> Prop} (l : list A) i f (Q : A -> A -> Prop) : (forall a, nth_error l i = Some a -> fine W (Q a) (f a)) ->
  fine W (fun l' => exists a b, nth_error l i = Some a /\ Q a b /\ l' = upd l i b) (modify l i f).
Proof.
  intros H. unfold modify. destruct (nth_error l i) as [a|] eqn:Ha; simpl; auto. specialize (H a eq_refl).
  destruct (f a) as [b|e|c]; simpl in *; auto. eauto.
Qed.

Section Faults.
Context {C : Type} {OC : CoordOps C} {I : Type}.
Notation nexus := (nexus C I).
Notation state := (state C I).
Notation vloc := (vloc C I).
(** Whether no index is used twice. *)
Context {U : Prop}.

(** What the trapezoidation can report. *)
Definition may (e : ierr) : Prop := match e with IE_NotConnected | IE_MinNotFound | IE_NoMatchingSide => True | IE_SegNexus => ~ U | _ => False end.

Definition size {A} (z : zot A) : nat := match z with Zero => 0 | One _ => 1 | Two _ _ => 2 end.
Definition deg (ns : list nexus) (i : nat) : nat := match nth_error ns i with Some n => size (n_div n) | None => 0 end.
Definition ident (ns : list nexus) (i : nat) : option I := option_map n_v (nth_error ns i).
Definition same (ns ns' : list nexus) : Prop := length ns' = length ns /\ forall i, deg ns' i = deg ns i /\ ident ns' i = ident ns i.
Definition apart (ns : list nexus) : Prop := U -> forall i j v, ident ns i = Some v -> ident ns j = Some v -> i = j.

Lemma same_refl ns : same ns ns.
Proof. split; auto. Qed.
Lemma same_trans a b c : same a b -> same b c -> same a c.
Proof. intros (H1 & H2) (H3 & H4). split; [congruence|]. intros i. destruct (H2 i), (H4 i). split; congruence. Qed.
Lemma same_apart a b : same a b -> apart a -> apart b.
Proof. intros (_ & H) Ha u i j v Hi Hj. apply (Ha u i j v); [rewrite <- Hi|rewrite <- Hj]; symmetry; apply H. Qed.

Lemma same_upd ns i n n' : nth_error ns i = Some n -> n_v n' = n_v n -> size (n_div n') = size (n_div n) -> same ns (upd ns i n').
Proof.
  intros Hn Hv Hd. split; [apply upd_length|]. intros j. unfold deg, ident. destruct (Nat.eq_dec i j) as [<-|Hj].
  - rewrite nth_upd_eq by (apply nth_error_Some; congruence). rewrite Hn. cbn. now rewrite Hv, Hd.
  - rewrite nth_upd_ne by auto. auto.
Qed.

Lemma replace_fine old new (n : nexus) : fine may (fun n' => n_v n' = n_v n /\ size (n_div n') = size (n_div n)) (replace_trapezoid old new n).
Proof.
  unfold replace_trapezoid. destruct (n_ul n =? old); [simpl; auto|]. destruct (n_dl n =? old); [simpl; auto|].
  destruct (n_div n) as [|a|a b]; simpl; auto; destruct (d_r a =? old); simpl; auto. destruct (d_r b =? old); simpl; auto.
Qed.

Lemma modify_fine (ns : list nexus) i old new : fine may (same ns) (modify ns i (replace_trapezoid old new)).
Proof.
  eapply fine_weaken; [|apply (fine_modify _ _ _ (fun n n' => n_v n' = n_v n /\ size (n_div n') = size (n_div n)))].
  - intros l' (a & b & Ha & (Hv & Hd) & ->). now apply same_upd with a.
  - intros a _. apply replace_fine.
Qed.

Lemma all_fine {A} (W : ierr -> Prop) (l : list A) f : (forall a, fine W (fun _ : unit => True) (f a)) -> fine W (fun _ => True) (for_all l f).
Proof. intros H. induction l as [|a l IH]; cbn [for_all]; [exact Logic.I|]. eapply fine_bind; [apply H|]. intros _ _. exact IH. Qed.

Lemma assert_fine (W : ierr -> Prop) b : fine W (fun _ : unit => True) (assert b).
Proof. now destruct b. Qed.

Lemma check_fine dbg fuel (st : state) : fine may (fun _ => True) (check_consistency dbg fuel st).
Proof.
  unfold check_consistency. destruct dbg; [|exact Logic.I]. eapply fine_bind; [apply all_fine; intros a; unfold check_nexus|intros _ _].
  { eapply fine_bind; [apply fine_rdu|]. intros n _. eapply fine_bind; [apply all_fine|intros _ _; apply all_fine];
    intros t; (eapply fine_bind; [apply fine_rdu|]); intros x _; apply assert_fine. }
  eapply fine_bind; [apply all_fine; intros a; unfold check_trapezoid|intros _ _].
  { eapply fine_bind; [apply fine_rdu|]. intros t _. eapply (fine_bind (fun _ => True)).
    { destruct (t_d t); [|exact Logic.I]. eapply fine_bind; [apply fine_rdu|]. intros x _; apply assert_fine. }
    intros _ _. eapply (fine_bind (fun _ => True)).
    { destruct (t_u t); [|exact Logic.I]. eapply fine_bind; [apply fine_rdu|]. intros x _; apply assert_fine. }
    intros _ _. eapply fine_bind; [apply fine_rdu|]. intros q _. destruct q; [exact Logic.I|apply assert_fine]. }
  generalize 0. induction fuel as [|k IH]; intros qi; cbn [check_query]; [exact Logic.I|]. eapply fine_bind; [apply fine_rdu|]. intros q _.
  destruct q; [eapply fine_bind; [apply IH|intros _ _; apply IH]|eapply fine_bind; [apply fine_rdu|intros _ _; exact Logic.I]].
Qed.

Lemma find_fine fuel (qs : list (qnode C)) c qi : fine may (fun _ => True) (find fuel qs c qi).
Proof.
  revert qi. induction fuel as [|k IH]; intros qi; cbn [find]; [exact Logic.I|]. eapply fine_bind; [apply fine_rdu|]. intros q _. destruct q; [apply IH|exact Logic.I].
Qed.

Variable ieqb : I -> I -> bool.
Hypothesis Hieq : U -> forall a b, ieqb a b = true <-> a = b.
Variable gv : I -> coords C.
Variable dbg : bool.
Variable fuel : nat.

Lemma down_fine (ns : list nexus) ss s i n : apart ns -> nth_error ns i = Some n -> i <> s_min s -> fine may (fun _ => True) (get_down_trapezoid ieqb ns ss s n).
Proof.
  intros Ha Hn Hi. unfold get_down_trapezoid.
  destruct (filter_dividers n Desc) as [|d|a d]; [exact Logic.I| |];
  (eapply fine_bind; [apply fine_rd|]; intros n_min Hm; destruct (ieqb (n_v n_min) (n_v n)) eqn:He;
   [intros u; apply (Hieq u) in He; apply Hi; apply (Ha u i (s_min s) (n_v n)); unfold ident; [now rewrite Hn|rewrite Hm; cbn; congruence]|];
   eapply fine_bind; [apply fine_rd|]; intros n_max _; eapply (fine_bind (fun _ => True));
   [clear He; destruct (ieqb _ _); [|exact Logic.I]; eapply fine_bind; [apply fine_rd|]; intros sr _; eapply fine_bind; [apply fine_rd|]; intros nr _; exact Logic.I
   |intros c _; exact Logic.I]).
Qed.

Lemma add_vertex_fine (st : state) vi qi : fine may (fun p => snd p = length (st_ns st) /\ same (st_ns st ++ [nexus_new vi (gv vi) 0 0]) (st_ns (fst p)) /\ st_ss (fst p) = st_ss st)
  (add_vertex gv dbg fuel st vi qi).
Proof.
  unfold add_vertex. eapply fine_bind; [apply find_fine|]. intros [qp ti] _. eapply fine_bind; [apply fine_rd|]. intros ql _. eapply fine_bind; [apply fine_rd|]. intros t _.
  unfold split_horizontal. cbn [t_u].
  assert (S0 : forall a b, same (st_ns st ++ [nexus_new vi (gv vi) 0 0]) (st_ns st ++ [nexus_new vi (gv vi) a b])).
  { intros a b. split; [now rewrite !app_length|]. intros i. unfold deg, ident. destruct (Nat.lt_ge_cases i (length (st_ns st))).
    - rewrite !nth_error_app1 by auto. auto.
    - rewrite !nth_error_app2 by auto. destruct (i - length (st_ns st)) as [|[|k]]; cbn; auto. }
  eapply (fine_bind (fun ns2 => same (st_ns st ++ [nexus_new vi (gv vi) 0 0]) ns2)).
  { match goal with |- context [match ?o with Some _ => _ | None => _ end] => destruct o end; [|apply S0].
    eapply fine_weaken; [|apply modify_fine]. intros l Hl. eapply same_trans; [apply S0|exact Hl]. }
  intros ns2 H2. eapply fine_bind; [apply check_fine|]. intros _ _. cbn. auto.
Qed.

Lemma seg_loop_fine k : forall (st : state) si nmin c1 c2 ni tl tr s, apart (st_ns st) -> nth_error (st_ss st) si = Some s -> s_min s = nmin ->
  fine may (fun p => same (st_ns st) (st_ns (fst p)) /\ st_ss (fst p) = st_ss st) (seg_loop ieqb k st si nmin c1 c2 ni tl tr).
Proof.
  induction k as [|k IH]; intros st si nmin c1 c2 ni tl tr s Ha Hs Hm; cbn [seg_loop]; [exact Logic.I|].
  destruct (Nat.eqb_spec ni nmin) as [|Hne]; [cbn; auto using same_refl|].
  eapply fine_bind; [apply fine_rdu|]. intros n Hn. eapply fine_bind; [apply fine_rdu|]. intros s' Hs'. assert (s' = s) by congruence. subst s'.
  eapply fine_bind; [apply (down_fine _ _ _ ni); auto; congruence|]. intros ti _.
  eapply fine_bind; [apply fine_rdu|]. intros t _. eapply (fine_bind (fun _ => True)); [destruct (t_d t); exact Logic.I|]. intros ni' _.
  eapply fine_bind; [apply fine_rdu|]. intros tu _. eapply fine_bind; [apply fine_rdu|]. intros tv _. cbv zeta.
  assert (G : forall ns1 ts qs x y, same (st_ns st) ns1 ->
    fine may (fun p => same (st_ns st) (st_ns (fst p)) /\ st_ss (fst p) = st_ss st) (seg_loop ieqb k (mkState ns1 (st_ss st) ts qs) si nmin c1 c2 ni' x y)).
  { intros ns1 ts qs x y H1. eapply fine_weaken; [|apply IH with s; auto; eapply same_apart; eauto]. intros p (P1 & P2). cbn [st_ns st_ss] in *. split; auto. eapply same_trans; eauto. }
  assert (M : forall (l : list trap) i (f : trap -> trap), fine may (fun _ => True) (modify l i (fun t => Ok (f t)))).
  { intros l i f. unfold modify. destruct (nth_error l i); exact Logic.I. }
  destruct (onat_eqb _ _); [|destruct (onat_eqb _ _); [|exact Logic.I]].
  - eapply fine_bind; [apply fine_rd|]. intros q _. eapply fine_bind; [apply M|]. intros ts1 _. eapply fine_bind; [apply M|]. intros ts2 _.
    eapply (fine_bind (same (st_ns st))); [|intros ns1 H1; now apply G]. destruct (negb _); [|apply same_refl]. eapply fine_bind; [apply fine_rdu|]. intros n' _.
    destruct (negb _); [apply modify_fine|apply same_refl].
  - eapply fine_bind; [apply fine_rd|]. intros q _. eapply fine_bind; [apply M|]. intros ts1 _. eapply fine_bind; [apply M|]. intros ts2 _.
    eapply (fine_bind (fun _ => True)). { destruct (Nat.eqb _ _); [exact Logic.I|]. eapply fine_bind; [apply fine_rdu|]. intros n' _. exact Logic.I. }
    intros ol _. eapply (fine_bind (same (st_ns st))); [|intros ns1 H1; now apply G]. destruct ol; [apply modify_fine|apply same_refl].
Qed.

(** One more segment at nexus [i]. *)
Definition plus (ns : list nexus) (i : nat) (ns' : list nexus) : Prop :=
  length ns' = length ns /\ forall j, deg ns' j = deg ns j + (if Nat.eqb j i then 1 else 0) /\ ident ns' j = ident ns j.

Lemma add_div_fine (ns : list nexus) ss ni si tr s : nth_error ss si = Some s -> ni = s_min s \/ ni = s_max s -> deg ns ni <= 1 ->
  fine may (plus ns ni) (nexus_add_segment ns ss ni si tr).
Proof.
  intros Hs Hn Hd. unfold nexus_add_segment. eapply (fine_bind (fun _ => True)).
  { unfold get_segment_direction. eapply fine_bind; [apply fine_rd|]. intros s' Hs'. assert (s' = s) by congruence. subst s'.
    destruct (Nat.eqb_spec ni (s_max s)); [exact Logic.I|]. destruct (Nat.eqb_spec ni (s_min s)); [exact Logic.I|]. tauto. }
  intros d _. cbv zeta. eapply fine_bind; [apply fine_rd|]. intros n Hni. unfold deg in Hd. rewrite Hni in Hd.
  eapply (fine_bind (fun z => size z = S (size (n_div n)))).
  { destruct (n_div n) as [|a|a b]; [reflexivity| |cbn in Hd; lia]. eapply (fine_bind (fun _ => True)).
    - destruct (dir_eqb _ _); [|exact Logic.I]. eapply fine_bind; [apply fine_rd|]. intros s0 _. eapply fine_bind; [apply fine_rd|]. intros s1 _.
      eapply fine_bind; [apply fine_rd|]. intros n1 _. exact Logic.I.
    - intros [|] _; reflexivity. }
  intros z Hz. cbn [fine]. split; [apply upd_length|]. intros j. unfold deg, ident. destruct (Nat.eqb_spec j ni) as [->|Hj].
  - rewrite nth_upd_eq by (apply nth_error_Some; congruence). rewrite Hni. cbn. split; [lia|auto].
  - rewrite nth_upd_ne by auto. split; [lia|auto].
Qed.

Lemma add_segment_fine (st : state) nmin nmax c1 c2 : apart (st_ns st) -> nmin <> nmax -> deg (st_ns st) nmin <= 1 -> deg (st_ns st) nmax <= 1 ->
  fine may (fun st' => exists ns, plus (st_ns st) nmax ns /\ plus ns nmin (st_ns st')) (add_segment ieqb dbg fuel st nmin nmax c1 c2).
Proof.
  intros Ha Hne D1 D2. unfold add_segment. cbv zeta. set (ss1 := st_ss st ++ [mkSeg nmin nmax c1 c2]).
  assert (Hs : nth_error ss1 (length (st_ss st)) = Some (mkSeg nmin nmax c1 c2)) by (unfold ss1; rewrite nth_error_app2, Nat.sub_diag; auto).
  eapply fine_bind; [apply fine_rdu|]. intros nM HM. eapply fine_bind; [apply fine_rdu|]. intros s Hs'. assert (s = mkSeg nmin nmax c1 c2) by congruence. subst s. clear Hs'.
  eapply fine_bind; [apply (down_fine _ _ _ nmax); auto; cbn; congruence|]. intros ti _. eapply fine_bind; [apply fine_rdu|]. intros t _. eapply fine_bind; [apply fine_rd|]. intros ql _.
  unfold split_vertical, set_sink. cbn [t_l t_r t_d t_u t_k].
  eapply fine_bind; [apply (add_div_fine _ _ _ _ _ _ Hs); cbn; auto|]. intros ns1 H1.
  eapply (fine_bind (fun _ => True)); [destruct (t_d t); exact Logic.I|]. intros ni _. eapply fine_bind; [apply fine_rdu|]. intros n _.
  eapply (fine_bind (same ns1)). { destruct (_ && _); [apply modify_fine|apply same_refl]. }
  intros ns2 H2.
  assert (A2 : apart ns2). { apply (same_apart ns1); auto. intros u i j v Hi Hj. apply (Ha u i j v); [rewrite <- Hi|rewrite <- Hj]; symmetry; apply H1. }
  eapply fine_bind; [apply (seg_loop_fine fuel) with (s := mkSeg nmin nmax c1 c2); cbn [st_ns st_ss]; auto|].
  intros [st3 tr] (H3 & H4). cbn [fst st_ns st_ss] in *. rewrite H4.
  eapply fine_bind; [apply (add_div_fine _ _ _ _ _ _ Hs); cbn; auto|].
  - destruct H3 as (_ & H3). destruct (H3 nmin) as (-> & _). destruct H2 as (_ & H2). destruct (H2 nmin) as (-> & _). destruct H1 as (_ & H1). destruct (H1 nmin) as (-> & _).
    destruct (Nat.eqb_spec nmin nmax); [congruence|lia].
  - intros ns4 H5. eapply fine_bind; [apply check_fine|]. intros _ _. cbn [fine st_ns]. exists ns1. split; auto.
    destruct H5 as (L5 & H5), H3 as (L3 & H3), H2 as (L2 & H2). split; [congruence|]. intros j. destruct (H5 j), (H3 j), (H2 j). split; [lia|congruence].
Qed.
End Faults.
Arguments may U e : clear implicits.
Arguments apart {C I} U ns.
