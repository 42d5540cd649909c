(** The trapezoid above everything is never split by a segment, for arbitrary coordinates: [top_trapezoid] finds it. *)
From Coq Require Import List Arith Bool Lia.
From Verif Require Import Base Coord Trap Tri Faults Ends.
Import ListNotations.

Section Top.
Context {C : Type} {OC : CoordOps C} {I : Type}.
Notation nexus := (nexus C I).
Notation state := (state C I).
Notation qnode := (qnode C).
Notation downs x := (iter_trapezoids (C := C) (I := I) x Desc).
Notation any := (fun _ : ierr => True).

Definition up (ts : list trap) (t : nat) : Prop := exists y n, nth_error ts t = Some y /\ t_u y = Some n.

(** Right of horizontal nodes only, down to the node of trapezoid [t]. *)
Inductive top_at (qs : list qnode) (t : nat) : nat -> Prop :=
| top_sink q : nth_error qs q = Some (QSink t) -> top_at qs t q
| top_y q l r c : nth_error qs q = Some (QBranch l r (QY c)) -> top_at qs t r -> top_at qs t q.

Definition sb (ts : list trap) (qs : list qnode) : Prop :=
  (forall t y, nth_error ts t = Some y -> nth_error qs (t_k y) = Some (QSink t)) /\
  (forall q t, nth_error qs q = Some (QSink t) -> exists y, nth_error ts t = Some y /\ t_k y = q).

Definition topped (ts : list trap) (qs : list qnode) : Prop := exists t y, top_at qs t 0 /\ nth_error ts t = Some y /\ t_u y = None.

Definition below (ns : list nexus) (ts : list trap) : Prop := forall n x t, nth_error ns n = Some x -> In t (downs x) -> up ts t.

Record crown (st : state) : Prop := { cr_sb : sb (st_ts st) (st_qs st); cr_top : topped (st_ts st) (st_qs st); cr_dn : below (st_ns st) (st_ts st) }.

Lemma replace_in old new (x x' : nexus) : replace_trapezoid old new x = Ok x' -> forall t, In t (downs x') -> t = new \/ In t (downs x).
Proof.
  unfold replace_trapezoid, iter_trapezoids, filter_dividers. destruct x as [v c ul dl dv]. cbn [n_v n_c n_ul n_dl n_div first_trapezoid]. intros Hr t.
  destruct (Nat.eqb_spec ul old). { injection Hr as <-. cbn [n_dl n_div first_trapezoid]. auto. }
  destruct (Nat.eqb_spec dl old). { injection Hr as <-. cbn [n_dl n_div first_trapezoid]. simpl. intuition auto. }
  destruct dv as [|[s0 r0 d0]|[s0 r0 d0] [s1 r1 d1]]; cbn [d_r] in Hr; [discriminate| |].
  - destruct (Nat.eqb_spec r0 old); [|discriminate]. injection Hr as <-. destruct d0; simpl; intuition auto.
  - destruct (Nat.eqb_spec r0 old); [|destruct (Nat.eqb_spec r1 old); [|discriminate]]; injection Hr as <-; destruct d0, d1; simpl; intuition auto.
Qed.

Lemma below_modify ns ts i old new : below ns ts -> up ts new -> fine any (fun ns' => below ns' ts) (modify ns i (replace_trapezoid old new)).
Proof.
  intros Hb Hu. unfold modify. destruct (nth_error ns i) as [x|] eqn:Ex; [|exact Logic.I]. destruct (replace_trapezoid old new x) as [x'|e|c] eqn:Er; cbn [fine]; auto.
  intros n z t Hn Ht. apply nth_upd_inv in Hn. destruct Hn as [(_ & Hn)|(-> & -> & _)]; [eauto|]. destruct (replace_in _ _ _ _ Er t Ht) as [->|H]; eauto.
Qed.

(** [ts'] differs from [ts] in nothing that matters, except that the node of [ti] is [k]. *)
Definition moved (ti k : nat) (ts ts' : list trap) : Prop := forall j,
  match nth_error ts j, nth_error ts' j with
  | Some y, Some y' => t_k y' = (if Nat.eqb j ti then k else t_k y)
  | None, None => True
  | _, _ => False
  end.
Definition kept (ts ts' : list trap) : Prop := forall j y, nth_error ts j = Some y -> exists y', nth_error ts' j = Some y' /\ t_u y' = t_u y.

Lemma kept_up ts ts' t : kept ts ts' -> up ts t -> up ts' t.
Proof. intros H (y & n & Hy & Hn). destruct (H _ _ Hy) as (y' & Hy' & E). exists y', n. split; auto. congruence. Qed.
Lemma kept_below ns ts ts' : kept ts ts' -> below ns ts -> below ns ts'.
Proof. intros H Hb n x t Hn Ht. apply (kept_up ts); eauto. Qed.
Lemma kept_trans a b c : kept a b -> kept b c -> kept a c.
Proof. intros H1 H2 j y Hy. destruct (H1 _ _ Hy) as (y' & A & B). destruct (H2 _ _ A) as (z & D & E). exists z. split; auto. congruence. Qed.

Lemma sb_step ts qs ti t ts' a b br : sb ts qs -> nth_error ts ti = Some t -> moved ti (length qs) ts ts' -> sb ts' (upd qs (t_k t) (QBranch a b br) ++ [QSink ti]).
Proof.
  intros (S1 & S2) Ht Hm. assert (Hq := S1 _ _ Ht). assert (Lq : t_k t < length qs) by (apply nth_error_Some; congruence). split.
  - intros j y' Hy'. specialize (Hm j). rewrite Hy' in Hm. destruct (nth_error ts j) as [y|] eqn:Hy; [|destruct Hm]. rewrite Hm. destruct (Nat.eqb_spec j ti) as [->|Hne].
    + rewrite nth_error_app2 by (rewrite upd_length; auto). now rewrite upd_length, Nat.sub_diag.
    + apply nth_app_l. rewrite nth_upd_ne; [now apply S1|]. intros E. rewrite E, (S1 _ _ Hy) in Hq. congruence.
  - intros q j Hj. apply nth_snoc_inv in Hj. rewrite upd_length in Hj. destruct Hj as [(Hj & _)|(-> & [= ->])].
    + apply nth_upd_inv in Hj. destruct Hj as [(Hne & Hj)|(_ & E & _)]; [|discriminate]. destruct (S2 _ _ Hj) as (y & Hy & Ek). specialize (Hm j). rewrite Hy in Hm.
      destruct (nth_error ts' j) as [y'|] eqn:Hy'; [|destruct Hm]. exists y'. split; auto. rewrite Hm. destruct (Nat.eqb_spec j ti) as [->|]; auto. exfalso. apply Hne. congruence.
    + specialize (Hm ti). rewrite Ht, Nat.eqb_refl in Hm. destruct (nth_error ts' ti) as [y'|]; [|destruct Hm]. eauto.
Qed.

Lemma sb_snoc ts qs y : sb ts qs -> t_k y = length qs -> sb (ts ++ [y]) (qs ++ [QSink (length ts)]).
Proof.
  intros (S1 & S2) Hk. split.
  - intros t z Hz. apply nth_snoc_inv in Hz. destruct Hz as [(Hz & _)|(-> & ->)]; [now apply nth_app_l, S1|]. rewrite Hk. apply nth_snoc.
  - intros q t Hq. apply nth_snoc_inv in Hq. destruct Hq as [(Hq & _)|(-> & [= ->])]; [destruct (S2 _ _ Hq) as (z & Hz & E); exists z; split; auto; now apply nth_app_l|]. exists y. split; auto. apply nth_snoc.
Qed.

Lemma top_step qs s ti br ext t q : nth_error qs s = Some (QSink ti) -> ti <> t -> top_at qs t q -> top_at (upd qs s br ++ ext) t q.
Proof.
  intros Hs Hne. induction 1 as [q Hq|q l r c Hq _ IH].
  - apply top_sink. apply nth_app_l. rewrite nth_upd_ne; auto. congruence.
  - apply top_y with l r c; auto. apply nth_app_l. rewrite nth_upd_ne; auto. congruence.
Qed.
Lemma top_app qs ext t q : top_at qs t q -> top_at (qs ++ ext) t q.
Proof. induction 1 as [q Hq|q l r c Hq _ IH]; [apply top_sink; now apply nth_app_l|apply top_y with l r c; auto; now apply nth_app_l]. Qed.

Lemma topped_step ts qs ti t ts' br : sb ts qs -> nth_error ts ti = Some t -> up ts ti -> kept ts ts' -> topped ts qs -> topped ts' (upd qs (t_k t) br ++ [QSink ti]).
Proof.
  intros (S1 & S2) Ht (y & n & Hy & Hn) Hk (tt & z & T1 & T2 & T3). destruct (Hk _ _ T2) as (z' & Hz' & E). exists tt, z'. split; [|split; [auto|congruence]].
  apply top_step with ti; auto. intros ->. congruence.
Qed.

Lemma kept_upd ts i y y' : nth_error ts i = Some y -> t_u y' = t_u y -> kept ts (upd ts i y').
Proof.
  intros Hy Hu j z Hz. destruct (Nat.eq_dec i j) as [<-|Hne]; [exists y'; rewrite nth_upd_eq by (apply nth_error_Some; congruence); split; auto; congruence|].
  exists z. rewrite nth_upd_ne; auto.
Qed.
Lemma kept_snoc ts y : kept ts (ts ++ [y]).
Proof. intros j z Hz. exists z. split; auto. now apply nth_app_l. Qed.

Lemma moved_upd ts ti t k : nth_error ts ti = Some t -> t_k t = k -> forall (ts0 : list trap), (forall j, j <> ti -> nth_error ts j = nth_error ts0 j) -> (exists y, nth_error ts0 ti = Some y) -> moved ti k ts0 ts.
Proof.
  intros Ht Hk ts0 H (y & Hy) j. destruct (Nat.eqb_spec j ti) as [->|Hne]; [now rewrite Hy, Ht|]. rewrite H by auto. now destruct (nth_error ts0 j).
Qed.
Lemma moved_after ti k ts ts' i y y' : moved ti k ts ts' -> nth_error ts' i = Some y -> t_k y' = t_k y -> moved ti k ts (upd ts' i y').
Proof.
  intros H Hy Hk j. specialize (H j). destruct (Nat.eq_dec i j) as [<-|Hne].
  - rewrite nth_upd_eq by (apply nth_error_Some; congruence). rewrite Hy in H. destruct (nth_error ts i); auto. congruence.
  - rewrite nth_upd_ne by auto. exact H.
Qed.

Variable ieqb : I -> I -> bool.
Variable gv : I -> coords C.
Variable dbg : bool.
Variable fuel : nat.

Lemma down_any ns ss s (x : nexus) : fine any (fun ti => In ti (downs x)) (get_down_trapezoid ieqb ns ss s x).
Proof. pose proof (down_in ieqb ns ss s x) as H. destruct (get_down_trapezoid _ _ _ _ _) as [|e|c]; cbn in *; auto. Qed.

Lemma seg_loop_crown k : forall (st : state) si nmin c1 c2 ni tl tr, crown st -> up (st_ts st) tl -> up (st_ts st) tr ->
  fine any (fun p => crown (fst p)) (seg_loop ieqb k st si nmin c1 c2 ni tl tr).
Proof.
  induction k as [|k IH]; intros st si nmin c1 c2 ni tl tr Hc Hl Hr; cbn [seg_loop]; [exact Logic.I|]. destruct (ni =? nmin); [exact Hc|].
  destruct Hc as [Hsb Htop Hdn].
  eapply fine_bind; [apply fine_rdu|]. intros n Hn. eapply fine_bind; [apply fine_rdu|]. intros s _. eapply fine_bind; [apply down_any|]. intros ti Hti. cbv beta in Hti, Hn.
  assert (Hu : up (st_ts st) ti) by eauto.
  eapply fine_bind; [apply fine_rdu|]. intros t Ht. eapply (fine_bind (fun _ => True)); [destruct (t_d t); exact Logic.I|]. intros ni' _.
  eapply fine_bind; [apply fine_rdu|]. intros tu _. eapply fine_bind; [apply fine_rdu|]. intros tv _. cbv zeta beta in *.
  assert (Hq := proj1 Hsb _ _ Ht). assert (Lt : ti < length (st_ts st)) by (apply nth_error_Some; congruence).
  assert (G : forall f other, (forall y, t_u (f y) = t_u y /\ t_k (f y) = t_k y) -> up (st_ts st) other ->
    forall (P : list trap -> res ierr (state * nat)),
    (forall ts2, kept (st_ts st) ts2 -> moved ti (length (st_qs st)) (st_ts st) ts2 -> fine any (fun p => crown (fst p)) (P ts2)) ->
    fine any (fun p => crown (fst p)) (bind (modify (st_ts st) ti (fun t => Ok (f (set_sink (length (st_qs st)) t)))) (fun ts1 =>
      bind (modify ts1 other (fun t => Ok (set_down ni' t))) P))).
  { intros f other Hf Ho P HP. unfold modify. rewrite Ht. cbn [bind].
    set (ts1 := upd (st_ts st) ti (f (set_sink (length (st_qs st)) t))). destruct (nth_error ts1 other) as [y|] eqn:Ey; [|exact Logic.I]. cbn [bind].
    assert (K1 : kept (st_ts st) ts1) by (apply kept_upd with t; auto; now destruct (Hf (set_sink (length (st_qs st)) t)) as (-> & _)).
    apply HP.
    - apply kept_trans with ts1; auto. now apply kept_upd with y.
    - apply moved_after with y; auto. apply moved_upd with (f (set_sink (length (st_qs st)) t)); [now apply nth_upd_eq|now destruct (Hf (set_sink (length (st_qs st)) t)) as (_ & ->)| |eauto].
      intros j Hj. unfold ts1. apply nth_upd_ne. congruence. }
  assert (R : forall ts2 ns1 a b x y, kept (st_ts st) ts2 -> moved ti (length (st_qs st)) (st_ts st) ts2 -> below ns1 (st_ts st) -> up (st_ts st) x -> up (st_ts st) y ->
    fine any (fun p => crown (fst p)) (seg_loop ieqb k (mkState ns1 (st_ss st) ts2 (upd (st_qs st) (t_k t) (QBranch a b (QX c1 c2)) ++ [QSink ti])) si nmin c1 c2 ni' x y)).
  { intros ts2 ns1 a b x y K M B X Y. apply IH; cbn [st_ts]; [|eapply kept_up; eauto|eapply kept_up; eauto]. split; cbn [st_ts st_qs st_ns].
    - now apply sb_step with (st_ts st).
    - now apply topped_step with (st_ts st).
    - now apply kept_below with (st_ts st). }
  destruct (onat_eqb _ _); [|destruct (onat_eqb _ _); [|exact Logic.I]].
  - unfold rd. rewrite Hq. cbn [bind]. refine (G (set_right si) tr _ Hr _ _); [intros y; split; reflexivity|]. intros ts2 K M.
    eapply (fine_bind (fun ns1 => below ns1 (st_ts st))); [|intros ns1 B; now apply R]. destruct (negb _); [|exact Hdn]. eapply fine_bind; [apply fine_rdu|]. intros n' _.
    destruct (negb _); [now apply below_modify|exact Hdn].
  - unfold rd. rewrite Hq. cbn [bind]. refine (G (set_left si) tl _ Hl _ _); [intros y; split; reflexivity|]. intros ts2 K M.
    eapply (fine_bind (fun _ => True)). { destruct (Nat.eqb _ _); [exact Logic.I|]. eapply fine_bind; [apply fine_rdu|]. intros n' _. exact Logic.I. }
    intros ol _. eapply (fine_bind (fun ns1 => below ns1 (st_ts st))); [|intros ns1 B; now apply R]. destruct ol; [now apply below_modify|exact Hdn].
Qed.

Lemma any_ends {A} (Q : A -> Prop) r : ends Q r -> fine any Q r.
Proof. destruct r; cbn; auto. Qed.

Lemma add_div_below ns ts ss ni si r s : nth_error ss si = Some s -> s_min s <> s_max s -> (ni = s_max s -> up ts r) -> below ns ts -> fine any (fun ns' => below ns' ts) (nexus_add_segment ns ss ni si r).
Proof.
  intros Hs Hne Hu Hb. eapply fine_weaken; [|apply any_ends; apply (add_div_lists ns ss ni si r); apply direction_ends].
  intros ns' (x & x' & d & (s' & Hs' & Hd) & Hx & -> & _ & H1 & H2 & _). assert (s' = s) by congruence. subst s'.
  intros n z t Hn Ht. apply nth_upd_inv in Hn. destruct Hn as [(_ & Hn)|(-> & -> & _)]; [eauto|].
  destruct Hd as [(E & ->)|(_ & _ & ->)]; [destruct (H2 t Ht) as [->|Hin]; eauto|]. cbn [other] in H1. rewrite H1 in Ht. eauto.
Qed.

Lemma add_segment_crown (st : state) nmin nmax c1 c2 : crown st -> nmin <> nmax -> fine any crown (add_segment ieqb dbg fuel st nmin nmax c1 c2).
Proof.
  intros [Hsb Htop Hdn] Hne. unfold add_segment. cbv zeta. set (ss1 := st_ss st ++ [mkSeg nmin nmax c1 c2]).
  assert (Hs : nth_error ss1 (length (st_ss st)) = Some (mkSeg nmin nmax c1 c2)) by (unfold ss1; rewrite nth_error_app2, Nat.sub_diag; auto).
  eapply fine_bind; [apply fine_rdu|]. intros nM HM. eapply fine_bind; [apply fine_rdu|]. intros s _. eapply fine_bind; [apply down_any|]. intros ti Hti. cbv beta in Hti, HM.
  assert (Hu : up (st_ts st) ti) by eauto.
  eapply fine_bind; [apply fine_rdu|]. intros t Ht. cbv beta in Ht. assert (Hq := proj1 Hsb _ _ Ht). unfold rd at 1. rewrite Hq. cbn [bind].
  unfold split_vertical, set_sink. cbn [t_l t_r t_d t_u t_k]. assert (Lt : ti < length (st_ts st)) by (apply nth_error_Some; congruence).
  set (tL := mkTrap (t_l t) (Some (length (st_ss st))) (t_d t) (t_u t) (length (st_qs st))). set (tN := mkTrap (Some (length (st_ss st))) (t_r t) (t_d t) (t_u t) (length (st_qs st) + 1)).
  set (ts1 := upd (st_ts st) ti tL ++ [tN]). set (qs1 := (upd (st_qs st) (t_k t) (QBranch (length (st_qs st)) (length (st_qs st) + 1) (QX c1 c2)) ++ [QSink ti]) ++ [QSink (length (st_ts st))]).
  assert (K0 : kept (st_ts st) (upd (st_ts st) ti tL)) by (apply kept_upd with t; auto).
  assert (K : kept (st_ts st) ts1) by (apply kept_trans with (upd (st_ts st) ti tL); auto; apply kept_snoc).
  assert (Hup : up ts1 (length (st_ts st))).
  { destruct Hu as (y & n & Hy & Hn). exists tN, n. unfold ts1. rewrite nth_error_app2 by (rewrite upd_length; auto). rewrite upd_length, Nat.sub_diag. split; auto. cbn. congruence. }
  assert (S1 : sb ts1 qs1).
  { unfold ts1, qs1. rewrite <- (upd_length _ (st_ts st) ti tL). apply sb_snoc; [|cbn [t_k]; rewrite app_length, upd_length; reflexivity].
    apply sb_step with (st_ts st); auto. apply moved_upd with tL; [now apply nth_upd_eq|reflexivity| |eauto]. intros j Hj. apply nth_upd_ne. congruence. }
  assert (T1 : topped ts1 qs1).
  { destruct (topped_step _ _ _ _ _ (QBranch (length (st_qs st)) (length (st_qs st) + 1) (QX c1 c2)) Hsb Ht Hu K Htop) as (tt & z & A & B). exists tt, z. split; auto. now apply top_app. }
  eapply fine_bind; [apply (add_div_below _ ts1 _ _ _ _ _ Hs); cbn; auto; now apply kept_below with (st_ts st)|]. intros ns1 B1.
  eapply (fine_bind (fun _ => True)); [destruct (t_d t); exact Logic.I|]. intros ni _. eapply fine_bind; [apply fine_rdu|]. intros n _.
  eapply (fine_bind (fun ns2 => below ns2 ts1)). { destruct (_ && _); [now apply below_modify|exact B1]. } intros ns2 B2.
  eapply fine_bind.
  { assert (Q1 : fine any (fun p : state * nat => crown (fst p) /\ st_ss (fst p) = ss1) (seg_loop ieqb fuel (mkState ns2 ss1 ts1 qs1) (length (st_ss st)) nmin c1 c2 ni ti (length (st_ts st)))); [|exact Q1].
    assert (A := seg_loop_crown fuel (mkState ns2 ss1 ts1 qs1) (length (st_ss st)) nmin c1 c2 ni ti (length (st_ts st))).
    assert (Z : forall k (st0 : state) a b x y z u v, fine any (fun p => st_ss (fst p) = st_ss st0) (seg_loop ieqb k st0 a b x y z u v)).
    { clear. induction k as [|k IH]; intros st0 a b x y z u v; cbn [seg_loop]; [exact Logic.I|]. destruct (z =? b); [reflexivity|].
      repeat first [ match goal with |- fine _ _ (seg_loop ieqb k ?s _ _ _ _ _ _ _) => exact (IH s _ _ _ _ _ _ _) end
        | exact Logic.I
        | match goal with |- fine _ _ (bind ?r _) => apply (fine_bind (fun _ => True)); [destruct r; exact Logic.I|intros ? _] end
        | match goal with |- fine _ _ (if ?b then _ else _) => destruct b end | progress cbv zeta ]. }
    specialize (Z fuel (mkState ns2 ss1 ts1 qs1) (length (st_ss st)) nmin c1 c2 ni ti (length (st_ts st))).
    destruct (seg_loop _ _ _ _ _ _ _ _ _ _) as [[st3 tr]|e|c]; cbn [fine fst] in *; auto. split; auto. apply A; [|eapply kept_up; eauto|exact Hup]. now split. }
  intros [st3 tr] ([S3 T3 B3] & E3). cbn [fst] in *. rewrite E3.
  eapply fine_bind; [apply (add_div_below _ (st_ts st3) _ _ _ _ _ Hs); cbn; auto; congruence|]. intros ns4 B4.
  eapply (fine_bind (fun _ => True)); [destruct (check_consistency _ _ _); exact Logic.I|]. intros _ _. cbn [fine]. now split.
Qed.

Lemma add_vertex_crown (st : state) vi qi : crown st -> fine any (fun p => crown (fst p)) (add_vertex gv dbg fuel st vi qi).
Proof.
  intros [Hsb Htop Hdn]. unfold add_vertex.
  eapply (fine_bind (fun p => nth_error (st_qs st) (fst p) = Some (QSink (snd p)))).
  { clear. revert qi. induction fuel as [|k IH]; intros qi; cbn [find]; [exact Logic.I|]. eapply fine_bind; [apply fine_rdu|]. intros q Hq. destruct q; [apply IH|exact Hq]. }
  intros [qp ti] Hq. cbn [fst snd] in Hq. unfold rd at 1. rewrite Hq. cbn [bind]. destruct (proj2 Hsb _ _ Hq) as (t & Ht & Ek). unfold rd at 1. rewrite Ht. cbn [bind].
  unfold split_horizontal, set_sink. cbn [t_l t_r t_d t_u t_k]. assert (Lt : ti < length (st_ts st)) by (apply nth_error_Some; congruence).
  set (tL := mkTrap (t_l t) (t_r t) (t_d t) (Some (length (st_ns st))) (length (st_qs st))). set (tN := mkTrap (t_l t) (t_r t) (Some (length (st_ns st))) (t_u t) (length (st_qs st) + 1)).
  set (ts1 := upd (st_ts st) ti tL ++ [tN]). set (qs1 := (upd (st_qs st) qp (QBranch (length (st_qs st)) (length (st_qs st) + 1) (QY (gv vi))) ++ [QSink ti]) ++ [QSink (length (st_ts st))]).
  assert (HN : nth_error ts1 (length (st_ts st)) = Some tN) by (unfold ts1; rewrite nth_error_app2 by (rewrite upd_length; auto); now rewrite upd_length, Nat.sub_diag).
  assert (HL : nth_error ts1 ti = Some tL) by (unfold ts1; apply nth_app_l; now apply nth_upd_eq).
  assert (HO : forall j y, j <> ti -> nth_error (st_ts st) j = Some y -> nth_error ts1 j = Some y) by (intros j y Hj Hy; unfold ts1; apply nth_app_l; rewrite nth_upd_ne; auto).
  assert (S1 : sb ts1 qs1).
  { unfold ts1, qs1. rewrite <- Ek, <- (upd_length _ (st_ts st) ti tL). apply sb_snoc; [|cbn [t_k]; rewrite app_length, upd_length; reflexivity].
    apply sb_step with (st_ts st); auto. apply moved_upd with tL; [now apply nth_upd_eq|reflexivity| |eauto]. intros j Hj. apply nth_upd_ne. congruence. }
  assert (T1 : topped ts1 qs1).
  { destruct Htop as (tt & z & A & B & D). destruct (Nat.eq_dec ti tt) as [<-|Hne].
    - exists (length (st_ts st)), tN. split; [|split; [auto|cbn; congruence]]. assert (Lq : qp < length (st_qs st)) by (apply nth_error_Some; congruence).
      assert (E1 : nth_error qs1 qp = Some (QBranch (length (st_qs st)) (length (st_qs st) + 1) (QY (gv vi)))) by (unfold qs1; do 2 apply nth_app_l; now apply nth_upd_eq).
      assert (E2 : nth_error qs1 (length (st_qs st) + 1) = Some (QSink (length (st_ts st)))).
      { unfold qs1. rewrite nth_error_app2; rewrite app_length, upd_length; cbn [length]; [|lia]. now rewrite Nat.sub_diag. }
      assert (G : forall q, top_at (st_qs st) ti q -> top_at qs1 (length (st_ts st)) q); [|now apply G]. intros q0 A0. clear A. induction A0 as [q Aq|q l r c Aq _ IH].
      + destruct (proj2 Hsb _ _ Aq) as (z' & Hz' & Ez). assert (Eq : q = qp) by congruence. eapply top_y; [rewrite Eq; exact E1|]. now apply top_sink.
      + apply top_y with l r c; auto. unfold qs1. do 2 apply nth_app_l. rewrite nth_upd_ne; auto. congruence.
    - exists tt, z. split; [|split; auto]. unfold qs1. apply top_app. now apply top_step with ti. }
  assert (U1 : forall t0, up (st_ts st) t0 -> up ts1 t0).
  { intros t0 (y & n & Hy & Hn). destruct (Nat.eq_dec t0 ti) as [->|Hne]; [exists tL, (length (st_ns st)); auto|]. exists y, n. auto. }
  assert (D1 : below (st_ns st ++ [nexus_new vi (gv vi) (length (st_ts st)) ti]) ts1).
  { intros n x t0 Hn Hx. apply nth_snoc_inv in Hn. destruct Hn as [(Hn & _)|(_ & ->)]; [apply U1; eauto|]. cbn in Hx. destruct Hx as [<-|[]]. exists tL, (length (st_ns st)). auto. }
  eapply (fine_bind (fun ns2 => below ns2 ts1)).
  { destruct (t_u t) as [nu|] eqn:Eu; [|exact D1]. apply below_modify; auto. exists tN, nu. auto. }
  intros ns2 B2. eapply (fine_bind (fun _ => True)); [destruct (check_consistency _ _ _); exact Logic.I|]. intros _ _. cbn [fine fst]. now split.
Qed.

Lemma crown_new : crown (state_new (C := C) (I := I)).
Proof.
  split; unfold state_new; cbn [st_ts st_qs st_ns].
  - split; [intros [|[|t]] y [= <-]; reflexivity|intros [|[|q]] t [= <-]; eexists; split; reflexivity].
  - exists 0, (trap_all 0). split; [now apply top_sink|split; reflexivity].
  - intros [|n] x t; discriminate.
Qed.

Lemma crown_top (st : state) : crown st -> forall k, fine (fun _ : ierr => False) (fun _ => True) (top_trapezoid k (st_qs st) 0).
Proof.
  intros [_ (t & y & A & _) _] k. generalize dependent 0. induction k as [|k IH]; intros q A; cbn [top_trapezoid]; [exact Logic.I|].
  inversion A as [? Hq|? l r c Hq Hr]; subst; unfold rd; rewrite Hq; cbn [bind]; [exact Logic.I|]. now apply IH.
Qed.
End Top.
