(** What a debug build establishes when it accepts a segment: the segment crosses none of the inserted ones. *)
From Coq Require Import QArith Lqa List Arith Lia Bool.
From Verif Require Import Base Coord Trap Lanes Plane Geo Region TrapInv AddVertex Recut Cuts LaneOps SegStep AddSegment Segment Walk Clear.
Import ListNotations.
Local Open Scope nat_scope.
Local Open Scope res_scope.

Lemma replf_gone old new l : NoDup l -> old <> new -> ~ In old (replf old new l).
Proof.
  intros Hn Hne. induction Hn as [|x l Hx Hl IH]; cbn; auto. destruct (Nat.eqb_spec x old) as [->|K]; cbn; intuition.
Qed.

Lemma gd_in {C I} {OC : CoordOps C} (ieqb : I -> I -> bool) ns ss s (n : nexus C I) i : get_down_trapezoid ieqb ns ss s n = Ok i -> In i (iter_trapezoids n Desc).
Proof.
  unfold get_down_trapezoid, iter_trapezoids. destruct (filter_dividers n Desc) as [|a|a b]; cbn [first_trapezoid In].
  - intros [= <-]. auto.
  - destruct (rd ns (s_min s)) as [nm| |]; cbn [bind]; try discriminate. destruct (ieqb (n_v nm) (n_v n)); try discriminate.
    destruct (rd ns (s_max s)) as [nx| |]; cbn [bind]; try discriminate.
    match goal with |- bind ?x _ = _ -> _ => destruct x as [c| |]; cbn [bind]; try discriminate end. destruct (is_on_left s c); intros [= <-]; auto.
  - destruct (rd ns (s_min s)) as [nm| |]; cbn [bind]; try discriminate. destruct (ieqb (n_v nm) (n_v n)); try discriminate.
    destruct (rd ns (s_max s)) as [nx| |]; cbn [bind]; try discriminate.
    match goal with |- bind ?x _ = _ -> _ => destruct x as [c| |]; cbn [bind]; try discriminate end. destruct (is_on_left s c); intros [= <-]; auto.
Qed.

Section Descent.
Context {I : Type}.
Variables (W : list point) (Es : list edge) (M : Q) (gv : I -> point).
Hypothesis HG : geo W Es.
Hypothesis HM : shear M W.
Notation stt := (state Q I).
Variable ieqb : I -> I -> bool.
Variable st : stt.
Hypothesis HF : full W Es M gv st.
Let HC : core W Es M gv st := f_core _ _ _ _ _ HF.
Variable s : seg Q.
Notation si := (length (st_ss st)).
Notation mn := (s_min s).

(** The height of a nexus. *)
Definition hat (v : nat) : Q := match nth_error (points st) v with Some p => ht M p | None => 0%Q end.

Lemma hat_nth v n : nth_error (st_ns st) v = Some n -> hat v = ht M (n_c n).
Proof. intros H. unfold hat. now rewrite (points_nth _ _ _ H). Qed.

Lemma hat_du i t v w : nth_error (st_ts st) i = Some t -> t_d t = Some v -> t_u t = Some w -> (hat v < hat w)%Q.
Proof.
  intros Ht Hd Hu. destruct (reg_end W Es M gv st i t Desc v HC Ht Hd) as (n & Hn & A). destruct (reg_end W Es M gv st i t Asc w HC Ht Hu) as (n' & Hn' & A').
  rewrite (hat_nth _ _ Hn), (hat_nth _ _ Hn'). exact (a_du _ _ _ _ (c_ag _ _ _ _ _ HC i t Ht) _ _ A A').
Qed.

(** The state in the middle of the descent, next to the trapezoid [i] of the state at its start. *)
Record dsc (cur : stt) (ni tl tr i : nat) (t : trap) : Prop := {
  d_i : nth_error (st_ts st) i = Some t;
  d_d : t_d t = Some ni;
  d_ss : st_ss cur = st_ss st ++ [s];
  d_ts : forall j x w, nth_error (st_ts st) j = Some x -> t_u x = Some w -> (hat w <= hat ni)%Q -> nth_error (st_ts cur) j = Some x;
  d_ns : forall w n, nth_error (st_ns st) w = Some n -> (hat w < hat ni)%Q -> nth_error (st_ns cur) w = Some n;
  d_ni : exists n n', nth_error (st_ns st) ni = Some n /\ nth_error (st_ns cur) ni = Some n' /\ n_c n' = n_c n /\ iter_trapezoids n' Desc = iter_trapezoids n Desc;
  d_tl : exists x, nth_error (st_ts cur) tl = Some x /\ t_l x = t_l t /\ t_d x = Some ni;
  d_tr : exists x, nth_error (st_ts cur) tr = Some x /\ t_r x = t_r t /\ t_d x = Some ni;
  d_ol : forall x, nth_error (st_ts st) tl = Some x -> exists w, t_d x = Some w /\ (hat ni <= hat w)%Q;
  d_or : forall x, nth_error (st_ts st) tr = Some x -> exists w, t_d x = Some w /\ (hat ni <= hat w)%Q;
  d_ne : tl <> tr;
  d_side : ni <> mn -> forall n', nth_error (st_ns cur) ni = Some n' ->
    ~ In (if is_on_left s (n_c n') then tr else tl) (iter_trapezoids n' Asc)
}.

(** One step: to the left piece, or to the right piece. *)
Lemma dsc_step k cur ni tl tr i t R : dsc cur ni tl tr i t -> ni <> mn ->
  seg_loop ieqb (S k) cur si mn (s_cmin s) (s_cmax s) ni tl tr = Ok R ->
  exists cur' ni' tl' tr' i' t', dsc cur' ni' tl' tr' i' t' /\ seg_loop ieqb k cur' si mn (s_cmin s) (s_cmax s) ni' tl' tr' = Ok R /\
    t_u t' = Some ni /\ (forall w, w <> ni' -> nth_error (st_ns cur') w = nth_error (st_ns cur) w) /\
    ((t_r t' = t_r t /\ tl' = i' /\ tr' = tr /\ i' <> tl /\ forall j, j <> i' -> j <> tr -> nth_error (st_ts cur') j = nth_error (st_ts cur) j) \/
     (t_l t' = t_l t /\ tl' = tl /\ tr' = i' /\ i' <> tr /\ forall j, j <> i' -> j <> tl -> nth_error (st_ts cur') j = nth_error (st_ts cur) j)).
Proof.
  intros H Hne E. destruct H as [H1 H2 H3 H4 H5 (n & n' & N1 & N2 & N3 & N4) (xl & L1 & L2 & L3) (xr & R1 & R2 & R3) H9 H10 H11 H12].
  cbn [seg_loop] in E. rewrite (proj2 (Nat.eqb_neq _ _) Hne) in E. unfold rdu in E. rewrite N2 in E. cbn [bind] in E.
  assert (Es0 : nth_error (st_ss cur) si = Some s) by (rewrite H3; apply nth_snoc). rewrite Es0 in E. cbn [bind] in E.
  destruct (get_down_trapezoid ieqb (st_ns cur) (st_ss cur) s n') as [ti| |] eqn:Eg; try discriminate. cbn [bind] in E.
  apply gd_in in Eg. rewrite N4 in Eg. destruct (x_lane _ _ _ _ (f_n _ _ _ _ _ HF ni n N1)) as (L & Rr & HL).
  destruct (lane_in _ _ _ _ _ _ (HL Desc) Eg) as (t' & Ht' & Tu). cbn [opp tend] in Tu.
  assert (Ht2 : nth_error (st_ts cur) ti = Some t') by (apply (H4 ti t' ni); auto; lra). rewrite Ht2 in E. cbn [bind] in E.
  destruct (t_d t') as [ni'|] eqn:Ed; [|discriminate]. cbn [ok_or bind] in E. rewrite L1, R1 in E. cbn [bind] in E. cbv zeta in E.
  pose proof (hat_du _ _ _ _ Ht' Ed Tu) as Hlt.
  destruct (f_c _ _ _ _ _ HF ti t' Desc ni' Ht' Ed) as (n1 & Hn1 & Hin1). cbn [opp] in Hin1.
  pose proof (not_both W Es M gv st ti ni' n1 Asc HF Hn1 Hin1) as Hnb. cbn [opp] in Hnb.
  pose proof (x_nd _ _ _ _ (f_n _ _ _ _ _ HF ni' n1 Hn1) Asc) as Hnd.
  assert (Hn2 : nth_error (st_ns cur) ni' = Some n1) by (apply H5; auto).
  assert (Hl : ti <> tl). { intros ->. destruct (H9 _ Ht') as (w & W1 & W2). assert (w = ni') by congruence. subst. lra. }
  assert (Hr : ti <> tr). { intros ->. destruct (H10 _ Ht') as (w & W1 & W2). assert (w = ni') by congruence. subst. lra. }
  assert (Hnotin : forall y, (forall x, nth_error (st_ts st) y = Some x -> exists w, t_d x = Some w /\ (hat ni <= hat w)%Q) -> ~ In y (iter_trapezoids n1 Asc)).
  { intros y Hy Hin. destruct (x_lane _ _ _ _ (f_n _ _ _ _ _ HF ni' n1 Hn1)) as (L' & Rr' & HL'). destruct (lane_in _ _ _ _ _ _ (HL' Asc) Hin) as (ty & Hty & Dy).
    cbn [opp tend] in Dy. destruct (Hy _ Hty) as (w & W1 & W2). assert (w = ni') by congruence. subst. lra. }
  assert (Hold : forall x, nth_error (st_ts st) ti = Some x -> exists w, t_d x = Some w /\ (hat ni' <= hat w)%Q).
  { intros x Hx. assert (x = t') by congruence. subst. exists ni'. split; auto. lra. }
  assert (Hup : forall (y : nat), (forall x, nth_error (st_ts st) y = Some x -> exists w, t_d x = Some w /\ (hat ni <= hat w)%Q) ->
            forall x w, nth_error (st_ts st) y = Some x -> t_u x = Some w -> (hat w <= hat ni')%Q -> False).
  { intros y Hy x w Hx Hw Hle. destruct (Hy x Hx) as (w' & W1 & W2). pose proof (hat_du _ _ _ _ Hx W1 Hw). lra. }
  assert (Hup' : forall x w, nth_error (st_ts st) ti = Some x -> t_u x = Some w -> (hat w <= hat ni')%Q -> False).
  { intros x w Hx Hw Hle. assert (x = t') by congruence. subst. assert (w = ni) by congruence. subst. lra. }
  destruct (onat_eqb (t_r t') (t_r xr)) eqn:Eb1.
  - assert (Eb : t_r t' = t_r xr). { unfold onat_eqb in Eb1. destruct (t_r t'), (t_r xr); try discriminate; auto. now apply Nat.eqb_eq in Eb1; subst. }
    clear Eb1. destruct (rd (st_qs cur) (t_k t')) as [q| |]; try discriminate. cbn [bind] in E. unfold modify at 1 in E. rewrite Ht2 in E. cbn [bind] in E.
    unfold modify at 1 in E. rewrite nth_upd_ne in E by auto. rewrite R1 in E. cbn [bind] in E.
    set (ta := set_right si (set_sink (length (st_qs cur)) t')) in *. set (tb := set_down ni' xr) in *.
    set (ts' := upd (upd (st_ts cur) ti ta) tr tb) in *.
    assert (T1 : nth_error ts' ti = Some ta). { unfold ts'. rewrite nth_upd_ne by auto. apply nth_upd_eq. eapply nth_lt; eauto. }
    assert (T2 : nth_error ts' tr = Some tb). { unfold ts'. apply nth_upd_eq. rewrite upd_length. eapply nth_lt; eauto. }
    assert (T3 : forall j, j <> ti -> j <> tr -> nth_error ts' j = nth_error (st_ts cur) j). { intros j J1 J2. unfold ts'. now rewrite !nth_upd_ne by auto. }
    assert (Hnsx : exists ns1 n1', (if negb (Nat.eqb ni' mn) then do n' <- (match nth_error (st_ns cur) ni' with Some a => Ok a | None => Crash Ub end);
                       if negb (is_on_left s (n_c n')) then modify (st_ns cur) ni' (replace_trapezoid ti tr) else Ok (st_ns cur) else Ok (st_ns cur)) = Ok ns1 /\
              ns1 = upd (st_ns cur) ni' n1' /\ n_c n1' = n_c n1 /\ iter_trapezoids n1' Desc = iter_trapezoids n1 Desc /\
              (ni' <> mn -> ~ In (if is_on_left s (n_c n1) then tr else ti) (iter_trapezoids n1' Asc))).
    { rewrite Hn2. cbn [bind]. destruct (Nat.eqb_spec ni' mn) as [Em|Em]; cbn [negb].
      - exists (st_ns cur), n1. split; auto. split; [symmetry; now apply upd_same|]. repeat split; auto. all: now intros.
      - destruct (is_on_left s (n_c n1)) eqn:Ei; cbn [negb].
        + exists (st_ns cur), n1. split; auto. split; [symmetry; now apply upd_same|]. split; auto.
        + destruct (replace_ok n1 ti tr Asc Hin1 Hnb) as (n2 & P1 & P2 & P3 & P4 & P5 & P6 & _). unfold modify. rewrite Hn2, P1. cbn [bind].
          exists (upd (st_ns cur) ni' n2), n2. split; auto. split; auto. split; auto. split; auto. intros _. rewrite P6. now apply replf_gone. }
    destruct Hnsx as (ns1 & n1' & Q1 & Q2 & Q3 & Q4 & Q5).
    match type of E with (bind ?x _) = _ => assert (Q1' : x = Ok ns1) by exact Q1; rewrite Q1' in E end. cbn [bind] in E.
    exists (mkState ns1 (st_ss cur) ts' (upd (st_qs cur) (t_k t') (QBranch (length (st_qs cur)) (t_k xr) (QX (s_cmin s) (s_cmax s))) ++ [q])), ni', ti, tr, ti, t'.
    split; [|split; [exact E|split; [exact Tu|split]]].
    + constructor; cbn [st_ss st_ts st_ns]; auto.
      * intros j x w Hj Hw Hle. assert (J1 : j <> ti) by (intros ->; eauto). assert (J2 : j <> tr) by (intros ->; eauto). rewrite T3 by auto. apply (H4 j x w); auto. lra.
      * intros w m Hm Hlw. rewrite Q2, nth_upd_ne by (intros <-; lra). apply H5; auto. lra.
      * exists n1, n1'. split; auto. split; [rewrite Q2; apply nth_upd_eq; eapply nth_lt; eauto|]. auto.
      * exists ta. auto.
      * exists tb. repeat split; auto. all: cbn; congruence.
      * intros x Hx. destruct (H10 x Hx) as (w & W1 & W2). exists w. split; auto. lra.
      * intros Hm m Hmm. rewrite Q2, nth_upd_eq in Hmm by (eapply nth_lt; eauto). injection Hmm as <-. rewrite Q3. auto.
    + intros w Hw. cbn [st_ns]. rewrite Q2. now rewrite nth_upd_ne by auto.
    + left. split; [congruence|]. auto.
  - destruct (onat_eqb (t_l t') (t_l xl)) eqn:Eb2; [|discriminate].
    assert (Eb : t_l t' = t_l xl). { unfold onat_eqb in Eb2. destruct (t_l t'), (t_l xl); try discriminate; auto. now apply Nat.eqb_eq in Eb2; subst. }
    clear Eb1 Eb2. destruct (rd (st_qs cur) (t_k t')) as [q| |]; try discriminate. cbn [bind] in E. unfold modify at 1 in E. rewrite Ht2 in E. cbn [bind] in E.
    unfold modify at 1 in E. rewrite nth_upd_ne in E by auto. rewrite L1 in E. cbn [bind] in E.
    set (ta := set_left si (set_sink (length (st_qs cur)) t')) in *. set (tb := set_down ni' xl) in *.
    set (ts' := upd (upd (st_ts cur) ti ta) tl tb) in *.
    assert (T1 : nth_error ts' ti = Some ta). { unfold ts'. rewrite nth_upd_ne by auto. apply nth_upd_eq. eapply nth_lt; eauto. }
    assert (T2 : nth_error ts' tl = Some tb). { unfold ts'. apply nth_upd_eq. rewrite upd_length. eapply nth_lt; eauto. }
    assert (T3 : forall j, j <> ti -> j <> tl -> nth_error ts' j = nth_error (st_ts cur) j). { intros j J1 J2. unfold ts'. now rewrite !nth_upd_ne by auto. }
    destruct (replace_ok n1 ti tl Asc Hin1 Hnb) as (n2 & P1 & P2 & P3 & P4 & P5 & P6 & _).
    rewrite Hn2 in E. cbn [bind] in E.
    assert (Hnsx : exists (b : bool) n1', (if Nat.eqb ni' mn then Ok true else Ok (is_on_left s (n_c n1))) = (Ok b : res ierr bool) /\
              (if b then modify (st_ns cur) ni' (replace_trapezoid ti tl) else Ok (st_ns cur)) = Ok (upd (st_ns cur) ni' n1') /\
              n_c n1' = n_c n1 /\ iter_trapezoids n1' Desc = iter_trapezoids n1 Desc /\
              (ni' <> mn -> ~ In (if is_on_left s (n_c n1) then ti else tl) (iter_trapezoids n1' Asc))).
    { destruct (Nat.eqb_spec ni' mn) as [Em|Em].
      - exists true, n2. unfold modify. rewrite Hn2, P1. cbn [bind]. repeat split; auto. all: now intros.
      - destruct (is_on_left s (n_c n1)) eqn:Ei.
        + exists true, n2. unfold modify. rewrite Hn2, P1. cbn [bind]. split; [reflexivity|]. split; [reflexivity|]. split; [auto|]. split; [auto|]. intros _. rewrite P6. now apply replf_gone.
        + exists false, n1. split; auto. split; [f_equal; symmetry; now apply upd_same|]. split; auto. }
    destruct Hnsx as (b & n1' & Q0 & Q1 & Q3 & Q4 & Q5). rewrite Q0 in E. cbn [bind] in E. rewrite Q1 in E. cbn [bind] in E.
    exists (mkState (upd (st_ns cur) ni' n1') (st_ss cur) ts' (upd (st_qs cur) (t_k t') (QBranch (t_k xl) (length (st_qs cur)) (QX (s_cmin s) (s_cmax s))) ++ [q])), ni', tl, ti, ti, t'.
    split; [|split; [exact E|split; [exact Tu|split]]].
    + constructor; cbn [st_ss st_ts st_ns]; auto.
      * intros j x w Hj Hw Hle. assert (J1 : j <> ti) by (intros ->; eauto). assert (J2 : j <> tl) by (intros ->; eauto). rewrite T3 by auto. apply (H4 j x w); auto. lra.
      * intros w m Hm Hlw. rewrite nth_upd_ne by (intros <-; lra). apply H5; auto. lra.
      * exists n1, n1'. split; auto. split; [apply nth_upd_eq; eapply nth_lt; eauto|]. auto.
      * exists tb. repeat split; auto. all: cbn; congruence.
      * exists ta. auto.
      * intros x Hx. destruct (H9 x Hx) as (w & W1 & W2). exists w. split; auto. lra.
      * intros Hm m Hmm. rewrite nth_upd_eq in Hmm by (eapply nth_lt; eauto). injection Hmm as <-. rewrite Q3. auto.
    + intros w Hw. cbn [st_ns]. now rewrite nth_upd_ne by auto.
    + right. split; [congruence|]. auto.
Qed.

(** What is passed stays: trapezoids that are not current and not below, nexuses that are not below; and the descent ends above the lower end of the segment. *)
Lemma dsc_keep : forall k cur ni tl tr i t fin tr', dsc cur ni tl tr i t ->
  seg_loop ieqb k cur si mn (s_cmin s) (s_cmax s) ni tl tr = Ok (fin, tr') ->
  (hat mn <= hat ni)%Q /\ (ni <> mn -> hat mn < hat ni)%Q /\
  (forall j, j <> tl -> j <> tr -> (forall x w, nth_error (st_ts st) j = Some x -> t_u x = Some w -> hat ni < hat w)%Q -> nth_error (st_ts fin) j = nth_error (st_ts cur) j) /\
  (forall w n, nth_error (st_ns st) w = Some n -> (hat ni <= hat w)%Q -> nth_error (st_ns fin) w = nth_error (st_ns cur) w).
Proof.
  induction k as [|k IH]; intros cur ni tl tr i t fin tr' H E; [discriminate|].
  destruct (Nat.eq_dec ni mn) as [->|Hne].
  { cbn [seg_loop] in E. rewrite Nat.eqb_refl in E. injection E as <- <-. split; [lra|]. split; [easy|]. auto. }
  destruct (dsc_step k cur ni tl tr i t _ H Hne E) as (cur' & ni' & tl' & tr2 & i' & t' & H' & E' & Hu & Hns & Hcase).
  destruct (IH _ _ _ _ _ _ _ _ H' E') as (K1 & _ & K3 & K4). pose proof (hat_du _ _ _ _ (d_i _ _ _ _ _ _ H') (d_d _ _ _ _ _ _ H') Hu) as Hlt.
  split; [lra|]. split; [intros _; lra|]. split.
  - intros j J1 J2 J3. assert (J4 : j <> i'). { intros ->. specialize (J3 _ _ (d_i _ _ _ _ _ _ H') Hu). lra. }
    destruct Hcase as [(_ & -> & -> & _ & Hts)|(_ & -> & -> & _ & Hts)]; (rewrite K3; [now apply Hts|auto|auto|intros x w Hx Hw; specialize (J3 x w Hx Hw); lra]).
  - intros w n Hn Hw. rewrite (K4 w n Hn) by lra. apply Hns. intros ->. lra.
Qed.

(** The debug check at the end: every trapezoid is known to its lower nexus. *)
Definition knows (fin : stt) : Prop := forall j x w, nth_error (st_ts fin) j = Some x -> t_d x = Some w -> w <> mn ->
  exists n, nth_error (st_ns fin) w = Some n /\ In j (iter_trapezoids n Asc).

(** Hence at each nexus passed the descent keeps the side of the segment on which the nexus is not. *)
Lemma dsc_dir k cur ni tl tr i t fin tr' n : dsc cur ni tl tr i t -> ni <> mn -> nth_error (st_ns st) ni = Some n ->
  seg_loop ieqb (S k) cur si mn (s_cmin s) (s_cmax s) ni tl tr = Ok (fin, tr') -> knows fin ->
  exists cur' ni' tl' tr2 i' t', dsc cur' ni' tl' tr2 i' t' /\ seg_loop ieqb k cur' si mn (s_cmin s) (s_cmax s) ni' tl' tr2 = Ok (fin, tr') /\
    t_u t' = Some ni /\ (if is_on_left s (n_c n) then t_r t' = t_r t else t_l t' = t_l t).
Proof.
  intros H Hne Hn E Hkn. destruct (dsc_step k cur ni tl tr i t _ H Hne E) as (cur' & ni' & tl' & tr2 & i' & t' & H' & E' & Hu & Hns & Hcase).
  exists cur', ni', tl', tr2, i', t'. split; auto. split; auto. split; auto.
  destruct (dsc_keep _ _ _ _ _ _ _ _ _ H' E') as (_ & _ & K3 & K4). pose proof (hat_du _ _ _ _ (d_i _ _ _ _ _ _ H') (d_d _ _ _ _ _ _ H') Hu) as Hlt.
  destruct (d_ni _ _ _ _ _ _ H) as (n0 & n' & N1 & N2 & N3 & _). assert (n0 = n) by congruence. subst n0.
  pose proof (d_side _ _ _ _ _ _ H Hne n' N2) as Hs. rewrite N3 in Hs.
  assert (Hnn : ni <> ni') by (intros ->; lra).
  assert (Hfn : nth_error (st_ns fin) ni = Some n'). { rewrite (K4 ni n Hn) by lra. rewrite Hns by auto. exact N2. }
  destruct Hcase as [(C1 & -> & -> & C4 & Hts)|(C1 & -> & -> & C4 & Hts)].
  - (* the left piece is left behind *)
    destruct (d_tl _ _ _ _ _ _ H) as (x & X1 & _ & X3).
    assert (Hx : nth_error (st_ts fin) tl = Some x).
    { rewrite K3; [rewrite Hts; auto|auto| |].
      - apply (d_ne _ _ _ _ _ _ H).
      - apply (d_ne _ _ _ _ _ _ H).
      - intros y w Hy Hw. destruct (d_ol _ _ _ _ _ _ H y Hy) as (w' & W1 & W2). pose proof (hat_du _ _ _ _ Hy W1 Hw). lra. }
    destruct (Hkn tl x ni Hx X3 Hne) as (m & M1 & M2). assert (m = n') by congruence. subst m.
    destruct (is_on_left s (n_c n)); auto. contradiction.
  - destruct (d_tr _ _ _ _ _ _ H) as (x & X1 & _ & X3).
    assert (Hx : nth_error (st_ts fin) tr = Some x).
    { rewrite K3; [rewrite Hts; auto| |auto|].
      - apply not_eq_sym, (d_ne _ _ _ _ _ _ H).
      - apply not_eq_sym, (d_ne _ _ _ _ _ _ H).
      - intros y w Hy Hw. destruct (d_or _ _ _ _ _ _ H y Hy) as (w' & W1 & W2). pose proof (hat_du _ _ _ _ Hy W1 Hw). lra. }
    destruct (Hkn tr x ni Hx X3 Hne) as (m & M1 & M2). assert (m = n') by congruence. subst m.
    destruct (is_on_left s (n_c n)); auto. contradiction.
Qed.

End Descent.
