(** How many trapezoids have a given segment as a side depends only on the segments; the size of the search structure averaged over all orders. *)
From Coq Require Import QArith Lqa List Arith Lia Bool Permutation.
From Verif Require Import Base Coord Trap Lanes Plane Geo Region TrapInv Depth AddVertex SegStep Polygons Build Locate Faces Clear Canon Near Sweep Orders Random.
Import ListNotations.
Local Open Scope nat_scope.

Lemma nd_map_filter {A B} (f : A -> bool) (g : A -> B) l :
  (forall i j a b, nth_error l i = Some a -> nth_error l j = Some b -> f a = true -> f b = true -> g a = g b -> i = j) -> NoDup (map g (filter f l)).
Proof.
  induction l as [|x l IH]; intros H; [constructor|]. cbn. assert (K : NoDup (map g (filter f l))).
  { apply IH. intros i j a b Hi Hj Ha Hb E. pose proof (H (S i) (S j) a b Hi Hj Ha Hb E). lia. }
  destruct (f x) eqn:E; auto. cbn. constructor; auto. intros Hin. apply in_map_iff in Hin. destruct Hin as (y & E1 & Hy). apply filter_In in Hy. destruct Hy as (Hy & Hf). apply In_nth_error in Hy. destruct Hy as (j & Hj).
  pose proof (H 0 (S j) x y eq_refl Hj E Hf (eq_sym E1)). discriminate.
Qed.

Section Side.
Context {I : Type}.
Variables (W : list point) (Es : list edge) (M : Q) (gv : I -> point) (st : state Q I).
Hypothesis HG : geo W Es.
Hypothesis HM : shear M W.
Hypothesis HF : full W Es M gv st.
Let HC : core W Es M gv st := f_core _ _ _ _ _ HF.

Definition aside (b : bool) (a : atrap) : option edge := if b then ar a else al a.

Lemma side_cases i t s : nth_error (st_ts st) i = Some t -> has_side s t = true -> exists b, sd st b i = Some s.
Proof.
  intros Ht H. unfold has_side in H. apply orb_prop in H. destruct H as [H|H]; [exists false; destruct (t_l t) as [x|] eqn:E|exists true; destruct (t_r t) as [x|] eqn:E]; cbn in H; try discriminate;
    apply Nat.eqb_eq in H; subst x; unfold sd, tl, tr; now rewrite Ht.
Qed.

Lemma side_has i t b s : nth_error (st_ts st) i = Some t -> sd st b i = Some s -> has_side s t = true.
Proof. intros Ht H. unfold sd, tl, tr in H. unfold has_side. destruct b; rewrite Ht in H; rewrite H; cbn; rewrite Nat.eqb_refl; auto using orb_true_r. Qed.

Lemma side_reg i t b s : nth_error (st_ts st) i = Some t -> sd st b i = Some s -> aside b (reg st t) = Some (eat st s).
Proof. intros Ht H. unfold sd, tl, tr in H. destruct b; rewrite Ht in H; cbn [aside]; rewrite ?al_reg, ?ar_reg, H; reflexivity. Qed.

Lemma reg_side i t b e : nth_error (st_ts st) i = Some t -> aside b (reg st t) = Some e -> exists s, sd st b i = Some s /\ eat st s = e.
Proof.
  intros Ht H. unfold sd, tl, tr. destruct b; rewrite Ht; cbn [aside] in H; rewrite ?al_reg, ?ar_reg in H.
  - destruct (t_r t) as [s|]; [|discriminate]. injection H as <-. eauto.
  - destruct (t_l t) as [s|]; [|discriminate]. injection H as <-. eauto.
Qed.

Lemma sd_in b i s : sd st b i = Some s -> s < length (medges st).
Proof. intros H. destruct (sd_spans W Es M gv st HG HM HF b i s H) as (g & _ & _ & Hg & _). unfold medges. rewrite map_length. eapply nth_lt; eauto. Qed.

Lemma eat_inj s s' : s < length (medges st) -> s' < length (medges st) -> eat st s = eat st s' -> s = s'.
Proof. intros H H' E. apply (proj1 (NoDup_nth (medges st) (dpt, dpt)) (c_snd _ _ _ _ _ HC)); auto. Qed.

Lemma has_ahas i t h : nth_error (st_ts st) i = Some t -> has M st i h -> ahas M (reg st t) h.
Proof.
  intros Ht (d & u & Hd & Hu & H1 & H2). unfold td, tu in *. rewrite Ht in *. destruct (reg_end W Es M gv st i t Desc d HC Ht Hd) as (n & Hn & E). destruct (reg_end W Es M gv st i t Asc u HC Ht Hu) as (n' & Hn' & E').
  cbn [aend] in E, E'. unfold ahas, obot, otop. rewrite E, E'. unfold hv in *. rewrite (pnt_n st _ _ Hn) in H1. rewrite (pnt_n st _ _ Hn') in H2. auto.
Qed.

Lemma sd_has b i s (l : list Q) : sd st b i = Some s -> exists h, has M st i h /\ (forall x, In x l -> ~ h == x)%Q /\ (ht M (fst (eat st s)) < h)%Q /\ (h < ht M (snd (eat st s)))%Q.
Proof.
  intros H. destruct (sd_spans W Es M gv st HG HM HF b i s H) as (g & d & u & Hg & Hd & Hu & H1 & H2 & H3). destruct (avoid l _ _ H2) as (h & A1 & A2 & A3). exists h.
  destruct (seg_at W Es M gv st HG HM HF s g Hg) as (_ & _ & E1 & E2 & _). rewrite (eat_nth st s g Hg). unfold hv in *. rewrite E1 in H1. rewrite E2 in H3. cbn [sedge fst snd]. split; [exists d, u; auto|]. split; auto. split; lra.
Qed.
End Side.

Section Adj.
Context {I J : Type}.
Variables (W : list point) (Es : list edge) (M : Q) (gv : I -> point) (st : state Q I) (gv' : J -> point) (st' : state Q J).
Hypothesis HG : geo W Es.
Hypothesis HM : shear M W.
Hypothesis HF : full W Es M gv st.
Hypothesis HF' : full W Es M gv' st'.
Hypothesis HE : forall e, In e (medges st) <-> In e (medges st').
Hypothesis HP : forall p, In p (points st) <-> In p (points st').
Let HC : core W Es M gv st := f_core _ _ _ _ _ HF.
Let HC' : core W Es M gv' st' := f_core _ _ _ _ _ HF'.

Lemma side_inj i j t t' s : nth_error (st_ts st) i = Some t -> nth_error (st_ts st) j = Some t' -> has_side s t = true -> reg st t = reg st t' -> i = j.
Proof.
  intros Hi Hj Hs E. destruct (side_cases st i t s Hi Hs) as (b & Hb). pose proof (side_reg st i t b s Hi Hb) as Hr. rewrite E in Hr.
  destruct (reg_side st j t' b _ Hj Hr) as (s2 & Hb2 & E2). apply (eat_inj W Es M gv st HF) in E2; [subst s2|eapply (sd_in W Es M gv st HG HM HF); eauto..].
  destruct (sd_has W Es M gv st HG HM HF b i s [] Hb) as (h & Hh & _). apply (side_uniq W Es M gv st HG HM HF b s i j h); auto.
  destruct (sd_spans W Es M gv st HG HM HF b j s Hb2) as (g & d & u & _ & Hd & Hu & _). exists d, u. split; auto. split; auto.
  pose proof (has_ahas W Es M gv st HF i t h Hi Hh) as Ha. rewrite E in Ha. unfold td, tu in *. rewrite Hj in *.
  destruct (reg_end W Es M gv st j t' Desc d HC Hj Hd) as (n & Hn & E1). destruct (reg_end W Es M gv st j t' Asc u HC Hj Hu) as (n' & Hn' & E1'). cbn [aend] in E1, E1'. unfold ahas, obot, otop in Ha. rewrite E1, E1' in Ha.
  unfold hv. now rewrite (pnt_n st _ _ Hn), (pnt_n st _ _ Hn').
Qed.

Lemma side_other i t b s s' : nth_error (st_ts st) i = Some t -> sd st b i = Some s -> s' < length (st_ss st') -> eat st s = eat st' s' ->
  exists j t', nth_error (st_ts st') j = Some t' /\ sd st' b j = Some s' /\ reg st t = reg st' t'.
Proof.
  intros Ht Hs Hs' E. destruct (sd_has W Es M gv st HG HM HF b i s (map (ht M) (points st')) Hs) as (h & Hh & Hav & H1 & H2).
  destruct (lt_nth _ _ _ Hs') as (g & Hg). destruct (seg_at W Es M gv' st' HG HM HF' s' g Hg) as (_ & _ & E1 & E2 & _). rewrite E, (eat_nth st' s' g Hg) in H1, H2. cbn [sedge fst snd] in H1, H2.
  destruct (side_ex W Es M gv' st' HG HM HF' b s' h) as (j & Hj & Hh'); auto.
  { unfold hv. now rewrite E1. } { unfold hv. now rewrite E2. }
  { intros v n Hn K. apply (Hav (hv M st' v)); [|now symmetry]. unfold hv. apply in_map. rewrite (pnt_n st' v n Hn). eapply nth_error_In. apply points_nth. exact Hn. }
  destruct (lt_nth _ _ _ (has_in M st' j h Hh')) as (t' & Ht'). exists j, t'. split; auto. split; auto.
  pose proof (has_ahas W Es M gv st HF i t h Ht Hh) as A. pose proof (has_ahas W Es M gv' st' HF' j t' h Ht' Hh') as A'.
  pose proof (c_ag _ _ _ _ _ HC i t Ht) as Ga. pose proof (c_ag _ _ _ _ _ HC' j t' Ht') as Ga'.
  assert (S1 : aside b (reg st t) = aside b (reg st' t')) by (rewrite (side_reg st i t b s Ht Hs), (side_reg st' j t' b s' Ht' Hj); now rewrite E).
  assert (K : exists x, inpos M (reg st t) h x /\ inpos M (reg st' t') h x).
  { unfold inpos. destruct b; cbn [aside] in S1.
    - destruct (pick_r M (al (reg st t)) (al (reg st' t')) (ar (reg st t)) h) as (x & K1 & K2 & K3).
      + intros e f He Hf. now apply (a_lr _ _ _ _ Ga).
      + intros e f He Hf. rewrite S1 in Hf. now apply (a_lr _ _ _ _ Ga').
      + exists x. rewrite <- S1. auto.
    - destruct (pick_l M (al (reg st t)) (ar (reg st t)) (ar (reg st' t')) h) as (x & K1 & K2 & K3).
      + intros e f He Hf. now apply (a_lr _ _ _ _ Ga).
      + intros e f He Hf. rewrite S1 in He. now apply (a_lr _ _ _ _ Ga').
      + exists x. rewrite <- S1. auto. }
  destruct K as (x & K1 & K2). exact (canonical W Es M gv st gv' st' HG HM HF HF' HE HP i t j t' h x Ht Ht' K1 K2).
Qed.

Theorem adj_le s s' : s' < length (st_ss st') -> eat st s = eat st' s' -> adj (st_ts st) s <= adj (st_ts st') s'.
Proof.
  intros Hs' E. unfold adj. rewrite <- (map_length (reg st) (filter (has_side s) (st_ts st))), <- (map_length (reg st') (filter (has_side s') (st_ts st'))). apply NoDup_incl_length.
  - apply nd_map_filter. intros i j a b Hi Hj Ha Hb Eq. eapply side_inj; eauto.
  - intros a Ha. apply in_map_iff in Ha. destruct Ha as (t & <- & Ha). apply filter_In in Ha. destruct Ha as (Ha & Hsd). apply In_nth_error in Ha. destruct Ha as (i & Hi). destruct (side_cases st i t s Hi Hsd) as (b & Hb).
    destruct (side_other i t b s s' Hi Hb Hs' E) as (j & t' & Hj & Hb' & ER). rewrite ER. apply in_map. apply filter_In. split; [eapply nth_error_In; eauto|]. eapply side_has; eauto.
Qed.
End Adj.

(** Every trapezoid has at most two sides. *)
Lemma adj_sum ts n : nsum (adj ts) (seq 0 n) <= 2 * length ts.
Proof.
  assert (E : forall s, adj ts s = nsum (fun t => if has_side s t then 1 else 0) ts) by (intros s; unfold adj; apply nsum_filter).
  rewrite (nsum_ext _ _ _ (fun s _ => E s)). rewrite nsum_swap. rewrite <- (nsum_const 2 ts). etransitivity; [|rewrite Nat.mul_comm || idtac; reflexivity].
  apply nsum_le. intros t _.
  assert (S1 : forall o, nsum (fun s => if onat_eqb o (Some s) then 1 else 0) (seq 0 n) <= 1).
  { intros o. apply nsum_one; [apply seq_NoDup|]. intros a b _ _. destruct o as [x|]; cbn; [|discriminate]. intros H1 H2. apply Nat.eqb_eq in H1, H2. congruence. }
  pose proof (S1 (t_l t)). pose proof (S1 (t_r t)). etransitivity; [apply (nsum_le _ (fun s => (if onat_eqb (t_l t) (Some s) then 1 else 0) + (if onat_eqb (t_r t) (Some s) then 1 else 0)))|rewrite nsum_add; lia].
  intros s _. unfold has_side. destruct (onat_eqb (t_l t) (Some s)), (onat_eqb (t_r t) (Some s)); cbn; lia.
Qed.

Section Size.
Context {I : Type}.
Variables (gv : I -> point) (ieqb : I -> I -> bool) (dbg : bool).
Hypothesis Hieq : forall a b, ieqb a b = true <-> a = b.
Variable math_n : nat -> nat -> nat.
Variable poly : list I.
Notation n := (length poly).
Notation V := (map gv poly).
Hypothesis HV : valid [V].
Notation ploop := (ploop gv ieqb dbg math_n poly).
Notation good := (good poly).

(** Index of a number in a list. *)
Fixpoint idx (e : nat) (A : list nat) : nat := match A with [] => 0 | a :: A => if Nat.eqb a e then 0 else S (idx e A) end.
Lemma idx_nth e A : In e A -> nth_error A (idx e A) = Some e.
Proof. induction A as [|a A IH]; [easy|]. cbn. destruct (Nat.eqb_spec a e) as [->|Hn]; auto. intros [K|K]; [easy|]. now apply IH. Qed.
Lemma idx_map A : NoDup A -> map (fun e => idx e A) A = seq 0 (length A).
Proof.
  induction 1 as [|a A Ha Hn IH]; auto. cbn [map length seq]. f_equal; [cbn; now rewrite Nat.eqb_refl|]. rewrite <- seq_shift, <- IH, map_map. apply map_ext_in. intros b Hb. cbn. destruct (Nat.eqb_spec a b); congruence.
Qed.
Lemma nsum_map {A B} (f : B -> nat) (g : A -> B) l : nsum f (map g l) = nsum (fun a => f (g a)) l.
Proof. unfold nsum. induction l; cbn; auto. Qed.

Lemma adj_step l e A st vls st' vls' sA vA : good A -> Permutation (l ++ [e]) A -> evt (fun k => ploop k l) (st, vls) -> evt (fun k => ploop k (l ++ [e])) (st', vls') ->
  evt (fun k => ploop k A) (sA, vA) -> length (st_ss st) = length l /\ adj (st_ts st') (length l) <= adj (st_ts sA) (idx e A).
Proof.
  intros HgA HpA E E' EA. assert (Hg : good (l ++ [e])) by (eapply good_perm; [symmetry; exact HpA|auto]). destruct (good_init poly l e Hg) as (Hgl & Hnl & He).
  destruct (shear_exists (V ++ [])) as (M & HM). assert (X0 : xtra gv poly []) by (split; [|split]; easy).
  destruct (prefix_run gv ieqb dbg Hieq math_n poly HV l Hgl) as (s & v & E0 & HP). pose proof (evt_eq _ _ _ E E0) as Z. injection Z as <- <-. pose proof (HP [] M X0 HM) as P0.
  destruct (prefix_run gv ieqb dbg Hieq math_n poly HV _ Hg) as (s & v & E1 & HP1). pose proof (evt_eq _ _ _ E' E1) as Z. injection Z as <- <-. pose proof (HP1 [] M X0 HM) as P1.
  destruct (prefix_run gv ieqb dbg Hieq math_n poly HV _ HgA) as (s & v & E2 & HP2). pose proof (evt_eq _ _ _ EA E2) as Z. injection Z as <- <-. pose proof (HP2 [] M X0 HM) as P2.
  destruct (run_same gv poly _ _ _ _ _ _ _ _ P1 P2 HpA) as (S1 & S2).
  pose proof (p_edges _ _ _ _ _ _ _ P0) as Em0. pose proof (p_edges _ _ _ _ _ _ _ P1) as Em1. pose proof (p_edges _ _ _ _ _ _ _ P2) as Em2.
  assert (HeA : In e A) by (eapply Permutation_in; [exact HpA|]; apply in_or_app; right; now left). pose proof (idx_nth e A HeA) as Hx.
  assert (Els : length (st_ss st) = length l). { apply (f_equal (@length _)) in Em0. unfold medges in Em0. now rewrite !map_length in Em0. }
  split; auto.
  apply (adj_le (V ++ []) (uedges [V]) M gv st' gv sA (p_geo _ _ _ _ _ _ _ P1) HM (r_full _ _ _ _ _ _ (p_rest _ _ _ _ _ _ _ P1)) (r_full _ _ _ _ _ _ (p_rest _ _ _ _ _ _ _ P2)) S1 S2).
  - apply (f_equal (@length _)) in Em2. unfold medges in Em2. rewrite !map_length in Em2. rewrite Em2. eapply nth_lt; eauto.
  - unfold eat. rewrite Em1, Em2.
    rewrite map_app, app_nth2, map_length, Nat.sub_diag by (rewrite map_length; lia). cbn [map nth]. symmetry. apply nth_err_nth. now apply map_nth_error.
Qed.

Lemma size_step l e A st vls st' vls' sA vA : good A -> Permutation (l ++ [e]) A -> evt (fun k => ploop k l) (st, vls) -> evt (fun k => ploop k (l ++ [e])) (st', vls') ->
  evt (fun k => ploop k A) (sA, vA) -> length (st_qs st') + 2 * length (points st) <= length (st_qs st) + 2 * length (points st') + adj (st_ts sA) (idx e A).
Proof.
  intros HgA HpA E E' EA. assert (Hg : good (l ++ [e])) by (eapply good_perm; [symmetry; exact HpA|auto]).
  destruct (prefix_step gv ieqb dbg Hieq math_n poly HV l e st vls st' vls' Hg E E') as (_ & _ & G & _). destruct (adj_step l e A st vls st' vls' sA vA HgA HpA E E' EA) as (A1 & A2). rewrite G, A1. lia.
Qed.

Lemma size_average : exists fuel (size : list nat -> nat), (forall l k, good l -> fuel <= k -> exists st vls, ploop k l = Ok (st, vls) /\ length (st_qs st) = size l) /\
  (qsum (fun l => inject_Z (Z.of_nat (size l))) (arrs n (seq 0 n)) <= (1 + 8 * inject_Z (Z.of_nat n) + 2 * harmonic n) * inject_Z (Z.of_nat (length (arrs n (seq 0 n)))))%Q.
Proof.
  destruct (uniform poly (fun l k => exists st vls, evt (fun k => ploop k l) (st, vls) /\ ploop k l = Ok (st, vls))) as (K & HK).
  { intros l Hg. destruct (prefix_run gv ieqb dbg Hieq math_n poly HV l Hg) as (st & vls & E & _). destruct E as (N' & E). exists N'. intros k Hk. exists st, vls. split; [exists N'; auto|]. apply E; lia. }
  set (S l := match ploop K l with Ok (st, _) => st | _ => state_new end). exists K, (fun l => length (st_qs (S l))). split.
  { intros l k Hg Hk. destruct (HK k l Hk Hg) as (st & vls & E & E1). destruct (HK K l (le_n _) Hg) as (st' & vls' & E' & E1'). pose proof (evt_eq _ _ _ E E') as Z. injection Z as <- <-. exists st, vls. split; auto. unfold S. now rewrite E1'. }
  assert (HS : forall l, good l -> exists vls, evt (fun k => ploop k l) (S l, vls)). { intros l Hg. destruct (HK K l (le_n _) Hg) as (st & vls & E & E1). exists vls. unfold S. now rewrite E1. }
  set (zq := fun k : nat => inject_Z (Z.of_nat k)).
  set (pot l := (zq (length (st_qs (S l))) - 2 * zq (length (points (S l))))%Q).
  assert (P0 : (pot [] == 1)%Q) by (unfold pot, S; cbn; reflexivity).
  assert (EH : (hsum (fun k => 2 + 6 * inject_Z (Z.of_nat k)) n == 2 * harmonic n + 6 * zq n)%Q) by apply hsum_lin.
  assert (HB : (qsum pot (arrs n (seq 0 n)) <= (pot [] + hsum (fun k => 2 + 6 * inject_Z (Z.of_nat k))%Q n) * zq (length (arrs n (seq 0 n))))%Q).
  { apply (backward good pot (fun A e => zq (adj (st_ts (S A)) (idx e A)))).
    - intros A e (H1 & H2). split; [now apply remove_nd|]. intros j Hj. apply in_remove in Hj. apply H2. tauto.
    - intros A e l Ho Hn He Hpl. assert (Hg : good (l ++ [e])) by (eapply good_perm; [symmetry; exact Hpl|auto]). destruct (good_init poly l e Hg) as (Hgl & _).
      destruct (HS A Ho) as (vA & EA). destruct (HS l Hgl) as (v & E). destruct (HS _ Hg) as (v' & E'). pose proof (size_step l e A _ _ _ _ _ _ Ho Hpl E E' EA) as Z. unfold pot.
      assert (Z' : (zq (length (st_qs (S (l ++ [e])))) + 2 * zq (length (points (S l))) <= zq (length (st_qs (S l))) + 2 * zq (length (points (S (l ++ [e])))) + zq (adj (st_ts (S A)) (idx e A)))%Q).
      { unfold zq. change 2%Q with (inject_Z 2). rewrite <- !inject_Z_mult, <- !inject_Z_plus, <- Zle_Qle. lia. }
      lra.
    - intros A Ho Hn. unfold zq. rewrite qsum_nat. rewrite <- (nsum_map (adj (st_ts (S A))) (fun e => idx e A)), (idx_map A Hn). destruct (HS A Ho) as (vA & EA). destruct (run_sizes gv ieqb dbg Hieq math_n poly HV A _ _ Ho EA) as (Z1 & Z2).
      pose proof (adj_sum (st_ts (S A)) (length A)) as Z3. change 2%Q with (inject_Z 2). change 6%Q with (inject_Z 6). rewrite <- !inject_Z_mult, <- !inject_Z_plus, <- Zle_Qle. lia.
    - split; [apply seq_NoDup|]. intros j Hj. apply in_seq in Hj. lia.
    - apply seq_NoDup.
    - apply seq_length. }
  rewrite P0, EH in HB.
  assert (HB2 : (qsum (fun l => 2 * zq (length (points (S l)))) (arrs n (seq 0 n)) <= 2 * zq n * zq (length (arrs n (seq 0 n))))%Q).
  { unfold zq at 3. rewrite <- qsum_const. apply qsum_le. intros l Hl. assert (Hgl : good l).
    { apply arrs_spec in Hl; [|apply seq_NoDup|apply seq_length]. eapply good_perm; [symmetry; exact Hl|]. split; [apply seq_NoDup|]. intros j Hj. apply in_seq in Hj. lia. }
    destruct (HS l Hgl) as (v & E). destruct (shear_exists (V ++ [])) as (M & HM). assert (X0 : xtra gv poly []) by (split; [|split]; easy).
    destruct (prefix_run gv ieqb dbg Hieq math_n poly HV l Hgl) as (s & v0 & E0 & HP). pose proof (evt_eq _ _ _ E E0) as Z. injection Z as <- <-. pose proof (HP [] M X0 HM) as [_ _ PR _ _ PP].
    assert (length (points (S l)) <= n). { rewrite <- (map_length gv poly). apply NoDup_incl_length; auto. apply (c_nd _ _ _ _ _ (f_core _ _ _ _ _ (r_full _ _ _ _ _ _ PR))). }
    assert (zq (length (points (S l))) <= zq n)%Q; [unfold zq; rewrite <- Zle_Qle; lia|lra]. }
  eapply Qle_trans; [apply (qsum_le _ (fun l => pot l + 2 * zq (length (points (S l)))))%Q|].
  - intros l Hl. unfold pot. fold (zq (length (st_qs (S l)))). lra.
  - rewrite qsum_add. fold (zq n). fold (zq (length (arrs n (seq 0 n)))). assert (0 <= zq (length (arrs n (seq 0 n))))%Q by (unfold zq; change 0%Q with (inject_Z 0); rewrite <- Zle_Qle; lia). nra.
Qed.
End Size.
