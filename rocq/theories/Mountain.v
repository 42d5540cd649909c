(** Polygons that are mountains: they are valid, and a run cuts each of them as one piece. *)
From Coq Require Import QArith Lqa List Arith Lia Bool ZArith Permutation Sorted.
From Verif Require Import Base Coord Trap Mono Tri Trace Protocol Plane MonoProof MonoGeom Geo Region TrapInv Polygons Budget Build Faces Open Traverse Sweep Whole Sides.
Import ListNotations.
Local Open Scope nat_scope.

(** ** Points in order *)

Lemma plt_not a b : plt a b -> ~ plt b a.
Proof. intros H K. apply (plt_irrefl a a); [split; reflexivity|]. eapply plt_trans; eauto. Qed.
Lemma plt_no a : ~ plt a a.
Proof. apply plt_irrefl. split; reflexivity. Qed.
Lemma not_plt_eq a b : ~ plt a b -> ~ plt b a -> peq a b.
Proof. intros H K. destruct (plt_total a b) as [?|[?|?]]; tauto. Qed.

Lemma seg_between a b p : plt b a -> on_segment a b p -> ~ plt a p /\ ~ plt p b.
Proof.
  intros Hab (t & H0 & H1 & Hx & Hy). unfold plt in *. destruct Hab as [Hab|[Hab Hab']].
  - assert (cy p <= cy a /\ cy b <= cy p)%Q by (split; nra). assert (cy p == cy a -> t == 0)%Q by (intros; nra). assert (cy p == cy b -> t == 1)%Q by (intros; nra). split; intros [K|[K K']]; try lra.
    + assert (t == 0)%Q as Ht by (apply H2; lra). rewrite Ht in Hx. lra.
    + assert (t == 1)%Q as Ht by (apply H3; lra). rewrite Ht in Hx. lra.
  - assert (cy p == cy a)%Q by (rewrite Hy, Hab; ring). assert (cx p <= cx a /\ cx b <= cx p)%Q by (split; nra). split; intros [K|[K K']]; lra.
Qed.

Lemma sorted_nth (V : list point) : StronglySorted (fun a b => plt b a) V -> forall i j a b, i < j -> nth_error V i = Some a -> nth_error V j = Some b -> plt b a.
Proof.
  induction 1 as [|x V HS IH HF]; intros i j a b Hij Ha Hb; [destruct i; discriminate|]. destruct i as [|i], j as [|j]; try lia; cbn in *.
  - injection Ha as <-. rewrite Forall_forall in HF. apply HF. eapply nth_error_In; eauto.
  - apply (IH i j); auto. lia.
Qed.

Lemma sorted_same (V U : list point) : StronglySorted (fun a b => plt b a) V -> StronglySorted (fun a b => plt b a) U -> (forall p, In p V <-> In p U) -> V = U.
Proof.
  intros HV. revert U. induction HV as [|x V HS IH HF]; intros U HU Hin.
  - destruct U as [|y U]; auto. destruct (proj2 (Hin y) (or_introl eq_refl)).
  - destruct HU as [|y U HU HF']. { destruct (proj1 (Hin x) (or_introl eq_refl)). }
    rewrite Forall_forall in *. assert (x = y).
    { destruct (proj1 (Hin x) (or_introl eq_refl)) as [E|E]; auto. destruct (proj2 (Hin y) (or_introl eq_refl)) as [E'|E']; auto. now elim (plt_not _ _ (HF' x E)); apply HF. }
    subst y. f_equal. apply IH; auto. intros p. split; intros Hp.
    + destruct (proj1 (Hin p) (or_intror Hp)) as [->|]; auto. now elim (plt_no p); apply HF.
    + destruct (proj2 (Hin p) (or_intror Hp)) as [->|]; auto. now elim (plt_no p); apply HF'.
Qed.

Lemma in_conse {A} (l : list A) u v : In (u, v) (conse l) -> exists l1 l2, l = l1 ++ u :: v :: l2.
Proof.
  induction l as [|a [|b l] IH]; try easy. rewrite conse_cons2. intros [E|H].
  - injection E as <- <-. now exists [], l.
  - destruct (IH H) as (l1 & l2 & E). exists (a :: l1), l2. cbn. now rewrite E.
Qed.

(** ** Mountains are valid polygons *)

Section Mountain.
Variables (left : bool) (V : list point).
Hypothesis HM : mountain left V.
Hypothesis H3 : 3 <= length V.
Notation n := (length V).
Let HS : StronglySorted (fun a b => plt b a) V := proj1 HM.

Lemma edge_at i e : nth_error (edges V) i = Some e ->
  (S i < n /\ nth_error V i = Some (fst e) /\ nth_error V (S i) = Some (snd e) /\ plt (snd e) (fst e)) \/
  (S i = n /\ nth_error V i = Some (fst e) /\ nth_error V 0 = Some (snd e) /\ plt (fst e) (snd e)).
Proof.
  intros H. assert (Hi : i < n). { rewrite <- (edges_length V). apply nth_error_Some. congruence. }
  destruct e as (a, b). apply edges_nth in H. destruct H as (Ha & Hb). cbn [fst snd]. destruct (Nat.eq_dec (S i) n) as [E|E].
  - right. replace ((i + 1) mod n) with 0 in Hb by (replace (i + 1) with n by lia; now rewrite Nat.mod_same by lia). split; auto. split; auto. split; auto. apply (sorted_nth V HS 0 i); auto. lia.
  - left. rewrite Nat.mod_small in Hb by lia. replace (i + 1) with (S i) in Hb by lia. split; [lia|]. split; auto. split; auto. apply (sorted_nth V HS i (S i)); auto.
Qed.

Lemma base_side p q : nth_error V 0 = Some q -> nth_error V (n - 1) = Some p ->
  (cross p q q == 0 /\ cross p q p == 0)%Q /\ forall i v, nth_error V i = Some v -> 0 < i -> S i < n -> (0 < sgn left * cross p q v)%Q.
Proof.
  intros Hq Hp. split; [unfold cross; split; ring|]. pose proof HM as HM0. destruct HM0 as (_ & q' & p' & Mm & E & Hc). intros i v Hv H0 Hn.
  assert (Hl : n = S (S (length Mm))) by (rewrite E; cbn; rewrite app_length; cbn; lia).
  assert (q' = q) by (rewrite E in Hq; now injection Hq). rewrite Hl in Hp. rewrite E in Hp. cbn [Nat.sub nth_error] in Hp. rewrite nth_error_app2 in Hp by lia. rewrite Nat.sub_diag in Hp. assert (p' = p) by now injection Hp. subst q' p'.
  apply Hc. destruct i as [|i]; [lia|]. rewrite E in Hv. cbn in Hv. rewrite nth_error_app1 in Hv by lia. eapply nth_error_In; eauto.
Qed.

Lemma cross_seg p q a b r t : (cx r == cx a + t * (cx b - cx a))%Q -> (cy r == cy a + t * (cy b - cy a))%Q -> (cross p q r == (1 - t) * cross p q a + t * cross p q b)%Q.
Proof. intros Hx Hy. unfold cross. rewrite Hx, Hy. ring. Qed.

Lemma meet i j e f p : i < j -> nth_error (edges V) i = Some e -> nth_error (edges V) j = Some f -> on_segment (fst e) (snd e) p -> on_segment (fst f) (snd f) p ->
  (peq p (fst e) \/ peq p (snd e)) /\ (peq p (fst f) \/ peq p (snd f)).
Proof.
  intros Hij He Hf Oe Of. destruct (edge_at _ _ He) as [(E0 & E1 & E2 & E3)|(E0 & _)].
  2:{ assert (j < n). { rewrite <- (edges_length V). apply nth_error_Some. congruence. } lia. }
  destruct (edge_at _ _ Hf) as [(F0 & F1 & F2 & F3)|(F0 & F1 & F2 & F3)].
  - destruct (seg_between _ _ _ E3 Oe) as (K1 & K2). destruct (seg_between _ _ _ F3 Of) as (L1 & L2).
    assert (Hle : ~ plt (snd e) (fst f)).
    { destruct (Nat.eq_dec (S i) j) as [<-|Hne].
      - assert (fst f = snd e) as -> by congruence. apply plt_no.
      - apply plt_not. apply (sorted_nth V HS (S i) j); auto. lia. }
    assert (A1 : peq p (snd e)). { apply not_plt_eq; auto. intros K. destruct (plt_total (fst f) p) as [?|[G|G]]; [tauto| |].
      - apply Hle. destruct G as (G1 & G2). destruct K as [K|[K K']]; [left|right]; try split; lra.
      - apply Hle. eapply plt_trans; eauto. }
    assert (A2 : peq p (fst f)). { apply not_plt_eq; auto. intros K. apply Hle. destruct A1 as (G1 & G2). destruct K as [K|[K K']]; [left|right]; try split; lra. }
    auto.
  - destruct f as (pp, q). cbn [fst snd] in *. replace j with (n - 1) in * by lia. destruct (base_side pp q F2 F1) as ((Z1 & Z2) & Hpos).
    destruct Oe as (t & T0 & T1 & Tx & Ty). destruct Of as (s & _ & _ & Sx & Sy).
    assert (Hz : (cross pp q p == 0)%Q). { rewrite (cross_seg pp q pp q p s Sx Sy), Z1, Z2. ring. }
    rewrite (cross_seg pp q (fst e) (snd e) p t Tx Ty) in Hz.
    destruct (Nat.eq_dec i 0) as [->|Hi].
    + assert (fst e = q) as Eq by congruence. rewrite Eq, Z1 in Hz. pose proof (Hpos 1 (snd e) E2 ltac:(lia) ltac:(lia)) as Hp.
      assert (t == 0)%Q as Ht. { destruct left; cbn [sgn] in Hp; nra. }
      assert (G : peq p q). { rewrite Eq in Tx, Ty. rewrite Ht in Tx, Ty. split; lra. } rewrite Eq. auto.
    + pose proof (Hpos i (fst e) E1 ltac:(lia) E0) as Hp. destruct (Nat.eq_dec (S (S i)) n) as [Hn|Hn].
      * replace (n - 1) with (S i) in F1 by lia. assert (snd e = pp) as Eq by congruence. rewrite Eq, Z2 in Hz.
        assert (t == 1)%Q as Ht. { destruct left; cbn [sgn] in Hp; nra. }
        assert (G : peq p pp). { rewrite Eq in Tx, Ty. rewrite Ht in Tx, Ty. split; lra. } rewrite Eq. auto.
      * pose proof (Hpos (S i) (snd e) E2 ltac:(lia) ltac:(lia)) as Hp'. exfalso. clear - Hz Hp Hp' T0 T1.
        set (A := cross pp q (fst e)) in *. set (B := cross pp q (snd e)) in *. clearbody A B. destruct left; cbn [sgn] in *.
        -- destruct (Qlt_le_dec t (1#2)); nra.
        -- destruct (Qlt_le_dec t (1#2)); nra.
Qed.

Theorem mountain_valid : valid [V].
Proof.
  split; [now constructor|]. cbn [concat map]. rewrite !app_nil_r. split.
  - intros i j a b Ha Hb Heq. destruct (Nat.lt_trichotomy i j) as [H|[H|H]]; auto; exfalso.
    + apply (plt_irrefl b a); [|apply (sorted_nth V HS i j); auto]. destruct Heq. split; lra.
    + apply (plt_irrefl a b Heq). apply (sorted_nth V HS j i); auto.
  - intros i j e f p He Hf Hne Oe Of. destruct (Nat.lt_trichotomy i j) as [H|[H|H]]; [now apply (meet i j e f)|contradiction|].
    destruct (meet j i f e p H Hf He Of Oe). auto.
Qed.

(** ** The edges *)

Lemma mountain_ends : exists q p Mm, V = q :: Mm ++ [p] /\ Mm <> [] /\ nth_error V 0 = Some q /\ nth_error V (n - 1) = Some p /\ plt p q.
Proof.
  pose proof HM as HM0. destruct HM0 as (_ & q & p & Mm & E & _). exists q, p, Mm. assert (Hl : n = S (S (length Mm))) by (rewrite E; cbn; rewrite app_length; cbn; lia).
  assert (Hp : nth_error V (n - 1) = Some p). { rewrite Hl, E. cbn [Nat.sub nth_error]. rewrite nth_error_app2 by lia. now rewrite Nat.sub_diag. }
  repeat split; auto. { intros ->. cbn in Hl. lia. } { now rewrite E. } apply (sorted_nth V HS 0 (n - 1)); auto; [lia|now rewrite E].
Qed.

Lemma oedge_down (e : edge) : plt (snd e) (fst e) -> oedge e = (snd e, fst e).
Proof.
  intros H. unfold oedge, orient. destruct (coords_lt (fst e) (snd e)) eqn:E; auto. apply coords_lt_spec in E. now elim (plt_not _ _ H).
Qed.
Lemma oedge_up (e : edge) : plt (fst e) (snd e) -> oedge e = e.
Proof. intros H. unfold oedge, orient. apply coords_lt_spec in H. rewrite H. now destruct e. Qed.

Lemma uedge_cases e : In e (uedges [V]) ->
  (exists i, S i < n /\ nth_error V i = Some (snd e) /\ nth_error V (S i) = Some (fst e)) \/ (nth_error V 0 = Some (snd e) /\ nth_error V (n - 1) = Some (fst e)).
Proof.
  unfold uedges. cbn [map concat]. rewrite app_nil_r. intros H. apply in_map_iff in H. destruct H as (f & <- & Hf). apply In_nth_error in Hf. destruct Hf as (i & Hi).
  destruct (edge_at i f Hi) as [(E0 & E1 & E2 & E3)|(E0 & E1 & E2 & E3)].
  - left. exists i. rewrite oedge_down by auto. auto.
  - right. rewrite oedge_up by auto. replace (n - 1) with i by lia. auto.
Qed.

Lemma chain_uedge i a b : nth_error V i = Some a -> nth_error V (S i) = Some b -> In (b, a) (uedges [V]).
Proof.
  intros Ha Hb. unfold uedges. cbn [map concat]. rewrite app_nil_r. apply in_map_iff. exists (a, b). assert (Hn : S i < n) by (apply nth_error_Some; congruence).
  split. { apply oedge_down. cbn. apply (sorted_nth V HS i (S i)); auto. }
  apply (nth_error_In _ i). apply edges_nth. rewrite Nat.mod_small by lia. replace (i + 1) with (S i) by lia. auto.
Qed.
Lemma base_uedge q p : nth_error V 0 = Some q -> nth_error V (n - 1) = Some p -> In (p, q) (uedges [V]).
Proof.
  intros Hq Hp. unfold uedges. cbn [map concat]. rewrite app_nil_r. apply in_map_iff. exists (p, q).
  split. { apply oedge_up. cbn. apply (sorted_nth V HS 0 (n - 1)); auto. lia. }
  apply (nth_error_In _ (n - 1)). apply edges_nth. replace (n - 1 + 1) with n by lia. rewrite Nat.mod_same by lia. auto.
Qed.

(** ** The pieces of a run *)

(** One for the pair [x y], minus one for the pair [y x]. *)
Definition arrow (x y : point) (u v : point) : Q :=
  ((if pt_dec u x then if pt_dec v y then 1 else 0 else 0) - (if pt_dec u y then if pt_dec v x then 1 else 0 else 0))%Q.
Lemma arrow_anti x y : anti (arrow x y).
Proof. intros u v. unfold arrow. destruct (pt_dec u x), (pt_dec v y), (pt_dec u y), (pt_dec v x); ring. Qed.
Lemma arrow_zero x y u v : (u = x -> v = y -> False) -> (u = y -> v = x -> False) -> (arrow x y u v == 0)%Q.
Proof. intros H K. unfold arrow. destruct (pt_dec u x), (pt_dec v y), (pt_dec u y), (pt_dec v x); try ring; exfalso; auto. Qed.
Lemma arrow_one x y : x <> y -> (arrow x y x y == 1)%Q.
Proof. intros H. unfold arrow. destruct (pt_dec x x), (pt_dec y y), (pt_dec x y); try contradiction; ring. Qed.
Lemma arrow_minus x y : x <> y -> (arrow x y y x == -1)%Q.
Proof. intros H. pose proof (arrow_anti x y y x) as K. rewrite K, (arrow_one x y H). ring. Qed.

Section Pieces.
Context {I : Type}.
Variable gv : I -> point.
Variables (M : Q) (st : state Q I) (Ps : list (bool * list (I * coords Q))).
Hypothesis HE : Permutation (medges st) (uedges [V]).
Hypothesis HF : full (concat [V] ++ []) (uedges [V]) M gv st.
Hypothesis HG : geo (concat [V] ++ []) (uedges [V]).
Hypothesis HSh : shear M (concat [V] ++ []).
Hypothesis HP : Forall (piece_ok (concat [V] ++ []) (uedges [V]) gv) Ps.
Hypothesis HW : forall w, anti w -> (sumq (pval w) Ps == sumq (ow M st w) (seq 0 (length (st_ss st))))%Q.

Lemma ow_arrow e : In e (uedges [V]) -> let s := sumq (ow M st (arrow (snd e) (fst e))) (seq 0 (length (st_ss st))) in (s == 1 \/ s == -1)%Q.
Proof.
  intros He. cbv zeta. assert (Hin : In e (medges st)) by (eapply Permutation_in; [symmetry; exact HE|exact He]).
  apply In_nth_error in Hin. destruct Hin as (s0 & Hs0). destruct (medges_inv _ _ _ Hs0) as (g & Hg & Eg).
  destruct (seg_at _ _ M gv st HG HSh HF s0 g Hg) as (_ & _ & P1 & P2 & _). unfold sedge in Eg.
  assert (Hne : snd e <> fst e). { intros K. destruct (g_end _ _ HG e He) as (_ & _ & L). rewrite K in L. now apply plt_no in L. }
  assert (Hl : s0 < length (st_ss st)) by (eapply nth_lt; eauto).
  rewrite (sumq_single _ _ s0).
  - unfold ow. rewrite P1, P2. rewrite <- Eg in *. cbn [fst snd] in *. destruct (scol M st s0); [left; now apply arrow_one|right; now apply arrow_minus].
  - apply seq_NoDup.
  - apply in_seq. lia.
  - intros s Hs Hne'. apply in_seq in Hs. destruct (lt_nth _ _ s (proj2 Hs)) as (g' & Hg'). destruct (seg_at _ _ M gv st HG HSh HF s g' Hg') as (_ & _ & P1' & P2' & _).
    assert (Hd : sedge g' <> e).
    { intros K. apply Hne'. pose proof (c_snd _ _ _ _ _ (f_core _ _ _ _ _ HF)) as Hnd. rewrite NoDup_nth_error in Hnd. apply Hnd.
      - unfold medges. rewrite map_length. lia.
      - rewrite (medges_nth _ _ _ Hg'), Hs0. congruence. }
    destruct (c_ss _ _ _ _ _ (f_core _ _ _ _ _ HF) s g' Hg') as (_ & _ & Hin'). destruct (g_end _ _ HG _ Hin') as (_ & _ & L'). destruct (g_end _ _ HG e He) as (_ & _ & L).
    unfold sedge in *. cbn [fst snd] in *. unfold ow. rewrite P1', P2'. destruct e as (a, b). cbn [fst snd] in *.
    destruct (scol M st s); apply arrow_zero; intros K1 K2; try congruence; rewrite K1, K2 in L'; now elim (plt_not _ _ L).
Qed.

Lemma in_W (p : point) : In p (concat [V] ++ []) <-> In p V.
Proof. cbn. rewrite !app_nil_r. reflexivity. Qed.

Lemma piece_base l (U : list (I * coords Q)) q p : In (l, U) Ps -> nth_error V 0 = Some q -> nth_error V (n - 1) = Some p ->
  l = left /\ StronglySorted (fun a b => plt b a) (map snd U) /\ incl (map snd U) V /\ exists Mm, Mm <> [] /\ map snd U = q :: Mm ++ [p].
Proof.
  intros Hin Hq Hp. rewrite Forall_forall in HP. destruct (HP _ Hin) as ((Hsort & q0 & p0 & M0 & E0 & Hc) & Hl & Hok & e & Mm & He & Em). cbn [fst snd] in *.
  assert (Hincl : incl (map snd U) V).
  { intros x Hx. apply in_map_iff in Hx. destruct Hx as (u & <- & Hu). rewrite Forall_forall in Hok. destruct (Hok u Hu) as (_ & K). now apply in_W in K. }
  assert (Hne : Mm <> []). { intros ->. apply (f_equal (@length _)) in Em. rewrite map_length in Em. cbn in Em. lia. }
  destruct Mm as [|m Mm]; [contradiction|]. clear Hne.
  assert (Hm : In m V) by (apply Hincl; rewrite Em; right; now left). apply In_nth_error in Hm. destruct Hm as (k & Hk).
  assert (M1 : plt m (snd e)). { rewrite Em in Hsort. cbn in Hsort. apply StronglySorted_inv in Hsort. destruct Hsort as (_ & K). now inversion K. }
  assert (M2 : plt (fst e) m). { rewrite Em in Hsort. cbn in Hsort. apply StronglySorted_inv in Hsort. destruct Hsort as (K & _). apply StronglySorted_inv in K. destruct K as (_ & K). rewrite Forall_app in K. destruct K as (_ & K). now inversion K. }
  assert (HB : nth_error V 0 = Some (snd e) /\ nth_error V (n - 1) = Some (fst e)).
  { destruct (uedge_cases e He) as [(i & Hi & E1 & E2)|K]; auto. exfalso. destruct (Nat.lt_trichotomy k i) as [G|[G|G]].
    - apply (plt_not _ _ M1). apply (sorted_nth V HS k i); auto.
    - subst. assert (m = snd e) by congruence. subst. now apply plt_no in M1.
    - destruct (Nat.eq_dec k (S i)) as [->|]. { assert (m = fst e) by congruence. subst. now apply plt_no in M2. }
      apply (plt_not _ _ M2). apply (sorted_nth V HS (S i) k); auto. lia. }
  destruct HB as (B1 & B2). assert (snd e = q) as Eq by congruence. assert (fst e = p) as Ep by congruence. rewrite Eq, Ep in *. clear B1 B2.
  split; [|split; [auto|split; [auto|]]].
  - rewrite Em in E0. cbn [app] in E0. injection E0 as <- E0. change (m :: Mm ++ [p]) with ((m :: Mm) ++ [p]) in E0. apply app_inj_tail in E0. destruct E0 as (<- & <-).
    specialize (Hc m (or_introl eq_refl)). destruct (base_side p q Hq Hp) as (_ & Hpos).
    assert (K : (0 < sgn left * cross p q m)%Q).
    { apply (Hpos k); auto.
      - destruct k; [|lia]. assert (m = q) by congruence. subst. now apply plt_no in M1.
      - assert (k < n) by (apply nth_error_Some; congruence). destruct (Nat.eq_dec (S k) n) as [Ek|]; [|lia]. replace k with (n - 1) in Hk by lia. assert (m = p) by congruence. subst. now apply plt_no in M2. }
    clear - Hc K. destruct l, left; cbn [sgn] in *; auto; exfalso; lra.
  - exists (m :: Mm). split; [discriminate|]. exact Em.
Qed.

Lemma wsum_zero w l : (forall u v, In (u, v) (conse l) -> w u v == 0)%Q -> (wsum w l == 0)%Q.
Proof. intros H. unfold wsum. apply sumq_zero. intros (u, v) K. now apply H. Qed.

Lemma base_val l (U : list (I * coords Q)) q p : In (l, U) Ps -> nth_error V 0 = Some q -> nth_error V (n - 1) = Some p -> (pval (arrow q p) (l, U) == - sgn left)%Q.
Proof.
  intros Hin Hq Hp. destruct (piece_base l U q p Hin Hq Hp) as (-> & Hsort & _ & Mm & Hne & Em). rewrite (pval_at _ left U q p Mm Em), Em.
  assert (Hpq : plt p q) by (apply (sorted_nth V HS 0 (n - 1)); auto; lia). assert (q <> p) by (intros ->; now apply plt_no in Hpq).
  rewrite arrow_minus by auto. rewrite wsum_zero; [ring|]. rewrite Em in Hsort.
  intros u v Huv. apply in_conse in Huv. destruct Huv as (l1 & l2 & El). apply arrow_zero; intros -> ->.
  - destruct l1 as [|a l1]; cbn in El.
    + injection El as El. destruct Mm as [|m Mm]; [contradiction|]. cbn in El. injection El as -> El. apply StronglySorted_inv in Hsort. destruct Hsort as (K & _). cbn in K. apply StronglySorted_inv in K. destruct K as (_ & K).
      rewrite Forall_app in K. destruct K as (_ & K). inversion K; subst. now apply plt_no in H2.
    + injection El as <- El. apply StronglySorted_inv in Hsort. destruct Hsort as (_ & K). rewrite Forall_forall in K. apply (plt_no q). apply K. rewrite El. apply in_or_app. right. now left.
  - destruct l1 as [|a l1]; cbn in El; injection El as E El; [congruence|]. apply StronglySorted_inv in Hsort. destruct Hsort as (_ & K). rewrite Forall_forall in K. apply (plt_no q). apply K. rewrite El. apply in_or_app. right. right. now left.
Qed.

Lemma one_piece : exists U, Ps = [(left, U)] /\ map snd U = V.
Proof.
  destruct mountain_ends as (q & p & M0 & E0 & Hne0 & Hq & Hp & Hpq).
  assert (Hone : exists l U, Ps = [(l, U)]).
  { pose proof (ow_arrow (p, q) (base_uedge q p Hq Hp)) as H. cbv zeta in H. cbn [fst snd] in H. rewrite <- (HW _ (arrow_anti q p)) in H.
    assert (K : (sumq (pval (arrow q p)) Ps == - sgn left * inject_Z (Z.of_nat (length Ps)))%Q).
    { assert (G : forall Qs, incl Qs Ps -> (sumq (pval (arrow q p)) Qs == - sgn left * inject_Z (Z.of_nat (length Qs)))%Q).
      { induction Qs as [|(l, U) Qs IH]; intros Hi; cbn [sumq length]; [ring|]. rewrite Nat2Z.inj_succ. unfold Z.succ. rewrite inject_Z_plus.
        rewrite (base_val l U q p) by (auto; apply Hi; now left). rewrite IH by (intros x Hx; apply Hi; now right). change (inject_Z 1) with 1%Q. ring. }
      apply G. apply incl_refl. }
    rewrite K in H. clear K. assert (length Ps = 1) as Hl.
    { assert (inject_Z (Z.of_nat (length Ps)) == 1 \/ inject_Z (Z.of_nat (length Ps)) == -1)%Q as [G|G] by (destruct left; cbn [sgn] in H; destruct H; [right|left|left|right]; lra).
      - change 1%Q with (inject_Z 1) in G. rewrite inject_Z_injective in G. lia.
      - change (-1)%Q with (inject_Z (-1)) in G. rewrite inject_Z_injective in G. lia. }
    destruct Ps as [|(l, U) [|? ?]]; cbn in Hl; try lia. eauto. }
  destruct Hone as (l & U & EP). assert (Hin : In (l, U) Ps) by (rewrite EP; now left).
  destruct (piece_base l U q p Hin Hq Hp) as (-> & Hsort & Hincl & Mm & Hne & Em). exists U. split; auto. symmetry. apply sorted_same; auto.
  intros x. split; [|apply Hincl]. intros Hx.
  assert (Hboth : forall i a b, nth_error V i = Some a -> nth_error V (S i) = Some b -> In a (map snd U) /\ In b (map snd U)).
  { intros i a b Ha Hb. assert (Hn : S i < n) by (apply nth_error_Some; congruence). assert (Hba : plt b a) by (apply (sorted_nth V HS i (S i)); auto).
    pose proof (ow_arrow (b, a) (chain_uedge i a b Ha Hb)) as H. cbv zeta in H. cbn [fst snd] in H. rewrite <- (HW _ (arrow_anti a b)), EP in H. cbn [sumq] in H.
    rewrite (pval_at _ left U q p Mm Em) in H.
    assert (Hz : (arrow a b p q == 0)%Q).
    { apply arrow_zero; intros <- <-.
      - now elim (plt_not _ _ Hpq).
      - assert (i = 0). { destruct i; auto. exfalso. apply (plt_no q). now apply (sorted_nth V HS 0 (S i)); auto; lia. } subst i.
        apply (plt_no p). apply (sorted_nth V HS 1 (n - 1)); auto. lia. }
    rewrite Hz in H. 
    assert (Hw : ~ (wsum (arrow a b) (map snd U) == 0)%Q). { intros K. rewrite K in H. destruct left; cbn [sgn] in H; destruct H; lra. }
    assert (Hd : forall c, (c = a \/ c = b) -> In c (map snd U)).
    { intros c Hc. destruct (in_dec pt_dec c (map snd U)) as [|Hno]; auto. exfalso. apply Hw, wsum_zero. intros u v Huv. apply in_conse in Huv. destruct Huv as (l1 & l2 & El).
      assert (In u (map snd U)) by (rewrite El; apply in_or_app; right; now left). assert (In v (map snd U)) by (rewrite El; apply in_or_app; right; right; now left).
      apply arrow_zero; intros -> ->; destruct Hc; subst; auto. }
    auto. }
  apply In_nth_error in Hx. destruct Hx as (i & Hi). assert (i < n) by (apply nth_error_Some; congruence). destruct i as [|i].
  - destruct (lt_nth _ _ 1 (ltac:(lia) : 1 < n)) as (b & Hb). now destruct (Hboth 0 x b Hi Hb).
  - destruct (lt_nth _ _ i (ltac:(lia) : i < n)) as (a & Ha). now destruct (Hboth i a x Ha Hi).
Qed.
End Pieces.
End Mountain.

(** ** A run on a mountain *)

Section Run.
Context {I E : Type}.
Variables (gv : I -> point) (ieqb : I -> I -> bool) (dbg cw : bool).
Hypothesis Hieq : forall a b, ieqb a b = true <-> a = b.
Variables (math_n : nat -> nat -> nat) (shuf : nat -> nat -> list nat).
Hypothesis Hshuf : forall k n, Permutation (shuf k n) (seq 0 n).
Variable elems : list (element I).
Variables (left : bool) (V : list point).
Hypothesis HM : mountain left V.
Hypothesis H3 : 3 <= length V.
Hypothesis HV : map (map gv) (groups elems) = [V].

(** A run that does not run out of fuel has enough fuel to cut the whole polygon as one piece. *)
Theorem mountain_run : exists U : list (I * coords Q), map snd U = V /\ forall fuel,
  snd (api_calls E ieqb gv cw dbg fuel math_n shuf elems) = Crash Fuel \/ quick (E := E) fuel (left, U).
Proof.
  assert (Hval : valid (map (map gv) (groups elems))) by (rewrite HV; now apply (mountain_valid left)).
  destruct (trapezoidize_done gv ieqb dbg Hieq math_n shuf Hshuf elems Hval) as (st & (N0 & HN0) & HD).
  destruct (pieces_at (E := E) gv elems Hval cw st HD) as (M & Ps & HSh & HP & HW & HQ).
  assert (Hex : extra gv elems []) by (split; [|split]; easy). destruct (HD [] M Hex HSh) as [G _ F HE Pp Dg]. rewrite HV in *.
  destruct (one_piece left V HM H3 gv M st Ps HE F G HSh HP HW) as (U & -> & HU). exists U. split; auto.
  intros fuel. unfold api_calls. destruct (trapezoidize_mono ieqb gv dbg fuel (fuel + N0) (Nat.le_add_r _ _) math_n shuf elems) as [H|H].
  - left. now rewrite H.
  - rewrite H, HN0 by lia. destruct (HQ fuel) as [K|K]; [now left|right]. now inversion K.
Qed.
End Run.
