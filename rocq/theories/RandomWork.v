(** The iterations of the construction over all orders of insertion of one valid polygon. *)
From Coq Require Import QArith Lqa List Arith Lia Bool Permutation.
From Verif Require Import Base Coord Trap Lanes Plane Geo Region TrapInv Depth AddVertex SegStep Polygons Build Locate Faces Clear Canon Orders Random RandomSize Work WorkCount WalkAdj LoopWork.
Import ListNotations.
Local Open Scope nat_scope.

(** What a loop costs when the step after [i] segments costs [f i r], where the last re-location was after [r] segments, and
    the re-location after [i] segments [g i]. *)
Fixpoint sched (f : nat -> nat -> nat) (g : nat -> nat) (mn : nat -> nat) (todo i r uc nu : nat) : nat :=
  match todo with
  | 0 => 0
  | S todo => S (f i r + if Nat.eqb i nu then g (S i) + sched f g mn todo (S i) (S i) (uc + 1) (mn (uc + 1)) else sched f g mn todo (S i) r uc nu)
  end.

Section Random.
Context {I : Type}.
Variables (gv : I -> point) (ieqb : I -> I -> bool) (dbg : bool).
Hypothesis Hieq : forall a b, ieqb a b = true <-> a = b.
Variable math_n : nat -> nat -> nat.
Variable poly : list I.
Notation n := (length poly).
Notation V := (map gv poly).
Notation ps := [V].
Hypothesis HV : valid ps.
Notation stt := (state Q I).
Notation good := (good poly).
Notation ploop := (ploop gv ieqb dbg math_n poly).
Notation eof := (eof gv poly).
Notation prun := (prun gv poly).
Notation sof := (sof gv ieqb dbg math_n poly).
Notation dep := (dep gv ieqb dbg math_n poly).
Notation away := (away gv poly).
Variable M : Q.
Hypothesis HM : shear M (V ++ []).
Variable K : nat.
Hypothesis HK : forall l, good l -> exists st vls, evt (fun k => ploop k l) (st, vls) /\ ploop K l = Ok (st, vls).
Hypothesis HE : forall p, In p V -> enough gv ieqb dbg math_n poly p M K.

Let X0 : xtra gv poly [].
Proof. split; [|split]; easy. Qed.

Definition awayb (p : point) (l : list nat) : bool := forallb (fun j => negb (touches p (eof j))) l.
Lemma awayb_spec p l : awayb p l = true <-> away p l.
Proof.
  unfold awayb. rewrite forallb_forall. split; intros H j Hj; specialize (H j Hj); destruct (touches p (eof j)); easy.
Qed.

(** The search for one end of a segment, for both, and a re-location. *)
Definition vcost (l : list nat) (r : nat) (p : point) : nat := if awayb p l then 2 + (dep p K l - dep p K (firstn r l)) else 0.
Definition stepc (r : nat) (l : list nat) : nat := vcost (removelast l) r (fst (eof (last l 0))) + vcost (removelast l) r (snd (eof (last l 0))).
Definition wk (l : list nat) (j : nat) : nat := adj (st_ts (sof K (l ++ [j]))) (length l).
Definition passc (l m : list nat) : nat := S (n + nsum (fun j => S (wk l j)) m).

Lemma away_pend l st vls p : prun [] M l st vls -> ~ In p (points st) -> away p l.
Proof.
  intros HP Hn j Hj. destruct (touches p (eof j)) eqn:E; auto. exfalso. apply Hn. apply (run_points gv poly [] M l st vls p HP). exists (eof j). split; [|now apply touches_spec].
  rewrite (p_edges _ _ _ _ _ _ _ HP). now apply in_map.
Qed.

Lemma pending_at (st : stt) vls i x q : vls_ok M gv poly st vls -> nth_error vls i = Some (Pending (gv x) x q) -> nth_error poly i = Some x /\ ~ In (gv x) (points st) /\ In (gv x) V.
Proof.
  intros (Hl & Ho) Hi. pose proof (nth_lt _ _ _ _ Hi) as L. rewrite Hl in L. destruct (lt_nth _ poly i L) as (a & Ha). destruct (Ho i a Ha) as [(q' & K1 & K2 & _)|(ni & K1 & _)]; [|congruence].
  assert (a = x) by congruence. subst a. split; auto. split; auto. apply in_map. eapply nth_error_In; eauto.
Qed.

Lemma sof_at l st vls : good l -> evt (fun k => ploop k l) (st, vls) -> sof K l = st.
Proof. intros Hg E. destruct (HK l Hg) as (s & v & E' & E1). pose proof (evt_eq _ _ _ E E') as Z. injection Z as <- <-. unfold Random.sof. now rewrite E1. Qed.

Lemma eof_ends j a b : j < n -> nth_error poly j = Some a -> nth_error poly ((j + 1) mod n) = Some b ->
  forall f : point -> nat, f (gv a) + f (gv b) = f (fst (eof j)) + f (snd (eof j)).
Proof.
  intros Hj Ha Hb f. destruct (eof_at gv poly j Hj) as (a' & b' & Ha' & Hb' & ->). assert (a' = a) by congruence. assert (b' = b) by congruence. subst. unfold orient. destruct (coords_lt (gv a) (gv b)); cbn; lia.
Qed.

Lemma sedge_eof j e : sedge_at gv poly j e -> j < n /\ e = eof j.
Proof.
  intros H. assert (Hj : j < n) by (destruct H as (a & b & Ha & _); eapply nth_lt; eauto). split; auto. pose proof (at_eof gv poly [j] [e] (Forall2_cons _ _ H (Forall2_nil _))) as Z.
  assert (K' : [e] = map eof [j]) by (apply Z; intros x [<-|[]]; auto). now injection K'.
Qed.

Lemma sedge_in j e : sedge_at gv poly j e -> In e (uedges ps).
Proof. intros H. apply sedge_eof in H. destruct H as (Hj & ->). now apply eof_in. Qed.

Lemma nsum_perm {A} (f : A -> nat) l l' : Permutation l l' -> nsum f l = nsum f l'.
Proof. unfold nsum. induction 1; cbn; lia. Qed.
Lemma nsum_app {A} (f : A -> nat) l l' : nsum f (l ++ l') = nsum f l + nsum f l'.
Proof. unfold nsum. induction l; cbn; lia. Qed.

(** The iterations of the loop. *)
Lemma loop_cost order : forall l r st vls uc nu,
  Permutation (l ++ order) (seq 0 n) -> prun [] M l st vls -> sof K l = st -> r <= length l ->
  (forall o, exists N, forall k, N <= k -> ploop k (l ++ o) = polygon_loop ieqb gv dbg k math_n n o (length l) st vls (pends vls) uc nu) ->
  (forall j a q, nth_error vls j = Some (Pending (gv a) a q) -> exists i, find K (st_qs (sof K (firstn r l))) (gv a) 0 = Ok (q, i)) ->
  kept (sof K (firstn r l)) st ->
  exists N, forall k st' vls', N <= k -> fst (polygon_loop_c ieqb gv dbg k math_n n order (length l) st vls (pends vls) uc nu) = Ok (st', vls') ->
    snd (polygon_loop_c ieqb gv dbg k math_n n order (length l) st vls (pends vls) uc nu) + length (st_qs st) <=
    length (st_qs st') + sched (fun i r => stepc r (firstn (S i) (l ++ order))) (fun i => passc (firstn i (l ++ order)) (skipn i (l ++ order))) (math_n n) (length order) (length l) r uc nu.
Proof.
  induction order as [|j order IH]; intros l r st vls uc nu Hperm HP Hsof Hr Hdec Hlin Hkept.
  { exists 0. intros k st' vls' _ H. cbn [polygon_loop_c free fst snd sched length] in *. injection H as <- _. lia. }
  assert (Hgo : good (l ++ j :: order)). { eapply good_perm; [symmetry; exact Hperm|]. split; [apply seq_NoDup|]. intros x Hx. apply in_seq in Hx. lia. }
  assert (Hg1 : good (l ++ [j])). { split. { destruct Hgo as (H1 & _). replace (l ++ j :: order) with ((l ++ [j]) ++ order) in H1 by now rewrite <- app_assoc. apply NoDup_app_inv in H1. tauto. } intros x Hx. apply Hgo. apply in_app_or in Hx. apply in_or_app. destruct Hx as [?|[->|[]]]; cbn; auto. }
  destruct (good_init poly l j Hg1) as (Hgl & Hnj & Hj).
  pose proof (hlen gv poly HV) as Hl3. assert (H2l : 2 <= n) by lia. pose proof (valid_nd ps HV) as Knd. rewrite (cps gv poly) in Knd.
  assert (HinW : forall j a, nth_error poly j = Some a -> In (gv a) (V ++ [])). { intros i a Ha. apply in_or_app. left. apply in_map. eapply nth_error_In; eauto. }
  pose proof HP as [PG PS PR PV PE PP]. pose proof (f_core _ _ _ _ _ (r_full _ _ _ _ _ _ PR)) as Hc.
  destruct (add_nth_ok (V ++ []) (uedges ps) M gv PG HM ieqb Hieq (valid_cnt ps HV) dbg poly H2l Knd HinW st vls j (eof j)) as (st1 & vls1 & added & (N1 & A1) & A2 & A3 & A4 & A5 & A6 & A7 & A8 & A9); auto.
  { now apply eof_at. } { now apply (eof_in gv poly). }
  { rewrite PE. intros Z. apply in_map_iff in Z. destruct Z as (i & K1 & K2). apply Hnj. replace j with i; auto. apply (eof_inj gv poly HV); auto. now apply Hgl. }
  assert (Epd : pends vls - added = pends vls1) by lia.
  (* the segment *)
  destruct (lt_nth _ poly j Hj) as (a & Ha). destruct (lt_nth _ poly ((j + 1) mod n)) as (b & Hb). { apply Nat.mod_upper_bound. lia. }
  set (gap p := dep p K l - dep p K (firstn r l)).
  assert (HB : forall i x q s1 k, nth_error vls i = Some (Pending (gv x) x q) -> (s1 = st \/ vgrow 1 st s1) -> vis k (st_qs s1) (gv x) q <= 2 + gap (gv x)).
  { intros i x q s1 k Hi Hs1. destruct (pending_at st vls i x q PV Hi) as (Hx & Hnp & HxV). pose proof (away_pend l st vls (gv x) HP Hnp) as Haw.
    destruct (HE (gv x) HxV l Hgl Haw) as (s & v & i' & t & E & E1 & F & T & _). assert (Es : s = st). { unfold Random.sof in Hsof. now rewrite E1 in Hsof. } subst s.
    destruct (Hlin i x q Hi) as (i0 & F0). assert (Ed : dep (gv x) K l = vis K (st_qs st) (gv x) 0) by (unfold Random.dep; now rewrite Hsof). pose proof (vis_find _ _ _ _ _ F) as Fv. rewrite <- Ed in Fv.
    fold (dep (gv x) K (firstn r l)) in *. destruct Hs1 as [->|(_ & _ & _ & GK & GD)].
    - pose proof (vis_cut K (st_qs (sof K (firstn r l))) (st_qs st) (gv x) Hkept _ 0 q i0 _ F0 Fv k) as Z. unfold gap. unfold Random.dep at 2. lia.
    - destruct (GD (gv x) _ _ _ _ Fv T) as (d' & k' & i2 & t2 & F2 & _ & F3 & _).
      assert (Hk1 : kept (sof K (firstn r l)) s1) by (intros q1 l1 r1 b1 Hq; apply GK, Hkept, Hq).
      pose proof (vis_cut K (st_qs (sof K (firstn r l))) (st_qs s1) (gv x) Hk1 _ 0 q i0 _ F0 F2 k) as Z. unfold gap. unfold Random.dep at 2. lia. }
  destruct (add_nth_cost (V ++ []) (uedges ps) M gv PG HM ieqb dbg poly H2l Knd HinW st vls j a b gap PR PV Hj Ha Hb HB) as (N2 & C2).
  assert (Hstep : pat vls j * (2 + gap (gv a)) + pat vls ((j + 1) mod n) * (2 + gap (gv b)) <= stepc r (firstn (S (length l)) (l ++ j :: order))).
  { replace (firstn (S (length l)) (l ++ j :: order)) with (l ++ [j]). 2:{ rewrite firstn_app. replace (S (length l) - length l) with 1 by lia. rewrite firstn_all2 by lia. reflexivity. }
    unfold stepc. rewrite removelast_last, last_last. rewrite <- (eof_ends j a b Hj Ha Hb (vcost l r)).
    assert (G : forall i x, nth_error poly i = Some x -> pat vls i * (2 + gap (gv x)) <= vcost l r (gv x)).
    { intros i x Hx. unfold pat. destruct (proj2 PV i x Hx) as [(q & K1 & K2 & _)|(ni & K1 & _)]; rewrite K1; [|lia]. unfold vcost. rewrite (proj2 (awayb_spec (gv x) l) (away_pend l st vls (gv x) HP K2)). unfold gap. lia. }
    pose proof (G j a Ha). pose proof (G _ b Hb). lia. }
  (* the run so far *)
  assert (HP1 : forall v, vls_ok M gv poly st1 v -> prun [] M (l ++ [j]) st1 v).
  { intros v Hv. split; auto. { rewrite A4, PE, map_app. reflexivity. } intros x Hx. apply A6 in Hx. apply in_app_or in Hx. destruct Hx; auto. }
  assert (Hfin : forall v uc' nu', (forall o, exists N, forall k, N <= k -> ploop k ((l ++ [j]) ++ o) = polygon_loop ieqb gv dbg k math_n n o (length (l ++ [j])) st1 v (pends v) uc' nu') -> sof K (l ++ [j]) = st1).
  { intros v uc' nu' Hd. destruct (Hd []) as (N & HN). apply (sof_at _ _ v Hg1). exists N. intros k Hk. specialize (HN k Hk). rewrite app_nil_r in HN. rewrite HN. reflexivity. }
  assert (Hk1 : kept st st1) by (destruct A9 as (_ & _ & _ & Z & _); exact Z).
  assert (Hlen1 : length (l ++ [j]) = length l + 1) by (rewrite app_length; reflexivity).
  assert (Happ : (l ++ [j]) ++ order = l ++ j :: order) by now rewrite <- app_assoc.
  destruct (Nat.eqb (length l) nu) eqn:Enu.
  - (* re-location *)
    destruct (relocate_start (V ++ []) (uedges ps) M gv PG HM (valid_cnt ps HV) poly H2l Knd sedge_in st1 vls1 j coords_zero A2 A3 Hj A8) as (vls2 & (N3 & B1) & B2 & B3).
    assert (Hdec2 : forall o, exists N, forall k, N <= k -> ploop k ((l ++ [j]) ++ o) = polygon_loop ieqb gv dbg k math_n n o (length (l ++ [j])) st1 vls2 (pends vls2) (uc + 1) (math_n n (uc + 1))).
    { intros o. destruct (Hdec (j :: o)) as (N & HN). exists (max N (max N1 N3)). intros k Hk. rewrite <- app_assoc. cbn [app]. rewrite HN by lia. cbn [polygon_loop]. rewrite A1 by lia. cbn [bind]. rewrite Enu, Epd, B1 by lia. cbn [bind]. rewrite Hlen1, B3. reflexivity. }
    pose proof (Hfin _ _ _ Hdec2) as Hs1. pose proof (HP1 vls2 B2) as HP2.
    set (un x := negb (existsb (Nat.eqb x) (l ++ [j]))).
    assert (Hun : forall x e, sedge_at gv poly x e -> ~ In e (medges st1) -> un x = true).
    { intros x e Hx Hn. apply sedge_eof in Hx. destruct Hx as (Hx & ->). unfold un. destruct (existsb (Nat.eqb x) (l ++ [j])) eqn:Ex; auto. exfalso. apply existsb_exists in Ex. destruct Ex as (y & Hy & Ey). apply Nat.eqb_eq in Ey. subst y.
      apply Hn. rewrite (p_edges _ _ _ _ _ _ _ HP2). now apply in_map. }
    assert (Hpc := pass_cost (V ++ []) (uedges ps) M gv PG HM (valid_cnt ps HV) poly H2l sedge_in st1 un (wk (l ++ [j])) A2 Hun).
    assert (Hwk : forall x e d k i t i', x < n -> sedge_at gv poly x e -> ~ In e (medges st1) -> ~ In (eend d e) (points st1) -> nth_error (st_ts st1) i = Some t -> through M e (reg st1 t) ->
      fst (walk_c k st1 d (eend (opp d) e) (eend d e) i) = Ok i' -> snd (walk_c k st1 d (eend (opp d) e) (eend d e) i) <= S (wk (l ++ [j]) x)).
    { intros x e d k i t i' Hx He Hne Hnp Hi Hth Hw. apply sedge_eof in He. destruct He as (_ & ->).
      assert (Hgx : good ((l ++ [j]) ++ [x])).
      { split.
        - apply (Permutation_NoDup (l := x :: l ++ [j])); [apply Permutation_cons_append|]. constructor; [|apply Hg1]. intros Z. apply Hne. rewrite (p_edges _ _ _ _ _ _ _ HP2). now apply in_map.
        - intros y Hy. apply in_app_or in Hy. destruct Hy as [Hy|[<-|[]]]; auto. now apply Hg1. }
      destruct (prefix_run gv ieqb dbg Hieq math_n poly HV _ Hgx) as (sx & vx & Ex & HPx). specialize (HPx [] M X0 HM). pose proof (sof_at _ _ _ Hgx Ex) as Hsx. pose proof (p_edges _ _ _ _ _ _ _ HPx) as Exx. pose proof (p_edges _ _ _ _ _ _ _ HP2) as E22.
      unfold wk. rewrite Hsx. eapply (walk_adj (V ++ []) (uedges ps) M gv st1 sx (eof x) (length (l ++ [j])) PG HM (r_full _ _ _ _ _ _ A2) (r_full _ _ _ _ _ _ (p_rest _ _ _ _ _ _ _ HPx))); eauto.
      - now apply eof_in.
      - rewrite Exx, E22, (map_app eof (l ++ [j]) [x]). apply incl_appl, incl_refl.
      - intros f Hf. rewrite Exx, (map_app eof (l ++ [j]) [x]) in Hf. apply in_app_or in Hf. destruct Hf as [Hf|[<-|[]]]; auto. right. now rewrite E22.
      - intros p Hp. apply (run_points gv poly _ _ _ _ _ p HP2) in Hp. apply (run_points gv poly _ _ _ _ _ p HPx). destruct Hp as (f & Hf & Kf). exists f. split; auto. rewrite Exx, (map_app eof (l ++ [j]) [x]). apply in_or_app. left. now rewrite <- E22.
      - apply (f_equal (@length _)) in Exx. unfold medges in Exx. rewrite !map_length, app_length in Exx. cbn [length] in Exx. rewrite Exx. lia.
      - unfold eat. rewrite Exx, (map_app eof (l ++ [j]) [x]), app_nth2; rewrite map_length; auto. rewrite Nat.sub_diag. reflexivity. }
    specialize (Hpc Hwk vls1 j coords_zero A3 Hj A8).
    assert (Hpass : S (sumf (fun x => S (if un x then S (wk (l ++ [j]) x) else 0)) (seq 0 n)) <= passc (l ++ [j]) order).
    { unfold passc. apply le_n_S. change (nsum (fun x => S (if un x then S (wk (l ++ [j]) x) else 0)) (seq 0 n) <= n + nsum (fun j0 => S (wk (l ++ [j]) j0)) order).
      etransitivity; [apply (nsum_le _ (fun x => 1 + (if un x then S (wk (l ++ [j]) x) else 0))); auto|]. rewrite nsum_add, nsum_const, seq_length, Nat.mul_1_l. apply Nat.add_le_mono_l.
      rewrite <- Happ in Hperm. rewrite <- (nsum_perm _ _ _ Hperm), nsum_app.
      rewrite (nsum_ext (fun x => if un x then S (wk (l ++ [j]) x) else 0) (fun _ => 0) (l ++ [j])).
      - rewrite nsum_const. cbn. apply nsum_le. intros x _. destruct (un x); lia.
      - intros x Hx. unfold un. assert (existsb (Nat.eqb x) (l ++ [j]) = true) as ->; auto. apply existsb_exists. exists x. split; auto. apply Nat.eqb_refl. }
    assert (Hfull : firstn (S (length l)) (l ++ [j]) = l ++ [j]) by (apply firstn_all2; lia).
    destruct (IH (l ++ [j]) (S (length l)) st1 vls2 (uc + 1) (math_n n (uc + 1))) as (N4 & C4); auto.
    { now rewrite Happ. } { lia. }
    { rewrite Hfull, Hs1. intros x a0 q0 Hx. destruct (pending_at st1 vls2 x a0 q0 B2 Hx) as (Hx1 & Hx2 & Hx3). pose proof (away_pend _ _ _ _ HP2 Hx2) as Haw.
      destruct (HE (gv a0) Hx3 _ Hg1 Haw) as (s & v & i' & t & E & E1 & F & T & Hin). assert (Es : s = st1). { unfold Random.sof in Hs1. now rewrite E1 in Hs1. } subst s. exists i'. rewrite F. do 2 f_equal.
      destruct (Hpc (max N3 N3) (max N3 N3) vls2) as (_ & Hfr). { rewrite erase_relocate. apply B1. lia. }
      destruct (Hfr x (nth_lt _ _ _ _ Hx1) _ _ _ Hx) as (ti & t0 & T0 & Hin0 & ->).
      assert (ti = i') by (eapply (c_one _ _ _ _ _ (f_core _ _ _ _ _ (r_full _ _ _ _ _ _ A2)) (gv a0)); eauto; apply in_or_app; now left). subst ti. congruence. }
    { rewrite Hfull, Hs1. intros q l0 r0 b0 Hq. exact Hq. }
    exists (max (max N1 N2) (max N3 N4)). intros k st' vls' Hk H. cbn [polygon_loop_c] in H |- *. unfold tick in H |- *. cbn [fst snd] in H |- *.
    apply cbind_inv in H. destruct H as ([[s1 v1] ad] & H1 & H & S). rewrite S. clear S. destruct (C2 k s1 v1 ad ltac:(lia) H1) as (Z1 & _). pose proof H1 as H1'. rewrite erase_add_nth, A1 in H1' by lia. injection H1' as <- <- <-.
    cbn zeta in H |- *. rewrite Enu, Epd in H |- *. apply cbind_inv in H. destruct H as (v2 & H2 & H & S). rewrite S. clear S. destruct (Hpc k k v2 H2) as (Z2 & _). rewrite erase_relocate, B1 in H2 by lia. injection H2 as <-.
    rewrite <- Hlen1, <- B3 in H |- *. specialize (C4 k st' vls' ltac:(lia) H). rewrite Happ in C4. cbn [length sched]. rewrite Enu.
    replace (firstn (S (length l)) (l ++ j :: order)) with (l ++ [j]) in *. 2:{ rewrite firstn_app. replace (S (length l) - length l) with 1 by lia. rewrite firstn_all2 by lia. reflexivity. }
    replace (skipn (S (length l)) (l ++ j :: order)) with order. 2:{ rewrite skipn_app. replace (S (length l) - length l) with 1 by lia. rewrite skipn_all2 by lia. reflexivity. }
    rewrite Hlen1 in C4 |- *. rewrite (Nat.add_1_r (length l)) in C4 |- *. rewrite B3 in C4 |- *. lia.
  - (* no re-location *)
    assert (Hdec2 : forall o, exists N, forall k, N <= k -> ploop k ((l ++ [j]) ++ o) = polygon_loop ieqb gv dbg k math_n n o (length (l ++ [j])) st1 vls1 (pends vls1) uc nu).
    { intros o. destruct (Hdec (j :: o)) as (N & HN). exists (max N N1). intros k Hk. rewrite <- app_assoc. cbn [app]. rewrite HN by lia. cbn [polygon_loop]. rewrite A1 by lia. cbn [bind]. rewrite Enu, Epd, Hlen1. reflexivity. }
    pose proof (Hfin _ _ _ Hdec2) as Hs1. pose proof (HP1 vls1 A3) as HP2.
    assert (Hfr : firstn r (l ++ [j]) = firstn r l). { rewrite firstn_app. replace (r - length l) with 0 by lia. cbn [firstn]. apply app_nil_r. }
    destruct (IH (l ++ [j]) r st1 vls1 uc nu) as (N4 & C4); auto.
    { now rewrite Happ. } { lia. }
    { rewrite Hfr. intros x a0 q0 Hx. apply (Hlin x a0 q0). assert (Hm : exists k, N1 <= k /\ N2 <= k) by (exists (max N1 N2); lia). destruct Hm as (k & M1 & M2). destruct (C2 k st1 vls1 added M2) as (_ & Z). { rewrite erase_add_nth. now apply A1. } now apply Z. }
    { rewrite Hfr. intros q l0 r0 b0 Hq. now apply Hk1, Hkept. }
    exists (max (max N1 N2) N4). intros k st' vls' Hk H. cbn [polygon_loop_c] in H |- *. unfold tick in H |- *. cbn [fst snd] in H |- *.
    apply cbind_inv in H. destruct H as ([[s1 v1] ad] & H1 & H & S). rewrite S. clear S. destruct (C2 k s1 v1 ad ltac:(lia) H1) as (Z1 & _). pose proof H1 as H1'. rewrite erase_add_nth, A1 in H1' by lia. injection H1' as <- <- <-.
    cbn zeta in H |- *. rewrite Enu, Epd in H |- *. rewrite <- Hlen1 in H |- *. specialize (C4 k st' vls' ltac:(lia) H). rewrite Happ in C4. cbn [length sched]. rewrite Enu.
    rewrite Hlen1 in C4 |- *. rewrite (Nat.add_1_r (length l)) in C4 |- *. lia.
Qed.
End Random.
