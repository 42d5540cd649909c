(** The iterations of the construction on one valid polygon, averaged over all orders of insertion. *)
From Coq Require Import QArith Lqa List Arith Lia Bool Permutation.
From Verif Require Import Base Coord Trap Lanes Plane Geo Region TrapInv Depth AddVertex SegStep Polygons Build Locate Faces Clear Canon Orders Averages Random RandomSize Work WorkCount WalkAdj LoopWork RandomWork.
Import ListNotations.
Local Open Scope nat_scope.

(** ** The elements *)

Lemma build_poly_c {I} (gv : I -> point) ieqb dbg fuel math_n shuf (poly : list I) k post : forall st vl,
  build_loop_c ieqb gv dbg fuel math_n shuf (map (@Continue I) poly ++ post) k st vl =
  (fst (build_loop_c ieqb gv dbg fuel math_n shuf post k st (vl ++ map (pend1 gv) poly)), length poly + snd (build_loop_c ieqb gv dbg fuel math_n shuf post k st (vl ++ map (pend1 gv) poly))).
Proof.
  induction poly as [|a poly IH]; intros st vl.
  - cbn [map app length Nat.add]. rewrite app_nil_r. now destruct (build_loop_c _ _ _ _ _ _ _ _ _ _).
  - cbn [map app build_loop_c]. rewrite IH, <- app_assoc. cbn [app length tick fst snd]. reflexivity.
Qed.

Lemma pends_new {I} (gv : I -> point) (poly : list I) : pends (map (pend1 gv) poly) = length poly.
Proof. unfold pends. induction poly as [|a poly IH]; auto. cbn. now rewrite IH. Qed.

Section Average.
Context {I : Type}.
Variables (gv : I -> point) (ieqb : I -> I -> bool) (dbg : bool).
Hypothesis Hieq : forall a b, ieqb a b = true <-> a = b.
Variable math_n : nat -> nat -> nat.
Variable poly : list I.
Notation n := (length poly).
Notation V := (map gv poly).
Notation ps := [V].
Hypothesis HV : valid ps.
Notation stt := (state Q I).
Notation good := (good poly).
Notation ploop := (ploop gv ieqb dbg math_n poly).
Notation eof := (eof gv poly).
Notation prun := (prun gv poly).
Notation sof := (sof gv ieqb dbg math_n poly).
Notation dep := (dep gv ieqb dbg math_n poly).
Notation away := (away gv poly).
Notation stepc := (stepc gv ieqb dbg math_n poly).
Notation vcost := (vcost gv ieqb dbg math_n poly).
Notation wk := (wk gv ieqb dbg math_n poly).
Notation passc := (passc gv ieqb dbg math_n poly).
Variable M : Q.
Hypothesis HM : shear M (V ++ []).
Variable K : nat.
Hypothesis HK : forall l, good l -> exists st vls, evt (fun k => ploop k l) (st, vls) /\ ploop K l = Ok (st, vls).
Hypothesis HE : forall p, In p V -> enough gv ieqb dbg math_n poly p M K.

Let X0 : xtra gv poly [].
Proof. split; [|split]; easy. Qed.

Definition scost (o : list nat) : nat := sched (fun i r => stepc K r (firstn (S i) o)) (fun i => passc K (firstn i o) (skipn i o)) (math_n n) n 0 0 1 (math_n n 1).

Lemma good_nil : good [].
Proof. split; [constructor|easy]. Qed.

Lemma order_cost o : Permutation o (seq 0 n) -> exists N, forall k, N <= k ->
  exists st, fst (trapezoidize_c ieqb gv dbg k math_n (fun _ _ => o) (map (@Continue I) poly)) = Ok st /\ st = sof K o /\
  snd (trapezoidize_c ieqb gv dbg k math_n (fun _ _ => o) (map (@Continue I) poly)) <= n + length (st_qs st) + scost o.
Proof.
  intros Hp. assert (Hgo : good o). { eapply good_perm; [symmetry; exact Hp|]. split; [apply seq_NoDup|]. intros j Hj. apply in_seq in Hj. lia. }
  pose proof (hlen gv poly HV) as Hl3.
  destruct (prefix_run gv ieqb dbg Hieq math_n poly HV [] good_nil) as (s & v & E & HP). pose proof (evt_eq _ _ _ E (evt_ret (state_new, map (pend1 gv) poly))) as Z. injection Z as -> ->.
  specialize (HP [] M X0 HM). pose proof (sof_at gv ieqb dbg math_n poly K HK [] _ _ good_nil E) as S0.
  assert (HK1 : exists K', K = S K').
  { destruct K as [|K']; [|eauto]. exfalso. destruct poly as [|a p'] eqn:Ep; [cbn in Hl3; lia|]. destruct (HE (gv a)) with (l := @nil nat) as (st & vls & i & t & _ & _ & F & _); [now left|split; [constructor|easy]|easy|discriminate]. }
  destruct (loop_cost gv ieqb dbg Hieq math_n poly HV M HM K HK HE o [] 0 state_new (map (pend1 gv) poly) 1 (math_n n 1)) as (N & HN).
  - exact Hp.
  - exact HP.
  - exact S0.
  - cbn; lia.
  - intros o'. exists 0. intros k _. rewrite pends_new. reflexivity.
  - cbn [firstn]. rewrite S0. intros j a q Hj. apply nth_error_In, in_map_iff in Hj. destruct Hj as (b & Eb & _). unfold pend1 in Eb. injection Eb as _ _ <-. destruct HK1 as (K' & ->). exists 0. reflexivity.
  - cbn [firstn]. rewrite S0. intros q l r b H. exact H.
  - destruct (HK o Hgo) as (st & vls & (N' & E1) & _). exists (max N N'). intros k Hk.
    assert (Ek : ploop k o = Ok (st, vls)) by (apply E1; lia). pose proof (sof_at gv ieqb dbg math_n poly K HK o st vls Hgo (ex_intro _ N' E1)) as So.
    assert (Ec : fst (polygon_loop_c ieqb gv dbg k math_n n o 0 state_new (map (pend1 gv) poly) n 1 (math_n n 1)) = Ok (st, vls)) by (rewrite erase_polygon_loop; exact Ek).
    specialize (HN k st vls). cbn [length app] in HN. rewrite pends_new in HN. specialize (HN ltac:(lia) Ec).
    assert (Lo : length o = n) by (apply Permutation_length in Hp; now rewrite seq_length in Hp). rewrite Lo in HN. fold (scost o) in HN.
    assert (Et : trapezoidize_c ieqb gv dbg k math_n (fun _ _ => o) (map (@Continue I) poly) = (Ok st, n + S (snd (polygon_loop_c ieqb gv dbg k math_n n o 0 state_new (map (pend1 gv) poly) n 1 (math_n n 1))))).
    { unfold trapezoidize_c. rewrite build_poly_c. cbn [app build_loop_c]. rewrite map_length.
      assert (Nat.ltb 0 n = true) as -> by (apply Nat.ltb_lt; lia). assert (Nat.ltb n 3 = false) as -> by (apply Nat.ltb_ge; lia). unfold add_polygon_c. rewrite map_length.
      destruct (polygon_loop_c ieqb gv dbg k math_n n o 0 state_new (map (pend1 gv) poly) n 1 (math_n n 1)) as [x y]. cbn [fst] in Ec. subst x. unfold tick, cbind, cmap_err, free, map_err. cbn [fst snd]. f_equal. lia. }
    rewrite Et. cbn [fst snd]. exists st. repeat split; auto. cbn [state_new st_qs length] in HN. lia.
Qed.

(** ** One step *)

Lemma good_remove A e : good A -> good (remove Nat.eq_dec e A).
Proof. intros (H1 & H2). split; [now apply remove_nd|]. intros j Hj. apply in_remove in Hj. apply H2. tauto. Qed.

Lemma awayb_perm p l l' : Permutation l l' -> awayb gv poly p l = awayb gv poly p l'.
Proof.
  intros H. destruct (awayb gv poly p l) eqn:E; symmetry.
  - apply awayb_spec. apply awayb_spec in E. eapply away_perm; eauto.
  - apply not_true_iff_false. intros E'. apply not_true_iff_false in E. apply E. apply awayb_spec. apply awayb_spec in E'. eapply away_perm; [symmetry; eauto|auto].
Qed.

Definition gap (r i : nat) : Q := hsum (fun k => if Nat.leb k r then 0 else 12)%Q i.

Lemma gap_pos r i : (0 <= gap r i)%Q.
Proof.
  unfold gap. induction i as [|i IH]; [cbn; lra|]. cbn [hsum]. assert (0 <= (if Nat.leb (S i) r then 0 else 12) / inject_Z (Z.of_nat (S i)))%Q; [|lra].
  assert (0 < inject_Z (Z.of_nat (S i)))%Q by (change 0%Q with (inject_Z 0); rewrite <- Zlt_Qlt; lia). apply Qle_shift_div_l; auto. destruct (Nat.leb (S i) r); lra.
Qed.

Lemma vcost_avg p r i A : In p V -> good A -> length A = i -> (qsum (fun l => zq (vcost K l r p)) (arrs i A) <= (2 + gap r i) * zq (fact i))%Q.
Proof.
  intros Hp Hg Hl. assert (Hn : NoDup A) by apply Hg. pose proof (zq_pos (fact i)) as Pf. pose proof (gap_pos r i) as Pg. destruct (awayb gv poly p A) eqn:E.
  - assert (Hpx : In p (V ++ [])) by (apply in_or_app; now left).
    pose proof (search_gap gv ieqb dbg Hieq math_n poly HV p [] X0 Hpx M HM K r i A (HE p Hp) Hg (proj1 (awayb_spec gv poly p A) E) Hl) as Z.
    rewrite (arrs_len i A Hn Hl) in Z. fold (gap r i) in Z. fold (zq (fact i)) in Z.
    rewrite (qsum_ext _ (fun l => 2 + zq (dep p K l - dep p K (firstn r l)))%Q).
    2:{ intros l Hin. apply arrs_spec in Hin; auto. unfold RandomWork.vcost. rewrite (awayb_perm p l A Hin), E, zq_add. reflexivity. }
    rewrite qsum_add, qsum_const, (arrs_len i A Hn Hl). fold (zq (fact i)). unfold zq at 2. lra.
  - rewrite (qsum_ext _ (fun l => 0)%Q); [rewrite qsum_const; nra|]. intros l Hin. apply arrs_spec in Hin; auto. unfold RandomWork.vcost. rewrite (awayb_perm p l A Hin), E. reflexivity.
Qed.

Lemma eof_V j : j < n -> In (fst (eof j)) V /\ In (snd (eof j)) V.
Proof.
  intros Hj. destruct (eof_at gv poly j Hj) as (a & b & Ha & Hb & ->). apply nth_error_In, (in_map gv) in Ha. apply nth_error_In, (in_map gv) in Hb. unfold orient. destruct (coords_lt (gv a) (gv b)); auto.
Qed.

Lemma step_avg r i A : good A -> length A = S i -> (qsum (fun l => zq (stepc K r l)) (arrs (S i) A) <= (4 + 2 * gap r i) * zq (fact (S i)))%Q.
Proof.
  intros Hg Hl. assert (Hn : NoDup A) by apply Hg. cbn [arrs]. rewrite qsum_flat. eapply Qle_trans; [apply (qsum_le _ (fun _ => (4 + 2 * gap r i) * zq (fact i))%Q)|].
  - intros e He. rewrite qsum_map. assert (Hj : e < n) by (apply Hg; auto). destruct (eof_V e Hj) as (V1 & V2). assert (L : length (remove Nat.eq_dec e A) = i) by (pose proof (remove_len e A Hn He); lia).
    rewrite (qsum_ext _ (fun l => zq (vcost K l r (fst (eof e))) + zq (vcost K l r (snd (eof e))))%Q).
    2:{ intros l _. unfold RandomWork.stepc. rewrite removelast_last, last_last, zq_add. reflexivity. }
    rewrite qsum_add. pose proof (vcost_avg _ r i _ V1 (good_remove A e Hg) L). pose proof (vcost_avg _ r i _ V2 (good_remove A e Hg) L). lra.
  - rewrite qsum_const, Hl. fold (zq (S i)). change (fact (S i)) with (S i * fact i). rewrite zq_mul. lra.
Qed.

(** ** One re-location *)

Lemma wk_avg r A : good A -> length A = S r -> (qsum (fun e => qsum (fun l => zq (wk K l e)) (arrs r (remove Nat.eq_dec e A))) A <= 8 * zq (fact (S r)))%Q.
Proof.
  intros Hg Hl. assert (Hn : NoDup A) by apply Hg. destruct (HK A Hg) as (sA & vA & EA & _).
  eapply Qle_trans; [apply (qsum_le _ (fun e => zq (fact r) * zq (adj (st_ts sA) (idx e A))))%Q|].
  - intros e He. assert (L : length (remove Nat.eq_dec e A) = r) by (pose proof (remove_len e A Hn He); lia). assert (Hn1 : NoDup (remove Nat.eq_dec e A)) by now apply remove_nd.
    rewrite <- (arrs_len r _ Hn1 L), Qmult_comm. unfold zq at 3. rewrite <- qsum_const. apply qsum_le. intros l Hin. apply zq_le. apply arrs_spec in Hin; auto.
    assert (Hp : Permutation (l ++ [e]) A). { eapply perm_trans; [|apply remove_perm; eauto]. now apply Permutation_app_tail. }
    assert (Hg1 : good (l ++ [e])) by (eapply good_perm; [symmetry; exact Hp|auto]). destruct (good_init poly l e Hg1) as (Hgl & _).
    destruct (HK l Hgl) as (s & v & Es & _). destruct (HK _ Hg1) as (s' & v' & Es' & _).
    unfold RandomWork.wk. rewrite (sof_at gv ieqb dbg math_n poly K HK _ s' v' Hg1 Es'). apply (adj_step gv ieqb dbg Hieq math_n poly HV l e A s v s' v' sA vA Hg Hp Es Es' EA).
  - rewrite qsum_mul. unfold zq at 2. rewrite qsum_nat. fold (zq (nsum (fun e => adj (st_ts sA) (idx e A)) A)). rewrite <- (nsum_map (adj (st_ts sA)) (fun e => idx e A)), (idx_map A Hn).
    destruct (run_sizes gv ieqb dbg Hieq math_n poly HV A _ _ Hg EA) as (Z1 & Z2). pose proof (adj_sum (st_ts sA) (length A)) as Z3. change (fact (S r)) with (S r * fact r). change 8%Q with (zq 8). rewrite <- !zq_mul. apply zq_le.
    assert (Z4 : nsum (adj (st_ts sA)) (seq 0 (length A)) <= 8 * S r) by lia. nia.
Qed.

Lemma pass_avg r : r <= n -> (qsum (fun o => zq (passc K (firstn r o) (skipn r o))) (arrs n (seq 0 n)) <= (1 + 10 * zq n) * zq (fact n))%Q.
Proof.
  intros Hr. assert (Hs : good (seq 0 n)). { split; [apply seq_NoDup|]. intros j Hj. apply in_seq in Hj. lia. }
  pose proof (rest_avg good good_remove (fun l e => 1 + zq (wk K l e))%Q r 9%Q) as Z.
  assert (Z' : (qsum (fun o => qsum (fun e => 1 + zq (wk K (firstn r o) e)) (skipn r o)) (arrs n (seq 0 n)) <= zq (n - r) * 9 * zq (fact n))%Q).
  { apply Z; auto; [|apply seq_NoDup|apply seq_length]. intros A HgA Hn Hl.
    rewrite (qsum_ext _ (fun e => zq (fact r) + qsum (fun l => zq (wk K l e)) (arrs r (remove Nat.eq_dec e A)))%Q).
    2:{ intros e He. rewrite qsum_add, qsum_const, arrs_len; [fold (zq (fact r)); ring|now apply remove_nd|pose proof (remove_len e A Hn He); lia]. }
    rewrite qsum_add, qsum_const, Hl. fold (zq (S r)). pose proof (wk_avg r A HgA Hl) as Y. change (fact (S r)) with (S r * fact r) in *. rewrite zq_mul in *. lra. }
  rewrite (qsum_ext _ (fun o => (1 + zq n) + qsum (fun e => 1 + zq (wk K (firstn r o) e)) (skipn r o))%Q).
  2:{ intros o _. unfold RandomWork.passc. rewrite zq_S, zq_add. unfold zq at 2. rewrite <- qsum_nat. rewrite (qsum_ext (fun a => inject_Z (Z.of_nat (S (wk K (firstn r o) a)))) (fun e => 1 + zq (wk K (firstn r o) e))%Q); [ring|]. intros e _. fold (zq (S (wk K (firstn r o) e))). rewrite zq_S. ring. }
  rewrite qsum_add, qsum_const, arrs_len by (apply seq_NoDup || apply seq_length). fold (zq (fact n)). pose proof (zq_pos (fact n)). assert (L : (zq (n - r) <= zq n)%Q) by (apply zq_le; lia). nra.
Qed.
End Average.

(** ** The whole loop *)

Fixpoint qsched (f : nat -> nat -> Q) (g : nat -> Q) (mn : nat -> nat) (todo i r uc nu : nat) : Q :=
  match todo with
  | 0 => 0%Q
  | S todo => (1 + f i r + if Nat.eqb i nu then g (S i) + qsched f g mn todo (S i) (S i) (uc + 1)%nat (mn (uc + 1)%nat) else qsched f g mn todo (S i) r uc nu)%Q
  end.

Lemma sched_avg {A} (L : list A) (f : A -> nat -> nat -> nat) (g : A -> nat -> nat) (F : nat -> nat -> Q) (G : nat -> Q) mn n :
  (forall i r, i < n -> r <= i -> (qsum (fun o => zq (f o i r)) L <= F i r * zq (length L))%Q) ->
  (forall i, i <= n -> (qsum (fun o => zq (g o i)) L <= G i * zq (length L))%Q) ->
  forall todo i r uc nu, i + todo = n -> r <= i ->
  (qsum (fun o => zq (sched (f o) (g o) mn todo i r uc nu)) L <= qsched F G mn todo i r uc nu * zq (length L))%Q.
Proof.
  intros HF HG. induction todo as [|todo IH]; intros i r uc nu Hn Hr; cbn [sched qsched]; [rewrite qsum_const; change (zq 0) with 0%Q; lra|].
  destruct (Nat.eqb i nu).
  - rewrite (qsum_ext _ (fun o => 1 + (zq (f o i r) + (zq (g o (S i)) + zq (sched (f o) (g o) mn todo (S i) (S i) (uc + 1)%nat (mn (uc + 1)%nat)))))%Q).
    2:{ intros o _. rewrite zq_S, !zq_add. ring. }
    rewrite !qsum_add, qsum_const. fold (zq (length L)). pose proof (HF i r ltac:(lia) Hr). pose proof (HG (S i) ltac:(lia)). pose proof (IH (S i) (S i) (uc + 1) (mn (uc + 1)) ltac:(lia) ltac:(lia)). lra.
  - rewrite (qsum_ext _ (fun o => 1 + (zq (f o i r) + zq (sched (f o) (g o) mn todo (S i) r uc nu)))%Q).
    2:{ intros o _. rewrite zq_S, !zq_add. ring. }
    rewrite !qsum_add, qsum_const. fold (zq (length L)). pose proof (HF i r ltac:(lia) Hr). pose proof (IH (S i) r uc nu ltac:(lia) ltac:(lia)). lra.
Qed.
