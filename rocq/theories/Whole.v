(** The whole run on a valid list of polygons. *)
From Coq Require Import QArith Lqa List Arith Lia Bool ZArith Permutation.
From Verif Require Import Base Coord Trap Mono Tri Trace Protocol Indices Bounds Lanes Plane MonoProof MonoGeom Geo Region TrapInv Polygons Build Faces Open Traverse Sweep Tile.
Import ListNotations.
Local Open Scope nat_scope.

(** ** Indices and vertices *)

Definition indices {I} (l : list (element I)) : list I := concat (groups l).

Lemma in_groups {I} (l : list (element I)) i : forall cur, In i (concat (groups_from cur l)) <-> In i cur \/ In (Continue i) l.
Proof.
  induction l as [|[j|] l IH]; intros cur; cbn [groups_from].
  - destruct cur; cbn; [tauto|]. rewrite app_nil_r. tauto.
  - rewrite IH, in_app_iff. cbn. split; intros H.
    + destruct H as [[H|[->|[]]]|H]; auto.
    + destruct H as [H|[H|H]]; auto. injection H as ->. auto.
  - assert (G : In i (concat (groups_from [] l)) <-> In (Continue i) l) by (rewrite IH; cbn; tauto).
    destruct cur as [|a cur]; cbn [concat]; rewrite ?in_app_iff, G; cbn; intuition discriminate.
Qed.

Lemma in_indices {I} (l : list (element I)) i : In i (indices l) <-> In (Continue i) l.
Proof. unfold indices, groups. rewrite in_groups. cbn. tauto. Qed.

(** Triangles of calls use the indices of the calls. *)
Lemma tris_ok {I} (okv : I -> Prop) (calls : list (call I)) : Forall (ok_call okv) calls -> forall a b c, In (a, b, c) (tris_of calls) -> okv a /\ okv b /\ okv c.
Proof.
  assert (P : forall r l a b c, okv r -> Forall okv l -> In (a, b, c) (pairs r l) -> okv a /\ okv b /\ okv c).
  { intros r l a b c Hr. induction l as [|x l IH]; [easy|]. intros Hl. apply Forall_cons_iff in Hl. destruct Hl as (Hx & Hl). destruct l as [|y l]; [easy|]. cbn [pairs].
    intros [H|H]; [|now apply IH]. injection H as <- <- <-. apply Forall_cons_iff in Hl. tauto. }
  assert (G : forall l cur, Forall okv cur -> Forall (ok_call okv) l -> Forall (Forall okv) (fans_from cur l)).
  { induction l as [|[x y z|v] l IH]; intros cur Hc Hl; cbn [fans_from].
    - repeat constructor; auto.
    - apply Forall_cons_iff in Hl. destruct Hl as ((H1 & H2 & H3) & Hl). constructor; auto.
    - apply Forall_cons_iff in Hl. destruct Hl as (H1 & Hl). apply IH; auto. apply Forall_app. auto. }
  intros H a b c Hin. unfold tris_of in Hin. apply in_concat in Hin. destruct Hin as (l & Hl & Hin). apply in_map_iff in Hl. destruct Hl as (f & <- & Hf).
  assert (Hok : Forall okv f). { unfold fans_of in Hf. destruct calls as [|[x y z|v] calls]; try easy. apply Forall_cons_iff in H. destruct H as ((H1 & H2 & H3) & H).
    specialize (G calls [x; y; z] ltac:(auto) H). rewrite Forall_forall in G. now apply G. }
  destruct f as [|r f]; [easy|]. cbn [fan_tris] in Hin. apply Forall_cons_iff in Hok. destruct Hok. eapply P; eauto.
Qed.

Section Whole.
Context {I E : Type}.
Variables (gv : I -> point) (ieqb : I -> I -> bool) (dbg : bool).
Hypothesis Hieq : forall a b, ieqb a b = true <-> a = b.
Variables (math_n : nat -> nat -> nat) (shuf : nat -> nat -> list nat).
Hypothesis Hshuf : forall k n, Permutation (shuf k n) (seq 0 n).
Variable elems : list (element I).
Notation ps := (map (map gv) (groups elems)).
Hypothesis HV : valid ps.

Notation done := (Build.done gv elems).
Notation extra := (Build.extra gv elems).

(** ** One topmost trapezoid *)

Lemma above_all (l : list point) : exists q : point, forall p, In p l -> (cy p < cy q)%Q.
Proof.
  induction l as [|a l (q & Hq)]. { exists (0, 0)%Q. easy. }
  destruct (Qlt_le_dec (cy a) (cy q)) as [H|H].
  - exists q. intros p [<-|Hp]; auto.
  - exists ((0, cy a + 1)%Q : point). intros p [<-|Hp]; cbn; [lra|]. specialize (Hq p Hp). lra.
Qed.

Lemma seg_below a b (q p : point) : (cy a < cy q)%Q -> (cy b < cy q)%Q -> on_segment a b p -> (cy p < cy q)%Q.
Proof. intros Ha Hb (t & H1 & H2 & _ & H3). rewrite H3. destruct (Qlt_le_dec (cy a) (cy b)); nra. Qed.

Lemma top_extra q : (forall p, In p (concat ps) -> (cy p < cy q)%Q) -> extra [q].
Proof.
  intros Hq. split; [|split].
  - intros a b [<-|[]] [<-|[]]; auto.
  - intros a b [<-|[]] Hb (_ & H). specialize (Hq b Hb). lra.
  - intros a e [<-|[]] He Ho. destruct (edge_ends ps HV e He) as (H1 & H2 & _). assert (cy q < cy q)%Q by (eapply (seg_below (fst e) (snd e)); eauto). lra.
Qed.

Lemma top_once st : (forall ex M, extra ex -> shear M (concat ps ++ ex) -> done ex M st) ->
  forall i j, i < length (st_ts st) -> j < length (st_ts st) -> Faces.tu st i = None -> Faces.tu st j = None -> i = j.
Proof.
  intros HD i j Hi Hj Ti Tj. destruct (above_all (concat ps)) as (q & Hq). destruct (shear_exists (concat ps ++ [q])) as (M & HM).
  pose proof (top_extra q Hq) as Hex. destruct (HD [q] M Hex HM) as [G _ F _ Pp _]. pose proof (f_core _ _ _ _ _ F) as HC.
  assert (Hw : In q (concat ps ++ [q])) by (apply in_or_app; right; now left).
  assert (Hn : ~ In q (points st)). { intros K. assert (In q (concat ps)) by (eapply Permutation_in; eauto). specialize (Hq q H). lra. }
  assert (K : forall i t, nth_error (st_ts st) i = Some t -> Faces.tu st i = None -> inside M (reg st t) q).
  { clear i j Hi Hj Ti Tj. intros i t Ht Tu.
    assert (Tl : t_l t = None). { destruct (t_l t) as [e|] eqn:El; auto. assert (Faces.tl st i = Some e) by (unfold Faces.tl; now rewrite Ht).
      destruct (tl_spans _ _ M gv st G HM F i e H) as (g & d & u & _ & _ & Hu & _). congruence. }
    assert (Tr : t_r t = None). { destruct (t_r t) as [e|] eqn:El; auto. assert (Faces.tr st i = Some e) by (unfold Faces.tr; now rewrite Ht).
      destruct (tr_spans _ _ M gv st G HM F i e H) as (g & d & u & _ & _ & Hu & _). congruence. }
    unfold Faces.tu in Tu. rewrite Ht in Tu. unfold inside, ahas, reg, rg. cbn. rewrite Tu, Tl, Tr. cbn. split; auto. split; auto. destruct (t_d t) as [d|] eqn:Ed; cbn; auto.
    pose proof (ti_d _ _ _ (c_in _ _ _ _ _ HC i t Ht) d Ed) as Hd. apply (ht_lt (concat ps ++ [q]) M HM); auto.
    - apply (c_W _ _ _ _ _ HC). now apply nth_In.
    - left. apply Hq. eapply Permutation_in; [exact Pp|]. now apply nth_In. }
  destruct (lt_nth _ _ _ Hi) as (t & Ht). destruct (lt_nth _ _ _ Hj) as (t' & Ht'). eapply (c_one _ _ _ _ _ HC q i j t t'); eauto.
Qed.

(** ** The calls *)

Section Cw.
Variable cw : bool.

Notation api := (fun fuel => api_calls E ieqb gv cw dbg fuel math_n shuf elems).
Definition piece_d (left : bool) (V : list (I * point)) (T : list (I * I * I)) : Prop :=
  (length T + 2 = length V)%nat /\ (cw = false -> covers gv left V T).

(** What is known about the calls of the run, for each choice of the shear. *)
Record facts (M : Q) (st : state Q I) (calls : list (call I)) : Prop := {
  k_len : Z.of_nat (length (tris_of calls)) = sumz (kc M st) (seq 0 (length (st_ts st)));
  k_ccw : cw = false -> forall a b c, In (a, b, c) (tris_of calls) -> (0 <= cross (gv a) (gv b) (gv c))%Q;
  k_sum : cw = false -> forall w, anti w -> (sumq (fun t => tri_sum w (tri_pos gv t)) (tris_of calls) == sumq (ow M st w) (seq 0 (length (st_ss st))))%Q
}.

Lemma pieces_len Ps (Ts : list (list (I * I * I))) : Forall2 (fun p T => piece_d (fst p) (snd p) T) Ps Ts -> length (concat Ts) = pcount Ps.
Proof. induction 1 as [|p T Ps Ts (H & _) HF IH]; auto. cbn [concat]. rewrite app_length, IH. change (pcount (p :: Ps)) with (length (snd p) - 2 + pcount Ps). lia. Qed.

Lemma pieces_sum W Es w Ps (Ts : list (list (I * I * I))) : cw = false -> anti w -> Forall (piece_ok W Es gv) Ps -> Forall2 (fun p T => piece_d (fst p) (snd p) T) Ps Ts ->
  (sumq (fun t => tri_sum w (tri_pos gv t)) (concat Ts) == sumq (pval w) Ps)%Q.
Proof.
  intros Hcw Hw HP HF. induction HF as [|[left V] T Ps Ts (_ & H) HF IH]; [reflexivity|]. apply Forall_cons_iff in HP. destruct HP as (HP & HP'). cbn [concat sumq]. rewrite sumq_app, (IH HP').
  destruct (H Hcw) as (_ & _ & Hs). cbn [fst snd] in *. destruct HP as ((_ & q & p & Mm & Em & _) & _). cbn [fst snd] in Em. rewrite (Hs w Hw q p Mm Em), (pval_at w left V q p Mm Em). reflexivity.
Qed.

Lemma piece_hyp W Es left V : piece_ok W Es gv (left, V) -> exists N calls, starts calls /\ piece_d left V (tris_of calls) /\
  forall fuel t, N <= fuel -> build_fans (E := E) rec_new rec_ext cw fuel fuel (mkMono V 2 2 left) t = (t ++ calls, Ok tt).
Proof.
  intros (Hm & H3 & Hg & _). cbn [fst snd] in *. destruct cw eqn:Ecw.
    - destruct (piece_run (E := E) true left V Hm) as (N & calls & K1 & K2 & K3); [lia|]. exists N, calls. split; auto. split; [split; auto; congruence|]. intros. now apply K3.
    - destruct (piece_cut (E := E) gv left V Hm) as (N & calls & K1 & K2 & K3); [lia|rewrite Forall_forall in Hg; now apply Hg|]. exists N, calls. split; auto. split; [split; auto; apply K2|]. intros. now apply K3.
Qed.

Lemma cut_at st ex M : (forall ex M, extra ex -> shear M (concat ps ++ ex) -> done ex M st) -> extra ex -> shear M (concat ps ++ ex) ->
  exists N calls, starts calls /\ (forall fuel, N <= fuel -> run_calls E gv cw fuel st = (calls, Ok tt)) /\ facts M st calls.
Proof.
  intros HD Hex HM. pose proof (top_once st HD) as Ht. destruct (HD ex M Hex HM) as [G _ F _ Pp Dg].
  destruct (traverse_ok (E := E) _ _ M gv st G HM F Dg cw piece_d) as (Ps & (R1 & R2 & R3) & N & calls & Ts & H1 & H2 & H3 & H4 & _); auto.
  { apply piece_hyp. }
  exists N, calls. split; auto. split. { intros fuel Hf. unfold run_calls. now rewrite H4. }
  split.
  - rewrite H2, (pieces_len _ _ H3). exact R3.
  - intros Hcw a b c Hin. rewrite H2 in Hin. apply in_concat in Hin. destruct Hin as (T & HT & Hin). clear - H3 HT Hin Hcw.
    induction H3 as [|p T' Ps Ts (_ & H) HF IH]; [easy|]. destruct HT as [->|HT]; auto. destruct (H Hcw) as (_ & K & _). now apply K.
  - intros Hcw w Hw. rewrite H2, (pieces_sum _ _ w Ps Ts Hcw Hw R1 H3), (R2 w Hw). apply (ev_sum _ _ M gv st G HM F Dg).
Qed.

(** The pieces: a run that does not run out of fuel has enough for each of them. *)
Lemma pieces_at st : (forall ex M, extra ex -> shear M (concat ps ++ ex) -> done ex M st) ->
  exists M Ps, shear M (concat ps ++ []) /\ Forall (piece_ok (concat ps ++ []) (uedges ps) gv) Ps /\
    (forall w, anti w -> (sumq (pval w) Ps == sumq (ow M st w) (seq 0 (length (st_ss st))))%Q) /\
    forall fuel, snd (run_calls E gv cw fuel st) = Crash Fuel \/ Forall (quick (E := E) fuel) Ps.
Proof.
  intros HD. destruct (shear_exists (concat ps ++ [])) as (M & HM). assert (Hex : extra []) by (split; [|split]; easy).
  pose proof (top_once st HD) as Ht. destruct (HD [] M Hex HM) as [G _ F _ Pp Dg].
  destruct (traverse_ok (E := E) _ _ M gv st G HM F Dg cw piece_d) as (Ps & (R1 & R2 & R3) & N & calls & Ts & H1 & H2 & H3 & H4 & H5); auto.
  { apply piece_hyp. }
  exists M, Ps. split; auto. split; auto. split.
  - intros w Hw. rewrite (R2 w Hw). apply (ev_sum _ _ M gv st G HM F Dg).
  - intros fuel. unfold run_calls. destruct (H5 fuel []) as [K|(_ & K)]; auto.
Qed.

(** The traversal makes at most one iteration for each trapezoid. *)
Lemma loop_at st : (forall ex M, extra ex -> shear M (concat ps ++ ex) -> done ex M st) ->
  exists t0 N calls, starts calls /\ (exists K, forall k, K <= k -> top_trapezoid (C := Q) k (st_qs st) 0 = Ok t0) /\
    forall fuel, N <= fuel -> tri_loop (E := E) gv rec_new rec_ext cw fuel st (S (length (st_ts st))) (mkT t0 None [] []) [] = (calls, Ok tt).
Proof.
  intros HD. destruct (shear_exists (concat ps ++ [])) as (M & HM). assert (Hex : extra []) by (split; [|split]; easy).
  pose proof (top_once st HD) as Ht. destruct (HD [] M Hex HM) as [G _ F _ Pp Dg].
  destruct (traverse_loop (E := E) _ _ M gv st G HM F Dg cw piece_d (piece_hyp _ _) Ht) as (t0 & Ps & Hq & _ & He).
  destruct (He 0 (fun _ => S (length (st_ts st)))) as (N & calls & Ts & H1 & _ & _ & H4 & _); [auto|].
  exists t0, N, calls. split; auto. split; [apply (topq_top _ _ _ Hq)|]. intros fuel Hf. now rewrite H4.
Qed.

Theorem whole : exists st N calls, evt (fun k => trapezoidize ieqb gv dbg k math_n shuf elems) st /\ (forall ex M, extra ex -> shear M (concat ps ++ ex) -> done ex M st) /\
  starts calls /\ (forall fuel, N <= fuel -> api fuel = (calls, Ok tt)) /\
  (forall a b c, In (a, b, c) (tris_of calls) -> In a (indices elems) /\ In b (indices elems) /\ In c (indices elems)) /\
  (forall ex M, extra ex -> shear M (concat ps ++ ex) -> facts M st calls).
Proof.
  destruct (trapezoidize_done gv ieqb dbg Hieq math_n shuf Hshuf elems HV) as (st & (N0 & HN0) & HD).
  destruct (shear_exists (concat ps ++ [])) as (M0 & HM0). assert (X0 : extra []) by (split; [|split]; easy).
  destruct (cut_at st [] M0 HD X0 HM0) as (N & calls & H1 & H2 & _).
  assert (HR : forall fuel, N0 + N <= fuel -> api fuel = (calls, Ok tt)). { intros fuel Hf. cbv beta. unfold api_calls. rewrite HN0 by lia. apply H2. lia. }
  exists st, (N0 + N), calls. split; [now exists N0|]. split; auto. split; auto. split; auto. split.
  - apply (tris_ok (fun i => In i (indices elems))). pose proof (api_ok (fun i => In i (indices elems)) (E := E) ieqb gv cw dbg (N0 + N) math_n shuf elems) as K.
    specialize (HR (N0 + N) ltac:(lia)). cbv beta in HR. rewrite HR in K. apply K. intros i Hi. now apply in_indices.
  - intros ex M Hex HM. destruct (cut_at st ex M HD Hex HM) as (N' & calls' & _ & H2' & HF). specialize (H2 (N + N') ltac:(lia)). specialize (H2' (N + N') ltac:(lia)).
    assert (calls' = calls) by congruence. now subst.
Qed.
End Cw.
End Whole.
