(** The construction over all orders of insertion of one valid polygon. *)
From Coq Require Import QArith Lqa List Arith Lia Bool Permutation ListDec.
From Verif Require Import Base Coord Trap Lanes Plane Geo Region TrapInv Depth AddVertex SegStep Polygons Build Locate Faces Clear Canon Orders.
Import ListNotations.
Local Open Scope nat_scope.
Local Open Scope res_scope.

Lemma cnt_perm p l l' : Permutation l l' -> cnt p l = cnt p l'.
Proof. intros Hl. unfold cnt. induction Hl; cbn; auto; repeat match goal with |- context [touches ?a ?b] => destruct (touches a b) end; cbn; auto; congruence. Qed.

(** The last segment of the loop. *)
Lemma loop_last {I} (ieqb : I -> I -> bool) (gv : I -> point) dbg k mn len j order : forall i st0 vls0 pd uc nu st' vls',
  polygon_loop ieqb gv dbg k mn len (order ++ [j]) i st0 vls0 pd uc nu = Ok (st', vls') ->
  exists st vls, polygon_loop ieqb gv dbg k mn len order i st0 vls0 pd uc nu = Ok (st, vls) /\
    exists vls1 a, add_nth_segment ieqb gv dbg k st vls j = Ok (st', vls1, a).
Proof.
  induction order as [|x order IH]; intros i st0 vls0 pd uc nu st' vls' H; cbn [app polygon_loop] in H.
  - exists st0, vls0. split; auto. destruct (add_nth_segment ieqb gv dbg k st0 vls0 j) as [[[st1 vls1] a]| |]; cbn [bind] in H; try discriminate. exists vls1, a.
    destruct (Nat.eqb i nu); [destruct (relocate k k st1 vls1 (pd - a) j (LNexus 0) coords_zero); cbn [bind] in H; try discriminate|]; injection H as <- _; reflexivity.
  - cbn [polygon_loop]. destruct (add_nth_segment ieqb gv dbg k st0 vls0 x) as [[[st1 vls1] a]| |]; cbn [bind] in *; try discriminate.
    destruct (Nat.eqb i nu); [destruct (relocate k k st1 vls1 (pd - a) x (LNexus 0) coords_zero); cbn [bind] in *; try discriminate|]; eapply IH; eauto.
Qed.

(** All lists of at most [m] numbers below [n]. *)
Fixpoint words (n m : nat) : list (list nat) :=
  match m with 0 => [[]] | S m => [] :: flat_map (fun l => map (fun j => j :: l) (seq 0 n)) (words n m) end.
Lemma words_in n m : forall l, length l <= m -> (forall j, In j l -> j < n) -> In l (words n m).
Proof.
  induction m as [|m IH]; intros [|j l] Hl Hj; cbn in *; auto; try lia. right. apply in_flat_map. exists l. split; [apply IH; auto; lia|].
  apply in_map_iff. exists j. split; auto. apply in_seq. specialize (Hj j (or_introl eq_refl)). lia.
Qed.

(** Nodes visited by a search. *)
Fixpoint vis (k : nat) (qs : list (qnode Q)) (p : point) (q : nat) : nat :=
  match k with 0 => 0 | S k => match nth_error qs q with Some (QBranch l r b) => S (vis k qs p (if use_left b p then l else r)) | _ => 1 end end.

Lemma vis_find k qs p : forall q x, find k qs p q = Ok x -> find (vis k qs p q) qs p q = Ok x.
Proof.
  induction k as [|k IH]; intros q x H; [discriminate|]. cbn [find vis] in *. unfold rdu in H. destruct (nth_error qs q) as [[l r b|t]|] eqn:E; cbn [bind] in H; [| |discriminate].
  - cbn [find]. unfold rdu. rewrite E. cbn [bind]. now apply IH.
  - cbn [find]. unfold rdu. rewrite E. exact H.
Qed.

Lemma vis_le k qs p : forall d q x y, find k qs p q = Ok x -> find d qs p q = Ok y -> vis k qs p q <= d /\ x = y.
Proof.
  induction k as [|k IH]; intros [|d] q x y H H'; try discriminate. cbn [find vis] in *. unfold rdu in *. destruct (nth_error qs q) as [[l r b|t]|] eqn:E; cbn [bind] in *; [| |discriminate].
  - destruct (IH _ _ _ _ H H'). split; auto. lia.
  - split; [lia|congruence].
Qed.

Section Random.
Context {I : Type}.
Variables (gv : I -> point) (ieqb : I -> I -> bool) (dbg : bool).
Hypothesis Hieq : forall a b, ieqb a b = true <-> a = b.
Variable math_n : nat -> nat -> nat.
Variable poly : list I.
Notation n := (length poly).
Notation V := (map gv poly).
Notation ps := [V].
Hypothesis HV : valid ps.
Notation stt := (state Q I).

Definition good (l : list nat) : Prop := NoDup l /\ forall j, In j l -> j < n.

Definition ploop (k : nat) (l : list nat) := polygon_loop ieqb gv dbg k math_n n l 0 state_new (map (pend1 gv) poly) n 1 (math_n n 1).

Definition xtra (ex : list point) : Prop :=
  (forall p q, In p ex -> In q ex -> peq p q -> p = q) /\ (forall p q, In p ex -> In q V -> ~ peq p q) /\
  (forall p e, In p ex -> In e (edges V) -> ~ on_segment (fst e) (snd e) p).

Definition eof (j : nat) : edge := nth j (uedges ps) (dpt, dpt).

Record prun (ex : list point) (M : Q) (l : list nat) (st : stt) (vls : list (vloc Q I)) : Prop := {
  p_geo : geo (V ++ ex) (uedges ps);
  p_shear : shear M (V ++ ex);
  p_rest : rest (V ++ ex) (uedges ps) M gv st [];
  p_vls : vls_ok M gv poly st vls;
  p_edges : medges st = map eof l;
  p_points : incl (points st) V
}.

Lemma hlen : 3 <= n.
Proof. destruct HV as (H & _). inversion H as [|? ? H1 _]; subst. now rewrite map_length in H1. Qed.

Lemma cps : concat ps = V.
Proof. cbn. apply app_nil_r. Qed.

Lemma ued : uedges ps = map oedge (edges V).
Proof. unfold uedges. cbn. now rewrite app_nil_r. Qed.

Lemma ued_len : length (uedges ps) = n.
Proof. rewrite ued, map_length. pose proof (edges_length V) as Z. rewrite map_length in Z. exact Z. Qed.

Lemma eof_nth j : j < n -> nth_error (uedges ps) j = Some (eof j).
Proof. intros Hj. apply nth_error_nth'. now rewrite ued_len. Qed.

Lemma eof_at j : j < n -> sedge_at gv poly j (eof j).
Proof. intros Hj. apply sedge_edges. rewrite <- ued. now apply eof_nth. Qed.

Lemma eof_inj i j : i < n -> j < n -> eof i = eof j -> i = j.
Proof.
  intros Hi Hj E. apply (proj1 (NoDup_nth_error _) (uedges_nd ps HV)); [now rewrite ued_len|]. rewrite !eof_nth; congruence.
Qed.

Lemma eof_in j : j < n -> In (eof j) (uedges ps).
Proof. intros Hj. eapply nth_error_In. now apply eof_nth. Qed.

Lemma at_eof l es : Forall2 (sedge_at gv poly) l es -> (forall j, In j l -> j < n) -> es = map eof l.
Proof.
  induction 1 as [|j e l es H HF IH]; intros Hl; auto. cbn [map]. f_equal; [|apply IH; intros; apply Hl; now right].
  apply sedge_edges in H. rewrite <- ued in H. rewrite eof_nth in H by (apply Hl; now left). congruence.
Qed.

Lemma prefix_run_one l ex M : good l -> xtra ex -> shear M (V ++ ex) -> exists st vls, evt (fun k => ploop k l) (st, vls) /\ prun ex M l st vls.
Proof.
  intros (Hnd & Hlt) (X1 & X2 & X3) HM. pose proof hlen as Hl.
  assert (HG : geo (V ++ ex) (uedges ps)).
  { pose proof (valid_geo ps HV ex X1) as K. rewrite cps in K. apply K; auto. intros p e Hp He. apply X3; auto. cbn in He. now rewrite app_nil_r in He. }
  destruct (loop_ok gv ieqb dbg Hieq math_n (V ++ ex) (uedges ps) M HG HM (valid_cnt ps HV) state_new poly l) as (st & vls & es & E1 & E2 & E3 & E4 & E5 & E6 & _); auto.
  - pose proof (valid_nd ps HV) as K. now rewrite cps in K.
  - split; [apply full_new| |]; intros [|v] nn H; discriminate.
  - apply incl_refl.
  - cbn [medges state_new st_ss map app]. now apply uedges_nd.
  - exists st, vls. split; auto. split; auto. cbn in E5. rewrite E5. now apply at_eof.
Qed.

Lemma prefix_run l : good l -> exists st vls, evt (fun k => ploop k l) (st, vls) /\ forall ex M, xtra ex -> shear M (V ++ ex) -> prun ex M l st vls.
Proof.
  intros Hg. destruct (shear_exists (V ++ [])) as (M & HM). destruct (prefix_run_one l [] M Hg) as (st & vls & E & _); auto. { split; [|split]; easy. }
  exists st, vls. split; auto. intros ex M' Hex HM'. destruct (prefix_run_one l ex M' Hg Hex HM') as (st' & vls' & E' & D). pose proof (evt_eq _ _ _ E E') as Z. injection Z as <- <-. exact D.
Qed.

(** ** Uniform budget *)
Lemma uniform (P : list nat -> nat -> Prop) : (forall l, good l -> exists N, forall k, N <= k -> P l k) -> exists N, forall k l, N <= k -> good l -> P l k.
Proof.
  intros H. assert (G : forall L, exists N, forall l, In l L -> good l -> forall k, N <= k -> P l k).
  { induction L as [|l L (N & IH)]; [exists 0; easy|]. assert (D : {NoDup l} + {~ NoDup l}) by (apply NoDup_dec, Nat.eq_dec). destruct D as [D|D].
    - destruct (Forall_dec (fun j => j < n) (fun j => lt_dec j n) l) as [F|F].
      + assert (Hg : good l) by (split; auto; now apply Forall_forall). destruct (H l Hg) as (N' & HN). exists (max N N'). intros l' [<-|Hl'] Hg' k Hk; [apply HN; lia|apply IH; auto; lia].
      + exists N. intros l' [<-|Hl'] Hg' k Hk; [|apply IH; auto]. exfalso. apply F, Forall_forall. apply Hg'.
    - exists N. intros l' [<-|Hl'] Hg' k Hk; [|apply IH; auto]. exfalso. apply D. apply Hg'. }
  destruct (G (words n n)) as (N & HN). exists N. intros k l Hk Hg. apply HN; auto. apply words_in; [|apply Hg].
  replace n with (length (seq 0 n)) by apply seq_length. apply NoDup_incl_length; [apply Hg|]. intros j Hj. apply in_seq. apply Hg in Hj. lia.
Qed.

(** ** One more segment *)
Lemma good_init l j : good (l ++ [j]) -> good l /\ ~ In j l /\ j < n.
Proof.
  intros (Hn & Hl). apply NoDup_app_inv in Hn. destruct Hn as (H1 & _ & H3). split; [|split].
  - split; auto. intros x Hx. apply Hl, in_or_app. now left.
  - intros K. apply (H3 j); auto. now left.
  - apply Hl, in_or_app. right. now left.
Qed.

Lemma good_perm l l' : Permutation l l' -> good l -> good l'.
Proof. intros Hp (H1 & H2). split; [eapply Permutation_NoDup; eauto|]. intros j Hj. apply H2. eapply Permutation_in; [symmetry; exact Hp|auto]. Qed.

Lemma prefix_step l j st vls st' vls' : good (l ++ [j]) -> evt (fun k => ploop k l) (st, vls) -> evt (fun k => ploop k (l ++ [j])) (st', vls') -> ngrow st st'.
Proof.
  intros Hg E E'. destruct (good_init l j Hg) as (Hgl & Hnj & Hj). destruct (shear_exists (V ++ [])) as (M & HM). assert (X0 : xtra []) by (split; [|split]; easy).
  destruct (prefix_run_one l [] M Hgl X0 HM) as (s & v & E2 & HP). pose proof (evt_eq _ _ _ E E2) as Z. injection Z as <- <-. destruct HP as [PG PS PR PV PE PP].
  pose proof hlen as Hl. pose proof (valid_nd ps HV) as Knd. rewrite cps in Knd.
  assert (HinW : forall j a, nth_error poly j = Some a -> In (gv a) (V ++ [])). { intros i a Ha. apply in_or_app. left. apply in_map. eapply nth_error_In; eauto. }
  assert (H2l : 2 <= n) by lia.
  destruct (add_nth_ok (V ++ []) (uedges ps) M gv PG HM ieqb Hieq (valid_cnt ps HV) dbg poly H2l Knd HinW st vls j (eof j)) as (st1 & vls1 & a & A1 & A2 & A3 & A4 & A5 & A6 & A7 & A8 & A9); auto.
  { now apply eof_at. } { now apply eof_in. }
  { rewrite PE. intros K. apply in_map_iff in K. destruct K as (i & K1 & K2). apply Hnj. replace j with i; auto. apply eof_inj; auto. now apply Hgl. }
  destruct E as (N1 & E), E' as (N2 & E'), A1 as (N3 & A1). set (k := N1 + N2 + N3). specialize (E k ltac:(lia)). specialize (E' k ltac:(lia)). specialize (A1 k ltac:(lia)).
  unfold ploop in E, E'. destruct (loop_last _ _ _ _ _ _ _ _ _ _ _ _ _ _ _ _ E') as (s & v & F1 & vls2 & b & F2). rewrite E in F1. injection F1 as <- <-. rewrite A1 in F2. injection F2 as <- _ _. exact A9.
Qed.

(** ** Edges and points of a state *)

Lemma run_points ex M l st vls p : prun ex M l st vls -> (In p (points st) <-> exists e, In e (medges st) /\ (p = fst e \/ p = snd e)).
Proof.
  intros [PG PS PR PV PE PP]. destruct PR as [Rf Rc Rd]. pose proof (f_core _ _ _ _ _ Rf) as Hc. split.
  - intros Hp. apply In_nth_error in Hp. destruct Hp as (v & Hv). destruct (points_inv _ _ _ Hv) as (nn & Hn & <-). destruct (Rd v nn Hn) as [K|[]]. rewrite (Rc v nn Hn) in K.
    unfold cnt in K. destruct (filter (touches (n_c nn)) (medges st)) as [|e m] eqn:Ef; [cbn in K; lia|].
    assert (Ke : In e (filter (touches (n_c nn)) (medges st))) by (rewrite Ef; now left). apply filter_In in Ke. destruct Ke as (Ke & Kt). apply touches_spec in Kt. eauto.
  - intros (e & He & [->| ->]); destruct (medges_points _ _ _ _ st e Hc He) as (P1 & P2 & _); auto.
Qed.

Lemma run_same ex M l l' st vls st' vls' : prun ex M l st vls -> prun ex M l' st' vls' -> Permutation l l' ->
  (forall e, In e (medges st) <-> In e (medges st')) /\ (forall p, In p (points st) <-> In p (points st')).
Proof.
  intros H H' Hp. assert (K : forall e, In e (medges st) <-> In e (medges st')).
  { intros e. rewrite (p_edges _ _ _ _ _ H), (p_edges _ _ _ _ _ H'). split; apply Permutation_in; apply Permutation_map; auto. now symmetry. }
  split; auto. intros p. rewrite (run_points ex M l st vls p H), (run_points ex M l' st' vls' p H'). split; intros (e & He & Ke); exists e; (split; [now apply K|auto]).
Qed.

(** Trapezoids and vertices. *)
Lemma run_sizes l : forall st vls, good l -> evt (fun k => ploop k l) (st, vls) -> length (st_ts st) = S (length (points st) + length l) /\ length (points st) <= 2 * length l.
Proof.
  induction l as [|j l IH] using rev_ind; intros st vls Hg E.
  - pose proof (evt_eq _ _ _ E (evt_ret (state_new, map (pend1 gv) poly))) as Z. injection Z as -> ->. cbn. lia.
  - destruct (good_init l j Hg) as (Hgl & _). destruct (prefix_run l Hgl) as (s & v & E0 & HP). destruct (IH s v Hgl E0) as (I1 & I2).
    destruct (prefix_step l j s v st vls Hg E0 E) as (_ & G1 & _). rewrite app_length. cbn [length].
    destruct (shear_exists (V ++ [])) as (M & HM). destruct (prefix_run (l ++ [j]) Hg) as (s' & v' & E1 & HP'). pose proof (evt_eq _ _ _ E E1) as Z. injection Z as <- <-.
    assert (X0 : xtra []) by (split; [|split]; easy). specialize (HP' [] M X0 HM). split; [lia|].
    assert (K : length (points st) <= length (flat_map (fun e : edge => [fst e; snd e]) (medges st))).
    { apply NoDup_incl_length; [apply (c_nd _ _ _ _ _ (f_core _ _ _ _ _ (r_full _ _ _ _ _ _ (p_rest _ _ _ _ _ HP'))))|]. intros p Hp. apply (run_points _ _ _ _ _ p HP') in Hp. destruct Hp as (e & He & Ke).
      apply in_flat_map. exists e. split; auto. cbn. intuition. }
    rewrite (flat_len _ _ 2) in K by auto. rewrite (p_edges _ _ _ _ _ HP'), map_length, app_length in K. cbn in K. lia.
Qed.

(** ** Search *)

Section Search.
Variables (p : point) (ex : list point).
Hypothesis Hp : xtra ex.
Hypothesis Hpw : In p (V ++ ex).

(** No segment of the list ends in the point. *)
Definition away (l : list nat) : Prop := forall j, In j l -> touches p (eof j) = false.

Lemma away_perm l l' : Permutation l l' -> away l -> away l'.
Proof. intros K H j Hj. apply H. eapply Permutation_in; [symmetry; exact K|auto]. Qed.
Lemma away_app l l' : away (l ++ l') -> away l.
Proof. intros H j Hj. apply H, in_or_app. auto. Qed.
Lemma away_rem A e : away A -> away (remove Nat.eq_dec e A).
Proof. intros H j Hj. apply in_remove in Hj. apply H, Hj. Qed.

(** Trapezoids satisfying the condition are charged to the last segment: regions of [A] that owe their existence to [e]. *)
Definition owes (A : list nat) (R : atrap) (e : nat) : nat :=
  (if match al R with Some f => if edge_dec f (eof e) then true else false | None => false end then 1 else 0) +
  (if match ar R with Some f => if edge_dec f (eof e) then true else false | None => false end then 1 else 0) +
  (if match ad R with Some q => touches q (eof e) && Nat.eqb (cnt q (map eof A)) 1 | None => false end then 1 else 0) +
  (if match au R with Some q => touches q (eof e) && Nat.eqb (cnt q (map eof A)) 1 | None => false end then 1 else 0).

Lemma touch_sum q A : nsum (fun e => if touches q (eof e) then 1 else 0) A = cnt q (map eof A).
Proof.
  unfold cnt. rewrite nsum_filter. induction A as [|a A IH]; auto. cbn [map nsum fold_right]. fold (nsum (fun e => if touches q (eof e) then 1 else 0) A).
  fold (nsum (fun a0 => if touches q a0 then 1 else 0) (map eof A)). now rewrite IH.
Qed.

Lemma owes_sum A R : good A -> nsum (owes A R) A <= 4.
Proof.
  intros (Hn & Hl). unfold owes. rewrite !nsum_add.
  assert (S1 : forall o, nsum (fun e => if match o with Some f => if edge_dec f (eof e) then true else false | None => false end then 1 else 0) A <= 1).
  { intros o. apply nsum_one; auto. intros a b Ha Hb. destruct o as [f|]; [|discriminate]. destruct (edge_dec f (eof a)) as [->|]; [|discriminate]. destruct (edge_dec (eof a) (eof b)) as [E|]; [|discriminate]. intros _ _. apply eof_inj; auto. }
  assert (S2 : forall o, nsum (fun e => if match o with Some q => touches q (eof e) && Nat.eqb (cnt q (map eof A)) 1 | None => false end then 1 else 0) A <= 1).
  { intros [q|]; [|rewrite nsum_const; lia]. destruct (Nat.eqb_spec (cnt q (map eof A)) 1) as [E|E].
    - rewrite <- E at 1. rewrite <- touch_sum. apply nsum_le. intros a _. destruct (touches q (eof a)); cbn; auto.
    - etransitivity; [apply (nsum_le _ (fun _ => 0))|rewrite nsum_const; lia]. intros a _. now rewrite andb_false_r. }
  pose proof (S1 (al R)). pose proof (S1 (ar R)). pose proof (S2 (ad R)). pose proof (S2 (au R)). lia.
Qed.

(** The search in a state, and the region it finds. *)
Lemma run_find l st vls : good l -> away l -> evt (fun k => ploop k l) (st, vls) -> forall M, shear M (V ++ ex) ->
  exists i t, nth_error (st_ts st) i = Some t /\ inside M (reg st t) p /\ exists N, forall k, N <= k -> find k (st_qs st) p 0 = Ok (t_k t, i).
Proof.
  intros Hg Haw E M HM. destruct (prefix_run l Hg) as (s & v & E0 & HP). pose proof (evt_eq _ _ _ E E0) as Z. injection Z as <- <-. pose proof (HP ex M Hp HM) as P0. destruct P0 as [PG PS PR PV PE PP] eqn:EP0. clear EP0.
  pose proof (f_core _ _ _ _ _ (r_full _ _ _ _ _ _ PR)) as Hc. 
  assert (Hnp : ~ In p (points st)).
  { intros K. apply (run_points ex M l st vls p (HP ex M Hp HM)) in K. destruct K as (e & K1 & K2). apply touches_spec in K2. rewrite PE in K1. apply in_map_iff in K1. destruct K1 as (j & <- & K1). rewrite (Haw j K1) in K2. discriminate. }
  destruct (c_loc _ _ _ _ _ Hc p Hpw Hnp) as (i & t & Ht & Hi & Hf). exists i, t. split; auto. split; auto. eapply finds_find; eauto. apply (c_q1 _ _ _ _ _ Hc); auto.
Qed.

Lemma step_owes l e A st vls st' vls' sA vA d : good A -> away A -> Permutation (l ++ [e]) A ->
  evt (fun k => ploop k l) (st, vls) -> evt (fun k => ploop k (l ++ [e])) (st', vls') -> evt (fun k => ploop k A) (sA, vA) ->
  forall M, shear M (V ++ ex) -> forall iA tA, nth_error (st_ts sA) iA = Some tA -> inside M (reg sA tA) p ->
  (exists x, find d (st_qs st) p 0 = Ok x) -> exists d' x, find d' (st_qs st') p 0 = Ok x /\ d' <= d + 3 * owes A (reg sA tA) e.
Proof.
  intros HgA HaA HpA E E' EA M HM iA tA HtA HiA (x & Hx). assert (Hg : good (l ++ [e])) by (eapply good_perm; [symmetry; exact HpA|auto]). destruct (good_init l e Hg) as (Hgl & Hnl & He). assert (Ha : away (l ++ [e])) by (eapply away_perm; [symmetry; exact HpA|auto]). pose proof (away_app _ _ Ha) as Hal.
  destruct (run_find l st vls Hgl Hal E M HM) as (i & t & Ht & Hi & N & HN). destruct (run_find _ _ _ Hg Ha E' M HM) as (i' & t' & Ht' & Hi' & N' & HN').
  assert (x = (t_k t, i)). { destruct (vis_le d (st_qs st) p N 0 x _ Hx (HN N (le_n _))). auto. } subst x.
  pose proof (prefix_step l e st vls st' vls' Hg E E') as ((lp & Gp) & _ & _ & _ & GD).
  destruct (GD p d _ i t Hx Ht) as (d' & k' & i2 & t2 & F1 & F2 & F3 & F4).
  assert (Z : (t_k t', i') = (k', i2)). { destruct (vis_le N' (st_qs st') p d' 0 _ _ (HN' N' (le_n _)) F1). auto. } injection Z as <- <-. assert (t2 = t') by congruence. subst t2. clear F2.
  exists d', (t_k t', i'). split; auto. destruct F4 as [(-> & _)|F4]; [lia|]. enough (1 <= owes A (reg sA tA) e) by lia.
  destruct (prefix_run l Hgl) as (s & v & E0 & HP). pose proof (evt_eq _ _ _ E E0) as Z. injection Z as <- <-. pose proof (HP ex M Hp HM) as P0.
  destruct (prefix_run _ Hg) as (s & v & E1 & HP1). pose proof (evt_eq _ _ _ E' E1) as Z. injection Z as <- <-. pose proof (HP1 ex M Hp HM) as P1.
  destruct (prefix_run _ HgA) as (s & v & E2 & HP2). pose proof (evt_eq _ _ _ EA E2) as Z. injection Z as <- <-. pose proof (HP2 ex M Hp HM) as P2.
  assert (ER : reg st' t' = reg sA tA).
  { destruct (run_same _ _ _ _ _ _ _ _ P1 P2 HpA) as (S1 & S2).
    apply (canonical (V ++ ex) (uedges ps) M gv st' gv sA (p_geo _ _ _ _ _ P1) HM (r_full _ _ _ _ _ _ (p_rest _ _ _ _ _ P1)) (r_full _ _ _ _ _ _ (p_rest _ _ _ _ _ P2)) S1 S2 i' t' iA tA (ht M p) (cx p)); auto. }
  rewrite <- ER. pose proof (f_core _ _ _ _ _ (r_full _ _ _ _ _ _ (p_rest _ _ _ _ _ P0))) as C0. pose proof (f_core _ _ _ _ _ (r_full _ _ _ _ _ _ (p_rest _ _ _ _ _ P1))) as C1.
  pose proof (p_edges _ _ _ _ _ P0) as Em0. pose proof (p_edges _ _ _ _ _ P1) as Em1.
  assert (Els : length (st_ss st) = length l). { apply (f_equal (@length _)) in Em0. unfold medges in Em0. now rewrite !map_length in Em0. }
  destruct F4 as [F4|(w & Hw & F4)].
  - assert (Ee : eat st' (length (st_ss st)) = eof e). { unfold eat. rewrite Em1, Els, map_app, app_nth2; rewrite map_length; auto. rewrite Nat.sub_diag. reflexivity. }
    unfold has_side in F4. apply orb_prop in F4. unfold owes. rewrite al_reg, ar_reg. destruct F4 as [F4|F4].
    + destruct (t_l t') as [s|]; cbn in F4; [|discriminate]. apply Nat.eqb_eq in F4. subst s. cbn [option_map]. rewrite Ee. destruct (edge_dec (eof e) (eof e)); [lia|congruence].
    + destruct (t_r t') as [s|]; cbn in F4; [|discriminate]. apply Nat.eqb_eq in F4. subst s. cbn [option_map]. rewrite Ee. destruct (edge_dec (eof e) (eof e)); [lia|congruence].
  - assert (Q : forall dd, tend dd t' = Some w -> exists q, aend dd (reg st' t') = Some q /\ touches q (eof e) && Nat.eqb (cnt q (map eof A)) 1 = true).
    { intros dd Hd. destruct (reg_end _ _ _ _ st' i' t' dd w C1 Ht' Hd) as (nn & Hn & K). exists (n_c nn). split; auto.
      pose proof (points_nth _ _ _ Hn) as Hq. assert (Hnq : ~ In (n_c nn) (points st)).
      { intros Z. apply In_nth_error in Z. destruct Z as (u & Hu). pose proof (nth_lt _ _ _ _ Hu) as Lu. assert (Hu' : nth_error (points st') u = Some (n_c nn)) by (rewrite Gp, nth_error_app1; auto).
        assert (u = w) by (eapply (points_eq _ _ _ _ st' _ _ _ C1); eauto). subst u. exact (Nat.lt_irrefl _ (Nat.lt_le_trans _ _ _ Lu Hw)). }
      assert (K0 : cnt (n_c nn) (medges st) = 0).
      { unfold cnt. destruct (filter (touches (n_c nn)) (medges st)) as [|f m] eqn:Ef; auto. exfalso. apply Hnq. assert (Kf : In f (filter (touches (n_c nn)) (medges st))) by (rewrite Ef; now left).
        apply filter_In in Kf. destruct Kf as (Kf & Kt). apply touches_spec in Kt. destruct (medges_points _ _ _ _ st f C0 Kf) as (Z1 & Z2 & _). destruct Kt as [-> | ->]; auto. }
      assert (K1 : 1 <= cnt (n_c nn) (medges st')).
      { apply nth_error_In in Hq. apply (run_points _ _ _ _ _ _ P1) in Hq. destruct Hq as (f & Hf & Kf). apply touches_spec in Kf. unfold cnt.
        assert (In f (filter (touches (n_c nn)) (medges st'))) by (apply filter_In; auto). destruct (filter (touches (n_c nn)) (medges st')); [easy|cbn; lia]. }
      assert (Ec : cnt (n_c nn) (map eof A) = cnt (n_c nn) (medges st')). { rewrite Em1. apply cnt_perm, Permutation_map. now symmetry. }
      rewrite Em1, map_app, cnt_app, <- Em0, K0 in K1. cbn [map] in K1. rewrite cnt_one in K1. rewrite Ec, Em1, map_app, cnt_app, <- Em0, K0. cbn [map]. rewrite cnt_one. destruct (touches (n_c nn) (eof e)); [reflexivity|lia]. }
    unfold owes. destruct F4 as [F4|F4]; [destruct (Q Desc F4) as (q & K1 & K2)|destruct (Q Asc F4) as (q & K1 & K2)]; cbn [aend] in K1; rewrite K1, K2; lia.
Qed.

(** The state and the number of nodes visited with budget [K]. *)
Definition sof (K : nat) (l : list nat) : stt := match ploop K l with Ok (st, _) => st | _ => state_new end.
Definition dep (K : nat) (l : list nat) : nat := vis K (st_qs (sof K l)) p 0.

Variable M : Q.
Hypothesis HM : shear M (V ++ ex).

Definition enough (K : nat) : Prop := forall l, good l -> away l ->
  exists st vls i t, evt (fun k => ploop k l) (st, vls) /\ ploop K l = Ok (st, vls) /\ find K (st_qs st) p 0 = Ok (t_k t, i) /\ nth_error (st_ts st) i = Some t /\ inside M (reg st t) p.

Lemma enough_ex : exists N, forall K, N <= K -> enough K.
Proof.
  destruct (uniform (fun l k => away l -> exists st vls i t, evt (fun k => ploop k l) (st, vls) /\ ploop k l = Ok (st, vls) /\ find k (st_qs st) p 0 = Ok (t_k t, i) /\ nth_error (st_ts st) i = Some t /\ inside M (reg st t) p)) as (N & HN).
  { intros l Hg. destruct (prefix_run l Hg) as (st & vls & E & _). assert (Hd : {away l} + {~ away l}).
    { destruct (forallb (fun j => negb (touches p (eof j))) l) eqn:Ef; [left|right].
      - intros j Hj. rewrite forallb_forall in Ef. specialize (Ef j Hj). now destruct (touches p (eof j)).
      - intros K. apply Bool.not_true_iff_false in Ef. apply Ef, forallb_forall. intros j Hj. now rewrite (K j Hj). }
    destruct Hd as [Ha|Ha]; [|exists 0; intros; contradiction].
    destruct (run_find l st vls Hg Ha E M HM) as (i & t & Ht & Hi & N & HN). destruct E as (N' & E).
    exists (max N N'). intros k Hk _. exists st, vls, i, t. split; [exists N'; auto|]. split; [apply E; lia|]. split; [apply HN; lia|]. auto. }
  exists N. intros K HK l Hg Ha. apply (HN K l HK Hg Ha).
Qed.

(** Nodes visited beyond those visited after the first [r] segments: on average 12 (H_m - H_r). *)
Lemma search_gap K r m A : enough K -> good A -> away A -> length A = m ->
  (qsum (fun l => inject_Z (Z.of_nat (dep K l - dep K (firstn r l)))) (arrs m A) <= hsum (fun k => if Nat.leb k r then 0 else 12) m * inject_Z (Z.of_nat (length (arrs m A))))%Q.
Proof.
  intros HK HgA HaA Hl. set (S := sof K).
  set (R l := match find K (st_qs (S l)) p 0 with Ok (_, i) => match nth_error (st_ts (S l)) i with Some t => reg (S l) t | None => mkA None None None None end | _ => mkA None None None None end).
  set (pot l := inject_Z (Z.of_nat (dep K l - dep K (firstn r l)))).
  pose proof (backward (fun l => good l /\ away l) pot (fun A e => if Nat.leb (length A) r then 0 else 3 * inject_Z (Z.of_nat (owes A (R A) e)))%Q (fun k => if Nat.leb k r then 0 else 12)%Q) as HB.
  eapply Qle_trans; [apply HB|].
  - intros B e ((H1 & H2) & H3). split; [|now apply away_rem]. split; [now apply remove_nd|]. intros j Hj. apply in_remove in Hj. apply H2. tauto.
  - intros B e l (Ho & Hao) Hn He Hpl. assert (Elen : length B = length (l ++ [e])) by (symmetry; now apply Permutation_length). rewrite app_length in Elen. cbn [length] in Elen. unfold pot.
    destruct (Nat.leb_spec (length B) r) as [Hr|Hr].
    { rewrite !firstn_all2; [rewrite !Nat.sub_diag; cbn; lra|lia|rewrite app_length; cbn; lia]. }
    rewrite (firstn_app r l [e]). replace (r - length l) with 0 by lia. cbn [firstn]. rewrite app_nil_r.
    destruct (HK B Ho Hao) as (sA & vA & iA & tA & EA & EA1 & FA & TA & IA).
    assert (Hg : good (l ++ [e])) by (eapply good_perm; [symmetry; exact Hpl|auto]). destruct (good_init l e Hg) as (Hgl & _). assert (Ha : away (l ++ [e])) by (eapply away_perm; [symmetry; exact Hpl|auto]). pose proof (away_app _ _ Ha) as Hal.
    destruct (HK l Hgl Hal) as (st & vls & i & t & E & E1 & F & T1 & I1). destruct (HK _ Hg Ha) as (st' & vls' & i' & t' & E' & E1' & F' & T1' & I1').
    assert (ER : R B = reg sA tA) by (unfold R, S, sof; rewrite EA1, FA, TA; reflexivity). rewrite ER.
    assert (Hx : find (dep K l) (st_qs st) p 0 = Ok (t_k t, i)). { unfold dep, sof. rewrite E1. now apply vis_find. }
    destruct (step_owes l e B st vls st' vls' sA vA (dep K l) Ho Hao Hpl E E' EA M HM iA tA TA IA) as (d' & x & D1 & D2); [eauto|].
    assert (Kc : dep K (l ++ [e]) <= d'). { unfold dep, sof. rewrite E1'. eapply vis_le; eauto. }
    set (d0 := dep K (firstn r l)).
    setoid_replace (inject_Z (Z.of_nat (dep K l - d0)) + 3 * inject_Z (Z.of_nat (owes B (reg sA tA) e)))%Q with (inject_Z (Z.of_nat (dep K l - d0 + 3 * owes B (reg sA tA) e))).
    2:{ rewrite Nat2Z.inj_add, Nat2Z.inj_mul, inject_Z_plus, inject_Z_mult. reflexivity. }
    rewrite <- Zle_Qle. lia.
  - intros B (Ho & Hao) Hn. destruct (Nat.leb (length B) r). { rewrite qsum_const. lra. }
    rewrite qsum_mul, qsum_nat. assert (K4 : (inject_Z (Z.of_nat (nsum (owes B (R B)) B)) <= 4)%Q) by (change 4%Q with (inject_Z (Z.of_nat 4)); rewrite <- Zle_Qle; pose proof (owes_sum B (R B) Ho); lia). lra.
  - split; auto.
  - apply HgA.
  - exact Hl.
  - unfold pot. rewrite firstn_nil, Nat.sub_diag. cbn [Z.of_nat]. change (inject_Z 0) with 0%Q. lra.
Qed.
End Search.

(** The average number of nodes visited. *)
Lemma search_average p : xtra [p] -> exists (fuel : nat) (cost : list nat -> nat), (forall l k, good l -> fuel <= k -> exists st vls i, ploop k l = Ok (st, vls) /\ find (cost l) (st_qs st) p 0 = Ok i) /\
  (qsum (fun l => inject_Z (Z.of_nat (cost l))) (arrs n (seq 0 n)) <= (1 + 12 * harmonic n) * inject_Z (Z.of_nat (length (arrs n (seq 0 n)))))%Q.
Proof.
  intros Hp. destruct (shear_exists (V ++ [p])) as (M & HM). assert (Hpw : In p (V ++ [p])) by (apply in_or_app; right; now left).
  assert (Haw : forall l, good l -> away p l).
  { intros l (_ & Hl) j Hj. destruct (touches p (eof j)) eqn:Et; auto. exfalso. apply touches_spec in Et. destruct Hp as (_ & X2 & _).
    assert (KV : In (fst (eof j)) V /\ In (snd (eof j)) V).
    { destruct (prefix_run [] (conj (NoDup_nil _) (fun j (H : In j []) => False_ind _ H))) as (s0 & v0 & _ & HP0). destruct (shear_exists (V ++ [])) as (M0 & HM0). assert (X0 : xtra []) by (split; [|split]; easy).
      destruct (g_end _ _ (p_geo _ _ _ _ _ (HP0 [] M0 X0 HM0)) _ (eof_in j (Hl j Hj))) as (K1 & K2 & _). rewrite app_nil_r in K1, K2. auto. }
    destruct KV as (KV1 & KV2). destruct Et as [E | E]; [apply (X2 p (fst (eof j)))|apply (X2 p (snd (eof j)))]; auto; try (now left); rewrite E; split; reflexivity. }
  destruct (enough_ex p [p] Hp Hpw M HM) as (K & HK). pose proof (HK K (le_n _)) as HK0.
  exists K, (fun l => dep p K l). split.
  { intros l k Hg Hk. destruct (HK0 l Hg (Haw l Hg)) as (st & vls & i & t & E & E1 & F & _). destruct (HK k Hk l Hg (Haw l Hg)) as (st' & vls' & _ & _ & E' & E1' & _). pose proof (evt_eq _ _ _ E E') as Z. injection Z as <- <-.
    exists st, vls, (t_k t, i). split; auto. unfold dep, sof. rewrite E1. now apply vis_find. }
  assert (Hgs : good (seq 0 n)) by (split; [apply seq_NoDup|]; intros j Hj; apply in_seq in Hj; lia).
  pose proof (search_gap p [p] Hp Hpw M HM K 0 n (seq 0 n) HK0 Hgs (Haw _ Hgs) (seq_length _ _)) as HB.
  assert (P0 : dep p K [] = 1).
  { unfold dep, sof. cbn. destruct K; [|reflexivity]. destruct (HK0 [] (conj (NoDup_nil _) (fun j (H : In j []) => False_ind _ H)) (fun j (H : In j []) => False_ind _ H)) as (st & vls & i & t & _ & _ & F & _). discriminate. }
  assert (EH : (hsum (fun k => if Nat.leb k 0 then 0 else 12) n == 12 * harmonic n)%Q).
  { clear. unfold harmonic. induction n as [|m IH]; [reflexivity|]. cbn [hsum]. rewrite IH. cbn [Nat.leb]. unfold Qdiv. ring. }
  rewrite EH in HB. cbn [firstn] in HB. rewrite P0 in HB.
  eapply Qle_trans; [apply (qsum_le _ (fun l => 1 + inject_Z (Z.of_nat (dep p K l - 1))))%Q|].
  - intros l _. change 1%Q with (inject_Z (Z.of_nat 1)). rewrite <- inject_Z_plus, <- Zle_Qle. lia.
  - rewrite qsum_add, qsum_const. lra.
Qed.
End Random.
