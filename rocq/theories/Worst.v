(** The iterations of the construction in the worst order of insertion of one valid polygon. *)
From Coq Require Import QArith List Arith Lia Bool Permutation.
From Verif Require Import Base Coord Trap Lanes Plane Geo Region TrapInv Depth AddVertex SegStep Polygons Build Locate Orders Random RandomSize Work WorkCount RandomWork WorkAverage Phases.
Import ListNotations.
Local Open Scope nat_scope.

(** The number of re-locations of a schedule. *)
Fixpoint passes (mn : nat -> nat) (todo i uc nu : nat) : nat :=
  match todo with
  | 0 => 0
  | S todo => if Nat.eqb i nu then S (passes mn todo (S i) (uc + 1) (mn (uc + 1))) else passes mn todo (S i) uc nu
  end.

Lemma passes_le mn todo : forall i uc nu, passes mn todo i uc nu <= todo.
Proof. induction todo as [|todo IH]; intros i uc nu; cbn [passes]; auto. destruct (Nat.eqb i nu); [specialize (IH (S i) (uc + 1) (mn (uc + 1)))|specialize (IH (S i) uc nu)]; lia. Qed.

Lemma passes_end mn todo : forall i uc nu, nu < i \/ i + todo <= nu -> passes mn todo i uc nu = 0.
Proof. induction todo as [|todo IH]; intros i uc nu H; cbn [passes]; auto. assert (Nat.eqb i nu = false) as -> by (apply Nat.eqb_neq; lia). apply IH. lia. Qed.

Lemma passes_next mn todo : forall i uc nu, i <= nu < i + todo -> passes mn todo i uc nu = S (passes mn (i + todo - S nu) (S nu) (uc + 1) (mn (uc + 1))).
Proof.
  induction todo as [|todo IH]; intros i uc nu H; [lia|]. cbn [passes]. destruct (Nat.eqb_spec i nu) as [->|E].
  - replace (nu + S todo - S nu) with todo by lia. reflexivity.
  - rewrite IH by lia. replace (S i + todo - S nu) with (i + S todo - S nu) by lia. reflexivity.
Qed.

(** A paced schedule re-locates about log* n times. *)
Lemma passes_paced mn n : paced mn n -> forall d h r, 1 <= h -> (forall h', 1 <= h' < h -> 1 <= ilog h' n) -> r <= n -> (ilog h n = 0 -> 1 <= r) -> ilog (h + d) n = 0 ->
  passes (mn n) (n - r) r h (mn n h) <= d.
Proof.
  intros Hmn. induction d as [|d IH]; intros h r Hh Hp Hr H1 H0; destruct (Hmn h Hh Hp) as (P0 & _).
  - rewrite Nat.add_0_r in H0. rewrite passes_end; auto. specialize (P0 H0). specialize (H1 H0). lia.
  - destruct (Nat.eq_dec (ilog h n) 0) as [Z|Z].
    { rewrite passes_end; [lia|]. specialize (P0 Z). specialize (H1 Z). lia. }
    destruct (le_lt_dec r (mn n h)) as [A|A]; [|rewrite passes_end; lia]. destruct (le_lt_dec n (mn n h)) as [B|B]; [rewrite passes_end; lia|].
    rewrite passes_next by lia. apply le_n_S. replace (r + (n - r) - S (mn n h)) with (n - S (mn n h)) by lia. rewrite Nat.add_1_r. apply IH; try lia.
    + intros h' Hh'. destruct (Nat.eq_dec h' h) as [->|]; [lia|]. apply Hp. lia.
    + replace (S h + d) with (h + S d) by lia. exact H0.
Qed.

Lemma sched_le f g mn F G n todo : forall i r uc nu, i + todo = n -> r <= i -> (forall j s, j < n -> s <= j -> f j s <= F) -> (forall j, 1 <= j <= n -> g j <= G) ->
  sched f g mn todo i r uc nu <= todo * S F + passes mn todo i uc nu * G.
Proof.
  induction todo as [|todo IH]; intros i r uc nu Hi Hr Hf Hg; cbn [sched passes]; [lia|]. pose proof (Hf i r ltac:(lia) Hr) as Z. destruct (Nat.eqb i nu).
  - pose proof (IH (S i) (S i) (uc + 1) (mn (uc + 1)) ltac:(lia) (le_n _) Hf Hg) as Y. pose proof (Hg (S i) ltac:(lia)). nia.
  - pose proof (IH (S i) r uc nu ltac:(lia) ltac:(lia) Hf Hg) as Y. nia.
Qed.

Section Worst.
Context {I : Type}.
Variables (gv : I -> point) (ieqb : I -> I -> bool) (dbg : bool).
Hypothesis Hieq : forall a b, ieqb a b = true <-> a = b.
Variable math_n : nat -> nat -> nat.
Variable poly : list I.
Notation n := (length poly).
Notation V := (map gv poly).
Hypothesis HV : valid [V].
Notation good := (good poly).
Notation ploop := (ploop gv ieqb dbg math_n poly).
Notation sof := (sof gv ieqb dbg math_n poly).
Notation dep := (dep gv ieqb dbg math_n poly).
Notation stepc := (stepc gv ieqb dbg math_n poly).
Notation vcost := (vcost gv ieqb dbg math_n poly).
Notation wk := (wk gv ieqb dbg math_n poly).
Notation passc := (passc gv ieqb dbg math_n poly).
Variable M : Q.
Variable K : nat.
Hypothesis HK : forall l, good l -> exists st vls, evt (fun k => ploop k l) (st, vls) /\ ploop K l = Ok (st, vls).
Hypothesis HE : forall p, In p V -> enough gv ieqb dbg math_n poly p M K.

Lemma filter_len {A} (f : A -> bool) l : length (filter f l) <= length l.
Proof. induction l as [|a l IH]; cbn; auto. destruct (f a); cbn; lia. Qed.

(** A segment makes a search longer by at most three nodes. *)
Lemma dep_le p l : In p V -> good l -> away gv poly p l -> dep p K l <= 1 + 3 * length l.
Proof.
  intros Hp. induction l as [|j l IH] using rev_ind; intros Hg Ha.
  - destruct (HE p Hp [] Hg Ha) as (st & vls & i & t & E & E1 & F & _). pose proof (evt_eq _ _ _ E (evt_ret (state_new, map (pend1 gv) poly))) as Z. injection Z as -> ->.
    unfold Random.dep. rewrite (sof_at gv ieqb dbg math_n poly K HK [] _ _ Hg E). cbn [length]. eapply (vis_bound 1). reflexivity.
  - destruct (good_init poly l j Hg) as (Hgl & _). pose proof (away_app gv poly p _ _ Ha) as Hal. specialize (IH Hgl Hal).
    destruct (HE p Hp l Hgl Hal) as (st & vls & i & t & E & E1 & F & T & _). destruct (HE p Hp _ Hg Ha) as (st' & vls' & i' & t' & E' & E1' & _).
    pose proof (prefix_step gv ieqb dbg Hieq math_n poly HV l j st vls st' vls' Hg E E') as (_ & _ & _ & _ & GD).
    assert (Hx : find (dep p K l) (st_qs st) p 0 = Ok (t_k t, i)). { unfold Random.dep. rewrite (sof_at gv ieqb dbg math_n poly K HK l _ _ Hgl E). now apply vis_find. }
    destruct (GD p _ _ i t Hx T) as (d' & k' & i2 & t2 & F1 & _ & F3 & _).
    assert (Kc : dep p K (l ++ [j]) <= d'). { unfold Random.dep. rewrite (sof_at gv ieqb dbg math_n poly K HK _ _ _ Hg E'). eapply vis_bound; eauto. }
    rewrite app_length. cbn [length]. lia.
Qed.

Lemma good_len l : good l -> length l <= n.
Proof. intros (H1 & H2). rewrite <- (seq_length n 0). apply NoDup_incl_length; auto. intros j Hj. apply in_seq. specialize (H2 j Hj). lia. Qed.

Lemma stepc_le r l : good l -> l <> [] -> stepc K r l <= 6 * n.
Proof.
  intros Hg Hn. destruct (exists_last Hn) as (m & j & ->). destruct (good_init poly m j Hg) as (Hgm & _). assert (Hj : j < n) by (apply Hg, in_or_app; right; now left).
  destruct (eof_V gv poly j Hj) as (V1 & V2). pose proof (good_len _ Hg) as L. rewrite app_length in L. cbn [length] in L.
  unfold RandomWork.stepc. rewrite removelast_last, last_last.
  assert (G : forall p, In p V -> vcost K m r p <= 3 * n).
  { intros p Hp. unfold RandomWork.vcost. destruct (awayb gv poly p m) eqn:E; [|lia]. apply awayb_spec in E. pose proof (dep_le p m Hp Hgm E). lia. }
  pose proof (G _ V1). pose proof (G _ V2). lia.
Qed.

Lemma wk_le l j : good (l ++ [j]) -> wk K l j <= 3 * n + 1.
Proof.
  intros Hg. pose proof (good_len _ Hg) as L. destruct (HK _ Hg) as (st & vls & E & _). unfold RandomWork.wk. rewrite (sof_at gv ieqb dbg math_n poly K HK _ _ _ Hg E).
  destruct (run_sizes gv ieqb dbg Hieq math_n poly HV _ _ _ Hg E) as (S1 & S2). unfold adj. etransitivity; [apply filter_len|]. lia.
Qed.

Lemma passc_le l m : good (l ++ m) -> passc K l m <= 3 * (n * n) + 3 * n + 1.
Proof.
  intros Hg. unfold RandomWork.passc. pose proof (good_len _ Hg) as L. rewrite app_length in L.
  assert (G : nsum (fun j => S (wk K l j)) m <= length m * (3 * n + 2)).
  { assert (Hm : forall j, In j m -> good (l ++ [j])).
    { intros j Hj. destruct Hg as (N1 & N2). split.
      - apply NoDup_app_inv in N1. destruct N1 as (N1 & _ & N3). apply (Permutation_NoDup (Permutation_cons_append l j)). constructor; auto. intros C. exact (N3 j C Hj).
      - intros x Hx. apply N2. apply in_app_or in Hx. apply in_or_app. destruct Hx as [|[<-|[]]]; auto. }
    clear Hg L. induction m as [|j m IH]; [cbn; lia|]. cbn [nsum fold_right map length]. fold (nsum (fun j => S (wk K l j)) m). pose proof (wk_le l j (Hm j (or_introl eq_refl))). specialize (IH (fun x Hx => Hm x (or_intror Hx))). lia. }
  nia.
Qed.

Lemma scost_le o : Permutation o (seq 0 n) -> scost gv ieqb dbg math_n poly K o <= n * S (6 * n) + passes (math_n n) n 0 1 (math_n n 1) * (3 * (n * n) + 3 * n + 1).
Proof.
  intros Hp. assert (Hg : good o). { eapply good_perm; [symmetry; exact Hp|]. split; [apply seq_NoDup|]. intros j Hj. apply in_seq in Hj. lia. }
  assert (Lo : length o = n) by (apply Permutation_length in Hp; now rewrite seq_length in Hp).
  unfold scost. apply (sched_le _ _ _ _ _ n); auto.
  - intros j s Hj Hs. assert (Hs' : good (firstn (S j) o)). { rewrite <- (firstn_skipn (S j) o) in Hg. destruct Hg as (N1 & N2). split; [now apply NoDup_app_inv in N1|]. intros x Hx. apply N2, in_or_app. auto. }
    apply stepc_le; auto. destruct o; [cbn in Lo; lia|easy].
  - intros j Hj. apply passc_le. now rewrite firstn_skipn.
Qed.
(** The query nodes. *)
Lemma nodes_le l : forall st vls, good l -> evt (fun k => ploop k l) (st, vls) -> 2 * length (st_qs st) <= 2 + 4 * length (points st) + length l * (3 * length l + 5).
Proof.
  induction l as [|j l IH] using rev_ind; intros st vls Hg E.
  - pose proof (evt_eq _ _ _ E (evt_ret (state_new, map (pend1 gv) poly))) as Z. injection Z as -> ->. cbn. lia.
  - destruct (good_init poly l j Hg) as (Hgl & _). destruct (prefix_run gv ieqb dbg Hieq math_n poly HV l Hgl) as (s & v & E0 & _). specialize (IH s v Hgl E0).
    destruct (prefix_step gv ieqb dbg Hieq math_n poly HV l j s v st vls Hg E0 E) as (_ & _ & G & _). destruct (run_sizes gv ieqb dbg Hieq math_n poly HV _ _ _ Hg E) as (S1 & S2).
    assert (A : adj (st_ts st) (length (st_ss s)) <= length (st_ts st)) by apply filter_len. rewrite app_length in *. cbn [length] in *. nia.
Qed.

Lemma order_nodes o : Permutation o (seq 0 n) -> 2 * length (st_qs (sof K o)) <= 3 * (n * n) + 13 * n + 2.
Proof.
  intros Hp. assert (Hg : good o). { eapply good_perm; [symmetry; exact Hp|]. split; [apply seq_NoDup|]. intros j Hj. apply in_seq in Hj. lia. }
  assert (Lo : length o = n) by (apply Permutation_length in Hp; now rewrite seq_length in Hp). destruct (HK o Hg) as (st & vls & E & _). rewrite (sof_at gv ieqb dbg math_n poly K HK o _ _ Hg E).
  pose proof (nodes_le o st vls Hg E) as Z. destruct (run_sizes gv ieqb dbg Hieq math_n poly HV _ _ _ Hg E) as (_ & S2). rewrite Lo in *. nia.
Qed.
End Worst.
