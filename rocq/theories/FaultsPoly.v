(** The internal errors of the trapezoidation, and two segments at every nexus in the end, for arbitrary coordinates. *)
From Coq Require Import List Arith Bool Lia Permutation.
From Verif Require Import Base Coord Trap Faults FaultsTop.
Import ListNotations.

(** Number of the edges in [l] that touch vertex [j] of a polygon of [n] vertices. *)
Fixpoint touch (n : nat) (l : list nat) (j : nat) : nat :=
  match l with
  | [] => 0
  | e :: l => (if Nat.eqb j e then 1 else 0) + (if Nat.eqb j ((e + 1) mod n) then 1 else 0) + touch n l j
  end.

Lemma touch_perm n l l' j : Permutation l l' -> touch n l j = touch n l' j.
Proof. induction 1; cbn [touch]; lia. Qed.

Lemma touch_app n l l' j : touch n (l ++ l') j = touch n l j + touch n l' j.
Proof. induction l as [|e l IH]; cbn [app touch]; [reflexivity|]. rewrite IH. lia. Qed.

Definition hits (l : list nat) (j : nat) : nat := length (filter (Nat.eqb j) l).
Lemma touch_hits n l j : touch n l j = hits l j + hits (map (fun e => (e + 1) mod n) l) j.
Proof. unfold hits. induction l as [|e l IH]; cbn [touch map filter]; [reflexivity|]. rewrite IH. destruct (j =? e), (j =? (e + 1) mod n); cbn [length]; lia. Qed.

Lemma hits_nd l j : NoDup l -> hits l j <= 1.
Proof.
  unfold hits. induction 1 as [|e l Hn Hd IH]; cbn [filter]; [cbn; lia|]. destruct (Nat.eqb_spec j e) as [->|]; auto. cbn [length].
  assert (filter (Nat.eqb e) l = []) as ->; [|cbn; lia]. apply incl_l_nil. intros x Hx. apply filter_In in Hx. destruct Hx as (Hx & He). apply Nat.eqb_eq in He. congruence.
Qed.
Lemma hits_in l j : In j l -> 1 <= hits l j.
Proof. intros H. unfold hits. assert (In j (filter (Nat.eqb j) l)) by (apply filter_In; split; auto; apply Nat.eqb_refl). destruct (filter _ _); [destruct H0|cbn; lia]. Qed.
Lemma hits_pos l j : 1 <= hits l j -> In j l.
Proof. unfold hits. intros H. destruct (filter (Nat.eqb j) l) as [|x q] eqn:E; [cbn in H; lia|]. assert (In x (filter (Nat.eqb j) l)) by (rewrite E; left; auto). apply filter_In in H0. destruct H0 as (Hx & He). apply Nat.eqb_eq in He. now subst. Qed.

Lemma next_perm n : Permutation (map (fun e => (e + 1) mod n) (seq 0 n)) (seq 0 n).
Proof.
  destruct n as [|n]; [constructor|]. rewrite seq_S, map_app. cbn [map Nat.add].
  assert (map (fun e => (e + 1) mod S n) (seq 0 n) = seq 1 n) as ->.
  { rewrite <- seq_shift. apply map_ext_in. intros e He. apply in_seq in He. rewrite Nat.mod_small; lia. }
  replace ((n + 1) mod S n) with 0 by (rewrite Nat.add_comm; symmetry; apply Nat.mod_same; lia). rewrite Permutation_app_comm. cbn [app]. rewrite <- seq_S. reflexivity.
Qed.

Lemma touch_all n o j : Permutation o (seq 0 n) -> j < n -> touch n o j = 2.
Proof.
  intros Ho Hj. rewrite (touch_perm n o (seq 0 n) j Ho), touch_hits. assert (In j (seq 0 n)) by (apply in_seq; lia).
  pose proof (hits_in (seq 0 n) j H) as A. pose proof (hits_nd (seq 0 n) j (seq_NoDup n 0)) as B.
  assert (Hp := next_perm n). assert (In j (map (fun e => (e + 1) mod n) (seq 0 n))) by (rewrite Hp; auto).
  pose proof (hits_in _ j H0) as A'. assert (NoDup (map (fun e => (e + 1) mod n) (seq 0 n))) by (apply Permutation_NoDup with (seq 0 n); [now symmetry|apply seq_NoDup]).
  pose proof (hits_nd _ j H1) as B'. lia.
Qed.

Section Poly.
Context {C : Type} {OC : CoordOps C} {I : Type}.
Notation nexus := (nexus C I).
Notation state := (state C I).
Notation vloc := (vloc C I).
Context {U : Prop}.
Notation may := (may U).
Notation apart := (apart U).
Variable ieqb : I -> I -> bool.
Hypothesis Hieq : U -> forall a b, ieqb a b = true <-> a = b.
Variable gv : I -> coords C.
Variable dbg : bool.
Variable fuel : nat.

(** The polygon's indices [V], and the nexuses of the polygons before it. *)
Variable V : list I.
Notation n := (length V).
Hypothesis H3 : 3 <= n.
Variable prior : list I.
Hypothesis Hnd : U -> NoDup (prior ++ V).
Variable N0 : nat.

(** [todo]: the edges still to come. *)
Record inv (ns : list nexus) (vls : list vloc) (todo : list nat) : Prop := {
  v_len : length vls = n;
  v_n0 : N0 <= length ns;
  v_old : forall i, i < N0 -> deg ns i = 2 /\ exists x, ident ns i = Some x /\ In x prior;
  v_uniq : U -> forall i j, i < N0 -> j < N0 -> ident ns i = ident ns j -> i = j;
  v_ins : forall j c i, nth_error vls j = Some (Inserted c i) -> N0 <= i < length ns /\ deg ns i + touch n todo j = 2 /\ ident ns i = nth_error V j;
  v_pend : forall j c x q, nth_error vls j = Some (Pending c x q) -> touch n todo j = 2 /\ nth_error V j = Some x;
  v_all : forall i, N0 <= i < length ns -> exists j c, nth_error vls j = Some (Inserted c i);
  v_inj : forall j j' c c' i, nth_error vls j = Some (Inserted c i) -> nth_error vls j' = Some (Inserted c' i) -> j = j'
}.

Lemma nd_prior (u : U) x : In x prior -> In x V -> False.
Proof. intros H1 H2. specialize (Hnd u). clear - Hnd H1 H2. induction prior as [|a p IH]; [destruct H1|]. cbn in Hnd. inversion Hnd; subst. destruct H1 as [->|H1]; auto. apply H3. apply in_or_app. auto. Qed.
Lemma nd_V (u : U) : NoDup V.
Proof. specialize (Hnd u). clear - Hnd. induction prior as [|a p IH]; auto. cbn in Hnd. inversion Hnd; auto. Qed.

Lemma inv_pos ns vls todo j j' c c' i : inv ns vls todo -> nth_error vls j = Some (Inserted c i) -> nth_error vls j' = Some (Inserted c' i) -> j = j'.
Proof.
  intros Hi. apply (v_inj _ _ _ Hi).
Qed.

Lemma inv_apart ns vls todo : inv ns vls todo -> apart ns.
Proof.
  intros Hi u i j v H1 H2. assert (Li : i < length ns) by (apply nth_error_Some; unfold ident in H1; destruct (nth_error ns i); [discriminate|cbn in H1; discriminate]).
  assert (Lj : j < length ns) by (apply nth_error_Some; unfold ident in H2; destruct (nth_error ns j); [discriminate|cbn in H2; discriminate]).
  destruct (Nat.lt_ge_cases i N0) as [Ci|Ci], (Nat.lt_ge_cases j N0) as [Cj|Cj].
  - apply (v_uniq _ _ _ Hi u); auto. congruence.
  - exfalso. destruct (v_old _ _ _ Hi i Ci) as (_ & x & E & P). destruct (v_all _ _ _ Hi j) as (p & c & Hp); auto. destruct (v_ins _ _ _ Hi _ _ _ Hp) as (_ & _ & E').
    apply (nd_prior u x P). apply nth_error_In with p. congruence.
  - exfalso. destruct (v_old _ _ _ Hi j Cj) as (_ & x & E & P). destruct (v_all _ _ _ Hi i) as (p & c & Hp); auto. destruct (v_ins _ _ _ Hi _ _ _ Hp) as (_ & _ & E').
    apply (nd_prior u x P). apply nth_error_In with p. congruence.
  - destruct (v_all _ _ _ Hi i) as (p & c & Hp); auto. destruct (v_all _ _ _ Hi j) as (p' & c' & Hp'); auto.
    destruct (v_ins _ _ _ Hi _ _ _ Hp) as (_ & _ & E). destruct (v_ins _ _ _ Hi _ _ _ Hp') as (_ & _ & E').
    assert (p = p'). { assert (p < n) by (rewrite <- (v_len _ _ _ Hi); apply nth_error_Some; congruence). apply (proj1 (NoDup_nth_error V) (nd_V u)); auto. congruence. }
    subst p'. congruence.
Qed.

(** A pending vertex is inserted. *)
Lemma add_at_fine (st : state) vls todo j c x q qi : inv (st_ns st) vls todo -> nth_error vls j = Some (Pending c x q) ->
  fine may (fun p => let '(st', vls', ni) := p in inv (st_ns st') vls' todo /\ nth_error vls' j = Some (Inserted c ni) /\ (forall j', j' <> j -> nth_error vls' j' = nth_error vls j'))
    (add_vertex_at gv dbg fuel st vls j x qi).
Proof.
  intros Hi Hj. unfold add_vertex_at. eapply fine_bind; [apply add_vertex_fine|]. intros [st' ni] (E1 & E2 & _). cbn [fst snd] in *.
  unfold modify. rewrite Hj. cbn [bind fine vl_coords]. assert (Lj : j < length vls) by (apply nth_error_Some; congruence).
  split; [|split; [now apply nth_upd_eq|intros j' Hj'; apply nth_upd_ne; congruence]].
  destruct E2 as (L & E2). rewrite app_length in L. cbn [length] in L.
  assert (Eo : forall i, i < length (st_ns st) -> deg (st_ns st') i = deg (st_ns st) i /\ ident (st_ns st') i = ident (st_ns st) i).
  { intros i Hl. destruct (E2 i) as (-> & ->). unfold deg, ident. rewrite !nth_error_app1 by auto. auto. }
  assert (En : deg (st_ns st') ni = 0 /\ ident (st_ns st') ni = Some x).
  { subst ni. destruct (E2 (length (st_ns st))) as (-> & ->). unfold deg, ident. rewrite !nth_error_app2, Nat.sub_diag by auto. auto. }
  destruct Hi as [I1 I2 I3 I4 I5 I6 I7 I8]. split.
  - now rewrite upd_length.
  - lia.
  - intros i Hl. destruct (Eo i) as (-> & ->); [lia|]. auto.
  - intros u i i' Hl Hl'. destruct (Eo i) as (_ & ->); [lia|]. destruct (Eo i') as (_ & ->); [lia|]. auto.
  - intros p c' i Hp. rewrite nth_upd in Hp. destruct (Nat.eqb_spec j p) as [<-|Hne].
    + rewrite Hj in Hp. injection Hp as <- <-. destruct (I6 _ _ _ _ Hj) as (T & X). destruct En as (-> & ->). split; [lia|]. split; [lia|auto].
    + destruct (I5 _ _ _ Hp) as (A & B & D). destruct (Eo i) as (-> & ->); [lia|]. split; [lia|auto].
  - intros p c' x' q' Hp. rewrite nth_upd in Hp. destruct (Nat.eqb_spec j p) as [<-|Hne]; [rewrite Hj in Hp; discriminate|]. eauto.
  - intros i Hl. destruct (Nat.eq_dec i ni) as [->|Hne]; [exists j, c; now apply nth_upd_eq|]. destruct (I7 i) as (p & c' & Hp); [lia|]. exists p, c'. rewrite nth_upd_ne; auto. intros ->. congruence.
  - intros p p' c1 c2 i Hp Hp'. rewrite nth_upd in Hp, Hp'. destruct (Nat.eqb_spec j p) as [<-|], (Nat.eqb_spec j p') as [<-|]; eauto.
    + rewrite Hj in Hp. injection Hp as _ <-. destruct (I5 _ _ _ Hp'). lia.
    + rewrite Hj in Hp'. injection Hp' as _ <-. destruct (I5 _ _ _ Hp). lia.
Qed.

Lemma fine_and {A E} (W W' : E -> Prop) (P Q : A -> Prop) (r : res E A) : fine W P r -> fine W' Q r -> fine W (fun a => P a /\ Q a) r.
Proof. destruct r; cbn; auto. Qed.

Lemma add_at_crown (st : state) vls j x qi : crown st -> fine (fun _ => True) (fun p => crown (fst (fst p))) (add_vertex_at gv dbg fuel st vls j x qi).
Proof.
  intros Hc. unfold add_vertex_at. eapply fine_bind; [apply (add_vertex_crown gv dbg fuel st x qi Hc)|]. intros [st' ni] Hc'.
  eapply (fine_bind (fun _ => True)); [destruct (modify _ _ _); exact Logic.I|]. intros vls' _. exact Hc'.
Qed.

Lemma next_ne e : e < n -> (e + 1) mod n <> e.
Proof. intros He. destruct (Nat.eq_dec (e + 1) n) as [E|E]; [rewrite E, Nat.mod_same by lia; lia|rewrite Nat.mod_small; lia]. Qed.

(** An edge is inserted. *)
Lemma nth_segment_fine (st : state) vls e todo : inv (st_ns st) vls (e :: todo) -> crown st -> e < n ->
  fine may (fun p => let '(st', vls', _) := p in inv (st_ns st') vls' todo /\ crown st' /\ exists c i, nth_error vls' ((e + 1) mod n) = Some (Inserted c i)) (add_nth_segment ieqb gv dbg fuel st vls e).
Proof.
  intros Hi Hcr He. unfold add_nth_segment. cbv zeta. rewrite (v_len _ _ _ Hi). pose proof (next_ne e He) as Hne. set (e' := (e + 1) mod n) in *.
  eapply fine_bind; [apply fine_rd|]. intros vl0 H0. eapply fine_bind; [apply fine_rd|]. intros vl1 H1.
  eapply (fine_bind (fun p => (let '(st', vls', ni0, ni1, _) := p in inv (st_ns st') vls' (e :: todo) /\ (exists c, nth_error vls' e = Some (Inserted c ni0)) /\ (exists c, nth_error vls' e' = Some (Inserted c ni1))) /\ crown (fst (fst (fst (fst p)))))).
  { apply fine_and with (fun _ => True).
    2: { destruct vl0 as [c0 x0 q0|c0 i0], vl1 as [c1 x1 q1|c1 i1]; [destruct (coords_lt c0 c1)| | |exact Hcr]; (eapply fine_bind; [apply add_at_crown; exact Hcr|]); intros [[? ?] ?] Hc1; cbn [fst] in Hc1; try exact Hc1;
         (eapply fine_bind; [apply add_at_crown; exact Hc1|]); intros [[? ?] ?] Hc2; exact Hc2. }
    destruct vl0 as [c0 x0 q0|c0 i0], vl1 as [c1 x1 q1|c1 i1].
    - destruct (coords_lt c0 c1).
      + eapply fine_bind; [apply (add_at_fine _ _ _ _ _ _ _ _ Hi H0)|]. intros [[st1 vls1] ni0] (A1 & A2 & A3).
        eapply fine_bind; [eapply (add_at_fine _ _ _ _ _ _ _ _ A1); rewrite A3 by auto; exact H1|]. intros [[st2 vls2] ni1] (B1 & B2 & B3). cbn [fine]. split; auto. split; [|eauto]. exists c0. rewrite B3; auto.
      + eapply fine_bind; [apply (add_at_fine _ _ _ _ _ _ _ _ Hi H1)|]. intros [[st1 vls1] ni0] (A1 & A2 & A3).
        eapply fine_bind; [eapply (add_at_fine _ _ _ _ _ _ _ _ A1); rewrite A3 by auto; exact H0|]. intros [[st2 vls2] ni1] (B1 & B2 & B3). cbn [fine]. split; auto. split; [eauto|]. exists c1. rewrite B3; auto.
    - eapply fine_bind; [apply (add_at_fine _ _ _ _ _ _ _ _ Hi H0)|]. intros [[st1 vls1] ni0] (A1 & A2 & A3). cbn [fine]. split; auto. split; [eauto|]. exists c1. rewrite A3; auto.
    - eapply fine_bind; [apply (add_at_fine _ _ _ _ _ _ _ _ Hi H1)|]. intros [[st1 vls1] ni0] (A1 & A2 & A3). cbn [fine]. split; auto. split; [|eauto]. exists c0. rewrite A3; auto.
    - cbn [fine]. eauto. }
  intros [[[[st1 vls1] ni0] ni1] added] ((A & (c0 & B0) & (c1 & B1)) & Hc1). cbn [fst] in Hc1.
  eapply fine_bind; [apply fine_rdu|]. intros n0 _. eapply fine_bind; [apply fine_rdu|]. intros n1 _.
  destruct (v_ins _ _ _ A _ _ _ B0) as (R0 & D0 & _). destruct (v_ins _ _ _ A _ _ _ B1) as (R1 & D1 & _). cbn [touch] in D0, D1. fold e' in D0, D1. rewrite Nat.eqb_refl in D0, D1.
  destruct (Nat.eqb_spec e e'); [congruence|]. destruct (Nat.eqb_spec e' e); [congruence|].
  assert (Hd : ni0 <> ni1). { intros ->. pose proof (inv_pos _ _ _ _ _ _ _ _ A B0 B1). congruence. }
  assert (K : forall st2, (forall j, deg (st_ns st2) j = deg (st_ns st1) j + (if Nat.eqb j ni0 then 1 else 0) + (if Nat.eqb j ni1 then 1 else 0) /\ ident (st_ns st2) j = ident (st_ns st1) j) -> length (st_ns st2) = length (st_ns st1) ->
     inv (st_ns st2) vls1 todo).
  { intros st2 Hp Hl. pose proof A as [I1 I2 I3 I4 I5 I6 I7 I8]. split; auto.
    - lia.
    - intros i Hlt. destruct (Hp i) as (-> & ->). destruct (Nat.eqb_spec i ni0); [lia|]. destruct (Nat.eqb_spec i ni1); [lia|]. destruct (I3 i Hlt). split; [lia|auto].
    - intros u i i' L L'. destruct (Hp i) as (_ & ->). destruct (Hp i') as (_ & ->). auto.
    - intros j c i Hj. destruct (I5 _ _ _ Hj) as (E1 & E2 & E3). destruct (Hp i) as (-> & ->). rewrite Hl. split; auto. split; auto. cbn [touch] in E2. fold e' in E2.
      assert (Z0 : i = ni0 <-> j = e). { split; intros ->; [eapply inv_pos; eassumption|congruence]. }
      assert (Z1 : i = ni1 <-> j = e'). { split; intros Z; [subst i; eapply inv_pos; eassumption|rewrite Z in Hj; congruence]. }
      destruct (Nat.eqb_spec i ni0), (Nat.eqb_spec j e), (Nat.eqb_spec i ni1), (Nat.eqb_spec j e'); try tauto; lia.
    - intros j c x q Hj. destruct (I6 _ _ _ _ Hj) as (E1 & E2). split; auto. cbn [touch] in E1. fold e' in E1.
      destruct (Nat.eqb_spec j e) as [->|]; [congruence|]. destruct (Nat.eqb_spec j e') as [->|]; [congruence|]. exact E1.
    - rewrite Hl. auto. }
  eapply (fine_bind (fun st2 => inv (st_ns st2) vls1 todo /\ crown st2)).
  { apply fine_and with (fun _ => True); [|destruct (coords_lt _ _); apply add_segment_crown; auto]. destruct (coords_lt _ _); (eapply fine_weaken; [|apply add_segment_fine; auto; try lia; now apply (inv_apart _ _ _ A)]); intros st2 (ns & (P1 & P2) & (Q1 & Q2)); apply K; try congruence;
      intros j; destruct (P2 j), (Q2 j); (split; [lia|congruence]). }
  intros st2 (J & J'). cbn [fine]. split; auto. split; auto. eauto.
Qed.

Lemma next_inj a b : a < n -> b < n -> (a + 1) mod n = (b + 1) mod n -> a = b.
Proof.
  intros Ha Hb. destruct (Nat.eq_dec (a + 1) n) as [E|E], (Nat.eq_dec (b + 1) n) as [F|F]; rewrite ?E, ?F, ?Nat.mod_same by lia; try lia; rewrite ?Nat.mod_small by lia; lia.
Qed.

(** Locating the pending vertices. *)
Lemma toward_fine (st : state) d c i n0 : nth_error (st_ns st) i = Some n0 -> deg (st_ns st) i <= 1 -> fine may (fun _ => True) (get_trapezoid_toward (st_ss st) (st_ns st) d c n0).
Proof.
  intros Hn Hd. unfold deg in Hd. rewrite Hn in Hd. unfold get_trapezoid_toward.
  assert (Hs : size (filter_dividers n0 d) <= 1). { unfold filter_dividers. destruct (n_div n0) as [|a|a b]; cbn in *; try lia. destruct (dir_eqb _ _); cbn; lia. }
  destruct (filter_dividers n0 d) as [|a|a b]; [exact Logic.I| |cbn in Hs; lia].
  eapply fine_bind; [apply fine_rd|]. intros s _. eapply fine_bind; [apply fine_rd|]. intros m1 _. eapply fine_bind; [apply fine_rd|]. intros m2 _. exact Logic.I.
Qed.

Lemma walk_fine k (st : state) d c1 c2 : forall t, fine may (fun _ => True) (walk k st d c1 c2 t).
Proof.
  induction k as [|k IH]; intros ti; cbn [walk]; [exact Logic.I|]. eapply fine_bind; [apply fine_rdu|]. intros t _. unfold reached.
  destruct (match d with Asc => t_u t | Desc => t_d t end) as [ni|]; [|exact Logic.I]. cbn [ok_or]. eapply (fine_bind (fun _ => True)).
  { eapply fine_bind; [apply fine_rd|]. intros m _. exact Logic.I. }
  intros [|] _; [exact Logic.I|]. cbn [bind]. eapply fine_bind; [apply fine_rdu|]. intros m _. apply IH.
Qed.

Lemma relocate_fine (st : state) todo : NoDup todo -> Forall (fun e => e < n) todo -> forall k vls un v loc c0, inv (st_ns st) vls todo -> v < n ->
  (forall i, loc = LNexus i -> (exists c, nth_error vls v = Some (Inserted c i)) \/ exists c i', nth_error vls ((v + 1) mod n) = Some (Inserted c i')) ->
  fine may (fun vls' => inv (st_ns st) vls' todo) (relocate fuel k st vls un v loc c0).
Proof.
  intros Hd Hr. induction k as [|k IH]; intros vls un v loc c0 Hi Hv Hl; (destruct un as [|un]; cbn [relocate]; [exact Hi|]); [exact Logic.I|]. cbv zeta. rewrite (v_len _ _ _ Hi).
  set (v' := (v + 1) mod n) in *. assert (Hv' : v' < n) by (apply Nat.mod_upper_bound; lia).
  eapply fine_bind; [apply fine_rd|]. intros [c x q|c i] Hx.
  - destruct (v_pend _ _ _ Hi _ _ _ _ Hx) as (T & X).
    eapply (fine_bind (fun _ => True)).
    { destruct loc as [i|t]; [|exact Logic.I]. destruct (Hl i eq_refl) as [(c' & Hc)|(c' & i' & Hc)]; [|congruence].
      eapply fine_bind; [apply fine_rdu|]. intros n0 Hn0. apply (toward_fine st _ _ i); auto. destruct (v_ins _ _ _ Hi _ _ _ Hc) as (_ & D & _).
      assert (In v todo); [|pose proof (hits_in todo v H); rewrite touch_hits in D; lia].
      rewrite touch_hits in T. pose proof (hits_nd todo v' Hd). assert (In v' (map (fun e => (e + 1) mod n) todo)) as Hin by (apply hits_pos; lia).
      apply in_map_iff in Hin. destruct Hin as (e & E1 & E2). rewrite Forall_forall in Hr. assert (e = v) by (apply next_inj; auto). now subst. }
    intros t0 _. eapply fine_bind; [apply walk_fine|]. intros t _. eapply fine_bind; [apply fine_rdu|]. intros tt _.
    apply IH; auto; [|discriminate]. pose proof Hi as [I1 I2 I3 I4 I5 I6 I7]. split; auto.
    + now rewrite upd_length.
    + intros j c' i Hj. rewrite nth_upd in Hj. destruct (Nat.eqb_spec v' j) as [<-|]; [rewrite Hx in Hj; discriminate|eauto].
    + intros j c' x' q' Hj. rewrite nth_upd in Hj. destruct (Nat.eqb_spec v' j) as [<-|]; [rewrite Hx in Hj; injection Hj as <- <- <-; eauto|eauto].
    + intros i Hlt. destruct (I7 i Hlt) as (j & c' & Hj). exists j, c'. rewrite nth_upd_ne; auto. intros <-. congruence.
    + intros j j' c' c'' i Hj Hj'. rewrite nth_upd in Hj, Hj'. destruct (Nat.eqb_spec v' j) as [<-|]; [rewrite Hx in Hj; discriminate|]. destruct (Nat.eqb_spec v' j') as [<-|]; [rewrite Hx in Hj'; discriminate|eauto].
  - eapply fine_bind; [apply fine_rdu|]. intros m _. apply IH; auto. intros i' [= <-]. left. eauto.
Qed.

Lemma loop_fine math_n len : forall todo i (st : state) vls p u nu, NoDup todo -> Forall (fun e => e < n) todo -> inv (st_ns st) vls todo -> crown st ->
  fine may (fun q => inv (st_ns (fst q)) (snd q) [] /\ crown (fst q)) (polygon_loop ieqb gv dbg fuel math_n len todo i st vls p u nu).
Proof.
  induction todo as [|e todo IH]; intros i st vls p u nu Hd Hr Hi Hcr; cbn [polygon_loop]; [exact (conj Hi Hcr)|]. inversion Hd; subst. inversion Hr; subst.
  eapply fine_bind; [apply nth_segment_fine; eauto|]. intros [[st1 vls1] added] (A & Hc1 & B). cbv zeta. destruct (Nat.eqb _ _); [|now apply IH].
  eapply fine_bind; [apply (relocate_fine st1 todo); eauto|]. intros vls2 A2. now apply IH.
Qed.
End Poly.

Section Build.
Context {C : Type} {OC : CoordOps C} {I : Type}.
Context {U : Prop}.
Notation may := (may U).
Notation apart := (apart U).
Variable ieqb : I -> I -> bool.
Hypothesis Hieq : U -> forall a b, ieqb a b = true <-> a = b.
Variable gv : I -> coords C.
Variable dbg : bool.
Variable fuel : nat.
Variable math_n : nat -> nat -> nat.
Variable shuf : nat -> nat -> list nat.
Hypothesis Hshuf : forall k n, Permutation (shuf k n) (seq 0 n).

(** Two segments at every nexus; no index twice if the input has none. *)
Definition full (ns : list (nexus C I)) (prior : list I) : Prop :=
  (forall i, i < length ns -> deg ns i = 2 /\ exists x, ident ns i = Some x /\ In x prior) /\ apart ns.

Definition trap_may (e : trap_error) : Prop := match e with NotEnoughVertices k => 1 <= k <= 2 | TrapInternal e => may e end.

Definition index_of (e : element I) : list I := match e with Continue i => [i] | NewPolygon => [] end.
Definition indices (l : list (element I)) : list I := flat_map index_of l.

Lemma polygon_fine st V prior k : 3 <= length V -> (U -> NoDup (prior ++ V)) -> full (st_ns st) prior -> crown st ->
  fine may (fun q => full (st_ns (fst q)) (prior ++ V) /\ crown (fst q)) (add_polygon ieqb gv dbg fuel math_n (shuf k (length V)) st (map (fun i => Pending (gv i) i 0) V)).
Proof.
  intros H3 Hnd (F1 & F2) Hcr. unfold add_polygon. eapply fine_weaken; [|eapply (loop_fine ieqb Hieq gv dbg fuel V H3 prior Hnd (length (st_ns st)))].
  - intros [st' vls'] (Hi & Hc'). cbn [fst snd] in *. split; [|exact Hc']. split; [|eapply inv_apart; eauto]. intros i Hl. destruct (Nat.lt_ge_cases i (length (st_ns st))) as [L|L].
    + destruct (v_old _ _ _ _ _ _ Hi i L) as (A & x & B & D). split; auto. exists x. split; auto. apply in_or_app. auto.
    + destruct (v_all _ _ _ _ _ _ Hi i) as (j & c & Hj); auto. destruct (v_ins _ _ _ _ _ _ Hi _ _ _ Hj) as (_ & A & B). cbn [touch] in A. split; [lia|].
      destruct (nth_error V j) as [x|] eqn:E. { exists x. split; auto. apply in_or_app. right. now apply nth_error_In with j. }
      exfalso. apply nth_error_None in E. rewrite <- (v_len _ _ _ _ _ _ Hi) in E. apply nth_error_None in E. congruence.
  - apply Permutation_NoDup with (seq 0 (length V)); [symmetry; auto|apply seq_NoDup].
  - apply Forall_forall. intros e He. rewrite (Hshuf k (length V)) in He. apply in_seq in He. lia.
  - split.
    + apply map_length.
    + lia.
    + auto.
    + intros u i j Hi Hj E. destruct (F1 i Hi) as (_ & x & X & _). apply (F2 u i j x); congruence.
    + intros j c i Hj. rewrite nth_error_map in Hj. destruct (nth_error V j); discriminate.
    + intros j c x q Hj. rewrite nth_error_map in Hj. destruct (nth_error V j) eqn:E; [|discriminate]. cbn in Hj. injection Hj as <- <- <-. split; auto. apply touch_all; auto.
      apply nth_error_Some. congruence.
    + intros i Hi. lia.
    + intros j j' c c' i Hj. rewrite nth_error_map in Hj. destruct (nth_error V j); discriminate.
  - exact Hcr.
Qed.

Lemma build_fine : forall elems k st V prior, (U -> NoDup (prior ++ V ++ indices elems)) -> full (st_ns st) prior -> crown st ->
  fine trap_may (fun st' => (exists l, full (st_ns st') l) /\ crown st') (build_loop ieqb gv dbg fuel math_n shuf elems k st (map (fun i => Pending (gv i) i 0) V)).
Proof.
  induction elems as [|[x|] elems IH]; intros k st V prior Hnd HF Hcr; cbn [build_loop].
  - cbn [fine]. eauto.
  - replace (map (fun i => Pending (gv i) i 0) V ++ [Pending (gv x) x 0]) with (map (fun i => Pending (gv i) i 0) (V ++ [x])) by (now rewrite map_app).
    apply IH with prior; auto. rewrite <- app_assoc. exact Hnd.
  - cbv zeta. rewrite map_length. cbn [indices flat_map index_of app] in Hnd. destruct (Nat.ltb_spec 0 (length V)) as [L|L].
    + destruct (Nat.ltb_spec (length V) 3) as [L'|L']; [cbn [fine trap_may]; lia|].
      assert (N1 : U -> NoDup (prior ++ V)). { intros u. specialize (Hnd u). rewrite app_assoc in Hnd. clear - Hnd. induction (prior ++ V) as [|a q IH]; [constructor|]. cbn in Hnd. inversion Hnd; subst. constructor; auto. intros Hin. apply H1. apply in_or_app. auto. }
      pose proof (polygon_fine st V prior k L' N1 HF Hcr) as P. destruct (add_polygon _ _ _ _ _ _ _ _) as [[st' vls']|e|c]; cbn [map_err bind fine fst] in *; auto. destruct P as (P & Pc).
      apply (IH (k + 1) st' [] (prior ++ V)); auto. rewrite <- app_assoc. exact Hnd.
    + destruct V; [|cbn in L; lia]. apply IH with prior; auto.
Qed.

Lemma trapezoidize_fine elems : (U -> NoDup (indices elems)) -> fine trap_may (fun st => (exists l, full (st_ns st) l) /\ crown st) (trapezoidize ieqb gv dbg fuel math_n shuf elems).
Proof.
  intros Hnd. unfold trapezoidize. apply (build_fine (elems ++ [NewPolygon]) 0 state_new [] []).
  - intros u. specialize (Hnd u). cbn [app]. unfold indices in *. rewrite flat_map_app. cbn. now rewrite app_nil_r.
  - split; [intros i Hi; cbn in Hi; lia|]. intros u i j v Hi. unfold ident in Hi. destruct i; discriminate.
  - apply crown_new.
Qed.
End Build.
