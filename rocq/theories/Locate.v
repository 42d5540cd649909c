(** Moments of the construction, and point location at each of them. *)
From Coq Require Import QArith Lqa List Arith Lia Bool Permutation.
From Verif Require Import Base Coord Trap Lanes Plane Geo Region TrapInv Polygons Build.
Import ListNotations.
Local Open Scope nat_scope.
Local Open Scope res_scope.

Section Moments.
Context {I : Type}.
Variables (ieqb : I -> I -> bool) (gv : I -> point) (dbg : bool) (fuel : nat) (math_n : nat -> nat -> nat) (shuf : nat -> nat -> list nat).
Notation stt := (state Q I).

(** Everything the loop over the segments of a polygon carries from one iteration to the next
    (src/trapezoidation.rs 290-439): segments to insert, counter, state, vertices, pending count, relocation schedule. *)
Definition moment : Type := (list nat * nat * stt * list (vloc Q I) * nat * nat * nat)%type.
Definition mo_st (x : moment) : stt := let '(_, _, st, _, _, _, _) := x in st.
Definition mo_vls (x : moment) : list (vloc Q I) := let '(_, _, _, vls, _, _, _) := x in vls.

(** The first [m] iterations of that loop. *)
Fixpoint first_segments (len m : nat) (x : moment) : res ierr moment :=
  let '(order, i, st, vls, pending, update_count, next_update) := x in
  match m, order with
  | S m, vi0 :: order =>
    do '(st1, vls1, added) <- add_nth_segment ieqb gv dbg fuel st vls vi0;
    let pending := pending - added in
    if Nat.eqb i next_update then
      do vls2 <- relocate fuel fuel st1 vls1 pending vi0 (LNexus 0) coords_zero;
      first_segments len m (order, i + 1, st1, vls2, pending, update_count + 1, math_n len (update_count + 1))
    else first_segments len m (order, i + 1, st1, vls1, pending, update_count, next_update)
  | _, _ => Ok x
  end.

(** The moment after the elements [pre] and [m] segments of the next polygon [poly]. *)
Definition moment_at (pre : list (element I)) (poly : list I) (m : nat) : res trap_error moment :=
  do st0 <- trapezoidize ieqb gv dbg fuel math_n shuf pre;
  let len := length poly in
  map_err TrapInternal (first_segments len m
    (shuf (length (groups pre)) len, 0, st0, map (fun i => Pending (gv i) i 0) poly, len, 1, math_n len 1)).

(** The run from a moment on, with the elements [post] still to come. *)
Definition continue_from (len k : nat) (post : list (element I)) (x : moment) : res trap_error stt :=
  let '(order, i, st, vls, pending, update_count, next_update) := x in
  do '(st', _) <- map_err TrapInternal (polygon_loop ieqb gv dbg fuel math_n len order i st vls pending update_count next_update);
  build_loop ieqb gv dbg fuel math_n shuf post (k + 1) st' [].

Lemma loop_steps len order m : forall i st vls pd uc nu,
  polygon_loop ieqb gv dbg fuel math_n len order i st vls pd uc nu =
  (do '(o, i, st, vls, pd, uc, nu) <- first_segments len m (order, i, st, vls, pd, uc, nu);
   polygon_loop ieqb gv dbg fuel math_n len o i st vls pd uc nu).
Proof.
  revert m. induction order as [|j order IH]; intros [|m] i st vls pd uc nu; try reflexivity.
  cbn [polygon_loop first_segments]. destruct (add_nth_segment ieqb gv dbg fuel st vls j) as [[[st1 vls1] added]| |]; cbn [bind]; auto.
  destruct (Nat.eqb i nu); [|apply IH].
  destruct (relocate fuel fuel st1 vls1 (pd - added) j (LNexus 0) coords_zero) as [vls2| |]; cbn [bind]; auto.
Qed.

Lemma steps_firstn len order m : forall i st vls pd uc nu,
  polygon_loop ieqb gv dbg fuel math_n len (firstn m order) i st vls pd uc nu =
  (do x <- first_segments len m (order, i, st, vls, pd, uc, nu); Ok (mo_st x, mo_vls x)).
Proof.
  revert m. induction order as [|j order IH]; intros [|m] i st vls pd uc nu; try reflexivity.
  cbn [firstn polygon_loop first_segments]. destruct (add_nth_segment ieqb gv dbg fuel st vls j) as [[[st1 vls1] added]| |]; cbn [bind]; auto.
  destruct (Nat.eqb i nu); [|apply IH].
  destruct (relocate fuel fuel st1 vls1 (pd - added) j (LNexus 0) coords_zero) as [vls2| |]; cbn [bind]; auto.
Qed.

Lemma build_poly poly k st vl post : build_loop ieqb gv dbg fuel math_n shuf (map (@Continue I) poly ++ post) k st vl =
  build_loop ieqb gv dbg fuel math_n shuf post k st (vl ++ map (fun i => Pending (gv i) i 0) poly).
Proof. revert vl. induction poly as [|i poly IH]; intros vl; cbn; [now rewrite app_nil_r|]. rewrite IH, <- app_assoc. reflexivity. Qed.

Lemma build_split l1 l2 : forall k st cur, build_loop ieqb gv dbg fuel math_n shuf (l1 ++ NewPolygon :: l2) k st (map (fun i => Pending (gv i) i 0) cur) =
  do st' <- build_loop ieqb gv dbg fuel math_n shuf (l1 ++ [NewPolygon]) k st (map (fun i => Pending (gv i) i 0) cur);
  build_loop ieqb gv dbg fuel math_n shuf l2 (k + length (groups_from cur l1)) st' [].
Proof.
  induction l1 as [|[i|] l1 IH]; intros k st cur; cbn [app build_loop].
  - rewrite map_length. destruct cur as [|c cur]; cbn [length Nat.ltb Nat.leb groups_from map].
    + now rewrite Nat.add_0_r.
    + match goal with |- context [if ?b then _ else _] => destruct b end; cbn [bind]; auto.
      destruct (map_err TrapInternal _) as [[st' ?]| |]; cbn [bind]; auto.
  - specialize (IH k st (cur ++ [i])). rewrite map_app in IH. exact IH.
  - rewrite map_length. destruct cur as [|c cur]; cbn [length Nat.ltb Nat.leb groups_from map].
    + apply (IH k st []).
    + match goal with |- context [if ?b then _ else _] => destruct b end; cbn [bind]; auto.
      destruct (map_err TrapInternal _) as [[st' ?]| |]; cbn [bind]; auto. specialize (IH (k + 1) st' []). cbn [map] in IH. rewrite IH.
      replace (k + S (length (groups_from [] l1))) with (k + 1 + length (groups_from [] l1)) by lia. reflexivity.
Qed.

(** Every moment is one of the run. *)
Lemma moment_run pre poly post m : 3 <= length poly ->
  trapezoidize ieqb gv dbg fuel math_n shuf (pre ++ NewPolygon :: map (@Continue I) poly ++ NewPolygon :: post) =
  (do x <- moment_at pre poly m; continue_from (length poly) (length (groups pre)) (post ++ [NewPolygon]) x).
Proof.
  intros Hl. unfold moment_at. unfold trapezoidize at 1. rewrite <- app_assoc. cbn [app]. rewrite (build_split pre _ 0 state_new []). fold (trapezoidize ieqb gv dbg fuel math_n shuf pre).
  change (build_loop ieqb gv dbg fuel math_n shuf (pre ++ [NewPolygon]) 0 state_new (map (fun i => Pending (gv i) i 0) [])) with (trapezoidize ieqb gv dbg fuel math_n shuf pre).
  destruct (trapezoidize ieqb gv dbg fuel math_n shuf pre) as [st0| |]; cbn [bind]; auto.
  rewrite <- app_assoc. rewrite build_poly. cbn [app build_loop]. rewrite map_length.
  assert (Nat.ltb 0 (length poly) = true) as -> by (apply Nat.ltb_lt; lia). assert (Nat.ltb (length poly) 3 = false) as -> by (apply Nat.ltb_ge; lia).
  unfold add_polygon. rewrite map_length. rewrite (loop_steps (length poly) _ m). unfold groups. rewrite Nat.add_0_l. cbn [app].
  match goal with |- context [first_segments ?a ?b ?c] => destruct (first_segments a b c) as [[[[[[[o i] st] vls] pd] uc] nu]| |] end; cbn [bind map_err]; auto.
Qed.

End Moments.

(** ** Debug assertions *)

(** A run that passes all checks gives the same result without them. *)
Section Debug.
Context {C : Type} {OC : CoordOps C} {I : Type}.
Variables (ieqb : I -> I -> bool) (gv : I -> coords C) (fuel : nat) (math_n : nat -> nat -> nat) (shuf : nat -> nat -> list nat).

Ltac dd := repeat match goal with
  | |- bind ?r _ = Ok _ -> bind ?r _ = Ok _ => let E := fresh in destruct r eqn:E; cbn [bind]; [|discriminate|discriminate]
  | |- (let (_, _) := ?x in _) = Ok _ -> _ => destruct x
  | |- (match ?x with _ => _ end) = Ok _ -> _ => destruct x; try discriminate
  end; auto.

Lemma off_vertex st vi q x : add_vertex gv true fuel st vi q = Ok x -> add_vertex gv false fuel st vi q = Ok x.
Proof.
  unfold add_vertex. cbv zeta. dd. destruct (check_consistency true _ _); cbn [bind]; try discriminate. auto.
Qed.

Lemma off_segment st a b c d x : add_segment ieqb true fuel st a b c d = Ok x -> add_segment ieqb false fuel st a b c d = Ok x.
Proof.
  unfold add_segment. cbv zeta. dd. destruct (check_consistency true _ _); cbn [bind]; try discriminate. auto.
Qed.

Lemma off_at st vls j a q x : add_vertex_at gv true fuel st vls j a q = Ok x -> add_vertex_at gv false fuel st vls j a q = Ok x.
Proof.
  unfold add_vertex_at. destruct (add_vertex gv true fuel st a q) as [y| |] eqn:E; cbn [bind]; try discriminate. now rewrite (off_vertex _ _ _ _ E).
Qed.

Lemma off_nth st vls j x : add_nth_segment ieqb gv true fuel st vls j = Ok x -> add_nth_segment ieqb gv false fuel st vls j = Ok x.
Proof.
  unfold add_nth_segment. cbv zeta. dd.
  match goal with |- bind ?a _ = Ok _ -> bind ?b _ = Ok _ => assert (K : forall y, a = Ok y -> b = Ok y); [|destruct a as [y| |]; cbn [bind]; [rewrite (K y eq_refl)|discriminate|discriminate]] end.
  { intros y. repeat match goal with |- context [match ?v with Pending _ _ _ => _ | Inserted _ _ => _ end] => destruct v end; auto.
    - destruct (coords_lt _ _).
      + destruct (add_vertex_at gv true fuel st vls j i _) as [[[s1 v1] n1]| |] eqn:E; cbn [bind]; try discriminate. rewrite (off_at _ _ _ _ _ _ E). cbn [bind].
        destruct (add_vertex_at gv true fuel s1 v1 _ _ _) as [[[s2 v2] n2]| |] eqn:E'; cbn [bind]; try discriminate. now rewrite (off_at _ _ _ _ _ _ E').
      + destruct (add_vertex_at gv true fuel st vls _ _ _) as [[[s1 v1] n1]| |] eqn:E; cbn [bind]; try discriminate. rewrite (off_at _ _ _ _ _ _ E). cbn [bind].
        destruct (add_vertex_at gv true fuel s1 v1 _ _ _) as [[[s2 v2] n2]| |] eqn:E'; cbn [bind]; try discriminate. now rewrite (off_at _ _ _ _ _ _ E').
    - destruct (add_vertex_at gv true fuel st vls _ _ _) as [[[s1 v1] n1]| |] eqn:E; cbn [bind]; try discriminate. now rewrite (off_at _ _ _ _ _ _ E).
    - destruct (add_vertex_at gv true fuel st vls _ _ _) as [[[s1 v1] n1]| |] eqn:E; cbn [bind]; try discriminate. now rewrite (off_at _ _ _ _ _ _ E). }
  cbn [bind]. destruct y as [[[[st1 vls1] ni0] ni1] added]. dd.
  match goal with |- bind ?a _ = Ok _ -> bind ?b _ = Ok _ => assert (K' : forall y, a = Ok y -> b = Ok y); [|destruct a as [y| |]; cbn [bind]; [rewrite (K' y eq_refl)|discriminate|discriminate]; auto] end.
  intros y. destruct (coords_lt _ _); apply off_segment.
Qed.

Lemma off_loop len order : forall i st vls pd uc nu x, polygon_loop ieqb gv true fuel math_n len order i st vls pd uc nu = Ok x ->
  polygon_loop ieqb gv false fuel math_n len order i st vls pd uc nu = Ok x.
Proof.
  induction order as [|j order IH]; intros i st vls pd uc nu x; [exact (fun H => H)|]. cbn [polygon_loop].
  destruct (add_nth_segment ieqb gv true fuel st vls j) as [[[s1 v1] a1]| |] eqn:E; cbn [bind]; try discriminate. rewrite (off_nth _ _ _ _ E). cbn [bind].
  destruct (Nat.eqb i nu); [|apply IH]. destruct (relocate _ _ _ _ _ _ _ _); cbn [bind]; try discriminate. apply IH.
Qed.

Lemma off_build elems : forall k st vl x, build_loop ieqb gv true fuel math_n shuf elems k st vl = Ok x -> build_loop ieqb gv false fuel math_n shuf elems k st vl = Ok x.
Proof.
  induction elems as [|[i|] elems IH]; intros k st vl x; [exact (fun H => H)| |]; cbn [build_loop]; [apply IH|].
  destruct (Nat.ltb 0 (length vl)); [|apply IH]. destruct (Nat.ltb (length vl) 3); [exact (fun H => H)|]. unfold add_polygon.
  destruct (polygon_loop ieqb gv true fuel math_n _ _ _ _ _ _ _ _) as [[s1 v1]| |] eqn:E; cbn [bind map_err]; try discriminate. rewrite (off_loop _ _ _ _ _ _ _ _ _ E). cbn [bind map_err]. apply IH.
Qed.

End Debug.

(** ** Containment *)

(** The point is strictly inside the trapezoid: above its lower vertex, below its upper vertex, right of its left segment
    and left of its right segment. *)
Definition contains {I} (st : state Q I) (t : trap) (p : point) : Prop :=
  (forall v, t_d t = Some v -> exists n, nth_error (st_ns st) v = Some n /\ plt (n_c n) p) /\
  (forall v, t_u t = Some v -> exists n, nth_error (st_ns st) v = Some n /\ plt p (n_c n)) /\
  (forall s, t_l t = Some s -> exists g, nth_error (st_ss st) s = Some g /\ (cross (s_cmin g) (s_cmax g) p < 0)%Q) /\
  (forall s, t_r t = Some s -> exists g, nth_error (st_ss st) s = Some g /\ (0 < cross (s_cmin g) (s_cmax g) p)%Q).

(** Off all vertices and edges, or a vertex that is not inserted yet. *)
Definition free {I} (ps : list (list point)) (st : state Q I) (p : point) : Prop :=
  (In p (concat ps) /\ ~ In p (map n_c (st_ns st))) \/
  ((forall q, In q (concat ps) -> ~ peq p q) /\ forall e, In e (concat (map edges ps)) -> ~ on_segment (fst e) (snd e) p).

(** Exactly one trapezoid contains the point, and the search from node [q] returns it. *)
Definition located {I} (st : state Q I) (p : point) (q : nat) : Prop :=
  exists i t, nth_error (st_ts st) i = Some t /\ contains st t p /\
    (forall j t', nth_error (st_ts st) j = Some t' -> contains st t' p -> j = i) /\
    exists N, forall fuel, N <= fuel -> find fuel (st_qs st) p q = Ok (t_k t, i).

Section Contains.
Context {I : Type}.
Variables (W : list point) (Es : list edge) (M : Q) (gv : I -> point).
Hypothesis HG : geo W Es.
Hypothesis HM : shear M W.

Lemma cross_neg e p : In e Es -> (cross (fst e) (snd e) p < 0 <-> X M e (ht M p) < cx p)%Q.
Proof.
  intros He. pose proof (cross_pos W Es M HG HM e p He) as H1. pose proof (cross_zero W Es M HG HM e p He) as H2.
  destruct (Q_dec (cx p) (X M e (ht M p))) as [[H|H]|H].
  - split; intros K; [apply H1 in H; lra|lra].
  - split; intros K; auto. destruct (Q_dec (cross (fst e) (snd e) p) 0) as [[Z|Z]|Z]; auto; [apply H1 in Z; lra|apply H2 in Z; lra].
  - split; intros K; [apply H2 in H; lra|lra].
Qed.

Lemma inside_contains st i t p : core W Es M gv st -> nth_error (st_ts st) i = Some t -> In p W -> (inside M (reg st t) p <-> contains st t p).
Proof.
  intros Hc Ht Hp. pose proof (c_W _ _ _ _ _ Hc) as HW. unfold inside, ahas, contains.
  pose proof (c_in _ _ _ _ _ Hc i t Ht) as [T1 T2 T3 T4]. unfold reg, rg. cbn [al ar ad au].
  assert (G1 : (obot M (option_map (fun n => nth n (points st) dpt) (t_d t)) (ht M p)) <-> forall v, t_d t = Some v -> exists n, nth_error (st_ns st) v = Some n /\ plt (n_c n) p).
  { destruct (t_d t) as [v|]; cbn; [|split; [intros; discriminate|auto]]. destruct (lt_nth _ _ v (T3 v eq_refl)) as (c & Hcc). destruct (points_inv _ _ _ Hcc) as (n & Hn & <-).
    rewrite (nth_err_nth _ _ _ dpt Hcc). assert (In (n_c n) W) by (apply HW; eapply nth_error_In; eauto). rewrite <- (ht_lt W M HM) by auto.
    split; [intros K v' [= <-]; eauto|]. intros K. destruct (K v eq_refl) as (n' & Hn' & K'). congruence. }
  assert (G2 : (otop M (option_map (fun n => nth n (points st) dpt) (t_u t)) (ht M p)) <-> forall v, t_u t = Some v -> exists n, nth_error (st_ns st) v = Some n /\ plt p (n_c n)).
  { destruct (t_u t) as [v|]; cbn; [|split; [intros; discriminate|auto]]. destruct (lt_nth _ _ v (T4 v eq_refl)) as (c & Hcc). destruct (points_inv _ _ _ Hcc) as (n & Hn & <-).
    rewrite (nth_err_nth _ _ _ dpt Hcc). assert (In (n_c n) W) by (apply HW; eapply nth_error_In; eauto). rewrite <- (ht_lt W M HM) by auto.
    split; [intros K v' [= <-]; eauto|]. intros K. destruct (K v eq_refl) as (n' & Hn' & K'). congruence. }
  assert (G3 : (olft M (option_map (fun s => nth s (medges st) (dpt, dpt)) (t_l t)) (ht M p) (cx p)) <-> forall s, t_l t = Some s -> exists g, nth_error (st_ss st) s = Some g /\ (cross (s_cmin g) (s_cmax g) p < 0)%Q).
  { destruct (t_l t) as [v|]; cbn; [|split; [intros; discriminate|auto]]. destruct (lt_nth _ _ v (T1 v eq_refl)) as (c & Hcc). destruct (medges_inv _ _ _ Hcc) as (n & Hn & <-).
    rewrite (@nth_err_nth edge _ _ _ (dpt, dpt) Hcc). assert (In (sedge n) Es) by (eapply c_ss; eauto). rewrite <- cross_neg by auto.
    split; [intros K v' [= <-]; eauto|]. intros K. destruct (K v eq_refl) as (n' & Hn' & K'). assert (n' = n) by congruence. now subst. }
  assert (G4 : (orgt M (option_map (fun s => nth s (medges st) (dpt, dpt)) (t_r t)) (ht M p) (cx p)) <-> forall s, t_r t = Some s -> exists g, nth_error (st_ss st) s = Some g /\ (0 < cross (s_cmin g) (s_cmax g) p)%Q).
  { destruct (t_r t) as [v|]; cbn; [|split; [intros; discriminate|auto]]. destruct (lt_nth _ _ v (T2 v eq_refl)) as (c & Hcc). destruct (medges_inv _ _ _ Hcc) as (n & Hn & <-).
    rewrite (@nth_err_nth edge _ _ _ (dpt, dpt) Hcc). assert (In (sedge n) Es) by (eapply c_ss; eauto). rewrite <- (cross_pos W Es M HG HM) by auto.
    split; [intros K v' [= <-]; eauto|]. intros K. destruct (K v eq_refl) as (n' & Hn' & K'). assert (n' = n) by congruence. now subst. }
  rewrite G1, G2, G3, G4. tauto.
Qed.

Lemma loc_located st p q : core W Es M gv st -> In p W -> ~ In p (points st) -> loc M st p q -> located st p q.
Proof.
  intros Hc Hp Hn (i & t & Ht & Hi & Hf). exists i, t. split; auto. split; [eapply inside_contains; eauto|]. split.
  - intros j t' Ht' Hj. eapply (c_one _ _ _ _ _ Hc p); eauto. eapply inside_contains; eauto.
  - eapply finds_find; eauto. apply (c_q1 _ _ _ _ _ Hc); auto.
Qed.

End Contains.

Section Locate.
Context {I : Type}.
Variables (gv : I -> point) (ieqb : I -> I -> bool) (dbg : bool).
Hypothesis Hieq : forall a b, ieqb a b = true <-> a = b.
Variables (math_n : nat -> nat -> nat) (shuf : nat -> nat -> list nat).
Hypothesis Hshuf : forall k n, Permutation (shuf k n) (seq 0 n).

Lemma moment_rest pre poly post m ex M : let ps := map (map gv) (groups pre ++ poly :: post) in
  valid ps -> (forall p q, In p ex -> In q ex -> peq p q -> p = q) -> (forall p q, In p ex -> In q (concat ps) -> ~ peq p q) ->
  (forall p e, In p ex -> In e (concat (map edges ps)) -> ~ on_segment (fst e) (snd e) p) -> shear M (concat ps ++ ex) ->
  exists st vls, (exists N, forall k, N <= k -> exists x, moment_at ieqb gv dbg k math_n shuf pre poly m = Ok x /\ mo_st x = st /\ mo_vls x = vls) /\
    geo (concat ps ++ ex) (uedges ps) /\ rest (concat ps ++ ex) (uedges ps) M gv st [] /\ vls_ok M gv poly st vls.
Proof.
  intros ps HV X1 X2 X3 HM. pose proof (valid_geo ps HV ex X1 X2 X3) as HG. set (W := concat ps ++ ex) in *.
  pose proof (valid_nd ps HV) as Hnd. pose proof (uedges_nd ps HV) as Hne. destruct HV as (Hlen & HV').
  assert (Eps : ps = map (map gv) (groups pre) ++ map gv poly :: map (map gv) post) by (unfold ps; now rewrite map_app).
  rewrite Eps in Hlen. apply Forall_app in Hlen. destruct Hlen as (Hl1 & Hl2). inversion Hl2 as [|? ? Hl3 _]; subst. rewrite map_length in Hl3.
  assert (Ecc : concat ps = concat (map (map gv) (groups pre)) ++ map gv poly ++ concat (map (map gv) post)) by (rewrite Eps, concat_app; reflexivity).
  rewrite Ecc in Hnd. apply NoDup_app_inv in Hnd. destruct Hnd as (Hn1 & Hn2 & Hn3). apply NoDup_app_inv in Hn2. destruct Hn2 as (Hn2 & _ & _).
  assert (Eue : uedges ps = uedges (map (map gv) (groups pre)) ++ uedges [map gv poly] ++ uedges (map (map gv) post)).
  { rewrite Eps. unfold uedges. rewrite map_app, concat_app, map_app. f_equal. cbn. now rewrite map_app, app_nil_r. }
  rewrite Eue in Hne. rewrite app_assoc in Hne. apply NoDup_app_inv in Hne. destruct Hne as (Hne & _ & _).
  assert (Hcnt : forall p, cnt p (uedges ps) <= 2) by (apply valid_cnt; split; auto; rewrite Eps; apply Forall_app; auto).
  destruct (build_ok gv ieqb dbg Hieq math_n shuf Hshuf W (uedges ps) M HG HM Hcnt pre 0 state_new []) as (st0 & E1 & E2 & E3 & E4 & _); auto.
  - split; [apply full_new| |]; intros [|v] n H; discriminate.
  - rewrite Eue. apply incl_appl, incl_refl.
  - cbn [app medges state_new st_ss map]. change (groups_from [] pre) with (groups pre). apply NoDup_app_inv in Hne. tauto.
  - cbn [app medges points state_new st_ss st_ns map] in E3, E4. change (groups_from [] pre) with (groups pre) in *.
    destruct (loop_ok gv ieqb dbg Hieq math_n W (uedges ps) M HG HM Hcnt st0 poly (firstn m (shuf (length (groups pre)) (length poly)))) as (st & vls & es & F1 & F2 & F3 & F4); auto.
    + intros p Hp K. apply E4 in K. apply (Hn3 p); auto. apply in_or_app. now left.
    + rewrite Eue. apply incl_appr, incl_appl, incl_refl.
    + eapply Permutation_NoDup; [|exact Hne]. apply Permutation_app_tail. now symmetry.
    + assert (NoDup (shuf (length (groups pre)) (length poly))) as K by (eapply Permutation_NoDup; [symmetry; apply Hshuf|apply seq_NoDup]).
      rewrite <- (firstn_skipn m) in K. apply NoDup_app_inv in K. tauto.
    + intros j Hj. assert (K : In j (shuf (length (groups pre)) (length poly))). { rewrite <- (firstn_skipn m). apply in_or_app. now left. }
      eapply Permutation_in in K; [|apply Hshuf]. apply in_seq in K. lia.
    + exists st, vls. split; [|auto]. destruct E1 as (N1 & E1), F1 as (N2 & F1).
      exists (max N1 N2). intros k Hk. specialize (F1 k ltac:(lia)). rewrite steps_firstn in F1. unfold moment_at, trapezoidize. specialize (E1 k ltac:(lia)). cbn [map] in E1. rewrite E1. cbn [bind].
      unfold pend1 in F1. match goal with |- context [first_segments ?a ?b ?c ?d ?e ?f ?g ?h] => destruct (first_segments a b c d e f g h) as [x| |] end; try discriminate.
      cbn [bind] in F1. injection F1 as <- <-. exists x. auto.
Qed.

(** C29 *)
Lemma moment_located pre poly post m : let ps := map (map gv) (groups pre ++ poly :: post) in valid ps ->
  exists st vls, (exists N, forall fuel, N <= fuel -> exists x, moment_at ieqb gv dbg fuel math_n shuf pre poly m = Ok x /\ mo_st x = st /\ mo_vls x = vls) /\
    (forall p, free ps st p -> located st p 0) /\
    length vls = length poly /\
    (forall j a, nth_error poly j = Some a ->
      (exists q, nth_error vls j = Some (Pending (gv a) a q) /\ ~ In (gv a) (map n_c (st_ns st)) /\ located st (gv a) q) \/
      (exists v n, nth_error vls j = Some (Inserted (gv a) v) /\ nth_error (st_ns st) v = Some n /\ n_c n = gv a)).
Proof.
  intros ps HV. destruct (shear_exists (concat ps ++ [])) as (M & HM). destruct (moment_rest pre poly post m [] M HV) as (st & vls & E1 & HG & HR & HL); auto; try easy.
  fold ps in HG, HR. pose proof (r_full _ _ _ _ _ _ HR) as Hf. pose proof (f_core _ _ _ _ _ Hf) as Hc.
  exists st, vls. split; auto. split; [|split; [apply HL|]].
  - intros p [(Hp & Hn)|(Hv & He)].
    + apply (loc_located (concat ps ++ []) (uedges ps) M gv HG HM); auto; [apply in_or_app; now left|]. apply (c_loc _ _ _ _ _ Hc); auto. apply in_or_app; now left.
    + destruct (shear_exists (concat ps ++ [p])) as (M' & HM'). destruct (moment_rest pre poly post m [p] M' HV) as (st' & vls' & E1' & HG' & HR' & _); auto.
      { intros a b [<-|[]] [<-|[]]; auto. } { intros a b [<-|[]]; auto. } { intros a e [<-|[]]; auto. }
      fold ps in HG', HR'. assert (st' = st). { destruct E1 as (N & E1), E1' as (N' & E1'). destruct (E1 (max N N') ltac:(lia)) as (x & Ex & <- & _), (E1' (max N N') ltac:(lia)) as (x' & Ex' & <- & _). congruence. }
      subst st'. pose proof (f_core _ _ _ _ _ (r_full _ _ _ _ _ _ HR')) as Hc'. assert (Hpw : In p (concat ps ++ [p])) by (apply in_or_app; right; now left).
      assert (Hnp : ~ In p (points st)). { intros K. apply (c_W _ _ _ _ _ Hc) in K. apply in_app_or in K. destruct K as [K|[]]. apply (Hv p); auto. split; reflexivity. }
      apply (loc_located (concat ps ++ [p]) (uedges ps) M' gv HG' HM'); auto. apply (c_loc _ _ _ _ _ Hc'); auto.
  - intros j a Ha. assert (Hpw : In (gv a) (concat ps ++ [])).
    { apply in_or_app. left. apply in_concat. exists (map gv poly). split; [unfold ps; rewrite map_app; apply in_or_app; right; now left|]. apply in_map. eapply nth_error_In; eauto. }
    destruct (proj2 HL j a Ha) as [(q & L1 & L2 & L3)|(v & L1 & L2)].
    + left. exists q. split; auto. split; auto. now apply (loc_located (concat ps ++ []) (uedges ps) M gv HG HM).
    + right. destruct (points_inv _ _ _ L2) as (n & Hn & En). eauto.
Qed.

End Locate.

(** C31 *)
Lemma debug_passes {I : Type} (gv : I -> point) (ieqb : I -> I -> bool) (math_n : nat -> nat -> nat) (shuf : nat -> nat -> list nat) (elems : list (element I)) :
  (forall a b, ieqb a b = true <-> a = b) -> (forall k n, Permutation (shuf k n) (seq 0 n)) -> valid (map (map gv) (groups elems)) ->
  exists st N, forall fuel, N <= fuel -> trapezoidize ieqb gv true fuel math_n shuf elems = Ok st /\ trapezoidize ieqb gv false fuel math_n shuf elems = Ok st.
Proof.
  intros Hi Hs HV. destruct (trapezoidize_done gv ieqb true Hi math_n shuf Hs elems HV) as (st & (N & E) & _). exists st, N. intros fuel Hf. split; [now apply E|].
  apply off_build. now apply E.
Qed.
