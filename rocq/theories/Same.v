(** The calls made for a valid list of polygons depend only on the polygons: not on the insertion orders, nor on the way the polygons are described. *)
From Coq Require Import QArith Lqa List Arith Bool Lia Permutation.
From Verif Require Import Base Coord Trap Mono Tri Trace Protocol Format Builders Lanes Plane MonoGeom Geo Region TrapInv Walk Polygons Build Faces Traverse Sim Canon Bisim ValidRuns Whole Budget Outcome Inv Indices Runs FormatRuns.
Import ListNotations.
Local Open Scope nat_scope.

(** ** Two states for the same points and edges *)

Section Two.
Context {I J E : Type}.
Variables (W : list point) (Es : list edge) (M : Q) (gv : I -> point) (st : state Q I) (gv' : J -> point) (st' : state Q J).
Hypothesis HG : geo W Es.
Hypothesis HM : shear M W.
Hypothesis HF : full W Es M gv st.
Hypothesis HF' : full W Es M gv' st'.
Hypothesis HD : forall v n, nth_error (st_ns st) v = Some n -> deg n = 2.
Hypothesis HD' : forall v n, nth_error (st_ns st') v = Some n -> deg n = 2.
Hypothesis HE : forall e, In e (medges st) <-> In e (medges st').
Hypothesis HP : forall p, In p (points st) <-> In p (points st').
Hypothesis H1 : forall i j, i < length (st_ts st) -> j < length (st_ts st) -> Faces.tu st i = None -> Faces.tu st j = None -> i = j.
Hypothesis H1' : forall i j, i < length (st_ts st') -> j < length (st_ts st') -> Faces.tu st' i = None -> Faces.tu st' j = None -> i = j.
Let HC : core W Es M gv st := f_core _ _ _ _ _ HF.
Let HC' : core W Es M gv' st' := f_core _ _ _ _ _ HF'.

Notation rt := (same st st').
Definition rv (v v' : nat) : Prop := exists n n', nth_error (st_ns st) v = Some n /\ nth_error (st_ns st') v' = Some n' /\ n_c n = n_c n'.
Definition rs (s s' : nat) : Prop := exists g g', nth_error (st_ss st) s = Some g /\ nth_error (st_ss st') s' = Some g' /\ sedge g = sedge g'.

Lemma rs_of t t' i j : nth_error (st_ts st) i = Some t -> nth_error (st_ts st') j = Some t' -> reg st t = reg st' t' ->
  orel rs (t_l t) (t_l t') /\ orel rs (t_r t) (t_r t').
Proof.
  intros Ht Ht' Er. split.
  - pose proof (f_equal al Er) as K. destruct (t_l t) as [s|] eqn:E1; destruct (t_l t') as [s'|] eqn:E2; cbn [orel]; auto.
    + destruct (reg_l _ _ _ _ st i t s HC Ht E1) as (g & G1 & G2). destruct (reg_l _ _ _ _ st' j t' s' HC' Ht' E2) as (g' & G1' & G2'). exists g, g'. repeat split; auto. congruence.
    + rewrite !al_reg, E1, E2 in K. discriminate.
    + rewrite !al_reg, E1, E2 in K. discriminate.
  - pose proof (f_equal ar Er) as K. destruct (t_r t) as [s|] eqn:E1; destruct (t_r t') as [s'|] eqn:E2; cbn [orel]; auto.
    + destruct (reg_r _ _ _ _ st i t s HC Ht E1) as (g & G1 & G2). destruct (reg_r _ _ _ _ st' j t' s' HC' Ht' E2) as (g' & G1' & G2'). exists g, g'. repeat split; auto. congruence.
    + rewrite !ar_reg, E1, E2 in K. discriminate.
    + rewrite !ar_reg, E1, E2 in K. discriminate.
Qed.

Lemma rv_of d t t' i j : nth_error (st_ts st) i = Some t -> nth_error (st_ts st') j = Some t' -> reg st t = reg st' t' -> orel rv (tend d t) (tend d t').
Proof.
  intros Ht Ht' Er. pose proof (f_equal (aend d) Er) as K. destruct (tend d t) as [v|] eqn:E1.
  - destruct (reg_end _ _ _ _ st i t d v HC Ht E1) as (n & N1 & N2). rewrite K in N2. destruct (reg_end_inv _ _ _ _ st' j t' d _ HC' Ht' N2) as (v' & n' & N1' & N2' & N3').
    rewrite N1'. exists n, n'. auto.
  - destruct (tend d t') as [v'|] eqn:E2; cbn; auto. destruct (reg_end _ _ _ _ st' j t' d v' HC' Ht' E2) as (n & N1 & N2). rewrite <- K in N2.
    destruct (reg_end_inv _ _ _ _ st i t d _ HC Ht N2) as (v & n' & N1' & N2' & N3'). congruence.
Qed.

Lemma sT i i' : rt i i' -> exists t t', nth_error (st_ts st) i = Some t /\ nth_error (st_ts st') i' = Some t' /\
  orel rs (t_l t) (t_l t') /\ orel rs (t_r t) (t_r t') /\ orel rv (t_d t) (t_d t') /\ orel rv (t_u t) (t_u t').
Proof.
  intros (t & t' & Ht & Ht' & Er). exists t, t'. destruct (rs_of t t' i i' Ht Ht' Er) as (K1 & K2). repeat (split; auto).
  - exact (rv_of Desc t t' i i' Ht Ht' Er).
  - exact (rv_of Asc t t' i i' Ht Ht' Er).
Qed.

Lemma rv_pt v v' p : nth_error (points st) v = Some p -> nth_error (points st') v' = Some p -> rv v v'.
Proof.
  intros A B. destruct (points_inv _ _ _ A) as (n & Hn & E1). destruct (points_inv _ _ _ B) as (n' & Hn' & E2). exists n, n'. repeat split; auto. congruence.
Qed.

Lemma sS s s' : rs s s' -> exists g g', nth_error (st_ss st) s = Some g /\ nth_error (st_ss st') s' = Some g' /\
  rv (s_min g) (s_min g') /\ rv (s_max g) (s_max g').
Proof.
  intros (g & g' & Hg & Hg' & Eg). exists g, g'. destruct (c_ss _ _ _ _ _ HC s g Hg) as (A1 & A2 & _). destruct (c_ss _ _ _ _ _ HC' s' g' Hg') as (B1 & B2 & _).
  unfold sedge in Eg. injection Eg as Eg1 Eg2. rewrite <- Eg1 in B1. rewrite <- Eg2 in B2. repeat (split; auto); eapply rv_pt; eauto.
Qed.

Lemma pnt_eq v v' : rv v v' -> pnt st v = pnt st' v'.
Proof.
  intros (n & n' & Hn & Hn' & Ec). unfold pnt. rewrite (nth_err_nth (points st) v (n_c n)), (nth_err_nth (points st') v' (n_c n')); auto; apply points_nth; auto.
Qed.

Lemma sV v v' : rv v v' -> exists n n' ty ty', nth_error (st_ns st) v = Some n /\ nth_error (st_ns st') v' = Some n' /\
  gv (n_v n) = gv' (n_v n') /\ n_c n = n_c n' /\ final_type n = Ok ty /\ final_type n' = Ok ty' /\ rty rt ty ty'.
Proof.
  intros Hr. pose proof (pnt_eq v v' Hr) as Hp. destruct Hr as (n & n' & Hn & Hn' & Ec).
  assert (Hg : gv (n_v n) = gv' (n_v n')). { rewrite (c_v _ _ _ _ _ HC n), (c_v _ _ _ _ _ HC' n'); auto; eapply nth_error_In; eauto. }
  exists n, n'. destruct (node_cases W Es M gv st HG HM HF HD v n Hn) as [(L & R & s0 & s1 & ul & uc & ur & dn & N)|[(L & R & s & s' & ul & ur & dl & dr & N)|(L & R & s0 & s1 & up & dl & dc & dr & N)]].
  - destruct (node_V W Es M gv st gv' st' HG HM HF HF' HD' HE HP v v' n' L R s0 s1 ul uc ur dn Hn' Hp N) as (L' & R' & s0' & s1' & ul' & uc' & ur' & dn' & N' & K).
    destruct (nv_n _ _ _ _ _ _ _ _ _ _ N) as (m & Hm & Hty & _). destruct (nv_n _ _ _ _ _ _ _ _ _ _ N') as (m' & Hm' & Hty' & _).
    assert (m = n) by congruence. assert (m' = n') by congruence. subst. exists (TV ul uc ur dn), (TV ul' uc' ur' dn'). repeat (split; auto).
  - destruct (node_I W Es M gv st gv' st' HG HM HF HF' HD' HE HP v v' n' L R s s' ul ur dl dr Hn' Hp N) as (L' & R' & s0' & s1' & ul' & uc' & ur' & dn' & N' & K).
    destruct (ni_n _ _ _ _ _ _ _ _ _ _ N) as (m & Hm & Hty & _). destruct (ni_n _ _ _ _ _ _ _ _ _ _ N') as (m' & Hm' & Hty' & _).
    assert (m = n) by congruence. assert (m' = n') by congruence. subst. exists (TI ul ur dl dr), (TI ul' uc' ur' dn'). repeat (split; auto).
  - destruct (node_A W Es M gv st gv' st' HG HM HF HF' HD' HE HP v v' n' L R s0 s1 up dl dc dr Hn' Hp N) as (L' & R' & s0' & s1' & ul' & uc' & ur' & dn' & N' & K).
    destruct (na_n _ _ _ _ _ _ _ _ _ _ N) as (m & Hm & Hty & _). destruct (na_n _ _ _ _ _ _ _ _ _ _ N') as (m' & Hm' & Hty' & _).
    assert (m = n) by congruence. assert (m' = n') by congruence. subst. exists (TA up dl dc dr), (TA ul' uc' ur' dn'). repeat (split; auto).
Qed.

Lemma sVi v v' w w' : rv v v' -> rv w w' -> (v = w <-> v' = w').
Proof.
  intros (n & n' & Hn & Hn' & Ec) (m & m' & Hm & Hm' & Em). split; intros <-.
  - apply (points_eq _ _ _ _ st' v' w' (n_c n') HC'); [apply points_nth; exact Hn'|]. assert (m = n) by congruence. subst. rewrite <- Ec, Em. apply points_nth; exact Hm'.
  - apply (points_eq _ _ _ _ st v w (n_c n) HC); [apply points_nth; exact Hn|]. assert (m' = n') by congruence. subst. rewrite Ec, <- Em. apply points_nth; exact Hm.
Qed.

Lemma sTi i i' j j' : rt i i' -> rt j j' -> (i = j <-> i' = j').
Proof.
  intros (t & t' & Ht & Ht' & Er) (u & u' & Hu & Hu' & Eu). split; intros <-.
  - assert (u = t) by congruence. subst. apply (reg_inj W Es M gv' st' HG HM HF' HD' i' j' t' u'); auto. congruence.
  - assert (u' = t') by congruence. subst. apply (reg_inj W Es M gv st HG HM HF HD i j t u); auto. congruence.
Qed.

Theorem states_same cw : exists N, forall fuel, N <= fuel ->
  Forall2 (rcall (fun i j => gv i = gv' j)) (fst (run_calls E gv cw fuel st)) (fst (run_calls E gv' cw fuel st')).
Proof.
  destruct (c_top _ _ _ _ _ HC) as (i & t & Hq & Ht & Hu). destruct (c_top _ _ _ _ _ HC') as (i' & t' & Hq' & Ht' & Hu').
  destruct (topq_top _ _ _ Hq) as (N & HN). destruct (topq_top _ _ _ Hq') as (N' & HN'). exists (N + N'). intros fuel Hf.
  apply (run_bisim gv gv' st st' rt rv rs sT sS sV sVi sTi cw fuel i i').
  - apply HN. lia.
  - apply HN'. lia.
  - apply (same_tops W Es M gv st gv' st' HG HM HF HF' HE HP); try (eapply nth_lt; eassumption); unfold Faces.tu; [now rewrite Ht|now rewrite Ht'].
Qed.
End Two.

(** ** The invariant depends on the points and edges only as sets *)

Section Move.
Context {I : Type}.
Variables (W W' : list point) (Es Es' : list edge) (M : Q) (gv : I -> point) (st : state Q I).
Hypothesis HW : forall p, In p W <-> In p W'.
Hypothesis HEs : forall e, In e Es <-> In e Es'.

Lemma agood_move a : agood W Es M a -> agood W' Es' M a.
Proof.
  intros [A1 A2 A3 A4 A5 A6]. split; auto.
  - intros e He. destruct (A1 e He). split; auto. now apply HEs.
  - intros e He. destruct (A2 e He). split; auto. now apply HEs.
  - intros v Hv. apply HW. auto.
  - intros v Hv. apply HW. auto.
Qed.

Lemma core_move : core W Es M gv st -> core W' Es' M gv st.
Proof.
  intros [A1 A2 A3 A4 A5 A6 A7 A8 A9 A10 A11 A12 A13 A14 A15 A16]. split; auto.
  - intros p Hp. apply HW. now apply A1.
  - intros i s Hs. destruct (A4 i s Hs) as (B1 & B2 & B3). repeat (split; auto). now apply HEs.
  - intros i t Ht. apply agood_move. now apply (A7 i).
  - intros p i j t t' Hp. apply HW in Hp. now apply A15.
  - intros p Hp. apply HW in Hp. now apply A16.
Qed.

Lemma full_move : full W Es M gv st -> full W' Es' M gv st.
Proof. intros [A1 A2 A3 A4 A5]. split; auto. now apply core_move. Qed.
End Move.

Lemma oedge_swap e : ~ peq (fst e) (snd e) -> oedge (snd e, fst e) = oedge e.
Proof.
  destruct e as [p q]. unfold oedge, orient. cbn [fst snd]. intros Hn. destruct (coords_lt p q) eqn:E1; destruct (coords_lt q p) eqn:E2; auto; exfalso.
  - apply coords_lt_spec in E1, E2. destruct E1 as [?|[? ?]], E2 as [?|[? ?]]; lra.
  - assert (K1 : ~ plt p q) by (intros K; apply coords_lt_spec in K; congruence). assert (K2 : ~ plt q p) by (intros K; apply coords_lt_spec in K; congruence).
    unfold plt in *. apply Hn. unfold peq. destruct (Q_dec (cy p) (cy q)) as [[?|?]|?]; [tauto|tauto|]. destruct (Q_dec (cx p) (cx q)) as [[?|?]|?]; try tauto. elim K2. right. split; [lra|auto].
Qed.

Lemma uedges_same ps qs : valid ps -> same_polys ps qs -> forall e, In e (uedges ps) <-> In e (uedges qs).
Proof.
  intros HV S. assert (K : forall ps qs, valid ps -> same_polys ps qs -> forall e, In e (uedges ps) -> In e (uedges qs)).
  { clear. intros ps qs HV S e He. unfold uedges in *. apply in_map_iff in He. destruct He as (d & <- & Hd). destruct (edge_ends ps HV d Hd) as (_ & _ & Hn).
    destruct (polys_edges ps qs S) as (L & P & F). assert (Hl : In d L) by (eapply Permutation_in; eauto). clear P Hd.
    induction F as [|a b L D' Hab F IH]; [contradiction|]. destruct Hl as [->|Hl]; [|right; auto]. left. destruct Hab as [->| ->]; auto. now apply oedge_swap. }
  intros e. split; [now apply K|]. apply K; [now apply (valid_same ps)|now apply same_sym].
Qed.

(** ** Two runs *)

Definition call_pos {I} (gv : I -> point) (c : call I) : call point :=
  match c with CNew a b c => CNew (gv a) (gv b) (gv c) | CExt v => CExt (gv v) end.

Lemma rcall_pos {I J} (gv : I -> point) (gv' : J -> point) l l' : Forall2 (rcall (fun i j => gv i = gv' j)) l l' -> map (call_pos gv) l = map (call_pos gv') l'.
Proof. induction 1 as [|x y l l' H F IH]; cbn; auto. f_equal; auto. destruct x, y; cbn in H |- *; try contradiction; [destruct H as (-> & -> & ->)|rewrite H]; auto. Qed.

Lemma pairs_pos {I} (gv : I -> point) r l : map (tri_pos gv) (pairs r l) = pairs (gv r) (map gv l).
Proof. induction l as [|a l IH]; cbn; auto. destruct l as [|b l]; auto. cbn [map] in *. now rewrite IH. Qed.
Lemma fan_pos {I} (gv : I -> point) f : map (tri_pos gv) (fan_tris f) = fan_tris (map gv f).
Proof. destruct f; cbn; auto. apply pairs_pos. Qed.
Lemma from_pos {I} (gv : I -> point) l : forall cur, map (map gv) (fans_from cur l) = fans_from (map gv cur) (map (call_pos gv) l).
Proof. induction l as [|[a b c|v] l IH]; intros cur; cbn; auto; rewrite IH; auto. now rewrite map_app. Qed.
Lemma tris_pos {I} (gv : I -> point) l : map (tri_pos gv) (tris_of l) = tris_of (map (call_pos gv) l).
Proof.
  unfold tris_of. rewrite concat_map, map_map. assert (E : fans_of (map (call_pos gv) l) = map (map gv) (fans_of l)).
  { destruct l as [|[a b c|v] l]; cbn; auto. now rewrite from_pos. }
  rewrite E, map_map. f_equal. apply map_ext. intros f. apply fan_pos.
Qed.

Lemma rcall_eq {I} (gv : I -> point) (P : I -> Prop) l l' : (forall a b, P a -> P b -> gv a = gv b -> a = b) ->
  Forall2 (rcall (fun i j => gv i = gv j)) l l' -> Forall (ok_call P) l -> Forall (ok_call P) l' -> l = l'.
Proof.
  intros Hi F. induction F as [|x y l l' H F IH]; intros G G'; auto. inversion_clear G; inversion_clear G'. f_equal; auto.
  destruct x, y; cbn in *; try contradiction; intuition; f_equal; auto.
Qed.

Lemma nd_inj {A B} (f : A -> B) l : NoDup (map f l) -> forall a b, In a l -> In b l -> f a = f b -> a = b.
Proof.
  induction l as [|x l IH]; cbn; [easy|]. intros Hn a b Ha Hb E. inversion_clear Hn as [|? ? N1 N2].
  destruct Ha as [->|Ha], Hb as [->|Hb]; auto; exfalso; apply N1; [rewrite E|rewrite <- E]; now apply in_map.
Qed.

Section Runs.
Context {I J E : Type}.
Variables (gv : I -> point) (ieqb : I -> I -> bool) (dbg : bool) (math_n : nat -> nat -> nat) (shuf : nat -> nat -> list nat).
Hypothesis Hieq : forall a b, ieqb a b = true <-> a = b.
Hypothesis Hshuf : forall k n, Permutation (shuf k n) (seq 0 n).
Variable elems : list (element I).
Notation ps := (map (map gv) (groups elems)).
Hypothesis HV : valid ps.
Variables (gv' : J -> point) (jeqb : J -> J -> bool) (dbg' : bool) (math_n' : nat -> nat -> nat) (shuf' : nat -> nat -> list nat).
Hypothesis Hjeq : forall a b, jeqb a b = true <-> a = b.
Hypothesis Hshuf' : forall k n, Permutation (shuf' k n) (seq 0 n).
Variable elems' : list (element J).
Notation qs := (map (map gv') (groups elems')).
Hypothesis HS : same_polys ps qs.

Theorem calls_same cw : exists calls calls' N, Forall2 (rcall (fun i j => gv i = gv' j)) calls calls' /\
  forall fuel, N <= fuel -> api_calls E ieqb gv cw dbg fuel math_n shuf elems = (calls, Ok tt) /\ api_calls E jeqb gv' cw dbg' fuel math_n' shuf' elems' = (calls', Ok tt).
Proof.
  pose proof (valid_same ps qs HV HS) as HV'.
  destruct (whole (E := E) gv ieqb dbg Hieq math_n shuf Hshuf elems HV cw) as (st & N & calls & (N1 & T1) & D1 & _ & A1 & _).
  destruct (whole (E := E) gv' jeqb dbg' Hjeq math_n' shuf' Hshuf' elems' HV' cw) as (st' & N' & calls' & (N1' & T1') & D1' & _ & A1' & _).
  exists calls, calls'. destruct (shear_exists (concat ps ++ [])) as (M & HM). pose proof (polys_points ps qs HS) as PP. rewrite app_nil_r in HM.
  assert (HWq : forall p, In p (concat qs) <-> In p (concat ps)) by (intros p; split; apply Permutation_in; auto; now symmetry).
  assert (HM' : shear M (concat qs)). { destruct HM as (M0 & HM). split; auto. intros p q Hp Hq. apply HM; now apply HWq. }
  destruct (D1 [] M) as [G _ F P1 P2 P3]; [split; [|split]; easy|now rewrite app_nil_r|]. destruct (D1' [] M) as [_ _ F' P1' P2' P3']; [split; [|split]; easy|now rewrite app_nil_r|].
  rewrite app_nil_r in *. apply (full_move (concat qs) (concat ps) (uedges qs) (uedges ps)) in F'; auto; [|intros e; symmetry; now apply uedges_same].
  assert (HE : forall e, In e (medges st) <-> In e (medges st')).
  { intros e. transitivity (In e (uedges ps)); [split; apply Permutation_in; auto; now symmetry|]. rewrite (uedges_same ps qs HV HS). split; apply Permutation_in; auto; now symmetry. }
  assert (HP : forall e, In e (points st) <-> In e (points st')).
  { intros e. transitivity (In e (concat ps)); [split; apply Permutation_in; auto; now symmetry|]. rewrite <- HWq. split; apply Permutation_in; auto; now symmetry. }
  destruct (states_same (E := E) (concat ps) (uedges ps) M gv st gv' st' G HM F F' P3 P3' HE HP (top_once gv elems HV st D1) (top_once gv' elems' HV' st' D1') cw) as (N2 & H2).
  exists (N + N' + N1 + N1' + N2). split.
  - specialize (H2 (N + N' + N1 + N1' + N2) ltac:(lia)). specialize (A1 (N + N' + N1 + N1' + N2) ltac:(lia)). specialize (A1' (N + N' + N1 + N1' + N2) ltac:(lia)).
    unfold api_calls in A1, A1'. rewrite T1 in A1 by lia. rewrite T1' in A1' by lia. rewrite A1, A1' in H2. exact H2.
  - intros fuel Hf. split; [apply A1|apply A1']; lia.
Qed.

End Runs.

Section Outcomes.
Context {I E Out Mt : Type}.
Variables (F : fan_format I E Out Mt) (gv : I -> point) (ieqb : I -> I -> bool).
Hypothesis Hieq : forall a b, ieqb a b = true <-> a = b.
Variables (dbg : bool) (math_n : nat -> nat -> nat) (shuf : nat -> nat -> list nat).
Hypothesis Hshuf : forall k n, Permutation (shuf k n) (seq 0 n).
Variable elems : list (element I).
Notation ps := (map (map gv) (groups elems)).
Hypothesis HV : valid ps.
Variables (dbg' : bool) (math_n' : nat -> nat -> nat) (shuf' : nat -> nat -> list nat).
Hypothesis Hshuf' : forall k n, Permutation (shuf' k n) (seq 0 n).
Variable elems' : list (element I).
Hypothesis HS : same_polys ps (map (map gv) (groups elems')).
Hypothesis Hinc : forall i, In (Continue i) elems' -> In (Continue i) elems.

Lemma obey_ok l : exists o m, obey F (l, Ok tt) = Returned o m.
Proof.
  unfold obey. cbn [fst snd]. assert (K : forall l b, exists o m, drive F b l (Ok tt) = Returned o m).
  { clear. induction l as [|[a b c|v] l IH]; intros g; cbn.
    - destruct (ff_build F g) as [[o|e] m]; eauto.
    - destruct (ff_new F g a b c) as [g' [e|]]; eauto.
    - destruct (ff_ext F g v) as [g' [e|]]; eauto. }
  destruct l as [|[a b c|v] l]; eauto. destruct (ff_init F a b c) as [g|[e m]]; eauto.
Qed.

Theorem outcome_same : exists N o m, forall fuel, N <= fuel ->
  triangulate F ieqb gv dbg fuel math_n shuf elems = Returned o m /\ triangulate F ieqb gv dbg' fuel math_n' shuf' elems' = Returned o m.
Proof.
  destruct (calls_same (E := E) gv ieqb dbg math_n shuf Hieq Hshuf elems HV gv ieqb dbg' math_n' shuf' Hieq Hshuf' elems' HS (ff_cw F)) as (l & l' & N & HC & HN).
  assert (l = l'). { apply (rcall_eq gv (fun i => In (Continue i) elems) l l'); auto.
    - intros a b Ha Hb. apply (nd_inj gv (indices elems)); [|now apply in_indices|now apply in_indices]. unfold indices. rewrite concat_map. now apply valid_nd.
    - pose proof (api_ok (E := E) (fun i => In (Continue i) elems) ieqb gv (ff_cw F) dbg N math_n shuf elems (fun i H => H)) as K. destruct (HN N (Nat.le_refl N)) as (R & _). rewrite R in K. apply K.
    - pose proof (api_ok (E := E) (fun i => In (Continue i) elems) ieqb gv (ff_cw F) dbg' N math_n' shuf' elems' Hinc) as K. destruct (HN N (Nat.le_refl N)) as (_ & R). rewrite R in K. apply K. }
  subst l'. destruct (obey_ok l) as (o & m & Ho). exists N, o, m. intros fuel Hf. destruct (HN fuel Hf) as (R & R'). rewrite !triangulate_obeys, R, R'. auto.
Qed.
End Outcomes.

Section Positions.
Context {I J : Type}.
Variables (gv : I -> point) (ieqb : I -> I -> bool) (dbg : bool) (math_n : nat -> nat -> nat) (shuf : nat -> nat -> list nat).
Hypothesis Hieq : forall a b, ieqb a b = true <-> a = b.
Hypothesis Hshuf : forall k n, Permutation (shuf k n) (seq 0 n).
Variable elems : list (element I).
Notation ps := (map (map gv) (groups elems)).
Hypothesis HV : valid ps.
Hypothesis Hps : ps <> [].
Variables (gv' : J -> point) (jeqb : J -> J -> bool) (dbg' : bool) (math_n' : nat -> nat -> nat) (shuf' : nat -> nat -> list nat).
Hypothesis Hjeq : forall a b, jeqb a b = true <-> a = b.
Hypothesis Hshuf' : forall k n, Permutation (shuf' k n) (seq 0 n).
Variable elems' : list (element J).
Notation qs := (map (map gv') (groups elems')).
Hypothesis HS : same_polys ps qs.

Theorem recorded_same E cw : exists N calls calls', map (call_pos gv) calls = map (call_pos gv') calls' /\
  forall fuel, N <= fuel -> triangulate (recorder I E cw) ieqb gv dbg fuel math_n shuf elems = Returned (inl calls) calls /\
    triangulate (recorder J E cw) jeqb gv' dbg' fuel math_n' shuf' elems' = Returned (inl calls') calls'.
Proof.
  destruct (calls_same (E := E) gv ieqb dbg math_n shuf Hieq Hshuf elems HV gv' jeqb dbg' math_n' shuf' Hjeq Hshuf' elems' HS cw) as (l & l' & N & HC & HN).
  destruct (calls_nonempty gv ieqb dbg Hieq math_n shuf Hshuf elems HV (E := E) cw Hps) as (l0 & N0 & _ & Hne & R0).
  assert (l0 = l). { specialize (R0 (N + N0) ltac:(lia)). destruct (HN (N + N0) ltac:(lia)) as (R & _). congruence. } subst l0.
  exists N, l, l'. split; [now apply rcall_pos|]. intros fuel Hf. destruct (HN fuel Hf) as (R & R'). rewrite !tri_recorder, R, R'. inversion HC; subst; [easy|]. auto.
Qed.

Theorem triples_same T T' : returns gv ieqb dbg math_n shuf elems T -> returns gv' jeqb dbg' math_n' shuf' elems' T' -> map (tri_pos gv) T = map (tri_pos gv') T'.
Proof.
  intros HT HT'. pose proof (valid_same ps qs HV HS) as HV'.
  assert (Hqs : qs <> []). { intros E. rewrite E in HS. destruct HS as (rs & P & F). inversion F; subst. apply Hps. now apply Permutation_sym, Permutation_nil in P. }
  destruct (recorded_same Empty_set false) as (N & l & l' & Hl & HN).
  destruct (triples gv ieqb dbg Hieq math_n shuf Hshuf elems HV Hps) as (_ & c & K & _ & A1 & A2 & _).
  destruct (triples gv' jeqb dbg' Hjeq math_n' shuf' Hshuf' elems' HV' Hqs) as (_ & c' & K' & _ & A1' & A2' & _).
  destruct (HN (N + K + K') ltac:(lia)) as (R & R'). specialize (A2 (N + K + K') ltac:(lia)). specialize (A2' (N + K + K') ltac:(lia)).
  assert (c = l) by congruence. assert (c' = l') by congruence. subst c c'.
  assert (T = tris_of l). { apply (returns_fun gv ieqb dbg math_n shuf elems _ _ HT). exists K. exact (A1 K [] (Nat.le_refl K)). }
  assert (T' = tris_of l'). { apply (returns_fun gv' jeqb dbg' math_n' shuf' elems' _ _ HT'). exists K'. exact (A1' K' [] (Nat.le_refl K')). }
  subst. now rewrite !tris_pos, Hl.
Qed.
End Positions.
