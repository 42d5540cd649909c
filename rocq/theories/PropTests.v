(** The library's own tests (src/tests) whatever the random order: the sample polygons in [f32] and [f64], IEEE 754 arithmetic with rounding. *)
From Coq Require Import ZArith QArith List Arith Bool Lia Permutation.
From Coq.Floats Require Import SpecFloat.
From Verif Require Import Base Coord Trap Mono Tri Input Trace Protocol Format Builders Runs Plane SimFacts PropSim ValidB Budget Outcome PropTri PropSame Float FloatRuns FloatWit PropCross PropFloat Stuck.
Import ListNotations.
Local Open Scope nat_scope.

(** ** Inputs on which rounding plays no part *)

Definition cmp_same (a b : option comparison) : bool :=
  match a, b with Some Eq, Some Eq | Some Lt, Some Lt | Some Gt, Some Gt | None, None => true | _, _ => false end.
Lemma cmp_same_ok a b : cmp_same a b = true -> a = b.
Proof. destruct a as [[]|], b as [[]|]; cbn; congruence. Qed.

(** The tests the code makes on the vertices come out as for their exact positions. *)
Definition agrees {OC : CoordOps spec_float} {I} (gv : I -> coords spec_float) (idx : list I) : bool :=
  forallb (fun i => forallb (fun k =>
    cmp_same (coords_pcmp (gv i) (gv k)) (coords_pcmp (fpos (gv i)) (fpos (gv k))) &&
    Bool.eqb (c_eqb (cx (gv i)) (cx (gv k))) (c_eqb (cx (fpos (gv i))) (cx (fpos (gv k)))) &&
    Bool.eqb (c_eqb (cy (gv i)) (cy (gv k))) (c_eqb (cy (fpos (gv i))) (cy (fpos (gv k)))) &&
    forallb (fun l => Bool.eqb (is_left (gv i) (gv k) (gv l)) (is_left (fpos (gv i)) (fpos (gv k)) (fpos (gv l)))) idx) idx) idx.

(** The run ends in the same way whatever the insertion orders, the relocation schedule and the build profile. *)
Definition always {OC : CoordOps spec_float} {I E Out M} (F : fan_format I E Out M) ieqb (gv : I -> coords spec_float) elems (o : Out + tri_error E) (m : M) : Prop :=
  forall dbg math_n shuf, (forall k n, Permutation (shuf k n) (seq 0 n)) ->
  exists N, forall fuel, N <= fuel -> triangulate F ieqb gv dbg fuel math_n shuf elems = Returned o m.

Lemma once {OC : CoordOps spec_float} {I E Out M} (F : fan_format I E Out M) ieqb (gv : I -> coords spec_float) elems idx o m :
  (forall a b, ieqb a b = true <-> a = b) -> (forall i, In (Continue i) elems -> In i idx) -> agrees gv idx = true ->
  validb (map (map (fun i => fpos (gv i))) (groups elems)) = true ->
  triangulate F ieqb gv true 100 never in_order elems = Returned o m -> always F ieqb gv elems o m.
Proof.
  intros Hi Hx Ha Hv H dbg math_n shuf Hs. unfold agrees in Ha.
  assert (A : forall i k, In (Continue i) elems -> In (Continue k) elems ->
    coords_pcmp (gv i) (gv k) = coords_pcmp (fpos (gv i)) (fpos (gv k)) /\
    c_eqb (cx (gv i)) (cx (gv k)) = c_eqb (cx (fpos (gv i))) (cx (fpos (gv k))) /\
    c_eqb (cy (gv i)) (cy (gv k)) = c_eqb (cy (fpos (gv i))) (cy (fpos (gv k))) /\
    forall l, In (Continue l) elems -> is_left (gv i) (gv k) (gv l) = is_left (fpos (gv i)) (fpos (gv k)) (fpos (gv l))).
  { intros i k I1 I2. rewrite forallb_forall in Ha. specialize (Ha i (Hx i I1)). rewrite forallb_forall in Ha. specialize (Ha k (Hx k I2)).
    rewrite !andb_true_iff in Ha. destruct Ha as (((A1 & A2) & A3) & A4). split; [now apply cmp_same_ok|]. split; [now apply eqb_prop|]. split; [now apply eqb_prop|].
    intros l I3. rewrite forallb_forall in A4. specialize (A4 l (Hx l I3)). now apply eqb_prop. }
  assert (R : forall dbg fuel mn sh, triangulate F ieqb gv dbg fuel mn sh elems = triangulate F ieqb (fun i => fpos (gv i)) dbg fuel mn sh elems).
  { intros. apply C35_only_predicates; intros; now apply A. }
  destruct (C39_order (fun i => fpos (gv i)) ieqb true never in_order Hi in_order_perm elems (validb_valid _ Hv) F dbg math_n shuf Hs) as (N & o' & m' & K).
  exists N. intros fuel Hf. rewrite R. destruct (K (Nat.max 100 N) ltac:(lia)) as (K1 & _).
  rewrite R in H. destruct (triangulate_mono F ieqb (fun i => fpos (gv i)) true 100 (Nat.max 100 N) never in_order elems ltac:(lia)) as [B|B]; [congruence|].
  rewrite H, K1 in B. injection B as -> ->. apply K. lia.
Qed.

(** ** The sample polygons *)

Definition neg (f : spec_float) : spec_float := match f with S754_finite b m e => S754_finite (negb b) m e | f => f end.
Definition f32_1 : spec_float := fl 8388608 (-23).
Definition f32_2 : spec_float := fl 8388608 (-22).
Definition f32_005 : spec_float := fl 13421773 (-28).  (* 0.05 *)
Definition f32_095 : spec_float := fl 15938355 (-24).  (* 0.95 *)

(** src/tests/util/polygon.rs 4-11, 14-25, 28-37. *)
Definition t_square : list (coords spec_float) := [(f00, f00); (f00, f32_1); (f32_1, f32_1); (f32_1, f00)].
Definition t_star : list (coords spec_float) :=
  [(f32_1, f00); (f32_2, f32_2); (f00, f32_1); (neg f32_2, f32_2); (neg f32_1, f00); (neg f32_2, neg f32_2); (f00, neg f32_1); (f32_2, neg f32_2)].
Definition t_half_frame : list (coords spec_float) :=
  [(f00, f00); (f32_005, f32_005); (f32_095, f32_005); (f32_095, f32_095); (f32_1, f32_1); (f32_1, f00)].
(** The hollow square of the README (README.md 20-23, src/lib.rs 17-20) and of src/tests/triangulate.rs 15-22. *)
Definition t_hollow : list (list (coords spec_float)) :=
  [t_square; [(f32_005, f32_005); (f32_005, f32_095); (f32_095, f32_095); (f32_095, f32_005)]].
(** src/tests/regression.rs 7-24, in [f64]. *)
Definition t_france : list (coords spec_float) :=
  [(neg (fl 5355061431920001 (-52)), fl 6355912506946352 (-47)); (neg (fl 6224995031815935 (-53)), fl 6346339883837028 (-47));
   (fl 7571347020028320 (-50), fl 6329386788926268 (-47)); (fl 7873053010690112 (-50), fl 6308880897068240 (-47));
   (neg (fl 5192113808683647 (-52)), fl 6299974852883252 (-47)); (neg (fl 5607949106308350 (-52)), fl 6286279061169768 (-47))].

Definition hollow_gv (ij : nat * nat) : coords spec_float := match vv_get t_hollow ij with Some v => v | None => (f00, f00) end.
Definition hollow_elems : list (element (nat * nat)) := match vv_elems 20 t_hollow with Ok l => l | _ => [] end.
Definition pair_eqb (a b : nat * nat) : bool := Nat.eqb (fst a) (fst b) && Nat.eqb (snd a) (snd b).
Lemma pair_eqb_ok a b : pair_eqb a b = true <-> a = b.
Proof. destruct a, b. unfold pair_eqb. cbn. rewrite andb_true_iff, !Nat.eqb_eq. split; [intros (-> & ->); auto|now intros [= -> ->]]. Qed.
Lemma in_felems l i : In (Continue i) (felems l) -> In i (seq 0 (length l)).
Proof. intros H. apply in_map_iff in H. destruct H as (j & E & Hj). now injection E as <-. Qed.

Ltac single := refine (once _ Nat.eqb _ _ (seq 0 _) _ _ nat_eqb_dec (in_felems _) _ _ _); [vm_compute; reflexivity|vm_compute; reflexivity|vm_compute; reflexivity].
Notation fans I := (indexed_fan (vec_fans (list I)) (vec_fan I) []).


(** [triangulate] on the sample polygons and in the format tests that take them: [IndexedFanFormat], [DelimitedFanFormat], the list format with [into_fan_format],
    [reverse_winding]. *)
Theorem C56_square : always (OC := f32) (fans nat) Nat.eqb (fgv t_square) (felems t_square) (inl [[2; 1; 3]; [1; 0; 3]]) [[2; 1; 3]; [1; 0; 3]].
Proof. single. Qed.
Definition star_fans : list (list nat) := [[1; 2; 0]; [3; 4; 0; 2]; [4; 5; 6]; [0; 4; 6; 7]].
Theorem C56_star : always (OC := f32) (fans nat) Nat.eqb (fgv t_star) (felems t_star) (inl star_fans) star_fans.
Proof. single. Qed.
Definition frame_fans : list (list nat) := [[4; 3; 2]; [5; 4; 2; 1]; [1; 0; 5]].
Theorem C56_half_frame : always (OC := f32) (fans nat) Nat.eqb (fgv t_half_frame) (felems t_half_frame) (inl frame_fans) frame_fans.
Proof. single. Qed.
Definition france_list : list nat := [1; 4; 3; 1; 3; 2; 0; 5; 4; 0; 4; 1].
Theorem C56_france : always (OC := f64) (fan_to_list (indexed_list (vec_flat nat) [])) Nat.eqb (fgv t_france) (felems t_france) (inl france_list) france_list.
Proof. single. Qed.

(** src/tests/format.rs 150-157: six triangles. *)
Definition star_list : list (nat * nat * nat) := [(1, 2, 0); (3, 4, 0); (3, 0, 2); (4, 5, 6); (0, 4, 6); (0, 6, 7)].
Theorem C56_fan_to_list : always (OC := f32) (fan_to_list (indexed_list (vec_triples nat) [])) Nat.eqb (fgv t_star) (felems t_star) (inl star_list) star_list /\ length star_list = 6.
Proof. split; [single|reflexivity]. Qed.
(** src/tests/format.rs 159-171: the two results differ. *)
Definition star_reversed : list (list nat) := [[1; 0; 2]; [0; 2; 3; 4]; [5; 6; 4]; [0; 7; 6; 4]].
Theorem C56_reverse_winding : always (OC := f32) (reverse_fan (fans nat)) Nat.eqb (fgv t_star) (felems t_star) (inl star_reversed) star_reversed /\ star_fans <> star_reversed.
Proof. split; [single|discriminate]. Qed.
(** src/tests/format.rs 199-210, for every delimiter that is not a vertex index: the delimiter appears. *)
Definition frame_delimited (d : nat) : list nat := [4; 3; 2; d; 5; 4; 2; 1; d; 1; 0; 5].
Theorem C56_delimited_fan d : 6 <= d ->
  always (OC := f32) (delimited_fan (vec_fans nat) Nat.eqb d []) Nat.eqb (fgv t_half_frame) (felems t_half_frame) (inl (frame_delimited d)) (frame_delimited d).
Proof.
  intros Hd. do 6 (destruct d as [|d]; [lia|]).
  refine (once _ Nat.eqb _ _ (seq 0 _) _ _ nat_eqb_dec (in_felems _) _ _ _); [vm_compute; reflexivity|vm_compute; reflexivity|vm_compute; reflexivity].
Qed.

(** src/tests/format.rs 8-74: [ErrorFormat], with [BuilderError]; [M] is the flag set by [fail]. *)
Inductive builder_error := BEInitialize | BENewFan | BEExtendFan | BEBuild.
Definition error_format (e : builder_error) : fan_format nat builder_error unit bool := {|
  ff_B := unit;
  ff_cw := false;
  ff_dropped := false;
  ff_init _ _ _ := match e with BEInitialize => inr (e, false) | _ => inl tt end;
  ff_new _ _ _ _ := (tt, match e with BENewFan => Some e | _ => None end);
  ff_ext _ _ := (tt, match e with BEExtendFan => Some e | _ => None end);
  ff_build _ := (match e with BEBuild => inr e | _ => inl tt end, false);
  ff_fail _ _ := true
|}.
(** src/tests/format.rs 76-96: the error comes back, and [fail] has been called except after [initialize] and [build]. *)
Theorem C56_error_propagation e :
  always (OC := f32) (error_format e) Nat.eqb (fgv t_star) (felems t_star) (inr (TEFanBuilder e)) (match e with BENewFan | BEExtendFan => true | _ => false end).
Proof. destruct e; single. Qed.

(** ** Two polygons, by cases on the orders *)

(** The order [a] for the first polygon and [b] for the others. *)
Definition two (a b : list nat) (k _ : nat) : list nat := match k with O => a | _ => b end.

Lemma gather {C} {OC : CoordOps C} {I} ieqb (gv : I -> coords C) dbg fuel math_n shuf : forall l rest k st vl,
  build_loop ieqb gv dbg fuel math_n shuf (map Continue l ++ rest) k st vl =
  build_loop ieqb gv dbg fuel math_n shuf rest k st (vl ++ map (fun i => Pending (gv i) i 0) l).
Proof. induction l as [|a l IH]; intros rest k st vl; cbn [map app]; [now rewrite app_nil_r|]. cbn [build_loop]. rewrite IH. now rewrite <- app_assoc. Qed.

Lemma solo {C} {OC : CoordOps C} {I E Out M} (F : fan_format I E Out M) ieqb (gv : I -> coords C) dbg fuel math_n shuf l :
  triangulate F ieqb gv dbg fuel math_n shuf (map Continue l) = triangulate F ieqb gv dbg fuel math_n (two (shuf 0 (length l)) []) (map Continue l).
Proof.
  unfold triangulate, trapezoidize. rewrite !gather. cbn [app build_loop]. rewrite !map_length. destruct (Nat.ltb 0 (length l)); [|reflexivity]. destruct (Nat.ltb (length l) 3); [reflexivity|].
  reflexivity.
Qed.

Lemma duo {C} {OC : CoordOps C} {I E Out M} (F : fan_format I E Out M) ieqb (gv : I -> coords C) dbg fuel math_n shuf a b : 0 < length a ->
  triangulate F ieqb gv dbg fuel math_n shuf (map Continue a ++ NewPolygon :: map Continue b ++ [NewPolygon]) =
  triangulate F ieqb gv dbg fuel math_n (two (shuf 0 (length a)) (shuf 1 (length b))) (map Continue a ++ NewPolygon :: map Continue b ++ [NewPolygon]).
Proof.
  intros Ha. unfold triangulate, trapezoidize. rewrite <- !app_assoc. rewrite !gather. cbn [app build_loop]. rewrite !map_length.
  assert (Nat.ltb 0 (length a) = true) as -> by (apply Nat.ltb_lt; lia). destruct (Nat.ltb (length a) 3); [reflexivity|]. cbn [two].
  destruct (map_err TrapInternal (add_polygon ieqb gv dbg fuel math_n (shuf 0 (length a)) state_new (map (fun i => Pending (gv i) i 0) a))) as [[st vl]|e|c]; [|reflexivity|reflexivity].
  cbn [bind]. rewrite <- !app_assoc, !gather. cbn [app build_loop Nat.add]. rewrite !map_length. destruct (Nat.ltb 0 (length b)); [|reflexivity]. destruct (Nat.ltb (length b) 3); [reflexivity|]. reflexivity.
Qed.

(** The hollow square, with the code's own relocation schedule.  In [f32] some side tests on its vertices do contradict the exact positions. *)
Example hollow_rounds : agrees (OC := f32) hollow_gv [(0, 0); (0, 1); (0, 2); (0, 3); (1, 0); (1, 1); (1, 2); (1, 3)] = false.
Proof. vm_compute. reflexivity. Qed.

Definition hollow_fans : list (list (nat * nat)) :=
  [[(0, 2); (0, 1); (1, 2); (1, 3)]; [(0, 3); (0, 2); (1, 3); (1, 0)]; [(0, 1); (1, 0); (1, 1); (1, 2)]; [(0, 0); (0, 3); (1, 0); (0, 1)]].
Definition hollow_list : list (nat * nat) :=
  [(0, 2); (0, 1); (1, 2); (0, 2); (1, 2); (1, 3); (0, 3); (0, 2); (1, 3); (0, 3); (1, 3); (1, 0);
   (0, 1); (1, 0); (1, 1); (0, 1); (1, 1); (1, 2); (0, 0); (0, 3); (1, 0); (0, 0); (1, 0); (0, 1)].
Definition pair_dec (a b : nat * nat) : {a = b} + {a <> b}.
Proof. decide equality; apply Nat.eq_dec. Defined.
Definition yields {E A} (dec : forall a b : A, {a = b} + {a <> b}) (x : A) (o : outcome E A A) : bool :=
  match o with Returned (inl r) m => (if dec r x then true else false) && (if dec m x then true else false) | _ => false end.
Lemma yields_ok {E A} dec x (o : outcome E A A) : yields dec x o = true -> o = Returned (inl x) x.
Proof. destruct o as [[r|e] m|c]; try discriminate. cbn. destruct (dec r x) as [->|], (dec m x) as [->|]; try discriminate. reflexivity. Qed.

Lemma all_pairs (P : list nat -> list nat -> bool) n : forallb (fun a => forallb (P a) (orders n)) (orders n) = true ->
  forall shuf : nat -> nat -> list nat, (forall k n, Permutation (shuf k n) (seq 0 n)) -> P (shuf 0 n) (shuf 1 n) = true.
Proof.
  intros H shuf Hs. rewrite forallb_forall in H. specialize (H _ (in_orders n _ (Hs 0 n))). rewrite forallb_forall in H. exact (H _ (in_orders n _ (Hs 1 n))).
Qed.

Definition outer : list (nat * nat) := [(0, 0); (0, 1); (0, 2); (0, 3)].
Definition inner : list (nat * nat) := [(1, 0); (1, 1); (1, 2); (1, 3)].
Lemma hollow_split : hollow_elems = map Continue outer ++ NewPolygon :: map Continue inner ++ [NewPolygon].
Proof. reflexivity. Qed.

(** src/tests/triangulate.rs 14-21. *)
Theorem C56_hollow dbg fuel shuf : (forall k n, Permutation (shuf k n) (seq 0 n)) -> 100 <= fuel ->
  triangulate (OC := f32) (fans (nat * nat)) pair_eqb hollow_gv dbg fuel math_real shuf hollow_elems = Returned (inl hollow_fans) hollow_fans.
Proof.
  intros Hs Hf.
  assert (K : triangulate (OC := f32) (fans (nat * nat)) pair_eqb hollow_gv dbg 100 math_real shuf hollow_elems = Returned (inl hollow_fans) hollow_fans).
  { rewrite hollow_split, duo by (cbn; lia). apply (yields_ok (list_eq_dec (list_eq_dec pair_dec))).
    refine (all_pairs (fun a b => yields (list_eq_dec (list_eq_dec pair_dec)) hollow_fans
      (triangulate (OC := f32) (fans (nat * nat)) pair_eqb hollow_gv dbg 100 math_real (two a b) (map Continue outer ++ NewPolygon :: map Continue inner ++ [NewPolygon]))) 4 _ shuf Hs).
    destruct dbg; vm_compute; reflexivity. }
  destruct (triangulate_mono (OC := f32) (fans (nat * nat)) pair_eqb hollow_gv dbg 100 fuel math_real shuf hollow_elems Hf) as [H|H]; congruence.
Qed.

(** README.md 20-25, src/lib.rs 17-22: the first triangle is (1, 1), (0, 1), (0.95, 0.95). *)
Theorem C56_readme dbg fuel shuf : (forall k n, Permutation (shuf k n) (seq 0 n)) -> 100 <= fuel ->
  triangulate (OC := f32) (fan_to_list (indexed_list (vec_flat (nat * nat)) [])) pair_eqb hollow_gv dbg fuel math_real shuf hollow_elems = Returned (inl hollow_list) hollow_list.
Proof.
  intros Hs Hf.
  assert (K : triangulate (OC := f32) (fan_to_list (indexed_list (vec_flat (nat * nat)) [])) pair_eqb hollow_gv dbg 100 math_real shuf hollow_elems = Returned (inl hollow_list) hollow_list).
  { rewrite hollow_split, duo by (cbn; lia). apply (yields_ok (list_eq_dec pair_dec)).
    refine (all_pairs (fun a b => yields (list_eq_dec pair_dec) hollow_list
      (triangulate (OC := f32) (fan_to_list (indexed_list (vec_flat (nat * nat)) [])) pair_eqb hollow_gv dbg 100 math_real (two a b) (map Continue outer ++ NewPolygon :: map Continue inner ++ [NewPolygon]))) 4 _ shuf Hs).
    destruct dbg; vm_compute; reflexivity. }
  destruct (triangulate_mono (OC := f32) (fan_to_list (indexed_list (vec_flat (nat * nat)) [])) pair_eqb hollow_gv dbg 100 fuel math_real shuf hollow_elems Hf) as [H|H]; congruence.
Qed.

(** The orders of the theorems above exist. *)
Example C56_hyp : forall k n, Permutation (by_order [2; 0; 3; 1] k n) (seq 0 n).
Proof. apply by_order_perm. vm_compute. reflexivity. Qed.

(** ** The negative tests (src/tests/negative.rs) *)

Definition f32_025 : spec_float := fl 8388608 (-25).
Definition f32_075 : spec_float := fl 12582912 (-24).
Definition f32_125 : spec_float := fl 10485760 (-23).

(** src/tests/negative.rs 3-8. *)
Definition t_incomplete : list (coords spec_float) := [(f00, f00); (f32_1, f32_1)].
Theorem C57_incomplete dbg fuel math_n shuf : triangulate (OC := f32) (fans nat) Nat.eqb (fgv t_incomplete) dbg fuel math_n shuf (felems t_incomplete) =
  Returned (inr (TETrapezoidation (NotEnoughVertices 2))) [].
Proof. reflexivity. Qed.

(** src/tests/negative.rs 22-33. *)
Definition t_lapping : list (list (coords spec_float)) := [t_square; [(f32_075, f32_025); (f32_075, f32_075); (f32_125, f32_075); (f32_125, f32_025)]].
Definition lapping_gv (ij : nat * nat) : coords spec_float := match vv_get t_lapping ij with Some v => v | None => (f00, f00) end.
Definition lapping_elems : list (element (nat * nat)) := match vv_elems 20 t_lapping with Ok l => l | _ => [] end.

(** The call returns an internal error and leaves the caller's vector empty. *)
Definition refuses {E Out A} (o : outcome E Out (list A)) : bool :=
  match o with Returned (inr (TEInternal _ | TETrapezoidation (TrapInternal _))) [] => true | _ => false end.

Theorem C57_overlapping_polygons dbg fuel shuf : (forall k n, Permutation (shuf k n) (seq 0 n)) -> 100 <= fuel ->
  refuses (triangulate (OC := f32) (fans (nat * nat)) pair_eqb lapping_gv dbg fuel math_real shuf lapping_elems) = true.
Proof.
  intros Hs Hf.
  assert (K : refuses (triangulate (OC := f32) (fans (nat * nat)) pair_eqb lapping_gv dbg 100 math_real shuf lapping_elems) = true).
  { change lapping_elems with (map Continue outer ++ NewPolygon :: map Continue inner ++ [NewPolygon]). rewrite duo by (cbn; lia).
    refine (all_pairs (fun a b => refuses
      (triangulate (OC := f32) (fans (nat * nat)) pair_eqb lapping_gv dbg 100 math_real (two a b) (map Continue outer ++ NewPolygon :: map Continue inner ++ [NewPolygon]))) 4 _ shuf Hs).
    destruct dbg; vm_compute; reflexivity. }
  destruct (triangulate_mono (OC := f32) (fans (nat * nat)) pair_eqb lapping_gv dbg 100 fuel math_real shuf lapping_elems Hf) as [H|H]; [rewrite H in K; discriminate|now rewrite H in K].
Qed.

(** src/tests/negative.rs 10-20: the two triangles share the vertex (0, 0), given twice. *)
Definition t_bowtie : list (coords spec_float) := [(neg f32_1, f32_1); (f32_1, f32_1); (f00, f00); (f32_1, neg f32_1); (neg f32_1, neg f32_1); (f00, f00)].

Lemma fans_willing : willing (E := Empty_set) (fans nat).
Proof. split; [|split; [|split]]; intros; cbn; eauto. Qed.

(** C57 is false of [overlapping_vertex]: when the edges are inserted in the order of the vertices, the test never ends, with and without debug assertions. *)
Theorem C57_overlapping_vertex_refuted : exists shuf, (forall k n, Permutation (shuf k n) (seq 0 n)) /\
  forall dbg fuel, triangulate (OC := f32) (fans nat) Nat.eqb (fgv t_bowtie) dbg fuel math_real shuf (felems t_bowtie) = Crashed Fuel.
Proof.
  exists in_order. split; [exact in_order_perm|]. intros dbg fuel. apply (hangs_at_hangs (OC := f32) _ _ _ _ _ _ 8); [destruct dbg; vm_compute; reflexivity|].
  exact fans_willing.
Qed.

(** The orders in which it does not end, 48 of 720. *)
Definition bowtie_hangs (dbg : bool) (o : list nat) : bool := hangs_at (OC := f32) Empty_set Nat.eqb (fgv t_bowtie) dbg math_real (two o []) (felems t_bowtie) 8.
Definition bowtie_orders : list (list nat) := Eval vm_compute in filter (bowtie_hangs true) (orders 6).

Definition ended {E Out A} (dbg : bool) (o : outcome E Out (list A)) : bool := match o with Crashed Panic => dbg | o => refuses o end.
Definition listed (o : list nat) : bool := existsb (fun o' => if list_eq_dec Nat.eq_dec o o' then true else false) bowtie_orders.

(** C57, part: in these orders no budget is enough; in the others the test ends as it should, with an internal error or, with debug assertions, a panic. *)
Theorem C57_overlapping_vertex_partial dbg shuf : (forall k n, Permutation (shuf k n) (seq 0 n)) ->
  let run fuel := triangulate (OC := f32) (fans nat) Nat.eqb (fgv t_bowtie) dbg fuel math_real shuf (felems t_bowtie) in
  length bowtie_orders = 48 /\ (In (shuf 0 6) bowtie_orders -> forall fuel, run fuel = Crashed Fuel) /\
  (~ In (shuf 0 6) bowtie_orders -> forall fuel, 100 <= fuel -> ended dbg (run fuel) = true).
Proof.
  intros Hs run. split; [reflexivity|].
  assert (R : forall fuel, run fuel = triangulate (OC := f32) (fans nat) Nat.eqb (fgv t_bowtie) dbg fuel math_real (two (shuf 0 6) []) (felems t_bowtie)).
  { intros fuel. exact (solo (OC := f32) (fans nat) Nat.eqb (fgv t_bowtie) dbg fuel math_real shuf [0; 1; 2; 3; 4; 5]). }
  split.
  - intros Hin fuel. rewrite R. apply (hangs_at_hangs (OC := f32) _ _ _ _ _ _ 8); [|exact fans_willing].
    assert (K : forallb (bowtie_hangs dbg) bowtie_orders = true) by (destruct dbg; vm_compute; reflexivity).
    rewrite forallb_forall in K. exact (K _ Hin).
  - intros Hn fuel Hf.
    assert (K : forallb (fun o => listed o || ended dbg (triangulate (OC := f32) (fans nat) Nat.eqb (fgv t_bowtie) dbg 100 math_real (two o []) (felems t_bowtie))) (orders 6) = true)
      by (destruct dbg; vm_compute; reflexivity).
    rewrite forallb_forall in K. specialize (K _ (in_orders 6 _ (Hs 0 6))). apply orb_true_iff in K. destruct K as [K|K].
    + exfalso. apply Hn. apply existsb_exists in K. destruct K as (o & Ho & Eo). destruct (list_eq_dec Nat.eq_dec (shuf 0 6) o) as [->|]; [exact Ho|discriminate].
    + rewrite <- R in K. unfold run in *.
      destruct (triangulate_mono (OC := f32) (fans nat) Nat.eqb (fgv t_bowtie) dbg 100 fuel math_real shuf (felems t_bowtie) Hf) as [H|H]; [rewrite H in K; discriminate|now rewrite H in K].
Qed.

(** Both kinds of orders occur. *)
Example C57_hyp : (forall k n, Permutation (by_order [3; 2; 1; 0; 5; 4] k n) (seq 0 n)) /\ In (by_order [3; 2; 1; 0; 5; 4] 0 6) bowtie_orders /\
  (forall k n, Permutation (by_order [5; 2; 1; 0; 3; 4] k n) (seq 0 n)) /\ ~ In (by_order [5; 2; 1; 0; 3; 4] 0 6) bowtie_orders.
Proof.
  assert (L : forall o, listed o = true <-> In o bowtie_orders).
  { intros o. unfold listed. rewrite existsb_exists. split; [intros (o' & H & E); destruct (list_eq_dec Nat.eq_dec o o'); [now subst|discriminate]|].
    intros H. exists o. split; auto. now destruct (list_eq_dec Nat.eq_dec o o). }
  split; [apply by_order_perm; vm_compute; reflexivity|]. split; [apply L; vm_compute; reflexivity|].
  split; [apply by_order_perm; vm_compute; reflexivity|]. rewrite <- L. vm_compute. discriminate.
Qed.

Print Assumptions C56_square.
Print Assumptions C56_star.
Print Assumptions C56_half_frame.
Print Assumptions C56_france.
Print Assumptions C56_fan_to_list.
Print Assumptions C56_reverse_winding.
Print Assumptions C56_delimited_fan.
Print Assumptions C56_error_propagation.
Print Assumptions C56_hollow.
Print Assumptions C56_readme.
Print Assumptions C57_incomplete.
Print Assumptions C57_overlapping_polygons.
Print Assumptions C57_overlapping_vertex_refuted.
Print Assumptions C57_overlapping_vertex_partial.
