(** Valid polygons with [f64] coordinates on which rounding makes the side test contradict itself. *)
From Coq Require Import ZArith QArith Lqa List Arith Bool Lia Permutation.
From Coq.Floats Require Import SpecFloat.
From Verif Require Import Base Coord Trap Mono Tri Trace Protocol Format Builders Runs Plane MonoGeom ValidB Budget Outcome Float FloatRuns.
Import ListNotations.
Local Open Scope res_scope.
Local Open Scope nat_scope.

Definition fl (m : positive) (e : Z) : spec_float := S754_finite false m e.
Definition f00 : spec_float := S754_zero false.
Definition f01 : spec_float := fl 7205759403792794 (-56).
Definition f02 : spec_float := fl 7205759403792794 (-55).
Definition f03 : spec_float := fl 5404319552844595 (-54).
Definition f04 : spec_float := fl 7205759403792794 (-54).
Definition f05 : spec_float := fl 4503599627370496 (-53).
Definition f06 : spec_float := fl 5404319552844595 (-53).
Definition f08 : spec_float := fl 7205759403792794 (-53).
Definition fgv (l : list (coords spec_float)) (i : nat) : coords spec_float := nth i l (f00, f00).
Definition felems (l : list (coords spec_float)) : list (element nat) := map Continue (seq 0 (length l)).

(** ** All insertion orders and relocations of a single polygon *)

Section Bits.
Context {C : Type} {OC : CoordOps C} {I : Type}.
Variables (ieqb : I -> I -> bool) (gv : I -> coords C) (dbg : bool) (fuel : nat).

(** The loop of [add_polygon] with the decisions to relocate given in advance. *)
Fixpoint bits_loop (bits : list bool) (order : list nat) (st : state C I) (vls : list (vloc C I)) (pending : nat) : res ierr (state C I * list (vloc C I)) :=
  match order, bits with
  | vi0 :: order, b :: bits =>
    do '(st1, vls1, added) <- add_nth_segment ieqb gv dbg fuel st vls vi0;
    let pending := pending - added in
    if b then
      do vls2 <- relocate fuel fuel st1 vls1 pending vi0 (LNexus 0) coords_zero;
      bits_loop bits order st1 vls2 pending
    else bits_loop bits order st1 vls1 pending
  | _, _ => Ok (st, vls)
  end.

Lemma bits_ex math_n len : forall order i st vls p u n, exists bits, length bits = length order /\
  polygon_loop ieqb gv dbg fuel math_n len order i st vls p u n = bits_loop bits order st vls p.
Proof.
  induction order as [|v order IH]; intros i st vls p u n; [exists []; auto|].
  cbn [polygon_loop]. destruct (add_nth_segment ieqb gv dbg fuel st vls v) as [[[st1 vls1] added]|e|c] eqn:E.
  - cbn [bind]. destruct (Nat.eqb i n).
    + destruct (relocate fuel fuel st1 vls1 (p - added) v (LNexus 0) coords_zero) as [vls2|e|c] eqn:R.
      * destruct (IH (i + 1) st1 vls2 (p - added) (u + 1) (math_n len (u + 1))) as (bits & L & H). exists (true :: bits). split; [cbn; lia|]. cbn [bits_loop]. rewrite E. cbn [bind]. rewrite R. exact H.
      * exists (true :: repeat true (length order)). split; [cbn; now rewrite repeat_length|]. cbn [bits_loop]. rewrite E. cbn [bind]. now rewrite R.
      * exists (true :: repeat true (length order)). split; [cbn; now rewrite repeat_length|]. cbn [bits_loop]. rewrite E. cbn [bind]. now rewrite R.
    + destruct (IH (i + 1) st1 vls1 (p - added) u n) as (bits & L & H). exists (false :: bits). split; [cbn; lia|]. cbn [bits_loop]. rewrite E. exact H.
  - exists (true :: repeat true (length order)). split; [cbn; now rewrite repeat_length|]. cbn [bits_loop]. now rewrite E.
  - exists (true :: repeat true (length order)). split; [cbn; now rewrite repeat_length|]. cbn [bits_loop]. now rewrite E.
Qed.

Definition bits_run (l : list I) (bits : list bool) (order : list nat) : res trap_error (state C I) :=
  do '(st', _) <- map_err TrapInternal (bits_loop bits order state_new (map (fun i => Pending (gv i) i 0) l) (length l)); Ok st'.

Lemma bits_trapezoidize math_n shuf l : 3 <= length l -> exists bits, length bits = length (shuf 0 (length l)) /\
  trapezoidize ieqb gv dbg fuel math_n shuf (map Continue l) = bits_run l bits (shuf 0 (length l)).
Proof.
  intros Hl. unfold trapezoidize.
  assert (K : forall l vl, build_loop ieqb gv dbg fuel math_n shuf (map Continue l ++ [NewPolygon]) 0 state_new vl = build_loop ieqb gv dbg fuel math_n shuf [NewPolygon] 0 state_new (vl ++ map (fun i => Pending (gv i) i 0) l)).
  { clear. induction l as [|a l IH]; intros vl; cbn [map app]; [now rewrite app_nil_r|]. cbn [build_loop]. rewrite IH. now rewrite <- app_assoc. }
  rewrite K. cbn [app build_loop]. rewrite map_length. assert (Nat.ltb 0 (length l) = true) as -> by (apply Nat.ltb_lt; lia). assert (Nat.ltb (length l) 3 = false) as -> by (apply Nat.ltb_ge; lia).
  unfold add_polygon. rewrite map_length. destruct (bits_ex math_n (length l) (shuf 0 (length l)) 0 state_new (map (fun i => Pending (gv i) i 0) l) (length l) 1 (math_n (length l) 1)) as (bits & L & E).
  exists bits. split; auto. unfold bits_run. now rewrite E.
Qed.
End Bits.

Fixpoint bool_lists (n : nat) : list (list bool) := match n with O => [[]] | S n => map (cons true) (bool_lists n) ++ map (cons false) (bool_lists n) end.
Lemma in_bools bits : In bits (bool_lists (length bits)).
Proof. induction bits as [|[] bits IH]; cbn; auto; apply in_or_app; [left|right]; now apply in_map. Qed.

Fixpoint words (k n : nat) : list (list nat) := match n with O => [[]] | S n => flat_map (fun w => map (fun a => a :: w) (seq 0 k)) (words k n) end.
Lemma in_words k l : (forall x, In x l -> x < k) -> In l (words k (length l)).
Proof.
  induction l as [|a l IH]; intros H; cbn; auto. apply in_flat_map. exists l. split; [apply IH; intros x Hx; apply H; now right|]. apply in_map_iff. exists a. split; auto. apply in_seq. specialize (H a (or_introl eq_refl)). lia.
Qed.
Fixpoint nodupb (l : list nat) : bool := match l with [] => true | a :: l => negb (existsb (Nat.eqb a) l) && nodupb l end.
Lemma nodupb_true l : NoDup l -> nodupb l = true.
Proof.
  induction 1 as [|a l Ha Hl IH]; cbn; auto. rewrite IH, andb_true_r. apply negb_true_iff. destruct (existsb (Nat.eqb a) l) eqn:E; auto. apply existsb_exists in E. destruct E as (x & Hx & Ex). apply Nat.eqb_eq in Ex. now subst.
Qed.
Definition orders (k : nat) : list (list nat) := filter nodupb (words k k).
Lemma in_orders k l : Permutation l (seq 0 k) -> In l (orders k).
Proof.
  intros P. pose proof (Permutation_length P) as L. rewrite seq_length in L. apply filter_In. split.
  - rewrite <- L at 2. apply in_words. intros x Hx. apply (Permutation_in _ P) in Hx. apply in_seq in Hx. lia.
  - apply nodupb_true, (Permutation_NoDup (Permutation_sym P)), seq_NoDup.
Qed.

(** ** A triangle that is always refused *)

(** (0.3, 0.0), (0.4, 0.1), (0.8, 0.5): almost, but not exactly, on a line. *)
Definition thin : list (coords spec_float) := [(f03, f00); (f04, f01); (f08, f05)].

Section Thin.
Context {E : Type}.
Definition run_of (cw dbg : bool) (bits : list bool) (order : list nat) : list (call nat) * res (tri_error E) unit :=
  match bits_run (OC := f64) Nat.eqb (fgv thin) dbg 60 [0; 1; 2] bits order with
  | Ok st => run_calls (OC := f64) E (fgv thin) cw 60 st
  | Err e => ([], Err (TETrapezoidation e))
  | Crash c => ([], Crash c)
  end.
Definition refused (r : list (call nat) * res (tri_error E) unit) : bool :=
  match r with ([], Err (TEInternal _)) | ([], Err (TETrapezoidation (TrapInternal _))) => true | _ => false end.

Lemma thin_refused : forallb (fun o => forallb (fun b => refused (run_of true true b o) && refused (run_of true false b o) && refused (run_of false true b o) && refused (run_of false false b o)) (bool_lists 3)) (orders 3) = true.
Proof. vm_compute. reflexivity. Qed.

Lemma thin_calls cw dbg math_n shuf : (forall k n, Permutation (shuf k n) (seq 0 n)) ->
  exists e, (exists x, e = TEInternal x \/ e = TETrapezoidation (TrapInternal x)) /\ api_calls (OC := f64) E Nat.eqb (fgv thin) cw dbg 60 math_n shuf (felems thin) = ([], Err e).
Proof.
  intros Hs. unfold api_calls. destruct (bits_trapezoidize (OC := f64) Nat.eqb (fgv thin) dbg 60 math_n shuf [0; 1; 2] ltac:(cbn; lia)) as (bits & L & R).
  change (map Continue [0; 1; 2]) with (felems thin) in R. rewrite R. cbn [length] in *. pose proof (Permutation_length (Hs 0 3)) as L3. rewrite seq_length in L3.
  pose proof thin_refused as H. rewrite forallb_forall in H. specialize (H (shuf 0 3) (in_orders 3 _ (Hs 0 3))). rewrite forallb_forall in H. specialize (H bits).
  assert (Hb : In bits (bool_lists 3)) by (rewrite <- L3, <- L; apply in_bools). specialize (H Hb).
  assert (K : refused (run_of cw dbg bits (shuf 0 3)) = true). { rewrite !andb_true_iff in H. destruct H as (((H1 & H2) & H3) & H4). destruct cw, dbg; auto. }
  clear H. change (exists e, (exists x, e = TEInternal x \/ e = TETrapezoidation (TrapInternal x)) /\ run_of cw dbg bits (shuf 0 3) = ([], Err e)).
  destruct (run_of cw dbg bits (shuf 0 3)) as ([|x l], [u|[[n|e]| |e|e]|c]); try discriminate; eauto.
Qed.
End Thin.

(** Whatever the order, the relocations and the builder, the run ends with an error. *)
Theorem thin_errs {E Out Mt} (F : fan_format nat E Out Mt) dbg math_n shuf : (forall k n, Permutation (shuf k n) (seq 0 n)) ->
  exists e, (exists x, e = TEInternal x \/ e = TETrapezoidation (TrapInternal x)) /\ forall fuel, 60 <= fuel -> triangulate (OC := f64) F Nat.eqb (fgv thin) dbg fuel math_n shuf (felems thin) = Returned (inr e) (ff_dropped F).
Proof.
  intros Hs. destruct (thin_calls (E := E) (ff_cw F) dbg math_n shuf Hs) as (e & He & R). exists e. split; auto. intros fuel Hf.
  assert (K : triangulate (OC := f64) F Nat.eqb (fgv thin) dbg 60 math_n shuf (felems thin) = Returned (inr e) (ff_dropped F)). { rewrite triangulate_obeys, R. reflexivity. }
  destruct (triangulate_mono (OC := f64) F Nat.eqb (fgv thin) dbg 60 fuel math_n shuf (felems thin) Hf) as [H|H]; congruence.
Qed.

Definition exact (l : list (coords spec_float)) : list (list point) := map (map (fun i => fpos (fgv l i))) (groups (felems l)).

Lemma thin_valid : valid (exact thin).
Proof. apply validb_valid. vm_compute. reflexivity. Qed.

(** ** A triangle returned with the wrong winding *)

(** (0.1, 0.0), (0.4, 0.6), (0.2, 0.2). *)
Definition bent : list (coords spec_float) := [(f01, f00); (f04, f06); (f02, f02)].
Lemma bent_valid : valid (exact bent).
Proof. apply validb_valid. vm_compute. reflexivity. Qed.

(** ** A quadrilateral on which the run does not end *)

(** (2.7, 1.3), (3.1, 1.5), (3.5, 1.7), (7.5, 3.7). *)
Definition line : list (coords spec_float) :=
  [(fl 6079859496950170 (-51), fl 5854679515581645 (-52)); (fl 6980579422424269 (-51), fl 6755399441055744 (-52));
   (fl 7881299347898368 (-51), fl 7656119366529843 (-52)); (fl 8444249301319680 (-50), fl 8331659310635418 (-51))].
Lemma line_valid : valid (exact line).
Proof. apply validb_valid. vm_compute. reflexivity. Qed.

Definition line_st : state spec_float nat := Eval vm_compute in
  match trapezoidize (OC := f64) Nat.eqb (fgv line) false 60 never in_order (felems line) with Ok st => st | _ => state_new end.

Section Line.
Context {Out M : Type} {E : Type} (F : fan_format nat E Out M).
Notation step := (tri_step (OC := f64) (fgv line) (fbs_new F) (fbs_ext F) (ff_cw F)).
Notation lp fuel := (tri_loop (OC := f64) (fgv line) (fbs_new F) (fbs_ext F) (ff_cw F) fuel line_st).

Lemma line_step fuel k x t nd s s' x' :
  rd (E := tri_error E) (st_ts line_st) (x_ti x) = Ok t -> t_d t = Some nd ->
  step fuel line_st x t nd s = (s', Ok x') -> lp fuel (S k) x s = lp fuel k x' s'.
Proof. intros H1 H2 H3. cbn [tri_loop]. unfold lift, sbind at 1. cbn [snd fst]. rewrite H1, H2, H3. reflexivity. Qed.

Definition lv (i : nat) : nat * coords spec_float := (i, fgv line i).
Definition line_mono : mono spec_float nat := mkMono [lv 3; lv 2; lv 1; lv 0] 2 2 true.

Lemma line_loops fuel s : forall k, build_fans (OC := f64) (fbs_new F) (fbs_ext F) (ff_cw F) fuel k line_mono s = (s, Crash Fuel).
Proof.
  induction k as [k IH] using (well_founded_induction lt_wf).
  do 3 (destruct k as [|k]; [reflexivity|]).
  change (build_fans (OC := f64) (fbs_new F) (fbs_ext F) (ff_cw F) fuel k line_mono s = (s, Crash Fuel)). apply IH. lia.
Qed.

Lemma line_last fuel s k : lp fuel k (mkT 3 (Some (OOne (mkMB [lv 3; lv 2; lv 1] true true))) [(8, None)] []) s = (s, Crash Fuel).
Proof.
  destruct k as [|k]; [reflexivity|]. cbn [tri_loop].
  assert (H : forall t, nth_error (st_ts line_st) 3 = Some t -> step fuel line_st (mkT 3 (Some (OOne (mkMB [lv 3; lv 2; lv 1] true true))) [(8, None)] []) t 0 s = (s, Crash Fuel)).
  { intros t Ht. injection Ht as <-. unfold tri_step, step_v, finish_all, finish. cbn -[build_fans fgv].
    unfold sbind at 1. rewrite line_loops. reflexivity. }
  unfold lift, sbind at 1. cbn [snd fst x_ti]. unfold rd. destruct (nth_error (st_ts line_st) 3) as [t|] eqn:Et; [|discriminate].
  specialize (H t eq_refl). injection Et as <-. cbn [t_d]. unfold sbind at 1. rewrite H. reflexivity.
Qed.

Lemma line_runs fuel s k : lp fuel k (mkT 6 None [] []) s = (s, Crash Fuel).
Proof.
  do 6 (destruct k as [|k]; [reflexivity|]; erewrite line_step; [|reflexivity|reflexivity|vm_compute; reflexivity]).
  exact (line_last fuel s k).
Qed.

Lemma line_large fuel dbg : trapezoidize (OC := f64) Nat.eqb (fgv line) dbg (40 + fuel) never in_order (felems line) = Ok line_st.
Proof. destruct dbg; vm_compute; reflexivity. Qed.

Lemma line_top fuel : top_trapezoid (40 + fuel) (st_qs line_st) 0 = Ok 6.
Proof. reflexivity. Qed.

Lemma line_endless dbg fuel : triangulate (OC := f64) F Nat.eqb (fgv line) dbg fuel never in_order (felems line) = Crashed Fuel.
Proof.
  assert (G : triangulate (OC := f64) F Nat.eqb (fgv line) dbg (40 + fuel) never in_order (felems line) = Crashed Fuel).
  { unfold triangulate. rewrite line_large. unfold trap_triangulate, triangulate_inner. rewrite line_top. cbn [map_err]. unfold sbind. cbn [lift fst snd]. rewrite line_runs. reflexivity. }
  destruct (triangulate_mono (OC := f64) F Nat.eqb (fgv line) dbg fuel (40 + fuel) never in_order (felems line) ltac:(lia)) as [H|H]; congruence.
Qed.
End Line.
