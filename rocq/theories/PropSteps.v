(** Property C48: how many iterations the loops make. *)
From Coq Require Import QArith List Arith Lia Permutation.
From Verif Require Import Base Coord Trap Mono Tri Trace Protocol Format Builders Runs Plane MonoGeom ValidRuns EvenOdd Whole Budget Outcome Area EndsFan EndsTri Steps PropTri PropEnds.
Import ListNotations.
Local Open Scope nat_scope.

Lemma drive_returns {I E Out M} (F : fan_format I E Out M) l : forall b, exists r m, drive F b l (Ok tt) = Returned r m.
Proof.
  induction l as [|[x y z|v] l IH]; intros b; cbn [drive].
  - destruct (ff_build F b) as [[o|e] m]; eauto.
  - destruct (ff_new F b x y z) as [b' [e|]]; eauto.
  - destruct (ff_ext F b v) as [b' [e|]]; eauto.
Qed.

Lemma obey_returns {I E Out M} (F : fan_format I E Out M) l : exists r m, obey F (l, Ok tt) = Returned r m.
Proof.
  unfold obey. cbn [fst snd]. destruct l as [|[x y z|v] l]; eauto. destruct (ff_init F x y z) as [b|[e m]]; eauto using drive_returns.
Qed.

Section Props.
Context {I : Type}.
Variables (gv : I -> point) (ieqb : I -> I -> bool) (dbg : bool) (math_n : nat -> nat -> nat) (shuf : nat -> nat -> list nat).
Hypothesis Hieq : forall a b, ieqb a b = true <-> a = b.
Hypothesis Hshuf : forall k n, Permutation (shuf k n) (seq 0 n).
Variable elems : list (element I).
Notation ps := (map (map gv) (groups elems)).
Notation n := (vertices elems).

(** C48: on a valid list of polygons with [n] vertices, with every builder, also one that fails, [triangulate] returns without any loop making more than
    4 (n + 2)^2 iterations: the outcome is the same for every budget from there on. *)
Theorem C48_quadratic {E Out M} (F : fan_format I E Out M) : valid ps ->
  exists r m, forall fuel, 4 * ((n + 2) * (n + 2)) <= fuel -> triangulate F ieqb gv dbg fuel math_n shuf elems = Returned r m.
Proof.
  intros HV. rewrite vertices_continues. destruct (api_quadratic (E := E) gv ieqb dbg Hieq math_n shuf Hshuf elems HV (ff_cw F)) as (calls & H).
  destruct (obey_returns F calls) as (r & m & Hr). exists r, m. intros fuel Hf. now rewrite triangulate_obeys, H.
Qed.

(** C48: with a builder that does not fail, the output. *)
Theorem C48_quadratic_ok {E Out M} (F : fan_format I E Out M) : valid ps -> ps <> [] -> willing F ->
  exists out m, forall fuel, 4 * ((n + 2) * (n + 2)) <= fuel -> triangulate F ieqb gv dbg fuel math_n shuf elems = Returned (inl out) m.
Proof.
  intros HV Hps HF. destruct (C48_quadratic F HV) as (r & m & H). destruct (C01_succeeds gv ieqb dbg math_n shuf Hieq Hshuf elems HV Hps F HF) as (out & m' & N & H').
  exists out, m'. intros fuel Hf. rewrite (H fuel Hf). rewrite <- (H (N + fuel) ltac:(lia)). apply H'. lia.
Qed.
End Props.

(** C48: for arbitrary coordinates, piece and receiver: cutting a piece of L vertices makes at most L^2 iterations, or never ends. *)
Theorem C48_piece {C} {OC : CoordOps C} {I E Out M} (F : fan_format I E Out M) cw (b : mbuilder C I) s :
  let L := length (mb_vec b) in
  (forall fuel, snd (finish (fbs_new F) (fbs_ext F) cw fuel b s) = Crash Fuel) \/
  (forall fuel, L * L <= fuel -> finish (fbs_new F) (fbs_ext F) cw fuel b s = finish (fbs_new F) (fbs_ext F) cw (L * L) b s /\
     snd (finish (fbs_new F) (fbs_ext F) cw fuel b s) <> Crash Fuel).
Proof.
  intros L. destruct (finish_within (fbs_new F) (fbs_ext F) (fbs_new_nf F) (fbs_ext_nf F) cw (L * L) 0 True b s (le_n _)) as [(x & _ & Hx & Hr & _)|(H & _)]; [auto| |].
  - right. intros fuel Hf. rewrite (Hr fuel 0), (Hr (L * L) 0) by lia. auto.
  - left. intros fuel. apply (H fuel 0).
Qed.

(** The quadrilateral with the triangular hole: 7 vertices, 324 iterations are enough. *)
Example C48_case : vertices holed_elems = 7 /\ exists T,
  forall fuel, 324 <= fuel -> triangulate (fan_to_list (indexed_list (vec_triples nat) [])) Nat.eqb (gv_of holed) true fuel never in_order holed_elems = Returned (inl T) T.
Proof.
  split; [reflexivity|].
  destruct (C48_quadratic_ok (gv_of holed) Nat.eqb true never in_order nat_eqb_dec in_order_perm holed_elems _ holed_valid holed_ne C01_hyp) as (T & m & H).
  exists T. intros fuel Hf. rewrite (H fuel Hf). f_equal. pose proof (H 324 (le_n _)) as K. vm_compute in K. now injection K as <- <-.
Qed.

(** A chain of four vertices that is cut completely. *)
Example C48_piece_case : let b := mkMB (map (fun i => (i, nth i [pt 0 0; pt 2 (-1); pt 2 (-2); pt 0 (-3)] (pt 0 0))) [0; 1; 2; 3]) true true in
  snd (finish (fbs_new (fan_to_list (indexed_list (vec_triples nat) []))) (fbs_ext _) false (length (mb_vec b) * length (mb_vec b)) b FUninit) = Ok tt.
Proof. vm_compute. reflexivity. Qed.

Print Assumptions C48_quadratic.
Print Assumptions C48_quadratic_ok.
Print Assumptions C48_piece.
