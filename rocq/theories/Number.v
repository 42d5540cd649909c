(** The number of triangles. *)
From Coq Require Import QArith Qabs Lqa List Arith Lia Bool ZArith Permutation.
From Verif Require Import Base Coord Trap Mono Tri Trace Protocol Lanes Plane MonoProof MonoGeom Geo Region TrapInv Polygons Build Faces Open Traverse Sweep Tile Whole Outline EvenOdd Outcome Nest Near Area Graph Count Single Corner FormatRuns Builders.
Import ListNotations.
Local Open Scope nat_scope.

(** ** Specification *)

(** [n - 2] triangles for a polygon at even depth, [n + 2] for one at odd depth (a hole). *)
Definition ntri (ps : list (list point)) : Z :=
  sumz (fun k => Z.of_nat (length (nth k ps [])) + if Nat.even (depth ps k) then -2 else 2)%Z (seq 0 (length ps)).

(** ** Proof *)

Lemma one_group (q : list point) : q <> [] -> map (map (fun x : point => x)) (groups (map (@Continue point) q)) = [q].
Proof.
  intros Hq. assert (K : forall cur, groups_from cur (map (@Continue point) q) = match cur ++ q with [] => [] | _ => [cur ++ q] end).
  { clear. induction q as [|a q IH]; intros cur; cbn [map groups_from]; [now rewrite app_nil_r; destruct cur|]. rewrite IH, <- app_assoc. reflexivity. }
  unfold groups. rewrite K. cbn [app]. destruct q as [|a q']; [congruence|]. cbn [map]. now rewrite map_id.
Qed.

Lemma one_top q (st : state Q point) : valid [q] -> (forall ex M, free_pts [q] ex -> shear M (concat [q] ++ ex) -> traps [q] ex M (fun x => x) st) ->
  forall i j, i < length (st_ts st) -> j < length (st_ts st) -> Faces.tu st i = None -> Faces.tu st j = None -> i = j.
Proof.
  intros HV HT. assert (Hq : q <> []) by (intros ->; destruct HV as (V & _); apply Forall_inv in V; cbn in V; lia). pose proof (one_group q Hq) as Eg.
  apply (top_once (fun x : point => x) (map (@Continue point) q)); [rewrite Eg; exact HV|]. intros ex M Hex HM. unfold extra in Hex. rewrite Eg in Hex, HM.
  destruct (HT ex M Hex HM) as [H1 H2 H3 H4 H5 H6]. split; rewrite ?Eg; auto.
Qed.

Lemma one_phis q ex M (st : state Q point) : valid [q] -> (forall ex M, free_pts [q] ex -> shear M (concat [q] ++ ex) -> traps [q] ex M (fun x => x) st) ->
  free_pts [q] ex -> shear M (concat [q] ++ ex) -> phis (pinn M st q) q = (-1)%Z.
Proof.
  intros HV HT Hex HM. destruct (HT ex M Hex HM) as [G _ F Pe Pp Dg]. pose proof (delta_polys [q] ex M _ st HV G HM F Pe Pp Dg) as K. cbn [sumz] in K.
  rewrite (single_delta q ex M _ st HV G HM F Pe Pp Dg (one_top q st HV HT)) in K. lia.
Qed.

Lemma phis_sign b b' p : phis b' p = (-1)%Z -> phis b p = if Bool.eqb b b' then (-1)%Z else 1%Z.
Proof. pose proof (phis_neg p). destruct b, b'; cbn [Bool.eqb]; lia. Qed.

Lemma sumz_index {A} (d : A) (f : A -> Z) l : sumz f l = sumz (fun k => f (nth k l d)) (seq 0 (length l)).
Proof.
  assert (G : forall a, sumz (fun k => f (nth k (a ++ l) d)) (seq (length a) (length l)) = sumz f l); [|symmetry; exact (G [])].
  induction l as [|x l IH]; intros a; auto. cbn [length seq sumz]. rewrite app_nth2, Nat.sub_diag by lia. cbn [nth]. f_equal.
  specialize (IH (a ++ [x])). rewrite app_length in IH. cbn in IH. rewrite Nat.add_1_r in IH. rewrite <- app_assoc in IH. exact IH.
Qed.

Section Number.
Context {I : Type}.
Variables (gv : I -> point) (elems : list (element I)).
Notation ps := (map (map gv) (groups elems)).
Hypothesis HV : valid ps.
Variables (cw : bool) (st : state Q I) (calls : list (call I)).
Hypothesis HD : forall ex M, extra gv elems ex -> shear M (concat ps ++ ex) -> done gv elems ex M st.
Hypothesis HFa : forall ex M, extra gv elems ex -> shear M (concat ps ++ ex) -> facts gv cw M st calls.

Theorem run_number : Z.of_nat (length (tris_of calls)) = ntri ps.
Proof.
  destruct (shear_exists (concat ps)) as (M & HM). assert (HM' : shear M (concat ps ++ [])) by now rewrite app_nil_r. assert (X0 : extra gv elems []) by (split; [|split]; easy).
  destruct (HD [] M X0 HM') as [G _ F Pe Pp Dg]. destruct (HFa [] M X0 HM') as [Kl _ _]. rewrite Kl, (kc_sum _ _ M gv st G HM' F Dg), (delta_polys ps [] M gv st HV G HM' F Pe Pp Dg).
  assert (Hn : Z.of_nat (length (st_ns st)) = sumz (fun p => Z.of_nat (length p)) ps).
  { rewrite <- (map_length n_c). change (Z.of_nat (length (points st)) = sumz (fun p => Z.of_nat (length p)) ps). rewrite (Permutation_length Pp). clear.
    induction ps as [|p l IH]; auto. cbn [concat sumz]. rewrite app_length, <- IH. lia. }
  rewrite Hn, <- sumz_scale, <- sumz_plus, (sumz_index []). unfold ntri. apply sumz_ext. intros k Hk. apply in_seq in Hk. destruct (lt_nth _ ps k) as (p & Hp); [lia|]. rewrite (nth_error_nth _ _ [] Hp).
  assert (Hin : In p ps) by (eapply nth_error_In; eauto). pose proof (valid_one ps p HV Hin) as V1. destruct (one_ex p V1) as (st1 & calls1 & K1).
  assert (HM1 : shear M p). { destruct HM as (K0 & K). split; auto. intros a b Ha Hb. apply K; apply in_concat; eauto. }
  assert (C1 : concat [p] ++ [] = p) by (cbn; now rewrite !app_nil_r). assert (F0 : free_pts [p] []) by (split; [|split]; easy). assert (HM1' : shear M (concat [p] ++ [])) by now rewrite C1.
  assert (T1 : forall ex M, free_pts [p] ex -> shear M (concat [p] ++ ex) -> traps [p] ex M (fun x => x) st1) by (intros ex M2 Hex HM2; now apply K1).
  rewrite (phis_sign (pinn M st p) (pinn M st1 p) p (one_phis p [] M st1 V1 T1 F0 HM1')).
  pose proof (depth_sign ps k p gv st st1 M M HV Hp) as S2.
  assert (S3 : (sgn (pinn M st p) * sgn (pinn M st1 p) == if Nat.even (depth ps k) then 1 else -1)%Q). { apply S2; auto. intros ex M2 Hex HM2. apply done_traps. now apply HD. }
  destruct (pinn M st p), (pinn M st1 p), (Nat.even (depth ps k)); cbn [Bool.eqb]; try lia; unfold sgn in S3; exfalso; revert S3; unfold Qeq; cbn; lia.
Qed.
End Number.

Section NumberReturned.
Context {I : Type}.
Variables (gv : I -> point) (ieqb : I -> I -> bool) (dbg : bool).
Hypothesis Hieq : forall a b, ieqb a b = true <-> a = b.
Variables (math_n : nat -> nat -> nat) (shuf : nat -> nat -> list nat).
Hypothesis Hshuf : forall k n, Permutation (shuf k n) (seq 0 n).
Variable elems : list (element I).
Notation ps := (map (map gv) (groups elems)).
Hypothesis HV : valid ps.
Hypothesis Hps : ps <> [].

Lemma returns_number T : returns gv ieqb dbg math_n shuf elems T -> Z.of_nat (length T) = ntri ps.
Proof. intros HT. destruct (returns_run gv ieqb dbg Hieq math_n shuf Hshuf elems HV Hps T HT) as (st & calls & -> & _ & H1 & H2 & H3). now apply (run_number gv elems HV false st calls). Qed.

(** Whatever the builder and its winding. *)
Lemma calls_number E cw : exists calls N,
  (forall fuel, N <= fuel -> triangulate (recorder I E cw) ieqb gv dbg fuel math_n shuf elems = Returned (inl calls) calls) /\
  Z.of_nat (length (tris_of calls)) = ntri ps.
Proof.
  destruct (whole (E := E) gv ieqb dbg Hieq math_n shuf Hshuf elems HV cw) as (st & N & calls & H1 & H2 & H3 & H4 & H5 & H6).
  destruct (calls_nonempty (E := E) gv ieqb dbg Hieq math_n shuf Hshuf elems HV cw Hps) as (calls' & N' & Hs & Hne & Hr).
  assert (calls' = calls). { specialize (H4 (N + N') ltac:(lia)). specialize (Hr (N + N') ltac:(lia)). congruence. } subst calls'.
  exists calls, (N + N'). split; [|exact (run_number gv elems HV cw st calls H2 H6)].
  intros fuel Hf. rewrite tri_recorder, (Hr fuel) by lia. destruct calls; [now elim Hne|reflexivity].
Qed.

Lemma returns_number1 p T : ps = [p] -> returns gv ieqb dbg math_n shuf elems T -> length T + 2 = length p.
Proof.
  intros Hp HT. pose proof (returns_number T HT) as K. unfold ntri in K. rewrite Hp in K. cbn [length seq sumz nth] in K.
  assert (D0 : depth [p] 0 = 0) by (unfold depth; cbn; now destruct p). rewrite D0 in K. cbn [Nat.even] in K. lia.
Qed.
End NumberReturned.
