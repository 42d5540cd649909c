(** Floating point coordinates: [triangulate] with [f64] and [f32] vertices, IEEE 754 arithmetic with rounding. *)
From Coq Require Import ZArith QArith Qabs Qpower Lqa List Arith Bool Lia Permutation.
From Coq.Floats Require Import SpecFloat.
From Verif Require Import Base Coord Trap Mono Tri Trace Protocol Format Builders Runs Plane MonoGeom ValidRuns ValidB EvenOdd Whole Budget Outcome Area PropTri Cover Inv PropMesh Float FloatRuns FloatErr FloatLine FloatWit.
Import ListNotations.
Local Open Scope nat_scope.

(** [f] is a float of the given format and, as a rational number, an integer multiple of [2^g], at most [B] times. *)
Definition multiple (prec emax g B : Z) (f : spec_float) : Prop :=
  valid_binary prec emax f = true /\ finite f /\ exists n : Z, (Z.abs n <= B)%Z /\ (fval f == inject_Z n * 2 ^ g)%Q.
Definition f64_multiple (g : Z) : spec_float -> Prop := multiple 53 1024 g 47453132.
Definition f32_multiple (g : Z) : spec_float -> Prop := multiple 24 128 g 2047.

Definition all_coords {I} (P : spec_float -> Prop) (gv : I -> coords spec_float) (elems : list (element I)) : Prop :=
  forall i, In (Continue i) elems -> P (cx (gv i)) /\ P (cy (gv i)).

(** C40: when all coordinates are multiples [n * 2^g] with [|n| <= 47453132], a run on [f64] vertices is the run on their exact positions:
    same outcome, for every format, valid polygons or not, with every step budget. *)
Theorem C40_f64 {I E Out Mt} (F : fan_format I E Out Mt) ieqb (gv : I -> coords spec_float) dbg fuel math_n shuf elems g :
  (-537 <= g <= 485)%Z -> all_coords (f64_multiple g) gv elems ->
  triangulate (OC := f64) F ieqb gv dbg fuel math_n shuf elems = triangulate F ieqb (fun i => fpos (gv i)) dbg fuel math_n shuf elems.
Proof. intros Hg H. apply (float_run 53 1024 g 47453132); unfold SpecFloat.emin; try lia. exact H. Qed.

(** C40: for [f32], [|n| <= 2047]. *)
Theorem C40_f32 {I E Out Mt} (F : fan_format I E Out Mt) ieqb (gv : I -> coords spec_float) dbg fuel math_n shuf elems g :
  (-74 <= g <= 52)%Z -> all_coords (f32_multiple g) gv elems ->
  triangulate (OC := f32) F ieqb gv dbg fuel math_n shuf elems = triangulate F ieqb (fun i => fpos (gv i)) dbg fuel math_n shuf elems.
Proof. intros Hg H. apply (float_run 24 128 g 2047); unfold SpecFloat.emin; try lia. exact H. Qed.

(** The triples returned for [f64] vertices. *)
Definition f64_returns {I} (gv : I -> coords spec_float) ieqb dbg math_n shuf elems (T : list (I * I * I)) : Prop :=
  exists fuel, triangulate (OC := f64) (fan_to_list (indexed_list (vec_triples I) [])) ieqb gv dbg fuel math_n shuf elems = Returned (inl T) T.

(** C40: so valid polygons with such coordinates are triangulated: triples are returned, none of them clockwise, the triangles tile the
    even-odd interior and their areas add up to its area. *)
Theorem C40_f64_triangulates {I} (gv : I -> coords spec_float) ieqb dbg math_n shuf (elems : list (element I)) g :
  (forall a b, ieqb a b = true <-> a = b) -> (forall k n, Permutation (shuf k n) (seq 0 n)) ->
  (-537 <= g <= 485)%Z -> all_coords (f64_multiple g) gv elems ->
  let pos i := fpos (gv i) in
  let ps := map (map pos) (groups elems) in
  valid ps -> ps <> [] ->
  exists T, f64_returns gv ieqb dbg math_n shuf elems T /\ tiles ps (map (tri_pos pos) T) /\ (sumq (area2 pos) T == interior2 ps)%Q /\
    forall a b c, In (a, b, c) T -> (0 <= cross (pos a) (pos b) (pos c))%Q.
Proof.
  intros Hi Hs Hg H pos ps HV Hp. destruct (C01_returns pos ieqb dbg math_n shuf Hi Hs elems HV Hp) as (T & HT). exists T.
  repeat split.
  - destruct HT as (fuel & HT). exists fuel. rewrite (C40_f64 _ ieqb gv dbg fuel math_n shuf elems g Hg H). exact HT.
  - exact (C03_tiles pos ieqb dbg math_n shuf Hi Hs elems HV Hp T HT).
  - exact (C02_area pos ieqb dbg math_n shuf Hi Hs elems HV Hp T HT).
  - intros a b c Hin. exact (proj2 (proj2 (proj2 (C04_returned pos ieqb dbg math_n shuf Hi Hs elems HV Hp T a b c HT Hin)))).
Qed.

(** The L shape of [tests] scaled down to 1/4: coordinates with a fractional part, and a negative zero. *)
Definition ell4 : list (coords spec_float) :=
  [(S754_zero true, f00); (fl 4503599627370496 (-52), fl 4503599627370496 (-54)); (fl 4503599627370496 (-52), fl 4503599627370496 (-53));
   (fl 4503599627370496 (-53), fl 4503599627370496 (-53)); (fl 4503599627370496 (-53), fl 5629499534213120 (-52)); (S754_zero false, fl 4503599627370496 (-52))].

Example C40_hyp : all_coords (f64_multiple (-2)) (fgv ell4) (felems ell4) /\ valid (exact ell4).
Proof.
  split.
  - intros i Hi. apply in_map_iff in Hi. destruct Hi as (j & E & Hj). injection E as <-. cbn in Hj.
    assert (K : forall f n, valid_binary 53 1024 f = true -> finite f -> (Z.abs n <= 47453132)%Z -> Qeq_bool (fval f) (inject_Z n * 2 ^ (-2)) = true -> f64_multiple (-2) f).
    { intros f n H1 H2 H3 H4. split; auto. split; auto. exists n. split; auto. now apply Qeq_bool_eq. }
    repeat (destruct Hj as [<-|Hj];
      [split; cbn; first [apply (K _ 0%Z); [reflexivity|exact Logic.I|lia|reflexivity] | apply (K _ 1%Z); [reflexivity|exact Logic.I|lia|reflexivity] | apply (K _ 2%Z); [reflexivity|exact Logic.I|lia|reflexivity]
                         | apply (K _ 4%Z); [reflexivity|exact Logic.I|lia|reflexivity] | apply (K _ 5%Z); [reflexivity|exact Logic.I|lia|reflexivity] ]|]).
    elim Hj.
  - apply validb_valid. vm_compute. reflexivity.
Qed.

Example C40_case : f64_returns (fgv ell4) Nat.eqb true never in_order (felems ell4) [(4, 5, 3); (2, 3, 1); (0, 1, 3); (0, 3, 5)].
Proof. exists 100. vm_compute. reflexivity. Qed.

(** ** C47: coordinates not on a grid *)

(** The floats used are finite, of absolute value at most [2^hi]; two different abscissas (ordinates) differ by [2^lo] at least. *)
Definition spread {I} (prec emax lo hi : Z) (gv : I -> coords spec_float) (elems : list (element I)) : Prop :=
  all_coords (fun f => (valid_binary prec emax f = true /\ finite f) /\ (Qabs (fval f) <= 2 ^ hi)%Q) gv elems /\
  forall i k, In (Continue i) elems -> In (Continue k) elems ->
    let (xi, yi) := fpos (gv i) in let (xk, yk) := fpos (gv k) in
    (xi == xk \/ 2 ^ lo <= Qabs (xi - xk))%Q /\ (yi == yk \/ 2 ^ lo <= Qabs (yi - yk))%Q.

(** The number is a float of the format. *)
Definition representable (prec emax : Z) (v : Q) : Prop := exists f, (valid_binary prec emax f = true /\ finite f) /\ (fval f == v)%Q.

(** The determinant of three points, the third at neither of the heights of the others, as a difference of two products: both are zero, or they differ by
    more than [4u] times the sum of their sizes, or the differences that are multiplied are floats and the products are the same or differ by more than
    [u] times that sum. *)
Definition clear_of_line (prec emax : Z) (a b c : point) : Prop :=
  (~ snd c == snd a -> ~ snd c == snd b ->
   let p := (fst a - fst b) * (snd c - snd b) in let q := (snd a - snd b) * (fst c - fst b) in
   let u := 2 ^ (- prec) in let rep := representable prec emax in
   ((p == 0 /\ q == 0) \/ 4 * u * (Qabs p + Qabs q) < Qabs (p - q)) \/
   ((p == q \/ u * (Qabs p + Qabs q) < Qabs (p - q)) /\ rep (fst a - fst b) /\ rep (snd c - snd b) /\ rep (snd a - snd b) /\ rep (fst c - fst b)))%Q.
Definition all_clear {I} (prec emax : Z) (gv : I -> coords spec_float) (elems : list (element I)) : Prop :=
  forall i k l, In (Continue i) elems -> In (Continue k) elems -> In (Continue l) elems ->
    clear_of_line prec emax (fpos (gv i)) (fpos (gv k)) (fpos (gv l)).

(** C47: when no vertex is nearly on the line through two others, up to four units of rounding [2^-53], without being exactly on it, a run on [f64]
    vertices is the run on their exact positions, whatever the coordinates are. *)
Theorem C47_f64 {I E Out Mt} (F : fan_format I E Out Mt) ieqb (gv : I -> coords spec_float) dbg fuel math_n shuf elems :
  spread 53 1024 (-510) 509 gv elems -> all_clear 53 1024 gv elems ->
  triangulate (OC := f64) F ieqb gv dbg fuel math_n shuf elems = triangulate F ieqb (fun i => fpos (gv i)) dbg fuel math_n shuf elems.
Proof. intros (H1 & H2) H3. apply (line_run 53 1024 ltac:(lia) ltac:(lia) 509 (-510)); unfold SpecFloat.emin; try lia; auto. Qed.

Theorem C47_f32 {I E Out Mt} (F : fan_format I E Out Mt) ieqb (gv : I -> coords spec_float) dbg fuel math_n shuf elems :
  spread 24 128 (-62) 61 gv elems -> all_clear 24 128 gv elems ->
  triangulate (OC := f32) F ieqb gv dbg fuel math_n shuf elems = triangulate F ieqb (fun i => fpos (gv i)) dbg fuel math_n shuf elems.
Proof. intros (H1 & H2) H3. apply (line_run 24 128 ltac:(lia) ltac:(lia) 61 (-62)); unfold SpecFloat.emin; try lia; auto. Qed.

(** Coordinates on a grid too fine for C40: the differences are exact, only the products round. *)
Definition sharp {I} (prec : Z) (gv : I -> coords spec_float) (elems : list (element I)) : Prop :=
  forall i k l, In (Continue i) elems -> In (Continue k) elems -> In (Continue l) elems ->
    let (xi, yi) := fpos (gv i) in let (xk, yk) := fpos (gv k) in let (xl, yl) := fpos (gv l) in
    let p := ((xi - xk) * (yl - yk))%Q in let q := ((yi - yk) * (xl - xk))%Q in
    (p == q \/ 2 ^ (- prec) * (Qabs p + Qabs q) < Qabs (p - q))%Q.

Lemma multiple_spread {I} prec emax g lo hi (gv : I -> coords spec_float) elems : (1 < prec)%Z -> (lo <= g)%Z -> (g + prec - 1 <= hi)%Z ->
  all_coords (multiple prec emax g (2 ^ (prec - 1) - 1)) gv elems -> spread prec emax lo hi gv elems.
Proof.
  intros Hp Hl Hh H. pose proof (pow_pos_q g) as P. assert (Z1 : (0 < 2 ^ (prec - 1))%Z) by (apply Z.pow_pos_nonneg; lia). split.
  - assert (K : forall f, multiple prec emax g (2 ^ (prec - 1) - 1) f -> (valid_binary prec emax f = true /\ finite f) /\ (Qabs (fval f) <= 2 ^ hi)%Q).
    { intros f (F1 & F2 & n & F3 & F4). split; auto. rewrite F4, Qabs_Qmult, (Qabs_pos (2 ^ g)), abs_inject by lra.
      apply Qle_trans with (inject_Z (2 ^ (prec - 1)) * 2 ^ g)%Q; [apply Qmult_le_compat_r; [rewrite <- Zle_Qle; lia|lra]|].
      rewrite <- pow_split by lia. apply Qpower_le_compat_l; [lia|lra]. }
    intros i Hi. destruct (H i Hi). auto.
  - assert (K : forall f f', multiple prec emax g (2 ^ (prec - 1) - 1) f -> multiple prec emax g (2 ^ (prec - 1) - 1) f' -> (fval f == fval f' \/ 2 ^ lo <= Qabs (fval f - fval f'))%Q).
    { intros f f' (_ & _ & n & _ & F4) (_ & _ & n' & _ & F4'). destruct (Z.eq_dec n n') as [->|N]; [left; rewrite F4, F4'; reflexivity|right].
      assert (E : (fval f - fval f' == inject_Z (n - n') * 2 ^ g)%Q) by (rewrite F4, F4'; unfold Zminus; rewrite inject_Z_plus, inject_Z_opp; ring).
      rewrite E, Qabs_Qmult, (Qabs_pos (2 ^ g)), abs_inject by lra. apply Qle_trans with (2 ^ g)%Q; [apply Qpower_le_compat_l; [lia|lra]|].
      assert (B : (1 <= inject_Z (Z.abs (n - n')))%Q) by (change 1%Q with (inject_Z 1); rewrite <- Zle_Qle; lia). rewrite <- (Qmult_1_l (2 ^ g)) at 1. apply Qmult_le_compat_r; lra. }
    intros i k Hi Hk. destruct (H i Hi), (H k Hk). unfold fpos. auto.
Qed.

Lemma multiple_rep prec emax g f f' : (1 < prec)%Z -> (SpecFloat.emin prec emax <= g)%Z -> (g + prec <= emax)%Z ->
  multiple prec emax g (2 ^ (prec - 1) - 1) f -> multiple prec emax g (2 ^ (prec - 1) - 1) f' -> representable prec emax (fval f - fval f').
Proof.
  intros Hp H1 H2 (F1 & F2 & n & F3 & F4) (G1 & G2 & n' & G3 & G4). assert (Z2 : (2 ^ prec = 2 * 2 ^ (prec - 1))%Z) by (rewrite <- Z.pow_succ_r by lia; f_equal; lia).
  assert (Z1 : (0 < 2 ^ (prec - 1))%Z) by (apply Z.pow_pos_nonneg; lia).
  assert (K : grid prec emax g (SFsub prec emax f f') (n - n')).
  { apply grid_sub; try lia; apply val_grid; auto; lia. }
  exists (SFsub prec emax f f'). assert (E : (fval f - fval f' == inject_Z (n - n') * 2 ^ g)%Q) by (rewrite F4, G4; unfold Zminus; rewrite inject_Z_plus, inject_Z_opp; ring). rewrite E.
  destruct (SFsub prec emax f f') as [s|s| |s m e]; cbn [grid] in K; try contradiction.
  - rewrite K. split; [split; reflexivity || exact Logic.I|]. cbn [fval]. change (inject_Z 0) with 0%Q. ring.
  - destruct K as (K1 & K2 & K3). split; [split; [exact K1|exact Logic.I]|]. cbn [fval]. rewrite K3, inject_Z_mult.
    assert (X : (2 ^ g == inject_Z (2 ^ (g - e)) * 2 ^ e)%Q) by (rewrite <- pow_split by lia; replace (e + (g - e))%Z with g by lia; reflexivity). rewrite X. ring.
Qed.

Lemma multiple_clear {I} prec emax g (gv : I -> coords spec_float) elems : (1 < prec)%Z -> (SpecFloat.emin prec emax <= g)%Z -> (g + prec <= emax)%Z ->
  all_coords (multiple prec emax g (2 ^ (prec - 1) - 1)) gv elems -> sharp prec gv elems -> all_clear prec emax gv elems.
Proof.
  intros Hp H1 H2 H HS i k l Hi Hk Hl _ _. right. specialize (HS i k l Hi Hk Hl). destruct (H i Hi), (H k Hk), (H l Hl). unfold fpos in *. cbn [fst snd].
  split; [exact HS|]. repeat split; eapply multiple_rep; eauto.
Qed.

(** C47: vertices whose coordinates are multiples [n * 2^g] with [|n| < 2^52], any number of them on a line: it is enough that the other determinants
    exceed one unit of rounding. *)
Theorem C47_f64_grid {I E Out Mt} (F : fan_format I E Out Mt) ieqb (gv : I -> coords spec_float) dbg fuel math_n shuf elems g :
  (-510 <= g <= 457)%Z -> all_coords (multiple 53 1024 g (2 ^ 52 - 1)) gv elems -> sharp 53 gv elems ->
  triangulate (OC := f64) F ieqb gv dbg fuel math_n shuf elems = triangulate F ieqb (fun i => fpos (gv i)) dbg fuel math_n shuf elems.
Proof.
  intros Hg H HS. apply C47_f64; [apply (multiple_spread 53 1024 g); auto; lia|apply (multiple_clear 53 1024 g); unfold SpecFloat.emin; auto; lia].
Qed.

Theorem C47_f32_grid {I E Out Mt} (F : fan_format I E Out Mt) ieqb (gv : I -> coords spec_float) dbg fuel math_n shuf elems g :
  (-62 <= g <= 38)%Z -> all_coords (multiple 24 128 g (2 ^ 23 - 1)) gv elems -> sharp 24 gv elems ->
  triangulate (OC := f32) F ieqb gv dbg fuel math_n shuf elems = triangulate F ieqb (fun i => fpos (gv i)) dbg fuel math_n shuf elems.
Proof.
  intros Hg H HS. apply C47_f32; [apply (multiple_spread 24 128 g); auto; lia|apply (multiple_clear 24 128 g); unfold SpecFloat.emin; auto; lia].
Qed.

(** C47: valid polygons of this kind are triangulated. *)
Theorem C47_f64_triangulates {I} (gv : I -> coords spec_float) ieqb dbg math_n shuf (elems : list (element I)) :
  (forall a b, ieqb a b = true <-> a = b) -> (forall k n, Permutation (shuf k n) (seq 0 n)) ->
  spread 53 1024 (-510) 509 gv elems -> all_clear 53 1024 gv elems ->
  let pos i := fpos (gv i) in
  let ps := map (map pos) (groups elems) in
  valid ps -> ps <> [] ->
  exists T, f64_returns gv ieqb dbg math_n shuf elems T /\ tiles ps (map (tri_pos pos) T) /\ (sumq (area2 pos) T == interior2 ps)%Q /\
    forall a b c, In (a, b, c) T -> (0 <= cross (pos a) (pos b) (pos c))%Q.
Proof.
  intros Hi Hs Hg H pos ps HV Hp. destruct (C01_returns pos ieqb dbg math_n shuf Hi Hs elems HV Hp) as (T & HT). exists T.
  repeat split.
  - destruct HT as (fuel & HT). exists fuel. rewrite (C47_f64 _ ieqb gv dbg fuel math_n shuf elems Hg H). exact HT.
  - exact (C03_tiles pos ieqb dbg math_n shuf Hi Hs elems HV Hp T HT).
  - exact (C02_area pos ieqb dbg math_n shuf Hi Hs elems HV Hp T HT).
  - intros a b c Hin. exact (proj2 (proj2 (proj2 (C04_returned pos ieqb dbg math_n shuf Hi Hs elems HV Hp T a b c HT Hin)))).
Qed.

(** A pentagon with a dent, with the floats nearest to 0.1, 0.2 and so on as coordinates; their products are not floats. *)
Definition dent : list (coords spec_float) := [(f01, f02); (f08, f01); (f06, f04); (f04, f08); (f03, f03)].

Definition spreadb (prec emax lo hi : Z) (l : list (coords spec_float)) : bool :=
  forallb (fun c => forallb (fun f => valid_binary prec emax f && match f with S754_zero _ | S754_finite _ _ _ => true | _ => false end && Qle_bool (Qabs (fval f)) (2 ^ hi)) [cx c; cy c]) l &&
  forallb (fun a => forallb (fun b => forallb (fun '(x, y) => Qeq_bool x y || Qle_bool (2 ^ lo) (Qabs (x - y)))%Q [(fst (fpos a), fst (fpos b)); (snd (fpos a), snd (fpos b))]) l) l.
Definition clearb (u : Q) (l : list (coords spec_float)) : bool :=
  forallb (fun a => forallb (fun b => forallb (fun c =>
    let '(xa, ya) := fpos a in let '(xb, yb) := fpos b in let '(xc, yc) := fpos c in
    let p := ((xa - xb) * (yc - yb))%Q in let q := ((ya - yb) * (xc - xb))%Q in
    Qeq_bool yc ya || Qeq_bool yc yb || (Qeq_bool p 0 && Qeq_bool q 0) || negb (Qle_bool (Qabs (p - q)) (4 * u * (Qabs p + Qabs q))))%Q l) l) l.

Lemma felems_in (l : list (coords spec_float)) i : In (Continue i) (felems l) -> In (fgv l i) l.
Proof. intros H. apply in_map_iff in H. destruct H as (j & E & Hj). injection E as <-. apply in_seq in Hj. apply nth_In. lia. Qed.

Lemma spreadb_all {I} (gv : I -> coords spec_float) elems prec emax lo hi l : (forall i, In (Continue i) elems -> In (gv i) l) -> spreadb prec emax lo hi l = true -> spread prec emax lo hi gv elems.
Proof.
  intros HI. unfold spreadb. rewrite andb_true_iff, !forallb_forall. intros (H1 & H2). split.
  - intros i Hi. specialize (H1 _ (HI i Hi)). rewrite forallb_forall in H1.
    split; [specialize (H1 (cx (gv i)) (or_introl eq_refl))|specialize (H1 (cy (gv i)) (or_intror (or_introl eq_refl)))];
      rewrite !andb_true_iff in H1; destruct H1 as ((A & B) & D); apply Qle_bool_imp_le in D; repeat split; auto; [destruct (cx (gv i))|destruct (cy (gv i))]; try discriminate; exact Logic.I.
  - intros i k Hi Hk. specialize (H2 _ (HI i Hi)). rewrite forallb_forall in H2. specialize (H2 _ (HI k Hk)). cbn [forallb fpos fst snd] in H2.
    rewrite !andb_true_iff, !orb_true_iff in H2. destruct H2 as (A & B & _). unfold fpos. split; [destruct A as [A|A]|destruct B as [B|B]]; auto using Qeq_bool_eq, Qle_bool_imp_le.
Qed.

Lemma clearb_all {I} (gv : I -> coords spec_float) elems prec emax l : (forall i, In (Continue i) elems -> In (gv i) l) -> clearb (2 ^ (- prec)) l = true -> all_clear prec emax gv elems.
Proof.
  intros HI H i k m Hi Hk Hm. unfold clearb in H. rewrite forallb_forall in H. specialize (H _ (HI i Hi)). rewrite forallb_forall in H. specialize (H _ (HI k Hk)). rewrite forallb_forall in H.
  specialize (H _ (HI m Hm)). unfold fpos in *. unfold clear_of_line. cbn [fst snd] in *. intros N1 N2. left. rewrite !orb_true_iff, andb_true_iff, negb_true_iff in H. destruct H as [[[H|H]|(H & H')]|H].
  - elim N1. now apply Qeq_bool_eq.
  - elim N2. now apply Qeq_bool_eq.
  - left. split; now apply Qeq_bool_eq.
  - right. apply Qnot_le_lt. intros L. apply Qle_bool_iff in L. congruence.
Qed.

Lemma spreadb_ok prec emax lo hi l : spreadb prec emax lo hi l = true -> spread prec emax lo hi (fgv l) (felems l).
Proof. apply spreadb_all. apply felems_in. Qed.
Lemma clearb_ok prec emax l : clearb (2 ^ (- prec)) l = true -> all_clear prec emax (fgv l) (felems l).
Proof. apply clearb_all. apply felems_in. Qed.

Example C47_hyp : spread 53 1024 (-510) 509 (fgv dent) (felems dent) /\ all_clear 53 1024 (fgv dent) (felems dent) /\ valid (exact dent).
Proof. split; [apply spreadb_ok; vm_compute; reflexivity|split; [apply clearb_ok; vm_compute; reflexivity|apply validb_valid; vm_compute; reflexivity]]. Qed.

Example C47_case : exists T, f64_returns (fgv dent) Nat.eqb true never in_order (felems dent) T /\ length T = 3.
Proof. eexists. split; [exists 100; vm_compute; reflexivity|reflexivity]. Qed.

(** Whole numbers beyond the reach of C40: the first three vertices are on a slanted line, and the products of the differences are not floats. *)
Definition whole (z : Z) : spec_float := binary_normalize 53 1024 z 0 false.
Definition slant_at : list (Z * Z) := map (fun '(x, y) => (x * 70368744177665, y * 70368744177667)%Z) [(0, 0); (3, 1); (6, 2); (4, 5); (0, 4)]%Z.
Definition slant : list (coords spec_float) := map (fun '(x, y) => (whole x, whole y)) slant_at.

Definition sharpb (prec : Z) (l : list (coords spec_float)) : bool :=
  forallb (fun a => forallb (fun b => forallb (fun c =>
    let '(xa, ya) := fpos a in let '(xb, yb) := fpos b in let '(xc, yc) := fpos c in
    let p := ((xa - xb) * (yc - yb))%Q in let q := ((ya - yb) * (xc - xb))%Q in
    Qeq_bool p q || negb (Qle_bool (Qabs (p - q)) (2 ^ (- prec) * (Qabs p + Qabs q))))%Q l) l) l.

Lemma sharpb_ok prec l : sharpb prec l = true -> sharp prec (fgv l) (felems l).
Proof.
  intros H i k m Hi Hk Hm. unfold sharpb in H. rewrite forallb_forall in H. specialize (H _ (felems_in l i Hi)). rewrite forallb_forall in H. specialize (H _ (felems_in l k Hk)). rewrite forallb_forall in H.
  specialize (H _ (felems_in l m Hm)). unfold fpos in *. rewrite orb_true_iff, negb_true_iff in H. destruct H as [H|H]; [left; now apply Qeq_bool_eq|right].
  apply Qnot_le_lt. intros L. apply Qle_bool_iff in L. congruence.
Qed.

Example C47_grid_hyp : all_coords (multiple 53 1024 0 (2 ^ 52 - 1)) (fgv slant) (felems slant) /\ sharp 53 (fgv slant) (felems slant) /\ valid (exact slant).
Proof.
  split; [|split; [apply sharpb_ok; vm_compute; reflexivity|apply validb_valid; vm_compute; reflexivity]].
  intros i Hi. apply in_map_iff in Hi. destruct Hi as (j & E & Hj). injection E as <-.
  assert (K : forall f n, valid_binary 53 1024 f = true -> finite f -> (Z.abs n <= 2 ^ 52 - 1)%Z -> Qeq_bool (fval f) (inject_Z n * 2 ^ 0) = true -> multiple 53 1024 0 (2 ^ 52 - 1) f).
  { intros f n H1 H2 H3 H4. split; auto. split; auto. exists n. split; auto. now apply Qeq_bool_eq. }
  cbn in Hj. repeat (destruct Hj as [<-|Hj]; [split;
    (match goal with |- multiple _ _ _ _ (cx (fgv slant ?j)) => apply (K _ (fst (nth j slant_at (0, 0)%Z)))
     | |- multiple _ _ _ _ (cy (fgv slant ?j)) => apply (K _ (snd (nth j slant_at (0, 0)%Z))) end;
    [vm_compute; reflexivity|vm_compute; exact Logic.I|apply Zle_bool_imp_le; vm_compute; reflexivity|vm_compute; reflexivity])|]).
  elim Hj.
Qed.

Example C47_grid_case : exists T, f64_returns (fgv slant) Nat.eqb true never in_order (felems slant) T /\ length T = 3.
Proof. eexists. split; [exists 100; vm_compute; reflexivity|reflexivity]. Qed.

(** ** C41: what fails when the arithmetic rounds *)

(** C41: there is a triangle of [f64] vertices, valid as a polygon with its exact positions, that every run refuses: whatever the insertion order, the
    relocations, the builder and the build profile, the result is an internal error. *)
Theorem C41_success_refuted : exists (l : list (coords spec_float)), valid (exact l) /\ length l = 3 /\
  (forall c, In c l -> valid_binary 53 1024 (cx c) = true /\ valid_binary 53 1024 (cy c) = true) /\
  forall E Out Mt (F : fan_format nat E Out Mt) dbg math_n shuf, (forall k n, Permutation (shuf k n) (seq 0 n)) ->
    exists e x, (e = TEInternal x \/ e = TETrapezoidation (TrapInternal x)) /\
      forall fuel, 60 <= fuel -> triangulate (OC := f64) F Nat.eqb (fgv l) dbg fuel math_n shuf (felems l) = Returned (inr e) (ff_dropped F).
Proof.
  exists thin. split; [exact thin_valid|split; [reflexivity|split]].
  - intros c Hc. cbn in Hc. repeat (destruct Hc as [<-|Hc]; [split; vm_compute; reflexivity|]). elim Hc.
  - intros E Out Mt F dbg math_n shuf Hs. destruct (thin_errs F dbg math_n shuf Hs) as (e & (x & He) & H). eauto.
Qed.

(** C41: there is a valid triangle of [f64] vertices for which [Ok] is returned with a clockwise triple, although counterclockwise ones are asked for. *)
Theorem C41_winding_refuted : exists (l : list (coords spec_float)) a b c, valid (exact l) /\
  f64_returns (fgv l) Nat.eqb true never in_order (felems l) [(a, b, c)] /\ (cross (fpos (fgv l a)) (fpos (fgv l b)) (fpos (fgv l c)) < 0)%Q.
Proof.
  exists bent, 1, 0, 2. split; [exact bent_valid|split; [|vm_compute; reflexivity]]. exists 60. vm_compute. reflexivity.
Qed.

(** C41: for the same triangle, another insertion order gives an error: the outcome depends on the random order. *)
Theorem C41_order_refuted : exists (l : list (coords spec_float)) T e, valid (exact l) /\
  f64_returns (fgv l) Nat.eqb true never in_order (felems l) T /\
  exists m, triangulate (OC := f64) (fan_to_list (indexed_list (vec_triples nat) [])) Nat.eqb (fgv l) true 60 never backwards (felems l) = Returned (inr (TEInternal e)) m.
Proof.
  exists bent, [(1, 0, 2)], IE_EmptyStack. split; [exact bent_valid|split; [exists 60; vm_compute; reflexivity|]]. eexists. vm_compute. reflexivity.
Qed.

(** C41: there is a valid quadrilateral of [f64] vertices on which the run does not end, with any builder and in either build profile. *)
Theorem C41_termination_refuted : exists (l : list (coords spec_float)), valid (exact l) /\ length l = 4 /\
  forall E Out Mt (F : fan_format nat E Out Mt) dbg fuel, triangulate (OC := f64) F Nat.eqb (fgv l) dbg fuel never in_order (felems l) = Crashed Fuel.
Proof. exists line. split; [exact line_valid|split; [reflexivity|]]. intros. apply line_endless. Qed.

Print Assumptions C40_f64.
Print Assumptions C40_f32.
Print Assumptions C40_f64_triangulates.
Print Assumptions C47_f64.
Print Assumptions C47_f32.
Print Assumptions C47_f64_grid.
Print Assumptions C47_f32_grid.
Print Assumptions C47_f64_triangulates.
Print Assumptions C41_success_refuted.
Print Assumptions C41_winding_refuted.
Print Assumptions C41_order_refuted.
Print Assumptions C41_termination_refuted.
