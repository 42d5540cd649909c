(** Rounding depends on the value only: products of equal value are rounded alike, so vertices exactly on a line are found to be on it. *)
From Coq Require Import ZArith QArith Qabs Qpower Lia Lqa List Bool.
From Coq.Floats Require Import SpecFloat.
From Verif Require Import Base Coord Trap Tri Plane SimFacts Float FloatRuns FloatErr.
Local Open Scope Z_scope.

Lemma shifted_same n k M r r' : 0 <= n -> 0 <= k -> shifted n M r -> shifted (n + k) (M * 2 ^ k) r' -> r' = r.
Proof.
  intros Hn Hk (rem & E & B & R & S) (rem' & E' & B' & R' & S'). assert (P : 0 < 2 ^ n) by (apply Z.pow_pos_nonneg; lia). assert (Pk : 0 < 2 ^ k) by (apply Z.pow_pos_nonneg; lia).
  rewrite Z.pow_add_r in E', B', R', S' by lia.
  assert (Em : shr_m r' = shr_m r /\ rem' = rem * 2 ^ k).
  { assert (K : shr_m r' * (2 ^ n * 2 ^ k) + rem' = shr_m r * (2 ^ n * 2 ^ k) + rem * 2 ^ k) by (rewrite <- E', E; ring).
    assert (B2 : 0 <= rem * 2 ^ k < 2 ^ n * 2 ^ k) by nia. set (w := 2 ^ n * 2 ^ k) in *. set (z := rem * 2 ^ k) in *. clearbody w z. assert (shr_m r' = shr_m r) by nia. split; auto. nia. }
  destruct Em as (Em & Er).
  assert (H1 : shr_r r' = shr_r r).
  { apply eq_true_iff_eq. rewrite R, R', Er. destruct (Z.eq_dec n 0) as [->|N0].
    - cbn in B. assert (rem = 0) by lia. subst rem. change (2 ^ 0) with 1. split; intros (K1 & K2); nia.
    - split; intros (K1 & K2); (split; [lia|nia]). }
  assert (H2 : shr_s r' = shr_s r). { apply eq_true_iff_eq. rewrite S, S', Er. split; intros (K1 & K2); split; nia. }
  destruct r, r'. cbn in *. congruence.
Qed.

Section Line.
Variables (prec emax : Z).
Hypothesis Hprec : 1 < prec.
Hypothesis Hemax : prec < emax.
Notation emin := (emin prec emax).
Notation fexp := (fexp prec emax).
Notation ok := (ok prec emax).

Lemma round_value sx m e m' k : 0 <= k -> Zpos m = Zpos m' * 2 ^ k ->
  e <= fexp (Zpos (digits2_pos m) + e) -> e + k <= fexp (Zpos (digits2_pos m') + (e + k)) ->
  binary_round_aux prec emax sx (Zpos m) e loc_Exact = binary_round_aux prec emax sx (Zpos m') (e + k) loc_Exact.
Proof.
  intros Hk Em He He'. pose proof (digits_mul m' m k Hk Em) as D. unfold binary_round_aux. unfold shr_fexp at 1 3. cbn [Zdigits2 shr_record_of_loc].
  replace (Zpos (digits2_pos m') + (e + k)) with (Zpos (digits2_pos m) + e) in * by lia. set (f := fexp (Zpos (digits2_pos m) + e)) in *.
  pose proof (shifted_shr (Zpos m) e (f - e) ltac:(lia) ltac:(lia)) as A. pose proof (shifted_shr (Zpos m') (e + k) (f - (e + k)) ltac:(lia) ltac:(lia)) as B.
  destruct (shr _ e (f - e)) as (r & e1), (shr _ (e + k) (f - (e + k))) as (r' & e2). destruct A as (A & _ & ->), B as (B & _ & ->).
  assert (r = r') as ->. { apply (shifted_same (f - (e + k)) k (Zpos m')); try lia; auto. rewrite <- Em. now replace (f - (e + k) + k) with (f - e) by lia. }
  replace (e + (f - e)) with f by lia. replace (e + k + (f - (e + k))) with f by lia. reflexivity.
Qed.

Lemma mul_fexp sx mx ex sy my ey : ok (S754_finite sx mx ex) -> ok (S754_finite sy my ey) -> ex + ey <= fexp (Zpos (digits2_pos (mx * my)) + (ex + ey)).
Proof.
  intros (Vx & _) (Vy & _). cbn [valid_binary] in Vx, Vy. apply bounded_spec in Vx, Vy; auto. destruct (digits_prod mx my) as (D1 & D2). unfold SpecFloat.fexp, SpecFloat.emin in *. lia.
Qed.

Lemma fval_mul sx mx ex sy my ey : (fval (S754_finite sx mx ex) * fval (S754_finite sy my ey) == inject_Z (cond_Zopp (xorb sx sy) (Zpos (mx * my))) * 2 ^ (ex + ey))%Q.
Proof. cbn [fval]. rewrite Qpower_plus by discriminate. rewrite Pos2Z.inj_mul. destruct sx, sy; cbn [cond_Zopp xorb]; rewrite ?inject_Z_opp, ?inject_Z_mult; ring. Qed.

Lemma fval_zero x : ok x -> (fval x == 0)%Q -> exists s, x = S754_zero s.
Proof.
  intros (_ & F) E. destruct x as [s|s| |s m e]; cbn in F; try contradiction; eauto. exfalso. cbn [fval] in E. pose proof (pow_pos_q e). apply Qmult_integral in E.
  destruct E as [E|E]; [|lra]. destruct s; cbn in E; discriminate.
Qed.

(** Products of the same value have the same rounded value. *)
Lemma mul_value x y x' y' : ok x -> ok y -> ok x' -> ok y' -> (fval x * fval y == fval x' * fval y')%Q -> (fval (SFmul prec emax x y) == fval (SFmul prec emax x' y'))%Q.
Proof.
  intros Ox Oy Ox' Oy' E.
  assert (Z : forall x y, ok x -> ok y -> (fval x * fval y == 0)%Q -> (fval (SFmul prec emax x y) == 0)%Q).
  { clear. intros x y Ox Oy E. apply Qmult_integral in E. destruct E as [E|E].
    - destruct (fval_zero x Ox E) as (s & ->). destruct Oy as (_ & Fy). destruct y; cbn in Fy; try contradiction; reflexivity.
    - destruct (fval_zero y Oy E) as (s & ->). destruct Ox as (_ & Fx). destruct x; cbn in Fx; try contradiction; reflexivity. }
  destruct (Qeq_dec (fval x * fval y) 0) as [E0|N0]; [rewrite (Z x y), (Z x' y'); auto; [reflexivity|now rewrite <- E]|].
  assert (N1 : ~ (fval x' * fval y' == 0)%Q) by now rewrite <- E.
  destruct x as [s|s| |sx mx ex]; [exfalso; apply N0; cbn; ring|destruct (proj2 Ox)|destruct (proj2 Ox)|].
  destruct y as [s|s| |sy my ey]; [exfalso; apply N0; cbn; ring|destruct (proj2 Oy)|destruct (proj2 Oy)|].
  destruct x' as [s|s| |sx' mx' ex']; [exfalso; apply N1; cbn; ring|destruct (proj2 Ox')|destruct (proj2 Ox')|].
  destruct y' as [s|s| |sy' my' ey']; [exfalso; apply N1; cbn; ring|destruct (proj2 Oy')|destruct (proj2 Oy')|].
  pose proof (mul_fexp _ _ _ _ _ _ Ox Oy) as G. pose proof (mul_fexp _ _ _ _ _ _ Ox' Oy') as G'. rewrite !fval_mul in E. cbn [SFmul].
  set (m := (mx * my)%positive) in *. set (m' := (mx' * my')%positive) in *. set (e := ex + ey) in *. set (e' := ex' + ey') in *. set (s := xorb sx sy) in *. set (s' := xorb sx' sy') in *. clearbody m m' e e' s s'. clear - E G G' Hprec Hemax.
  assert (W : forall s s' m m' e e', e <= e' -> (inject_Z (cond_Zopp s (Zpos m)) * 2 ^ e == inject_Z (cond_Zopp s' (Zpos m')) * 2 ^ e')%Q ->
    e <= fexp (Zpos (digits2_pos m) + e) -> e' <= fexp (Zpos (digits2_pos m') + e') ->
    binary_round_aux prec emax s (Zpos m) e loc_Exact = binary_round_aux prec emax s' (Zpos m') e' loc_Exact).
  { clear - Hprec Hemax. intros s s' m m' e e' L E G G'. assert (X : (2 ^ e' == inject_Z (2 ^ (e' - e)) * 2 ^ e)%Q) by (rewrite <- pow_split by lia; replace (e + (e' - e)) with e' by lia; reflexivity).
    rewrite X in E. assert (P : (0 < 2 ^ e)%Q) by apply pow_pos_q. assert (E2 : (inject_Z (cond_Zopp s (Zpos m)) == inject_Z (cond_Zopp s' (Zpos m') * 2 ^ (e' - e)))%Q).
    { rewrite inject_Z_mult. apply (Qmult_inj_r _ _ (2 ^ e)); [lra|]. rewrite E. ring. }
    apply inject_inj in E2. assert (Pz : 0 < 2 ^ (e' - e)) by (apply Z.pow_pos_nonneg; lia).
    assert (s = s' /\ Zpos m = Zpos m' * 2 ^ (e' - e)) as (-> & Em) by (destruct s, s'; cbn [cond_Zopp] in E2; split; auto; nia).
    replace e' with (e + (e' - e)) in * by lia. replace (e + (e' - e) - e) with (e' - e) in * by lia. apply round_value; auto; lia. }
  destruct (Z.le_ge_cases e e') as [L|L]; [rewrite (W s s' m m' e e'); auto; reflexivity|rewrite (W s' s m' m e' e); auto; [reflexivity|symmetry; exact E]].
Qed.

(** A difference that is a float of the format is computed exactly. *)
Lemma sub_exact x y f : ok x -> ok y -> ok f -> (fval f == fval x - fval y)%Q -> (fval (SFsub prec emax x y) == fval f)%Q.
Proof.
  intros Ox Oy Of E. rewrite E. destruct Ox as (Vx & Fx), Oy as (Vy & Fy).
  destruct x as [sx|sx| |sx mx ex], y as [sy|sy| |sy my ey]; cbn [finite] in Fx, Fy; try contradiction; cbn [SFsub].
  - destruct (Bool.eqb sx (negb sy)); reflexivity.
  - cbn [fval]. destruct sy; cbn [negb cond_Zopp]; rewrite ?inject_Z_opp; ring.
  - cbn [fval]. ring.
  - cbn [valid_binary] in Vx, Vy. apply bounded_spec in Vx, Vy; auto. set (ez := Z.min ex ey). destruct (align_val mx ex ez) as (V1 & _); [lia|]. destruct (align_val my ey ez) as (V2 & _); [lia|].
    assert (Hez : (emin <= ez)%Z) by (unfold SpecFloat.fexp in *; lia).
    set (z := (cond_Zopp sx (Zpos (fst (shl_align mx ex ez))) - cond_Zopp sy (Zpos (fst (shl_align my ey ez))))%Z).
    assert (Ez : (fval (S754_finite sx mx ex) - fval (S754_finite sy my ey) == inject_Z z * 2 ^ ez)%Q).
    { assert (X : (2 ^ ex == inject_Z (2 ^ (ex - ez)) * 2 ^ ez)%Q) by (rewrite <- pow_split by lia; replace (ez + (ex - ez))%Z with ex by lia; reflexivity). assert (Y : (2 ^ ey == inject_Z (2 ^ (ey - ez)) * 2 ^ ez)%Q) by (rewrite <- pow_split by lia; replace (ez + (ey - ez))%Z with ey by lia; reflexivity).
      cbn [fval]. rewrite X, Y. unfold z. rewrite V1, V2. unfold Zminus. rewrite inject_Z_plus, inject_Z_opp.
      destruct sx, sy; cbn [cond_Zopp]; rewrite ?inject_Z_opp, ?inject_Z_mult; ring. }
    rewrite Ez in E |- *. clear Ez V1 V2. clearbody z.
    assert (K : exists n k, z = n * 2 ^ k /\ 0 <= k /\ Z.abs n < 2 ^ prec /\ emin <= ez + k /\ ez + k + prec <= emax).
    { destruct Of as (Vf & Ff). destruct f as [sf|sf| |sf mf ef]; cbn [finite] in Ff; try contradiction.
      - exists 0, 0. assert (z = 0). { cbn [fval] in E. symmetry in E. apply Qmult_integral in E. destruct E as [E|E]; [change 0%Q with (inject_Z 0) in E; now apply inject_inj in E|pose proof (pow_pos_q ez); lra]. }
        assert (0 < 2 ^ prec) by (apply Z.pow_pos_nonneg; lia). subst z. repeat split; lia.
      - cbn [valid_binary] in Vf. apply bounded_spec in Vf; auto. destruct (digits_bound mf) as (_ & Db).
        assert (Df : Zpos (digits2_pos mf) <= prec) by (unfold SpecFloat.fexp in *; lia).
        assert (Mf : Zpos mf < 2 ^ prec) by (eapply Z.lt_le_trans; [exact Db|apply Z.pow_le_mono_r; lia]).
        cbn [fval] in E. assert (Pz : (0 < 2 ^ ez)%Q) by apply pow_pos_q. assert (Pf : (0 < 2 ^ ef)%Q) by apply pow_pos_q.
        destruct (Z.le_ge_cases ez ef) as [L|L].
        + exists (cond_Zopp sf (Zpos mf)), (ef - ez). assert (X : (2 ^ ef == inject_Z (2 ^ (ef - ez)) * 2 ^ ez)%Q) by (rewrite <- pow_split by lia; replace (ez + (ef - ez))%Z with ef by lia; reflexivity).
          rewrite X in E. assert (E2 : (inject_Z (cond_Zopp sf (Zpos mf) * 2 ^ (ef - ez)) == inject_Z z)%Q). { rewrite inject_Z_mult. apply (Qmult_inj_r _ _ (2 ^ ez)); [lra|]. rewrite <- E. ring. }
          apply inject_inj in E2. split; [lia|]. split; [lia|]. split; [now rewrite cond_abs|]. unfold SpecFloat.fexp, SpecFloat.emin in *. lia.
        + exists z, 0. assert (X : (2 ^ ez == inject_Z (2 ^ (ez - ef)) * 2 ^ ef)%Q) by (rewrite <- pow_split by lia; replace (ef + (ez - ef))%Z with ez by lia; reflexivity).
          rewrite X in E. assert (E2 : (inject_Z (cond_Zopp sf (Zpos mf)) == inject_Z (z * 2 ^ (ez - ef)))%Q). { rewrite inject_Z_mult. apply (Qmult_inj_r _ _ (2 ^ ef)); [lra|]. rewrite E. ring. }
          apply inject_inj in E2. assert (Pp : 0 < 2 ^ (ez - ef)) by (apply Z.pow_pos_nonneg; lia). assert (A : Zpos mf = Z.abs z * 2 ^ (ez - ef)) by (destruct sf; cbn [cond_Zopp] in E2; nia).
          split; [lia|]. split; [lia|]. split; [nia|]. unfold SpecFloat.fexp, SpecFloat.emin in *. lia. }
    destruct K as (n & k & K1 & K2 & K3 & K4 & K5). pose proof (normalize_grid prec emax Hprec z ez n k false K1 K2 K3 K4 K5) as N.
    assert (GV : forall g f n, grid prec emax g f n -> (fval f == inject_Z n * 2 ^ g)%Q).
    { clear. intros g f n H. destruct f as [s|s| |s m e]; cbn [grid] in H; try contradiction; [subst; reflexivity|]. destruct H as (_ & L & E). cbn [fval]. rewrite E, inject_Z_mult.
      assert (X : (2 ^ g == inject_Z (2 ^ (g - e)) * 2 ^ e)%Q) by (rewrite <- pow_split by lia; replace (e + (g - e))%Z with g by lia; reflexivity). rewrite X. ring. }
    apply GV in N. rewrite N, K1, inject_Z_mult. rewrite pow_split by lia. ring.
Qed.
(** [v] is the value of a float of the format. *)
Definition is_float (v : Q) : Prop := exists f, ok f /\ (fval f == v)%Q.

Variables (a b : Z).
Hypothesis Ha : (2 * a + 4 <= emax - 1)%Z.
Hypothesis Ha0 : (a + 2 <= emax - 1)%Z.
Hypothesis Hb : (emin + prec - 1 <= 2 * b - 2)%Z.
Notation coord := (coord prec emax a).
Notation apart := (apart b).
Notation u := (unit_err prec).
Local Open Scope Q_scope.

(** With exact differences only the two products are rounded. *)
Lemma prod_exact x y x' y' : coord x -> coord y -> apart x y -> coord x' -> coord y' -> apart x' y' -> is_float (fval x - fval y) -> is_float (fval x' - fval y') ->
  let v := (fval x - fval y) * (fval x' - fval y') in Qabs (fval (SFmul prec emax (SFsub prec emax x y) (SFsub prec emax x' y')) - v) <= u * Qabs v.
Proof.
  intros H1 H2 H3 H1' H2' H3' (f & F1 & F2) (f' & F1' & F2') v.
  destruct (diff prec emax Hprec Hemax a b Ha0 x y H1 H2 H3) as (A1 & _ & A3 & A4). destruct (diff prec emax Hprec Hemax a b Ha0 x' y' H1' H2' H3') as (B1 & _ & B3 & B4).
  assert (E : fval (SFsub prec emax x y) == fval x - fval y) by (rewrite <- F2; apply sub_exact; auto; apply H1 || apply H2). assert (E' : fval (SFsub prec emax x' y') == fval x' - fval y') by (rewrite <- F2'; apply sub_exact; auto; apply H1' || apply H2').
  assert (Ev : v == fval (SFsub prec emax x y) * fval (SFsub prec emax x' y')) by (unfold v; rewrite E, E'; reflexivity). rewrite Ev.
  set (p := SFsub prec emax x y) in *. set (q := SFsub prec emax x' y') in *. pose proof (pow_pos_q (a + 2)) as Pa. pose proof (pow_pos_q (b - 1)) as Pb.
  destruct (mul_err prec emax Hprec Hemax p q A1 B1) as (K1 & K2); auto.
  - rewrite Qabs_Qmult. apply Qlt_le_trans with (2 ^ (a + 2) * 2 ^ (a + 2)).
    + pose proof (Qabs_nonneg (fval p)). pose proof (Qabs_nonneg (fval q)). set (P := Qabs (fval p)) in *. set (Q := Qabs (fval q)) in *. set (Z := 2 ^ (a + 2)) in *. clearbody P Q Z. nra.
    + rewrite <- Qpower_plus by discriminate. apply Qpower_le_compat_l; [lia|lra].
  - destruct A4 as [A4|A4]; [left; rewrite A4; ring|]. destruct B4 as [B4|B4]; [left; rewrite B4; ring|]. right. rewrite Qabs_Qmult. apply Qle_trans with (2 ^ (b - 1) * 2 ^ (b - 1)); [|apply Qmult_le_compat_nonneg; lra].
    rewrite <- Qpower_plus by discriminate. apply Qpower_le_compat_l; [lia|lra].
Qed.

Lemma exact_cmp P Q p q : u * (Qabs P + Qabs Q) < Qabs (P - Q) -> Qabs (p - P) <= u * Qabs P -> Qabs (q - Q) <= u * Qabs Q -> Qltb p q = Qltb P Q.
Proof.
  intros HC Hp Hq. apply eq_true_iff_eq. rewrite !Qltb_spec. apply abs_le in Hp. apply abs_le in Hq. rewrite Qmult_plus_distr_r in HC. destruct (Qlt_le_dec P Q) as [L|L].
  - assert (X : P - Q <= 0) by lra. apply Qabs_neg in X. split; intros; lra.
  - assert (X : 0 <= P - Q) by lra. apply Qabs_pos in X. split; intros; lra.
Qed.

Theorem line_run {J E Out Mt} (F : fan_format J E Out Mt) ieqb (gv : J -> coords spec_float) dbg fuel math_n shuf elems :
  (forall i, In (Continue i) elems -> coord (cx (gv i)) /\ coord (cy (gv i))) ->
  (forall i k, In (Continue i) elems -> In (Continue k) elems -> apart (cx (gv i)) (cx (gv k)) /\ apart (cy (gv i)) (cy (gv k))) ->
  (forall i k l, In (Continue i) elems -> In (Continue k) elems -> In (Continue l) elems -> let X j := fval (cx (gv j)) in let Y j := fval (cy (gv j)) in
     ~ Y l == Y i -> ~ Y l == Y k -> let P := (X i - X k) * (Y l - Y k) in let Q := (Y i - Y k) * (X l - X k) in
     clear prec P Q \/ ((P == Q \/ u * (Qabs P + Qabs Q) < Qabs (P - Q)) /\ is_float (X i - X k) /\ is_float (Y l - Y k) /\ is_float (Y i - Y k) /\ is_float (X l - X k))) ->
  triangulate (OC := FOps prec emax) F ieqb gv dbg fuel math_n shuf elems = triangulate F ieqb (fun i => fpos (gv i)) dbg fuel math_n shuf elems.
Proof.
  intros Hc Hap Hcl. assert (Ho : forall i, In (Continue i) elems -> ok (cx (gv i)) /\ ok (cy (gv i))) by (intros i Hi; destruct (Hc i Hi) as ((A & _) & (B & _)); auto).
  apply (@other_coords Q spec_float J QOps (FOps prec emax)).
  - intros i k Hi Hk. destruct (Ho i Hi), (Ho k Hk). unfold coords_pcmp, fpos. cbn [cx cy fst snd c_pcmp QOps FOps]. rewrite !(cmp_val prec emax); auto.
  - intros i k l Hi Hk Hl. destruct (Ho i Hi), (Ho k Hk), (Ho l Hl). unfold is_left, fpos. cbn [cx cy fst snd c_eqb c_ltb c_sub c_mul QOps FOps].
    rewrite !(eqb_val prec emax), !(ltb_val prec emax) by auto. destruct (Qeq_bool _ _) eqn:E1; auto. destruct (Qeq_bool _ _) eqn:E2 in |- *; auto. apply Qeq_bool_neq in E1, E2.
    destruct (Hc i Hi), (Hc k Hk), (Hc l Hl). destruct (Hap i k Hi Hk), (Hap l k Hl Hk).
    edestruct (prod_err prec emax Hprec Hemax a b Ha Ha0 Hb (cx (gv i)) (cx (gv k)) (cy (gv l)) (cy (gv k))) as (R1 & R2); auto. edestruct (prod_err prec emax Hprec Hemax a b Ha Ha0 Hb (cy (gv i)) (cy (gv k)) (cx (gv l)) (cx (gv k))) as (S1 & S2); auto.
    rewrite (ltb_val prec emax) by auto. destruct (Hcl i k l Hi Hk Hl E2 E1) as [C|(C & F1 & F2 & F3 & F4)]; [apply (clear_cmp prec); auto|].
    destruct C as [C|C]; [|apply exact_cmp; auto; apply prod_exact; auto].
    assert (V : forall x y, ok x -> ok y -> is_float (fval x - fval y) -> fval (SFsub prec emax x y) == fval x - fval y) by (intros x y Hx Hy (f & K1 & K2); rewrite <- K2; now apply sub_exact).
    assert (M : fval (SFmul prec emax (SFsub prec emax (cx (gv i)) (cx (gv k))) (SFsub prec emax (cy (gv l)) (cy (gv k)))) == fval (SFmul prec emax (SFsub prec emax (cy (gv i)) (cy (gv k))) (SFsub prec emax (cx (gv l)) (cx (gv k))))).
    { apply mul_value; try (eapply (diff prec emax Hprec Hemax a b Ha0); auto; fail). rewrite !V; auto. }
    apply eq_true_iff_eq. rewrite !Qltb_spec. split; intros K; lra.
  - intros i k Hi Hk. destruct (Ho i Hi), (Ho k Hk). now apply (eqb_val prec emax).
  - intros i k Hi Hk. destruct (Ho i Hi), (Ho k Hk). now apply (eqb_val prec emax).
Qed.
End Line.
