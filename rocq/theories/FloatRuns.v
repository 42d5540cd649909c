(** Floating point coordinates on a grid: all tests are exact, so that the run is the one with exact coordinates. *)
From Coq Require Import ZArith QArith Qpower Lia Lqa List Bool.
From Coq.Floats Require Import SpecFloat.
From Verif Require Import Base Coord Trap Tri Plane SimFacts Float.
Local Open Scope Z_scope.

(** The position a vertex with float coordinates stands for. *)
Definition fpos (c : coords spec_float) : point := (fval (cx c), fval (cy c)).

(** ** From values to the grid *)

Lemma pow_pos_q e : (0 < 2 ^ e)%Q.
Proof. apply Qpower_0_lt. reflexivity. Qed.

Lemma pow_split e k : 0 <= k -> (2 ^ (e + k) == inject_Z (2 ^ k) * 2 ^ e)%Q.
Proof. intros H. rewrite Qpower_plus by discriminate. rewrite Zpower_Qpower by lia. change (inject_Z 2) with 2%Q. ring. Qed.

Lemma inject_inj a b : (inject_Z a == inject_Z b)%Q -> a = b.
Proof. intros H. now apply inject_Z_injective. Qed.

Section Grid.
Variables (prec emax g B : Z).
Hypothesis Hprec : 1 < prec.
Hypothesis Hemax : prec < emax.
Hypothesis Hg : emin prec emax <= g.
Hypothesis Hg' : g + prec <= emax.
Hypothesis Hg2 : emin prec emax <= 2 * g.
Hypothesis Hg2' : 2 * g + prec <= emax.
Hypothesis HB : 0 < B.
Hypothesis HB2 : 4 * (B * B) < 2 ^ prec.
Notation grid := (grid prec emax).

(** A finite float with an integer multiple of [2 ^ g] of absolute value at most [B * 2 ^ g] as value. *)
Definition on_grid (f : spec_float) : Prop :=
  valid_binary prec emax f = true /\ finite f /\ exists n, Z.abs n <= B /\ (fval f == inject_Z n * 2 ^ g)%Q.

Lemma val_grid f n : valid_binary prec emax f = true -> finite f -> Z.abs n < 2 ^ prec -> (fval f == inject_Z n * 2 ^ g)%Q -> grid g f n.
Proof.
  intros Hv Hf Hn E. destruct f as [s|s| |s m e]; cbn [finite] in Hf; try contradiction; cbn [fval Float.grid] in *.
  - assert (P := pow_pos_q g). apply inject_inj. change (inject_Z 0) with 0%Q. setoid_replace 0%Q with (0 * 2 ^ g)%Q in E by ring. apply Qmult_inj_r in E; [now symmetry|lra].
  - cbn [valid_binary] in Hv. split; auto. pose proof Hv as Hb. apply bounded_spec in Hb; auto. destruct Hb as (Hb & _).
    assert (Hle : e <= g).
    { destruct (Z.le_gt_cases e g) as [H|H]; auto. exfalso. replace e with (g + (e - g)) in E by lia. rewrite pow_split, Qmult_assoc, <- inject_Z_mult in E by lia.
      apply Qmult_inj_r in E; [|pose proof (pow_pos_q g); lra]. apply inject_inj in E.
      assert (D : Zpos (digits2_pos m) = prec) by (unfold fexp in Hb; lia). destruct (digits_bound m) as (D1 & _). rewrite D in D1.
      replace (e - g) with (1 + (e - g - 1)) in E by lia. rewrite Z.pow_add_r, Z.pow_1_r in E by lia. assert (0 < 2 ^ (e - g - 1)) by (apply Z.pow_pos_nonneg; lia).
      replace prec with (1 + (prec - 1)) in Hn by lia. rewrite Z.pow_add_r, Z.pow_1_r in Hn by lia. assert (Z.abs n = Zpos m * (2 * 2 ^ (e - g - 1))) by (destruct s; cbn [cond_Zopp] in E; nia). nia. }
    split; auto. replace g with (e + (g - e)) in E by lia. rewrite pow_split, Qmult_assoc, <- inject_Z_mult in E by lia. apply Qmult_inj_r in E; [|pose proof (pow_pos_q e); lra]. now apply inject_inj.
Qed.

Lemma on_grid_n f : on_grid f -> exists n, Z.abs n <= B /\ grid g f n /\ (fval f == inject_Z n * 2 ^ g)%Q.
Proof. intros (H1 & H2 & n & H3 & H4). exists n. split; auto. split; auto. apply val_grid; auto. nia. Qed.

Lemma q_cmp n n' u u' : (u == inject_Z n * 2 ^ g)%Q -> (u' == inject_Z n' * 2 ^ g)%Q -> (u ?= u')%Q = (n ?= n').
Proof.
  intros E E'. pose proof (pow_pos_q g) as P. destruct (Z.compare_spec n n') as [H|H|H].
  - subst. apply Qeq_alt. now rewrite E, E'.
  - apply Qlt_alt. rewrite E, E'. apply Qmult_lt_r; auto. now rewrite <- Zlt_Qlt.
  - apply Qgt_alt. rewrite E, E'. apply Qmult_lt_r; auto. now rewrite <- Zlt_Qlt.
Qed.

Lemma q_eqb u u' : Qeq_bool u u' = match (u ?= u')%Q with Eq => true | _ => false end.
Proof. apply eq_true_iff_eq. rewrite Qeq_bool_iff, Qeq_alt. destruct (u ?= u')%Q; split; congruence. Qed.
Lemma q_ltb u u' : Qltb u u' = match (u ?= u')%Q with Lt => true | _ => false end.
Proof. apply eq_true_iff_eq. rewrite Qltb_spec, Qlt_alt. destruct (u ?= u')%Q; split; congruence. Qed.

Lemma cmp_same f f' : on_grid f -> on_grid f' -> SFcompare f f' = Some (fval f ?= fval f')%Q.
Proof.
  intros H H'. destruct (on_grid_n f H) as (n & N1 & N2 & N3). destruct (on_grid_n f' H') as (n' & N1' & N2' & N3').
  rewrite (grid_cmp prec emax Hprec g f f' n n' N2 N2'). f_equal. symmetry. now apply q_cmp.
Qed.
Lemma eqb_same f f' : on_grid f -> on_grid f' -> SFeqb f f' = Qeq_bool (fval f) (fval f').
Proof. intros H H'. unfold SFeqb. rewrite cmp_same, q_eqb; auto. Qed.
Lemma ltb_same f f' : on_grid f -> on_grid f' -> SFltb f f' = Qltb (fval f) (fval f').
Proof. intros H H'. unfold SFltb. rewrite cmp_same, q_ltb; auto. Qed.

(** The comparison of two products of differences. *)
Lemma prod_same a b c d a' b' c' d' : on_grid a -> on_grid b -> on_grid c -> on_grid d -> on_grid a' -> on_grid b' -> on_grid c' -> on_grid d' ->
  SFltb (SFmul prec emax (SFsub prec emax a b) (SFsub prec emax c d)) (SFmul prec emax (SFsub prec emax a' b') (SFsub prec emax c' d')) =
  Qltb ((fval a - fval b) * (fval c - fval d)) ((fval a' - fval b') * (fval c' - fval d')).
Proof.
  intros Ha Hb Hc Hd Ha' Hb' Hc' Hd'.
  assert (K : forall a b c d, on_grid a -> on_grid b -> on_grid c -> on_grid d -> exists n, grid (2 * g) (SFmul prec emax (SFsub prec emax a b) (SFsub prec emax c d)) n /\
    ((fval a - fval b) * (fval c - fval d) == inject_Z n * (2 ^ g * 2 ^ g))%Q).
  { clear Ha Hb Hc Hd Ha' Hb' Hc' Hd'. clear a b c d a' b' c' d'. intros a b c d Ha Hb Hc Hd.
    destruct (on_grid_n a Ha) as (n1 & A1 & A2 & A3). destruct (on_grid_n b Hb) as (n2 & B1 & B2 & B3). destruct (on_grid_n c Hc) as (n3 & C1 & C2 & C3). destruct (on_grid_n d Hd) as (n4 & D1 & D2 & D3).
    exists ((n1 - n2) * (n3 - n4)). split.
    - apply grid_mul; auto; [apply grid_sub; auto; nia|apply grid_sub; auto; nia|]. rewrite Z.abs_mul. assert (Z.abs (n1 - n2) <= 2 * B) by lia. assert (Z.abs (n3 - n4) <= 2 * B) by lia. nia.
    - rewrite A3, B3, C3, D3, inject_Z_mult. unfold Zminus. rewrite !inject_Z_plus, !inject_Z_opp. ring. }
  destruct (K a b c d Ha Hb Hc Hd) as (n & N1 & N2). destruct (K a' b' c' d' Ha' Hb' Hc' Hd') as (n' & N1' & N2').
  unfold SFltb. rewrite (grid_cmp prec emax Hprec _ _ _ n n' N1 N1'), q_ltb. clear -N2 N2'. pose proof (pow_pos_q g) as P. assert (P2 : (0 < 2 ^ g * 2 ^ g)%Q) by nra.
  destruct (Z.compare_spec n n') as [H|H|H].
  - subst. assert (E : ((fval a - fval b) * (fval c - fval d) == (fval a' - fval b') * (fval c' - fval d'))%Q) by now rewrite N2, N2'. now rewrite (proj1 (Qeq_alt _ _) E).
  - assert (E : ((fval a - fval b) * (fval c - fval d) < (fval a' - fval b') * (fval c' - fval d'))%Q). { rewrite N2, N2'. apply Qmult_lt_r; auto. now rewrite <- Zlt_Qlt. } now rewrite (proj1 (Qlt_alt _ _) E).
  - assert (E : ((fval a' - fval b') * (fval c' - fval d') < (fval a - fval b) * (fval c - fval d))%Q). { rewrite N2, N2'. apply Qmult_lt_r; auto. now rewrite <- Zlt_Qlt. } now rewrite (proj1 (Qgt_alt _ _) E).
Qed.

Theorem float_run {I E Out Mt} (F : fan_format I E Out Mt) ieqb (gv : I -> coords spec_float) dbg fuel math_n shuf elems :
  (forall i, In (Continue i) elems -> on_grid (cx (gv i)) /\ on_grid (cy (gv i))) ->
  triangulate (OC := FOps prec emax) F ieqb gv dbg fuel math_n shuf elems = triangulate F ieqb (fun i => fpos (gv i)) dbg fuel math_n shuf elems.
Proof.
  intros Hgv. apply (@other_coords Q spec_float I QOps (FOps prec emax)).
  - intros i k Hi Hk. destruct (Hgv i Hi), (Hgv k Hk). unfold coords_pcmp, fpos. cbn [cx cy fst snd c_pcmp QOps FOps]. rewrite !cmp_same; auto.
  - intros i k l Hi Hk Hl. destruct (Hgv i Hi), (Hgv k Hk), (Hgv l Hl). unfold is_left, fpos. cbn [cx cy fst snd c_eqb c_ltb c_sub c_mul QOps FOps].
    rewrite !eqb_same, !ltb_same by auto. destruct (Qeq_bool _ _); auto. destruct (Qeq_bool _ _); auto. now apply prod_same.
  - intros i k Hi Hk. destruct (Hgv i Hi), (Hgv k Hk). now apply eqb_same.
  - intros i k Hi Hk. destruct (Hgv i Hi), (Hgv k Hk). now apply eqb_same.
Qed.
End Grid.
