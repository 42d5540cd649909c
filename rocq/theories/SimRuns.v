(** Inputs showing that the hypotheses of the simulation theorems can be met. *)
From Coq Require Import List Arith Bool Lia QArith ZArith.
From Verif Require Import Base Coord Trap Mono Tri Input Trace Protocol Builders Runs Plane Sim SimFacts.
Import ListNotations.
Local Open Scope nat_scope.

(** Integer coordinates. *)
#[global] Instance ZOps : CoordOps Z := {
  c_pcmp a b := Some (Z.compare a b);
  c_eqb := Z.eqb;
  c_ltb := Z.ltb;
  c_sub := Z.sub;
  c_mul := Z.mul;
  c_zero := 0%Z
}.

Definition in_q (c : coords Z) : coords Q := pt (cx c) (cy c).

Lemma inject_cmp a b : Qcompare (inject_Z a) (inject_Z b) = Z.compare a b.
Proof. unfold Qcompare. cbn. now rewrite !Z.mul_1_r. Qed.
Lemma inject_eqb a b : Qeq_bool (inject_Z a) (inject_Z b) = Z.eqb a b.
Proof. apply eq_true_iff_eq. rewrite Qeq_bool_iff, Z.eqb_eq. apply inject_Z_injective. Qed.
Lemma in_q_pcmp a b : coords_pcmp (in_q a) (in_q b) = coords_pcmp a b.
Proof. unfold coords_pcmp, in_q, pt. cbn [cx cy fst snd c_pcmp QOps ZOps]. now rewrite !inject_cmp. Qed.
Lemma in_q_left a b c : is_left (in_q a) (in_q b) (in_q c) = is_left a b c.
Proof.
  unfold is_left, in_q, pt. cbn [cx cy fst snd c_eqb c_ltb c_sub c_mul QOps ZOps]. rewrite !inject_eqb.
  assert (L : forall u v, Qltb (inject_Z u) (inject_Z v) = Z.ltb u v).
  { intros. apply eq_true_iff_eq. rewrite Qltb_spec, Z.ltb_lt. rewrite Zlt_Qlt. reflexivity. }
  rewrite !L. destruct (Z.eqb _ _); [reflexivity|]. destruct (Z.eqb _ _); [reflexivity|].
  rewrite <- L. apply ltb_iff. rewrite !inject_Z_mult. unfold Zminus. rewrite !inject_Z_plus, !inject_Z_opp. reflexivity.
Qed.

Definition ellz : list (coords Z) := [(0, 0); (4, 1); (4, 2); (2, 2); (2, 5); (0, 4)]%Z.
Definition gvz (i : nat) : coords Z := nth i ellz (0, 0)%Z.
Lemma gvz_q i : gv_of ell i = in_q (gvz i).
Proof. unfold gv_of, gvz. change ell with (map in_q ellz). change (pt 0 0) with (in_q (0, 0)%Z). apply map_nth. Qed.

(** Even numbers as indices, half of them as the library's own. *)
Definition double (i : nat) : nat := 2 * i.
Definition conv (i : nat) : option nat := if i <? 6 then Some (2 * i) else None.
Definition unconv (j : nat) : option nat := if Nat.even j then Some (Nat.div2 j) else None.
