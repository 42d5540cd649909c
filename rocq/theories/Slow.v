(** Chains on which [build_fans] makes many iterations: every pass over the chain finds one fan only. *)
From Coq Require Import List Arith Bool Lia.
From Verif Require Import Base Coord Trap Mono Tri Budget Trace Protocol MonoProof.
Import ListNotations.
Local Open Scope nat_scope.

Lemma sbind_inv {S F A B} (r : sres S F A) (f : S -> A -> sres S F B) s' b : sbind r f = (s', Ok b) -> exists s a, r = (s, Ok a) /\ f s a = (s', Ok b).
Proof. destruct r as [s [a|e|c]]; cbn; intros H; try discriminate. eauto. Qed.

Section Slow.
Context {C : Type} {OC : CoordOps C} {I E : Type}.
Notation vert := (I * coords C)%type.
Notation err := (tri_error E).
Notation log := (list (call I)).
Notation add_ext := (rec_ext (I := I) (E := E)).
Variable cw left : bool.
Notation ear := (ear left).
Notation noear := (noear left).
Notation bf := (build_fans (E := E) rec_new rec_ext cw).
Notation fan := (one_fan (E := E) rec_new rec_ext cw).

Ltac la := repeat (rewrite <- app_assoc; cbn [app]); auto.

Lemma nope (a b c : vert) : ~ ear a b c -> Bool.eqb left (is_left (snd c) (snd a) (snd b)) = false.
Proof. intros H. apply Bool.eqb_false_iff. intros K. now apply H. Qed.

(** ** The fan of two triangles *)

(** The advancing loop takes the vertex [p] off and stops there. *)
Lemma adv_one (m : mono C I) S x p p' J P direct dt k (t t' : log) m' dt' :
  view m left (S ++ [x; p]) J (p' :: P) -> ear x p p' -> (forall r P', P = r :: P' -> ~ ear x p' r) ->
  advance_loop (E := E) rec_ext k m direct dt t = (t', Ok (m', dt')) -> exists J', view m' left (S ++ [x; p']) J' P.
Proof.
  intros Hv He Hs H. destruct k as [|k]; [discriminate|]. cbn [advance_loop] in H.
  pose proof (v_can (E := E) _ _ _ _ _ Hv S x p p' P eq_refl eq_refl) as Ec. rewrite He, Bool.eqb_reflx in Ec. unfold lift at 1 in H. rewrite Ec in H. cbn [sbind fst snd] in H.
  replace (S ++ [x; p]) with ((S ++ [x]) ++ [p]) in Hv by la.
  destruct (v_pop (E := E) _ _ _ _ _ _ Hv) as (m1 & Ep & Hv1). pose proof (v_pending (E := E) _ _ _ _ _ _ Hv1) as Eq.
  destruct (v_transfer (E := E) _ _ _ _ _ _ Hv1) as (m2 & Et & Hv2).
  unfold lift at 1 in H. rewrite Ep in H. cbn [sbind fst snd] in H. unfold lift at 1 in H. rewrite Eq in H. cbn [sbind fst snd] in H.
  apply sbind_inv in H. destruct H as (t1 & d1 & _ & H). unfold lift at 1 in H. rewrite Et in H. cbn [sbind fst snd] in H.
  destruct k as [|k]; [discriminate|]. cbn [advance_loop] in H.
  replace ((S ++ [x]) ++ [p']) with (S ++ [x; p']) in Hv2 by la.
  assert (Ec2 : can_triangulate (E := E) m2 = Ok false).
  { destruct P as [|r P']; [apply (v_can_short _ _ _ _ _ Hv2); auto|].
    rewrite (v_can _ _ _ _ _ Hv2 S x p' r P' eq_refl eq_refl). now rewrite (nope _ _ _ (Hs r P' eq_refl)). }
  unfold lift in H. rewrite Ec2 in H. cbn in H. injection H as <- <- _. eauto.
Qed.

Lemma fan_two (m : mono C I) S w x y p p' J P k (t t' : log) m' :
  view m left (S ++ [w; x; y]) J (p :: p' :: P) -> ear x y p -> ~ ear w x p -> ear x p p' -> (forall r P', P = r :: P' -> ~ ear x p' r) ->
  fan k m t = (t', Ok m') -> exists J', view m' left (S ++ [w; x; p']) J' P.
Proof.
  intros Hv He Hb He2 Hs H. unfold one_fan in H.
  replace (S ++ [w; x; y]) with ((S ++ [w; x]) ++ [y]) in Hv by la.
  destruct (v_pop (E := E) _ _ _ _ _ _ Hv) as (m1 & Ep & Hv1). pose proof (v_pending (E := E) _ _ _ _ _ _ Hv1) as Eq.
  pose proof (v_can (E := E) _ _ _ _ _ Hv1 S w x p (p' :: P) eq_refl eq_refl) as Ec.
  assert (Ec' : can_triangulate (E := E) m1 = Ok false). { now rewrite Ec, (nope _ _ _ Hb). } clear Ec.
  replace (S ++ [w; x]) with ((S ++ [w]) ++ [x]) in Hv1 by la. pose proof (v_peek (E := E) _ _ _ _ _ _ Hv1) as Ek.
  destruct (v_transfer (E := E) _ _ _ _ _ _ Hv1) as (m2 & Et & Hv2).
  replace (((S ++ [w]) ++ [x]) ++ [p]) with ((S ++ [w]) ++ [x; p]) in Hv2 by la.
  unfold lift at 1 in H. rewrite Ep in H. cbn [sbind fst snd] in H. unfold lift at 1 in H. rewrite Ek in H. cbn [sbind fst snd] in H.
  unfold lift at 1 in H. rewrite Eq in H. cbn [sbind fst snd] in H. unfold lift at 1 in H. rewrite Ec' in H. cbn [sbind fst snd] in H.
  apply sbind_inv in H. destruct H as (t1 & d1 & _ & H). apply sbind_inv in H. destruct H as (t2 & (m3 & d2) & H1 & H2).
  unfold lift at 1 in H1. rewrite Et in H1. cbn [sbind fst snd] in H1.
  destruct (adv_one _ _ _ _ _ _ _ _ _ _ _ _ _ _ Hv2 He2 Hs H1) as (J' & Hv3).
  assert (m' = m3).
  { destruct (xorb _ cw) in H2; [now injection H2|].
    apply sbind_inv in H2. destruct H2 as (t3 & ((? & ?) & ?) & _ & H2). apply sbind_inv in H2. destruct H2 as (t4 & ? & _ & H2).
    apply sbind_inv in H2. destruct H2 as (t5 & ? & _ & H2). now injection H2. }
  subst m'. exists J'. replace (S ++ [w; x; p']) with ((S ++ [w]) ++ [x; p']) by la. exact Hv3.
Qed.

(** ** Lower bounds for the iterations *)

(** From a state with the vertices [S] before and [P] after the current position, [K] iterations are not enough. *)
Definition lb (K : nat) (S P : list vert) : Prop :=
  forall (m : mono C I) J f k (t : log), view m left S J P -> k <= K -> snd (bf f k m t) = Crash Fuel.

Lemma lb_0 S P : lb 0 S P.
Proof. intros m J f k t _ Hk. replace k with 0 by lia. reflexivity. Qed.

Lemma lb_le K K' S P : K' <= K -> lb K S P -> lb K' S P.
Proof. intros H HL m J f k t Hv Hk. apply (HL m J); auto. lia. Qed.

(** No ear at the current position. *)
Lemma lb_pass K S x y p P : ~ ear x y p -> lb K (S ++ [x; y; p]) P -> lb (Datatypes.S K) (S ++ [x; y]) (p :: P).
Proof.
  intros He HL m J f k t Hv Hk. destruct k as [|k]; [reflexivity|]. cbn [build_fans]. unfold lift at 1. rewrite (v_remaining _ _ _ _ _ Hv). cbn [sbind fst snd].
  destruct (Nat.leb_spec 3 (length (S ++ [x; y]) + length (p :: P))) as [_|Hbad]; [|rewrite app_length in Hbad; cbn in Hbad; lia].
  unfold lift at 1. rewrite (v_can _ _ _ _ _ Hv S x y p P eq_refl eq_refl), (nope _ _ _ He). cbn [sbind fst snd].
  rewrite (v_has _ _ _ _ _ Hv). destruct (v_transfer (E := E) _ _ _ _ _ _ Hv) as (m' & Et & Hv'). unfold lift at 1. rewrite Et. cbn [sbind fst snd].
  replace ((S ++ [x; y]) ++ [p]) with (S ++ [x; y; p]) in Hv' by la. apply (HL m' _ f k t Hv'). lia.
Qed.

(** The end of the chain. *)
Lemma lb_reset K x y z R : lb K [x; y] (z :: R) -> lb (Datatypes.S K) (x :: y :: z :: R) [].
Proof.
  intros HL m J f k t Hv Hk. destruct k as [|k]; [reflexivity|]. cbn [build_fans]. unfold lift at 1. rewrite (v_remaining _ _ _ _ _ Hv). cbn [sbind fst snd length Nat.add Nat.leb].
  unfold lift at 1. rewrite (v_can_short _ _ _ _ _ Hv) by auto. cbn [sbind fst snd]. rewrite (v_has _ _ _ _ _ Hv).
  apply (HL _ []); [|lia]. exact (v_reset _ _ _ _ _ _ _ Hv eq_refl).
Qed.

(** A fan of two triangles. *)
Lemma lb_fan K S w x y p p' P : ear x y p -> ~ ear w x p -> ear x p p' -> (forall r P', P = r :: P' -> ~ ear x p' r) ->
  match P with
  | [] => forall a b R, S ++ [w; x; p'] = a :: b :: R -> lb K [a; b] R
  | r :: P' => lb K (S ++ [w; x; p'; r]) P'
  end -> lb (Datatypes.S K) (S ++ [w; x; y]) (p :: p' :: P).
Proof.
  intros He Hb He2 Hs HL m J f k t Hv Hk. destruct k as [|k]; [reflexivity|]. cbn [build_fans]. unfold lift at 1. rewrite (v_remaining _ _ _ _ _ Hv). cbn [sbind fst snd].
  destruct (Nat.leb_spec 3 (length (S ++ [w; x; y]) + length (p :: p' :: P))) as [_|Hbad]; [|rewrite app_length in Hbad; cbn in Hbad; lia].
  assert (Hv' : view m left ((S ++ [w]) ++ [x; y]) J (p :: p' :: P)) by (replace ((S ++ [w]) ++ [x; y]) with (S ++ [w; x; y]) by la; exact Hv).
  unfold lift at 1. rewrite (v_can _ _ _ _ _ Hv' (S ++ [w]) x y p (p' :: P) eq_refl eq_refl), He, Bool.eqb_reflx. cbn [sbind fst snd].
  destruct (one_fan_ok (E := E) cw left m (S ++ [w]) x y J p (p' :: P) Hv' He) as (_ & _ & _ & m1 & calls & _ & _ & _ & _ & _ & _ & _ & _ & N & Hrun).
  assert (Hf : snd (fan f m t) = Crash Fuel \/ exists t1, fan f m t = (t1, Ok m1)).
  { destruct (one_fan_mono (E := E) rec_new rec_ext cw f (f + N) (Nat.le_add_r _ _) m t) as [H|H]; [now left|]. right. rewrite H, Hrun by lia. eauto. }
  destruct Hf as [Hf|(t1 & Hf)]. { destruct (fan f m t) as [t1 [a|e|c]]; cbn in Hf; try discriminate. cbn. congruence. }
  destruct (fan_two _ _ _ _ _ _ _ _ _ _ _ _ _ Hv He Hb He2 Hs Hf) as (J' & Hv1). rewrite Hf. cbn [sbind fst snd].
  rewrite (v_has _ _ _ _ _ Hv1). destruct P as [|r P'].
  - destruct (S ++ [w; x; p']) as [|a [|b R]] eqn:ES. { symmetry in ES. now apply app_cons_not_nil in ES. } { apply (f_equal (@length _)) in ES. rewrite app_length in ES. cbn in ES. lia. }
    apply (HL a b R eq_refl _ []); [|lia]. exact (v_reset _ _ _ _ _ _ _ Hv1 eq_refl).
  - destruct (v_transfer (E := E) _ _ _ _ _ _ Hv1) as (m2 & Et & Hv2). unfold lift at 1. rewrite Et. cbn [sbind fst snd].
    replace ((S ++ [w; x; p']) ++ [r]) with (S ++ [w; x; p'; r]) in Hv2 by la. apply (HL m2 _ f k t1 Hv2). lia.
Qed.

(** A part of the chain without ears. *)
Lemma lb_scan K P : forall Q S x y, noear (x :: y :: Q) -> lb K (S ++ x :: y :: Q) P -> lb (length Q + K) (S ++ [x; y]) (Q ++ P).
Proof.
  induction Q as [|z Q IH]; intros S x y Hn HL; [exact HL|]. cbn [length Nat.add app].
  apply lb_pass. { apply (Hn [] x y z Q eq_refl). }
  replace (S ++ [x; y; z]) with ((S ++ [x]) ++ [y; z]) by la. apply IH.
  - intros l a b c r H. apply (Hn (x :: l) a b c r). now rewrite H.
  - replace ((S ++ [x]) ++ y :: z :: Q) with (S ++ x :: y :: z :: Q) by la. exact HL.
Qed.

(** ** A pass *)

Definition lbc (K : nat) (V : list vert) : Prop := forall a b R, V = a :: b :: R -> lb K [a; b] R.

Lemma noear_tail (a : vert) l : noear (a :: l) -> noear l.
Proof. intros H l0 x y z r Hr. apply (H (a :: l0) x y z r). now rewrite Hr. Qed.

Lemma lb_round K A w x y p p' B : noear (A ++ [w; x; y]) -> ear x y p -> ~ ear w x p -> ear x p p' -> noear (x :: p' :: B) ->
  lbc K (A ++ [w; x; p'] ++ B) -> lbc (length A + length B + 2 + K) (A ++ [w; x; y] ++ p :: p' :: B).
Proof.
  intros Hn He Hb He2 Hn2 HL a b R HV.
  assert (H3 : exists Q, A ++ [w; x; y] = a :: b :: Q /\ R = Q ++ p :: p' :: B /\ length Q = length A + 1).
  { destruct A as [|a1 [|b1 A]]; cbn [app] in HV; injection HV as -> -> <-; eexists; (split; [reflexivity|]); cbn; rewrite ?app_length; cbn; split; try lia; la. }
  destruct H3 as (Q & EQ & -> & Hlen).
  replace (length A + length B + 2 + K) with (length Q + (1 + (length B + K))) by lia.
  apply (lb_scan _ _ Q [] a b). { now rewrite <- EQ. }
  cbn [app]. rewrite <- EQ. cbn [Nat.add].
  apply (lb_fan _ A); auto. { intros r P' ->. apply (Hn2 [] x p' r P' eq_refl). }
  destruct B as [|r B].
  - cbn [length Nat.add]. intros a' b' R' HR. apply HL. rewrite <- HR. la.
  - cbn [length Nat.add].
    assert (HS : exists a' b' z R', A ++ [w; x; p'] ++ r :: B = a' :: b' :: z :: R').
    { destruct A as [|a1 [|b1 [|c1 A]]]; cbn [app]; eauto 10. }
    destruct HS as (a' & b' & z & R' & HS). pose proof (HL a' b' (z :: R') HS) as HL'.
    replace (A ++ [w; x; p'; r]) with ((A ++ [w; x]) ++ [p'; r]) by la.
    replace (Datatypes.S (length B + K)) with (length B + Datatypes.S K) by lia.
    assert (G : lb (length B + Datatypes.S K) ((A ++ [w; x]) ++ [p'; r]) (B ++ [])); [|now rewrite app_nil_r in G].
    apply (lb_scan _ _ B (A ++ [w; x]) p' r). { now apply (noear_tail x). }
    replace ((A ++ [w; x]) ++ p' :: r :: B) with (a' :: b' :: z :: R') by (rewrite <- HS; la). now apply lb_reset.
Qed.

(** ** Chains with one fan for each pass *)

(** [La]: the vertices above, from the bottom; [Lb]: the vertices below, from the top. *)
Inductive zigzag : list vert -> list vert -> Prop :=
| Z_end x y p : zigzag [y; x] [p]
| Z_step x y w p p' A B : ear x y p -> ~ ear w x p -> ear x p p' -> noear (rev (y :: x :: w :: A)) -> noear (x :: p' :: B) ->
    zigzag (x :: w :: A) (p' :: B) -> zigzag (y :: x :: w :: A) (p :: p' :: B).

Lemma zigzag_len La Lb : zigzag La Lb -> length La = S (length Lb) /\ 1 <= length Lb.
Proof. induction 1; cbn in *; lia. Qed.

Theorem zigzag_slow La Lb : zigzag La Lb -> lbc (length Lb * (length Lb - 1)) (rev La ++ Lb).
Proof.
  induction 1 as [x y p|x y w p p' A B H1 H2 H3 H4 H5 HZ IH]. { intros a b R _. apply lb_0. }
  apply zigzag_len in HZ. cbn [length] in HZ.
  assert (Hr : rev (y :: x :: w :: A) = rev A ++ [w; x; y]) by (cbn [rev]; la).
  assert (Hr' : rev (x :: w :: A) ++ p' :: B = rev A ++ [w; x; p'] ++ B) by (cbn [rev]; la).
  rewrite Hr in *. rewrite Hr' in IH. intros a b R HV.
  replace ((rev A ++ [w; x; y]) ++ p :: p' :: B) with (rev A ++ [w; x; y] ++ p :: p' :: B) in HV by la.
  pose proof (lb_round _ (rev A) w x y p p' B H4 H1 H2 H3 H5 IH a b R HV) as HL.
  rewrite rev_length in HL. eapply lb_le; [|exact HL]. cbn [length]. nia.
Qed.

(** The whole chain, as built by [mb_build]. *)
Theorem zigzag_fuel La Lb f k t : zigzag La Lb -> k <= length Lb * (length Lb - 1) -> snd (bf f k (mkMono (rev La ++ Lb) 2 2 left) t) = Crash Fuel.
Proof.
  intros HZ Hk. pose proof (zigzag_slow La Lb HZ) as H. apply zigzag_len in HZ.
  destruct (rev La ++ Lb) as [|a [|b R]] eqn:EV.
  1, 2: apply (f_equal (@length _)) in EV; rewrite app_length, rev_length in EV; cbn in EV; lia.
  apply (H a b R eq_refl _ []); auto. reflexivity.
Qed.

End Slow.
