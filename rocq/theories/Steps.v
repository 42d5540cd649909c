(** How many steps a run on a valid list of polygons takes: a budget quadratic in the number of vertices is enough. *)
From Coq Require Import QArith List Arith Lia Bool Permutation.
From Verif Require Import Base Coord Trap Mono Tri Trace Protocol Indices Bounds Basic Plane Budget Build Whole Ends EndsFan EndsTri.
Import ListNotations.
Local Open Scope nat_scope.

(** ** The traversal with a budget for the fans that is large enough for every piece it meets *)

(** Out of budget, or the same and, if it ends normally, with [Q]. *)
Definition lsp {S E A} (Q : A -> Prop) (x y : sres S E A) : Prop := snd x = Crash Fuel \/ (x = y /\ forall a, snd x = Ok a -> Q a).

Lemma lsp_refl {S E A} (Q : A -> Prop) (x : sres S E A) : (forall a, snd x = Ok a -> Q a) -> lsp Q x x.
Proof. now right. Qed.

Lemma lsp_bind {S E A B} (Q : A -> Prop) (R : B -> Prop) (r r' : sres S E A) (f g : S -> A -> sres S E B) :
  lsp Q r r' -> (forall s a, Q a -> lsp R (f s a) (g s a)) -> lsp R (sbind r f) (sbind r' g).
Proof.
  intros [H|(<- & H)] HF.
  - destruct r as [s [a|e|c]]; cbn in H; try discriminate. left. cbn. congruence.
  - destruct r as [s [a|e|c]]; cbn in *; auto; right; split; auto; cbn; congruence.
Qed.

Section Trav.
Context {C : Type} {OC : CoordOps C} {I : Type} {S E : Type}.
Notation err := (tri_error E).
Notation mb := (mbuilder C I).
Variable newf : S -> I -> I -> I -> sres S err unit.
Variable ext : S -> I -> sres S err unit.
Hypothesis newf_ok : forall s a b c, snd (newf s a b c) <> Crash Fuel.
Hypothesis ext_ok : forall s a, snd (ext s a) <> Crash Fuel.
Variable cw : bool.
Variable gv : I -> coords C.
Variable st : state C I.
Variables k k' : nat.
Hypothesis Hk : k <= k'.

Definition short (l : nat) (b : mb) : Prop := length (mb_vec b) <= l.
Definition shorts (l : nat) (m : ot mb) : Prop := match m with OOne a => short l a | OTwo a b => short l a /\ short l b end.
Definition shorto (l : nat) (m : option (ot mb)) : Prop := match m with Some m => shorts l m | None => True end.
Definition shortx (l : nat) (x : tstate (C := C) (I := I)) : Prop :=
  shorto l (x_ms x) /\ Forall (fun b => shorto l (snd b)) (x_bs x) /\ Forall (short l) (x_mst x).

Lemma short_le l l' b : l <= l' -> short l b -> short l' b.
Proof. unfold short. lia. Qed.
Lemma shorts_le l l' m : l <= l' -> shorts l m -> shorts l' m.
Proof. destruct m; cbn; intuition eauto using short_le. Qed.
Lemma shorto_le l l' m : l <= l' -> shorto l m -> shorto l' m.
Proof. destruct m; cbn; auto. apply shorts_le. Qed.

Lemma finish_back l b s : short l b -> l * l <= k -> lsp (fun _ => True) (finish newf ext cw k' b s) (finish newf ext cw k b s).
Proof.
  unfold short. intros Hb Hl. assert (length (mb_vec b) * length (mb_vec b) <= k) by nia.
  destruct (finish_within newf ext newf_ok ext_ok cw k 0 True b s) as [(x & _ & _ & Hx & _)|(Hx & _)]; auto.
  - right. split; auto. rewrite (Hx k 0), (Hx k' 0) by lia. reflexivity.
  - left. apply (Hx k' 0).
Qed.

Lemma lift_back {A} (Q : A -> Prop) s (r : res err A) : (forall a, r = Ok a -> Q a) -> lsp Q (lift (S := S) s r) (lift s r).
Proof. intros H. apply lsp_refl. exact H. Qed.
Lemma any_back {A} s (r : res err A) : lsp (fun _ => True) (lift (S := S) s r) (lift s r).
Proof. now apply lift_back. Qed.
Lemma ret_back {A} (Q : A -> Prop) (s : S) (a : A) : Q a -> lsp (E := err) Q (s, Ok a) (s, Ok a).
Proof. intros H. apply lsp_refl. cbn. congruence. Qed.
Lemma err_back {A} (Q : A -> Prop) (s : S) (e : err) : lsp (A := A) Q (s, Err e) (s, Err e).
Proof. apply lsp_refl. cbn. congruence. Qed.

Lemma mb_add_short {F} l b vi c b' : short l b -> mb_add (E := F) b vi c = Ok b' -> short (Datatypes.S l) b'.
Proof.
  unfold mb_add, short. destruct (rd (mb_vec b) 0) as [v|e|cr]; cbn; try discriminate. intros Hb H. injection H as <-. cbn.
  rewrite app_length. cbn. lia.
Qed.

Lemma new_add_short {F} vi c vi' c' b' l : 1 <= l -> mb_add (E := F) (mb_new (C := C) (I := I) vi c) vi' c' = Ok b' -> short (Datatypes.S l) b'.
Proof. intros Hl H. apply (short_le 2); [lia|]. eapply mb_add_short; [|exact H]. unfold short. cbn. lia. Qed.

Lemma add_all_short l ms n ms' : shorts l ms -> add_to_all (E := E) ms n = Ok ms' -> shorts (Datatypes.S l) ms'.
Proof.
  unfold add_to_all. destruct ms as [a|a b]; cbn.
  - intros Ha. destruct (mb_add a _ _) as [a'|e|cr] eqn:E1; cbn; try discriminate. intros H. injection H as <-. cbn. eauto using mb_add_short.
  - intros (Ha & Hb). destruct (mb_add a _ _) as [a'|e|cr] eqn:E1; cbn; try discriminate. destruct (mb_add b _ _) as [b'|e|cr] eqn:E2; cbn; try discriminate.
    intros H. injection H as <-. cbn. eauto using mb_add_short.
Qed.

Lemma extend_back l t nd n ms s : 1 <= l -> Datatypes.S l * Datatypes.S l <= k -> shorts l ms ->
  lsp (shorts (Datatypes.S l)) (extend_monotones gv newf ext cw k' st t nd n ms s) (extend_monotones gv newf ext cw k st t nd n ms s).
Proof.
  intros Hl1 Hl Hms. unfold extend_monotones.
  eapply lsp_bind; [apply (lift_back (shorts (Datatypes.S l))); intros a; now apply add_all_short|]. clear ms Hms. intros s1 ms Hms.
  eapply lsp_bind; [apply any_back|]. intros s2 sl _. eapply lsp_bind; [apply any_back|]. intros s3 xl _.
  eapply lsp_bind; [apply any_back|]. intros s4 sr _. eapply lsp_bind; [apply any_back|]. intros s5 xr _.
  eapply lsp_bind; [apply any_back|]. intros s6 nu _.
  assert (Hnew : forall s : S, lsp (shorts (Datatypes.S l)) (sbind (lift s (rd (st_ns st) nu)) (fun s n_up =>
      sbind (lift s (mb_add (mb_new (n_v n_up) (gv (n_v n_up))) (n_v n) (n_c n))) (fun s b' => (s, Ok (OOne b')))))
    (sbind (lift s (rd (st_ns st) nu)) (fun s n_up =>
      sbind (lift s (mb_add (mb_new (n_v n_up) (gv (n_v n_up))) (n_v n) (n_c n))) (fun s b' => (s, Ok (OOne b')))) : sres S err (ot mb))).
  { intros s7. eapply lsp_bind; [apply any_back|]. intros s8 nup _.
    eapply lsp_bind; [apply (lift_back (short (Datatypes.S l))); intros a; now apply new_add_short|]. intros s9 b Hb. now apply ret_back. }
  destruct (_ && _).
  - destruct ms as [a|a b]; cbn in Hms; (eapply lsp_bind; [eapply finish_back; [|exact Hl]; try exact Hms; try apply Hms|]); intros s7 _ _; [apply Hnew|].
    apply ret_back. cbn. tauto.
  - destruct (_ && _).
    + destruct ms as [a|a b]; cbn in Hms; (eapply lsp_bind; [eapply finish_back; [|exact Hl]; try exact Hms; try apply Hms|]); intros s7 _ _; [apply Hnew|].
      apply ret_back. cbn. tauto.
    + now apply ret_back.
Qed.

Lemma finish_all_back l ms s : l * l <= k -> shorts l ms -> lsp (fun _ => True) (finish_all newf ext cw k' ms s) (finish_all newf ext cw k ms s).
Proof.
  intros Hl. unfold finish_all. destruct ms as [a|a b]; cbn.
  - intros Ha. now apply (finish_back l).
  - intros (Ha & Hb). eapply lsp_bind; [now apply (finish_back l)|]. intros s1 _ _. now apply (finish_back l).
Qed.

Lemma single_short l m a : shorts l m -> single (E := E) m = Ok a -> short l a.
Proof. destruct m; cbn; [|discriminate]. intros H K. now injection K as <-. Qed.

Lemma step_v_back l x ms ul uc ur dn s : l * l <= k -> shortx l x -> shorto l ms ->
  lsp (shortx l) (step_v newf ext cw k' x ms ul uc ur dn s) (step_v newf ext cw k x ms ul uc ur dn s).
Proof.
  intros Hl (H1 & H2 & H3) Hms. unfold step_v.
  eapply (lsp_bind (fun q => shorto l (fst q) /\ Forall (short l) (snd q))).
  - destruct ms as [m|]; [|apply ret_back; cbn; auto]. cbn in Hms.
    destruct (_ =? ul). { eapply lsp_bind; [apply (lift_back (short l)); intros a; now apply single_short|]. intros s1 a Ha. apply ret_back. cbn. auto. }
    destruct (_ =? uc). { eapply lsp_bind; [now apply (finish_all_back l)|]. intros s1 _ _. apply ret_back. cbn. auto. }
    destruct (_ =? ur); [|apply err_back]. destruct (x_mst x) as [|b mst]; [apply err_back|]. apply Forall_cons_iff in H3. destruct H3 as (Hb & H3).
    eapply lsp_bind; [apply (lift_back (short l)); intros a; now apply single_short|]. intros s1 a Ha. apply ret_back. cbn. auto.
  - intros s1 [ms' mst] (Hm & Hs). cbn [fst snd] in *. destruct (_ =? ur).
    + apply ret_back. repeat split; cbn; auto.
    + apply lift_back. unfold resume. destruct (x_bs x) as [|[ti ms0] bs]; intros a Ha; [discriminate|]. injection Ha as <-.
      apply Forall_cons_iff in H2. destruct H2 as (Hb & H2). repeat split; cbn; auto.
Qed.

Lemma step_a_back l x t n ms dl dc dr (s : S) : 1 <= l -> shortx (Datatypes.S l) x -> shorto (Datatypes.S l) ms ->
  lsp (shortx (Datatypes.S l)) (step_a (E := E) st x t n ms dl dc dr s) (step_a st x t n ms dl dc dr s).
Proof.
  intros Hl (H1 & H2 & H3) Hms. unfold step_a. destruct ms as [m|].
  - eapply (lsp_bind (fun q => short (Datatypes.S l) (fst q) /\ short (Datatypes.S l) (snd q))).
    + destruct m as [a|a b]; cbn in Hms; [|apply ret_back; cbn; tauto].
      eapply lsp_bind; [apply any_back|]. intros s1 nu _. eapply lsp_bind; [apply any_back|]. intros s2 nn _.
      eapply lsp_bind; [apply (lift_back (short (Datatypes.S l))); intros b; now apply new_add_short|]. intros s3 b Hb.
      eapply lsp_bind; [apply any_back|]. intros s4 sl _. eapply lsp_bind; [apply any_back|]. intros s5 xl _.
      destruct (_ =? _); [apply ret_back; cbn; auto|].
      eapply lsp_bind; [apply any_back|]. intros s6 sr _. eapply lsp_bind; [apply any_back|]. intros s7 xr _.
      destruct (_ =? _); [apply ret_back; cbn; auto|apply err_back].
    + intros s1 [ml mr] (Ha & Hb). apply ret_back. split; [exact Ha|]. split; [|exact H3]. apply Forall_cons; [exact Logic.I|]. now apply Forall_cons.
  - apply ret_back. split; [exact Logic.I|]. split; [|exact H3]. apply Forall_cons; [cbn; unfold short; cbn; lia|]. now apply Forall_cons.
Qed.

Lemma tri_step_back l x t nd s : 1 <= l -> Datatypes.S l * Datatypes.S l <= k -> shortx l x ->
  lsp (shortx (Datatypes.S l)) (tri_step gv newf ext cw k' st x t nd s) (tri_step gv newf ext cw k st x t nd s).
Proof.
  intros Hl1 Hl (H1 & H2 & H3).
  assert (Hx : shortx (Datatypes.S l) x).
  { repeat split; [apply (shorto_le l); auto|eapply Forall_impl; [|exact H2]; intros a; apply shorto_le; lia|
      eapply Forall_impl; [|exact H3]; intros a; apply short_le; lia]. }
  unfold tri_step. eapply lsp_bind; [apply any_back|]. intros s1 n _.
  eapply (lsp_bind (shorto (Datatypes.S l))).
  { destruct (x_ms x) as [ms|] eqn:Em; [|apply ret_back; exact Logic.I].
    eapply lsp_bind; [apply (extend_back l); auto|]. intros s2 ms' Hms. now apply ret_back. }
  intros s2 ms Hms. eapply lsp_bind; [apply any_back|]. intros s3 ty _. destruct ty as [ul uc ur dn|ul ur dl dr|up dl dc dr].
  - now apply step_v_back.
  - destruct Hx as (_ & Hb & Hm). destruct (_ =? ul); [apply ret_back; repeat split; cbn; auto|].
    destruct (_ =? ur); [apply ret_back; repeat split; cbn; auto|apply err_back].
  - now apply step_a_back.
Qed.

(** [j] iterations never meet a piece of more than [l + j] vertices. *)
Lemma tri_loop_back : forall j l x s, 1 <= l -> (l + j) * (l + j) <= k -> shortx l x ->
  ls (tri_loop gv newf ext cw k' st j x s) (tri_loop gv newf ext cw k st j x s).
Proof.
  assert (G : forall j l x s, 1 <= l -> (l + j) * (l + j) <= k -> shortx l x ->
    lsp (fun _ => True) (tri_loop gv newf ext cw k' st j x s) (tri_loop gv newf ext cw k st j x s)).
  { induction j as [|j IH]; intros l x s Hl1 Hl Hx; [now left|]. cbn [tri_loop].
    eapply lsp_bind; [apply any_back|]. intros s1 t _. destruct (t_d t) as [nd|]; [|now apply lsp_refl].
    eapply lsp_bind; [apply (tri_step_back l); auto; nia|]. intros s2 x' Hx'. apply (IH (Datatypes.S l)); auto; lia. }
  intros j l x s H1 H2 H3. destruct (G j l x s H1 H2 H3) as [H|(H & _)]; [now left|now right].
Qed.

End Trav.

(** ** The whole run *)

Section Run.
Context {I E : Type}.
Variables (gv : I -> point) (ieqb : I -> I -> bool) (dbg : bool).
Hypothesis Hieq : forall a b, ieqb a b = true <-> a = b.
Variables (math_n : nat -> nat -> nat) (shuf : nat -> nat -> list nat).
Hypothesis Hshuf : forall k n, Permutation (shuf k n) (seq 0 n).
Variable elems : list (element I).
Notation ps := (map (map gv) (groups elems)).
Hypothesis HV : valid ps.
Variable cw : bool.

Notation n := (continues elems).
Notation api := (fun fuel => api_calls E ieqb gv cw dbg fuel math_n shuf elems).

Theorem api_quadratic : exists calls, forall fuel, 4 * ((n + 2) * (n + 2)) <= fuel -> api fuel = (calls, Ok tt).
Proof.
  destruct (trapezoidize_done gv ieqb dbg Hieq math_n shuf Hshuf elems HV) as (st & (N0 & HN0) & HD).
  set (K := 4 * ((n + 2) * (n + 2))).
  assert (HK4 : (n + 4) * (n + 4) <= K) by (unfold K; nia).
  pose proof (trapezoidize_ends gv ieqb dbg K math_n shuf elems Hshuf HK4) as He.
  assert (HK : forall f, K <= f -> trapezoidize ieqb gv dbg f math_n shuf elems = Ok st).
  { assert (H0 : trapezoidize ieqb gv dbg K math_n shuf elems = Ok st).
    { destruct (trapezoidize_mono ieqb gv dbg K (K + N0) ltac:(lia) math_n shuf elems) as [H|H]; [rewrite H in He; destruct He|].
      rewrite H. apply HN0. lia. }
    intros f Hf. destruct (trapezoidize_mono ieqb gv dbg K f Hf math_n shuf elems) as [H|H]; congruence. }
  rewrite (HK K (le_n _)) in He. destruct He as ((rk & Htidy) & _ & Hq).
  assert (Hlen : length (st_ts st) = 2 * n + 1).
  { pose proof (trap_sizes ieqb gv dbg K math_n shuf elems st Hshuf (HK K (le_n _))) as (_ & _ & H). rewrite continues_count. exact H. }
  destruct (loop_at (E := E) gv elems HV cw st HD) as (t0 & N & calls & _ & (M & HM) & Hloop).
  exists calls. intros f Hf. unfold api_calls. rewrite (HK f Hf). unfold run_calls, triangulate_inner.
  assert (Ht : top_trapezoid f (st_qs st) 0 = Ok t0).
  { destruct (td_lv _ _ _ Htidy) as (lv & Hlv). pose proof (top_ends lv _ Hlv f 0) as Htop. destruct Hlv as (_ & Hb). specialize (Hb 0).
    destruct (top_mono st f (f + M) (Nat.le_add_r f M) f (f + M) 0 (Nat.le_add_r f M)) as [H|H].
    - rewrite H in Htop. destruct Htop; lia.
    - rewrite H. apply HM. lia. }
  rewrite Ht. cbn [map_err lift]. unfold sbind at 1. cbn [fst snd].
  set (j := Datatypes.S (length (st_ts st))) in *. set (x0 := mkT t0 None [] []) in *.
  assert (Hj : tri_loop (E := E) gv rec_new rec_ext cw f st j x0 [] = (calls, Ok tt)).
  { assert (Hn1 : forall t a b c, snd (rec_new (I := I) (E := E) t a b c) <> Crash Fuel) by (cbn; congruence).
    assert (Hn2 : forall t a, snd (rec_ext (I := I) (E := E) t a) <> Crash Fuel) by (cbn; congruence).
    assert (Hx0 : shortx 1 x0) by (repeat split; cbn; auto).
    assert (Hbud : (1 + j) * (1 + j) <= f) by (unfold j; rewrite Hlen; unfold K in Hf; nia).
    destruct (tri_loop_back rec_new rec_ext Hn1 Hn2 cw gv st f (f + N) (Nat.le_add_r f N) j 1 x0 [] (le_n _) Hbud Hx0) as [H|H].
    - rewrite Hloop in H by lia. discriminate.
    - rewrite <- H. apply Hloop. lia. }
  destruct (tri_loop_mono (E := E) gv rec_new rec_ext cw st f f (le_n _) j f x0 []) as [H|H].
  - unfold j. rewrite Hlen. unfold K in Hf. nia.
  - rewrite Hj in H. discriminate.
  - exact (eq_trans (eq_sym H) Hj).
Qed.
End Run.
