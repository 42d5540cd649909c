(** Whether [triangulate] ends, for arbitrary inputs, coordinates, orders and builders: the trapezoidation and the
    traversal always end, so the only loop that can run forever is the cutting of one piece. *)
From Coq Require Import List Arith Bool Lia QArith Permutation.
From Verif Require Import Base Coord Trap Mono Tri Trace Protocol MonoProof Bounds Budget Ends EndsFan.
Import ListNotations.
Local Open Scope nat_scope.

Section EndsTri.
Context {C : Type} {OC : CoordOps C} {I : Type}.
Notation vert := (I * coords C)%type.
Context {S E : Type}.
Variable newf : S -> I -> I -> I -> sres S (tri_error E) unit.
Variable ext : S -> I -> sres S (tri_error E) unit.
Hypothesis newf_ok : forall s a b c, snd (newf s a b c) <> Crash Fuel.
Hypothesis ext_ok : forall s a, snd (ext s a) <> Crash Fuel.
Variable cw : bool.
Variable gv : I -> coords C.
Variable okv : I -> Prop.
Variable st : state C I.
Variable rk : nat -> Q.
Hypothesis Htidy : tidy gv rk st.
Hypothesis Hwf : wf okv st.
Notation err := (tri_error E).
Notation mb := (mbuilder C I).
Notation downs x := (iter_trapezoids (C := C) (I := I) x Desc).

(** A vertex of the input with its coordinates. *)
Definition okvert (v : vert) : Prop := okv (fst v) /\ snd v = gv (fst v).
Definition okb (b : mb) : Prop := Forall okvert (mb_vec b).
Definition okms (ms : ot mb) : Prop := match ms with OOne a => okb a | OTwo a b => okb a /\ okb b end.
Definition okopt (ms : option (ot mb)) : Prop := match ms with Some m => okms m | None => True end.

(** A piece of vertices of the input whose cutting never ends. *)
Definition hang : Prop := exists V, Forall okvert V /\ stuck_piece V.

Notation dec := (decided (E := err) hang).

Lemma nexus_ok n x : nth_error (st_ns st) n = Some x -> okvert (n_v x, n_c x).
Proof.
  intros H. split; cbn.
  - destruct Hwf as ((Hns & _) & _). rewrite Forall_forall in Hns. apply (Hns x). eapply nth_error_In; eauto.
  - eapply td_c; eauto.
Qed.

Lemma rd_dec {A} (l : list A) i s : dec (fun a => nth_error l i = Some a) (fun _ _ => lift (S := S) s (rd l i)).
Proof.
  unfold lift, rd. destruct (nth_error l i) eqn:En; apply dec_const; cbn; try congruence.
Qed.

Lemma ok_or_dec {A} (o : option A) e s : dec (fun a => o = Some a) (fun _ _ => lift (S := S) s (ok_or o e)).
Proof. unfold lift, ok_or. destruct o; apply dec_const; cbn; congruence. Qed.

Lemma mb_add_dec b n x s : okb b -> nth_error (st_ns st) n = Some x ->
  dec okb (fun _ _ => lift (S := S) s (mb_add b (n_v x) (n_c x))).
Proof.
  intros Hb Hn. unfold lift, mb_add. destruct (rd (mb_vec b) 0) as [v|e|c] eqn:Er; cbn [bind]; apply dec_const; cbn; try congruence.
  - intros a Ha. injection Ha as <-. unfold okb. cbn. apply Forall_app. split; auto. constructor; auto. eapply nexus_ok; eauto.
  - unfold rd in Er. destruct (mb_vec b); cbn in Er; congruence.
Qed.

Lemma new_ok n x : nth_error (st_ns st) n = Some x -> okb (mb_new (n_v x) (n_c x)).
Proof. intros H. unfold okb. cbn. constructor; auto. eapply nexus_ok; eauto. Qed.

Lemma ret_dec {A} (Q : A -> Prop) (s : S) a : Q a -> dec Q (fun _ _ => (s, Ok a)).
Proof. intros H. apply dec_const; cbn; congruence. Qed.

Lemma err_dec {A} (Q : A -> Prop) (s : S) e : dec Q (fun _ _ => (s, Err e)).
Proof. apply dec_const; cbn; congruence. Qed.

Lemma finish_ok b s : okb b -> dec (fun _ => True) (fun f _ => finish newf ext cw f b s).
Proof. intros Hb. apply (finish_dec newf ext newf_ok ext_ok cw). intros Hs. exists (mb_vec b). auto. Qed.

Lemma finish_all_ok ms s : okms ms -> dec (fun _ => True) (fun f _ => finish_all newf ext cw f ms s).
Proof.
  destruct ms as [a|a b]; cbn; [apply finish_ok|]. intros (Ha & Hb). eapply dec_bind; [apply finish_ok; auto|].
  intros s1 _ _. apply finish_ok; auto.
Qed.

Lemma add_all_dec ms n x s : okms ms -> nth_error (st_ns st) n = Some x ->
  dec okms (fun _ _ => lift (S := S) s (add_to_all ms x)).
Proof.
  intros Hm Hn. unfold lift, add_to_all, mb_add. pose proof (nexus_ok _ _ Hn) as Hx.
  assert (Hsnoc : forall (b : mb) d1 d2, okb b -> okb (mkMB (mb_vec b ++ [(n_v x, n_c x)]) d1 d2)).
  { intros b d1 d2 Hb. unfold okb. cbn. apply Forall_app. split; auto. }
  assert (Hrd : forall b : mb, rd (E := err) (mb_vec b) 0 <> Crash Fuel).
  { intros b. unfold rd. destruct (mb_vec b); cbn; congruence. }
  destruct ms as [a|a b]; cbn in Hm.
  - pose proof (Hrd a). destruct (rd (mb_vec a) 0) as [v|e|c]; cbn [bind]; apply dec_const; cbn; try congruence.
    intros m Em. injection Em as <-. cbn. auto.
  - destruct Hm as (Ha & Hb). pose proof (Hrd a). pose proof (Hrd b). destruct (rd (mb_vec a) 0) as [v|e|c]; cbn [bind]; [|apply dec_const; cbn; congruence..].
    destruct (rd (mb_vec b) 0) as [w|e|c]; cbn [bind]; apply dec_const; cbn; try congruence.
    intros m Em. injection Em as <-. cbn. auto.
Qed.

Lemma extend_dec t nd x ms s : okms ms -> nth_error (st_ns st) nd = Some x ->
  dec okms (fun f _ => extend_monotones gv newf ext cw f st t nd x ms s).
Proof.
  intros Hm Hx. unfold extend_monotones.
  eapply dec_bind; [eapply add_all_dec; eauto|]. clear ms Hm. intros s1 ms Hm.
  eapply dec_bind; [apply ok_or_dec|]. intros s2 sl Hsl.
  eapply dec_bind; [apply rd_dec|]. intros s3 xl Hxl.
  eapply dec_bind; [apply ok_or_dec|]. intros s4 sr Hsr.
  eapply dec_bind; [apply rd_dec|]. intros s5 xr Hxr.
  eapply dec_bind; [apply ok_or_dec|]. intros s6 nu Hnu.
  assert (Hnew : forall s : S, dec okms (fun _ _ => sbind (lift s (rd (st_ns st) nu)) (fun s (n_up : nexus C I) =>
     sbind (lift s (mb_add (mb_new (n_v n_up) (gv (n_v n_up))) (n_v x) (n_c x))) (fun s (b' : mb) => (s, Ok (OOne b')))))).
  { intros s7. eapply dec_bind; [apply rd_dec|]. intros s8 n Hn.
    eapply (dec_bind hang okb); [|intros s9 b Hb; apply ret_dec; exact Hb].
    cbv beta in Hn. apply (mb_add_dec _ nd); auto. rewrite <- (td_c _ _ _ Htidy _ _ Hn). exact (new_ok nu n Hn). }
  destruct (_ && _ && _); [|destruct (_ && _ && _)].
  - destruct ms as [a|a b]; cbn in Hm.
    + eapply dec_bind; [apply finish_ok; auto|]. intros s7 _ _. apply Hnew.
    + eapply dec_bind; [apply finish_ok; tauto|]. intros s7 _ _. apply ret_dec. cbn. tauto.
  - destruct ms as [a|a b]; cbn in Hm.
    + eapply dec_bind; [apply finish_ok; auto|]. intros s7 _ _. apply Hnew.
    + eapply dec_bind; [apply finish_ok; tauto|]. intros s7 _ _. apply ret_dec. cbn. tauto.
  - apply ret_dec. exact Hm.
Qed.

(** ** The measure of the traversal *)

Definition level (t : nat) : nat :=
  match nth_error (st_ts st) t with
  | Some y => match t_d y with Some d => Datatypes.S (belowq rk (length (st_ns st)) (rk d)) | None => 0 end
  | None => 0
  end.

Lemma level_down t y nd x t' : nth_error (st_ts st) t = Some y -> t_d y = Some nd -> nth_error (st_ns st) nd = Some x ->
  In t' (downs x) -> level t' < level t.
Proof.
  intros Ht Hd Hx Hin. destruct (td_down _ _ _ Htidy _ _ _ Hx Hin) as (y' & Hy' & Hu). unfold level. rewrite Ht, Hd, Hy'.
  destruct (t_d y') as [d'|] eqn:Ed; [|lia].
  pose proof (td_du _ _ _ Htidy _ _ _ _ Hy' Ed Hu) as Hlt.
  destruct (td_rng _ _ _ Htidy _ _ Hy') as (Hr & _). rewrite Ed in Hr. cbn in Hr.
  pose proof (belowq_lt rk (length (st_ns st)) d' (rk nd) Hlt Hr). lia.
Qed.

Definition weight (t : nat) : nat := 4 ^ level t.

Lemma weight_pos t : 1 <= weight t.
Proof. unfold weight. pose proof (Nat.pow_nonzero 4 (level t)). lia. Qed.

Lemma weight_down t t' : level t' < level t -> 4 * weight t' <= weight t.
Proof.
  intros H. unfold weight. change (4 * 4 ^ level t') with (4 ^ Datatypes.S (level t')). apply Nat.pow_le_mono_r; lia.
Qed.

Definition stack_weight (bs : list (nat * option (ot mb))) : nat := list_sum (map (fun b => weight (fst b)) bs).

Lemma stack_cons t ms bs : stack_weight ((t, ms) :: bs) = weight t + stack_weight bs.
Proof. reflexivity. Qed.

Definition measure (x : tstate (C := C) (I := I)) : nat := weight (x_ti x) + stack_weight (x_bs x).

Definition okt (x : tstate (C := C) (I := I)) : Prop :=
  okopt (x_ms x) /\ Forall (fun b => okopt (snd b)) (x_bs x) /\ Forall okb (x_mst x).

Definition stepped (x x' : tstate (C := C) (I := I)) : Prop := okt x' /\ measure x' < measure x.

Lemma resume_dec bs mst x s : Forall (fun b => okopt (snd b)) bs -> Forall okb mst -> x_bs x = bs ->
  dec (stepped x) (fun _ _ => lift (S := S) s (resume bs mst)).
Proof.
  intros H1 H2 Hb. unfold lift, resume. destruct bs as [|[t ms] bs]; apply dec_const; cbn; try congruence.
  intros a Ha. injection Ha as <-. inversion H1; subst. split.
  - split; auto.
  - unfold measure. cbn [x_ti x_bs]. rewrite Hb, stack_cons. pose proof (weight_pos (x_ti x)). lia.
Qed.

Lemma move_ok x ms bs mst t' : okopt ms -> Forall (fun b => okopt (snd b)) bs -> Forall okb mst -> bs = x_bs x ->
  level t' < level (x_ti x) -> stepped x (mkT t' ms bs mst).
Proof.
  intros H1 H2 H3 -> Hl. split; [repeat split; auto|]. unfold measure. cbn [x_ti x_bs].
  pose proof (weight_down _ _ Hl). pose proof (weight_pos t'). lia.
Qed.

Lemma single_dec m s : okms m -> dec okb (fun _ _ => lift (S := S) s (single m)).
Proof.
  intros H. unfold lift, single. destruct m; apply dec_const; cbn in *; try congruence.
Qed.

Lemma step_v_dec x ms ul uc ur down s : okt x -> okopt ms -> level down < level (x_ti x) ->
  dec (stepped x) (fun f _ => step_v newf ext cw f x ms ul uc ur down s).
Proof.
  intros (H1 & H2 & H3) Hms Hl. unfold step_v.
  eapply (dec_bind hang (fun q => okopt (fst q) /\ Forall okb (snd q))).
  - destruct ms as [m|]; [|apply ret_dec; cbn; auto]. cbn in Hms.
    destruct (_ =? ul).
    { eapply dec_bind; [apply single_dec; auto|]. intros s1 a Ha. apply ret_dec. cbn. auto. }
    destruct (_ =? uc).
    { eapply dec_bind; [apply finish_all_ok; auto|]. intros s1 a Ha. apply ret_dec. cbn. auto. }
    destruct (_ =? ur); [|apply err_dec].
    destruct (x_mst x) as [|l mst]; [apply err_dec|]. inversion H3; subst.
    eapply dec_bind; [apply single_dec; auto|]. intros s1 a Ha. apply ret_dec. cbn. auto.
  - intros s1 [ms' mst] (K1 & K2). cbn in K1, K2. destruct (_ =? ur).
    + apply ret_dec. apply move_ok; auto.
    + apply resume_dec; auto.
Qed.

Lemma step_a_dec x t nd n ms dl dc dr s : okt x -> okopt ms -> nth_error (st_ns st) nd = Some n ->
  level dl < level (x_ti x) -> level dc < level (x_ti x) -> level dr < level (x_ti x) ->
  dec (stepped x) (fun _ _ => step_a (S := S) st x t n ms dl dc dr s).
Proof.
  intros (H1 & H2 & H3) Hms Hn L1 L2 L3.
  assert (Hst : forall m0 m1 m2, okopt m0 -> okopt m1 -> okopt m2 ->
    stepped x (mkT dl m0 ((dc, m1) :: (dr, m2) :: x_bs x) (x_mst x))).
  { intros m0 m1 m2 K0 K1 K2. split; [split; [auto|split; auto]; cbn; auto|].
    unfold measure. cbn [x_ti x_bs]. rewrite !stack_cons.
    pose proof (weight_down _ _ L1). pose proof (weight_down _ _ L2). pose proof (weight_down _ _ L3).
    pose proof (weight_pos dl). lia. }
  unfold step_a. destruct ms as [m|].
  - eapply (dec_bind hang (fun q => okb (fst q) /\ okb (snd q))).
    + destruct m as [a|a b]; cbn in Hms; [|apply ret_dec; auto].
      eapply dec_bind; [apply ok_or_dec|]. intros s1 nu Hnu.
      eapply dec_bind; [apply rd_dec|]. intros s2 n0 Hn0.
      cbv beta in Hn0. eapply (dec_bind hang okb); [apply (mb_add_dec _ nd); auto; exact (new_ok nu n0 Hn0)|]. intros s3 b Hb.
      eapply dec_bind; [apply ok_or_dec|]. intros s4 sl Hsl.
      eapply dec_bind; [apply rd_dec|]. intros s5 xl Hxl.
      destruct (_ =? _); [apply ret_dec; auto|].
      eapply dec_bind; [apply ok_or_dec|]. intros s6 sr Hsr.
      eapply dec_bind; [apply rd_dec|]. intros s7 xr Hxr.
      destruct (_ =? _); [apply ret_dec; auto|apply err_dec].
    + intros s1 [ml mr] (K1 & K2). apply ret_dec. apply Hst; auto. exact Logic.I.
  - apply ret_dec. apply Hst; cbn; auto. eapply new_ok; eauto.
Qed.

Lemma tri_step_dec x t nd s : okt x -> nth_error (st_ts st) (x_ti x) = Some t -> t_d t = Some nd ->
  dec (stepped x) (fun f _ => tri_step gv newf ext cw f st x t nd s).
Proof.
  intros Hx Ht Hd. unfold tri_step.
  eapply dec_bind; [apply rd_dec|]. intros s1 n Hn. cbv beta in Hn.
  eapply (dec_bind hang okopt).
  { destruct Hx as (Hms & _). destruct (x_ms x) as [ms|]; [|apply ret_dec; auto].
    eapply dec_bind; [eapply extend_dec; eauto|]. intros s2 ms' Hms'. apply ret_dec. exact Hms'. }
  intros s2 ms Hms.
  assert (Hl : forall t', In t' (downs n) -> level t' < level (x_ti x)) by (intros t'; eapply level_down; eauto).
  pose proof (td_ord _ _ _ Htidy _ _ Hn) as Ho. unfold ordered in Ho.
  unfold iter_trapezoids, filter_dividers in Hl. cbn [first_trapezoid] in Hl.
  assert (Hty : dec (fun ty => match ty with
      | TV _ _ _ d => level d < level (x_ti x)
      | TI _ _ a b => level a < level (x_ti x) /\ level b < level (x_ti x)
      | TA _ a b c => level a < level (x_ti x) /\ level b < level (x_ti x) /\ level c < level (x_ti x)
      end) (fun _ _ => lift (S := S) s2 (map_err TEInternal (final_type n)))).
  { unfold final_type, lift. destruct (n_div n) as [|a|a b]; cbn [map_err]; try solve [apply err_dec].
    apply ret_dec. destruct (d_dir a) eqn:Ea, (d_dir b) eqn:Eb; cbn [dir_eqb] in *; try (specialize (Ho eq_refl); discriminate);
      repeat split; apply Hl; cbn; auto. }
  eapply dec_bind; [exact Hty|]. intros s3 ty Hlt. destruct ty as [ul uc ur down|ul ur dl dr|up dl dc dr].
  - apply step_v_dec; auto.
  - destruct Hx as (K1 & K2 & K3). destruct Hlt. destruct (_ =? ul); [apply ret_dec; apply move_ok; auto|].
    destruct (_ =? ur); [apply ret_dec; apply move_ok; auto|apply err_dec].
  - destruct Hlt as (? & ? & ?). eapply step_a_dec; eauto.
Qed.

Lemma tri_loop_dec : forall n x s, measure x <= n -> okt x ->
  dec (fun _ => True) (fun f j => tri_loop gv newf ext cw f st j x s).
Proof.
  induction n as [|n IH]; intros x s Hm Hx.
  { unfold measure in Hm. pose proof (weight_pos (x_ti x)). lia. }
  eapply (dec_step _ _ (fun f j => _)); [reflexivity|intros f j; cbn [tri_loop]; reflexivity|].
  eapply dec_bind; [apply rd_dec|]. intros s1 t Ht. cbv beta in Ht. destruct (t_d t) as [nd|] eqn:Ed.
  - eapply dec_bind; [eapply tri_step_dec; eauto|]. intros s2 x' (Hx' & Hl). apply IH; auto. lia.
  - apply dec_const; auto. cbn. unfold tri_end. destruct (x_mst x), (x_bs x) as [|? ?], (x_ms x); congruence.
Qed.

Lemma inner_dec s : dec (fun _ => True) (fun f _ => triangulate_inner gv newf ext cw f st s).
Proof.
  destruct (td_lv _ _ _ Htidy) as (lv & Hlv). pose proof (top_ends lv _ Hlv) as Htop.
  destruct (Hlv) as (_ & Hb).
  set (K := Datatypes.S (length (st_qs st))).
  enough (H : dec (fun _ => True) (fun f j => sbind (lift s (map_err TEInternal (top_trapezoid j (st_qs st) 0)))
     (fun s ti => tri_loop gv newf ext cw f st j (mkT ti None [] []) s))) by exact (dec_diag hang _ _ H).
  eapply (dec_bind hang (fun _ => True)); [|intros s1 ti _; eapply tri_loop_dec; [apply le_n|split; [exact Logic.I|split; constructor]]].
  exists K. left.
  assert (Hmono : forall k k' q, k <= k' -> top_trapezoid k (st_qs st) q = Crash Fuel \/ top_trapezoid k (st_qs st) q = top_trapezoid k' (st_qs st) q).
  { clear. induction k as [|k IH]; intros k' q Hk; [now left|]. destruct k' as [|k']; [lia|]. cbn.
    destruct (rd (st_qs st) q) as [[l r [|]|]| |]; cbn; auto. apply IH. lia. }
  exists (lift s (map_err TEInternal (top_trapezoid K (st_qs st) 0))). unfold lift. cbn [snd].
  assert (HK : top_trapezoid K (st_qs st) 0 <> Crash Fuel).
  { assert (He : ends (fun _ => True) (top_trapezoid K (st_qs st) 0)) by (apply Htop; unfold K; specialize (Hb 0); lia).
    intros Hc. rewrite Hc in He. exact He. }
  split; [auto|]. split; [destruct (top_trapezoid K (st_qs st) 0); cbn; congruence|]. split.
  - intros f j _ Hj. destruct (Hmono K j 0 Hj) as [H|H]; [congruence|]. now rewrite H.
  - intros f j. destruct (Nat.le_ge_cases j K) as [H|H].
    + destruct (Hmono j K 0 H) as [->| ->]; [right; reflexivity|left; reflexivity].
    + destruct (Hmono K j 0 H) as [H'|H']; [congruence|]. rewrite H'. now left.
Qed.

End EndsTri.

Lemma fbs_new_nf {I E Out M} (F : fan_format I E Out M) s a b c : snd (fbs_new F s a b c) <> Crash Fuel.
Proof.
  unfold fbs_new. destruct s; cbn; try congruence.
  - destruct (ff_init F a b c) as [|[e m]]; cbn; congruence.
  - destruct (ff_new F b0 a b c) as [b' [e|]]; cbn; congruence.
Qed.

Lemma fbs_ext_nf {I E Out M} (F : fan_format I E Out M) s a : snd (fbs_ext F s a) <> Crash Fuel.
Proof.
  unfold fbs_ext. destruct s; cbn; try congruence. destruct (ff_ext F b a) as [b' [e|]]; cbn; congruence.
Qed.

(** Either [triangulate] ends, or it runs forever, and then a piece of vertices of the input is being cut forever. *)
Theorem triangulate_decided {C} {OC : CoordOps C} {I E Out M} (F : fan_format I E Out M) ieqb gv dbg math_n shuf elems :
  (forall k n, Permutation (shuf k n) (seq 0 n)) ->
  (exists N r, r <> Crashed Fuel /\ forall fuel, N <= fuel -> triangulate F ieqb gv dbg fuel math_n shuf elems = r) \/
  ((forall fuel, triangulate F ieqb gv dbg fuel math_n shuf elems = Crashed Fuel) /\
   exists V, Forall (fun v => In (Continue (fst v)) elems /\ snd v = gv (fst v)) V /\ stuck_piece V).
Proof.
  intros Hsh. set (K := (continues elems + 4) * (continues elems + 4)).
  pose proof (trapezoidize_ends gv ieqb dbg K math_n shuf elems Hsh (le_n _)) as He.
  pose proof (trapezoidize_safe (fun i => In (Continue i) elems) ieqb gv dbg K math_n shuf elems (fun i H => H)) as Hw.
  assert (HK : forall f, K <= f -> trapezoidize ieqb gv dbg f math_n shuf elems = trapezoidize ieqb gv dbg K math_n shuf elems).
  { intros f Hf. destruct (trapezoidize_mono ieqb gv dbg K f Hf math_n shuf elems) as [H|H]; [rewrite H in He; destruct He|auto]. }
  assert (Hall : (forall f, K <= f -> triangulate F ieqb gv dbg f math_n shuf elems = Crashed Fuel) ->
    forall f, triangulate F ieqb gv dbg f math_n shuf elems = Crashed Fuel).
  { intros H f. destruct (triangulate_mono F ieqb gv dbg f (Nat.max f K) math_n shuf elems) as [H'|H']; [lia|auto|]. rewrite H'. apply H. lia. }
  unfold triangulate in *.
  destruct (trapezoidize ieqb gv dbg K math_n shuf elems) as [st|e|c] eqn:Ez.
  - destruct He as ((rk & Htidy) & _). cbn in Hw.
    destruct (inner_dec (fbs_new F) (fbs_ext F) (fbs_new_nf F) (fbs_ext_nf F) (ff_cw F) gv _ st rk Htidy Hw FUninit)
      as (N & [(x & _ & Hnf & HN & _)|(Hf & V & HV & Hs)]).
    + left. exists (Nat.max N K), (fbs_complete F dbg (fst x) (snd x)). split.
      * destruct (fst x), (snd x) as [u|e|c]; cbn; try congruence; try (destruct dbg; congruence).
        destruct (ff_build F b) as [[o|e] m]; congruence.
      * intros f Hf. rewrite HK by lia. unfold trap_triangulate. rewrite (HN f f) by lia. destruct x; reflexivity.
    + right. split; [|exists V; split; [exact HV|exact Hs]].
      apply Hall. intros f Hle. rewrite HK by lia. unfold trap_triangulate. specialize (Hf f f).
      destruct (triangulate_inner _ _ _ _ f st FUninit) as [s r]. cbn in Hf. subst r. destruct s; reflexivity.
  - left. exists K, (Returned (inr (TETrapezoidation e)) (ff_dropped F)). split; [congruence|]. intros f Hf. rewrite HK by lia. reflexivity.
  - left. exists K, (Crashed c). split; [intros Hc; injection Hc as ->; exact He|]. intros f Hf. rewrite HK by lia. reflexivity.
Qed.
