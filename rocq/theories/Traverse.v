(** The traversal of a finished trapezoidation succeeds and cuts it into mountains. *)
From Coq Require Import QArith Lqa List Arith Lia Bool Sorted ZArith.
From Verif Require Import Base Coord Trap Mono Tri Trace Protocol MonoProof Lanes Plane MonoGeom Geo Region TrapInv Locate Faces Open.
Import ListNotations.
Local Open Scope nat_scope.

Fixpoint sumz {A} (f : A -> Z) (l : list A) : Z := match l with [] => 0%Z | x :: l => (f x + sumz f l)%Z end.
Lemma sumz_app {A} (f : A -> Z) l l' : (sumz f (l ++ l') = sumz f l + sumz f l')%Z.
Proof. induction l; cbn; lia. Qed.

Section Traverse.
Context {I E : Type}.
Variables (W : list point) (Es : list edge) (M : Q) (gv : I -> point) (st : state Q I).
Hypothesis HG : geo W Es.
Hypothesis HM : shear M W.
Hypothesis HF : full W Es M gv st.
Hypothesis HD : forall v n, nth_error (st_ns st) v = Some n -> deg n = 2.
Variable cw : bool.
Variable D : bool -> list (I * coords Q) -> list (I * I * I) -> Prop.
Notation log := (list (call I)).
Notation err := (tri_error E).
Notation vert := (I * coords Q)%type.
Notation piece := (bool * list vert)%type.
Notation mb := (mbuilder Q I).
Notation piece_ok := (piece_ok W Es gv).
Hypothesis HP : forall left V, piece_ok (left, V) -> exists N calls, starts calls /\ D left V (tris_of calls) /\
  forall fuel t, N <= fuel -> build_fans (E := E) rec_new rec_ext cw fuel fuel (mkMono V 2 2 left) t = (t ++ calls, Ok tt).

Notation ts := (st_ts st).
Notation ss := (st_ss st).
Notation ns := (st_ns st).
Notation tl := (Faces.tl st).
Notation tr := (Faces.tr st).
Notation td := (Faces.td st).
Notation tu := (Faces.tu st).
Notation smin := (Faces.smin st).
Notation smax := (Faces.smax st).
Notation pnt := (Faces.pnt st).
Notation hv := (Faces.hv M st).
Notation bot := (Faces.bot st).
Notation top := (Faces.top st).
Notation nodeV := (Faces.nodeV st).
Notation nodeI := (Faces.nodeI st).
Notation nodeA := (Faces.nodeA st).
Notation colour := (Faces.colour M st).
Notation scol := (Faces.scol M st).
Notation rank := (Faces.rank M st).
Notation open := (Open.open W gv st).
Notation mono_ok := (Open.mono_ok W gv st).
Notation mval := (Open.mval st).
Notation Wv := (fun w (b : mb) => wsum w (map snd (mb_vec b))).
Let HC : core W Es M gv st := f_core _ _ _ _ _ HF.

(** ** Nexuses are determined by their position *)

Lemma V_fun v L R s0 s1 ul uc ur dn L' R' s0' s1' ul' uc' ur' dn' : nodeV v L R s0 s1 ul uc ur dn -> nodeV v L' R' s0' s1' ul' uc' ur' dn' ->
  L' = L /\ R' = R /\ s0' = s0 /\ s1' = s1 /\ ul' = ul /\ uc' = uc /\ ur' = ur /\ dn' = dn.
Proof.
  intros [(n & A1 & A2 & A3 & A4 & A5 & A6) B1 B2 B3 B4 _ _ _ _] [(n' & A1' & A2' & A3' & A4' & A5' & A6') B1' B2' B3' B4' _ _ _ _].
  assert (n' = n) by congruence. subst n'. rewrite A2 in A2'. injection A2' as <- <- <- <-. rewrite A3 in A3'. injection A3' as <- <-.
  destruct B4 as (_ & <- & <- & _). destruct B4' as (_ & <- & <- & _). auto 10.
Qed.
Lemma I_fun v L R s s' ul ur dl dr L' R' s0 s0' ul' ur' dl' dr' : nodeI v L R s s' ul ur dl dr -> nodeI v L' R' s0 s0' ul' ur' dl' dr' ->
  L' = L /\ R' = R /\ s0 = s /\ s0' = s' /\ ul' = ul /\ ur' = ur /\ dl' = dl /\ dr' = dr.
Proof.
  intros [(n & A1 & A2 & A3 & A4 & A5 & A6) B1 B2 B3 B4 _ _ _ _] [(n' & A1' & A2' & A3' & A4' & A5' & A6') B1' B2' B3' B4' _ _ _ _].
  assert (n' = n) by congruence. subst n'. rewrite A2 in A2'. injection A2' as <- <- <- <-. rewrite A3 in A3'. injection A3' as <-. rewrite A4 in A4'. injection A4' as <-.
  destruct B3 as (_ & <- & _ & _). destruct B4 as (_ & _ & <- & _). destruct B3' as (_ & <- & _ & _). destruct B4' as (_ & _ & <- & _). auto 10.
Qed.
Lemma VI_no v L R s0 s1 ul uc ur dn L' R' s s' ul' ur' dl dr : nodeV v L R s0 s1 ul uc ur dn -> nodeI v L' R' s s' ul' ur' dl dr -> False.
Proof. intros [(n & A1 & A2 & _) _ _ _ _ _ _ _ _] [(n' & A1' & A2' & _) _ _ _ _ _ _ _ _]. congruence. Qed.

Lemma top_l i e r v : top i (Some e) r v -> smin e <> v.
Proof.
  intros (_ & H & _ & Hu) <-. destruct (tl_spans W Es M gv st HG HM HF i e H) as (g & d & u & _ & _ & Hu' & H1 & H2 & _).
  assert (u = smin e) by congruence. subst u. lra.
Qed.
Lemma top_r i l f v : top i l (Some f) v -> smin f <> v.
Proof.
  intros (_ & _ & H & Hu) <-. destruct (tr_spans W Es M gv st HG HM HF i f H) as (g & d & u & _ & _ & Hu' & H1 & H2 & _).
  assert (u = smin f) by congruence. subst u. lra.
Qed.
Lemma bot_l i e r v : bot i (Some e) r v -> smax e <> v.
Proof.
  intros (_ & H & _ & Hu) <-. destruct (tl_spans W Es M gv st HG HM HF i e H) as (g & d & u & _ & Hd & _ & H1 & H2 & H3).
  assert (d = smax e) by congruence. subst d. lra.
Qed.
Lemma bot_r i l f v : bot i l (Some f) v -> smax f <> v.
Proof.
  intros (_ & _ & H & Hu) <-. destruct (tr_spans W Es M gv st HG HM HF i f H) as (g & d & u & _ & Hd & _ & H1 & H2 & H3).
  assert (d = smax f) by congruence. subst d. lra.
Qed.

(** ** Which trapezoids come after which *)

(** The trapezoid whose visit schedules the visit of [i]. *)
Definition pa (i : nat) : option nat :=
  match tu i with
  | None => None
  | Some v => match nth_error ns v with
    | None => None
    | Some n => match final_type n with
      | Ok (TV _ _ ur _) => Some ur
      | Ok (TI ul ur dl _) => Some (if Nat.eqb i dl then ul else ur)
      | Ok (TA up _ _ _) => Some up
      | _ => None
      end
    end
  end.
Definition kids (q : nat) : list nat :=
  match td q with
  | None => []
  | Some v => match nth_error ns v with
    | None => []
    | Some n => match final_type n with
      | Ok (TV _ _ ur dn) => if Nat.eqb q ur then [dn] else []
      | Ok (TI ul _ dl dr) => if Nat.eqb q ul then [dl] else [dr]
      | Ok (TA _ dl dc dr) => [dl; dc; dr]
      | _ => []
      end
    end
  end.

Lemma nd3 (a b c : nat) : NoDup [a; b; c] -> a <> b /\ a <> c /\ b <> c.
Proof. intros H. inversion H as [|? ? H1 H2]; subst. inversion H2; subst. cbn in *. intuition. Qed.
Lemma nd2 (a b : nat) : NoDup [a; b] -> a <> b.
Proof. intros H. inversion H as [|? ? H1 H2]; subst. cbn in *. intuition. Qed.

Lemma kids_V v L R s0 s1 ul uc ur dn : nodeV v L R s0 s1 ul uc ur dn -> kids ul = [] /\ kids uc = [] /\ kids ur = [dn] /\ pa dn = Some ur.
Proof.
  intros [(n & A1 & A2 & _) (_ & _ & _ & B1) (_ & _ & _ & B2) (_ & _ & _ & B3) (_ & _ & _ & B4) _ _ _ N]. apply nd3 in N. unfold kids, pa. rewrite B1, B2, B3, B4, A1, A2, Nat.eqb_refl.
  rewrite (proj2 (Nat.eqb_neq ul ur)), (proj2 (Nat.eqb_neq uc ur)) by tauto. auto.
Qed.
Lemma kids_I v L R s s' ul ur dl dr : nodeI v L R s s' ul ur dl dr -> kids ul = [dl] /\ kids ur = [dr] /\ pa dl = Some ul /\ pa dr = Some ur.
Proof.
  intros [(n & A1 & A2 & _) (_ & _ & _ & B1) (_ & _ & _ & B2) (_ & _ & _ & B3) (_ & _ & _ & B4) _ _ N N']. apply nd2 in N. apply nd2 in N'. unfold kids, pa. rewrite B1, B2, B3, B4, A1, A2, !Nat.eqb_refl.
  rewrite (proj2 (Nat.eqb_neq ur ul)), (proj2 (Nat.eqb_neq dr dl)) by auto. auto.
Qed.
Lemma kids_A v L R s0 s1 up dl dc dr : nodeA v L R s0 s1 up dl dc dr -> kids up = [dl; dc; dr] /\ pa dl = Some up /\ pa dc = Some up /\ pa dr = Some up.
Proof.
  intros [(n & A1 & A2 & _) (_ & _ & _ & B1) (_ & _ & _ & B2) (_ & _ & _ & B3) (_ & _ & _ & B4) _ _ _ _]. unfold kids, pa. now rewrite B1, B2, B3, B4, A1, A2.
Qed.

Lemma pa_ok i v : tu i = Some v -> exists q, pa i = Some q /\ td q = Some v /\ In i (kids q) /\ rank q < rank i /\ i < length ts.
Proof.
  intros Hu.
  assert (Hr : forall q l r n, nth_error ns v = Some n -> bot q l r v -> rank q < rank i).
  { intros q l r n Hn Hb. unfold Faces.rank at 2. rewrite Hu. eapply (bot_rank W Es M gv st HF); eauto. }
  destruct (below_cases W Es M gv st HG HM HF HD i v Hu) as [(L & R & s0 & s1 & ul & uc & ur & dn & N & ->)|[(L & R & s & s' & ul & ur & dl & dr & N & Hi)|(L & R & s0 & s1 & up & dl & dc & dr & N & Hi)]].
  - destruct (nv_n _ _ _ _ _ _ _ _ _ _ N) as (n & Hn & _). destruct (kids_V _ _ _ _ _ _ _ _ _ N) as (_ & _ & K3 & K4). exists ur. rewrite K3. pose proof (nv_ur _ _ _ _ _ _ _ _ _ _ N) as B.
    pose proof (nv_dn _ _ _ _ _ _ _ _ _ _ N) as (B4 & _). repeat split; auto; try apply B; cbn; eauto.
  - destruct (ni_n _ _ _ _ _ _ _ _ _ _ N) as (n & Hn & _). destruct (kids_I _ _ _ _ _ _ _ _ _ N) as (K1 & K2 & K3 & K4).
    pose proof (ni_ul _ _ _ _ _ _ _ _ _ _ N) as Bl. pose proof (ni_ur _ _ _ _ _ _ _ _ _ _ N) as Br. pose proof (ni_dl _ _ _ _ _ _ _ _ _ _ N) as (B3 & _). pose proof (ni_dr _ _ _ _ _ _ _ _ _ _ N) as (B4 & _).
    destruct Hi as [->| ->]; [exists ul; rewrite K1|exists ur; rewrite K2]; repeat split; auto; try apply Bl; try apply Br; cbn; eauto.
  - destruct (na_n _ _ _ _ _ _ _ _ _ _ N) as (n & Hn & _). destruct (kids_A _ _ _ _ _ _ _ _ _ N) as (K1 & K2 & K3 & K4). pose proof (na_up _ _ _ _ _ _ _ _ _ _ N) as B.
    pose proof (na_dl _ _ _ _ _ _ _ _ _ _ N) as (B2 & _). pose proof (na_dc _ _ _ _ _ _ _ _ _ _ N) as (B3 & _). pose proof (na_dr _ _ _ _ _ _ _ _ _ _ N) as (B4 & _).
    exists up. rewrite K1. cbn. destruct Hi as [->|[->| ->]]; repeat split; auto; try apply B; eauto.
Qed.

Lemma pa_kids i q : pa i = Some q -> In i (kids q).
Proof.
  intros H. destruct (tu i) as [v|] eqn:Hu; [|unfold pa in H; now rewrite Hu in H]. destruct (pa_ok i v Hu) as (q' & H' & _ & K & _). congruence.
Qed.

Lemma kids_pa i q : In i (kids q) -> pa i = Some q.
Proof.
  intros H. destruct (td q) as [v|] eqn:Hd; [|unfold kids in H; now rewrite Hd in H].
  destruct (above_cases W Es M gv st HG HM HF HD q v Hd) as [(L & R & s0 & s1 & ul & uc & ur & dn & N & Hi)|[(L & R & s & s' & ul & ur & dl & dr & N & Hi)|(L & R & s0 & s1 & up & dl & dc & dr & N & ->)]].
  - destruct (kids_V _ _ _ _ _ _ _ _ _ N) as (K1 & K2 & K3 & K4). destruct Hi as [->|[->| ->]]; [rewrite K1 in H|rewrite K2 in H|rewrite K3 in H]; cbn in H; intuition. now subst.
  - destruct (kids_I _ _ _ _ _ _ _ _ _ N) as (K1 & K2 & K3 & K4). destruct Hi as [->| ->]; [rewrite K1 in H|rewrite K2 in H]; cbn in H; intuition; now subst.
  - destruct (kids_A _ _ _ _ _ _ _ _ _ N) as (K1 & K2 & K3 & K4). rewrite K1 in H. cbn in H. intuition; now subst.
Qed.

Lemma kids_nd q : NoDup (kids q).
Proof.
  assert (NoDup (@nil nat)) by constructor. assert (forall x : nat, NoDup [x]) by (repeat constructor; easy).
  destruct (td q) as [v|] eqn:Hd; [|unfold kids; now rewrite Hd].
  destruct (above_cases W Es M gv st HG HM HF HD q v Hd) as [(L & R & s0 & s1 & ul & uc & ur & dn & N & Hi)|[(L & R & s & s' & ul & ur & dl & dr & N & Hi)|(L & R & s0 & s1 & up & dl & dc & dr & N & ->)]].
  - destruct (kids_V _ _ _ _ _ _ _ _ _ N) as (K1 & K2 & K3 & K4). destruct Hi as [->|[->| ->]]; [rewrite K1|rewrite K2|rewrite K3]; auto.
  - destruct (kids_I _ _ _ _ _ _ _ _ _ N) as (K1 & K2 & K3 & K4). destruct Hi as [->| ->]; [rewrite K1|rewrite K2]; auto.
  - destruct (kids_A _ _ _ _ _ _ _ _ _ N) as (K1 & _). rewrite K1. apply (na_nd _ _ _ _ _ _ _ _ _ _ N).
Qed.

Lemma kids_lt q i : In i (kids q) -> i < length ts.
Proof.
  intros H. apply kids_pa in H. destruct (tu i) as [v|] eqn:Hu; [|unfold pa in H; now rewrite Hu in H]. now destruct (pa_ok i v Hu) as (q' & _ & _ & _ & _ & K).
Qed.

(** Visited trapezoids [P] and pending ones [Q]. *)
Record reach (t0 : nat) (P Q : list nat) : Prop := {
  r_nd : NoDup (P ++ Q); r_lt : forall i, In i (P ++ Q) -> i < length ts; r_t0 : In t0 (P ++ Q);
  r_rp : forall q i, pa i = Some q -> (In i (P ++ Q) <-> In q P)
}.

Lemma reach_start t0 : t0 < length ts -> tu t0 = None -> reach t0 [] [t0].
Proof.
  intros Hl Hu. split; cbn.
  - repeat constructor. easy.
  - intros i [<-|[]]; auto.
  - auto.
  - intros q i H. split; [|easy]. intros [<-|[]]. unfold pa in H. now rewrite Hu in H.
Qed.

Lemma reach_step t0 P cur Q : reach t0 P (cur :: Q) -> reach t0 (P ++ [cur]) (kids cur ++ Q).
Proof.
  intros [H1 H2 H3 H4].
  assert (Hin : forall i, In i ((P ++ [cur]) ++ kids cur ++ Q) <-> In i (P ++ cur :: Q) \/ In i (kids cur)).
  { intros i. rewrite !in_app_iff. cbn. tauto. }
  assert (Hc : ~ In cur P). { intros H. apply NoDup_remove_2 in H1. apply H1, in_or_app. now left. }
  assert (Hk : forall i, In i (kids cur) -> ~ In i (P ++ cur :: Q)). { intros i Hi H. apply kids_pa in Hi. now apply (H4 _ _ Hi) in H. }
  split.
  - rewrite <- app_assoc. cbn [app]. clear H2 H3 H4 Hin.
    assert (Hp : Permutation.Permutation (P ++ cur :: kids cur ++ Q) (kids cur ++ (P ++ cur :: Q))).
    { eapply Permutation.Permutation_trans; [|apply Permutation.Permutation_app_comm]. rewrite <- app_assoc. apply Permutation.Permutation_app_head. cbn [app]. constructor. apply Permutation.Permutation_app_comm. }
    apply (Permutation.Permutation_NoDup (Permutation.Permutation_sym Hp)). pose proof (kids_nd cur) as N. revert N Hk. generalize (kids cur) as l.
    induction l as [|x l IH]; intros N Hk; cbn [app]; auto. inversion N; subst. constructor; [|apply IH; auto; intros; apply Hk; now right].
    intros Hx. apply in_app_iff in Hx. destruct Hx; [contradiction|]. apply (Hk x); [now left|auto].
  - intros i Hi. apply Hin in Hi. destruct Hi; auto. eapply kids_lt; eauto.
  - apply Hin. auto.
  - intros q i Hp. rewrite Hin, (H4 _ _ Hp), in_app_iff. cbn. split; [|intros [H|[<-|[]]]; auto; right; now apply pa_kids].
    intros [H|H]; auto. apply kids_pa in H. right; left. congruence.
Qed.

Lemma reach_all t0 P cur : reach t0 P [cur] -> td cur = None -> (forall i, i < length ts -> tu i = None -> i = t0) -> Permutation.Permutation (P ++ [cur]) (seq 0 (length ts)).
Proof.
  intros [H1 H2 H3 H4] Hd Ht. apply Permutation.NoDup_Permutation; auto. { apply seq_NoDup. }
  intros i. rewrite in_seq. split; [intros Hi; split; [lia|]; now apply H2|]. intros (_ & Hi). cbn in Hi.
  assert (K : forall k j, rank j < k -> j < length ts -> In j (P ++ [cur])).
  { induction k as [|k IH]; intros j Hj Hl; [lia|]. destruct (tu j) as [v|] eqn:Hu.
    - destruct (pa_ok j v Hu) as (q & Hq & Hqd & _ & Hr & _). apply (H4 q j Hq). assert (Hin : In q (P ++ [cur])).
      { apply IH; [lia|]. unfold Faces.td in Hqd. destruct (nth_error ts q) eqn:Eq; [|discriminate]. eapply nth_lt; eauto. }
      apply in_app_iff in Hin. destruct Hin as [Hin|[<-|[]]]; auto. congruence.
    - now rewrite (Ht j Hl Hu). }
  apply (K (S (rank i))); lia.
Qed.

(** ** Segments continuing downwards *)

Definition istep (e e' : nat) : Prop := exists v L R ul ur dl dr, nodeI v L R e e' ul ur dl dr.
Inductive below : nat -> nat -> Prop :=
| B_refl e : below e e
| B_step e e' f : istep e e' -> below e' f -> below e f.

Lemma below_snoc e f g : below e f -> istep f g -> below e g.
Proof. induction 1; intros H1; [apply (B_step _ g); auto; constructor|]. eapply B_step; eauto. Qed.
Lemma istep_fun e f g : istep e f -> istep e g -> g = f.
Proof.
  intros (v & L & R & ul & ur & dl & dr & N) (v' & L' & R' & ul' & ur' & dl' & dr' & N'). pose proof (ni_s _ _ _ _ _ _ _ _ _ _ N) as K1. pose proof (ni_s _ _ _ _ _ _ _ _ _ _ N') as K2.
  assert (v' = v) by congruence. clear K1 K2. subst v'. now destruct (I_fun _ _ _ _ _ _ _ _ _ _ _ _ _ _ _ _ _ N N') as (_ & _ & _ & -> & _).
Qed.
Lemma istep_V v L R s0 s1 ul uc ur dn e f : nodeV v L R s0 s1 ul uc ur dn -> smin e = v -> istep e f -> False.
Proof.
  intros N H (v' & L' & R' & ul' & ur' & dl' & dr' & N'). pose proof (ni_s _ _ _ _ _ _ _ _ _ _ N') as K. assert (v' = v) by congruence. clear K. subst v'. eapply VI_no; eauto.
Qed.
Lemma below_V v L R s0 s1 ul uc ur dn e f : nodeV v L R s0 s1 ul uc ur dn -> smin e = v -> below e f -> f = e.
Proof. intros N H Hb. inversion Hb as [|? e' ? H1 H2]; subst; auto. now apply (istep_V _ _ _ _ _ _ _ _ _ _ _ N eq_refl) in H1. Qed.

(** ** The state of the traversal *)

(** A nexus of type V whose left branch is done, with the stashed monotone, and whether its middle branch is done too. *)
Record entry := mkW { w_v : nat; w_m : option mb; w_c : bool }.

Definition ok_at (p : nat * option (ot mb)) : Prop :=
  match snd p with None => colour (fst p) = false | Some m => colour (fst p) = true /\ mono_ok (fst p) m end.

Fixpoint wlinked (ws : list entry) (o : option nat) : Prop :=
  match ws with
  | [] => o = None
  | a :: ws => exists L R s0 s1 ul uc ur dn e, nodeV (w_v a) L R s0 s1 ul uc ur dn /\ o = Some e /\ below e (if w_c a then s1 else s0) /\ wlinked ws L /\
    match w_m a with None => colour ul = false | Some b => colour ul = true /\ exists l, L = Some l /\ open false l (w_v a) b end
  end.

Fixpoint slinked (o : option nat) (bs : list nat) : Prop :=
  match bs with
  | [] => o = None
  | b :: bs => exists e f, o = Some f /\ tl b = Some e /\ below e f /\ slinked (tr b) bs
  end.

Definition oval (w : point -> point -> Q) (p : nat * option (ot mb)) : Q := match snd p with None => 0%Q | Some m => mval w (fst p) m end.
Definition ocnt (p : nat * option (ot mb)) : Z := match snd p with None => 0%Z | Some m => Z.of_nat (mcount m) end.
Definition wval (w : point -> point -> Q) (a : entry) : Q := match w_m a with None => 0%Q | Some b => (- Wv w b)%Q end.
Definition wcnt (a : entry) : Z := match w_m a with None => 0%Z | Some b => Z.of_nat (length (mb_vec b)) end.
Definition wst (a : entry) : list mb := match w_m a with None => [] | Some b => [b] end.

(** What the visit of a trapezoid contributes. *)
Definition ev (w : point -> point -> Q) (i : nat) : Q :=
  if colour i then
    match td i with
    | None => 0
    | Some d =>
      match tl i with Some e => if Nat.eqb d (smin e) then w (pnt (smax e)) (pnt d) else 0 | None => 0 end +
      match tr i with Some f => if Nat.eqb d (smin f) then w (pnt d) (pnt (smax f)) else 0 | None => 0 end
    end
  else 0%Q.
Definition kc (i : nat) : Z :=
  match td i with
  | None => 0
  | Some v => match nth_error ns v with
    | None => 0
    | Some n => match final_type n with
      | Ok (TV ul uc ur _) => if colour i then if Nat.eqb i ul then 1 else if Nat.eqb i uc then -1 else 0 else 0
      | Ok (TI _ _ _ _) => if colour i then 1 else 0
      | Ok (TA _ _ _ _) => if colour i then 3 else 1
      | _ => 0
      end
    end
  end%Z.

Record inv (t0 : nat) (x : tstate) (ws : list entry) (P : list nat) (Ps : list piece) : Prop := {
  i_cur : ok_at (x_ti x, x_ms x);
  i_bs : Forall ok_at (x_bs x);
  i_w : wlinked ws (tl (x_ti x));
  i_s : slinked (tr (x_ti x)) (map fst (x_bs x));
  i_mst : x_mst x = concat (map wst ws);
  i_ok : Forall piece_ok Ps;
  i_val : forall w, anti w -> (sumq (pval w) Ps + oval w (x_ti x, x_ms x) + sumq (oval w) (x_bs x) + sumq (wval w) ws == sumq (ev w) P)%Q;
  i_cnt : (Z.of_nat (pcount Ps) + ocnt (x_ti x, x_ms x) + sumz ocnt (x_bs x) + sumz wcnt ws = sumz kc P)%Z;
  i_reach : reach t0 P (x_ti x :: map fst (x_bs x))
}.

(** ** One step *)

Notation extend := (extend_monotones (E := E) gv rec_new rec_ext cw).
Notation step := (tri_step (E := E) gv rec_new rec_ext cw).

Definition finish_step (fuel : nat) (x : tstate) (t : trap) (n : nexus Q I) (ty : ntype) (ms : option (ot mb)) (s : log) : sres log err tstate :=
  match ty with
  | TV ul uc ur down => step_v (E := E) rec_new rec_ext cw fuel x ms ul uc ur down s
  | TI ul ur dl dr =>
    if Nat.eqb (x_ti x) ul then (s, Ok (mkT dl ms (x_bs x) (x_mst x)))
    else if Nat.eqb (x_ti x) ur then (s, Ok (mkT dr ms (x_bs x) (x_mst x)))
    else (s, Err (TEInternal IE_InvalidI))
  | TA _ dl dc dr => step_a st x t n ms dl dc dr s
  end.

Lemma step_none fuel x t d n ty s : x_ms x = None -> nth_error ns d = Some n -> final_type n = Ok ty -> step fuel st x t d s = finish_step fuel x t n ty None s.
Proof. intros H1 H2 H3. unfold tri_step, rd. rewrite H1, H2. unfold lift, sbind. cbn [fst snd]. rewrite H3. reflexivity. Qed.

Lemma step_some m x t d n ty Ps ms' Qs x' : x_ms x = Some m -> nth_error ns d = Some n -> final_type n = Ok ty ->
  emits D (fun fuel s => extend fuel st t d n m s) Ps ms' -> emits D (fun fuel s => finish_step fuel x t n ty (Some ms') s) Qs x' ->
  emits D (fun fuel s => step fuel st x t d s) (Ps ++ Qs) x'.
Proof.
  intros H1 H2 H3 H4 H5.
  apply (emits_ext D (fun fuel s => sbind (extend fuel st t d n m s) (fun s ms => finish_step fuel x t n ty (Some ms) s))).
  - intros fuel s. unfold tri_step, rd. rewrite H1, H2. unfold lift at 1. unfold sbind at 1. cbn [fst snd].
    destruct (extend fuel st t d n m s) as [s' [a|e|c]]; unfold sbind; cbn [fst snd]; auto. rewrite H3. reflexivity.
  - exact (emits_bind D (fun fuel s => extend fuel st t d n m s) Ps ms' (fun a fuel s => finish_step fuel x t n ty (Some a) s) Qs x' H4 H5).
Qed.

(** The facts used at a coloured trapezoid. *)
Lemma at_facts i t d m : nth_error ts i = Some t -> td i = Some d -> mono_ok i m -> exists e f u gl gr,
  tl i = Some e /\ tr i = Some f /\ tu i = Some u /\ nth_error ss e = Some gl /\ nth_error ss f = Some gr.
Proof.
  intros Ht Hd (e & f & u & He & Hf & Hu & _). destruct (tl_spans W Es M gv st HG HM HF i e He) as (gl & _ & _ & Hgl & _). destruct (tr_spans W Es M gv st HG HM HF i f Hf) as (gr & _ & _ & Hgr & _).
  exists e, f, u, gl, gr. auto.
Qed.

Lemma vertex_sides v n : nth_error ns v = Some n -> vat st v = Some (n_v n, n_c n).
Proof. apply vat_n. Qed.

Lemma sumq_snoc {A} (f : A -> Q) l x : (sumq f (l ++ [x]) == sumq f l + f x)%Q.
Proof. rewrite sumq_app. cbn [sumq]. ring. Qed.
Lemma sumz_snoc {A} (f : A -> Z) l x : (sumz f (l ++ [x]) = sumz f l + f x)%Z.
Proof. rewrite sumz_app. cbn [sumz]. lia. Qed.

Lemma ev_none w i : colour i = false -> ev w i = 0%Q.
Proof. intros H. unfold ev. now rewrite H. Qed.

Lemma ev_at w i d e f : colour i = true -> td i = Some d -> tl i = Some e -> tr i = Some f ->
  ev w i = ((if Nat.eqb d (smin e) then w (pnt (smax e)) (pnt d) else 0) + (if Nat.eqb d (smin f) then w (pnt d) (pnt (smax f)) else 0))%Q.
Proof. intros H1 H2 H3 H4. unfold ev. now rewrite H1, H2, H3, H4. Qed.

Definition kcV (c : bool) (i ul uc : nat) : Z := (if c then if Nat.eqb i ul then 1 else if Nat.eqb i uc then -1 else 0 else 0)%Z.
Lemma kc_V i v L R s0 s1 ul uc ur dn : nodeV v L R s0 s1 ul uc ur dn -> td i = Some v -> kc i = kcV (colour i) i ul uc.
Proof. intros [(n & A1 & A2 & _) _ _ _ _ _ _ _ _] H. unfold kc. now rewrite H, A1, A2. Qed.
Lemma kc_I i v L R s s' ul ur dl dr : nodeI v L R s s' ul ur dl dr -> td i = Some v -> kc i = (if colour i then 1 else 0)%Z.
Proof. intros [(n & A1 & A2 & _) _ _ _ _ _ _ _ _] H. unfold kc. now rewrite H, A1, A2. Qed.
Lemma kc_A i v L R s0 s1 up dl dc dr : nodeA v L R s0 s1 up dl dc dr -> td i = Some v -> kc i = (if colour i then 3 else 1)%Z.
Proof. intros [(n & A1 & A2 & _) _ _ _ _ _ _ _ _] H. unfold kc. now rewrite H, A1, A2. Qed.

(** Colours around a nexus. *)
Lemma col_V v L R s0 s1 ul uc ur dn : nodeV v L R s0 s1 ul uc ur dn -> colour uc = negb (colour ul) /\ colour ur = colour ul /\ colour dn = colour ul.
Proof.
  intros N. pose proof (par_V _ _ _ _ _ _ _ _ _ _ N) as P. destruct N as [_ (_ & _ & B1 & _) (_ & B2 & B3 & _) (_ & B4 & _ & _) _ _ _ _ _].
  pose proof (colour_r W Es M gv st HG HM HF HD ul s0 B1) as K1. pose proof (colour_l W Es M gv st HG HM HF HD uc s0 B2) as K2.
  pose proof (colour_r W Es M gv st HG HM HF HD uc s1 B3) as K3. pose proof (colour_l W Es M gv st HG HM HF HD ur s1 B4) as K4.
  pose proof (colour_par W Es M gv st HG HM HF HD dn ul false P) as K5. rewrite xorb_false_r in K5.
  rewrite K5, K4, K1, K2. assert (scol s1 = negb (scol s0)) as -> by (rewrite <- K2, K3; now rewrite negb_involutive). now rewrite negb_involutive.
Qed.
Lemma col_I v L R s s' ul ur dl dr : nodeI v L R s s' ul ur dl dr -> colour ur = negb (colour ul) /\ colour dl = colour ul /\ colour dr = colour ur.
Proof.
  intros N. destruct (par_I _ _ _ _ _ _ _ _ _ _ N) as (P1 & P2). destruct N as [_ (_ & _ & B1 & _) (_ & B2 & _ & _) _ _ _ _ _ _].
  pose proof (colour_r W Es M gv st HG HM HF HD ul s B1) as K1. pose proof (colour_l W Es M gv st HG HM HF HD ur s B2) as K2.
  rewrite (colour_par W Es M gv st HG HM HF HD dl _ _ P1), (colour_par W Es M gv st HG HM HF HD dr _ _ P2), !xorb_false_r. rewrite K1, K2, negb_involutive. auto.
Qed.
Lemma col_A v L R s0 s1 up dl dc dr : nodeA v L R s0 s1 up dl dc dr -> colour dl = colour up /\ colour dc = negb (colour up) /\ colour dr = colour up.
Proof.
  intros N. destruct (par_A _ _ _ _ _ _ _ _ _ _ N) as (P1 & P2 & P3).
  rewrite (colour_par W Es M gv st HG HM HF HD dl _ _ P1), (colour_par W Es M gv st HG HM HF HD dc _ _ P2), (colour_par W Es M gv st HG HM HF HD dr _ _ P3), !xorb_false_r, xorb_true_r. auto.
Qed.

(** *** The three branches of a V nexus *)

Lemma step_ul t0 x ws P Ps t v L R s0 s1 ul uc ur dn : inv t0 x ws P Ps -> nth_error ts (x_ti x) = Some t -> nodeV v L R s0 s1 ul uc ur dn -> x_ti x = ul ->
  exists x' ws' Qs, emits D (fun fuel s => step fuel st x t v s) Qs x' /\ inv t0 x' ws' (P ++ [x_ti x]) (Ps ++ Qs).
Proof.
  intros [Hcur Hbs Hw Hs Hmst Hok Hval Hcnt Hreach] Ht N Hi. destruct x as [ti ms bs mst]. cbn [x_ti x_ms x_bs x_mst] in *. subst ti.
  pose proof N as N0. destruct N0 as [(n & Hn & Hf & _) B1 B2 B3 B4 S0 S1 Hne Nd]. pose proof (nd3 _ _ _ Nd) as (N1 & N2 & N3).
  pose proof B1 as (Bl & Btl & Btr & Btd). rewrite Btl in Hw. rewrite Btr in Hs.
  destruct bs as [|[b mb'] bs]; [discriminate|]. destruct Hs as (e & f & [= <-] & He & Hbel & Hs). cbn [map fst] in *.
  pose proof (reach_step _ _ _ _ Hreach) as Hreach'. destruct (kids_V _ _ _ _ _ _ _ _ _ N) as (K1 & _). rewrite K1 in Hreach'. cbn [app] in Hreach'.
  apply Forall_cons_iff in Hbs. destruct Hbs as (Hb & Hbs').
  assert (C1 : Nat.eqb ul ur = false) by now apply Nat.eqb_neq. assert (Ek : kc ul = kcV (colour ul) ul ul uc) by exact (kc_V ul _ _ _ _ _ _ _ _ _ N Btd). unfold kcV in Ek. rewrite Nat.eqb_refl in Ek.
  destruct ms as [m|]; cbn [ok_at snd fst] in Hcur.
  - destruct Hcur as (Hc & Hm). destruct (at_facts ul t _ m Ht Btd Hm) as (e1 & f1 & u & gl & gr & He1 & Hf1 & Hu & Hgl & Hgr).
    assert (f1 = s0) by congruence. subst f1. assert (El : L = Some e1) by congruence.
    assert (Hde : v <> smin e1). { rewrite El in B4. apply top_l in B4. auto. }
    destruct (extend_right (E := E) W Es M gv st HG HM HF cw D HP ul e1 s0 u v t gl gr n Ht He1 Hf1 Hu Btd Hgl Hgr Hn m Hm (eq_sym S0) Hde) as (Qs & m' & Em & Hq & Ho & Hv & Hcn).
    exists (mkT b mb' bs (m' :: mst)), (mkW v (Some m') false :: ws), (Qs ++ []). split.
    + eapply step_some; [reflexivity|exact Hn|exact Hf|exact Em|]. apply emits_ret. intros fuel s. cbn [finish_step]. unfold step_v. cbn [x_ti x_mst x_bs]. rewrite Nat.eqb_refl, C1. reflexivity.
    + rewrite app_nil_r. split; cbn [x_ti x_ms x_bs x_mst]; auto.
      * cbn [wlinked w_v w_m w_c]. exists L, R, s0, s1, ul, uc, ur, dn, e. split; [exact N|]. split; [exact He|]. split; [exact Hbel|]. split; [exact Hw|]. split; [exact Hc|]. exists e1. auto.
      * cbn [map concat wst w_m app]. now f_equal.
      * apply Forall_app. auto.
      * intros w Ha. specialize (Hval w Ha). specialize (Hv w Ha). rewrite sumq_app, sumq_snoc. rewrite (ev_at w ul _ _ _ Hc Btd He1 Hf1). rewrite S0, Nat.eqb_refl.
        destruct (Nat.eqb_spec v (smin e1)); [contradiction|]. cbn [sumq oval wval snd fst w_m] in *. lra.
      * rewrite pcount_app, sumz_snoc, Ek, Hc. cbn [sumz ocnt wcnt snd fst w_m] in *. lia.
  - exists (mkT b mb' bs mst), (mkW v None false :: ws), []. split.
    + apply emits_ret. intros fuel s. erewrite step_none by (cbn; eauto). cbn [finish_step]. unfold step_v. cbn [x_ti x_mst x_bs]. unfold sbind at 1. cbn [fst snd]. rewrite C1. reflexivity.
    + rewrite app_nil_r. split; cbn [x_ti x_ms x_bs x_mst]; auto.
      * cbn [wlinked w_v w_m w_c]. exists L, R, s0, s1, ul, uc, ur, dn, e. split; [exact N|]. split; [exact He|]. split; [exact Hbel|]. split; auto.
      * intros w Ha. specialize (Hval w Ha). rewrite sumq_snoc, (ev_none w ul Hcur). cbn [sumq oval wval snd fst w_m] in *. lra.
      * rewrite sumz_snoc, Ek, Hcur. cbn [sumz ocnt wcnt snd fst w_m] in *. lia.
Qed.

(** The entry of the nexus is the nearest one. *)
Lemma entry_at v L R s0 s1 ul uc ur dn ws e : nodeV v L R s0 s1 ul uc ur dn -> wlinked ws (Some e) -> e = s0 \/ e = s1 ->
  exists mo ws', ws = mkW v mo (if Nat.eqb e s0 then false else true) :: ws' /\ wlinked ws' L /\
    match mo with None => colour ul = false | Some b => colour ul = true /\ exists l, L = Some l /\ open false l v b end.
Proof.
  intros N Hw He. assert (Hm : smin e = v) by (destruct He as [->| ->]; apply N). destruct ws as [|[v' mo c] ws]; [discriminate|]. cbn [wlinked w_v w_m w_c] in Hw.
  destruct Hw as (L' & R' & s0' & s1' & ul' & uc' & ur' & dn' & e' & N' & [= <-] & Hb & Hw & Hmo). pose proof (below_V _ _ _ _ _ _ _ _ _ _ _ N Hm Hb) as Hx.
  assert (v' = v). { rewrite <- Hm, <- Hx. destruct c; symmetry; apply N'. } subst v'.
  destruct (V_fun _ _ _ _ _ _ _ _ _ _ _ _ _ _ _ _ _ N N') as (-> & -> & -> & -> & -> & -> & -> & ->). pose proof (nv_ne _ _ _ _ _ _ _ _ _ _ N) as Hne.
  exists mo, ws. split; auto. f_equal. f_equal. destruct (Nat.eqb_spec e s0) as [->|]; destruct c; auto; congruence.
Qed.

Lemma step_uc t0 x ws P Ps t v L R s0 s1 ul uc ur dn : inv t0 x ws P Ps -> nth_error ts (x_ti x) = Some t -> nodeV v L R s0 s1 ul uc ur dn -> x_ti x = uc ->
  exists x' ws' Qs, emits D (fun fuel s => step fuel st x t v s) Qs x' /\ inv t0 x' ws' (P ++ [x_ti x]) (Ps ++ Qs).
Proof.
  intros [Hcur Hbs Hw Hs Hmst Hok Hval Hcnt Hreach] Ht N Hi. destruct x as [ti ms bs mst]. cbn [x_ti x_ms x_bs x_mst] in *. subst ti.
  pose proof N as N0. destruct N0 as [(n & Hn & Hf & _) B1 B2 B3 B4 S0 S1 Hne Nd]. pose proof (nd3 _ _ _ Nd) as (N1 & N2 & N3).
  pose proof B2 as (Bl & Btl & Btr & Btd). rewrite Btl in Hw. rewrite Btr in Hs.
  destruct (entry_at _ _ _ _ _ _ _ _ _ _ _ N Hw (or_introl eq_refl)) as (mo & ws' & -> & Hw' & Hmo). rewrite Nat.eqb_refl in *.
  destruct bs as [|[b mb'] bs]; [discriminate|]. destruct Hs as (e & f & [= <-] & He & Hbel & Hs). cbn [map fst] in *.
  pose proof (reach_step _ _ _ _ Hreach) as Hreach'. destruct (kids_V _ _ _ _ _ _ _ _ _ N) as (_ & K1 & _). rewrite K1 in Hreach'. cbn [app] in Hreach'.
  apply Forall_cons_iff in Hbs. destruct Hbs as (Hb & Hbs'). subst mst.
  assert (C1 : Nat.eqb uc ur = false) by now apply Nat.eqb_neq. assert (C2 : Nat.eqb uc ul = false) by (apply Nat.eqb_neq; auto).
  assert (Ek : kc uc = kcV (colour uc) uc ul uc) by exact (kc_V uc _ _ _ _ _ _ _ _ _ N Btd). unfold kcV in Ek. rewrite Nat.eqb_refl, C2 in Ek.
  assert (Hl : wlinked (mkW v mo true :: ws') (tl b)).
  { cbn [wlinked w_v w_m w_c]. exists L, R, s0, s1, ul, uc, ur, dn, e. split; [exact N|]. split; [exact He|]. split; [exact Hbel|]. split; auto. }
  destruct ms as [m|]; cbn [ok_at snd fst] in Hcur.
  - destruct Hcur as (Hc & Hm). destruct (at_facts uc t _ m Ht Btd Hm) as (e1 & f1 & u & gl & gr & He1 & Hf1 & Hu & Hgl & Hgr).
    assert (f1 = s1) by congruence. subst f1. assert (e1 = s0) by congruence. subst e1.
    destruct (extend_both (E := E) W Es M gv st HG HM HF cw D HP uc s0 s1 u v t gl gr n Ht He1 Hf1 Hu Btd Hgl Hgr Hn m Hm (eq_sym S0) (eq_sym S1)) as (m' & Qs & Em & Ef & Hq & Hv & Hcn).
    exists (mkT b mb' bs (wst (mkW v mo false) ++ concat (map wst ws'))), (mkW v mo true :: ws'), ([] ++ (Qs ++ [])). split.
    + eapply step_some; [reflexivity|exact Hn|exact Hf|apply emits_ret; exact Em|].
      apply (emits_ext D (fun fuel s => sbind (finish_all (E := E) rec_new rec_ext cw fuel m' s) (fun s _ => (s, Ok (mkT b mb' bs (wst (mkW v mo false) ++ concat (map wst ws'))))))).
      * intros fuel s. cbn [finish_step]. unfold step_v. cbn [x_ti x_mst x_bs]. rewrite C1, C2, Nat.eqb_refl. cbn [map concat].
        destruct (finish_all rec_new rec_ext cw fuel m' s) as [s' [[]|?|?]]; reflexivity.
      * apply (emits_bind D (fun fuel s => finish_all (E := E) rec_new rec_ext cw fuel m' s) Qs tt (fun _ fuel s => (s, Ok (mkT b mb' bs (wst (mkW v mo false) ++ concat (map wst ws'))))) []); auto.
        apply emits_ret. reflexivity.
    + cbn [app]. rewrite app_nil_r. split; cbn [x_ti x_ms x_bs x_mst]; auto.
      * apply Forall_app. auto.
      * intros w Ha. specialize (Hval w Ha). specialize (Hv w Ha). rewrite sumq_app, sumq_snoc. rewrite (ev_at w uc _ _ _ Hc Btd He1 Hf1).
        rewrite S0, S1, Nat.eqb_refl. cbn [sumq oval wval snd fst w_m] in *. change (wval w (mkW v mo true)) with (wval w (mkW v mo false)). lra.
      * rewrite pcount_app, sumz_snoc, Ek, Hc. cbn [sumz ocnt wcnt snd fst w_m] in *. change (wcnt (mkW v mo true)) with (wcnt (mkW v mo false)). lia.
  - exists (mkT b mb' bs (wst (mkW v mo false) ++ concat (map wst ws'))), (mkW v mo true :: ws'), []. split.
    + apply emits_ret. intros fuel s. erewrite step_none by (cbn; eauto). cbn [finish_step]. unfold step_v. cbn [x_ti x_mst x_bs]. unfold sbind at 1. cbn [fst snd]. rewrite C1. reflexivity.
    + rewrite app_nil_r. split; cbn [x_ti x_ms x_bs x_mst]; auto.
      * intros w Ha. specialize (Hval w Ha). rewrite sumq_snoc, (ev_none w uc Hcur). cbn [sumq oval wval snd fst w_m] in *. change (wval w (mkW v mo true)) with (wval w (mkW v mo false)). lra.
      * rewrite sumz_snoc, Ek, Hcur. cbn [sumz ocnt wcnt snd fst w_m] in *. change (wcnt (mkW v mo true)) with (wcnt (mkW v mo false)). lia.
Qed.

Lemma step_ur t0 x ws P Ps t v L R s0 s1 ul uc ur dn : inv t0 x ws P Ps -> nth_error ts (x_ti x) = Some t -> nodeV v L R s0 s1 ul uc ur dn -> x_ti x = ur ->
  exists x' ws' Qs, emits D (fun fuel s => step fuel st x t v s) Qs x' /\ inv t0 x' ws' (P ++ [x_ti x]) (Ps ++ Qs).
Proof.
  intros [Hcur Hbs Hw Hs Hmst Hok Hval Hcnt Hreach] Ht N Hi. destruct x as [ti ms bs mst]. cbn [x_ti x_ms x_bs x_mst] in *. subst ti.
  pose proof N as N0. destruct N0 as [(n & Hn & Hf & _) B1 B2 B3 B4 S0 S1 Hne Nd]. pose proof (nd3 _ _ _ Nd) as (N1 & N2 & N3).
  destruct (col_V _ _ _ _ _ _ _ _ _ N) as (Cuc & Cur & Cdn).
  pose proof B3 as (Bl & Btl & Btr & Btd). rewrite Btl in Hw. rewrite Btr in Hs. pose proof B4 as (Dlt & Dtl & Dtr & Dtu).
  destruct (entry_at _ _ _ _ _ _ _ _ _ _ _ N Hw (or_intror eq_refl)) as (mo & ws' & -> & Hw' & Hmo).
  pose proof (reach_step _ _ _ _ Hreach) as Hreach'. destruct (kids_V _ _ _ _ _ _ _ _ _ N) as (_ & _ & K1 & _). rewrite K1 in Hreach'. cbn [app] in Hreach'.
  assert (C1 : Nat.eqb ur ul = false) by (apply Nat.eqb_neq; auto). assert (C2 : Nat.eqb ur uc = false) by (apply Nat.eqb_neq; auto).
  assert (Ek : kc ur = kcV (colour ur) ur ul uc) by exact (kc_V ur _ _ _ _ _ _ _ _ _ N Btd). unfold kcV in Ek. rewrite C1, C2 in Ek.
  destruct ms as [m|]; cbn [ok_at snd fst] in Hcur.
  - destruct Hcur as (Hc & Hm). destruct mo as [lm|]; [|congruence]. destruct Hmo as (_ & l & El & Hol).
    destruct (at_facts ur t _ m Ht Btd Hm) as (e1 & f1 & u & gl & gr & He1 & Hf1 & Hu & Hgl & Hgr).
    assert (e1 = s1) by congruence. subst e1. assert (Er : R = Some f1) by congruence.
    assert (Hdf : v <> smin f1). { rewrite Er in B4. apply top_r in B4. auto. }
    destruct (extend_left (E := E) W Es M gv st HG HM HF cw D HP ur s1 f1 u v t gl gr n Ht He1 Hf1 Hu Btd Hgl Hgr Hn m Hm (eq_sym S1) Hdf) as (Qs & m' & Em & Hq & Ho & Hv & Hcn).
    exists (mkT dn (Some (OTwo lm m')) bs (concat (map wst ws'))), ws', (Qs ++ []). split.
    + eapply step_some; [reflexivity|exact Hn|exact Hf|exact Em|]. apply emits_ret. intros fuel s. cbn [finish_step]. unfold step_v. cbn [x_ti x_mst x_bs]. rewrite C1, C2, Nat.eqb_refl. rewrite Hmst. reflexivity.
    + rewrite app_nil_r. split; cbn [x_ti x_ms x_bs x_mst]; auto.
      * cbn [ok_at snd fst]. split; [congruence|]. exists l, f1, v. repeat split; auto; try congruence.
        -- intros E1. rewrite El in B1. apply bot_l in B1. auto.
        -- intros E1. rewrite Er in B3. apply bot_r in B3. auto.
      * now rewrite Dtl.
      * now rewrite Dtr.
      * apply Forall_app. auto.
      * intros w Ha. specialize (Hval w Ha). specialize (Hv w Ha). rewrite sumq_app, sumq_snoc. rewrite (ev_at w ur _ _ _ Hc Btd He1 Hf1).
        rewrite S1, Nat.eqb_refl. destruct (Nat.eqb_spec v (smin f1)); [contradiction|]. cbn [sumq oval wval snd fst w_m Open.mval] in *. lra.
      * rewrite pcount_app, sumz_snoc, Ek, Hc. pose proof (open_len _ _ _ _ _ _ _ Ho). cbn [sumz ocnt wcnt snd fst w_m mcount] in *. lia.
  - destruct mo as [lm|]; [destruct Hmo; congruence|]. exists (mkT dn None bs (concat (map wst ws'))), ws', []. split.
    + apply emits_ret. intros fuel s. erewrite step_none by (cbn; eauto). cbn [finish_step]. unfold step_v. cbn [x_ti x_mst x_bs]. unfold sbind at 1. cbn [fst snd]. rewrite Nat.eqb_refl. rewrite Hmst. reflexivity.
    + rewrite app_nil_r. split; cbn [x_ti x_ms x_bs x_mst]; auto.
      * cbn [ok_at snd fst]. congruence.
      * now rewrite Dtl.
      * now rewrite Dtr.
      * intros w Ha. specialize (Hval w Ha). rewrite sumq_snoc, (ev_none w ur Hcur). cbn [sumq oval wval snd fst w_m] in *. lra.
      * rewrite sumz_snoc, Ek, Hcur. cbn [sumz ocnt wcnt snd fst w_m] in *. lia.
Qed.

(** *** The two branches of an I nexus *)

Lemma step_il t0 x ws P Ps t v L R s s' ul ur dl dr : inv t0 x ws P Ps -> nth_error ts (x_ti x) = Some t -> nodeI v L R s s' ul ur dl dr -> x_ti x = ul ->
  exists x' ws' Qs, emits D (fun fuel s => step fuel st x t v s) Qs x' /\ inv t0 x' ws' (P ++ [x_ti x]) (Ps ++ Qs).
Proof.
  intros [Hcur Hbs Hw Hs Hmst Hok Hval Hcnt Hreach] Ht N Hi. destruct x as [ti ms bs mst]. cbn [x_ti x_ms x_bs x_mst] in *. subst ti.
  pose proof N as N0. destruct N0 as [(n & Hn & Hf & _) B1 B2 B3 B4 S0 S1 Nd Nd'].
  destruct (col_I _ _ _ _ _ _ _ _ _ N) as (_ & Cdl & _).
  pose proof B1 as (Bl & Btl & Btr & Btd). rewrite Btl in Hw. rewrite Btr in Hs. pose proof B3 as (Dlt & Dtl & Dtr & Dtu).
  pose proof (reach_step _ _ _ _ Hreach) as Hreach'. destruct (kids_I _ _ _ _ _ _ _ _ _ N) as (K1 & _). rewrite K1 in Hreach'. cbn [app] in Hreach'.
  pose proof (kc_I ul _ _ _ _ _ _ _ _ _ N Btd) as Ek.
  assert (Hs' : slinked (Some s') (map fst bs)).
  { destruct (map fst bs) as [|b bs']; [discriminate|]. destruct Hs as (e & f & [= <-] & He & Hb & Hs). exists e, s'. repeat split; auto. apply (below_snoc e s); auto. exists v, L, R, ul, ur, dl, dr. exact N. }
  destruct ms as [m|]; cbn [ok_at snd fst] in Hcur.
  - destruct Hcur as (Hc & Hm). destruct (at_facts ul t _ m Ht Btd Hm) as (e1 & f1 & u & gl & gr & He1 & Hf1 & Hu & Hgl & Hgr).
    assert (f1 = s) by congruence. subst f1. assert (El : L = Some e1) by congruence.
    assert (Hde : v <> smin e1). { rewrite El in B3. apply top_l in B3. auto. }
    destruct (extend_right (E := E) W Es M gv st HG HM HF cw D HP ul e1 s u v t gl gr n Ht He1 Hf1 Hu Btd Hgl Hgr Hn m Hm (eq_sym S0) Hde) as (Qs & m' & Em & Hq & Ho & Hv & Hcn).
    exists (mkT dl (Some (OOne m')) bs mst), ws, (Qs ++ []). split.
    + eapply step_some; [reflexivity|exact Hn|exact Hf|exact Em|]. apply emits_ret. intros fuel s1. cbn [finish_step x_ti x_mst x_bs]. now rewrite Nat.eqb_refl.
    + rewrite app_nil_r. split; cbn [x_ti x_ms x_bs x_mst]; auto.
      * cbn [ok_at snd fst]. split; [congruence|]. exists e1, s', v. repeat split; auto. congruence.
      * now rewrite Dtl.
      * now rewrite Dtr.
      * apply Forall_app. auto.
      * intros w Ha. specialize (Hval w Ha). specialize (Hv w Ha). rewrite sumq_app, sumq_snoc. rewrite (ev_at w ul _ _ _ Hc Btd He1 Hf1).
        rewrite S0, Nat.eqb_refl. destruct (Nat.eqb_spec v (smin e1)); [contradiction|]. cbn [sumq oval wval snd fst] in *. rewrite (mval_l st dl s' v Dtr Dtu w m' (eq_sym S1)). lra.
      * rewrite pcount_app, sumz_snoc, Ek, Hc. cbn [sumz ocnt wcnt snd fst mcount] in *. lia.
  - exists (mkT dl None bs mst), ws, []. split.
    + apply emits_ret. intros fuel s1. erewrite step_none by (cbn; eauto). cbn [finish_step x_ti x_mst x_bs]. now rewrite Nat.eqb_refl.
    + rewrite app_nil_r. split; cbn [x_ti x_ms x_bs x_mst]; auto.
      * cbn [ok_at snd fst]. congruence.
      * now rewrite Dtl.
      * now rewrite Dtr.
      * intros w Ha. specialize (Hval w Ha). rewrite sumq_snoc, (ev_none w ul Hcur). cbn [sumq oval wval snd fst] in *. lra.
      * rewrite sumz_snoc, Ek, Hcur. cbn [sumz ocnt wcnt snd fst] in *. lia.
Qed.

Lemma step_ir t0 x ws P Ps t v L R s s' ul ur dl dr : inv t0 x ws P Ps -> nth_error ts (x_ti x) = Some t -> nodeI v L R s s' ul ur dl dr -> x_ti x = ur ->
  exists x' ws' Qs, emits D (fun fuel s => step fuel st x t v s) Qs x' /\ inv t0 x' ws' (P ++ [x_ti x]) (Ps ++ Qs).
Proof.
  intros [Hcur Hbs Hw Hs Hmst Hok Hval Hcnt Hreach] Ht N Hi. destruct x as [ti ms bs mst]. cbn [x_ti x_ms x_bs x_mst] in *. subst ti.
  pose proof N as N0. destruct N0 as [(n & Hn & Hf & _) B1 B2 B3 B4 S0 S1 Nd Nd']. pose proof (nd2 _ _ Nd) as N1.
  destruct (col_I _ _ _ _ _ _ _ _ _ N) as (_ & _ & Cdr).
  pose proof B2 as (Bl & Btl & Btr & Btd). rewrite Btl in Hw. rewrite Btr in Hs. pose proof B4 as (Dlt & Dtl & Dtr & Dtu).
  pose proof (reach_step _ _ _ _ Hreach) as Hreach'. destruct (kids_I _ _ _ _ _ _ _ _ _ N) as (_ & K1 & _). rewrite K1 in Hreach'. cbn [app] in Hreach'.
  pose proof (kc_I ur _ _ _ _ _ _ _ _ _ N Btd) as Ek. assert (C1 : Nat.eqb ur ul = false) by (apply Nat.eqb_neq; auto).
  assert (Hst : istep s s') by (exists v, L, R, ul, ur, dl, dr; exact N).
  assert (Hw' : wlinked ws (Some s')).
  { destruct ws as [|[v' mo c] ws]; [discriminate|]. cbn [wlinked w_v w_m w_c] in *. destruct Hw as (L' & R' & s0' & s1' & ul' & uc' & ur' & dn' & e' & N' & [= <-] & Hb & Hw & Hmo).
    exists L', R', s0', s1', ul', uc', ur', dn', s'. split; [exact N'|]. split; [auto|]. split; [|split; auto]. inversion Hb as [e0 E0 E1|e0 e1 f0 H1 H2 E0 E1].
    - exfalso. apply (istep_V _ _ _ _ _ _ _ _ _ s s' N'); auto. rewrite E1. destruct c; apply N'.
    - now rewrite <- (istep_fun _ _ _ Hst H1). }
  destruct ms as [m|]; cbn [ok_at snd fst] in Hcur.
  - destruct Hcur as (Hc & Hm). destruct (at_facts ur t _ m Ht Btd Hm) as (e1 & f1 & u & gl & gr & He1 & Hf1 & Hu & Hgl & Hgr).
    assert (e1 = s) by congruence. subst e1. assert (El : R = Some f1) by congruence.
    assert (Hde : v <> smin f1). { rewrite El in B4. apply top_r in B4. auto. }
    assert (Hne : v <> smax f1). { rewrite El in B2. apply bot_r in B2. auto. }
    destruct (extend_left (E := E) W Es M gv st HG HM HF cw D HP ur s f1 u v t gl gr n Ht He1 Hf1 Hu Btd Hgl Hgr Hn m Hm (eq_sym S0) Hde) as (Qs & m' & Em & Hq & Ho & Hv & Hcn).
    exists (mkT dr (Some (OOne m')) bs mst), ws, (Qs ++ []). split.
    + eapply step_some; [reflexivity|exact Hn|exact Hf|exact Em|]. apply emits_ret. intros fuel s1. cbn [finish_step x_ti x_mst x_bs]. now rewrite C1, Nat.eqb_refl.
    + rewrite app_nil_r. split; cbn [x_ti x_ms x_bs x_mst]; auto.
      * cbn [ok_at snd fst]. split; [congruence|]. exists s', f1, v. repeat split; auto. congruence.
      * now rewrite Dtl.
      * now rewrite Dtr.
      * apply Forall_app. auto.
      * intros w Ha. specialize (Hval w Ha). specialize (Hv w Ha). rewrite sumq_app, sumq_snoc. rewrite (ev_at w ur _ _ _ Hc Btd He1 Hf1).
        rewrite S0, Nat.eqb_refl. destruct (Nat.eqb_spec v (smin f1)); [contradiction|]. cbn [sumq oval wval snd fst] in *. rewrite El in Dtr. rewrite (mval_r st dr f1 v Dtr Dtu w m' Hne). lra.
      * rewrite pcount_app, sumz_snoc, Ek, Hc. cbn [sumz ocnt wcnt snd fst mcount] in *. lia.
  - exists (mkT dr None bs mst), ws, []. split.
    + apply emits_ret. intros fuel s1. erewrite step_none by (cbn; eauto). cbn [finish_step x_ti x_mst x_bs]. now rewrite C1, Nat.eqb_refl.
    + rewrite app_nil_r. split; cbn [x_ti x_ms x_bs x_mst]; auto.
      * cbn [ok_at snd fst]. congruence.
      * now rewrite Dtl.
      * now rewrite Dtr.
      * intros w Ha. specialize (Hval w Ha). rewrite sumq_snoc, (ev_none w ur Hcur). cbn [sumq oval wval snd fst] in *. lra.
      * rewrite sumz_snoc, Ek, Hcur. cbn [sumz ocnt wcnt snd fst] in *. lia.
Qed.

(** *** The branch of an A nexus *)

Lemma step_up t0 x ws P Ps t v L R s0 s1 up dl dc dr : inv t0 x ws P Ps -> nth_error ts (x_ti x) = Some t -> nodeA v L R s0 s1 up dl dc dr -> x_ti x = up ->
  exists x' ws' Qs, emits D (fun fuel s => step fuel st x t v s) Qs x' /\ inv t0 x' ws' (P ++ [x_ti x]) (Ps ++ Qs).
Proof.
  intros [Hcur Hbs Hw Hs Hmst Hok Hval Hcnt Hreach] Ht N Hi. destruct x as [ti ms bs mst]. cbn [x_ti x_ms x_bs x_mst] in *. subst ti.
  pose proof N as N0. destruct N0 as [(n & Hn & Hf & _) B1 B2 B3 B4 S0 S1 Hne Nd].
  destruct (col_A _ _ _ _ _ _ _ _ _ N) as (Cdl & Cdc & Cdr).
  pose proof B1 as (Bl & Btl & Btr & Btd). rewrite Btl in Hw. rewrite Btr in Hs.
  pose proof B2 as (_ & Ll & Lr & Lu). pose proof B3 as (_ & Ml & Mr & Mu). pose proof B4 as (_ & Rl & Rr & Ru).
  pose proof (reach_step _ _ _ _ Hreach) as Hreach'. destruct (kids_A _ _ _ _ _ _ _ _ _ N) as (K1 & _). rewrite K1 in Hreach'. cbn [app] in Hreach'.
  pose proof (kc_A up _ _ _ _ _ _ _ _ _ N Btd) as Ek.
  assert (Hs' : slinked (tr dl) (dc :: dr :: map fst bs)).
  { rewrite Lr. cbn [slinked]. exists s0, s0. repeat split; auto; try constructor. rewrite Mr. exists s1, s1. repeat split; auto; try constructor. now rewrite Rr. }
  destruct ms as [m|]; cbn [ok_at snd fst] in Hcur.
  - destruct Hcur as (Hc & Hm). destruct (at_facts up t _ m Ht Btd Hm) as (e1 & f1 & u & gl & gr & He1 & Hf1 & Hu & Hgl & Hgr).
    assert (El : L = Some e1) by congruence. assert (Er : R = Some f1) by congruence. rewrite El in B2, Ll, Hw. rewrite Er in B4, Rr, B1.
    assert (Hde : v <> smin e1) by (apply top_l in B2; auto). assert (Hdf : v <> smin f1) by (apply top_r in B4; auto).
    assert (Hne2 : v <> smax f1) by (apply bot_r in B1; auto).
    destruct (extend_split (E := E) W Es M gv st HG HM HF cw up e1 f1 u v t gl gr n Ht He1 Hf1 Hu Btd Hgl Hgr Hn m Hm Hde Hdf) as (m' & ml & mr & Em & Hsp & Hol & Hor & Hv & Hcn).
    exists (mkT dl (Some (OOne ml)) ((dc, None) :: (dr, Some (OOne mr)) :: bs) mst), ws, ([] ++ []). split.
    + eapply step_some; [reflexivity|exact Hn|exact Hf|apply emits_ret; exact Em|]. apply emits_ret. intros fuel s. cbn [finish_step]. unfold step_a. cbn [x_ti x_mst x_bs]. change (sbind (split_m (E := E) st t n m' s) (fun s '(ml, mr) => (s, Ok (mkT dl (Some (OOne ml)) ((dc, None) :: (dr, Some (OOne mr)) :: bs) mst))) = (s, @Ok err _ (mkT dl (Some (OOne ml)) ((dc, None) :: (dr, Some (OOne mr)) :: bs) mst))).
      rewrite Hsp. reflexivity.
    + cbn [app]. rewrite app_nil_r. split; cbn [x_ti x_ms x_bs x_mst map fst]; auto.
      * cbn [ok_at snd fst]. split; [congruence|]. exists e1, s0, v. repeat split; auto.
      * constructor; [|constructor; auto].
        -- cbn [ok_at snd fst]. now rewrite Cdc, Hc.
        -- cbn [ok_at snd fst]. split; [congruence|]. exists s1, f1, v. repeat split; auto.
      * now rewrite Ll.
      * intros w Ha. specialize (Hval w Ha). specialize (Hv w Ha). rewrite sumq_snoc. rewrite (ev_at w up _ _ _ Hc Btd He1 Hf1).
        destruct (Nat.eqb_spec v (smin e1)); [contradiction|]. destruct (Nat.eqb_spec v (smin f1)); [contradiction|]. cbn [sumq oval wval snd fst] in *.
        rewrite (mval_l st dl s0 v Lr Lu w ml (eq_sym S0)), (mval_r st dr f1 v Rr Ru w mr Hne2). lra.
      * rewrite sumz_snoc, Ek, Hc. cbn [sumz ocnt wcnt snd fst mcount] in *. lia.
  - exists (mkT dl None ((dc, Some (OOne (mb_new (n_v n) (n_c n)))) :: (dr, None) :: bs) mst), ws, []. split.
    + apply emits_ret. intros fuel s. erewrite step_none by (cbn; eauto). reflexivity.
    + rewrite app_nil_r. split; cbn [x_ti x_ms x_bs x_mst map fst]; auto.
      * cbn [ok_at snd fst]. congruence.
      * constructor; [|constructor; auto].
        -- cbn [ok_at snd fst]. split; [now rewrite Cdc, Hcur|]. exists s0, s1, v. repeat split; auto. left. split; auto.
           apply (open_new W Es M gv st HF); auto. destruct (tl_spans W Es M gv st HG HM HF dc s0 Ml) as (g & _ & _ & Hg & _). eapply nth_lt; eauto.
        -- cbn [ok_at snd fst]. congruence.
      * now rewrite Ll.
      * intros w Ha. specialize (Hval w Ha). rewrite sumq_snoc, (ev_none w up Hcur). cbn [sumq oval wval snd fst] in *.
        rewrite (mval_l st dc s1 v Mr Mu w _ (eq_sym S1)). cbn [mb_new mb_vec map snd]. change (wsum w [n_c n]) with 0%Q. lra.
      * rewrite sumz_snoc, Ek, Hcur. cbn [sumz ocnt wcnt snd fst mcount mb_new mb_vec length] in *. lia.
Qed.

Lemma step_ok t0 x ws P Ps t d : inv t0 x ws P Ps -> nth_error ts (x_ti x) = Some t -> t_d t = Some d ->
  exists x' ws' Qs, emits D (fun fuel s => step fuel st x t d s) Qs x' /\ inv t0 x' ws' (P ++ [x_ti x]) (Ps ++ Qs).
Proof.
  intros H Ht Hd. assert (Hd' : td (x_ti x) = Some d) by (unfold Faces.td; now rewrite Ht).
  destruct (above_cases W Es M gv st HG HM HF HD (x_ti x) d Hd') as [(L & R & s0 & s1 & ul & uc & ur & dn & N & [Hi|[Hi|Hi]])|[(L & R & s & s' & ul & ur & dl & dr & N & [Hi|Hi])|(L & R & s0 & s1 & up & dl & dc & dr & N & Hi)]].
  - eapply step_ul; eauto.
  - eapply step_uc; eauto.
  - eapply step_ur; eauto.
  - eapply step_il; eauto.
  - eapply step_ir; eauto.
  - eapply step_up; eauto.
Qed.

(** ** The whole traversal *)

Definition result (Ps : list piece) : Prop :=
  Forall piece_ok Ps /\ (forall w, anti w -> sumq (pval w) Ps == sumq (ev w) (seq 0 (length ts)))%Q /\
  Z.of_nat (pcount Ps) = sumz kc (seq 0 (length ts)).

Lemma sumz_perm {A} (f : A -> Z) l l' : Permutation.Permutation l l' -> sumz f l = sumz f l'.
Proof. induction 1; cbn; lia. Qed.

Lemma emits_from {A} (f g : nat -> log -> sres log err A) Ps a N0 : (forall fuel t, N0 <= fuel -> g fuel t = f fuel t) ->
  (forall fuel t, snd (g fuel t) = Crash Fuel \/ g fuel t = f fuel t) -> emits D f Ps a -> emits D g Ps a.
Proof.
  intros H H' (N & c & T & S1 & E1 & F1 & R1 & L1). exists (N + N0), c, T. repeat split; auto.
  - intros fuel t Hf. rewrite H by lia. apply R1. lia.
  - intros fuel t. destruct (H' fuel t) as [K|K]; [now left|]. rewrite K. apply L1.
Qed.

Lemma loop_ok t0 : (forall i, i < length ts -> tu i = None -> i = t0) -> forall n x ws P Ps, inv t0 x ws P Ps -> length ts - length P <= n ->
  exists Qs, result (Ps ++ Qs) /\ forall N0 kk, (forall fuel, N0 <= fuel -> n < kk fuel) ->
    emits D (fun fuel s => tri_loop (E := E) gv rec_new rec_ext cw fuel st (kk fuel) x s) Qs tt.
Proof.
  intros Htop. induction n as [|n IH]; intros x ws P Ps Hinv Hn.
  - exfalso. destruct (i_reach _ _ _ _ _ Hinv) as [H1 H2 _ _].
    assert (Hlen : length (P ++ x_ti x :: map fst (x_bs x)) <= length (seq 0 (length ts))).
    { apply NoDup_incl_length; auto. intros i Hi. apply in_seq. specialize (H2 i Hi). lia. }
    rewrite app_length, seq_length in Hlen. cbn in Hlen. lia.
  - assert (Hlt : x_ti x < length ts). { apply (r_lt _ _ _ (i_reach _ _ _ _ _ Hinv)). apply in_or_app. right. now left. }
    destruct (lt_nth _ _ _ Hlt) as (t & Ht). destruct (t_d t) as [d|] eqn:Hd.
    + destruct (step_ok t0 x ws P Ps t d Hinv Ht Hd) as (x' & ws' & Qs & He & Hinv'). destruct (IH x' ws' _ _ Hinv') as (Qs' & Hres & Hloop).
      { rewrite app_length. cbn. lia. }
      exists (Qs ++ Qs'). split; [now rewrite app_assoc|]. intros N0 kk Hk.
      apply (emits_from (fun fuel s => sbind (step fuel st x t d s) (fun s x => tri_loop (E := E) gv rec_new rec_ext cw fuel st (pred (kk fuel)) x s)) _ _ _ N0).
      * intros fuel s Hf. specialize (Hk fuel Hf). destruct (kk fuel) as [|k]; [lia|]. cbn [tri_loop pred]. unfold rd. rewrite Ht. unfold lift at 1. unfold sbind at 1. cbn [fst snd]. rewrite Hd. reflexivity.
      * intros fuel s. destruct (kk fuel) as [|k]; [now left|right]. cbn [tri_loop pred]. unfold rd. rewrite Ht. unfold lift at 1. unfold sbind at 1. cbn [fst snd]. rewrite Hd. reflexivity.
      * apply (emits_bind D (fun fuel s => step fuel st x t d s) Qs x' (fun a fuel s => tri_loop (E := E) gv rec_new rec_ext cw fuel st (pred (kk fuel)) a s)); auto.
        apply (Hloop N0). intros fuel Hf. specialize (Hk fuel Hf). lia.
    + assert (Hd' : td (x_ti x) = None) by (unfold Faces.td; now rewrite Ht). destruct Hinv as [Hcur Hbs Hw Hs Hmst Hok Hval Hcnt Hreach].
      assert (El : tl (x_ti x) = None).
      { destruct (tl (x_ti x)) as [e|] eqn:E'; auto. destruct (tl_spans W Es M gv st HG HM HF _ e E') as (? & ? & ? & _ & K & _). congruence. }
      assert (Er : tr (x_ti x) = None).
      { destruct (tr (x_ti x)) as [e|] eqn:E'; auto. destruct (tr_spans W Es M gv st HG HM HF _ e E') as (? & ? & ? & _ & K & _). congruence. }
      rewrite El in Hw. rewrite Er in Hs. destruct ws as [|a ws]; [|destruct Hw as (? & ? & ? & ? & ? & ? & ? & ? & ? & _ & K & _); discriminate].
      destruct x as [ti ms bs mst]. cbn [x_ti x_ms x_bs x_mst] in *. destruct bs as [|b bs]; [|destruct Hs as (? & ? & K & _); discriminate].
      destruct ms as [m|]. { destruct Hcur as (_ & e & f & u & K & _). cbn [fst] in K. congruence. }
      cbn [concat map] in Hmst. subst mst. exists []. split.
      * rewrite app_nil_r. pose proof (reach_all t0 P ti Hreach Hd' Htop) as Hperm. split; [auto|]. split.
        -- intros w Ha. specialize (Hval w Ha). cbn [oval snd sumq] in Hval. rewrite <- (sumq_perm (ev w) _ _ Hperm), sumq_snoc.
           assert (ev w ti == 0)%Q as -> by (unfold ev; rewrite Hd'; now destruct (colour ti)). lra.
        -- cbn [ocnt snd sumz] in Hcnt. rewrite <- (sumz_perm kc _ _ Hperm), sumz_snoc. unfold kc at 2. rewrite Hd'. lia.
      * intros N0 kk Hk. apply (emits_from (fun fuel s => (s, Ok tt)) _ _ _ N0); [| |now apply emits_ret].
        -- intros fuel s Hf. specialize (Hk fuel Hf). destruct (kk fuel) as [|k]; [lia|]. cbn [tri_loop x_ti]. unfold rd. rewrite Ht. unfold lift at 1. unfold sbind at 1. cbn [fst snd]. now rewrite Hd.
        -- intros fuel s. destruct (kk fuel) as [|k]; [now left|right]. cbn [tri_loop x_ti]. unfold rd. rewrite Ht. unfold lift at 1. unfold sbind at 1. cbn [fst snd]. now rewrite Hd.
Qed.

Lemma topq_top qs q i : topq qs q i -> exists N, forall k, N <= k -> top_trapezoid (C := Q) k qs q = Ok i.
Proof.
  induction 1 as [q i H|q l r c i H _ (N & IH)].
  - exists 1. intros [|k] Hk; [lia|]. cbn. unfold rd. now rewrite H.
  - exists (S N). intros [|k] Hk; [lia|]. cbn. unfold rd. rewrite H. cbn. apply IH. lia.
Qed.
Lemma topq_any qs q i k : topq qs q i -> top_trapezoid (C := Q) k qs q = Crash Fuel \/ top_trapezoid (C := Q) k qs q = Ok i.
Proof.
  intros H. revert k. induction H as [q i H|q l r c i H _ IH]; intros [|k]; [now left| |now left|].
  - right. cbn. unfold rd. now rewrite H.
  - cbn. unfold rd. rewrite H. cbn. apply IH.
Qed.

(** The loop, with the outer budget separate: one iteration for each trapezoid. *)
Lemma traverse_loop : (forall i j, i < length ts -> j < length ts -> tu i = None -> tu j = None -> i = j) ->
  exists t0 Ps, topq (st_qs st) 0 t0 /\ result Ps /\ forall N0 kk, (forall fuel, N0 <= fuel -> length ts < kk fuel) ->
    emits D (fun fuel s => tri_loop (E := E) gv rec_new rec_ext cw fuel st (kk fuel) (mkT t0 None [] []) s) Ps tt.
Proof.
  intros Hone. destruct (c_top _ _ _ _ _ HC) as (t0 & t & Hq & Ht & Hu). assert (Hu' : tu t0 = None) by (unfold Faces.tu; now rewrite Ht).
  assert (Hl : t0 < length ts) by (eapply nth_lt; eauto).
  assert (Hinv : inv t0 (mkT t0 None [] []) [] [] []).
  { assert (El : tl t0 = None).
    { destruct (tl t0) as [e|] eqn:E'; auto. destruct (tl_spans W Es M gv st HG HM HF _ e E') as (? & ? & ? & _ & _ & K & _). congruence. }
    assert (Er : tr t0 = None).
    { destruct (tr t0) as [e|] eqn:E'; auto. destruct (tr_spans W Es M gv st HG HM HF _ e E') as (? & ? & ? & _ & _ & K & _). congruence. }
    split; cbn [x_ti x_ms x_bs x_mst map]; auto.
    - cbn [ok_at snd fst]. now apply colour_top.
    - intros w _. cbn. reflexivity.
    - now apply reach_start. }
  destruct (loop_ok t0 (fun i Hi Hui => Hone i t0 Hi Hl Hui Hu') (length ts) _ _ _ _ Hinv) as (Qs & Hres & Hloop). { cbn. lia. }
  exists t0, Qs. auto.
Qed.

Theorem traverse_ok : (forall i j, i < length ts -> j < length ts -> tu i = None -> tu j = None -> i = j) ->
  exists Ps, result Ps /\ emits D (fun fuel s => triangulate_inner (E := E) gv rec_new rec_ext cw fuel st s) Ps tt.
Proof.
  intros Hone. destruct (traverse_loop Hone) as (t0 & Ps & Hq & Hres & Hloop). destruct (topq_top _ _ _ Hq) as (N & HN).
  exists Ps. split; [exact Hres|]. apply (emits_from (fun fuel s => tri_loop (E := E) gv rec_new rec_ext cw fuel st fuel (mkT t0 None [] []) s) _ _ _ N).
  - intros fuel s Hf. unfold triangulate_inner. rewrite (HN fuel Hf). reflexivity.
  - intros fuel s. unfold triangulate_inner. destruct (topq_any _ _ _ fuel Hq) as [->| ->]; [now left|now right].
  - apply (Hloop (S (length ts)) (fun k => k)). intros. lia.
Qed.

End Traverse.
