(** Sums over the finished trapezoidation: every segment has one trapezoid on either side at every height. *)
From Coq Require Import QArith Lqa List Arith Lia Bool ZArith.
From Verif Require Import Base Coord Trap Mono Tri Lanes Plane MonoGeom Geo Region TrapInv Faces Open Traverse.
Import ListNotations.
Local Open Scope nat_scope.

(** ** Sums *)

Lemma sumq_zero {A} (f : A -> Q) l : (forall x, In x l -> f x == 0)%Q -> (sumq f l == 0)%Q.
Proof. induction l as [|a l IH]; intros H; cbn [sumq]; [reflexivity|]. rewrite (H a) by now left. rewrite IH; [ring|]. intros x Hx. apply H. now right. Qed.
Lemma sumq_plus {A} (f g : A -> Q) l : (sumq (fun x => f x + g x) l == sumq f l + sumq g l)%Q.
Proof. induction l as [|a l IH]; cbn [sumq]; [ring|]. rewrite IH. ring. Qed.
Lemma sumq_swap {A B} (f : A -> B -> Q) l l' : (sumq (fun x => sumq (f x) l') l == sumq (fun y => sumq (fun x => f x y) l) l')%Q.
Proof.
  induction l as [|a l IH]; cbn [sumq]. { symmetry. apply sumq_zero. reflexivity. }
  rewrite IH, <- sumq_plus. reflexivity.
Qed.
Lemma sumq_one (F : nat -> Q) l a : NoDup l -> In a l -> (sumq (fun x => if Nat.eqb x a then F x else 0) l == F a)%Q.
Proof.
  induction l as [|b l IH]; intros N H; [easy|]. inversion N as [|? ? N1 N2]; subst. cbn [sumq]. destruct H as [->|H].
  - rewrite Nat.eqb_refl. rewrite sumq_zero; [ring|]. intros x Hx. destruct (Nat.eqb_spec x a); [congruence|reflexivity].
  - rewrite IH by auto. destruct (Nat.eqb_spec b a); [congruence|]. ring.
Qed.

(** Regrouping a sum by the value of a partial function that takes every value below [m] that counts once. *)
Lemma sumq_key (key : nat -> option nat) (F : nat -> Q) n m :
  (forall e, e < m -> (F e == 0)%Q \/ exists i, i < n /\ key i = Some e /\ forall j, j < n -> key j = Some e -> j = i) -> (forall i e, i < n -> key i = Some e -> e < m) ->
  (sumq (fun i => match key i with Some e => F e | None => 0 end) (seq 0 n) == sumq F (seq 0 m))%Q.
Proof.
  intros H1 H2.
  transitivity (sumq (fun i => sumq (fun e => match key i with Some e' => if Nat.eqb e e' then F e else 0 | None => 0 end) (seq 0 m)) (seq 0 n))%Q.
  - apply sumq_ext. intros i Hi. apply in_seq in Hi. destruct (key i) as [e|] eqn:E.
    + rewrite (sumq_one F); [reflexivity|apply seq_NoDup|]. apply in_seq. assert (e < m) by (eapply H2; eauto; lia). lia.
    + symmetry. apply sumq_zero. reflexivity.
  - rewrite sumq_swap. apply sumq_ext. intros e He. apply in_seq in He. destruct (H1 e) as [Z|(i & Hi & Hk & Hu)]; [lia| |].
    { rewrite Z. apply sumq_zero. intros j _. destruct (key j) as [e'|]; [|reflexivity]. now destruct (Nat.eqb e e'). }
    rewrite <- (sumq_one (fun _ => F e) (seq 0 n) i); [|apply seq_NoDup|apply in_seq; lia]. apply sumq_ext. intros j Hj. apply in_seq in Hj.
    destruct (Nat.eqb_spec j i) as [->|Hne].
    + rewrite Hk, Nat.eqb_refl. reflexivity.
    + destruct (key j) as [e'|] eqn:E; [|reflexivity]. destruct (Nat.eqb_spec e e') as [<-|]; [|reflexivity]. exfalso. apply Hne, Hu; auto. lia.
Qed.

Section Sweep.
Context {I : Type}.
Variables (W : list point) (Es : list edge) (M : Q) (gv : I -> point) (st : state Q I).
Hypothesis HG : geo W Es.
Hypothesis HM : shear M W.
Hypothesis HF : full W Es M gv st.
Hypothesis HD : forall v n, nth_error (st_ns st) v = Some n -> deg n = 2.

Notation ts := (st_ts st).
Notation ss := (st_ss st).
Notation ns := (st_ns st).
Notation tl := (Faces.tl st).
Notation tr := (Faces.tr st).
Notation td := (Faces.td st).
Notation tu := (Faces.tu st).
Notation smin := (Faces.smin st).
Notation smax := (Faces.smax st).
Notation pnt := (Faces.pnt st).
Notation hv := (Faces.hv M st).
Notation bot := (Faces.bot st).
Notation top := (Faces.top st).
Notation nodeV := (Faces.nodeV st).
Notation nodeI := (Faces.nodeI st).
Notation nodeA := (Faces.nodeA st).
Notation colour := (Faces.colour M st).
Notation scol := (Faces.scol M st).
Let HC : core W Es M gv st := f_core _ _ _ _ _ HF.

(** The right ([true]) or left side of a trapezoid. *)
Definition sd (b : bool) (i : nat) : option nat := if b then tr i else tl i.

Lemma sd_spans b i s : sd b i = Some s -> exists g d u, nth_error ss s = Some g /\ td i = Some d /\ tu i = Some u /\
  (hv (smin s) <= hv d)%Q /\ (hv d < hv u)%Q /\ (hv u <= hv (smax s))%Q.
Proof. destruct b; cbn [sd]; intros H; [eapply tr_spans|eapply tl_spans]; eauto. Qed.

Lemma sd_lt b i s : sd b i = Some s -> i < length ts.
Proof. intros H. destruct b; unfold sd, Faces.tr, Faces.tl in H; destruct (nth_error ts i) eqn:E; try discriminate; eapply nth_lt; eauto. Qed.

(** A side does not start at the vertex above its trapezoid, nor end at the one below. *)
Lemma sd_tu b i e v : sd b i = Some e -> tu i = Some v -> smin e <> v.
Proof. intros H Hu <-. destruct (sd_spans b i e H) as (g & d & u & _ & _ & Hu' & H1 & H2 & _). assert (u = smin e) by congruence. subst u. lra. Qed.
Lemma sd_td b i e v : sd b i = Some e -> td i = Some v -> smax e <> v.
Proof. intros H Hu <-. destruct (sd_spans b i e H) as (g & d & u & _ & Hd & _ & H1 & H2 & H3). assert (d = smax e) by congruence. subst d. lra. Qed.

(** The trapezoids above ([Asc]) or below a vertex from left to right, for any number of segments. *)
Definition at_v (d : dir) (i : nat) (l r : option nat) (v : nat) : Prop := tl i = l /\ tr i = r /\ (match d with Asc => td i | Desc => tu i end) = Some v.

Inductive chain (d : dir) (v : nat) (L R : option nat) : list nat -> list nat -> Prop :=
| ch0 i : at_v d i L R v -> chain d v L R [] [i]
| ch1 s i j : at_v d i L (Some s) v -> at_v d j (Some s) R v -> chain d v L R [s] [i; j]
| ch2 s s' i j k : at_v d i L (Some s) v -> at_v d j (Some s) (Some s') v -> at_v d k (Some s') R v -> chain d v L R [s; s'] [i; j; k].

Lemma at_v_of d i t l r v : nth_error ts i = Some t -> t_l t = l -> t_r t = r -> tend (opp d) t = Some v -> at_v d i l r v.
Proof. intros H H1 H2 H3. unfold at_v, Faces.tl, Faces.tr, Faces.td, Faces.tu. rewrite H. destruct d; auto. Qed.

Lemma lane_step d v bs ids : lane ts d v bs ids -> match bs with
  | b :: ((b' :: _) as bs') => exists i ids', ids = i :: ids' /\ at_v d i b b' v /\ lane ts d v bs' ids'
  | _ => ids = [] end.
Proof.
  intros H. apply lane_inv in H. destruct ids as [|i ids].
  - destruct H as (b & ->). reflexivity.
  - destruct H as (b & b' & bs' & -> & (t & H1 & H2 & H3 & H4) & H). exists i, ids. split; auto. split; auto. eapply at_v_of; eauto.
Qed.

Lemma chain_of d v L R E ids : length E <= 2 -> lane ts d v (bnd L E R) ids -> chain d v L R E ids.
Proof.
  intros K H. unfold bnd in H. destruct E as [|s [|s' [|]]]; cbn in K; try lia; cbn [map app] in H.
  - apply lane_step in H. destruct H as (i & ids' & -> & A & H). apply lane_step in H. subst. now constructor.
  - apply lane_step in H. destruct H as (i & ids' & -> & A & H). apply lane_step in H. destruct H as (j & ids'' & -> & B & H). apply lane_step in H. subst. now constructor.
  - apply lane_step in H. destruct H as (i & ids' & -> & A & H). apply lane_step in H. destruct H as (j & ids'' & -> & B & H). apply lane_step in H. destruct H as (k & ids3 & -> & C & H). apply lane_step in H. subst. now constructor.
Qed.

Lemma node_chain v n : nth_error ns v = Some n -> exists L R, (forall d, exists E ids, seps n d = E /\ iter_trapezoids n d = ids /\ chain d v L R E ids) /\
  (forall e, In e (seps n Asc) -> smin e = v) /\ (forall e, In e (seps n Desc) -> smax e = v).
Proof.
  intros Hn. destruct (f_n _ _ _ _ _ HF v n Hn) as [_ Hs _ (L & R & Hl)]. exists L, R. split; [intros d; eexists _, _; split; [reflexivity|]; split; [reflexivity|]; apply chain_of; auto; unfold seps; destruct (filter_dividers n d); cbn; lia|].
  split; intros e He; destruct (Hs _ e He) as (g & Hg & E); destruct (seg_at W Es M gv st HG HM HF e g Hg) as (E1 & E2 & _); cbn in E; congruence.
Qed.

(** Above the upper vertex the side continues, if it does not end there. *)
Lemma up_ex b i e u : sd b i = Some e -> tu i = Some u -> u <> smax e -> exists j, sd b j = Some e /\ td j = Some u.
Proof.
  intros He Hu Hne. destruct (tu_n W Es M gv st HF i u Hu) as (n & Hn & Hi). destruct (node_chain u n Hn) as (L & R & H & SA & SD).
  assert (G : exists j, sd b j = (if b then R else L) /\ td j = Some u).
  { destruct (H Asc) as (E & ids & Eq & Ei & CA). destruct CA as [j A1|s j k A1 A2|s s' j k l A1 A2 A3]; unfold at_v in *; cbv iota in *; destruct b; cbn [sd]; [exists j|exists j|exists k|exists j|exists l|exists j]; tauto. }
  destruct G as (j & G1 & G2). exists j. split; auto. rewrite G1. destruct (H Desc) as (E & ids & Eq & Ei & CD). destruct CD as [k A1|s k l A1 A2|s s' k l m A1 A2 A3]; rewrite Ei in Hi; unfold at_v in *; cbv iota in *; rewrite Eq in SD; destruct b; cbn [sd] in *; cbn [In] in *;
    repeat match goal with K : _ \/ _ |- _ => destruct K as [<-|K] | K : False |- _ => destruct K end; try (destruct A1 as (A1 & A1' & _)); try (destruct A2 as (A2 & A2' & _)); try (destruct A3 as (A3 & A3' & _)); try congruence;
    exfalso; apply Hne; symmetry; apply SD; (left; congruence) || (right; left; congruence).
Qed.

Lemma dn_ex b i e d : sd b i = Some e -> td i = Some d -> d <> smin e -> exists j, sd b j = Some e /\ tu j = Some d.
Proof.
  intros He Hu Hne. destruct (td_n W Es M gv st HF i d Hu) as (n & Hn & Hi). destruct (node_chain d n Hn) as (L & R & H & SA & SD).
  assert (G : exists j, sd b j = (if b then R else L) /\ tu j = Some d).
  { destruct (H Desc) as (E & ids & Eq & Ei & CA). destruct CA as [j A1|s j k A1 A2|s s' j k l A1 A2 A3]; unfold at_v in *; cbv iota in *; destruct b; cbn [sd]; [exists j|exists j|exists k|exists j|exists l|exists j]; tauto. }
  destruct G as (j & G1 & G2). exists j. split; auto. rewrite G1. destruct (H Asc) as (E & ids & Eq & Ei & CD). destruct CD as [k A1|s k l A1 A2|s s' k l m A1 A2 A3]; rewrite Ei in Hi; unfold at_v in *; cbv iota in *; rewrite Eq in SA; destruct b; cbn [sd] in *; cbn [In] in *;
    repeat match goal with K : _ \/ _ |- _ => destruct K as [<-|K] | K : False |- _ => destruct K end; try (destruct A1 as (A1 & A1' & _)); try (destruct A2 as (A2 & A2' & _)); try (destruct A3 as (A3 & A3' & _)); try congruence;
    exfalso; apply Hne; symmetry; apply SA; (left; congruence) || (right; left; congruence).
Qed.

Lemma bot_uniq b i j e d : sd b i = Some e -> sd b j = Some e -> td i = Some d -> td j = Some d -> i = j.
Proof.
  intros Hi0 Hj0 Hdi Hdj. destruct (td_n W Es M gv st HF i d Hdi) as (n & Hn & Hi). destruct (td_n W Es M gv st HF j d Hdj) as (n' & Hn' & Hj). assert (n' = n) by congruence. subst n'. clear Hn'.
  destruct (node_chain d n Hn) as (L & R & H & SA & SD).
  assert (G : forall s, In s (seps n Asc) -> Some s <> (if b then R else L)).
  { intros s Hs K. assert (Q1 : exists k, sd b k = Some s /\ tu k = Some d).
    { rewrite K. destruct (H Desc) as (E & ids & Eq & Ei & CA). destruct CA as [k A1|s1 k l A1 A2|s1 s2 k l m A1 A2 A3]; unfold at_v in *; cbv iota in *; destruct b; cbn [sd]; [exists k|exists k|exists l|exists k|exists m|exists k]; tauto. }
    destruct Q1 as (k & Q1 & Q2). apply (sd_tu b k s d Q1 Q2). now apply SA. }
  destruct (H Asc) as (E & ids & Eq & Ei & CD). destruct CD as [k A1|s k l A1 A2|s s' k l m A1 A2 A3]; rewrite Ei in Hi, Hj; unfold at_v in *; cbv iota in *; rewrite Eq in *; cbn [In] in *;
    try (destruct A1 as (A1 & A1' & _)); try (destruct A2 as (A2 & A2' & _)); try (destruct A3 as (A3 & A3' & _)).
  - destruct Hi as [<-|[]], Hj as [<-|[]]. auto.
  - pose proof (G s (or_introl eq_refl)). destruct b; cbn [sd] in *; destruct Hi as [<-|[<-|[]]], Hj as [<-|[<-|[]]]; congruence.
  - pose proof (G s (or_introl eq_refl)). pose proof (G s' (or_intror (or_introl eq_refl))). pose proof (lr_ne W Es M gv st HG HM HF l s s' A2 A2').
    destruct b; cbn [sd] in *; destruct Hi as [<-|[<-|[<-|[]]]], Hj as [<-|[<-|[<-|[]]]]; congruence.
Qed.

(** Every segment has a trapezoid on either side at its lower end. *)
Lemma low_ex b e : e < length ss -> exists i, sd b i = Some e /\ td i = Some (smin e).
Proof.
  intros He. destruct (lt_nth _ _ _ He) as (g & Hg). destruct (seg_at W Es M gv st HG HM HF e g Hg) as (E1 & _). rewrite E1.
  destruct (f_s _ _ _ _ _ HF e g Desc Hg) as (n & Hn & Hin). cbn [send opp] in *. destruct (node_chain _ n Hn) as (L & R & H & _).
  destruct (H Asc) as (E & ids & Eq & Ei & CD). destruct CD as [k A1|s k l A1 A2|s s' k l m A1 A2 A3]; unfold at_v in *; cbv iota in *; rewrite Eq in *; cbn [In] in *;
    try (destruct A1 as (A1 & A1' & A1'')); try (destruct A2 as (A2 & A2' & A2'')); try (destruct A3 as (A3 & A3' & A3'')).
  - easy.
  - destruct Hin as [<-|[]]; destruct b; cbn [sd]; eauto.
  - destruct Hin as [<-|[<-|[]]]; destruct b; cbn [sd]; eauto.
Qed.

(** *** At every height *)

Definition has (i : nat) (h : Q) : Prop := exists d u, td i = Some d /\ tu i = Some u /\ (hv d < h)%Q /\ (h < hv u)%Q.

Lemma rank_up i j u l r : tu i = Some u -> td j = Some u -> sd l j = Some r -> Faces.rank M st j < Faces.rank M st i.
Proof.
  intros Hu Hd Hs. unfold Faces.rank at 2. rewrite Hu. destruct (tu_n W Es M gv st HF i u Hu) as (n & Hn & _).
  apply (bot_rank W Es M gv st HF j (tl j) (tr j) u n Hn). repeat split; auto. eapply sd_lt; eauto.
Qed.

Lemma side_ex b e h : e < length ss -> (hv (smin e) < h)%Q -> (h < hv (smax e))%Q -> (forall v n, nth_error ns v = Some n -> ~ hv v == h)%Q ->
  exists i, sd b i = Some e /\ has i h.
Proof.
  intros He H1 H2 Hg.
  assert (K : forall k i, Faces.rank M st i < k -> sd b i = Some e -> (exists d, td i = Some d /\ (hv d < h)%Q) -> exists i, sd b i = Some e /\ has i h).
  { induction k as [|k IH]; intros i Hk Hs (d & Hd & Hdh); [lia|]. destruct (sd_spans b i e Hs) as (g & d' & u & _ & Hd' & Hu & _ & _ & _). assert (d' = d) by congruence. subst d'.
    destruct (Q_dec h (hv u)) as [[K|K]|K].
    - exists i. split; auto. exists d, u. auto.
    - destruct (Nat.eq_dec u (smax e)) as [->|Hne]; [lra|]. destruct (up_ex b i e u Hs Hu Hne) as (j & Hj & Hjd). apply (IH j); auto.
      + pose proof (rank_up i j u b e Hu Hjd Hj). lia.
      + exists u. auto.
    - exfalso. destruct (tu_n W Es M gv st HF i u Hu) as (n & Hn & _). apply (Hg u n Hn). now symmetry. }
  destruct (low_ex b e He) as (i & Hi & Hd). apply (K (S (Faces.rank M st i)) i); auto. eauto.
Qed.

Lemma has_in i h : has i h -> i < length ts.
Proof. intros (d & u & Hd & _). unfold Faces.td in Hd. destruct (nth_error ts i) eqn:E; [|discriminate]. eapply nth_lt; eauto. Qed.

(** Number of vertices below. *)
Definition under (h : Q) : nat := length (filter (fun p => Qle_bool (ht M p) h) (points st)).
Lemma under_lt v n h : nth_error ns v = Some n -> (h < hv v)%Q -> under h < under (hv v).
Proof.
  intros Hn H. unfold under. apply (filter_len_lt _ _ _ (pnt v)).
  - intros x _ Hx. apply Qle_bool_iff in Hx. apply Qle_bool_iff. lra.
  - rewrite (pnt_n st v n Hn). eapply nth_error_In. apply points_nth. exact Hn.
  - apply Qle_bool_iff. unfold Faces.hv. lra.
  - destruct (Qle_bool (ht M (pnt v)) h) eqn:E; auto. apply Qle_bool_iff in E. unfold Faces.hv in H. lra.
Qed.

Lemma side_uniq b e i j h : sd b i = Some e -> sd b j = Some e -> has i h -> has j h -> i = j.
Proof.
  assert (K : forall k i j h, sd b i = Some e -> sd b j = Some e -> has i h -> has j h ->
    (forall d d', td i = Some d -> td j = Some d' -> under (hv d) + under (hv d') < k) -> i = j).
  { clear i j h. induction k as [|k IH]; intros i j h Hi Hj Hhi Hhj Hk.
    { destruct Hhi as (d & u & Hd & _), Hhj as (d' & u' & Hd' & _). specialize (Hk d d' Hd Hd'). lia. }
    assert (Half : forall i j h, sd b i = Some e -> sd b j = Some e -> has i h -> has j h ->
      (forall d d', td i = Some d -> td j = Some d' -> under (hv d) + under (hv d') < S k /\ (hv d < hv d')%Q) -> False).
    { clear i j h Hi Hj Hhi Hhj Hk. intros i j h Hi Hj (d & u & Hd & Hu & H1 & H2) (d' & u' & Hd' & Hu' & H3 & H4) Hk. destruct (Hk d d' Hd Hd') as (Hk1 & Hlt). clear Hk.
      destruct (td_n W Es M gv st HF i d Hd) as (n & Hn & _). destruct (td_n W Es M gv st HF j d' Hd') as (n' & Hn' & _).
      assert (Hne : d' <> smin e). { intros ->. destruct (sd_spans b i e Hi) as (g & d1 & _ & _ & Hd1 & _ & K & _). assert (d1 = d) by congruence. subst d1. lra. }
      destruct (dn_ex b j e d' Hj Hd' Hne) as (j' & Hj' & Huj'). destruct (sd_spans b j' e Hj') as (g & d2 & u2 & _ & Hd2 & Hu2 & _ & H5 & _). assert (u2 = d') by congruence. subst u2.
      assert (Hm : exists h', (hv d < h')%Q /\ (hv d2 < h')%Q /\ (h' < hv d')%Q).
      { destruct (Qlt_le_dec (hv d) (hv d2)) as [Q1|Q1]; [exists ((hv d2 + hv d') * (1 # 2))%Q|exists ((hv d + hv d') * (1 # 2))%Q]; repeat split; lra. }
      destruct Hm as (h' & Q1 & Q2 & Q3).
      assert (i = j').
      { apply (IH i j' h'); auto.
        - exists d, u. repeat split; auto. lra.
        - exists d2, d'. auto.
        - intros x x' Hx Hx'. assert (x = d) by congruence. assert (x' = d2) by congruence. subst x x'. pose proof (under_lt d' n' (hv d2) Hn' H5). lia. }
      subst j'. assert (u = d') by congruence. subst u. lra. }
    destruct Hhi as (d & u & Hd & Hu & H1 & H2) eqn:Ei. destruct Hhj as (d' & u' & Hd' & Hu' & H3 & H4) eqn:Ej. specialize (Hk d d' Hd Hd').
    destruct (Q_dec (hv d) (hv d')) as [[Q1|Q1]|Q1].
    - exfalso. apply (Half i j h); auto. intros x x' Hx Hx'. assert (x = d) by congruence. assert (x' = d') by congruence. subst x x'. auto.
    - exfalso. apply (Half j i h); auto. intros x x' Hx Hx'. assert (x = d') by congruence. assert (x' = d) by congruence. subst x x'. split; auto. lia.
    - destruct (td_n W Es M gv st HF i d Hd) as (n & Hn & _). destruct (td_n W Es M gv st HF j d' Hd') as (n' & Hn' & _).
      assert (d = d') by (eapply (hv_inj W Es M gv); eauto). subst d'. eapply bot_uniq; eauto. }
  intros Hi Hj Hhi Hhj. apply (K (S (under h + under h)) i j h); auto. intros d d' Hd Hd'.
  assert (Hu : forall i d, has i h -> td i = Some d -> under (hv d) <= under h).
  { intros i0 d0 (x & y & Hx & _ & Hl & _) Hd0. assert (x = d0) by congruence. subst x. unfold under. apply filter_len_le. intros p _ Hp. apply Qle_bool_iff in Hp. apply Qle_bool_iff. lra. }
  pose proof (Hu i d Hhi Hd). pose proof (Hu j d' Hhj Hd'). lia.
Qed.

Ltac above i v H := destruct (above_cases W Es M gv st HG HM HF HD i v H) as
  [(?L & ?R & ?s0 & ?s1 & ?ul & ?uc & ?ur & ?dn & ?N & ?Hi)|[(?L & ?R & ?s & ?s' & ?ul & ?ur & ?dl & ?dr & ?N & ?Hi)|(?L & ?R & ?s0 & ?s1 & ?up & ?dl & ?dc & ?dr & ?N & ?Hi)]].
Ltac below i v H := destruct (below_cases W Es M gv st HG HM HF HD i v H) as
  [(?L & ?R & ?s0 & ?s1 & ?ul & ?uc & ?ur & ?dn & ?N & ?Hi)|[(?L & ?R & ?s & ?s' & ?ul & ?ur & ?dl & ?dr & ?N & ?Hi)|(?L & ?R & ?s0 & ?s1 & ?up & ?dl & ?dc & ?dr & ?N & ?Hi)]].

(** ** The contributions of the trapezoids by segments *)

Definition key (b : bool) (i : nat) : option nat :=
  match sd b i, td i with Some e, Some d => if Nat.eqb d (smin e) then Some e else None | _, _ => None end.

Lemma key_sum b (F : nat -> Q) : (sumq (fun i => match key b i with Some e => F e | None => 0 end) (seq 0 (length ts)) == sumq F (seq 0 (length ss)))%Q.
Proof.
  apply sumq_key.
  - intros e He. right. destruct (low_ex b e He) as (i & Hi & Hd). exists i. split; [eapply sd_lt; eauto|]. unfold key. rewrite Hi, Hd, Nat.eqb_refl. split; auto.
    intros j _ Hj. destruct (sd b j) as [e'|] eqn:E1; [|discriminate]. destruct (td j) as [d|] eqn:E2; [|discriminate]. destruct (Nat.eqb_spec d (smin e')) as [->|]; [|discriminate].
    injection Hj as ->. eapply bot_uniq; eauto.
  - intros i e _ Hk. unfold key in Hk. destruct (sd b i) as [e'|] eqn:E1; [|discriminate]. destruct (td i) as [d|] eqn:E2; [|discriminate]. destruct (Nat.eqb d (smin e')); [|discriminate].
    injection Hk as ->. destruct (sd_spans b i e E1) as (g & _ & _ & Hg & _). eapply nth_lt; eauto.
Qed.

(** A segment in the direction that has the coloured side on its left. *)
Definition ow (w : point -> point -> Q) (e : nat) : Q := if scol e then w (pnt (smax e)) (pnt (smin e)) else w (pnt (smin e)) (pnt (smax e)).

Lemma ev_sum w : (sumq (ev M st w) (seq 0 (length ts)) == sumq (ow w) (seq 0 (length ss)))%Q.
Proof.
  transitivity (sumq (fun i => (match key false i with Some e => if scol e then w (pnt (smax e)) (pnt (smin e)) else 0 | None => 0 end) +
    (match key true i with Some e => if scol e then 0 else w (pnt (smin e)) (pnt (smax e)) | None => 0 end)) (seq 0 (length ts)))%Q.
  - apply sumq_ext. intros i _. unfold ev, key. cbn [sd].
    pose proof (colour_l W Es M gv st HG HM HF HD i) as Kl. pose proof (colour_r W Es M gv st HG HM HF HD i) as Kr.
    destruct (td i) as [d|] eqn:Ed. 2:{ destruct (tl i), (tr i), (colour i); ring. }
    destruct (tl i) as [e|] eqn:El; destruct (tr i) as [f|] eqn:Er.
    + specialize (Kl e eq_refl). specialize (Kr f eq_refl). destruct (Nat.eqb_spec d (smin e)) as [->|]; destruct (Nat.eqb_spec (smin e) (smin f)) as [K|]; try destruct (Nat.eqb_spec d (smin f)) as [->|];
        destruct (colour i), (scol e), (scol f); try discriminate; try rewrite K; ring.
    + specialize (Kl e eq_refl). destruct (Nat.eqb_spec d (smin e)) as [->|]; destruct (colour i), (scol e); try discriminate; ring.
    + specialize (Kr f eq_refl). destruct (Nat.eqb_spec d (smin f)) as [->|]; destruct (colour i), (scol f); try discriminate; ring.
    + destruct (colour i); ring.
  - rewrite sumq_plus, (key_sum false (fun e => if scol e then w (pnt (smax e)) (pnt (smin e)) else 0%Q)), (key_sum true (fun e => if scol e then 0%Q else w (pnt (smin e)) (pnt (smax e)))), <- sumq_plus.
    apply sumq_ext. intros e _. unfold ow. destruct (scol e); ring.
Qed.

(** Trapezoids without a right side are outside. *)
Lemma colour_open i : tr i = None -> colour i = false.
Proof.
  assert (K : forall k i, Faces.rank M st i < k -> tr i = None -> colour i = false).
  { clear i. induction k as [|k IH]; intros i Hk Hr; [lia|]. destruct (tu i) as [v|] eqn:Hu; [|now apply colour_top].
    assert (IH' : forall j n l r, nth_error ns v = Some n -> bot j l r v -> tr j = None -> colour j = false).
    { intros j n l r Hn Hb Hj. apply IH; auto. pose proof (bot_rank W Es M gv st HF j _ _ v n Hn Hb). unfold Faces.rank in Hk. rewrite Hu in Hk. fold (Faces.rank M st) in *. unfold Faces.rank in *. lia. }
    below i v Hu.
    - destruct (col_V W Es M gv st HG HM HF HD _ _ _ _ _ _ _ _ _ N) as (_ & C1 & C2). subst i. rewrite C2, <- C1. destruct N as [(n & Hn & _) B1 B2 B3 B4 _ _ _ _]. eapply IH'; eauto.
      destruct B3 as (_ & _ & -> & _). now destruct B4 as (_ & _ & <- & _).
    - destruct (col_I W Es M gv st HG HM HF HD _ _ _ _ _ _ _ _ _ N) as (_ & C1 & C2). destruct N as [(n & Hn & _) B1 B2 B3 B4 _ _ _ _]. destruct Hi as [->| ->].
      + destruct B3 as (_ & _ & B3 & _). congruence.
      + rewrite C2. eapply IH'; eauto. destruct B2 as (_ & _ & -> & _). now destruct B4 as (_ & _ & <- & _).
    - destruct (col_A W Es M gv st HG HM HF HD _ _ _ _ _ _ _ _ _ N) as (C1 & C2 & C3). destruct N as [(n & Hn & _) B1 B2 B3 B4 _ _ _ _]. destruct Hi as [->|[->| ->]].
      + destruct B2 as (_ & _ & B2 & _). congruence.
      + destruct B3 as (_ & _ & B3 & _). congruence.
      + rewrite C3. eapply IH'; eauto. destruct B1 as (_ & _ & -> & _). now destruct B4 as (_ & _ & <- & _). }
  apply (K (S (Faces.rank M st i))). lia.
Qed.

End Sweep.
