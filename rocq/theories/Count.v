(** The number of triangles: trapezoids of one colour form a graph linked through the vertices. *)
From Coq Require Import QArith Lqa List Arith Lia Bool ZArith Permutation.
From Verif Require Import Base Coord Trap Mono Tri Lanes Plane MonoProof MonoGeom Geo Region TrapInv Polygons Build Faces Open Traverse Sweep Tile Outline Graph.
Import ListNotations.
Local Open Scope nat_scope.

Section Count.
Context {I : Type}.
Variables (W : list point) (Es : list edge) (M : Q) (gv : I -> point) (st : state Q I).
Hypothesis HG : geo W Es.
Hypothesis HM : shear M W.
Hypothesis HF : full W Es M gv st.
Hypothesis HD : forall v n, nth_error (st_ns st) v = Some n -> deg n = 2.

Notation ts := (st_ts st).
Notation ss := (st_ss st).
Notation ns := (st_ns st).
Notation tl := (Faces.tl st).
Notation tr := (Faces.tr st).
Notation td := (Faces.td st).
Notation tu := (Faces.tu st).
Notation smin := (Faces.smin st).
Notation smax := (Faces.smax st).
Notation pnt := (Faces.pnt st).
Notation hv := (Faces.hv M st).
Notation bot := (Faces.bot st).
Notation top := (Faces.top st).
Notation nodeV := (Faces.nodeV st).
Notation nodeI := (Faces.nodeI st).
Notation nodeA := (Faces.nodeA st).
Notation colour := (Faces.colour M st).
Notation scol := (Faces.scol M st).
Notation sd := (Sweep.sd st).
Notation cl := (colour_l W Es M gv st HG HM HF HD).
Notation cr := (colour_r W Es M gv st HG HM HF HD).

Ltac above i v H := destruct (above_cases W Es M gv st HG HM HF HD i v H) as
  [(?L & ?R & ?s0 & ?s1 & ?ul & ?uc & ?ur & ?dn & ?N & ?Hi)|[(?L & ?R & ?s & ?s' & ?ul & ?ur & ?dl & ?dr & ?N & ?Hi)|(?L & ?R & ?s0 & ?s1 & ?up & ?dl & ?dc & ?dr & ?N & ?Hi)]].
Ltac below i v H := destruct (below_cases W Es M gv st HG HM HF HD i v H) as
  [(?L & ?R & ?s0 & ?s1 & ?ul & ?uc & ?ur & ?dn & ?N & ?Hi)|[(?L & ?R & ?s & ?s' & ?ul & ?ur & ?dl & ?dr & ?N & ?Hi)|(?L & ?R & ?s0 & ?s1 & ?up & ?dl & ?dc & ?dr & ?N & ?Hi)]].
Ltac nodes v n H := destruct (node_cases W Es M gv st HG HM HF HD v n H) as
  [(?L & ?R & ?s0 & ?s1 & ?ul & ?uc & ?ur & ?dn & ?N)|[(?L & ?R & ?s & ?s' & ?ul & ?ur & ?dl & ?dr & ?N)|(?L & ?R & ?s0 & ?s1 & ?up & ?dl & ?dc & ?dr & ?N)]].

(** ** The graph *)

Definition nty (v : nat) : option ntype := match nth_error ns v with Some n => match final_type n with Ok t => Some t | _ => None end | None => None end.

(** Trapezoids that meet in a horizontal line through a vertex. *)
Definition tyedges (t : ntype) : list (nat * nat) :=
  match t with
  | TV ul uc ur dn => [(ul, dn); (ur, dn)]
  | TI ul ur dl dr => [(ul, dl); (ur, dr)]
  | TA up dl dc dr => [(up, dl); (up, dr)]
  end.
Definition vedges (v : nat) : list (nat * nat) := match nty v with Some t => tyedges t | None => [] end.
Definition asc (v : nat) : list nat := match nth_error ns v with Some n => iter_trapezoids n Asc | None => [] end.
Definition desc (v : nat) : list nat := match nth_error ns v with Some n => iter_trapezoids n Desc | None => [] end.

Lemma V_at v L R s0 s1 ul uc ur dn : nodeV v L R s0 s1 ul uc ur dn -> nty v = Some (TV ul uc ur dn) /\ asc v = [ul; uc; ur] /\ desc v = [dn].
Proof. intros [(n & A1 & A2 & _ & _ & A3 & A4) _ _ _ _ _ _ _ _]. unfold nty, asc, desc. now rewrite A1, A2. Qed.
Lemma I_at v L R s s' ul ur dl dr : nodeI v L R s s' ul ur dl dr -> nty v = Some (TI ul ur dl dr) /\ asc v = [ul; ur] /\ desc v = [dl; dr].
Proof. intros [(n & A1 & A2 & _ & _ & A3 & A4) _ _ _ _ _ _ _ _]. unfold nty, asc, desc. now rewrite A1, A2. Qed.
Lemma A_at v L R s0 s1 up dl dc dr : nodeA v L R s0 s1 up dl dc dr -> nty v = Some (TA up dl dc dr) /\ asc v = [up] /\ desc v = [dl; dc; dr].
Proof. intros [(n & A1 & A2 & _ & _ & A3 & A4) _ _ _ _ _ _ _ _]. unfold nty, asc, desc. now rewrite A1, A2. Qed.

(** Both ends of a link have the same colour and are trapezoids. *)
Lemma vedges_ok v i j : In (i, j) (vedges v) -> colour i = colour j /\ i < length ts /\ j < length ts.
Proof.
  unfold vedges, nty. destruct (nth_error ns v) as [n|] eqn:Hn; [|easy]. nodes v n Hn.
  - pose proof (nv_n _ _ _ _ _ _ _ _ _ _ N) as (n' & Hn' & Ft & _). assert (n' = n) by congruence. subst n'. rewrite Ft. destruct (col_V W Es M gv st HG HM HF HD _ _ _ _ _ _ _ _ _ N) as (_ & C1 & C2).
    destruct N as [_ B1 B2 B3 B4 _ _ _ _]. intros [[= <- <-]|[[= <- <-]|[]]]; (split; [congruence|split; [apply B1 || apply B3|apply B4]]).
  - pose proof (ni_n _ _ _ _ _ _ _ _ _ _ N) as (n' & Hn' & Ft & _). assert (n' = n) by congruence. subst n'. rewrite Ft. destruct (col_I W Es M gv st HG HM HF HD _ _ _ _ _ _ _ _ _ N) as (_ & C1 & C2).
    destruct N as [_ B1 B2 B3 B4 _ _ _ _]. intros [[= <- <-]|[[= <- <-]|[]]]; (split; [congruence|split; [apply B1 || apply B2|apply B3 || apply B4]]).
  - pose proof (na_n _ _ _ _ _ _ _ _ _ _ N) as (n' & Hn' & Ft & _). assert (n' = n) by congruence. subst n'. rewrite Ft. destruct (col_A W Es M gv st HG HM HF HD _ _ _ _ _ _ _ _ _ N) as (C1 & _ & C2).
    destruct N as [_ B1 B2 B3 B4 _ _ _ _]. intros [[= <- <-]|[[= <- <-]|[]]]; (split; [congruence|split; [apply B1|apply B2 || apply B4]]).
Qed.

(** ** The vertex below the top trapezoid *)
Variables (v0 a0 a1 t0 dl0 dc0 dr0 : nat).
Hypothesis H0 : nodeA v0 None None a0 a1 t0 dl0 dc0 dr0.

(** The links without the one left of that vertex. *)
Definition links (v : nat) : list (nat * nat) := if Nat.eqb v v0 then skipn 1 (vedges v) else vedges v.

Lemma links_0 : links v0 = [(t0, dr0)].
Proof. unfold links, vedges. rewrite Nat.eqb_refl. now rewrite (proj1 (A_at _ _ _ _ _ _ _ _ _ H0)). Qed.

Lemma links_ne v e : v <> v0 -> In e (vedges v) -> In e (links v).
Proof. intros H. unfold links. now rewrite (proj2 (Nat.eqb_neq _ _) H). Qed.

Lemma links_sub v e : In e (links v) -> In e (vedges v).
Proof. unfold links. destruct (Nat.eqb v v0); auto. destruct (vedges v); auto. intros H. now right. Qed.

Section Label.
Variables (c : bool) (f : nat -> nat).
Hypothesis Hf : forall v i j, v < length ns -> In (i, j) (links v) -> colour i = c -> f i = f j.

Lemma f_link v i j : nty v <> None -> In (i, j) (links v) -> colour i = c -> f i = f j.
Proof. intros Hv. apply Hf. apply nth_error_Some. unfold nty in Hv. now destruct (nth_error ns v). Qed.

Lemma step_dn b i e d : sd b i = Some e -> td i = Some d -> d <> smin e -> colour i = c -> exists j, sd b j = Some e /\ tu j = Some d /\ f i = f j.
Proof.
  intros He Hd Hne Hc. above i d Hd.
  - destruct (V_at _ _ _ _ _ _ _ _ _ N) as (T & _). assert (Hv : d <> v0). { intros ->. rewrite (proj1 (A_at _ _ _ _ _ _ _ _ _ H0)) in T. discriminate. }
    assert (K : forall j, In (i, j) (vedges d) -> f i = f j). { intros j Hj. apply (f_link d); auto; [congruence|now apply links_ne]. }
    unfold vedges in K. rewrite T in K. cbn [tyedges In] in K.
    destruct N as [_ B1 B2 B3 B4 S0 S1 _ _]. destruct Hi as [->|[->| ->]]; destruct b; cbn [Sweep.sd] in *.
    + destruct B1 as (_ & _ & B1 & _). congruence.
    + exists dn. split; [|split; [apply B4|apply K; auto]]. destruct B4 as (_ & -> & _ & _). now destruct B1 as (_ & <- & _ & _).
    + destruct B2 as (_ & _ & B2 & _). congruence.
    + destruct B2 as (_ & B2 & _ & _). congruence.
    + exists dn. split; [|split; [apply B4|apply K; auto]]. destruct B4 as (_ & _ & -> & _). now destruct B3 as (_ & _ & <- & _).
    + destruct B3 as (_ & B3 & _ & _). congruence.
  - destruct (I_at _ _ _ _ _ _ _ _ _ N) as (T & _). assert (Hv : d <> v0). { intros ->. rewrite (proj1 (A_at _ _ _ _ _ _ _ _ _ H0)) in T. discriminate. }
    assert (K : forall j, In (i, j) (vedges d) -> f i = f j). { intros j Hj. apply (f_link d); auto; [congruence|now apply links_ne]. }
    unfold vedges in K. rewrite T in K. cbn [tyedges In] in K.
    destruct N as [_ B1 B2 B3 B4 S0 S1 _ _]. destruct Hi as [->| ->]; destruct b; cbn [Sweep.sd] in *.
    + destruct B1 as (_ & _ & B1 & _). congruence.
    + exists dl. split; [|split; [apply B3|apply K; auto]]. destruct B3 as (_ & -> & _ & _). now destruct B1 as (_ & <- & _ & _).
    + exists dr. split; [|split; [apply B4|apply K; auto]]. destruct B4 as (_ & _ & -> & _). now destruct B2 as (_ & _ & <- & _).
    + destruct B2 as (_ & B2 & _ & _). congruence.
  - destruct (A_at _ _ _ _ _ _ _ _ _ N) as (T & _). subst i. assert (Hv : d <> v0).
    { intros ->. rewrite (proj1 (A_at _ _ _ _ _ _ _ _ _ H0)) in T. injection T as -> -> -> ->. destruct H0 as [_ (_ & K1 & K2 & _) _ _ _ _ _ _ _]. destruct b; cbn [Sweep.sd] in He; congruence. }
    assert (K : forall j, In (up, j) (vedges d) -> f up = f j). { intros j Hj. apply (f_link d); auto; [congruence|now apply links_ne]. }
    unfold vedges in K. rewrite T in K. cbn [tyedges In] in K.
    destruct N as [_ B1 B2 B3 B4 S0 S1 _ _]. destruct b; cbn [Sweep.sd] in *; [exists dr|exists dl].
    + split; [|split; [apply B4|apply K; auto]]. destruct B4 as (_ & _ & -> & _). now destruct B1 as (_ & _ & <- & _).
    + split; [|split; [apply B2|apply K; auto]]. destruct B2 as (_ & -> & _ & _). now destruct B1 as (_ & <- & _ & _).
Qed.

Lemma sd_col b i e : sd b i = Some e -> colour i = xorb b (scol e).
Proof. destruct b; cbn [Sweep.sd]; intros H; [rewrite (cr i e H); now destruct (scol e)|rewrite (cl i e H); now destruct (scol e)]. Qed.

(** Along a side. *)
Lemma chain b e i j : sd b i = Some e -> sd b j = Some e -> colour i = c -> f i = f j.
Proof.
  assert (K : forall k i d l, Sweep.under M st (hv d) < k -> sd b i = Some e -> td i = Some d -> sd b l = Some e -> td l = Some (smin e) -> colour i = c -> f i = f l).
  { clear i j. induction k as [|k IH]; intros i d l Hk Hi Hd Hl Hdl Hc; [lia|]. destruct (Nat.eq_dec d (smin e)) as [->|Hne].
    - f_equal. exact (bot_uniq W Es M gv st HG HM HF b i l e (smin e) Hi Hl Hd Hdl).
    - destruct (step_dn b i e d Hi Hd Hne Hc) as (j & Hj & Hu & ->). destruct (sd_spans W Es M gv st HG HM HF b j e Hj) as (g & d' & u & _ & Hd' & Hu' & _ & Hlt & _).
      assert (u = d) by congruence. subst u. apply (IH j d' l); auto; [|rewrite (sd_col b j e Hj), <- (sd_col b i e Hi); exact Hc].
      destruct (td_n W Es M gv st HF i d Hd) as (n & Hn & _). pose proof (Sweep.under_lt M st d n (hv d') Hn Hlt). lia. }
  intros Hi Hj Hc. assert (He : e < length ss). { destruct (sd_spans W Es M gv st HG HM HF b i e Hi) as (g & _ & _ & Hg & _). eapply nth_lt; eauto. }
  destruct (low_ex W Es M gv st HG HM HF b e He) as (l & Hl & Hdl).
  destruct (sd_spans W Es M gv st HG HM HF b i e Hi) as (_ & d & _ & _ & Hd & _). destruct (sd_spans W Es M gv st HG HM HF b j e Hj) as (_ & d' & _ & _ & Hd' & _).
  rewrite (K _ i d l (Nat.lt_succ_diag_r _) Hi Hd Hl Hdl Hc). symmetry. apply (K _ j d' l (Nat.lt_succ_diag_r _) Hj Hd' Hl Hdl). rewrite (sd_col b j e Hj), <- (sd_col b i e Hi). exact Hc.
Qed.

(** Around a vertex. *)
Definition at_v (v e : nat) : Prop := smin e = v \/ smax e = v.

Lemma turn v n e e' b b' i j : nth_error ns v = Some n -> v <> v0 -> In e (seps n Asc ++ seps n Desc) -> In e' (seps n Asc ++ seps n Desc) ->
  sd b i = Some e -> sd b' j = Some e' -> colour i = c -> colour j = c -> f i = f j.
Proof.
  intros Hn Hv He He' Hi Hj Ci Cj. pose proof (sd_col b i e Hi) as Ki. pose proof (sd_col b' j e' Hj) as Kj.
  assert (G : forall x y, In (x, y) (vedges v) -> colour x = c -> f x = f y).
  { intros x y Hxy Hx. apply (f_link v); auto; [|now apply links_ne]. intros T. unfold vedges in Hxy. now rewrite T in Hxy. }
  assert (Eq : e = e' -> f i = f j). { intros <-. assert (b = b') by (rewrite Ci, <- Cj, Kj in Ki; destruct b, b', (scol e); cbn in Ki; congruence). subst b'. now apply (chain b e). }
  nodes v n Hn.
  - pose proof (nv_n _ _ _ _ _ _ _ _ _ _ N) as (n' & Hn' & _ & Sa & Sd & _). assert (n' = n) by congruence. subst n'. rewrite Sa, Sd in He, He'. cbn [app In] in He, He'.
    destruct (V_at _ _ _ _ _ _ _ _ _ N) as (T & _). unfold vedges in G. rewrite T in G. cbn [tyedges In] in G. destruct (col_V W Es M gv st HG HM HF HD _ _ _ _ _ _ _ _ _ N) as (C0 & C1 & C2).
    destruct N as [_ (_ & _ & B1 & _) (_ & B2 & B3 & _) (_ & B4 & _ & _) _ _ _ _ _]. pose proof (cr ul s0 B1) as K1. pose proof (cl ur s1 B4) as K2.
    assert (X : forall b b' i j, sd b i = Some s0 -> sd b' j = Some s1 -> colour i = c -> colour j = c -> f i = f j).
    { clear - B1 B2 B3 B4 G C0 C1 C2 K1 K2 Hf H0 HG HM HF HD. intros b b' i j Hi Hj Ci Cj. pose proof (sd_col b i _ Hi) as Ki. pose proof (sd_col b' j _ Hj) as Kj.
      destruct b, b'; cbn [xorb] in Ki, Kj.
      - exfalso. destruct (scol s0), (scol s1); cbn in *; congruence.
      - rewrite (chain true s0 i ul Hi B1 Ci), (chain false s1 j ur Hj B4 Cj). assert (colour ul = c) by (destruct (scol s0), (scol s1); cbn in *; congruence).
        rewrite (G ul dn), (G ur dn); auto. congruence.
      - rewrite (chain false s0 i uc Hi B2 Ci), (chain true s1 j uc Hj B3 Cj). reflexivity.
      - exfalso. destruct (scol s0), (scol s1); cbn in *; congruence. }
    destruct He as [<-|[<-|[]]], He' as [<-|[<-|[]]]; auto; [now apply (X b b')|symmetry; now apply (X b' b)].
  - pose proof (ni_n _ _ _ _ _ _ _ _ _ _ N) as (n' & Hn' & _ & Sa & Sd & _). assert (n' = n) by congruence. subst n'. rewrite Sa, Sd in He, He'. cbn [app In] in He, He'.
    destruct (I_at _ _ _ _ _ _ _ _ _ N) as (T & _). unfold vedges in G. rewrite T in G. cbn [tyedges In] in G. destruct (col_I W Es M gv st HG HM HF HD _ _ _ _ _ _ _ _ _ N) as (C0 & C1 & C2).
    destruct N as [_ (_ & _ & B1 & _) (_ & B2 & _ & _) (_ & _ & B3 & _) (_ & B4 & _ & _) _ _ _ _]. pose proof (cr ul s B1) as K1. pose proof (cl ur s B2) as K2. pose proof (cr dl s' B3) as K3. pose proof (cl dr s' B4) as K4.
    assert (X : forall b b' i j, sd b i = Some s -> sd b' j = Some s' -> colour i = c -> colour j = c -> f i = f j).
    { clear - B1 B2 B3 B4 G C0 C1 C2 K1 K2 K3 K4 Hf H0 HG HM HF HD. intros b b' i j Hi Hj Ci Cj. pose proof (sd_col b i _ Hi) as Ki. pose proof (sd_col b' j _ Hj) as Kj.
      destruct b, b'; cbn [xorb] in Ki, Kj.
      - rewrite (chain true s i ul Hi B1 Ci), (chain true s' j dl Hj B3 Cj). apply G; auto. destruct (scol s), (scol s'); cbn in *; congruence.
      - exfalso. destruct (scol s), (scol s'); cbn in *; congruence.
      - exfalso. destruct (scol s), (scol s'); cbn in *; congruence.
      - rewrite (chain false s i ur Hi B2 Ci), (chain false s' j dr Hj B4 Cj). apply G; auto. destruct (scol s), (scol s'); cbn in *; congruence. }
    destruct He as [<-|[<-|[]]], He' as [<-|[<-|[]]]; auto; [now apply (X b b')|symmetry; now apply (X b' b)].
  - pose proof (na_n _ _ _ _ _ _ _ _ _ _ N) as (n' & Hn' & _ & Sa & Sd & _). assert (n' = n) by congruence. subst n'. rewrite Sa, Sd in He, He'. cbn [app In] in He, He'.
    destruct (A_at _ _ _ _ _ _ _ _ _ N) as (T & _). unfold vedges in G. rewrite T in G. cbn [tyedges In] in G. destruct (col_A W Es M gv st HG HM HF HD _ _ _ _ _ _ _ _ _ N) as (C1 & C0 & C2).
    destruct N as [_ _ (_ & _ & B1 & _) (_ & B2 & B3 & _) (_ & B4 & _ & _) _ _ _ _]. pose proof (cr dl s0 B1) as K1. pose proof (cl dr s1 B4) as K2.
    assert (X : forall b b' i j, sd b i = Some s0 -> sd b' j = Some s1 -> colour i = c -> colour j = c -> f i = f j).
    { clear - B1 B2 B3 B4 G C0 C1 C2 K1 K2 Hf H0 HG HM HF HD. intros b b' i j Hi Hj Ci Cj. pose proof (sd_col b i _ Hi) as Ki. pose proof (sd_col b' j _ Hj) as Kj.
      destruct b, b'; cbn [xorb] in Ki, Kj.
      - exfalso. destruct (scol s0), (scol s1); cbn in *; congruence.
      - rewrite (chain true s0 i dl Hi B1 Ci), (chain false s1 j dr Hj B4 Cj). assert (colour up = c) by (destruct (scol s0), (scol s1); cbn in *; congruence).
        rewrite <- (G up dl), <- (G up dr); auto.
      - rewrite (chain false s0 i dc Hi B2 Ci), (chain true s1 j dc Hj B3 Cj). reflexivity.
      - exfalso. destruct (scol s0), (scol s1); cbn in *; congruence. }
    destruct He as [<-|[<-|[]]], He' as [<-|[<-|[]]]; auto; [now apply (X b b')|symmetry; now apply (X b' b)].
Qed.

Lemma same e b b' i j : sd b i = Some e -> sd b' j = Some e -> colour i = c -> colour j = c -> f i = f j.
Proof.
  intros Hi Hj Ci Cj. pose proof (sd_col b i e Hi) as Ki. pose proof (sd_col b' j e Hj) as Kj.
  assert (b = b') by (rewrite Ci, <- Cj, Kj in Ki; destruct b, b', (scol e); cbn in Ki; congruence). subst b'. now apply (chain b e).
Qed.

(** Trapezoids without sides. *)
Lemma lonely i (B : nat) : (forall i b e, sd b i = Some e -> colour i = c -> f i = B) -> (forall i, i < length ts -> tu i = None -> i = t0) ->
  i < length ts -> colour i = c -> f i = B.
Proof.
  intros HB Ht Hi Hc. destruct (tl i) as [e|] eqn:El; [now apply (HB i false e)|]. destruct (tr i) as [e|] eqn:Er; [now apply (HB i true e)|].
  destruct (tu i) as [v|] eqn:Hu.
  - below i v Hu.
    + subst i. destruct (V_at _ _ _ _ _ _ _ _ _ N) as (T & _). assert (Hv : v <> v0). { intros ->. rewrite (proj1 (A_at _ _ _ _ _ _ _ _ _ H0)) in T. discriminate. }
      destruct (col_V W Es M gv st HG HM HF HD _ _ _ _ _ _ _ _ _ N) as (_ & _ & C2). destruct N as [_ (_ & _ & B1 & _) _ _ _ _ _ _ _].
      assert (Cu : colour ul = c) by congruence. rewrite <- (f_link v ul dn); auto; [now apply (HB ul true s0)|congruence|]. apply links_ne; auto. unfold vedges. rewrite T. now left.
    + exfalso. destruct N as [_ _ _ (_ & _ & B3 & _) (_ & B4 & _ & _) _ _ _ _]. destruct Hi0 as [->| ->]; congruence.
    + exfalso. destruct N as [_ _ (_ & _ & B2 & _) (_ & B3 & _ & _) (_ & B4 & _ & _) _ _ _ _]. destruct Hi0 as [->|[->| ->]]; congruence.
  - rewrite (Ht i Hi Hu) in *. assert (nty v0 <> None) by (rewrite (proj1 (A_at _ _ _ _ _ _ _ _ _ H0)); discriminate).
    rewrite (f_link v0 t0 dr0); auto; [|rewrite links_0; now left]. destruct (col_A W Es M gv st HG HM HF HD _ _ _ _ _ _ _ _ _ H0) as (_ & _ & C2).
    destruct H0 as [_ _ _ _ (_ & B4 & _ & _) _ _ _ _]. apply (HB dr0 false a1); auto. congruence.
Qed.
End Label.

(** ** Counting *)

Definition b1 (b : bool) : Z := if b then 1%Z else 0%Z.
Definition et (v : nat) : Z := sumz (fun e => b1 (colour (fst e))) (vedges v).
Definition nt (v : nat) : Z := sumz (fun i => b1 (colour i)) (asc v).
Definition delta (v : nat) : Z := (et v - nt v)%Z.

Lemma ns_at v : v < length ns -> exists n, nth_error ns v = Some n.
Proof. apply lt_nth. Qed.

Lemma vedges_len v : v < length ns -> length (vedges v) = 2 /\ length (asc v) + length (desc v) = 4.
Proof.
  intros Hv. destruct (ns_at v Hv) as (n & Hn). unfold vedges. nodes v n Hn.
  - destruct (V_at _ _ _ _ _ _ _ _ _ N) as (-> & -> & ->). auto.
  - destruct (I_at _ _ _ _ _ _ _ _ _ N) as (-> & -> & ->). auto.
  - destruct (A_at _ _ _ _ _ _ _ _ _ N) as (-> & -> & ->). auto.
Qed.

Lemma kc_at v : v < length ns -> sumz (kc M st) (asc v) = (1 + 2 * delta v)%Z.
Proof.
  intros Hv. destruct (ns_at v Hv) as (n & Hn). unfold delta, et, nt, vedges. nodes v n Hn.
  - destruct (V_at _ _ _ _ _ _ _ _ _ N) as (-> & -> & _). destruct (col_V W Es M gv st HG HM HF HD _ _ _ _ _ _ _ _ _ N) as (C1 & C2 & _).
    assert (Hd : td ul = Some v /\ td uc = Some v /\ td ur = Some v) by (destruct N as [_ (_ & _ & _ & B1) (_ & _ & _ & B2) (_ & _ & _ & B3) _ _ _ _ _]; auto). destruct Hd as (D1 & D2 & D3).
    pose proof (nv_nd _ _ _ _ _ _ _ _ _ _ N) as Nd. cbn [sumz tyedges fst]. rewrite (kc_V M st ul _ _ _ _ _ _ _ _ _ N D1), (kc_V M st uc _ _ _ _ _ _ _ _ _ N D2), (kc_V M st ur _ _ _ _ _ _ _ _ _ N D3), C1, C2.
    apply NoDup_cons_iff in Nd. destruct Nd as (N1 & Nd). apply NoDup_cons_iff in Nd. destruct Nd as (N2 & _). cbn in N1, N2. unfold kcV.
    rewrite !Nat.eqb_refl. assert (Nat.eqb uc ul = false) as -> by (apply Nat.eqb_neq; intuition). assert (Nat.eqb ur ul = false) as -> by (apply Nat.eqb_neq; intuition). assert (Nat.eqb ur uc = false) as -> by (apply Nat.eqb_neq; intuition).
    destruct (colour ul); reflexivity.
  - destruct (I_at _ _ _ _ _ _ _ _ _ N) as (-> & -> & _). destruct (col_I W Es M gv st HG HM HF HD _ _ _ _ _ _ _ _ _ N) as (C1 & _).
    assert (Hd : td ul = Some v /\ td ur = Some v) by (destruct N as [_ (_ & _ & _ & B1) (_ & _ & _ & B2) _ _ _ _ _ _]; auto). destruct Hd as (D1 & D2).
    cbn [sumz tyedges fst]. rewrite (kc_I M st ul _ _ _ _ _ _ _ _ _ N D1), (kc_I M st ur _ _ _ _ _ _ _ _ _ N D2), C1. destruct (colour ul); reflexivity.
  - destruct (A_at _ _ _ _ _ _ _ _ _ N) as (-> & -> & _).
    assert (D1 : td up = Some v) by (destruct N as [_ (_ & _ & _ & B1) _ _ _ _ _ _ _]; auto).
    cbn [sumz tyedges fst]. rewrite (kc_A M st up _ _ _ _ _ _ _ _ _ N D1). destruct (colour up); reflexivity.
Qed.

Lemma asc_nd v : NoDup (asc v) /\ NoDup (desc v).
Proof.
  unfold asc, desc. destruct (nth_error ns v) as [n|] eqn:Hn; [|split; constructor]. pose proof (x_nd _ _ _ _ (f_n _ _ _ _ _ HF v n Hn)). auto.
Qed.

Lemma in_asc i v : In i (asc v) <-> i < length ts /\ td i = Some v.
Proof.
  unfold asc. split.
  - destruct (nth_error ns v) as [n|] eqn:Hn; [|easy]. nodes v n Hn.
    + pose proof (nv_n _ _ _ _ _ _ _ _ _ _ N) as (n' & Hn' & _ & _ & _ & E & _). assert (n' = n) by congruence. subst n'. rewrite E. destruct N as [_ (X1 & _ & _ & B1) (X2 & _ & _ & B2) (X3 & _ & _ & B3) _ _ _ _ _].
      intros [<-|[<-|[<-|[]]]]; auto.
    + pose proof (ni_n _ _ _ _ _ _ _ _ _ _ N) as (n' & Hn' & _ & _ & _ & E & _). assert (n' = n) by congruence. subst n'. rewrite E. destruct N as [_ (X1 & _ & _ & B1) (X2 & _ & _ & B2) _ _ _ _ _ _].
      intros [<-|[<-|[]]]; auto.
    + pose proof (na_n _ _ _ _ _ _ _ _ _ _ N) as (n' & Hn' & _ & _ & _ & E & _). assert (n' = n) by congruence. subst n'. rewrite E. destruct N as [_ (X1 & _ & _ & B1) _ _ _ _ _ _ _].
      intros [<-|[]]; auto.
  - intros (_ & Hd). destruct (td_n W Es M gv st HF i v Hd) as (n & -> & Hi). exact Hi.
Qed.

Lemma in_desc i v : In i (desc v) <-> i < length ts /\ tu i = Some v.
Proof.
  unfold desc. split.
  - destruct (nth_error ns v) as [n|] eqn:Hn; [|easy]. nodes v n Hn.
    + pose proof (nv_n _ _ _ _ _ _ _ _ _ _ N) as (n' & Hn' & _ & _ & _ & _ & E). assert (n' = n) by congruence. subst n'. rewrite E. destruct N as [_ _ _ _ (X1 & _ & _ & B1) _ _ _ _].
      intros [<-|[]]; auto.
    + pose proof (ni_n _ _ _ _ _ _ _ _ _ _ N) as (n' & Hn' & _ & _ & _ & _ & E). assert (n' = n) by congruence. subst n'. rewrite E. destruct N as [_ _ _ (X1 & _ & _ & B1) (X2 & _ & _ & B2) _ _ _ _].
      intros [<-|[<-|[]]]; auto.
    + pose proof (na_n _ _ _ _ _ _ _ _ _ _ N) as (n' & Hn' & _ & _ & _ & _ & E). assert (n' = n) by congruence. subst n'. rewrite E. destruct N as [_ _ (X1 & _ & _ & B1) (X2 & _ & _ & B2) (X3 & _ & _ & B3) _ _ _ _].
      intros [<-|[<-|[<-|[]]]]; auto.
  - intros (_ & Hd). destruct (tu_n W Es M gv st HF i v Hd) as (n & -> & Hi). exact Hi.
Qed.

Lemma by_bottom f : (forall i, td i = None -> f i = 0%Z) -> sumz f (seq 0 (length ts)) = sumz (fun v => sumz f (asc v)) (seq 0 (length ns)).
Proof.
  intros Hf. apply (sumz_group f _ _ td asc); auto.
  - intros v _. apply asc_nd.
  - intros i v _. apply in_asc.
  - intros i v _ Hd. destruct (td_n W Es M gv st HF i v Hd) as (n & Hn & _). eapply nth_lt; eauto.
Qed.

Lemma by_top f : (forall i, tu i = None -> f i = 0%Z) -> sumz f (seq 0 (length ts)) = sumz (fun v => sumz f (desc v)) (seq 0 (length ns)).
Proof.
  intros Hf. apply (sumz_group f _ _ tu desc); auto.
  - intros v _. apply asc_nd.
  - intros i v _. apply in_desc.
  - intros i v _ Hd. destruct (tu_n W Es M gv st HF i v Hd) as (n & Hn & _). eapply nth_lt; eauto.
Qed.

(** The triangles, vertex by vertex. *)
Lemma kc_sum : sumz (kc M st) (seq 0 (length ts)) = (Z.of_nat (length ns) + 2 * sumz delta (seq 0 (length ns)))%Z.
Proof.
  rewrite by_bottom. 2:{ intros i Hi. unfold kc. now rewrite Hi. }
  rewrite (sumz_ext _ (fun v => 1 + 2 * delta v)%Z) by (intros v Hv; apply in_seq in Hv; apply kc_at; lia).
  rewrite sumz_plus, sumz_scale, sumz_len, seq_length. reflexivity.
Qed.

Lemma colour_low i : td i = None -> colour i = false.
Proof.
  intros H. apply (colour_open W Es M gv st HG HM HF HD). destruct (tr i) as [e|] eqn:E; auto. destruct (tr_spans W Es M gv st HG HM HF i e E) as (? & ? & ? & ? & ? & _). congruence.
Qed.

Hypothesis Ht : forall i, i < length ts -> tu i = None -> i = t0.
Hypothesis Ht0 : tu t0 = None.

Lemma ts_many : (2 * Z.of_nat (length ns) + 1 <= Z.of_nat (length ts))%Z.
Proof.
  set (B := sumz (fun i => match td i with None => 1 | Some _ => 0 end)%Z (seq 0 (length ts))).
  assert (K1 : Z.of_nat (length ts) = (sumz (fun v => sumz (fun i => match td i with None => 0 | Some _ => 1 end)%Z (asc v)) (seq 0 (length ns)) + B)%Z).
  { rewrite <- by_bottom by now intros i ->. unfold B. rewrite <- sumz_plus, <- (seq_length (length ts) 0) at 1. rewrite <- sumz_len. apply sumz_ext. intros i _. destruct (td i); reflexivity. }
  assert (K2 : Z.of_nat (length ts) = (sumz (fun v => sumz (fun i => match tu i with None => 0 | Some _ => 1 end)%Z (desc v)) (seq 0 (length ns)) + 1)%Z).
  { rewrite <- by_top by now intros i ->. assert (E : sumz (fun i => match tu i with None => 1 | Some _ => 0 end)%Z (seq 0 (length ts)) = 1%Z).
    { assert (Hin : t0 < length ts) by (destruct H0 as [_ (X & _) _ _ _ _ _ _ _]; exact X).
      destruct (in_split t0 (seq 0 (length ts))) as (l1 & l2 & El); [apply in_seq; lia|]. pose proof (seq_NoDup (length ts) 0) as Nd. rewrite El in Nd |- *. rewrite sumz_app. cbn [sumz]. rewrite Ht0.
      apply NoDup_remove_2 in Nd. rewrite !sumz_zero; auto; intros x Hx; (destruct (tu x) eqn:Ex; auto; exfalso; apply Nd; rewrite <- (Ht x); auto; [apply in_or_app; auto|]);
      assert (Hs : In x (seq 0 (length ts))) by (rewrite El; apply in_or_app; cbn; auto); apply in_seq in Hs; lia. }
    rewrite <- E, <- sumz_plus, <- (seq_length (length ts) 0) at 1. rewrite <- sumz_len. apply sumz_ext. intros i _. destruct (tu i); reflexivity. }
  assert (K3 : (sumz (fun v => sumz (fun i => match td i with None => 0 | Some _ => 1 end)%Z (asc v)) (seq 0 (length ns)) +
    sumz (fun v => sumz (fun i => match tu i with None => 0 | Some _ => 1 end)%Z (desc v)) (seq 0 (length ns)) = 4 * Z.of_nat (length ns))%Z).
  { replace (Z.of_nat (length ns)) with (sumz (fun _ => 1%Z) (seq 0 (length ns))) by (rewrite sumz_len, seq_length; reflexivity). rewrite <- sumz_plus, <- sumz_scale. apply sumz_ext. intros v Hv. apply in_seq in Hv.
    rewrite (sumz_ext _ (fun _ => 1%Z) (asc v)), (sumz_ext _ (fun _ => 1%Z) (desc v)), !sumz_len.
    - destruct (vedges_len v) as (_ & K); lia.
    - intros i Hi. apply in_desc in Hi. now destruct Hi as (_ & ->).
    - intros i Hi. apply in_asc in Hi. now destruct Hi as (_ & ->). }
  assert (K4 : (0 <= B)%Z). { unfold B. generalize (seq 0 (length ts)). intros l. clear. induction l as [|i l IH]; cbn [sumz]; [lia|]. destruct (td i); lia. }
  lia.
Qed.

Lemma v0_lt : v0 < length ns.
Proof. destruct H0 as [(n & Hn & _) _ _ _ _ _ _ _ _]. eapply nth_lt; eauto. Qed.

(** One component of each colour gives the count. *)
Definition linksc (c : bool) : list (nat * nat) := filter (fun e => Bool.eqb (colour (fst e)) c) (concat (map links (seq 0 (length ns)))).
Definition nodesc (c : bool) : list nat := filter (fun i => Bool.eqb (colour i) c) (seq 0 (length ts)).

Lemma delta_one : (forall c, conn (nodesc c) (linksc c)) -> sumz delta (seq 0 (length ns)) = (-1)%Z.
Proof.
  intros HC. assert (L : forall c, (Z.of_nat (length (nodesc c)) <= Z.of_nat (length (linksc c)) + 1)%Z).
  { intros c. pose proof (conn_le (linksc c) (nodesc c)). assert (NoDup (nodesc c)) by (apply NoDup_filter, seq_NoDup). specialize (H H1 (HC c)). lia. }
  assert (Nt : Z.of_nat (length (nodesc true)) = sumz nt (seq 0 (length ns))).
  { unfold nodesc, nt. rewrite <- sumz_count, (sumz_ext _ (fun i => b1 (colour i))) by (intros i _; now destruct (colour i)). apply by_bottom. intros i Hi. now rewrite (colour_low i Hi). }
  assert (Ns : (Z.of_nat (length (nodesc true)) + Z.of_nat (length (nodesc false)) = Z.of_nat (length ts))%Z).
  { replace (Z.of_nat (length ts)) with (sumz (fun _ => 1%Z) (seq 0 (length ts))) by (rewrite sumz_len, seq_length; reflexivity). unfold nodesc. rewrite <- !sumz_count, <- sumz_plus. apply sumz_ext. intros i _. now destruct (colour i). }
  assert (C0 : colour t0 = false) by now apply (colour_top M st).
  assert (Lt : Z.of_nat (length (linksc true)) = sumz et (seq 0 (length ns))).
  { unfold linksc. rewrite <- sumz_count, sumz_concat, sumz_map. apply sumz_ext. intros v _. unfold et, links. destruct (Nat.eqb_spec v v0) as [->|].
    - unfold vedges. rewrite (proj1 (A_at _ _ _ _ _ _ _ _ _ H0)). cbn [tyedges skipn sumz fst]. now rewrite C0.
    - apply sumz_ext. intros e _. now destruct (colour (fst e)). }
  assert (Ls : (Z.of_nat (length (linksc true)) + Z.of_nat (length (linksc false)) = 2 * Z.of_nat (length ns) - 1)%Z).
  { unfold linksc. rewrite <- !sumz_count, <- sumz_plus. rewrite (sumz_ext _ (fun _ => 1%Z)) by (intros e _; now destruct (colour (fst e))). rewrite sumz_concat, sumz_map.
    rewrite (sumz_ext _ (fun v => 2 - (if Nat.eqb v v0 then 1 else 0))%Z).
    - rewrite (sumz_ext _ (fun v => 2 * 1 + -1 * (if Nat.eqb v v0 then 1 else 0))%Z) by (intros; lia). rewrite sumz_plus, !sumz_scale, sumz_len, seq_length, sumz_count.
      assert (Hv : length (filter (fun v => Nat.eqb v v0) (seq 0 (length ns))) = 1); [|lia].
      pose proof v0_lt as Hlt. destruct (in_split v0 (seq 0 (length ns))) as (l1 & l2 & El); [apply in_seq; lia|]. pose proof (seq_NoDup (length ns) 0) as Nd. rewrite El in Nd |- *.
      apply NoDup_remove_2 in Nd. rewrite filter_app. cbn [filter]. rewrite Nat.eqb_refl.
      assert (Z0 : forall l, ~ In v0 l -> filter (fun v => Nat.eqb v v0) l = []). { induction l as [|a l IH]; intros K; auto. cbn. destruct (Nat.eqb_spec a v0) as [->|]; [elim K; now left|]. apply IH. intros K'. apply K. now right. }
      rewrite !Z0; auto; intros K; apply Nd; apply in_or_app; auto.
    - intros v Hv. apply in_seq in Hv. rewrite sumz_len. destruct (vedges_len v) as (K & _); [lia|]. unfold links. destruct (Nat.eqb_spec v v0) as [->|]; [|lia]. rewrite skipn_length. lia. }
  pose proof (L true). pose proof (L false). pose proof ts_many. unfold delta.
  rewrite (sumz_ext _ (fun v => et v + -1 * nt v)%Z) by (intros; lia). rewrite sumz_plus, sumz_scale. lia.
Qed.

End Count.
