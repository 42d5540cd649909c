(** The coloured side of the polygons: the same along each polygon. *)
From Coq Require Import QArith Lqa List Arith Lia Bool ZArith Permutation.
From Verif Require Import Base Coord Trap Mono Tri Lanes Plane MonoProof MonoGeom Geo Region TrapInv Polygons Build Faces Open Traverse Sweep Tile.
Import ListNotations.
Local Open Scope nat_scope.

Lemma sumq_nth {A} (F : nat -> Q) (G : A -> Q) (l : list A) : forall k, (forall e g, nth_error l e = Some g -> F (k + e)%nat == G g)%Q -> (sumq F (seq k (length l)) == sumq G l)%Q.
Proof.
  induction l as [|a l IH]; intros k H; cbn [length seq sumq]; [reflexivity|]. rewrite (IH (S k)).
  - rewrite <- (H 0 a eq_refl), Nat.add_0_r. reflexivity.
  - intros e g He. rewrite <- (H (S e) g He). now rewrite Nat.add_succ_r.
Qed.

Lemma nodup_nth {A} (l : list A) i j a : NoDup l -> nth_error l i = Some a -> nth_error l j = Some a -> i = j.
Proof. intros H Hi Hj. apply (proj1 (NoDup_nth_error l) H); [|congruence]. apply nth_error_Some. congruence. Qed.

Definition edge_dec (x y : edge) : {x = y} + {x <> y}.
Proof. destruct x as [a b], y as [c d]. destruct (pt_dec a c) as [->|]; [|right; congruence]. destruct (pt_dec b d) as [->|]; [now left|right; congruence]. Defined.

Section Outline.
Context {I : Type}.
Variables (ps : list (list point)) (ex : list point) (M : Q) (gv : I -> point) (st : state Q I).
Hypothesis HV : valid ps.
Notation W := (concat ps ++ ex).
Notation Es := (uedges ps).
Notation D := (concat (map edges ps)).
Hypothesis HG : geo W Es.
Hypothesis HM : shear M W.
Hypothesis HF : full W Es M gv st.
Hypothesis HE : Permutation (medges st) Es.
Hypothesis HD : forall v n, nth_error (st_ns st) v = Some n -> deg n = 2.

Notation ss := (st_ss st).
Notation ns := (st_ns st).
Notation scol := (Faces.scol M st).
Notation colour := (Faces.colour M st).
Let HC : core W Es M gv st := f_core _ _ _ _ _ HF.

(** The coloured side of an edge ([true]: right of the upward direction), by its points. *)
Definition ecol (x : edge) : bool :=
  existsb (fun e => match nth_error (medges st) e with Some y => if edge_dec y x then scol e else false | None => false end) (seq 0 (length ss)).

Lemma ecol_at e g : nth_error ss e = Some g -> ecol (sedge g) = scol e.
Proof.
  intros Hg. assert (Hm : nth_error (medges st) e = Some (sedge g)) by (unfold medges; now rewrite nth_error_map, Hg).
  unfold ecol. apply eq_true_iff_eq. rewrite existsb_exists. split.
  - intros (e' & _ & He'). destruct (nth_error (medges st) e') as [y|] eqn:Ey; [|discriminate]. destruct (edge_dec y (sedge g)) as [->|]; [|discriminate].
    assert (e' = e) by (eapply nodup_nth; eauto; apply (c_snd _ _ _ _ _ HC)). now subst.
  - intros He. exists e. split; [apply in_seq; split; [lia|]; eapply nth_lt; eauto|]. rewrite Hm. destruct (edge_dec (sedge g) (sedge g)); congruence.
Qed.

(** The coloured side is left of a directed edge. *)
Definition inn (d : edge) : bool := if coords_lt (fst d) (snd d) then negb (ecol (oedge d)) else ecol (oedge d).

Lemma ow_edges w : (sumq (ow M st w) (seq 0 (length ss)) == sumq (fun d => if inn d then w (fst d) (snd d) else w (snd d) (fst d)) D)%Q.
Proof.
  transitivity (sumq (fun x => if ecol x then w (snd x) (fst x) else w (fst x) (snd x)) (medges st)).
  - unfold medges. rewrite sumq_map. apply sumq_nth. intros e g Hg. cbn [Nat.add]. unfold ow. rewrite (ecol_at e g Hg).
    destruct (seg_at W Es M gv st HG HM HF e g Hg) as (_ & _ & -> & -> & _). reflexivity.
  - rewrite (sumq_perm _ _ _ HE). unfold uedges. rewrite sumq_map. apply sumq_ext. intros d _. unfold inn, oedge, orient. destruct d as [a b]. cbn [fst snd].
    destruct (coords_lt a b); cbn [fst snd]; destruct (ecol _); reflexivity.
Qed.

(** The segment of a directed edge at its end, and at its start. *)
Lemma seg_of d : In d D -> exists e g, nth_error ss e = Some g /\ sedge g = oedge d.
Proof.
  intros Hd. assert (Hin : In (oedge d) (medges st)). { eapply Permutation_in; [symmetry; exact HE|]. unfold uedges. now apply in_map. }
  apply In_nth_error in Hin. destruct Hin as (e & He). unfold medges in He. rewrite nth_error_map in He. destruct (nth_error ss e) as [g|] eqn:Eg; [|discriminate]. injection He as He. eauto.
Qed.

Definition up (d : edge) : bool := coords_lt (fst d) (snd d).

Lemma at_end d : In d D -> exists e g k n, nth_error ss e = Some g /\ sedge g = oedge d /\ nth_error ns k = Some n /\ n_c n = snd d /\
  In e (seps n (if up d then Desc else Asc)) /\ inn d = if up d then negb (scol e) else scol e.
Proof.
  intros Hd. destruct (seg_of d Hd) as (e & g & Hg & Hs). unfold inn. fold (up d). rewrite <- Hs, (ecol_at e g Hg).
  destruct (c_ss _ _ _ _ _ HC e g Hg) as (P1 & P2 & _). unfold oedge, orient in Hs. fold (up d) in Hs. destruct (up d) eqn:Eu.
  - destruct (f_s _ _ _ _ _ HF e g Asc Hg) as (n & Hn & Hin). cbn [send opp] in *. exists e, g, (s_max g), n. split; auto. split; [reflexivity|].
    split; auto. split; [|split; auto]. apply points_nth in Hn. assert (K : s_cmax g = n_c n) by congruence. change (s_cmax g) with (snd (sedge g)) in K. rewrite Hs in K. now symmetry.
  - destruct (f_s _ _ _ _ _ HF e g Desc Hg) as (n & Hn & Hin). cbn [send opp] in *. exists e, g, (s_min g), n. split; auto. split; [reflexivity|].
    split; auto. split; [|split; auto]. apply points_nth in Hn. assert (K : s_cmin g = n_c n) by congruence. change (s_cmin g) with (fst (sedge g)) in K. rewrite Hs in K. now symmetry.
Qed.

Lemma at_start d : In d D -> exists e g k n, nth_error ss e = Some g /\ sedge g = oedge d /\ nth_error ns k = Some n /\ n_c n = fst d /\
  In e (seps n (if up d then Asc else Desc)) /\ inn d = if up d then negb (scol e) else scol e.
Proof.
  intros Hd. destruct (seg_of d Hd) as (e & g & Hg & Hs). unfold inn. fold (up d). rewrite <- Hs, (ecol_at e g Hg).
  destruct (c_ss _ _ _ _ _ HC e g Hg) as (P1 & P2 & _). unfold oedge, orient in Hs. fold (up d) in Hs. destruct (up d) eqn:Eu.
  - destruct (f_s _ _ _ _ _ HF e g Desc Hg) as (n & Hn & Hin). cbn [send opp] in *. exists e, g, (s_min g), n. split; auto. split; [reflexivity|].
    split; auto. split; [|split; auto]. apply points_nth in Hn. assert (K : s_cmin g = n_c n) by congruence. change (s_cmin g) with (fst (sedge g)) in K. rewrite Hs in K. now symmetry.
  - destruct (f_s _ _ _ _ _ HF e g Asc Hg) as (n & Hn & Hin). cbn [send opp] in *. exists e, g, (s_max g), n. split; auto. split; [reflexivity|].
    split; auto. split; [|split; auto]. apply points_nth in Hn. assert (K : s_cmax g = n_c n) by congruence. change (s_cmax g) with (snd (sedge g)) in K. rewrite Hs in K. now symmetry.
Qed.

(** Around a vertex. *)
Lemma inn_next d1 d2 : In d1 D -> In d2 D -> snd d1 = fst d2 -> oedge d1 <> oedge d2 -> inn d1 = inn d2.
Proof.
  intros H1 H2 Ev Hne. destruct (at_end d1 H1) as (e1 & g1 & k1 & n1 & Hg1 & Hs1 & Hn1 & Hc1 & Hi1 & ->). destruct (at_start d2 H2) as (e2 & g2 & k2 & n2 & Hg2 & Hs2 & Hn2 & Hc2 & Hi2 & ->).
  assert (Hk : k1 = k2). { apply (nodup_nth (points st) k1 k2 (n_c n1)); [apply (c_nd _ _ _ _ _ HC)|now apply points_nth|]. rewrite Hc1, Ev, <- Hc2. now apply points_nth. }
  subst k2. assert (n2 = n1) by congruence. subst n2. assert (He : e1 <> e2). { intros ->. apply Hne. rewrite <- Hs1, <- Hs2. f_equal. congruence. }
  destruct (node_cases W Es M gv st HG HM HF HD _ n1 Hn1) as [(L & R & s0 & s1 & ul & uc & ur & dn & N)|[(L & R & s & s' & ul & ur & dl & dr & N)|(L & R & s0 & s1 & u & dl & dc & dr & N)]].
  - pose proof (nv_n _ _ _ _ _ _ _ _ _ _ N) as (n' & Hn' & _ & Sa & Sd & _). assert (n' = n1) by congruence. subst n'.
    assert (K : scol s0 = negb (scol s1)). { destruct N as [_ _ (_ & B1 & B2 & _) _ _ _ _ _ _]. rewrite <- (colour_l W Es M gv st HG HM HF HD uc s0 B1). now apply (colour_r W Es M gv st HG HM HF HD). }
    destruct (up d1); [rewrite Sd in Hi1; easy|]. destruct (up d2); [|rewrite Sd in Hi2; easy]. rewrite Sa in Hi1, Hi2. cbn in Hi1, Hi2.
    destruct Hi1 as [<-|[<-|[]]], Hi2 as [<-|[<-|[]]]; try congruence; rewrite K; now rewrite ?negb_involutive.
  - pose proof (ni_n _ _ _ _ _ _ _ _ _ _ N) as (n' & Hn' & _ & Sa & Sd & _). assert (n' = n1) by congruence. subst n'.
    assert (K : scol s = scol s'). { destruct (col_I W Es M gv st HG HM HF HD _ _ _ _ _ _ _ _ _ N) as (_ & _ & K). destruct N as [_ _ (_ & B1 & _ & _) _ (_ & B2 & _ & _) _ _ _ _].
      rewrite <- (colour_l W Es M gv st HG HM HF HD ur s B1), <- (colour_l W Es M gv st HG HM HF HD dr s' B2). now symmetry. }
    assert (K1 : e1 = if up d1 then s' else s). { destruct (up d1); [rewrite Sd in Hi1|rewrite Sa in Hi1]; destruct Hi1 as [<-|[]]; reflexivity. }
    assert (K2 : e2 = if up d2 then s else s'). { destruct (up d2); [rewrite Sa in Hi2|rewrite Sd in Hi2]; destruct Hi2 as [<-|[]]; reflexivity. }
    rewrite K1, K2 in *. destruct (up d1), (up d2); congruence.
  - pose proof (na_n _ _ _ _ _ _ _ _ _ _ N) as (n' & Hn' & _ & Sa & Sd & _). assert (n' = n1) by congruence. subst n'.
    assert (K : scol s0 = negb (scol s1)). { destruct N as [_ _ _ (_ & B1 & B2 & _) _ _ _ _ _]. rewrite <- (colour_l W Es M gv st HG HM HF HD dc s0 B1). now apply (colour_r W Es M gv st HG HM HF HD). }
    destruct (up d1); [|rewrite Sa in Hi1; easy]. destruct (up d2); [rewrite Sa in Hi2; easy|]. rewrite Sd in Hi1, Hi2. cbn in Hi1, Hi2.
    destruct Hi1 as [<-|[<-|[]]], Hi2 as [<-|[<-|[]]]; try congruence; rewrite K; now rewrite ?negb_involutive.
Qed.

Lemma edges_in p d : In p ps -> In d (edges p) -> In d D.
Proof. intros Hp Hd. apply in_concat. exists (edges p). split; auto. now apply in_map. Qed.

Lemma oedges_nd p : In p ps -> NoDup (map oedge (edges p)).
Proof.
  intros Hp. apply in_split in Hp. destruct Hp as (l1 & l2 & E). pose proof (uedges_nd ps HV) as K. unfold uedges in K. rewrite E, map_app in K. cbn [map] in K. rewrite concat_app in K. cbn [concat] in K.
  rewrite !map_app in K. apply NoDup_app_inv in K. destruct K as (_ & K & _). now apply NoDup_app_inv in K.
Qed.

(** Along a polygon. *)
Lemma inn_const p d d' : In p ps -> In d (edges p) -> In d' (edges p) -> inn d = inn d'.
Proof.
  intros Hp Hd Hd'. assert (H3 : 3 <= length p). { destruct HV as (H & _). rewrite Forall_forall in H. now apply H. }
  assert (K : forall j d, nth_error (edges p) j = Some d -> forall d0, nth_error (edges p) 0 = Some d0 -> inn d = inn d0).
  { clear d d' Hd Hd'. induction j as [|j IH]; intros d Hj d0 H0; [congruence|].
    assert (Hj1 : S j < length p). { rewrite <- edges_length. apply nth_error_Some. congruence. }
    destruct (lt_nth _ (edges p) j) as (d1 & Hd1); [rewrite edges_length; lia|]. rewrite <- (IH d1 Hd1 d0 H0). symmetry. apply inn_next.
    - eapply edges_in; eauto. eapply nth_error_In; eauto.
    - eapply edges_in; eauto. eapply nth_error_In; eauto.
    - destruct d as [a b], d1 as [a1 b1]. apply edges_nth in Hj, Hd1. destruct Hj as (Ha & _), Hd1 as (_ & Hb1). replace (j + 1) with (S j) in Hb1 by lia. rewrite Nat.mod_small in Hb1 by lia. cbn. congruence.
    - intros E. assert (j = S j); [|lia]. apply (nodup_nth (map oedge (edges p)) _ _ (oedge d1)); [now apply oedges_nd|exact (map_nth_error oedge _ _ Hd1)|rewrite E; exact (map_nth_error oedge _ _ Hj)]. }
  destruct (lt_nth _ (edges p) 0) as (d0 & H0); [rewrite edges_length; lia|]. apply In_nth_error in Hd, Hd'. destruct Hd as (j & Hj), Hd' as (j' & Hj'). now rewrite (K j d Hj d0 H0), (K j' d' Hj' d0 H0).
Qed.

(** The coloured side of a polygon is the left one in the direction of its list. *)
Definition pinn (p : list point) : bool := match edges p with [] => false | d :: _ => inn d end.

Lemma pinn_at p d : In p ps -> In d (edges p) -> inn d = pinn p.
Proof. intros Hp Hd. unfold pinn. destruct (edges p) as [|d0 l] eqn:E; [easy|]. apply (inn_const p); auto; rewrite E; auto. now left. Qed.

Lemma ow_polys w : anti w -> (sumq (ow M st w) (seq 0 (length ss)) == sumq (fun p => sgn (pinn p) * sumq (fun d => w (fst d) (snd d)) (edges p)) ps)%Q.
Proof.
  intros Hw. rewrite ow_edges.
  assert (G : forall l, incl l ps -> (sumq (fun d => if inn d then w (fst d) (snd d) else w (snd d) (fst d)) (concat (map edges l)) == sumq (fun p => sgn (pinn p) * sumq (fun d => w (fst d) (snd d)) (edges p)) l)%Q).
  { induction l as [|p l IH]; intros Hl; [reflexivity|]. cbn [map concat sumq]. rewrite sumq_app, IH by (intros x Hx; apply Hl; now right).
    apply Qplus_comp; [|reflexivity]. rewrite <- sumq_scale. apply sumq_ext. intros d Hd. rewrite (pinn_at p d); auto; [|apply Hl; now left].
    destruct (pinn p); cbn [sgn]; [ring|]. rewrite (Hw (snd d) (fst d)). ring. }
  apply G. apply incl_refl.
Qed.

End Outline.
