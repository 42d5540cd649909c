(** The documented preconditions (README.md 40-45, src/lib.rs 51-56) and validity. *)
From Coq Require Import QArith Lqa List Arith Lia Bool Permutation.
From Verif Require Import Base Coord Trap Plane Geo Polygons Build.
Import ListNotations.
Local Open Scope Q_scope.

(** The vertices are different points. *)
Definition distinct (ps : list (list point)) : Prop :=
  forall i j a b, nth_error (concat ps) i = Some a -> nth_error (concat ps) j = Some b -> peq a b -> i = j.

(** No vertex is on an edge of which it is not an end. *)
Definition apart (ps : list (list point)) : Prop :=
  forall e v, In e (concat (map edges ps)) -> In v (concat ps) -> on_segment (fst e) (snd e) v -> peq v (fst e) \/ peq v (snd e).

(** Two edges cross: the ends of each are strictly on different sides of the other. *)
Definition crosses (e f : edge) : Prop :=
  cross (fst e) (snd e) (fst f) * cross (fst e) (snd e) (snd f) < 0 /\ cross (fst f) (snd f) (fst e) * cross (fst f) (snd f) (snd e) < 0.
Definition crossing (ps : list (list point)) : Prop := exists e f, In e (concat (map edges ps)) /\ In f (concat (map edges ps)) /\ crosses e f.

Lemma neg_split a b : a * b < 0 -> (a < 0 /\ 0 < b) \/ (0 < a /\ b < 0).
Proof. intros H. destruct (Qlt_le_dec a 0) as [K|K]; [left|right]; split; auto; [| |]; try nra. destruct (Qlt_le_dec 0 a); auto. assert (a == 0) as Z by lra. rewrite Z in H. lra. Qed.

Lemma cross_on a b p x y : on_segment a b p -> exists t, 0 <= t <= 1 /\ (t == 0 -> peq p a) /\ (t == 1 -> peq p b) /\ cross x y p == (1 - t) * cross x y a + t * cross x y b.
Proof.
  intros (t & T0 & T1 & Hx & Hy). exists t. split; auto. split; [intros E; split; rewrite ?Hx, ?Hy, E; ring|]. split; [intros E; split; rewrite ?Hx, ?Hy, E; ring|]. unfold cross. rewrite Hx, Hy. ring. Qed.

Lemma cross_self a b p : on_segment a b p -> cross a b p == 0.
Proof. intros (t & T0 & T1 & Hx & Hy). unfold cross. rewrite Hx, Hy. ring. Qed.

Lemma cross_peq a b p q : peq p q -> cross a b p == cross a b q.
Proof. intros (Hx & Hy). unfold cross. now rewrite Hx, Hy. Qed.

Lemma plt_self a : plt a a -> False.
Proof. apply plt_irrefl. split; reflexivity. Qed.

(** Crossing edges have a common point that is no end. *)
Lemma crosses_meet e f : crosses e f -> exists p, on_segment (fst e) (snd e) p /\ on_segment (fst f) (snd f) p /\
  ~ peq p (fst e) /\ ~ peq p (snd e).
Proof.
  destruct e as [a b], f as [c d]. cbn [fst snd]. intros (H1 & H2). cbn [fst snd] in *.
  set (A := cross c d a) in *. set (B := cross c d b) in *. set (C := cross a b c) in *. set (D := cross a b d) in *.
  assert (E : A - B == - (C - D)). { unfold A, B, C, D, cross. ring. }
  assert (Hab : ~ A - B == 0) by (apply neg_split in H2; lra). assert (Hcd : ~ C - D == 0) by (apply neg_split in H1; lra).
  set (t := A / (A - B)). set (u := C / (C - D)).
  assert (Ht : t * (A - B) == A) by (unfold t; field; auto). assert (Hu : u * (C - D) == C) by (unfold u; field; auto).
  assert (T : 0 < t /\ t < 1). { clearbody t. apply neg_split in H2. destruct H2; split; nra. }
  assert (U : 0 < u /\ u < 1). { clearbody u. apply neg_split in H1. destruct H1; split; nra. }
  set (p := ((cx a + t * (cx b - cx a), cy a + t * (cy b - cy a)) : point)). exists p.
  assert (P1 : on_segment a b p). { exists t. repeat split; try lra; unfold p, cx, cy; cbn; ring. }
  split; auto. split; [|split].
  - exists u. split; [lra|]. split; [lra|]. clearbody t u.
    assert (X1 : (cx a + t * (cx b - cx a) - (cx c + u * (cx d - cx c))) * (A - B) == 0).
    { transitivity ((t * (A - B)) * (cx b - cx a) + (u * (C - D)) * (cx d - cx c) + (cx a - cx c) * (A - B)).
      - assert (E' : C - D == - (A - B)) by lra. rewrite E'. ring.
      - rewrite Ht, Hu. unfold A, B, C, cross. ring. }
    assert (Y1 : (cy a + t * (cy b - cy a) - (cy c + u * (cy d - cy c))) * (A - B) == 0).
    { transitivity ((t * (A - B)) * (cy b - cy a) + (u * (C - D)) * (cy d - cy c) + (cy a - cy c) * (A - B)).
      - assert (E' : C - D == - (A - B)) by lra. rewrite E'. ring.
      - rewrite Ht, Hu. unfold A, B, C, cross. ring. }
    apply Qmult_integral in X1, Y1. destruct X1 as [X1|X1]; [|contradiction]. destruct Y1 as [Y1|Y1]; [|contradiction].
    unfold p. split; [change (cx a + t * (cx b - cx a) == cx c + u * (cx d - cx c))|change (cy a + t * (cy b - cy a) == cy c + u * (cy d - cy c))]; lra.
  - intros K. apply (cross_peq c d) in K. assert (Z : cross c d p == (1 - t) * A + t * B) by (unfold A, B, cross, p, cx, cy; cbn; ring). fold A in K. rewrite Z in K. clearbody t A B. apply neg_split in H2. destruct H2; nra.
  - intros K. apply (cross_peq c d) in K. assert (Z : cross c d p == (1 - t) * A + t * B) by (unfold A, B, cross, p, cx, cy; cbn; ring). fold B in K. rewrite Z in K. clearbody t A B. apply neg_split in H2. destruct H2; nra.
Qed.

(** On a line: between two points of an edge in the vertex order is on the edge. *)
Lemma between_on a b p : plt a p -> plt p b -> cross a b p == 0 -> on_segment a b p.
Proof.
  intros H1 H2 H. unfold cross in H. destruct (Qlt_le_dec (cy a) (cy b)) as [K|K].
  - set (t := (cy p - cy a) / (cy b - cy a)). assert (Ht : t * (cy b - cy a) == cy p - cy a) by (unfold t; field; lra). clearbody t.
    assert (Y1 : cy a <= cy p) by (destruct H1; lra). assert (Y2 : cy p <= cy b) by (destruct H2; lra).
    exists t. split; [nra|]. split; [nra|]. split; [|lra].
    assert (Z : (cx p - (cx a + t * (cx b - cx a))) * (cy b - cy a) == 0). { transitivity ((cx p - cx a) * (cy b - cy a) - (cx b - cx a) * (t * (cy b - cy a))); [ring|]. rewrite Ht. lra. }
    apply Qmult_integral in Z. lra.
  - assert (Ya : cy a == cy p) by (destruct H1, H2; lra). assert (Yb : cy p == cy b) by (destruct H1, H2; lra).
    assert (X1 : cx a < cx p) by (destruct H1; lra). assert (X2 : cx p < cx b) by (destruct H2; lra).
    set (t := (cx p - cx a) / (cx b - cx a)). assert (Ht : t * (cx b - cx a) == cx p - cx a) by (unfold t; field; lra). clearbody t.
    exists t. split; [nra|]. split; [nra|]. split; [lra|]. rewrite <- Yb, <- Ya. ring.
Qed.

Lemma on_plt a b p : plt a b -> on_segment a b p -> (peq p a \/ plt a p) /\ (peq p b \/ plt p b).
Proof.
  intros H (t & T0 & T1 & Hx & Hy). unfold plt, peq in *. rewrite Hx, Hy.
  destruct (Q_dec t 0) as [[K|K]|K]; [lra| |].
  - destruct (Q_dec t 1) as [[L|L]|L]; [|lra|].
    + split; right; destruct H as [H|(H & H')]; [left; nra|right; split; nra|left; nra|right; split; nra].
    + split; [right|left]; rewrite L.
      * destruct H as [H|(H & H')]; [left; lra|right; split; lra].
      * split; ring.
  - split; [left|right]; rewrite K.
    + split; ring.
    + destruct H as [H|(H & H')]; [left; lra|right; split; lra].
Qed.

(** Validity is: at least three vertices, the documented preconditions, and no vertex on another edge. *)
Theorem valid_doc ps : valid ps <-> Forall (fun p => (3 <= length p)%nat) ps /\ distinct ps /\ apart ps /\ ~ crossing ps.
Proof.
  split.
  - intros HV. split; [apply HV|]. split; [exact (proj1 (proj2 HV))|]. split.
    + intros e v He Hv Ho. pose proof (valid_geo ps HV []) as G. rewrite app_nil_r in G. specialize (G ltac:(easy) ltac:(easy) ltac:(easy)).
      assert (Ho' : on_segment (fst (oedge e)) (snd (oedge e)) v) by now apply on_oedge.
      assert (Hin : In (oedge e) (uedges ps)) by (unfold uedges; now apply in_map).
      destruct (g_on _ _ G (oedge e) v Hin Hv Ho') as [-> | ->]; destruct (oedge_cases e) as [-> | ->]; cbn; (try (left; split; reflexivity)); (try (right; split; reflexivity)).
    + intros (e & f & He & Hf & Hc). pose proof HV as (_ & _ & K). apply In_nth_error in He, Hf. destruct He as (i & Hi), Hf as (j & Hj).
      destruct (crosses_meet e f Hc) as (p & P1 & P2 & N1 & N2).
      assert (Hij : i <> j). { intros <-. assert (e = f) as <- by congruence. destruct Hc as (Hc & _). assert (Z : cross (fst e) (snd e) (fst e) == 0) by (unfold cross; ring). rewrite Z in Hc. lra. }
      destruct (K i j e f p Hi Hj Hij P1 P2) as ([Q|Q] & _); contradiction.
  - intros (H3 & HD & HA & HC). split; auto. split; auto. intros i j e f p Hi Hj Hij P1 P2.
    pose proof (nth_error_In _ _ Hi) as He. pose proof (nth_error_In _ _ Hj) as Hf.
    destruct (dist_ends ps H3 HD e He) as (V1 & V2 & _). destruct (dist_ends ps H3 HD f Hf) as (V3 & V4 & _).
    assert (On : forall a b p q, peq p q -> on_segment a b p -> on_segment a b q).
    { intros a b x y (E1 & E2) (t & T0 & T1 & Hx & Hy). exists t. rewrite <- E1, <- E2. auto. }
    (* an end of one of the two *)
    assert (Ende : forall v, In v (concat ps) -> peq p v -> (peq p (fst e) \/ peq p (snd e)) /\ (peq p (fst f) \/ peq p (snd f))).
    { intros v Hv E. assert (Z : forall u, peq v u -> peq p u) by (intros u Hu; eapply peq_trans; eauto).
      split; [destruct (HA e v He Hv (On _ _ _ _ E P1)); auto|destruct (HA f v Hf Hv (On _ _ _ _ E P2)); auto]. }
    destruct (on_plt (fst (oedge e)) (snd (oedge e)) p) as (Q1 & Q2); [now apply (dist_lt ps H3 HD)|now apply on_oedge|].
    destruct (on_plt (fst (oedge f)) (snd (oedge f)) p) as (Q3 & Q4); [now apply (dist_lt ps H3 HD)|now apply on_oedge|].
    assert (Hve : In (fst (oedge e)) (concat ps) /\ In (snd (oedge e)) (concat ps)) by (destruct (oedge_cases e) as [-> | ->]; cbn; auto).
    assert (Hvf : In (fst (oedge f)) (concat ps) /\ In (snd (oedge f)) (concat ps)) by (destruct (oedge_cases f) as [-> | ->]; cbn; auto).
    destruct Q1 as [Q1|Q1]; [now apply (Ende (fst (oedge e)))|]. destruct Q2 as [Q2|Q2]; [now apply (Ende (snd (oedge e)))|].
    destruct Q3 as [Q3|Q3]; [now apply (Ende (fst (oedge f)))|]. destruct Q4 as [Q4|Q4]; [now apply (Ende (snd (oedge f)))|].
    exfalso.
    set (a := fst (oedge e)) in *. set (b := snd (oedge e)) in *. set (c := fst (oedge f)) in *. set (d := snd (oedge f)) in *.
    assert (Oe : forall q, on_segment a b q <-> on_segment (fst e) (snd e) q) by (intros; apply on_oedge).
    assert (Of : forall q, on_segment c d q <-> on_segment (fst f) (snd f) q) by (intros; apply on_oedge).
    assert (Hcr : crosses e f <-> cross a b c * cross a b d < 0 /\ cross c d a * cross c d b < 0).
    { unfold crosses, a, b, c, d. destruct (oedge_cases e) as [-> | ->], (oedge_cases f) as [-> | ->]; cbn [fst snd]; try tauto.
      - assert (Z1 : cross (fst e) (snd e) (snd f) * cross (fst e) (snd e) (fst f) == cross (fst e) (snd e) (fst f) * cross (fst e) (snd e) (snd f)) by ring.
        assert (Z2 : cross (snd f) (fst f) (fst e) * cross (snd f) (fst f) (snd e) == cross (fst f) (snd f) (fst e) * cross (fst f) (snd f) (snd e)) by (unfold cross; ring). rewrite Z1, Z2. tauto.
      - assert (Z1 : cross (snd e) (fst e) (fst f) * cross (snd e) (fst e) (snd f) == cross (fst e) (snd e) (fst f) * cross (fst e) (snd e) (snd f)) by (unfold cross; ring).
        assert (Z2 : cross (fst f) (snd f) (snd e) * cross (fst f) (snd f) (fst e) == cross (fst f) (snd f) (fst e) * cross (fst f) (snd f) (snd e)) by ring. rewrite Z1, Z2. tauto.
      - assert (Z1 : cross (snd e) (fst e) (snd f) * cross (snd e) (fst e) (fst f) == cross (fst e) (snd e) (fst f) * cross (fst e) (snd e) (snd f)) by (unfold cross; ring).
        assert (Z2 : cross (snd f) (fst f) (snd e) * cross (snd f) (fst f) (fst e) == cross (fst f) (snd f) (fst e) * cross (fst f) (snd f) (snd e)) by (unfold cross; ring). rewrite Z1, Z2. tauto. }
    assert (Nc : ~ (cross a b c * cross a b d < 0 /\ cross c d a * cross c d b < 0)) by (rewrite <- Hcr; intros K; apply HC; exists e, f; auto).
    apply Oe in P1. apply Of in P2.
    destruct (cross_on a b p c d P1) as (t & T & Ta & Tb & Et). destruct (cross_on c d p a b P2) as (u & U & Uc & Ud & Eu).
    rewrite (cross_self c d p P2) in Et. rewrite (cross_self a b p P1) in Eu.
    assert (Col : cross a b c == 0 /\ cross a b d == 0 /\ cross c d a == 0 /\ cross c d b == 0).
    { assert (Ed : cross c d a - cross c d b == - (cross a b c - cross a b d)) by (unfold cross; ring).
      assert (T' : 0 < t /\ t < 1). { assert (~ t == 0) by (intros K; eapply plt_irrefl; [|exact Q1]; apply peq_sym; auto). assert (~ t == 1) by (intros K; eapply plt_irrefl; [|exact Q2]; auto). lra. }
      assert (U' : 0 < u /\ u < 1). { assert (~ u == 0) by (intros K; eapply plt_irrefl; [|exact Q3]; apply peq_sym; auto). assert (~ u == 1) by (intros K; eapply plt_irrefl; [|exact Q4]; auto). lra. }
      assert (Z : forall x y w : Q, 0 < w /\ w < 1 -> 0 == (1 - w) * x + w * y -> (x == 0 /\ y == 0) \/ x * y < 0).
      { intros x y w Hw Hz. destruct (Q_dec x 0) as [[K|K]|K]; [right; assert (0 < y) by nra; nra|right; assert (y < 0) by nra; nra|left; split; auto].
        rewrite K in Hz. assert (Z : w * y == 0) by lra. apply Qmult_integral in Z. destruct Z; lra. }
      destruct (Z _ _ t T' Et) as [(A1 & A2)|A1], (Z _ _ u U' Eu) as [(B1 & B2)|B1]; auto; exfalso.
      - apply neg_split in B1. rewrite A1, A2 in Ed. lra.
      - apply neg_split in A1. rewrite B1, B2 in Ed. lra.
      - apply Nc. auto. }
    destruct Col as (C1 & C2 & C3 & C4).
    assert (Same : forall x, In x (concat ps) -> plt a x -> plt x b -> cross a b x == 0 -> False).
    { intros x Hx X1 X2 X3. destruct (HA e x He Hx) as [K|K]; [apply Oe; now apply between_on| |];
        apply (dist_eq ps HD) in K; auto; subst x; unfold a, b in *; destruct (oedge_cases e) as [Z|Z]; rewrite Z in *; cbn in *; first [exact (plt_self _ X1)|exact (plt_self _ X2)]. }
    assert (Same' : forall x, In x (concat ps) -> plt c x -> plt x d -> cross c d x == 0 -> False).
    { intros x Hx X1 X2 X3. destruct (HA f x Hf Hx) as [K|K]; [apply Of; now apply between_on| |];
        apply (dist_eq ps HD) in K; auto; subst x; unfold c, d in *; destruct (oedge_cases f) as [Z|Z]; rewrite Z in *; cbn in *; first [exact (plt_self _ X1)|exact (plt_self _ X2)]. }
    assert (Eac : a = c).
    { destruct (plt_total a c) as [K|[K|K]]; [exfalso; apply (Same c); try tauto; eapply plt_trans; eauto|apply (dist_eq ps HD); tauto|exfalso; apply (Same' a); try tauto; eapply plt_trans; eauto]. }
    assert (Ebd : b = d).
    { destruct (plt_total b d) as [K|[K|K]]; [exfalso; apply (Same' b); try tauto; eapply plt_trans; eauto|apply (dist_eq ps HD); tauto|exfalso; apply (Same d); try tauto; eapply plt_trans; eauto]. }
    apply Hij. apply (dist_nth ps H3 HD i j e f Hi Hj). unfold a, b, c, d in Eac, Ebd. destruct (oedge e), (oedge f). cbn in *. congruence.
Qed.
