(** The closed region: the edges of the polygons are covered too; no two triangles of positive area have a directed side in common. *)
From Coq Require Import QArith Qabs Qminmax Lqa List Arith Lia Bool ZArith Permutation.
From Verif Require Import Base Coord Trap Mono Tri Trace Protocol Lanes Plane MonoProof MonoGeom Geo Region TrapInv Polygons Build Faces Open Traverse Sweep Tile Whole Outline EvenOdd Outcome Nest Near Area Graph Count Single Corner Number Cover Sides Inv.
Import ListNotations.
Local Open Scope Q_scope.

(** ** Specification *)

(** The union of the closed triangles of positive area is the closed region: the inside together with the edges. *)
Definition fills (ps : list (list point)) (T : list (point * point * point)) : Prop :=
  forall z, (exists t, In t T /\ ~ flat t /\ in_closed t z) <-> outline ps z \/ inside_eo ps z = true.

(** Two lists of triangles cover the same points. *)
Definition same_points (T U : list (point * point * point)) : Prop :=
  forall z, (exists t, In t T /\ ~ flat t /\ in_closed t z) <-> (exists t, In t U /\ ~ flat t /\ in_closed t z).

Lemma fills_same ps qs T U : same_polys ps qs -> fills ps T -> fills qs U -> same_points T U.
Proof.
  intros S HT HU z. rewrite (HT z), (HU z), (inside_same ps qs z S). split; (intros [H|H]; [left|now right]); [apply (outline_same qs ps); auto; now apply same_sym|now apply (outline_same ps qs)].
Qed.

(** ** Points of a line through an edge *)
Section Line.
Variables a b z : point.

Definition pos (x : point) : Q := (cx x - cx z) * (cx b - cx a) + (cy x - cy z) * (cy b - cy a).
Definition sg (q : Q) : Q := if Qltb 0 q then 1 else if Qltb q 0 then -1 else 0.
Definition onl (x : point) : bool := Qeq_bool (cross a b x) 0.
Definition wl (x y : point) : Q := if onl x && onl y then sg (pos y) - sg (pos x) else 0.

Lemma wl_anti : anti wl.
Proof. intros x y. unfold wl. rewrite (andb_comm (onl y) (onl x)). destruct (onl x && onl y); ring. Qed.

Lemma sg_cases q : 0 < q /\ sg q == 1 \/ q == 0 /\ sg q == 0 \/ q < 0 /\ sg q == -1.
Proof.
  unfold sg. destruct (Qltb 0 q) eqn:E1; [apply Qltb_spec in E1; left; split; [auto|reflexivity]|]. apply Qltb_false in E1.
  destruct (Qltb q 0) eqn:E2; [apply Qltb_spec in E2; right; right; split; [auto|reflexivity]|]. apply Qltb_false in E2. right; left. split; [lra|reflexivity].
Qed.

Hypothesis Hz : cross a b z == 0.
Hypothesis Hab : ~ peq a b.

Definition len : Q := (cx b - cx a) * (cx b - cx a) + (cy b - cy a) * (cy b - cy a).
Lemma sq_nonneg q : 0 <= q * q.
Proof. destruct (Qlt_le_dec q 0); nra. Qed.
Lemma len_pos : 0 < len.
Proof.
  unfold len. pose proof (sq_nonneg (cx b - cx a)) as H1. pose proof (sq_nonneg (cy b - cy a)) as H2. destruct (Qlt_le_dec 0 ((cx b - cx a) * (cx b - cx a) + (cy b - cy a) * (cy b - cy a))) as [|L]; auto. exfalso. apply Hab.
  assert (E1 : (cx b - cx a) * (cx b - cx a) == 0) by lra. assert (E2 : (cy b - cy a) * (cy b - cy a) == 0) by lra. apply Qmult_integral in E1, E2. split; [destruct E1; lra|destruct E2; lra].
Qed.

(** A point of the line is determined by its position. *)
Lemma onl_pos x : onl x = true -> cx x == cx z + pos x / len * (cx b - cx a) /\ cy x == cy z + pos x / len * (cy b - cy a).
Proof.
  intros H. apply Qeq_bool_iff in H. pose proof len_pos as L. assert (K : (cx b - cx a) * (cy x - cy z) == (cy b - cy a) * (cx x - cx z)) by (unfold cross in *; lra).
  set (u := cx x - cx z) in *. set (v := cy x - cy z) in *. set (p := cx b - cx a) in *. set (q := cy b - cy a) in *. assert (Ep : pos x == u * p + v * q) by reflexivity. assert (El : len == p * p + q * q) by reflexivity.
  split.
  - assert (E : u == pos x / len * p). { assert (E0 : q * (p * v) == q * (q * u)) by (rewrite K; ring). assert (E1 : len * u == pos x * p) by (rewrite El, Ep; lra). assert (E2 : pos x / len * p == (pos x * p) / len) by (field; lra). rewrite E2, <- E1. field. lra. } unfold u in E. lra.
  - assert (E : v == pos x / len * q). { assert (E0 : p * (p * v) == p * (q * u)) by (rewrite K; ring). assert (E1 : len * v == pos x * q) by (rewrite El, Ep; lra). assert (E2 : pos x / len * q == (pos x * q) / len) by (field; lra). rewrite E2, <- E1. field. lra. } unfold v in E. lra.
Qed.

(** The point between two others of the line. *)
Lemma between x y : onl x = true -> onl y = true -> ~ wl x y == 0 -> on_segment x y z /\ ~ pos x == pos y.
Proof.
  intros Hx Hy Hw. unfold wl in Hw. rewrite Hx, Hy in Hw. cbn [andb] in Hw. destruct (onl_pos x Hx) as (X1 & X2), (onl_pos y Hy) as (Y1 & Y2).
  assert (B : (pos x <= 0 /\ 0 < pos y) \/ (0 <= pos x /\ pos y < 0) \/ (pos x < 0 /\ 0 <= pos y) \/ (0 < pos x /\ pos y <= 0)).
  { destruct (sg_cases (pos x)) as [(K1 & K2)|[(K1 & K2)|(K1 & K2)]], (sg_cases (pos y)) as [(K3 & K4)|[(K3 & K4)|(K3 & K4)]]; try (exfalso; apply Hw; rewrite K2, K4; ring); lra. }
  assert (D : ~ pos x == pos y) by (destruct B as [|[|[]]]; lra). split; auto. pose proof len_pos as L.
  set (px := pos x) in *. set (py := pos y) in *. exists (px / (px - py)). assert (D' : ~ px - py == 0) by lra.
  assert (T : 0 <= px / (px - py) /\ px / (px - py) <= 1).
  { destruct (Qlt_le_dec 0 (px - py)) as [P|P].
    - split; [apply Qle_shift_div_l; [auto|destruct B as [|[|[]]]; lra]|apply Qle_shift_div_r; [auto|destruct B as [|[|[]]]; lra]].
    - assert (P' : 0 < py - px) by lra. assert (E : px / (px - py) == (- px) / (py - px)) by (field; split; lra). rewrite E. split; [apply Qle_shift_div_l; [auto|destruct B as [|[|[]]]; lra]|apply Qle_shift_div_r; [auto|destruct B as [|[|[]]]; lra]]. }
  destruct T as (T1 & T2). split; auto. split; auto. rewrite X1, X2, Y1, Y2. split; field; split; lra.
Qed.

(** A triangle that counts has positive area and contains the point. *)
Lemma tri_wl x y v : ~ tri_sum wl (x, y, v) == 0 -> ~ flat (x, y, v) /\ in_closed (x, y, v) z.
Proof.
  intros H. unfold tri_sum in H.
  assert (NF : forall p q r, onl p = true -> onl q = true -> onl r = false -> ~ pos p == pos q -> ~ cross p q r == 0).
  { intros p q r Hp Hq Hr Hne C. apply not_true_iff_false in Hr. apply Hr. apply Qeq_bool_iff. destruct (onl_pos p Hp) as (P1 & P2), (onl_pos q Hq) as (Q1 & Q2). pose proof len_pos as L.
    assert (E : cross p q r == (pos q - pos p) / len * cross a b r).
    { assert (E0 : cross p q r == (pos q - pos p) / len * (cross a b r - cross a b z)). { unfold cross. rewrite P1, P2, Q1, Q2. field. lra. } rewrite E0, Hz. ring. }
    rewrite E in C. apply Qmult_integral in C. destruct C as [C|C]; auto. exfalso. assert (E1 : pos q - pos p == (pos q - pos p) / len * len) by (field; lra). rewrite C in E1. lra. }
  assert (W : forall p q, onl p && onl q = false -> wl p q == 0). { intros p q E. unfold wl. now rewrite E. }
  assert (In1 : forall p q r, on_segment p q z -> in_closed (p, q, r) z). { intros p q r (t & K1 & K2 & K3 & K4). exists (1 - t), t, 0. split; [lra|]. split; [lra|]. split; [lra|]. split; [ring|]. rewrite K3, K4. split; ring. }
  assert (In2 : forall p q r, in_closed (p, q, r) z -> in_closed (r, p, q) z). { intros p q r (t1 & t2 & t3 & K1 & K2 & K3 & K4 & K5 & K6). exists t3, t1, t2. repeat split; auto; [lra|rewrite K5; ring|rewrite K6; ring]. }
  assert (Ro : forall p q r, cross p q r == cross q r p) by (intros; unfold cross; ring).
  destruct (onl x) eqn:Ex, (onl y) eqn:Ey, (onl v) eqn:Ev; try (exfalso; apply H; rewrite !W by (rewrite ?Ex, ?Ey, ?Ev; reflexivity); ring).
  - exfalso. apply H. unfold wl. rewrite Ex, Ey, Ev. cbn [andb]. ring.
  - assert (K : ~ wl x y == 0). { intros K. apply H. rewrite K, (W y v), (W v x) by (rewrite ?Ex, ?Ey, ?Ev; reflexivity). ring. } destruct (between x y Ex Ey K) as (B & D). split; [now apply NF|auto].
  - assert (K : ~ wl v x == 0). { intros K. apply H. rewrite K, (W y v), (W x y) by (rewrite ?Ex, ?Ey, ?Ev; reflexivity). ring. } destruct (between v x Ev Ex K) as (B & D). split; [|apply In2, In2; now apply In1].
    cbn [flat]. rewrite Ro, Ro. now apply NF.
  - assert (K : ~ wl y v == 0). { intros K. apply H. rewrite K, (W x y), (W v x) by (rewrite ?Ex, ?Ey, ?Ev; reflexivity). ring. } destruct (between y v Ey Ev K) as (B & D). split; [|apply In2; now apply In1].
    cbn [flat]. rewrite Ro. now apply NF.
Qed.
End Line.

(** ** The limit of covered points is covered *)

Definition at_eps (z : point) (n : Q * Q) (e : Q) : point := (cx z + e * fst n, cy z + e * snd n).

Lemma ins_dec a b c p : ins a b c p \/ cross a b p < 0 \/ cross b c p < 0 \/ cross c a p < 0.
Proof. unfold ins. destruct (Qlt_le_dec (cross a b p) 0); auto. destruct (Qlt_le_dec (cross b c p) 0); auto. destruct (Qlt_le_dec (cross c a p) 0); auto. Qed.

Lemma cross_at a b z n e : cross a b (at_eps z n e) == cross a b z + e * ((cx b - cx a) * snd n - (cy b - cy a) * fst n).
Proof. unfold cross, at_eps. cbn [cx cy fst snd]. ring. Qed.

Lemma limit (T : list (point * point * point)) z n e0 : (forall a b c, In (a, b, c) T -> 0 <= cross a b c) -> 0 < e0 ->
  (forall e, 0 < e -> e < e0 -> exists t, In t T /\ ~ flat t /\ in_closed t (at_eps z n e)) -> exists t, In t T /\ ~ flat t /\ in_closed t z.
Proof.
  intros HC H0 H.
  assert (G : forall T', (exists t, In t T' /\ 0 < cross (fst (fst t)) (snd (fst t)) (snd t) /\ in_closed t z) \/
    exists l, (forall ck, In ck l -> ~ fst ck == 0) /\ forall t, In t T' -> 0 < cross (fst (fst t)) (snd (fst t)) (snd t) ->
      exists a b, In (cross a b z, (cx b - cx a) * snd n - (cy b - cy a) * fst n) l /\ cross a b z < 0 /\ forall p, in_closed t p -> 0 <= cross a b p).
  { induction T' as [|[[a b] c] T' IH]; [right; exists []; split; easy|]. destruct IH as [(t & K1 & K2)|(l & L1 & L2)]; [left; exists t; split; [now right|auto]|].
    destruct (Qlt_le_dec 0 (cross a b c)) as [P|P].
    - destruct (ins_dec a b c z) as [Y|N]; [left; exists (a, b, c); split; [now left|]; split; auto; now apply closed_ins|]. right.
      assert (N' : exists x y, cross x y z < 0 /\ forall p, in_closed (a, b, c) p -> 0 <= cross x y p).
      { destruct N as [N|[N|N]]; [exists a, b|exists b, c|exists c, a]; (split; [auto|]; intros p Hp; apply closed_ins in Hp; auto; apply Hp). }
      destruct N' as (x & y & N1 & N2). exists ((cross x y z, (cx y - cx x) * snd n - (cy y - cy x) * fst n) :: l). split.
      + intros ck [<-|Hck]; [cbn [fst]; lra|now apply L1].
      + intros t [<-|Ht] Pt; [exists x, y; split; [now left|auto]|]. destruct (L2 t Ht Pt) as (x' & y' & K1 & K2). exists x', y'. split; [now right|auto].
    - right. exists l. split; auto. intros t [<-|Ht] Pt; [cbn [fst snd] in Pt; lra|auto]. }
  destruct (G T) as [([[a b] c] & K1 & K2 & K3)|(l & L1 & L2)].
  - exists (a, b, c). split; auto. cbn [fst snd flat] in *. split; [lra|auto].
  - exfalso. destruct (small l L1) as (e & E1 & E2). set (e' := Qmin e e0 / 2). assert (M0 : 0 < Qmin e e0) by now apply Q.min_glb_lt. pose proof (Q.le_min_l e e0) as M1. pose proof (Q.le_min_r e e0) as M2.
    assert (E' : e' == Qmin e e0 * (1#2)) by (unfold e'; field). assert (P1 : 0 < e') by lra. assert (P2 : e' < e0) by lra. assert (P3 : e' <= e) by lra.
    destruct (H e' P1 P2) as ([[a b] c] & T1 & T2 & T3). pose proof (HC a b c T1) as C0. cbn [flat] in T2. destruct (L2 _ T1) as (x & y & K1 & K2 & K3); [cbn [fst snd]; lra|].
    specialize (K3 _ T3). rewrite cross_at in K3. specialize (E2 _ _ K1). set (k := (cx y - cx x) * snd n - (cy y - cy x) * fst n) in *. clearbody k e'. rewrite (Qabs_neg (cross x y z)) in E2 by lra.
    pose proof (Qle_Qabs k) as A1. pose proof (Qabs_nonneg k) as A2. assert (e' * k <= e * Qabs k) by nra. lra.
Qed.

(** ** The edges are covered *)

Lemma on_dec a b z : on_segment a b z \/ ~ on_segment a b z.
Proof.
  destruct (Qeq_dec (cross a b z) 0) as [C|C].
  2:{ right. intros (t & K1 & K2 & K3 & K4). apply C. unfold cross. rewrite K3, K4. ring. }
  set (p := (cx z - cx a) * (cx b - cx a) + (cy z - cy a) * (cy b - cy a)). set (l := (cx b - cx a) * (cx b - cx a) + (cy b - cy a) * (cy b - cy a)).
  assert (Hl : 0 <= l) by (unfold l; pose proof (sq_nonneg (cx b - cx a)); pose proof (sq_nonneg (cy b - cy a)); lra).
  destruct (Qeq_dec l 0) as [L|L].
  - assert (E : cx b == cx a /\ cy b == cy a). { pose proof (sq_nonneg (cx b - cx a)) as S1. pose proof (sq_nonneg (cy b - cy a)) as S2. unfold l in L.
      assert (E1 : (cx b - cx a) * (cx b - cx a) == 0) by lra. assert (E2 : (cy b - cy a) * (cy b - cy a) == 0) by lra. apply Qmult_integral in E1, E2. split; [destruct E1; lra|destruct E2; lra]. }
    destruct E as (E1 & E2). destruct (Qeq_dec (cx z) (cx a)) as [X|X].
    + destruct (Qeq_dec (cy z) (cy a)) as [Y|Y]; [left; exists 0; split; [lra|]; split; [lra|]; split; lra|]. right. intros (t & K1 & K2 & K3 & K4). apply Y. rewrite K4, E2. ring.
    + right. intros (t & K1 & K2 & K3 & K4). apply X. rewrite K3, E1. ring.
  - assert (Hp : 0 < l) by lra.
    assert (Ex : cx z == cx a + p / l * (cx b - cx a)). { assert (E0 : (cy b - cy a) * cross a b z == 0) by (rewrite C; ring). assert (E : l * (cx z - cx a) == p * (cx b - cx a)) by (unfold l, p, cross in *; lra). assert (E2 : cx z - cx a == p / l * (cx b - cx a)). { assert (E3 : p / l * (cx b - cx a) == (p * (cx b - cx a)) / l) by (field; lra). rewrite E3, <- E. field. lra. } lra. }
    assert (Ey : cy z == cy a + p / l * (cy b - cy a)). { assert (E0 : (cx b - cx a) * cross a b z == 0) by (rewrite C; ring). assert (E : l * (cy z - cy a) == p * (cy b - cy a)) by (unfold l, p, cross in *; lra). assert (E2 : cy z - cy a == p / l * (cy b - cy a)). { assert (E3 : p / l * (cy b - cy a) == (p * (cy b - cy a)) / l) by (field; lra). rewrite E3, <- E. field. lra. } lra. }
    destruct (Qlt_le_dec p 0) as [N|N]; [right|destruct (Qlt_le_dec l p) as [N'|N']; [right|left]].
    + intros (t & K1 & K2 & K3 & K4). assert (p == t * l) by (unfold p, l; rewrite K3, K4; ring). nra.
    + intros (t & K1 & K2 & K3 & K4). assert (p == t * l) by (unfold p, l; rewrite K3, K4; ring). nra.
    + exists (p / l). split; [apply Qle_shift_div_l; lra|]. split; [apply Qle_shift_div_r; lra|]. auto.
Qed.

Lemma outline_dec ps z : outline ps z \/ off ps z.
Proof.
  unfold outline, off. induction (concat (map edges ps)) as [|d l IH]; [right; easy|]. destruct (on_dec (fst d) (snd d) z) as [Y|N]; [left; exists d; split; [now left|auto]|].
  destruct IH as [(d' & K1 & K2)|H]; [left; exists d'; split; [now right|auto]|right]. intros d' [<-|Hd]; auto.
Qed.

Section Run.
Context {I : Type}.
Variables (gv : I -> point) (elems : list (element I)).
Notation ps := (map (map gv) (groups elems)).
Notation D := (concat (map edges ps)).
Hypothesis HV : valid ps.
Variables (st : state Q I) (calls : list (call I)).
Hypothesis HD : forall ex M, extra gv elems ex -> shear M (concat ps ++ ex) -> done gv elems ex M st.
Hypothesis HFa : forall ex M, extra gv elems ex -> shear M (concat ps ++ ex) -> facts gv false M st calls.
Notation T := (map (tri_pos gv) (tris_of calls)).

(** Points of an edge other than its ends. *)
Lemma edge_inner a b s : In (a, b) D -> 0 < s -> s < 1 -> exists t, In t T /\ ~ flat t /\ in_closed t (at_eps a (cx b - cx a, cy b - cy a) s).
Proof.
  intros Hd S0 S1. set (z := at_eps a (cx b - cx a, cy b - cy a) s).
  assert (Hz : cross a b z == 0) by (unfold z; rewrite cross_at; unfold cross; cbn [fst snd]; ring).
  destruct (edge_ends ps HV _ Hd) as (_ & _ & Hne). cbn [fst snd] in Hne.
  destruct (shear_exists (concat ps)) as (M & HM). assert (HM' : shear M (concat ps ++ [])) by now rewrite app_nil_r. assert (X0 : extra gv elems []) by (split; [|split]; easy).
  destruct (HD [] M X0 HM') as [G _ F Pe Pp Dg]. destruct (HFa [] M X0 HM') as [_ _ Ks].
  pose proof (Ks eq_refl (wl a b z) (wl_anti a b z)) as U. rewrite (ow_edges ps [] M gv st G HM' F Pe) in U.
  assert (Hnd : NoDup D). { eapply NoDup_map_inv. exact (uedges_nd ps HV). }
  pose proof (len_pos a b Hne) as L.
  assert (Pa : pos a b z a == - (s * len a b)) by (unfold pos, len, z, at_eps; cbn [cx cy fst snd]; ring).
  assert (Pb : pos a b z b == (1 - s) * len a b) by (unfold pos, len, z, at_eps; cbn [cx cy fst snd]; ring).
  assert (Oa : onl a b a = true) by (apply Qeq_bool_iff; unfold cross; ring). assert (Ob : onl a b b = true) by (apply Qeq_bool_iff; unfold cross; ring).
  assert (Wab : wl a b z a b == 2). { unfold wl. rewrite Oa, Ob. cbn [andb]. assert (0 < s * len a b) by nra. assert (0 < (1 - s) * len a b) by nra.
    destruct (sg_cases (pos a b z a)) as [(K1 & K2)|[(K1 & K2)|(K1 & K2)]]; try lra. destruct (sg_cases (pos a b z b)) as [(K3 & K4)|[(K3 & K4)|(K3 & K4)]]; lra. }
  assert (Oz : on_segment a b z). { exists s. split; [lra|]. split; [lra|]. split; reflexivity. }
  assert (Nz : ~ peq z a /\ ~ peq z b).
  { assert (Pz : pos a b z z == 0) by (unfold pos; ring). assert (Pe' : forall y, peq z y -> pos a b z y == 0) by (intros y (Q1 & Q2); unfold pos; rewrite <- Q1, <- Q2; ring).
    split; intros K; apply Pe' in K; [rewrite Pa in K|rewrite Pb in K]; [assert (0 < s * len a b) by nra|assert (0 < (1 - s) * len a b) by nra]; lra. }
  rewrite (sumq_single _ D (a, b) Hnd Hd) in U.
  2:{ intros [x y] Hxy Hno. cbn [fst snd]. assert (Z : wl a b z x y == 0).
      { destruct (Qeq_dec (wl a b z x y) 0) as [|N]; auto. exfalso. destruct (onl a b x && onl a b y) eqn:O; [|apply N; unfold wl; now rewrite O]. apply andb_true_iff in O. destruct O as (O1 & O2).
        destruct (between a b z Hz Hne x y O1 O2 N) as (B & _). apply In_nth_error in Hd, Hxy. destruct Hd as (i & Hi), Hxy as (j & Hj). assert (i <> j) by (intros ->; congruence).
        destruct HV as (_ & _ & V3). destruct (V3 i j _ _ z Hi Hj H Oz B) as ([K|K] & _); tauto. }
      pose proof (wl_anti a b z y x) as A. destruct (inn M st (x, y)); [auto|rewrite A, Z; reflexivity]. }
  cbn [fst snd] in U. pose proof (wl_anti a b z b a) as A.
  assert (Ne : ~ sumq (fun t => tri_sum (wl a b z) (tri_pos gv t)) (tris_of calls) == 0). { rewrite U. destruct (inn M st (a, b)); lra. }
  assert (Ex : exists t, In t (tris_of calls) /\ ~ tri_sum (wl a b z) (tri_pos gv t) == 0).
  { clear - Ne. induction (tris_of calls) as [|t l IH]; [elim Ne; reflexivity|]. cbn [sumq] in Ne. destruct (Qeq_dec (tri_sum (wl a b z) (tri_pos gv t)) 0) as [E|N]; [|exists t; split; [now left|auto]].
    destruct IH as (t' & K1 & K2); [intros K; apply Ne; rewrite E, K; ring|]. exists t'. split; [now right|auto]. }
  destruct Ex as (t & Ht & Hw). exists (tri_pos gv t). split; [now apply in_map|]. destruct t as [[x y] v]. exact (tri_wl a b z Hz Hne _ _ _ Hw).
Qed.

Lemma ccw_T a b c : In (a, b, c) T -> 0 <= cross a b c.
Proof.
  intros H. destruct (shear_exists (concat ps)) as (M & HM). assert (HM' : shear M (concat ps ++ [])) by now rewrite app_nil_r. assert (X0 : extra gv elems []) by (split; [|split]; easy).
  destruct (HFa [] M X0 HM') as [_ Kc _]. apply in_map_iff in H. destruct H as ([[x y] v] & E & Hin). cbn [tri_pos] in E. injection E as <- <- <-. now apply Kc.
Qed.

(** All points of the edges. *)
Lemma edge_covered z : outline ps z -> exists t, In t T /\ ~ flat t /\ in_closed t z.
Proof.
  intros ((a & b) & Hd & (s & S0 & S1 & Ex & Ey)). cbn [fst snd] in *.
  assert (Q : forall z z' t, peq z z' -> in_closed t z -> in_closed t z'). { intros u u' [[x y] v] (E1 & E2) (t1 & t2 & t3 & K1 & K2 & K3 & K4 & K5 & K6). exists t1, t2, t3. rewrite <- E1, <- E2. auto 10. }
  destruct (Qlt_le_dec s 1) as [L1|L1].
  - destruct (limit T z (cx b - cx a, cy b - cy a) (1 - s) ccw_T) as (t & K); [lra| |eauto].
    intros e E0 E1. destruct (edge_inner a b (s + e) Hd) as (t & K1 & K2 & K3); [lra|lra|]. exists t. split; auto. split; auto. apply (Q (at_eps a (cx b - cx a, cy b - cy a) (s + e))); auto.
    unfold at_eps, peq. cbn [cx cy fst snd]. fold (cx z) (cy z). rewrite Ex, Ey. split; ring.
  - destruct (limit T z (cx a - cx b, cy a - cy b) 1 ccw_T) as (t & K); [lra| |eauto].
    intros e E0 E1. destruct (edge_inner a b (s - e) Hd) as (t & K1 & K2 & K3); [lra|lra|]. exists t. split; auto. split; auto. apply (Q (at_eps a (cx b - cx a, cy b - cy a) (s - e))); auto.
    unfold at_eps, peq. cbn [cx cy fst snd]. fold (cx z) (cy z). rewrite Ex, Ey. split; ring.
Qed.

Theorem run_fills : covers ps T -> fills ps T.
Proof.
  intros HC z. split.
  - intros H. destruct (outline_dec ps z) as [Y|N]; [now left|right]. now apply (HC z N).
  - intros [H|H]; [now apply edge_covered|]. destruct (outline_dec ps z) as [Y|N]; [now apply edge_covered|]. now apply (HC z N).
Qed.
End Run.

(** ** Directed sides *)

(** No directed side belongs to two triangles of positive area. *)
Definition once (T : list (point * point * point)) : Prop :=
  forall j k t u d, nth_error T j = Some t -> nth_error T k = Some u -> ~ flat t -> ~ flat u -> In d (sides t) -> In d (sides u) -> j = k.

(** A point of the line [P + h u] on no edge. *)
Lemma avoid_line (D : list (point * point)) (P u : Q * Q) e0 : 0 < e0 ->
  (forall d, In d D -> (cx (snd d) - cx (fst d)) * snd u - (cy (snd d) - cy (fst d)) * fst u == 0 -> ~ cross (fst d) (snd d) P == 0) ->
  exists h, 0 < h /\ h < e0 /\ forall d, In d D -> ~ on_segment (fst d) (snd d) (at_eps P u h).
Proof.
  intros H0 H. destruct (avoid (map (fun d => - cross (fst d) (snd d) P / ((cx (snd d) - cx (fst d)) * snd u - (cy (snd d) - cy (fst d)) * fst u)) D) 0 e0 H0) as (h & H1 & H2 & H3).
  exists h. split; auto. split; auto. intros d Hd Hon. assert (C : cross (fst d) (snd d) (at_eps P u h) == 0). { destruct Hon as (t & _ & _ & K1 & K2). unfold cross. rewrite K1, K2. ring. }
  rewrite cross_at in C. specialize (H d Hd). set (k := (cx (snd d) - cx (fst d)) * snd u - (cy (snd d) - cy (fst d)) * fst u) in *. destruct (Qeq_dec k 0) as [Z|Z].
  - apply (H Z). rewrite Z in C. lra.
  - apply (H3 (- cross (fst d) (snd d) P / k)); [apply in_map_iff; exists d; split; auto|]. assert (E : - cross (fst d) (snd d) P == h * k) by lra. rewrite E. field. auto.
Qed.

Lemma inner_off a b c z : 0 < cross a b z -> 0 < cross b c z -> 0 < cross c a z -> in_closed (a, b, c) z /\ ~ on_tri (a, b, c) z.
Proof.
  intros H1 H2 H3. assert (P : 0 < cross a b c). { pose proof (cross_split a b c z) as E. lra. } split; [apply closed_ins; auto; unfold ins; lra|].
  assert (N : forall x y, on_segment x y z -> cross x y z == 0). { intros x y (t & _ & _ & K1 & K2). unfold cross. rewrite K1, K2. ring. }
  intros [K|[K|K]]; apply N in K; lra.
Qed.

Lemma sides_once ps T : valid ps -> covers ps T -> (forall a b c, In (a, b, c) T -> 0 <= cross a b c) -> once T.
Proof.
  intros HV HC HT j k t u (x, y) Hj Hk Ft Fu St Su.
  assert (R : forall t, In t T -> ~ flat t -> In (x, y) (sides t) -> exists v, 0 < cross x y v /\ forall z, 0 < cross x y z -> 0 < cross y v z -> 0 < cross v x z -> in_closed t z /\ ~ on_tri t z).
  { intros [[a b] c] Hin Hf Hs. pose proof (HT a b c Hin) as H0. cbn [flat] in Hf. assert (P : 0 < cross a b c) by lra.
    assert (Ro : forall p q r, cross p q r == cross q r p) by (intros; unfold cross; ring). cbn [sides In] in Hs. destruct Hs as [E|[E|[E|[]]]]; injection E as <- <-.
    - exists c. split; auto. intros z Z1 Z2 Z3. now apply inner_off.
    - exists a. split; [rewrite <- Ro; auto|]. intros z Z1 Z2 Z3. now apply inner_off.
    - exists b. split; [rewrite Ro; auto|]. intros z Z1 Z2 Z3. now apply inner_off. }
  destruct (R t) as (v & V1 & V2); auto; [eapply nth_error_In; eauto|]. destruct (R u) as (w & W1 & W2); auto; [eapply nth_error_In; eauto|].
  set (n := (cx v - cx x, cy v - cy x) : Q * Q). set (D := concat (map edges ps)).
  (* a point of the side off the lines of the edges parallel to n *)
  destruct (avoid (map (fun d => - cross (fst d) (snd d) x / ((cx (snd d) - cx (fst d)) * (cy y - cy x) - (cy (snd d) - cy (fst d)) * (cx y - cx x))) D) 0 1) as (s & S0 & S1 & S2); [lra|].
  set (P := at_eps x (cx y - cx x, cy y - cy x) s).
  assert (EP : forall a b, cross a b P == cross a b x + s * ((cx b - cx a) * (cy y - cy x) - (cy b - cy a) * (cx y - cx x))) by (intros a b; apply cross_at).
  assert (HP : forall d, In d D -> (cx (snd d) - cx (fst d)) * snd n - (cy (snd d) - cy (fst d)) * fst n == 0 -> ~ cross (fst d) (snd d) P == 0).
  { intros [a b] Hd Hn C. cbn [fst snd] in *. specialize (S2 (- cross a b x / ((cx b - cx a) * (cy y - cy x) - (cy b - cy a) * (cx y - cx x)))). rewrite EP in C.
    set (k' := (cx b - cx a) * (cy y - cy x) - (cy b - cy a) * (cx y - cx x)) in *. destruct (Qeq_dec k' 0) as [Z|Z].
    - destruct (edge_ends ps HV _ Hd) as (_ & _ & Hne). apply Hne. cbn [fst snd n] in *. unfold n in Hn. cbn [fst snd] in Hn. unfold k' in Z. unfold cross in V1.
      set (p := cx b - cx a) in *. set (q := cy b - cy a) in *. set (g := (cx y - cx x) * (cy v - cy x) - (cy y - cy x) * (cx v - cx x)) in *.
      assert (E1 : p * g == 0). { assert (E : p * g == (cx y - cx x) * (p * (cy v - cy x) - q * (cx v - cx x)) - (cx v - cx x) * (p * (cy y - cy x) - q * (cx y - cx x))) by (unfold g; ring). rewrite E, Hn, Z. ring. }
      assert (E2 : q * g == 0). { assert (E : q * g == (cy y - cy x) * (p * (cy v - cy x) - q * (cx v - cx x)) - (cy v - cy x) * (p * (cy y - cy x) - q * (cx y - cx x))) by (unfold g; ring). rewrite E, Hn, Z. ring. }
      apply Qmult_integral in E1, E2. unfold p, q in *. split; [destruct E1; lra|destruct E2; lra].
    - apply S2; [apply in_map_iff; exists (a, b); split; [reflexivity|exact Hd]|]. assert (E : - cross a b x == s * k') by lra. rewrite E. field. auto. }
  assert (G : forall r, 0 < cross x y r -> 0 < cross y r P /\ 0 < cross r x P).
  { intros r Hr. assert (E1 : cross y r P == (1 - s) * cross x y r) by (unfold P; rewrite cross_at; unfold cross; cbn [fst snd]; ring). assert (E2 : cross r x P == s * cross x y r) by (unfold P; rewrite cross_at; unfold cross; cbn [fst snd]; ring).
    rewrite E1, E2. split; nra. }
  destruct (G v V1) as (G1 & G2), (G w W1) as (G3 & G4). set (kk := fun a b : point => (cx b - cx a) * snd n - (cy b - cy a) * fst n).
  destruct (small [(cross y v P, kk y v); (cross v x P, kk v x); (cross y w P, kk y w); (cross w x P, kk w x)]) as (e & E0 & E1).
  { intros ck Hck. cbn [In] in Hck. repeat destruct Hck as [<-|Hck]; cbn [fst]; try lra. }
  destruct (avoid_line D P n e E0 HP) as (h & H0 & H1 & H2). set (z := at_eps P n h) in *.
  assert (Q : forall a b, In (cross a b P, kk a b) [(cross y v P, kk y v); (cross v x P, kk v x); (cross y w P, kk y w); (cross w x P, kk w x)] -> 0 < cross a b P -> 0 < cross a b z).
  { intros a b Hin Hp. specialize (E1 _ _ Hin). unfold z. rewrite cross_at. fold (kk a b). rewrite (Qabs_pos (cross a b P)) in E1 by lra. pose proof (Qle_Qabs (- kk a b)) as A. rewrite Qabs_opp in A. pose proof (Qabs_nonneg (kk a b)).
    set (ka := kk a b) in *. set (ab := Qabs ka) in *. clearbody ka ab. assert (h * ab <= e * ab) by nra. assert (h * - ka <= h * ab) by nra. lra. }
  assert (Z0 : 0 < cross x y z). { unfold z. rewrite cross_at, EP. assert (E : cross x y x + s * ((cx y - cx x) * (cy y - cy x) - (cy y - cy x) * (cx y - cx x)) + h * ((cx y - cx x) * snd n - (cy y - cy x) * fst n) == h * cross x y v) by (unfold n, cross; cbn [fst snd]; ring). rewrite E. nra. }
  destruct (HC z H2) as (_ & K). destruct (V2 z) as (A1 & A2); [auto|apply Q; cbn; auto|apply Q; cbn; auto|]. destruct (W2 z) as (B1 & B2); [auto|apply Q; cbn; auto|apply Q; cbn; auto|].
  exact (K j k t u Hj Hk Ft Fu A1 B1 A2).
Qed.

Section Returned.
Context {I : Type}.
Variables (gv : I -> point) (ieqb : I -> I -> bool) (dbg : bool).
Hypothesis Hieq : forall a b, ieqb a b = true <-> a = b.
Variables (math_n : nat -> nat -> nat) (shuf : nat -> nat -> list nat).
Hypothesis Hshuf : forall k n, Permutation (shuf k n) (seq 0 n).
Variable elems : list (element I).
Notation ps := (map (map gv) (groups elems)).
Hypothesis HV : valid ps.
Hypothesis Hps : ps <> [].

Lemma returns_fills T : returns gv ieqb dbg math_n shuf elems T -> fills ps (map (tri_pos gv) T).
Proof.
  intros HT. pose proof (returns_covers gv ieqb dbg Hieq math_n shuf Hshuf elems HV Hps T HT) as HC.
  destruct (returns_run gv ieqb dbg Hieq math_n shuf Hshuf elems HV Hps T HT) as (st & calls & -> & _ & H1 & H2 & H3). now apply (run_fills gv elems HV st calls).
Qed.

Lemma returns_once T : returns gv ieqb dbg math_n shuf elems T -> once (map (tri_pos gv) T).
Proof.
  intros HT. apply (sides_once ps); auto; [now apply (returns_covers gv ieqb dbg Hieq math_n shuf Hshuf elems HV Hps)|].
  intros a b c Hin. apply in_map_iff in Hin. destruct Hin as ([[x y] v] & E & Hin). cbn [tri_pos] in E. injection E as <- <- <-. now apply (returns_ccw gv ieqb dbg Hieq math_n shuf Hshuf elems HV Hps T x y v HT).
Qed.
End Returned.
