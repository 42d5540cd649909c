(** What the triangles of a run on valid polygons are. *)
From Coq Require Import QArith Qabs Lqa List Arith Lia Bool ZArith Permutation.
From Verif Require Import Base Coord Trap Mono Tri Trace Protocol Lanes Plane MonoProof MonoGeom Geo Region TrapInv Polygons Build Faces Open Traverse Sweep Tile Whole Outline EvenOdd Budget Nest Format FormatRuns Runs BuilderProofs Builders.
Import ListNotations.
Local Open Scope nat_scope.

Lemma length_one {A} (f : A -> bool) (l : list A) : length (filter f l) = 1 ->
  exists k x, nth_error l k = Some x /\ f x = true /\ forall j y, nth_error l j = Some y -> f y = true -> j = k.
Proof.
  induction l as [|a l IH]; [discriminate|]. cbn [filter]. destruct (f a) eqn:Ea.
  - cbn [length]. intros H. exists 0, a. split; auto. split; auto. intros [|j] y Hj Hy; auto. exfalso.
    cbn in Hj. apply nth_error_In in Hj. assert (K : In y (filter f l)) by (apply filter_In; auto). destruct (filter f l); [easy|discriminate].
  - intros H. destruct (IH H) as (k & x & H1 & H2 & H3). exists (S k), x. split; auto. split; auto. intros [|j] y Hj Hy; [cbn in Hj; congruence|]. f_equal. eauto.
Qed.

Lemma length_zero {A} (f : A -> bool) (l : list A) : length (filter f l) = 0 -> forall x, In x l -> f x = false.
Proof. intros H x Hx. destruct (f x) eqn:E; auto. assert (K : In x (filter f l)) by (apply filter_In; auto). destruct (filter f l); [easy|discriminate]. Qed.

(** A sum of signs has the parity of the number of its terms. *)
Lemma signs {A} (F : A -> Q) (f : A -> bool) (l : list A) : (forall x, In x l -> if f x then (F x == 1 \/ F x == -1)%Q else (F x == 0)%Q) ->
  exists z, (sumq F l == inject_Z z)%Q /\ Z.odd z = Nat.odd (length (filter f l)).
Proof.
  induction l as [|a l IH]; intros H; [exists 0%Z; split; reflexivity|]. destruct IH as (z & Hz & Ho); [intros x Hx; apply H; now right|].
  specialize (H a (or_introl eq_refl)). cbn [filter sumq]. destruct (f a).
  - cbn [length]. rewrite Nat.odd_succ, <- Nat.negb_odd, <- Ho. destruct H as [H|H].
    + exists (1 + z)%Z. split; [now rewrite Hz, H, inject_Z_plus|]. rewrite Z.odd_add. reflexivity.
    + exists (-1 + z)%Z. split; [now rewrite Hz, H, inject_Z_plus|]. rewrite Z.odd_add. reflexivity.
  - exists z. split; auto. rewrite Hz, H. ring.
Qed.

Lemma sumq_count {A} (f : A -> bool) (l : list A) : (sumq (fun x => if f x then 1 else 0)%Q l == inject_Z (Z.of_nat (length (filter f l))))%Q.
Proof.
  induction l as [|a l IH]; [reflexivity|]. cbn [sumq filter]. rewrite IH. destruct (f a); [|ring]. cbn [length]. rewrite Nat2Z.inj_succ. unfold Z.succ. rewrite inject_Z_plus. ring.
Qed.

Section Parity.
Context {I : Type}.
Variables (ps : list (list point)) (ex : list point) (z : point) (M : Q) (gv : I -> point) (st : state Q I).
Hypothesis HV : valid ps.
Notation W := (concat ps ++ ex).
Notation D := (concat (map edges ps)).
Hypothesis Hz : In z ex.
Hypothesis HN : ~ In z (concat ps).
Hypothesis HG : geo W (uedges ps).
Hypothesis HM : shear M W.
Hypothesis HF : full W (uedges ps) M gv st.
Hypothesis HE : Permutation (medges st) (uedges ps).
Hypothesis HP : Permutation (points st) (concat ps).
Hypothesis HD : forall v n, nth_error (st_ns st) v = Some n -> deg n = 2.

Lemma z_W : In z W.
Proof. apply in_or_app. now right. Qed.

Lemma wp_crossed d : In d D -> if crossed z d then (wp M z (fst d) (snd d) == 1 \/ wp M z (fst d) (snd d) == -1)%Q else (wp M z (fst d) (snd d) == 0)%Q.
Proof.
  intros Hd. destruct (edge_ends ps HV d Hd) as (H1 & H2 & H3). destruct d as [a b]. cbn [fst snd] in *.
  assert (K1 : In a W) by (apply in_or_app; auto). assert (K2 : In b W) by (apply in_or_app; auto).
  assert (G : forall x y, In x W -> In y W -> plt x y -> (wp M z x y == if crossed z (x, y) then 1 else 0)%Q).
  { intros x y Hx Hy L. unfold wp. rewrite (crossed_hits W M z x y HM Hx Hy z_W L). rewrite (hits_false M z y x); [ring|]. apply (ht_lt W M HM x y Hx Hy) in L. intros (J1 & J2 & _). lra. }
  destruct (plt_total a b) as [L|[L|L]]; [|contradiction|].
  - specialize (G a b K1 K2 L). destruct (crossed z (a, b)); auto.
  - specialize (G b a K2 K1 L). rewrite crossed_sym. assert (A : (wp M z a b == - wp M z b a)%Q) by apply wp_anti. destruct (crossed z (b, a)); rewrite A, G; [now right|reflexivity].
Qed.

(** The crossings counted with the coloured sides of the edges give the even-odd rule. *)
Theorem parity : (sumq (ow M st (wp M z)) (seq 0 (length (st_ss st))) == if inside_eo ps z then 1 else 0)%Q.
Proof.
  assert (Hn : ~ In z (points st)). { intros H. apply HN. eapply Permutation_in; eauto. }
  destruct (home_ex W (uedges ps) M gv st HF z z_W Hn) as (i & t & Hi & Hin).
  pose proof (home_sum W (uedges ps) M gv st HG HM HF HD z z_W Hn i t Hi Hin) as E.
  rewrite E. rewrite (ow_edges ps ex M gv st HG HM HF HE) in E.
  destruct (signs (fun d => if inn M st d then wp M z (fst d) (snd d) else wp M z (snd d) (fst d)) (crossed z) D) as (c & Hc & Ho).
  { intros d Hd. pose proof (wp_crossed d Hd) as K. destruct (inn M st d); auto. assert (A : (wp M z (snd d) (fst d) == - wp M z (fst d) (snd d))%Q) by apply wp_anti.
    destruct (crossed z d); rewrite A; [destruct K as [K|K]; rewrite K; [now right|now left]|rewrite K; reflexivity]. }
  rewrite E in Hc. assert (Eo : inside_eo ps z = Z.odd c) by (symmetry; exact Ho). rewrite Eo. destruct (Faces.colour M st i).
  - assert (c = 1%Z) as -> by (apply inject_Z_injective; symmetry; exact Hc). reflexivity.
  - assert (c = 0%Z) as -> by (apply inject_Z_injective; symmetry; exact Hc). reflexivity.
Qed.
End Parity.

Section Outcome.
Context {I E : Type}.
Variables (gv : I -> point) (ieqb : I -> I -> bool) (dbg : bool).
Hypothesis Hieq : forall a b, ieqb a b = true <-> a = b.
Variables (math_n : nat -> nat -> nat) (shuf : nat -> nat -> list nat).
Hypothesis Hshuf : forall k n, Permutation (shuf k n) (seq 0 n).
Variable elems : list (element I).
Let ps := map (map gv) (groups elems).
Hypothesis HV : valid ps.
Notation D := (concat (map edges ps)).

Lemma off_extra z : off ps z -> extra gv elems [z].
Proof.
  intros H. split; [intros p q [<-|[]] [<-|[]] _; reflexivity|]. split; [intros p q [<-|[]] Hq; now apply (off_vertex ps)|]. intros p e [<-|[]] He. now apply H.
Qed.

Lemma idx_W i : In i (indices elems) -> In (gv i) (concat ps).
Proof. intros H. unfold ps. rewrite <- concat_map. now apply in_map. Qed.

Section Run.
Variables (st : state Q I) (calls : list (call I)).
Hypothesis HD : forall ex M, extra gv elems ex -> shear M (concat ps ++ ex) -> done gv elems ex M st.
Hypothesis HI : forall a b c, In (a, b, c) (tris_of calls) -> In a (indices elems) /\ In b (indices elems) /\ In c (indices elems).
Hypothesis HFa : forall ex M, extra gv elems ex -> shear M (concat ps ++ ex) -> facts gv false M st calls.

Lemma run_count z : off ps z -> (forall t, In t (tris_of calls) -> ~ on_tri (tri_pos gv t) z) ->
  length (filter (fun t => in_trib z (tri_pos gv t)) (tris_of calls)) = if inside_eo ps z then 1 else 0.
Proof.
  intros Ho Ht. destruct (shear_exists (concat ps ++ [z])) as (M & HM). pose proof (off_extra z Ho) as HX. destruct (HD [z] M HX HM) as [G _ F Pe Pp Dg]. destruct (HFa [z] M HX HM) as [_ Kc Ks].
  assert (HN : ~ In z (concat ps)). { intros K. apply (off_vertex ps z z Ho K). split; reflexivity. }
  pose proof (parity ps [z] z M gv st HV (or_introl eq_refl) HN G HM F Pe Pp Dg) as P. rewrite <- (Ks eq_refl (wp M z) (wp_anti M z)) in P.
  assert (Ec : (sumq (fun t => tri_sum (wp M z) (tri_pos gv t)) (tris_of calls) == sumq (fun t => if in_trib z (tri_pos gv t) then 1 else 0)%Q (tris_of calls))%Q).
  { apply sumq_ext. intros [[a b] c] Hin. destruct (HI a b c Hin) as (Ia & Ib & Ic). cbn [tri_pos]. specialize (Ht _ Hin). cbn [tri_pos on_tri] in Ht.
    assert (NH : forall i, In i (indices elems) -> ~ (ht M (gv i) == ht M z)%Q).
    { intros i Hi K. apply HN. rewrite <- (ht_inj (concat ps ++ [z]) _ M G HM (gv i) z); auto; [now apply idx_W|apply in_or_app; left; now apply idx_W|apply in_or_app; right; now left]. }
    apply Tile.tri_wind; auto; try (apply HM); tauto || idtac. }
  rewrite Ec, (sumq_count (fun t => in_trib z (tri_pos gv t))) in P. destruct (inside_eo ps z).
  - assert (Z.of_nat (length (filter (fun t => in_trib z (tri_pos gv t)) (tris_of calls))) = 1%Z) by (apply inject_Z_injective; exact P). lia.
  - assert (Z.of_nat (length (filter (fun t => in_trib z (tri_pos gv t)) (tris_of calls))) = 0%Z) by (apply inject_Z_injective; exact P). lia.
Qed.

Lemma run_closed z t : off ps z -> In t (tris_of calls) -> ~ on_tri (tri_pos gv t) z -> (in_trib z (tri_pos gv t) = true <-> in_closed (tri_pos gv t) z).
Proof.
  intros Ho Hin Ht. destruct (shear_exists (concat ps ++ [z])) as (M & HM). pose proof (off_extra z Ho) as HX. destruct (HD [z] M HX HM) as [G _ F Pe Pp Dg]. destruct (HFa [z] M HX HM) as [_ Kc _].
  destruct t as [[a b] c]. destruct (HI a b c Hin) as (Ia & Ib & Ic). cbn [tri_pos] in *. rewrite in_trib_spec. symmetry. apply (in_closed_open M); auto; [apply HM|].
  intros x y Hx Hy. assert (Q : forall x, In x [gv a; gv b; gv c] -> In x (concat ps ++ [z])). { intros u [<-|[<-|[<-|[]]]]; apply in_or_app; left; now apply idx_W. } apply (ht_inj _ _ M G HM); auto.
Qed.

(** Tiling of the even-odd interior. *)
Theorem run_tiles : tiles ps (map (tri_pos gv) (tris_of calls)).
Proof.
  intros z Ho Ht. assert (Ht' : forall t, In t (tris_of calls) -> ~ on_tri (tri_pos gv t) z) by (intros t H; apply Ht; now apply in_map). clear Ht. rename Ht' into Ht.
  pose proof (run_count z Ho Ht) as K. destruct (inside_eo ps z).
  - apply length_one in K. destruct K as (k & t & H1 & H2 & H3). exists k, (tri_pos gv t). split; [now apply map_nth_error|]. pose proof (nth_error_In _ _ H1) as Hin. split; [apply run_closed; auto|].
    intros j u Hj Hu. rewrite nth_error_map in Hj. destruct (nth_error (tris_of calls) j) as [u'|] eqn:Ej; [|discriminate]. injection Hj as <-. apply (H3 j u' Ej). pose proof (nth_error_In _ _ Ej). apply run_closed; auto.
  - intros t' Hin C. apply in_map_iff in Hin. destruct Hin as (t & <- & Hin). apply run_closed in C; auto. pose proof (length_zero _ _ K t Hin) as Q. cbv beta in Q. congruence.
Qed.

Theorem run_ccw a b c : In (a, b, c) (tris_of calls) -> (0 <= cross (gv a) (gv b) (gv c))%Q.
Proof.
  destruct (shear_exists (concat ps ++ [])) as (M & HM). assert (X0 : extra gv elems []) by (split; [|split]; easy). now apply (k_ccw _ _ _ _ _ (HFa [] M X0 HM)).
Qed.

(** For antisymmetric weights of edges, the triangles sum up to the oriented polygons. *)
Lemma run_sum : exists s : list point -> bool, forall w, anti w ->
  (sumq (fun t => tri_sum w (tri_pos gv t)) (tris_of calls) == sumq (fun p => sgn (s p) * sumq (fun d => w (fst d) (snd d)) (edges p)) ps)%Q.
Proof.
  destruct (shear_exists (concat ps ++ [])) as (M & HM). assert (X0 : extra gv elems []) by (split; [|split]; easy).
  destruct (HD [] M X0 HM) as [G _ F Pe Pp Dg]. destruct (HFa [] M X0 HM) as [_ _ Ks].
  exists (pinn M st). intros w Hw. rewrite (Ks eq_refl w Hw). apply (ow_polys ps [] M gv st); auto.
Qed.

Theorem run_nonempty : ps <> [] -> tris_of calls <> [].
Proof.
  intros Hps Hnil. destruct (shear_exists (concat ps ++ [])) as (M & HM). assert (X0 : extra gv elems []) by (split; [|split]; easy).
  destruct (HD [] M X0 HM) as [G _ F Pe Pp Dg]. destruct (HFa [] M X0 HM) as [_ _ Ks].
  assert (ED : exists d0 D', D = d0 :: D').
  { pose proof HV as (V3 & _). revert V3 Hps. generalize ps as qs. intros [|p qs] V3 Hps; [congruence|]. apply Forall_cons_iff in V3. destruct V3 as (V3 & _).
    destruct p as [|x [|y p]]; cbn in V3; try lia. cbn. eauto. }
  destruct ED as (d0 & D' & ED). pose proof (uedges_nd ps HV) as Hnd. unfold uedges in Hnd. rewrite ED in Hnd. cbn [map] in Hnd. apply NoDup_cons_iff in Hnd. destruct Hnd as (Hnd & _).
  assert (H0 : In d0 D) by (rewrite ED; now left). destruct (edge_ends ps HV d0 H0) as (_ & _ & Hne).
  set (w := fun x y : point => ((if edge_dec (x, y) d0 then 1 else 0) - (if edge_dec (y, x) d0 then 1 else 0))%Q).
  assert (Hw : anti w) by (intros x y; unfold w; ring).
  pose proof (Ks eq_refl w Hw) as K. rewrite Hnil in K. cbn [sumq] in K. rewrite (ow_edges ps [] M gv st G HM F Pe w) in K. fold ps in K. rewrite ED in K. cbn [sumq] in K.
  assert (Z : forall d, In d D' -> (w (fst d) (snd d) == 0 /\ w (snd d) (fst d) == 0)%Q).
  { intros d Hd. assert (Hd' : In d D) by (rewrite ED; now right). destruct (edge_ends ps HV d Hd') as (_ & _ & Hdne). destruct d as [x y]. cbn [fst snd] in *.
    assert (N1 : (x, y) <> d0) by (intros <-; apply Hnd; now apply (in_map oedge)).
    assert (N2 : (y, x) <> d0). { intros <-. apply Hnd. assert (Eo : oedge (y, x) = oedge (x, y)). { unfold oedge, orient. cbn [fst snd]. destruct (coords_lt x y) eqn:L1, (coords_lt y x) eqn:L2; auto; exfalso.
      - apply coords_lt_spec in L1, L2. apply (plt_irrefl x x); [split; reflexivity|]. eapply plt_trans; eauto.
      - destruct (plt_total x y) as [L|[L|L]]; auto; apply coords_lt_spec in L; congruence. } rewrite Eo. now apply (in_map oedge). }
    unfold w. destruct (edge_dec (x, y) d0); [contradiction|]. destruct (edge_dec (y, x) d0); [contradiction|]. split; reflexivity. }
  rewrite (sumq_zero _ D') in K by (intros d Hd; destruct (Z d Hd) as (Z1 & Z2); destruct (inn M st d); auto).
  assert (W1 : (w (fst d0) (snd d0) == 1)%Q).
  { unfold w. destruct (edge_dec (fst d0, snd d0) d0) as [_|C]; [|exfalso; apply C; now destruct d0]. destruct (edge_dec (snd d0, fst d0) d0) as [C|_]; [|reflexivity]. exfalso. apply Hne. destruct d0 as [x y]. cbn in *. injection C as -> _. split; reflexivity. }
  pose proof (Hw (snd d0) (fst d0)) as W2. rewrite W1 in W2. destruct (inn M st d0); [rewrite W1 in K|rewrite W2 in K]; lra.
Qed.

(** The area, when there is one polygon. *)
Lemma sum_nonneg {A} (f : A -> Q) l : (forall x, In x l -> 0 <= f x)%Q -> (0 <= sumq f l)%Q.
Proof. induction l as [|a l IH]; intros H; cbn [sumq]; [lra|]. assert (0 <= f a)%Q by (apply H; now left). assert (0 <= sumq f l)%Q by (apply IH; intros; apply H; now right). lra. Qed.

Lemma run_area_pos : (0 <= sumq (area2 gv) (tris_of calls))%Q.
Proof. apply sum_nonneg. intros [[a b] c] H. now apply run_ccw. Qed.

Lemma run_area1 p : ps = [p] -> (sumq (area2 gv) (tris_of calls) == Qabs (shoelace p))%Q.
Proof.
  intros Hp. destruct run_sum as (s & Hs). specialize (Hs det det_anti).
  assert (Q1 : (sumq (area2 gv) (tris_of calls) == sgn (s p) * shoelace p)%Q).
  { transitivity (sumq (fun t => tri_sum det (tri_pos gv t)) (tris_of calls)). { apply sumq_ext. intros t _. now rewrite det_cross. } rewrite Hs, Hp. cbn [sumq]. unfold shoelace. ring. }
  pose proof run_area_pos as Hpos. rewrite Q1 in *. unfold sgn in *. destruct (s p).
  - rewrite Qabs_pos by lra. ring.
  - rewrite Qabs_neg by lra. ring.
Qed.
End Run.

(** A builder that never fails. *)
Definition willing {Out Mt} (F : fan_format I E Out Mt) : Prop :=
  (forall a b c, exists g, ff_init F a b c = inl g) /\ (forall g a b c, snd (ff_new F g a b c) = None) /\ (forall g a, snd (ff_ext F g a) = None) /\
  (forall g, exists o m, ff_build F g = (inl o, m)).

Lemma willing_drive {Out Mt} (F : fan_format I E Out Mt) l : willing F -> forall g, exists o m, drive F g l (Ok tt) = Returned (inl o) m.
Proof.
  intros (H1 & H2 & H3 & H4). induction l as [|[a b c|a] l IH]; intros g; cbn [drive].
  - destruct (H4 g) as (o & m & ->). eauto.
  - pose proof (H2 g a b c) as K. destruct (ff_new F g a b c) as [g' r]. cbn in K. subst r. apply IH.
  - pose proof (H3 g a) as K. destruct (ff_ext F g a) as [g' r]. cbn in K. subst r. apply IH.
Qed.

Theorem calls_nonempty cw : ps <> [] -> exists calls N, starts calls /\ calls <> [] /\ forall fuel, N <= fuel -> api_calls E ieqb gv cw dbg fuel math_n shuf elems = (calls, Ok tt).
Proof.
  intros Hps. destruct (whole (E := E) gv ieqb dbg Hieq math_n shuf Hshuf elems HV cw) as (st & N & calls & H1 & H2 & H3 & H4 & H5 & H6).
  destruct (whole (E := E) gv ieqb dbg Hieq math_n shuf Hshuf elems HV false) as (st' & N' & calls' & H1' & H2' & _ & _ & H5' & H6').
  assert (st' = st) by (eapply evt_eq; eauto). subst st'. pose proof (run_nonempty st calls' H2' H6' Hps) as Hne.
  exists calls, N. split; auto. split; auto. intros ->. apply Hne.
  destruct (shear_exists (concat ps ++ [])) as (M & HM). assert (X0 : extra gv elems []) by (split; [|split]; easy).
  destruct (H6 [] M X0 HM) as [L _ _]. destruct (H6' [] M X0 HM) as [L' _ _]. apply length_zero_iff_nil. cbn in L. lia.
Qed.

Theorem succeeds {Out Mt} (F : fan_format I E Out Mt) : ps <> [] -> willing F ->
  exists out m N, forall fuel, N <= fuel -> triangulate F ieqb gv dbg fuel math_n shuf elems = Returned (inl out) m.
Proof.
  intros Hps HF. destruct (calls_nonempty (ff_cw F) Hps) as (calls & N & Hs & Hne & Hr).
  destruct calls as [|[a b c|a] l]; [congruence| |easy]. pose proof HF as (H1 & _). destruct (H1 a b c) as (g & Hg). destruct (willing_drive F l HF g) as (o & m & Hd).
  exists o, m, N. intros fuel Hf. rewrite triangulate_obeys, (Hr fuel Hf). unfold obey. cbn [fst snd]. now rewrite Hg.
Qed.
End Outcome.

(** The run of a builder collecting triples of indices. *)
Section Triples.
Context {I : Type}.

Variables (gv : I -> point) (ieqb : I -> I -> bool) (dbg : bool).
Hypothesis Hieq : forall a b, ieqb a b = true <-> a = b.
Variables (math_n : nat -> nat -> nat) (shuf : nat -> nat -> list nat).
Hypothesis Hshuf : forall k n, Permutation (shuf k n) (seq 0 n).
Variable elems : list (element I).
Notation ps := (map (map gv) (groups elems)).
Hypothesis HV : valid ps.
Hypothesis Hps : ps <> [].

Theorem triples : exists st calls N,
  evt (fun k => trapezoidize ieqb gv dbg k math_n shuf elems) st /\
  (forall fuel l0, N <= fuel -> triangulate (fan_to_list (indexed_list (vec_triples I) l0)) ieqb gv dbg fuel math_n shuf elems = Returned (inl (l0 ++ tris_of calls)) (l0 ++ tris_of calls)) /\
  (forall fuel, N <= fuel -> triangulate (recorder I Empty_set false) ieqb gv dbg fuel math_n shuf elems = Returned (inl calls) calls) /\
  (forall ex M, extra gv elems ex -> shear M (concat ps ++ ex) -> done gv elems ex M st) /\
  (forall a b c, In (a, b, c) (tris_of calls) -> In a (indices elems) /\ In b (indices elems) /\ In c (indices elems)) /\
  (forall ex M, extra gv elems ex -> shear M (concat ps ++ ex) -> facts gv false M st calls).
Proof.
  destruct (whole (E := Empty_set) gv ieqb dbg Hieq math_n shuf Hshuf elems HV false) as (st & N & calls & H1 & H2 & H3 & H4 & H5 & H6).
  pose proof (run_nonempty gv elems HV st calls H2 H6 Hps) as Hne.
  assert (HR : forall fuel, N <= fuel -> triangulate (recorder I Empty_set false) ieqb gv dbg fuel math_n shuf elems = Returned (inl calls) calls).
  { intros fuel Hf. rewrite tri_recorder, (H4 fuel Hf). destruct calls; [now elim Hne|reflexivity]. }
  exists st, calls, N. split; auto. split; [|split; auto].
  intros fuel l0 Hf. apply (list_layout_triples ieqb gv dbg fuel math_n shuf elems false). exists calls. split; auto.
Qed.

(** The triples returned. *)
Definition returns (T : list (I * I * I)) : Prop :=
  exists fuel, triangulate (fan_to_list (indexed_list (vec_triples I) [])) ieqb gv dbg fuel math_n shuf elems = Returned (inl T) T.

Lemma returns_fun T T' : returns T -> returns T' -> T = T'.
Proof. intros (N & H) (N' & H'). destruct (ends_unique _ _ _ _ _ _ _ _ _ _ _ _ _ H H'). congruence. Qed.

Lemma returns_ex : exists T, returns T.
Proof. destruct triples as (st & calls & N & _ & H & _). exists (tris_of calls), N. exact (H N [] (Nat.le_refl N)). Qed.

Lemma returns_run T : returns T -> exists st calls, T = tris_of calls /\
  evt (fun k => trapezoidize ieqb gv dbg k math_n shuf elems) st /\
  (forall ex M, extra gv elems ex -> shear M (concat ps ++ ex) -> done gv elems ex M st) /\
  (forall a b c, In (a, b, c) T -> In a (indices elems) /\ In b (indices elems) /\ In c (indices elems)) /\
  (forall ex M, extra gv elems ex -> shear M (concat ps ++ ex) -> facts gv false M st calls).
Proof.
  intros HT. destruct triples as (st & calls & N & H1 & H2 & _ & H3 & H4 & H5). assert (T = tris_of calls). { apply (returns_fun _ _ HT). exists N. exact (H2 N [] (Nat.le_refl N)). }
  subst T. exists st, calls. auto.
Qed.

Lemma returns_area p T : ps = [p] -> returns T -> (sumq (area2 gv) T == Qabs (shoelace p))%Q.
Proof. intros Hp HT. destruct (returns_run T HT) as (st & calls & -> & _ & H1 & H2 & H3). now apply (run_area1 gv elems HV st calls). Qed.

Lemma returns_tiles T : returns T -> tiles ps (map (tri_pos gv) T).
Proof. intros HT. destruct (returns_run T HT) as (st & calls & -> & _ & H1 & H2 & H3). now apply (run_tiles gv elems HV st calls). Qed.

Lemma returns_ccw T a b c : returns T -> In (a, b, c) T -> In a (indices elems) /\ In b (indices elems) /\ In c (indices elems) /\ (0 <= cross (gv a) (gv b) (gv c))%Q.
Proof.
  intros HT Hin. destruct (returns_run T HT) as (st & calls & -> & _ & H1 & H2 & H3). destruct (H2 a b c Hin) as (Ia & Ib & Ic). repeat (split; auto). now apply (run_ccw gv elems st calls).
Qed.

Lemma calls_ccw E : exists calls N, (forall fuel, N <= fuel -> triangulate (recorder I E false) ieqb gv dbg fuel math_n shuf elems = Returned (inl calls) calls) /\
  forall a b c, In (a, b, c) (tris_of calls) -> (0 <= cross (gv a) (gv b) (gv c))%Q.
Proof.
  destruct (whole (E := E) gv ieqb dbg Hieq math_n shuf Hshuf elems HV false) as (st & N & calls & H1 & H2 & H3 & H4 & H5 & H6).
  pose proof (run_nonempty gv elems HV st calls H2 H6 Hps) as Hne. exists calls, N. split.
  - intros fuel Hf. rewrite tri_recorder, (H4 fuel Hf). destruct calls; [now elim Hne|reflexivity].
  - apply (run_ccw gv elems st calls H6).
Qed.
End Triples.
