(** The coloured side of each polygon of a list, by its direction and its depth; the area of the triangles. *)
From Coq Require Import QArith Qabs Lqa List Arith Lia Bool ZArith Permutation.
From Verif Require Import Base Coord Trap Mono Tri Trace Protocol Lanes Plane MonoProof MonoGeom Geo Region TrapInv Polygons Build Faces Open Traverse Sweep Tile Whole Outline EvenOdd Outcome Nest Near.
Import ListNotations.
Local Open Scope nat_scope.

(** ** Specification *)

(** The polygons other than number [k]. *)
Definition others {A} (k : nat) (l : list A) : list A := firstn k l ++ skipn (S k) l.

(** How many of the other polygons have the first vertex of polygon [k] inside. *)
Definition depth (ps : list (list point)) (k : nat) : nat :=
  match nth_error ps k with
  | Some (v :: _) => length (filter (fun q => inside_eo [q] v) (others k ps))
  | _ => 0
  end.

(** Twice the area of the even-odd interior: what polygons at even depth enclose, minus what those at odd depth enclose. *)
Definition interior2 (ps : list (list point)) : Q :=
  sumq (fun k => (if Nat.even (depth ps k) then 1 else -1) * Qabs (shoelace (nth k ps [])))%Q (seq 0 (length ps)).

(** ** The colours do not depend on the shear *)

Lemma colour_indep {I} W Es W' Es' M M' (gv : I -> point) (st : state Q I) i : full W Es M gv st -> full W' Es' M' gv st -> geo W Es -> geo W' Es' -> shear M W -> shear M' W' ->
  (forall v n, nth_error (st_ns st) v = Some n -> deg n = 2) -> Faces.colour M st i = Faces.colour M' st i.
Proof.
  intros F F' G G' H H' D. unfold Faces.colour.
  rewrite (colour_stable W Es M gv st G H F D (S (Faces.rank M st i)) i (S (Faces.rank M st i) + S (Faces.rank M' st i))) by lia. apply (colour_stable W' Es' M' gv st G' H' F' D); lia.
Qed.

Lemma scol_indep {I} M M' (st : state Q I) e : (forall i, Faces.colour M st i = Faces.colour M' st i) -> Faces.scol M st e = Faces.scol M' st e.
Proof. intros H. unfold Faces.scol. destruct (nth_error _ _) as [n|]; auto. destruct (final_type n) as [[]| |]; auto. destruct (seps n Desc); auto. now rewrite !H. Qed.

Lemma pinn_indep {I} M M' (st : state Q I) p : (forall i, Faces.colour M st i = Faces.colour M' st i) -> pinn M st p = pinn M' st p.
Proof.
  intros H. unfold pinn. destruct (edges p) as [|d l]; auto. unfold inn.
  assert (E : forall x, ecol M st x = ecol M' st x). { intros x. unfold ecol. induction (seq 0 (length (st_ss st))) as [|a s IH]; auto. cbn [existsb]. rewrite IH. f_equal. destruct (nth_error (medges st) a); auto. destruct (edge_dec _ _); auto. now apply scol_indep. }
  now rewrite !E.
Qed.

(** ** What a trapezoidation of [ps] gives, for extra points [ex] *)
Record traps {I} (ps : list (list point)) (ex : list point) (M : Q) (gv : I -> point) (st : state Q I) : Prop := {
  tp_geo : geo (concat ps ++ ex) (uedges ps);
  tp_shear : shear M (concat ps ++ ex);
  tp_full : full (concat ps ++ ex) (uedges ps) M gv st;
  tp_edges : Permutation (medges st) (uedges ps);
  tp_points : Permutation (points st) (concat ps);
  tp_deg : forall v n, nth_error (st_ns st) v = Some n -> deg n = 2
}.

(** Points free for location. *)
Definition free_pts (ps : list (list point)) (ex : list point) : Prop :=
  (forall p q, In p ex -> In q ex -> peq p q -> p = q) /\ (forall p q, In p ex -> In q (concat ps) -> ~ peq p q) /\
  (forall p e, In p ex -> In e (concat (map edges ps)) -> ~ on_segment (fst e) (snd e) p).

Lemma done_traps {I} (gv : I -> point) elems ex M st : Build.done gv elems ex M st -> traps (map (map gv) (groups elems)) ex M gv st.
Proof. intros [H1 H2 H3 H4 H5 H6]. now split. Qed.

Definition ptb (a b : point) : bool := if pt_dec a b then true else false.

(** A polygon by itself. *)
Lemma one_ex q : valid [q] -> exists (st : state Q point) (calls : list (call point)), forall ex M, free_pts [q] ex -> shear M (concat [q] ++ ex) ->
  traps [q] ex M (fun x => x) st /\ facts (fun x => x) false M st calls.
Proof.
  intros HV. set (elems := map (@Continue point) q). assert (Eg : map (map (fun x : point => x)) (groups elems) = [q]).
  { assert (K : forall cur, groups_from cur (map (@Continue point) q) = match cur ++ q with [] => [] | _ => [cur ++ q] end).
    { clear. induction q as [|a q IH]; intros cur; cbn [map groups_from]; [now rewrite app_nil_r; destruct cur|]. rewrite IH, <- app_assoc. reflexivity. }
    unfold groups, elems. rewrite K. cbn [app]. destruct q as [|a q']; [destruct HV as (V & _); apply Forall_inv in V; cbn in V; lia|]. cbn [map]. rewrite map_id. reflexivity. }
  destruct (whole (E := unit) (fun x : point => x) ptb false ltac:(intros a b; unfold ptb; destruct (pt_dec a b); split; congruence) (fun _ _ => 1) (fun _ n => seq 0 n) ltac:(intros; reflexivity) elems ltac:(rewrite Eg; exact HV) false)
    as (st & N & calls & _ & HD & _ & _ & _ & HF).
  exists st, calls. intros ex M Hex HM. assert (X : Build.extra (fun x : point => x) elems ex) by (unfold Build.extra; rewrite Eg; exact Hex).
  assert (HM' : shear M (concat (map (map (fun x : point => x)) (groups elems)) ++ ex)) by now rewrite Eg. split.
  - specialize (HD ex M X HM'). apply done_traps in HD. now rewrite Eg in HD.
  - now apply HF with (ex := ex).
Qed.

(** The signed crossings of a polygon with the ray from [z]. *)
Definition windn (M : Q) (z : point) (p : list point) : Q := sumq (fun d => wp M z (fst d) (snd d)) (edges p).

Lemma traps_wind {I} ps ex M (gv : I -> point) st z : valid ps -> traps ps ex M gv st -> In z ex -> off ps z ->
  (sumq (fun p => sgn (pinn M st p) * windn M z p) ps == if inside_eo ps z then 1 else 0)%Q.
Proof.
  intros HV [G H F Pe Pp Dg] Hz Ho. assert (HN : ~ In z (concat ps)). { intros K. apply (off_vertex ps z z Ho K). split; reflexivity. }
  rewrite <- (parity ps ex z M gv st HV Hz HN G H F Pe Pp Dg). symmetry. apply (ow_polys ps ex M gv st HV G H F Pe Dg (wp M z) (wp_anti M z)).
Qed.

Lemma facts_sign {I} q ex M (gv : I -> point) st calls : valid [q] -> traps [q] ex M gv st -> facts gv false M st calls -> (sgn (pinn M st q) * shoelace q == Qabs (shoelace q))%Q.
Proof.
  intros HV [G H F Pe Pp Dg] [_ Kc Ks]. specialize (Ks eq_refl det det_anti). rewrite (ow_polys [q] ex M gv st HV G H F Pe Dg det det_anti) in Ks. cbn [sumq] in Ks. fold (shoelace q) in Ks.
  assert (P : (0 <= sumq (fun t => tri_sum det (tri_pos gv t)) (tris_of calls))%Q). { apply sum_nonneg. intros [[a b] c] Hin. rewrite det_cross. now apply Kc. }
  rewrite Ks in P. unfold sgn in *. destruct (pinn M st q); [rewrite Qabs_pos by lra|rewrite Qabs_neg by lra]; ring.
Qed.

Lemma free_off ps z1 z2 : ~ peq z1 z2 -> off ps z1 -> off ps z2 -> free_pts ps [z1; z2].
Proof.
  intros N O1 O2. split; [|split].
  - assert (N' : ~ peq z2 z1) by (intros (E1 & E2); apply N; split; now symmetry). intros p q [<-|[<-|[]]] [<-|[<-|[]]]; auto; contradiction.
  - intros p q [<-|[<-|[]]] Hq; now apply (off_vertex ps).
  - intros p e [<-|[<-|[]]] He; auto.
Qed.

Lemma sgn_pm b : (sgn b == 1 \/ sgn b == -1)%Q.
Proof. destruct b; [now left|now right]. Qed.

(** The coloured side of a polygon of a list, compared with the polygon by itself. *)
Theorem nest_sign {I} l1 p l2 (gv : I -> point) (st : state Q I) (st1 : state Q point) : let ps := l1 ++ p :: l2 in valid ps ->
  (forall ex M, free_pts ps ex -> shear M (concat ps ++ ex) -> traps ps ex M gv st) ->
  (forall ex M, free_pts [p] ex -> shear M (concat [p] ++ ex) -> traps [p] ex M (fun x => x) st1) ->
  forall v, In v p -> exists M, shear M (concat ps) /\ (sgn (pinn M st p) * sgn (pinn M st1 p) == if Nat.even (length (filter (fun q => inside_eo [q] v) (l1 ++ l2))) then 1 else -1)%Q.
Proof.
  intros ps HV HT HT1 v Hv. destruct (near l1 p l2 HV) as (z1 & z2 & O1 & O2 & Hp & Hq). fold ps in O1, O2.
  assert (Nz : ~ peq z1 z2). { intros K. assert (inside_eo [p] z1 = inside_eo [p] z2); [|rewrite Hp in H; destruct (inside_eo [p] z2); discriminate]. unfold inside_eo, crossings. now rewrite (filter_ext _ _ (fun d => crossed_peq z1 z2 d K)). }
  set (ex := [z1; z2]). destruct (shear_exists (concat ps ++ ex)) as (M & HM).
  assert (HM0 : shear M (concat ps)). { destruct HM as (M0 & HM). split; auto. intros a b Ha Hb. apply HM; apply in_or_app; now left. }
  exists M. split; auto.
  assert (SubE : forall q d, In q ps -> In d (concat (map edges [q])) -> In d (concat (map edges ps))). { intros q d Hin Hd. cbn [map concat] in Hd. rewrite app_nil_r in Hd. apply in_concat. exists (edges q). split; auto. now apply in_map. }
  assert (SubM : forall q, In q ps -> shear M (concat [q] ++ ex)). { intros q Hin. destruct HM as (M0 & HM). split; auto. assert (K : incl (concat [q] ++ ex) (concat ps ++ ex)). { apply incl_app; [|now apply incl_appr]. apply incl_appl. intros a Ha. cbn [concat] in Ha. rewrite app_nil_r in Ha. apply in_concat; eauto. } intros a b Ha Hb. apply HM; auto. }
  assert (OffQ : forall q z, In q ps -> off ps z -> off [q] z) by (intros q z Hin Hz d Hd; apply Hz; eauto).
  assert (Single : forall q, In q ps -> exists s, forall z, In z ex -> (windn M z q == sgn s * (if inside_eo [q] z then 1 else 0))%Q).
  { intros q Hin. destruct (one_ex q (valid_one ps q HV Hin)) as (st' & calls' & K). destruct (K ex M) as (T & _); [apply free_off; auto|now apply SubM|].
    exists (pinn M st' q). intros z Hz. assert (Oz : off [q] z) by (destruct Hz as [<-|[<-|[]]]; auto). pose proof (traps_wind [q] ex M _ st' z (valid_one ps q HV Hin) T Hz Oz) as E. cbn [sumq] in E. rewrite <- E. destruct (pinn M st' q); cbn [sgn]; ring. }
  assert (Hpin : In p ps) by (apply in_or_app; right; now left).
  pose proof (HT ex M (free_off ps z1 z2 Nz O1 O2) HM) as T. assert (T1 : traps [p] ex M (fun x => x) st1) by (apply HT1; [apply free_off; auto|now apply SubM]).
  set (rest := l1 ++ l2) in *. assert (Hrest : incl rest ps). { intros q Hin. apply in_app_or in Hin. apply in_or_app. destruct Hin; [now left|right; now right]. }
  set (S := fun z => sumq (fun q => sgn (pinn M st q) * windn M z q)%Q rest).
  assert (HS : forall z, In z ex -> exists c, (S z == inject_Z c)%Q /\ Z.odd c = Nat.odd (length (filter (fun q => inside_eo [q] v) rest))).
  { intros z Hz. apply signs. intros q Hin. destruct (Single q (Hrest q Hin)) as (s & Hs). specialize (Hs z Hz). destruct (Hq q v Hin Hv) as (Q1 & Q2). assert (Ez : inside_eo [q] z = inside_eo [q] v) by (destruct Hz as [<-|[<-|[]]]; auto). rewrite Ez in Hs.
    destruct (inside_eo [q] v); [|rewrite Hs; ring]. destruct (pinn M st q), s; cbn [sgn] in *; [left|right|right|left]; rewrite Hs; ring. }
  assert (HE : (S z1 == S z2)%Q).
  { apply sumq_ext. intros q Hin. destruct (Single q (Hrest q Hin)) as (s & Hs). rewrite (Hs z1), (Hs z2) by (cbn; auto). destruct (Hq q v Hin Hv) as (-> & ->). reflexivity. }
  assert (Tot : forall z, In z ex -> (S z + sgn (pinn M st p) * sgn (pinn M st1 p) * (if inside_eo [p] z then 1 else 0) == if inside_eo ps z then 1 else 0)%Q).
  { intros z Hz. assert (Oz : off ps z) by (destruct Hz as [<-|[<-|[]]]; auto). rewrite <- (traps_wind ps ex M gv st z HV T Hz Oz).
    pose proof (traps_wind [p] ex M _ st1 z (valid_one ps p HV Hpin) T1 Hz (OffQ p z Hpin Oz)) as E1. cbn [sumq] in E1. rewrite <- E1. unfold S, rest, ps. rewrite !sumq_app. cbn [sumq]. destruct (pinn M st1 p); cbn [sgn]; ring. }
  destruct (HS z1) as (c & Ec & Oc); [now left|]. pose proof (Tot z1 ltac:(now left)) as T1'. pose proof (Tot z2 ltac:(cbn; auto)) as T2'. rewrite <- HE in T2'. rewrite Ec in T1', T2'. rewrite Hp in T1'.
  set (t := (sgn (pinn M st p) * sgn (pinn M st1 p))%Q) in *. assert (Ht : (t == 1 \/ t == -1)%Q) by (unfold t; destruct (pinn M st p), (pinn M st1 p); cbn [sgn]; [left|right|right|left]; ring).
  assert (C01 : (inject_Z c == 0 \/ inject_Z c == 1)%Q /\ (inject_Z c + t == 0 \/ inject_Z c + t == 1)%Q).
  { destruct (inside_eo [p] z2); cbn [negb] in T1'; destruct (inside_eo ps z1), (inside_eo ps z2); split; try (left; lra); right; lra. }
  destruct C01 as (C0 & C1). rewrite <- Nat.negb_odd, <- Oc. destruct C0 as [C0|C0].
  - assert (c = 0%Z) as -> by (apply inject_Z_injective; exact C0). cbn [Z.odd negb]. change (inject_Z 0) with 0%Q in C1. destruct Ht as [Ht|Ht]; auto. exfalso. destruct C1; lra.
  - assert (c = 1%Z) as -> by (apply inject_Z_injective; exact C0). cbn [Z.odd negb]. change (inject_Z 1) with 1%Q in C1. destruct Ht as [Ht|Ht]; auto. exfalso. destruct C1; lra.
Qed.

Lemma others_app {A} (l1 l2 : list A) p : others (length l1) (l1 ++ p :: l2) = l1 ++ l2.
Proof.
  unfold others. rewrite firstn_app, Nat.sub_diag, firstn_all. cbn [firstn]. rewrite app_nil_r. f_equal.
  rewrite skipn_app, skipn_all2 by lia. replace (S (length l1) - length l1) with 1 by lia. reflexivity.
Qed.

Lemma traps_indep {I} ps ex ex' M M' (gv : I -> point) st : traps ps ex M gv st -> traps ps ex' M' gv st -> forall p, pinn M st p = pinn M' st p.
Proof. intros [G H F _ _ D] [G' H' F' _ _ _] p. apply pinn_indep. intros i. eapply (colour_indep _ _ _ _ M M' gv st i F F'); eauto. Qed.

(** The coloured side by depth: sign of the polygon in the list and by itself. *)
Lemma depth_sign {I} ps k p (gv : I -> point) (st : state Q I) (st1 : state Q point) M M1 : valid ps -> nth_error ps k = Some p ->
  (forall ex M, free_pts ps ex -> shear M (concat ps ++ ex) -> traps ps ex M gv st) ->
  (forall ex M, free_pts [p] ex -> shear M (concat [p] ++ ex) -> traps [p] ex M (fun x => x) st1) ->
  shear M (concat ps) -> shear M1 p ->
  (sgn (pinn M st p) * sgn (pinn M1 st1 p) == if Nat.even (depth ps k) then 1 else -1)%Q.
Proof.
  intros HV Hk HT HT1 HM HM1. destruct (nth_error_split _ _ Hk) as (l1 & l2 & -> & <-).
  assert (Hp : p <> []). { intros ->. destruct HV as (V & _). apply Forall_app in V. destruct V as (_ & V). apply Forall_inv in V. cbn in V. lia. } destruct p as [|v p]; [congruence|]. clear Hp.
  unfold depth. rewrite Hk, others_app. destruct (nest_sign l1 (v :: p) l2 gv st st1 HV HT HT1 v ltac:(now left)) as (M' & HM' & E). rewrite <- E.
  assert (F0 : forall qs, free_pts qs []) by (intros qs; split; [|split]; easy).
  assert (A0 : forall qs m, shear m (concat qs) -> shear m (concat qs ++ [])) by (intros qs m K; now rewrite app_nil_r).
  assert (C1 : concat [v :: p] = v :: p) by (cbn; now rewrite app_nil_r).
  assert (HM1' : shear M' (v :: p)). { destruct HM' as (K0 & K). split; auto. intros a b Ha Hb. apply K; rewrite concat_app; apply in_or_app; right; cbn [concat]; apply in_or_app; now left. }
  rewrite (traps_indep _ _ _ M M' gv st (HT [] M (F0 _) (A0 _ _ HM)) (HT [] M' (F0 _) (A0 _ _ HM'))).
  rewrite (traps_indep _ _ _ M1 M' _ st1 (HT1 [] M1 (F0 _) (A0 [v :: p] M1 ltac:(now rewrite C1))) (HT1 [] M' (F0 _) (A0 [v :: p] M' ltac:(now rewrite C1)))). reflexivity.
Qed.

Lemma sumq_index {A} (d : A) (f : A -> Q) l : (sumq f l == sumq (fun k => f (nth k l d)) (seq 0 (length l)))%Q.
Proof. symmetry. apply sumq_nth. intros e g He. cbn [Nat.add]. rewrite (nth_error_nth _ _ d He). reflexivity. Qed.

Section Area.
Context {I : Type}.
Variables (gv : I -> point) (elems : list (element I)).
Notation ps := (map (map gv) (groups elems)).
Hypothesis HV : valid ps.
Variables (st : state Q I) (calls : list (call I)).
Hypothesis HD : forall ex M, extra gv elems ex -> shear M (concat ps ++ ex) -> done gv elems ex M st.
Hypothesis HFa : forall ex M, extra gv elems ex -> shear M (concat ps ++ ex) -> facts gv false M st calls.

Theorem run_area : (sumq (area2 gv) (tris_of calls) == interior2 ps)%Q.
Proof.
  destruct (shear_exists (concat ps)) as (M & HM). assert (HM' : shear M (concat ps ++ [])) by now rewrite app_nil_r. assert (X0 : extra gv elems []) by (split; [|split]; easy).
  destruct (HD [] M X0 HM') as [G _ F Pe Pp Dg]. destruct (HFa [] M X0 HM') as [_ _ Ks].
  transitivity (sumq (fun t => tri_sum det (tri_pos gv t)) (tris_of calls)). { apply sumq_ext. intros t _. now rewrite det_cross. }
  rewrite (Ks eq_refl det det_anti), (ow_polys ps [] M gv st HV G HM' F Pe Dg det det_anti).
  rewrite (sumq_index []). apply sumq_ext. intros k Hk. apply in_seq in Hk. destruct (lt_nth _ ps k) as (p & Hp); [lia|]. rewrite (nth_error_nth _ _ [] Hp). fold (shoelace p).
  assert (Hin : In p ps) by (eapply nth_error_In; eauto). destruct (one_ex p (valid_one ps p HV Hin)) as (st1 & calls1 & K1).
  assert (HM1 : shear M p). { destruct HM as (K0 & K). split; auto. intros a b Ha Hb. apply K; apply in_concat; eauto. }
  assert (C1 : concat [p] ++ [] = p) by (cbn; now rewrite !app_nil_r). destruct (K1 [] M) as (T1 & F1); [split; [|split]; easy|now rewrite C1|].
  pose proof (facts_sign p [] M _ st1 calls1 (valid_one ps p HV Hin) T1 F1) as S1.
  pose proof (depth_sign ps k p gv st st1 M M HV Hp) as S2. rewrite <- S2, <- S1; auto.
  - unfold sgn. destruct (pinn M st p), (pinn M st1 p); ring.
  - intros ex M2 Hex HM2. apply done_traps. now apply HD.
  - intros ex M2 Hex HM2. now apply K1.
Qed.
End Area.

Section AreaReturned.
Context {I : Type}.
Variables (gv : I -> point) (ieqb : I -> I -> bool) (dbg : bool).
Hypothesis Hieq : forall a b, ieqb a b = true <-> a = b.
Variables (math_n : nat -> nat -> nat) (shuf : nat -> nat -> list nat).
Hypothesis Hshuf : forall k n, Permutation (shuf k n) (seq 0 n).
Variable elems : list (element I).
Notation ps := (map (map gv) (groups elems)).
Hypothesis HV : valid ps.
Hypothesis Hps : ps <> [].

Lemma returns_interior T : returns gv ieqb dbg math_n shuf elems T -> (sumq (area2 gv) T == interior2 ps)%Q.
Proof. intros HT. destruct (returns_run gv ieqb dbg Hieq math_n shuf Hshuf elems HV Hps T HT) as (st & calls & -> & _ & H1 & H2 & H3). now apply (run_area gv elems HV st calls). Qed.
End AreaReturned.
