(** The trapezoidation of every valid list of polygons succeeds and satisfies the invariants. *)
From Coq Require Import QArith Lqa List Arith Lia Bool Permutation.
From Verif Require Import Base Coord Trap Lanes Plane Geo Region TrapInv AddVertex Recut Cuts LaneOps SegStep AddSegment Segment Walk Polygons.
Import ListNotations.
Local Open Scope nat_scope.

Definition oedge (e : edge) : edge := orient (fst e) (snd e).

Lemma oedge_cases e : oedge e = e \/ oedge e = (snd e, fst e).
Proof. unfold oedge, orient. destruct e; cbn. destruct (coords_lt p p0); auto. Qed.

Lemma NoDup_app_inv {A} (l l' : list A) : NoDup (l ++ l') -> NoDup l /\ NoDup l' /\ forall x, In x l -> ~ In x l'.
Proof.
  induction l as [|a l IH]; cbn; intros H. { split; [constructor|]. split; auto. }
  inversion H as [|? ? H1 H2]; subst. destruct (IH H2) as (A1 & A2 & A3). split; [|split; auto].
  - constructor; auto. intros K. apply H1, in_or_app. now left.
  - intros x [<-|Hx] K; [apply H1, in_or_app; now right|now apply (A3 x)].
Qed.

(** ** Edges of a closed polygon *)

Lemma nth_combine {A B} (l : list A) (l' : list B) j a b : nth_error (combine l l') j = Some (a, b) <-> nth_error l j = Some a /\ nth_error l' j = Some b.
Proof.
  revert l' j. induction l as [|x l IH]; intros [|y l'] [|j]; cbn; try (split; [discriminate|intros (? & ?); discriminate]).
  - split; [intros [= -> ->]; auto|intros ([= ->] & [= ->]); auto].
  - apply IH.
Qed.

Lemma edges_length {A} (l : list A) : length (edges l) = length l.
Proof. destruct l as [|a l]; auto. cbn [edges]. rewrite combine_length, app_length. cbn [length]. lia. Qed.

Lemma edges_nth {A} (l : list A) j a b : nth_error (edges l) j = Some (a, b) <-> nth_error l j = Some a /\ nth_error l ((j + 1) mod length l) = Some b.
Proof.
  destruct l as [|x l]; [destruct j; cbn; split; [discriminate|intros (? & ?); discriminate|discriminate|intros (? & ?); discriminate]|].
  cbn [edges]. rewrite nth_combine.
  assert (G : j < length (x :: l) -> nth_error (l ++ [x]) j = nth_error (x :: l) ((j + 1) mod length (x :: l))).
  { intros Hj. cbn [length] in *. destruct (Nat.eq_dec j (length l)) as [->|Hne].
    - rewrite nth_snoc, Nat.add_1_r, Nat.mod_same by lia. reflexivity.
    - rewrite Nat.mod_small by lia. rewrite Nat.add_1_r. cbn. apply nth_error_app1. lia. }
  split; intros (H1 & H2); pose proof (nth_lt _ _ _ _ H1) as Hl; specialize (G Hl); rewrite ?G, <- ?G in *; auto.
Qed.

Lemma edges_fst {A} (l : list A) : map fst (edges l) = l.
Proof.
  destruct l as [|a l]; auto. cbn [edges]. assert (G : forall (l l' : list A), length l = length l' -> map fst (combine l l') = l).
  { induction l0 as [|x l0 IH]; intros [|y l'] H; cbn in *; try discriminate; auto. f_equal. apply IH. lia. }
  apply G. rewrite app_length. cbn. lia.
Qed.

Lemma edges_snd {A} (l : list A) : Permutation (map snd (edges l)) l.
Proof.
  destruct l as [|a l]; auto. cbn [edges]. assert (G : forall (l l' : list A), length l = length l' -> map snd (combine l l') = l').
  { induction l0 as [|x l0 IH]; intros [|y l'] H; cbn in *; try discriminate; auto. f_equal. apply IH. lia. }
  rewrite G by (rewrite app_length; cbn; lia). symmetry. apply Permutation_cons_append.
Qed.

Lemma alledges_fst {A} (ps : list (list A)) : map fst (concat (map edges ps)) = concat ps.
Proof. induction ps as [|p ps IH]; auto. cbn. now rewrite map_app, edges_fst, IH. Qed.

Lemma alledges_snd {A} (ps : list (list A)) : Permutation (map snd (concat (map edges ps))) (concat ps).
Proof. induction ps as [|p ps IH]; cbn; auto. rewrite map_app. apply Permutation_app; auto. apply edges_snd. Qed.

Lemma edges_map {A B} (f : A -> B) (l : list A) : edges (map f l) = map (fun e => (f (fst e), f (snd e))) (edges l).
Proof.
  destruct l as [|a l]; auto. cbn [edges map]. change [f a] with (map f [a]). rewrite <- map_app. change (f a :: map f l) with (map f (a :: l)).
  generalize (a :: l) (l ++ [a]). intros l1. induction l1 as [|x l1 IH]; intros [|y l2]; cbn; auto. f_equal. apply IH.
Qed.

(** ** Geometry of a valid list *)

Lemma on_start a b : on_segment a b a.
Proof. exists 0%Q. split; [lra|]. split; [lra|]. split; ring. Qed.

Lemma on_end a b : on_segment a b b.
Proof. exists 1%Q. split; [lra|]. split; [lra|]. split; ring. Qed.

Lemma on_sym a b p : on_segment a b p -> on_segment b a p.
Proof. intros (t & H1 & H2 & H3 & H4). exists (1 - t)%Q. split; [lra|]. split; [lra|]. rewrite H3, H4. split; ring. Qed.

Lemma on_oedge e p : on_segment (fst (oedge e)) (snd (oedge e)) p <-> on_segment (fst e) (snd e) p.
Proof. destruct (oedge_cases e) as [-> | ->]; cbn; [tauto|]. split; apply on_sym. Qed.

Lemma peq_sym a b : peq a b -> peq b a.
Proof. intros (H1 & H2). split; now symmetry. Qed.

Lemma peq_trans a b c : peq a b -> peq b c -> peq a c.
Proof. intros (H1 & H2) (H3 & H4). split; [rewrite H1|rewrite H2]; auto. Qed.

(** The oriented edges of all polygons. *)
Definition uedges (ps : list (list point)) : list edge := map oedge (concat (map edges ps)).

Lemma in_alledges {A} (ps : list (list A)) e : In e (concat (map edges ps)) -> exists p, In p ps /\ In e (edges p).
Proof. intros H. apply in_concat in H. destruct H as (l & Hl & He). apply in_map_iff in Hl. destruct Hl as (p & <- & Hp). eauto. Qed.

Section Distinct.
Variable ps : list (list point).
Hypothesis H3 : Forall (fun p => 3 <= length p) ps.
Hypothesis HD : forall i j a b, nth_error (concat ps) i = Some a -> nth_error (concat ps) j = Some b -> peq a b -> i = j.
Notation D := (concat (map edges ps)).

Lemma dist_eq p q : In p (concat ps) -> In q (concat ps) -> peq p q -> p = q.
Proof.
  intros Hp Hq H. apply In_nth_error in Hp, Hq. destruct Hp as (i & Hi), Hq as (j & Hj). specialize (HD i j p q Hi Hj H). congruence.
Qed.

Lemma dist_nd : NoDup (concat ps).
Proof.
  apply NoDup_nth_error. intros i j Hi E. destruct (lt_nth _ _ i Hi) as (a & Ha). apply (HD i j a a); auto. { congruence. } split; reflexivity.
Qed.

Lemma dist_part p : In p ps -> NoDup p.
Proof.
  intros Hp. pose proof dist_nd as K. clear -K Hp. induction ps as [|x l IH]; [easy|]. cbn in K. apply NoDup_app_inv in K as K'. destruct Hp as [->|Hp]; [apply K'|]. apply IH; auto. apply K'.
Qed.

Lemma dist_ends e : In e D -> In (fst e) (concat ps) /\ In (snd e) (concat ps) /\ ~ peq (fst e) (snd e).
Proof.
  intros He. assert (H1 : In (fst e) (concat ps)) by (rewrite <- alledges_fst; now apply in_map).
  assert (H2 : In (snd e) (concat ps)) by (rewrite <- alledges_snd; now apply in_map).
  split; auto. split; auto. intros E. apply dist_eq in E; auto. destruct (in_alledges _ _ He) as (p & Hp & Hep). apply In_nth_error in Hep. destruct Hep as (j & Hj).
  destruct e as (a, b). apply edges_nth in Hj. destruct Hj as (Ja & Jb). cbn in E. subst b.
  pose proof (dist_part p Hp) as Hnd.
  assert (Hl : 3 <= length p) by (rewrite Forall_forall in H3; auto). pose proof (nth_lt _ _ _ _ Ja) as Hjl.
  assert (E : j = (j + 1) mod length p). { apply (proj1 (NoDup_nth_error p) Hnd); auto. congruence. }
  destruct (Nat.eq_dec (j + 1) (length p)) as [E'|E']; [rewrite E', Nat.mod_same in E by lia; lia|rewrite Nat.mod_small in E by lia; lia].
Qed.

Lemma dist_lt e : In e D -> plt (fst (oedge e)) (snd (oedge e)).
Proof.
  intros He. destruct (dist_ends e He) as (_ & _ & H). unfold oedge, orient. destruct (coords_lt (fst e) (snd e)) eqn:E; cbn.
  - now apply coords_lt_spec.
  - destruct (plt_total (fst e) (snd e)) as [K|[K|K]]; auto; [|contradiction]. apply coords_lt_spec in K. congruence.
Qed.

(** Every vertex has exactly two edges. *)
Lemma dist_split p : cnt p (uedges ps) = count_occ pt_dec (map fst D) p + count_occ pt_dec (map snd D) p.
Proof.
  unfold uedges. assert (G : forall l, (forall e, In e l -> ~ peq (fst e) (snd e)) -> cnt p (map oedge l) = count_occ pt_dec (map fst l) p + count_occ pt_dec (map snd l) p).
  { induction l as [|e l IH]; intros H; auto. cbn [map]. change (oedge e :: map oedge l) with ([oedge e] ++ map oedge l). rewrite cnt_app, cnt_one, IH by (intros; apply H; now right).
    assert (Hne : fst e <> snd e). { intros E. apply (H e); [now left|]. rewrite E. split; reflexivity. }
    assert (T : touches p (oedge e) = true <-> p = fst e \/ p = snd e). { rewrite touches_spec. destruct (oedge_cases e) as [-> | ->]; cbn; tauto. }
    cbn [count_occ]. destruct (pt_dec (fst e) p) as [Ef|Ef], (pt_dec (snd e) p) as [Es|Es], (touches p (oedge e)); try lia; exfalso;
      try (apply Hne; congruence).
    - assert (false = true) by (apply T; auto). discriminate.
    - assert (false = true) by (apply T; auto). discriminate.
    - destruct (proj1 T eq_refl); congruence. }
  apply G. intros e He. now apply dist_ends.
Qed.

Lemma count_nd p (l : list point) : NoDup l -> count_occ pt_dec l p <= 1.
Proof. intros H. now apply NoDup_count_occ. Qed.

Lemma dist_cnt p : cnt p (uedges ps) <= 2.
Proof.
  rewrite dist_split. pose proof (count_nd p (map fst D)) as H1. rewrite alledges_fst in *. specialize (H1 dist_nd).
  pose proof (count_nd p (map snd D)) as H2. assert (NoDup (map snd D)) as K. { eapply Permutation_NoDup; [symmetry; apply alledges_snd|apply dist_nd]. } specialize (H2 K). lia.
Qed.

(** No two edges have the same ends. *)
Lemma dist_nth i j e f : nth_error D i = Some e -> nth_error D j = Some f -> oedge e = oedge f -> i = j.
Proof.
  intros Hi Hj E. pose proof dist_nd as Hnd. assert (Hfst : fst e = fst f -> i = j).
  { intros K. apply (proj1 (NoDup_nth_error (map fst D))). { now rewrite alledges_fst. } { rewrite map_length. eapply nth_lt; eauto. }
    rewrite !nth_error_map, Hi, Hj. cbn. now rewrite K. }
  assert (Hc : fst e = fst f \/ (fst e = snd f /\ snd e = fst f)).
  { destruct (oedge_cases e) as [Ee|Ee], (oedge_cases f) as [Ef|Ef]; rewrite Ee, Ef in E; destruct e, f; cbn in *; injection E; intros; subst; auto. }
  destruct Hc as [?|(C1 & C2)]; auto. exfalso. destruct (in_alledges _ _ (nth_error_In _ _ Hi)) as (p & Hp & Hep). destruct (in_alledges _ _ (nth_error_In _ _ Hj)) as (p' & Hp' & Hep').
  pose proof (dist_part p Hp) as Hn. assert (Hl : 3 <= length p) by (rewrite Forall_forall in H3; auto).
  destruct e as (a, b), f as (c, d). cbn in C1, C2. subst c d.
  apply In_nth_error in Hep. destruct Hep as (x & Hx). apply In_nth_error in Hep'. destruct Hep' as (y & Hy). apply edges_nth in Hx, Hy. destruct Hx as (X1 & X2), Hy as (Y1 & Y2).
  assert (Epp : p = p').
  { assert (Hb : In b p) by (eapply nth_error_In; eauto). assert (Hb' : In b p') by (eapply nth_error_In; eauto).
    apply in_split in Hp. destruct Hp as (l1 & l2 & Hp). rewrite Hp in Hnd, Hp'. rewrite concat_app in Hnd. cbn [concat] in Hnd.
    apply NoDup_app_inv in Hnd. destruct Hnd as (_ & Hnd & Z1). apply NoDup_app_inv in Hnd. destruct Hnd as (_ & _ & Z2).
    apply in_app_or in Hp'. destruct Hp' as [Hp'|[Hp'|Hp']]; auto; exfalso.
    - apply (Z1 b). { apply in_concat. eauto. } apply in_or_app. now left.
    - apply (Z2 b); auto. apply in_concat. eauto. }
  subst p'. pose proof (nth_lt _ _ _ _ X1) as Lx. pose proof (nth_lt _ _ _ _ Y1) as Ly.
  assert (A1 : y = (x + 1) mod length p) by (apply (proj1 (NoDup_nth_error p) Hn); auto; congruence).
  assert (A2 : x = (y + 1) mod length p) by (apply (proj1 (NoDup_nth_error p) Hn); auto; congruence).
  destruct (Nat.eq_dec (x + 1) (length p)) as [E1|E1]; [rewrite E1, Nat.mod_same in A1 by lia|rewrite Nat.mod_small in A1 by lia].
  - subst y. rewrite Nat.mod_small in A2 by lia. lia.
  - subst y. destruct (Nat.eq_dec (x + 1 + 1) (length p)) as [E2|E2]; [rewrite E2, Nat.mod_same in A2 by lia; lia|rewrite Nat.mod_small in A2 by lia; lia].
Qed.

Lemma dist_uedges : NoDup (uedges ps).
Proof.
  apply NoDup_nth_error. unfold uedges. intros i j Hi E. rewrite map_length in Hi. destruct (lt_nth _ _ i Hi) as (e & He). rewrite !nth_error_map, He in E.
  match type of E with _ = option_map _ ?x => destruct x as [f|] eqn:Hj end; cbn in E; [|discriminate]. apply (dist_nth i j e f); auto. congruence.
Qed.

End Distinct.

Section Valid.
Variable ps : list (list point).
Hypothesis HV : valid ps.
Notation D := (concat (map edges ps)).

Lemma valid_eq p q : In p (concat ps) -> In q (concat ps) -> peq p q -> p = q.
Proof. exact (dist_eq ps (proj1 (proj2 HV)) p q). Qed.

Lemma valid_nd : NoDup (concat ps).
Proof. exact (dist_nd ps (proj1 (proj2 HV))). Qed.

Lemma edge_ends e : In e D -> In (fst e) (concat ps) /\ In (snd e) (concat ps) /\ ~ peq (fst e) (snd e).
Proof. exact (dist_ends ps (proj1 HV) (proj1 (proj2 HV)) e). Qed.

Lemma oedge_lt e : In e D -> plt (fst (oedge e)) (snd (oedge e)).
Proof. exact (dist_lt ps (proj1 HV) (proj1 (proj2 HV)) e). Qed.

Lemma uedges_nth i j e f : nth_error D i = Some e -> nth_error D j = Some f -> oedge e = oedge f -> i = j.
Proof. exact (dist_nth ps (proj1 HV) (proj1 (proj2 HV)) i j e f). Qed.

Lemma uedges_nd : NoDup (uedges ps).
Proof. exact (dist_uedges ps (proj1 HV) (proj1 (proj2 HV))). Qed.

Lemma valid_geo ex : (forall p q, In p ex -> In q ex -> peq p q -> p = q) -> (forall p q, In p ex -> In q (concat ps) -> ~ peq p q) ->
  (forall p e, In p ex -> In e D -> ~ on_segment (fst e) (snd e) p) -> geo (concat ps ++ ex) (uedges ps).
Proof.
  intros X1 X2 X3. split.
  - intros p q Hp Hq E. apply in_app_or in Hp, Hq. destruct Hp as [Hp|Hp], Hq as [Hq|Hq]; [now apply valid_eq| | |auto]; exfalso.
    + apply (X2 q p); auto. now apply peq_sym.
    + now apply (X2 p q).
  - intros e He. apply in_map_iff in He. destruct He as (e' & <- & He'). destruct (edge_ends e' He') as (H1 & H2 & H3). pose proof (oedge_lt e' He') as L.
    destruct (oedge_cases e') as [Eo|Eo]; rewrite Eo in *; cbn [fst snd] in *; split; try (apply in_or_app; now left); split; auto; apply in_or_app; now left.
  - intros e f He Hf Hne p Hp Hq. apply in_map_iff in He, Hf. destruct He as (e' & <- & He'), Hf as (f' & <- & Hf').
    apply (proj1 (on_oedge _ _)) in Hp. apply (proj1 (on_oedge _ _)) in Hq. apply In_nth_error in He', Hf'. destruct He' as (i & Hi), Hf' as (j & Hj). assert (i <> j) by (intros ->; apply Hne; congruence).
    destruct HV as (_ & _ & K). destruct (K i j e' f' p Hi Hj H Hp Hq) as (Q & _). destruct (oedge_cases e') as [-> | ->]; cbn; tauto.
  - intros e v He Hv Hon. apply in_map_iff in He. destruct He as (e' & <- & He'). apply (proj1 (on_oedge _ _)) in Hon. apply in_app_or in Hv. destruct Hv as [Hv|Hv]; [|exfalso; eapply X3; eauto].
    destruct (edge_ends e' He') as (H1 & H2 & H3). rewrite <- alledges_fst in Hv. apply in_map_iff in Hv as Hv'. destruct Hv' as (f & Ef & Hf).
    apply In_nth_error in Hf, He'. destruct Hf as (j & Hj), He' as (i & Hi). assert (G : v = fst e' \/ v = snd e').
    { destruct (Nat.eq_dec i j) as [->|Hne]; [left; pose proof (eq_trans (eq_sym Hi) Hj) as Z; injection Z as Z; rewrite Z; symmetry; exact Ef|]. destruct HV as (_ & _ & K). rewrite alledges_fst in Hv.
      destruct (K i j e' f v Hi Hj Hne Hon) as ([Q|Q] & _); [rewrite <- Ef; apply on_start| |]; apply valid_eq in Q; auto. }
    destruct (oedge_cases e') as [-> | ->]; cbn; tauto.
Qed.

Lemma cnt_split p : cnt p (uedges ps) = count_occ pt_dec (map fst D) p + count_occ pt_dec (map snd D) p.
Proof. exact (dist_split ps (proj1 HV) (proj1 (proj2 HV)) p). Qed.

Lemma valid_cnt p : cnt p (uedges ps) <= 2.
Proof. exact (dist_cnt ps (proj1 HV) (proj1 (proj2 HV)) p). Qed.

Lemma valid_cnt2 p : In p (concat ps) -> cnt p (uedges ps) = 2.
Proof.
  intros Hp. pose proof (valid_cnt p) as K. rewrite cnt_split in *. assert (H1 : In p (map fst D)) by now rewrite alledges_fst.
  assert (H2 : In p (map snd D)) by (eapply Permutation_in; [symmetry; apply alledges_snd|auto]). apply (count_occ_In pt_dec) in H1, H2. lia.
Qed.

End Valid.

(** ** The start *)

Lemma full_new {I} W Es M (gv : I -> point) : full W Es M gv (state_new : state Q I).
Proof.
  assert (H1 : forall i (t : trap), nth_error [trap_all 0] i = Some t -> i = 0 /\ t = trap_all 0).
  { intros [|[|i]] t H; cbn in H; try discriminate. injection H as <-. auto. }
  split; cbn.
  - split; cbn.
    + easy. + constructor. + easy. + intros [|]; easy. + constructor.
    + intros i t Ht. apply H1 in Ht. destruct Ht as (_ & ->). split; cbn; discriminate.
    + intros i t Ht. apply H1 in Ht. destruct Ht as (_ & ->). split; cbn; try discriminate; auto.
    + easy.
    + intros i t Ht. apply H1 in Ht. destruct Ht as (_ & ->). cbn. auto.
    + intros i t Ht. apply H1 in Ht. destruct Ht as (-> & ->). reflexivity.
    + intros [|[|k]] i H; cbn in H; try discriminate. injection H as <-. exists (trap_all 0). auto.
    + intros [|k] H; [|lia]. eapply W_sink. reflexivity.
    + lia.
    + exists 0, (trap_all 0). split; auto. now constructor.
    + intros p i j t t' _ _ Hi Hj _ _. apply H1 in Hi, Hj. destruct Hi, Hj. congruence.
    + intros p Hp _. exists 0, (trap_all 0). split; auto. split; [|eapply F_sink; reflexivity]. unfold inside, ahas. cbn. auto.
  - intros i t Ht. apply H1 in Ht. destruct Ht as (_ & ->). cbn. auto.
  - intros [|v] n H; cbn in H; discriminate.
  - intros i t d v Ht H. apply H1 in Ht. destruct Ht as (_ & ->). destruct d; discriminate.
  - intros [|v] n d H; cbn in H; discriminate.
Qed.

Section Build.
Context {I : Type}.
Variables (gv : I -> point) (ieqb : I -> I -> bool) (dbg : bool).
Hypothesis Hieq : forall a b, ieqb a b = true <-> a = b.
Variables (math_n : nat -> nat -> nat) (shuf : nat -> nat -> list nat).
Hypothesis Hshuf : forall k n, Permutation (shuf k n) (seq 0 n).
Variables (W : list point) (Es : list edge) (M : Q).
Hypothesis HG : geo W Es.
Hypothesis HM : shear M W.
Hypothesis Hcnt : forall p, cnt p Es <= 2.
Notation stt := (state Q I).

Definition pend1 (i : I) : vloc Q I := Pending (gv i) i 0.

Lemma sedge_edges poly j e : sedge_at gv poly j e <-> nth_error (map oedge (edges (map gv poly))) j = Some e.
Proof.
  unfold sedge_at. split.
  - intros (a & b & Ha & Hb & ->). assert (E : nth_error (edges (map gv poly)) j = Some (gv a, gv b)).
    { apply edges_nth. rewrite map_length, !nth_error_map, Ha, Hb. auto. }
    exact (map_nth_error oedge j _ E).
  - intros E. assert (Hj : j < length (edges (map gv poly))). { pose proof (nth_lt _ _ _ _ E) as K. rewrite map_length in K. exact K. }
    destruct (lt_nth _ _ j Hj) as ((x & y) & E'). pose proof (map_nth_error oedge j _ E') as K. assert (Ke : oedge (x, y) = e) by (pose proof (eq_trans (eq_sym K) E) as Z; now injection Z).
    apply edges_nth in E'. rewrite map_length, !nth_error_map in E'. destruct E' as (E1 & E2). destruct (nth_error poly j) as [a|]; [|discriminate]. destruct (nth_error poly ((j + 1) mod length poly)) as [b|]; [|discriminate].
    exists a, b. cbn in *. split; auto. split; auto. rewrite <- Ke. unfold oedge; cbn. congruence.
Qed.

Lemma forall2_perm {A} (P : nat -> A -> Prop) (L : list A) order es : (forall j e, P j e <-> nth_error L j = Some e) -> Forall2 P order es -> Permutation order (seq 0 (length L)) -> Permutation es L.
Proof.
  intros HP HF Hperm. destruct L as [|d L']. { cbn in Hperm. apply Permutation_sym, Permutation_nil in Hperm. subst. inversion HF. constructor. }
  set (L := d :: L') in *. assert (E1 : es = map (fun j => nth j L d) order).
  { clear Hperm. induction HF as [|j e order es H HF IH]; auto. cbn [map]. f_equal; auto. apply HP in H. symmetry. now apply nth_err_nth. }
  assert (E2 : L = map (fun j => nth j L d) (seq 0 (length L))).
  { clear. generalize d as d0. induction L as [|x l IH]; intros d0; auto. cbn [length seq map nth]. f_equal. rewrite <- seq_shift, map_map. apply IH. }
  rewrite E1. etransitivity; [apply Permutation_map; exact Hperm|]. rewrite <- E2. reflexivity.
Qed.

(** Any part of the loop over the segments of a polygon. *)
Lemma loop_ok st poly order : 3 <= length poly -> NoDup (map gv poly) -> (forall p, In p (map gv poly) -> ~ In p (points st)) ->
  rest W Es M gv st [] -> incl (uedges [map gv poly]) Es -> NoDup (medges st ++ uedges [map gv poly]) -> NoDup order -> (forall j, In j order -> j < length poly) ->
  exists st' vls' es, evt (fun k => polygon_loop ieqb gv dbg k math_n (length poly) order 0 st (map pend1 poly) (length poly) 1 (math_n (length poly) 1)) (st', vls') /\
    rest W Es M gv st' [] /\ vls_ok M gv poly st' vls' /\ Forall2 (sedge_at gv poly) order es /\ medges st' = medges st ++ es /\
    incl (points st') (points st ++ map gv poly) /\ incl (points st) (points st') /\ (sized st -> sized st').
Proof.
  intros Hlen Hnd Hnew HR Hinc Hmd Hord Hol. assert (Eu : uedges [map gv poly] = map oedge (edges (map gv poly))) by (unfold uedges; cbn; now rewrite app_nil_r). rewrite Eu in *.
  assert (Hed : forall j e, sedge_at gv poly j e -> In e Es). { intros j e He. apply sedge_edges in He. apply Hinc. eapply nth_error_In; eauto. }
  assert (HinW : forall j a, nth_error poly j = Some a -> In (gv a) W). { apply (edge_W W Es gv poly HG); auto. lia. }
  pose proof (r_full _ _ _ _ _ _ HR) as Hf. pose proof (f_core _ _ _ _ _ Hf) as Hc.
  assert (Hps : pends (map pend1 poly) = length poly). { unfold pends. clear. induction poly; cbn; auto. }
  assert (Hvo : vls_ok M gv poly st (map pend1 poly)).
  { split; [apply map_length|]. intros j a Ha. left. exists 0. rewrite nth_error_map, Ha. split; auto. assert (~ In (gv a) (points st)) by (apply Hnew, in_map; eapply nth_error_In; eauto).
    split; auto. apply (c_loc _ _ _ _ _ Hc); auto. eapply HinW; eauto. }
  destruct (polygon_loop_ok W Es M gv HG HM ieqb Hieq Hcnt dbg poly) with (math_n := math_n) (order := order) (i := 0) (st := st) (vls := map pend1 poly) (uc := 1) (nu := math_n (length poly) 1)
    as (st' & vls' & es & E1 & E2 & E2v & E3 & E4 & E5 & E6 & E7); auto; try lia.
  - intros j e _ He K. apply sedge_edges in He. apply nth_error_In in He. apply NoDup_app_inv in Hmd. destruct Hmd as (_ & _ & Z). now apply (Z e).
  - intros j j' e _ _ He He'. apply sedge_edges in He, He'. apply NoDup_app_inv in Hmd. destruct Hmd as (_ & Z & _).
    apply (proj1 (NoDup_nth_error _) Z); [eapply nth_lt; eauto|congruence].
  - rewrite Hps in E1. exists st', vls', es. repeat (split; [assumption|]). assumption.
Qed.

Lemma add_polygon_ok st poly order : 3 <= length poly -> NoDup (map gv poly) -> (forall p, In p (map gv poly) -> ~ In p (points st)) ->
  rest W Es M gv st [] -> incl (uedges [map gv poly]) Es -> NoDup (medges st ++ uedges [map gv poly]) -> Permutation order (seq 0 (length poly)) ->
  exists st' vls', evt (fun k => add_polygon ieqb gv dbg k math_n order st (map pend1 poly)) (st', vls') /\ rest W Es M gv st' [] /\
    Permutation (medges st') (medges st ++ uedges [map gv poly]) /\ incl (points st') (points st ++ map gv poly) /\ incl (points st) (points st') /\ (sized st -> sized st').
Proof.
  intros Hlen Hnd Hnew HR Hinc Hmd Hord. destruct (loop_ok st poly order) as (st' & vls' & es & E1 & E2 & _ & E3 & E4 & E5); auto.
  - eapply Permutation_NoDup; [symmetry; exact Hord|apply seq_NoDup].
  - intros j Hj. eapply Permutation_in in Hj; [|exact Hord]. apply in_seq in Hj. lia.
  - exists st', vls'. split; [|split; [auto|split; [|auto]]].
    + unfold add_polygon. rewrite map_length. exact E1.
    + rewrite E4. apply Permutation_app_head. unfold uedges. cbn [map concat]. rewrite app_nil_r. eapply forall2_perm; [|exact E3|].
      * intros j e. apply sedge_edges.
      * rewrite map_length. pose proof (edges_length (map gv poly)) as Z. rewrite map_length in Z. unfold edge. rewrite Z. exact Hord.
Qed.

Lemma groups_snoc cur (l : list (element I)) : groups_from cur (l ++ [NewPolygon]) = groups_from cur l.
Proof. revert cur. induction l as [|[i|] l IH]; intros cur; cbn; rewrite ?IH; auto; destruct cur; auto. Qed.

Lemma uedges_cons p ps : uedges (p :: ps) = uedges [p] ++ uedges ps.
Proof. unfold uedges. cbn. now rewrite app_nil_r, map_app. Qed.

Lemma build_ok elems : forall k st cur, let ps := map (map gv) (groups_from cur elems) in
  Forall (fun p => 3 <= length p) ps -> NoDup (concat ps) -> (forall p, In p (concat ps) -> ~ In p (points st)) ->
  rest W Es M gv st [] -> incl (uedges ps) Es -> NoDup (medges st ++ uedges ps) ->
  exists st', evt (fun f => build_loop ieqb gv dbg f math_n shuf (elems ++ [NewPolygon]) k st (map pend1 cur)) st' /\ rest W Es M gv st' [] /\
    Permutation (medges st') (medges st ++ uedges ps) /\ incl (points st') (points st ++ concat ps) /\ (sized st -> sized st').
Proof.
  assert (Hpoly : forall cur ps k st rest', cur <> [] -> let qs := map gv cur :: ps in
    Forall (fun p => 3 <= length p) qs -> NoDup (concat qs) -> (forall p, In p (concat qs) -> ~ In p (points st)) ->
    rest W Es M gv st [] -> incl (uedges qs) Es -> NoDup (medges st ++ uedges qs) ->
    (forall st1, Forall (fun p => 3 <= length p) ps -> NoDup (concat ps) -> (forall p, In p (concat ps) -> ~ In p (points st1)) ->
      rest W Es M gv st1 [] -> incl (uedges ps) Es -> NoDup (medges st1 ++ uedges ps) ->
      exists st', evt (fun f => build_loop ieqb gv dbg f math_n shuf rest' (k + 1) st1 []) st' /\ rest W Es M gv st' [] /\
        Permutation (medges st') (medges st1 ++ uedges ps) /\ incl (points st') (points st1 ++ concat ps) /\ (sized st1 -> sized st')) ->
    exists st', evt (fun f => build_loop ieqb gv dbg f math_n shuf (NewPolygon :: rest') k st (map pend1 cur)) st' /\ rest W Es M gv st' [] /\
      Permutation (medges st') (medges st ++ uedges qs) /\ incl (points st') (points st ++ concat qs) /\ (sized st -> sized st')).
  { intros cur ps k st rest' Hcur qs Hlen Hnd Hnew HR Hinc Hmd Hgo. unfold qs in *. inversion Hlen as [|? ? Hl1 Hl2]; subst. rewrite map_length in Hl1. cbn [concat] in *. rewrite uedges_cons in *.
    apply NoDup_app_inv in Hnd as Hnd'. destruct Hnd' as (Hn1 & Hn2 & Hn3). rewrite app_assoc in Hmd. apply NoDup_app_inv in Hmd as Hmd'. destruct Hmd' as (Hm1 & Hm2 & Hm3).
    destruct (add_polygon_ok st cur (shuf k (length cur))) as (st1 & vls1 & E1 & E2 & E3 & E4 & E5 & E6); auto.
    { intros p Hp. apply Hnew, in_or_app. now left. } { intros e He. apply Hinc, in_or_app. now left. }
    destruct (Hgo st1) as (st' & F1 & F2 & F3 & F4 & F5); auto.
    { intros p Hp K. apply E4 in K. apply in_app_or in K. destruct K as [K|K]; [apply (Hnew p); auto; apply in_or_app; now right|now apply (Hn3 p)]. }
    { intros e He. apply Hinc, in_or_app. now right. }
    { eapply Permutation_NoDup; [|exact Hmd]. apply Permutation_app_tail. now symmetry. }
    exists st'. split; [|split; [auto|split]].
    - eapply evt_ext; [|eapply (evt_bind _ (fun f x => build_loop ieqb gv dbg f math_n shuf rest' (k + 1) (fst x) [])); [exact (evt_map _ TrapInternal _ E1)|exact F1]].
      intros f. cbn [build_loop]. rewrite map_length. assert (Nat.ltb 0 (length cur) = true) as -> by (apply Nat.ltb_lt; lia). assert (Nat.ltb (length cur) 3 = false) as -> by (apply Nat.ltb_ge; lia).
      cbv beta. destruct (add_polygon ieqb gv dbg f math_n (shuf k (length cur)) st (map pend1 cur)) as [[? ?]| |]; reflexivity.
    - rewrite app_assoc. etransitivity; [exact F3|]. now apply Permutation_app_tail.
    - split; [|auto]. intros x Hx. apply F4 in Hx. rewrite app_assoc. apply in_app_or in Hx. apply in_or_app. destruct Hx as [Hx|Hx]; auto. }
  induction elems as [|[i|] elems IH]; intros k st cur ps Hlen Hnd Hnew HR Hinc Hmd; cbn [app].
  - destruct cur as [|i cur].
    + exists st. split; [apply evt_ret|]. split; auto. unfold ps. cbn. rewrite app_nil_r. split; auto. split; auto. apply incl_appl, incl_refl.
    + apply (Hpoly (i :: cur) [] k st []); auto; [discriminate|]. intros st1 _ _ _ R1 _ _. exists st1. split; [apply evt_ret|]. split; auto. unfold uedges. cbn. rewrite !app_nil_r. split; auto. split; auto. apply incl_refl.
  - destruct (IH k st (cur ++ [i])) as (st' & F & F'); auto. exists st'. split; auto. rewrite map_app in F. exact F.
  - destruct cur as [|i cur].
    + apply (IH k st []); auto.
    + apply (Hpoly (i :: cur) (map (map gv) (groups_from [] elems)) k st (elems ++ [NewPolygon])); auto; [discriminate|].
      intros st1 H1 H2 H3 H4 H5 H6. apply (IH (k + 1) st1 []); auto.
Qed.

End Build.

(** ** The trapezoidation of a valid list *)

Section Trapezoidize.
Context {I : Type}.
Variables (gv : I -> point) (ieqb : I -> I -> bool) (dbg : bool).
Hypothesis Hieq : forall a b, ieqb a b = true <-> a = b.
Variables (math_n : nat -> nat -> nat) (shuf : nat -> nat -> list nat).
Hypothesis Hshuf : forall k n, Permutation (shuf k n) (seq 0 n).
Variable elems : list (element I).
Notation ps := (map (map gv) (groups elems)).
Hypothesis HV : valid ps.

(** All that later proofs use of the result. *)
Record done (ex : list point) (M : Q) (st : state Q I) : Prop := {
  d_geo : geo (concat ps ++ ex) (uedges ps);
  d_shear : shear M (concat ps ++ ex);
  d_full : full (concat ps ++ ex) (uedges ps) M gv st;
  d_edges : Permutation (medges st) (uedges ps);
  d_points : Permutation (points st) (concat ps);
  d_deg : forall v n, nth_error (st_ns st) v = Some n -> deg n = 2
}.

(** Points of the plane away from the vertices and edges. *)
Definition extra (ex : list point) : Prop :=
  (forall p q, In p ex -> In q ex -> peq p q -> p = q) /\ (forall p q, In p ex -> In q (concat ps) -> ~ peq p q) /\
  (forall p e, In p ex -> In e (concat (map edges ps)) -> ~ on_segment (fst e) (snd e) p).

Lemma trapezoidize_ok ex M : extra ex -> shear M (concat ps ++ ex) ->
  exists st, evt (fun k => trapezoidize ieqb gv dbg k math_n shuf elems) st /\ done ex M st /\ sized st.
Proof.
  intros (X1 & X2 & X3) HM. pose proof (valid_geo ps HV ex X1 X2 X3) as HG. pose proof (full_new (concat ps ++ ex) (uedges ps) M gv) as F0.
  destruct (build_ok gv ieqb dbg Hieq math_n shuf Hshuf (concat ps ++ ex) (uedges ps) M HG HM (valid_cnt ps HV) elems 0 state_new []) as (st & E1 & E2 & E3 & E4 & E5).
  - apply HV.
  - now apply valid_nd.
  - intros p _ [].
  - split; auto. { intros [|v] n H; discriminate. } intros [|v] n H; discriminate.
  - apply incl_refl.
  - cbn. now apply uedges_nd.
  - exists st. split; auto. destruct E2 as [Rf Rc Rd]. pose proof (f_core _ _ _ _ _ Rf) as Hc. cbn [app] in *.
    assert (Hpts : Permutation (points st) (concat ps)).
    { apply NoDup_Permutation; [apply (c_nd _ _ _ _ _ Hc)|now apply valid_nd|]. intros p. split; [intros Hp; now apply E4 in Hp|]. intros Hp.
      pose proof (valid_cnt2 ps HV p Hp) as K. unfold cnt in K. destruct (filter (touches p) (uedges ps)) as [|e l] eqn:Ef; [discriminate|].
      assert (Ke : In e (filter (touches p) (uedges ps))) by (rewrite Ef; now left). apply filter_In in Ke. destruct Ke as (Ke & Kt). apply touches_spec in Kt.
      assert (Km : In e (medges st)) by (eapply Permutation_in; [symmetry; exact E3|auto]). destruct (medges_points _ _ _ _ st e Hc Km) as (P1 & P2 & _). destruct Kt as [-> | ->]; auto. }
    split; [|apply E5; cbn; split; cbn; lia]. split; auto. intros v n Hn. rewrite (Rc v n Hn). assert (Hp : In (n_c n) (concat ps)). { eapply Permutation_in; [exact Hpts|]. eapply nth_error_In. eapply points_nth; eauto. }
    rewrite <- (valid_cnt2 ps HV _ Hp). assert (G : forall l l', Permutation l l' -> cnt (n_c n) l = cnt (n_c n) l').
    { intros l l' Hl. unfold cnt. induction Hl; cbn; auto; repeat match goal with |- context [touches ?a ?b] => destruct (touches a b) end; cbn; auto; congruence. }
    now apply G.
Qed.

Lemma evt_eq {E A} (f : nat -> res E A) a b : evt f a -> evt f b -> a = b.
Proof. intros (N & H) (N' & H'). specialize (H (max N N')). specialize (H' (max N N')). rewrite H in H' by lia. specialize (H' ltac:(lia)). congruence. Qed.

(** One result for all choices of extra points. *)
Lemma trapezoidize_done : exists st, evt (fun k => trapezoidize ieqb gv dbg k math_n shuf elems) st /\
  forall ex M, extra ex -> shear M (concat ps ++ ex) -> done ex M st.
Proof.
  destruct (shear_exists (concat ps ++ [])) as (M & HM). destruct (trapezoidize_ok [] M) as (st & E & _); auto. { split; [|split]; easy. }
  exists st. split; auto. intros ex M' Hex HM'. destruct (trapezoidize_ok ex M' Hex HM') as (st' & E' & D & _). now rewrite (evt_eq _ _ _ E E').
Qed.

Lemma trapezoidize_sized : exists st, evt (fun k => trapezoidize ieqb gv dbg k math_n shuf elems) st /\ sized st.
Proof.
  destruct (shear_exists (concat ps ++ [])) as (M & HM). destruct (trapezoidize_ok [] M) as (st & E & _ & H); eauto. split; [|split]; easy.
Qed.

End Trapezoidize.
