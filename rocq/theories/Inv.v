(** The same polygons written differently: another first vertex, the other direction, another order in the list. *)
From Coq Require Import QArith Qabs Lqa List Arith Lia Bool ZArith Permutation.
From Verif Require Import Base Coord Trap Mono Tri Trace Protocol Lanes Plane MonoProof MonoGeom Geo Region TrapInv Polygons Build Faces Open Traverse Sweep Tile Whole Outline EvenOdd Outcome Nest Near Area Graph Count Single Corner Number Cover Sides.
Import ListNotations.
Local Open Scope nat_scope.

(** ** Specification *)

(** [q] is [p] from another vertex on, in the same or the other direction. *)
Definition turned (p q : list point) : Prop := exists a b, p = a ++ b /\ (q = b ++ a \/ q = rev (b ++ a)).

(** The same polygons. *)
Definition same_polys (ps qs : list (list point)) : Prop := exists rs, Permutation ps rs /\ Forall2 turned rs qs.

(** The triangles with positive area cover the same points, other than those in [B]. *)
Definition same_region (B : point -> Prop) (T U : list (point * point * point)) : Prop :=
  forall z, ~ B z -> (exists t, In t T /\ ~ flat t /\ in_closed t z) <-> (exists t, In t U /\ ~ flat t /\ in_closed t z).

(** The points on the edges of the polygons. *)
Definition outline (ps : list (list point)) (z : point) : Prop := exists d, In d (concat (map edges ps)) /\ on_segment (fst d) (snd d) z.

Lemma outline_off ps z : ~ outline ps z <-> off ps z.
Proof. split; [intros H d Hd K; apply H; now exists d|intros H (d & Hd & K); now apply (H d Hd)]. Qed.

(** ** Edges *)

Definition eqv (e f : point * point) : Prop := f = e \/ f = (snd e, fst e).
Definition esame (D D' : list (point * point)) : Prop := exists L, Permutation D L /\ Forall2 eqv L D'.

Lemma conse_app {A} (l1 : list A) x l2 : conse (l1 ++ x :: l2) = conse (l1 ++ [x]) ++ conse (x :: l2).
Proof. induction l1 as [|a l1 IH]; [reflexivity|]. destruct l1 as [|b l1]; cbn [app] in *; [rewrite conse_cons2; reflexivity|]. rewrite !conse_cons2, IH. reflexivity. Qed.

Lemma edges_rot {A} (a b : list A) : Permutation (edges (a ++ b)) (edges (b ++ a)).
Proof.
  destruct a as [|x a]; [now rewrite app_nil_r|]. destruct b as [|y b]; [now rewrite app_nil_r|]. cbn [app]. rewrite !edges_conse, <- !app_assoc. cbn [app].
  change (x :: a ++ y :: b ++ [x]) with ((x :: a) ++ y :: b ++ [x]). change (y :: b ++ x :: a ++ [y]) with ((y :: b) ++ x :: a ++ [y]). rewrite (conse_app (x :: a)), (conse_app (y :: b)). cbn [app]. apply Permutation_app_comm.
Qed.

Lemma edges_rev {A} (l : list A) : Permutation (edges (rev l)) (map (fun p => (snd p, fst p)) (edges l)).
Proof.
  destruct l as [|a l]; [reflexivity|]. cbn [rev]. rewrite edges_rot. cbn [app]. rewrite !edges_conse. rewrite (Permutation_rev (map _ _)), <- conse_rev. cbn [rev]. rewrite rev_app_distr. reflexivity.
Qed.

Lemma eqv_refl l : Forall2 eqv l l.
Proof. induction l; constructor; auto. now left. Qed.
Lemma eqv_swap l : Forall2 eqv l (map (fun p => (snd p, fst p)) l).
Proof. induction l; constructor; auto. now right. Qed.

Lemma f2_perm {A B} (R : A -> B -> Prop) l l' m : Forall2 R l l' -> Permutation l' m -> exists k, Permutation l k /\ Forall2 R k m.
Proof.
  intros H P. revert l H. induction P as [|x l1 l2 P IH|x y l1|l1 l2 l3 P1 IH1 P2 IH2]; intros l H.
  - exists l. split; auto.
  - inversion H as [|a ? l0 ? Ha Hl]; subst. destruct (IH l0 Hl) as (k & K1 & K2). exists (a :: k). split; auto.
  - inversion H as [|a ? l0 ? Ha Hl]; subst. inversion Hl as [|b ? l4 ? Hb Hl']; subst. exists (b :: a :: l4). split; [apply perm_swap|auto].
  - destruct (IH1 l H) as (k & K1 & K2). destruct (IH2 k K2) as (k' & K3 & K4). exists k'. split; auto. now transitivity k.
Qed.

Lemma turned_edges p q : turned p q -> esame (edges p) (edges q).
Proof.
  intros (a & b & -> & [-> | ->]).
  - exists (edges (b ++ a)). split; [apply edges_rot|apply eqv_refl].
  - destruct (f2_perm eqv (edges (b ++ a)) _ _ (eqv_swap (edges (b ++ a))) (Permutation_sym (edges_rev (b ++ a)))) as (k & K1 & K2). exists k. split; auto. rewrite edges_rot. exact K1.
Qed.

Lemma polys_edges ps qs : same_polys ps qs -> esame (concat (map edges ps)) (concat (map edges qs)).
Proof.
  intros (rs & P & F). assert (E : esame (concat (map edges rs)) (concat (map edges qs))).
  { clear P. induction F as [|p q rs qs H F IH]; [exists []; split; constructor|]. cbn [map concat]. destruct (turned_edges p q H) as (L & L1 & L2). destruct IH as (L' & L3 & L4). exists (L ++ L'). split; [now apply Permutation_app|now apply Forall2_app]. }
  destruct E as (L & L1 & L2). exists L. split; auto. rewrite <- L1. rewrite <- !flat_map_concat_map. now apply Permutation_flat_map.
Qed.

Lemma turned_perm p q : turned p q -> Permutation p q.
Proof. intros (a & b & -> & [-> | ->]); [apply Permutation_app_comm|]. rewrite <- Permutation_rev. apply Permutation_app_comm. Qed.

Lemma polys_points ps qs : same_polys ps qs -> Permutation (concat ps) (concat qs).
Proof.
  intros (rs & P & F). transitivity (concat rs). { rewrite <- (map_id ps), <- (map_id rs), <- !flat_map_concat_map. now apply Permutation_flat_map. }
  clear P. induction F as [|p q rs qs H F IH]; cbn; auto. apply Permutation_app; auto. now apply turned_perm.
Qed.

Lemma perm_pos {A} (l l' : list A) : Permutation l l' -> exists f, (forall i j, f i = f j -> i = j) /\ forall i, nth_error l' i = nth_error l (f i).
Proof. intros P. apply Permutation_nth_error in P. destruct P as (_ & f & Hf & H). exists f. split; auto. Qed.

Lemma f2_pos {A B} (R : A -> B -> Prop) l l' i b : Forall2 R l l' -> nth_error l' i = Some b -> exists a, nth_error l i = Some a /\ R a b.
Proof. intros F. revert i. induction F as [|x y l l' H F IH]; intros [|i] Hi; cbn in *; try discriminate; [injection Hi as <-; eauto|now apply IH]. Qed.

Lemma esame_in D D' d' : esame D D' -> In d' D' -> exists d, In d D /\ eqv d d'.
Proof. intros (L & P & F) H. apply In_nth_error in H. destruct H as (i & Hi). destruct (f2_pos _ _ _ _ _ F Hi) as (d & Hd & He). exists d. split; auto. eapply Permutation_in; [symmetry; exact P|]. eapply nth_error_In; eauto. Qed.

Lemma eqv_on e f p : eqv e f -> on_segment (fst f) (snd f) p -> on_segment (fst e) (snd e) p.
Proof. intros [-> | ->]; auto. cbn [fst snd]. apply on_swap. Qed.

Theorem valid_same ps qs : valid ps -> same_polys ps qs -> valid qs.
Proof.
  intros (V1 & V2 & V3) S. pose proof (polys_points ps qs S) as PP. pose proof (polys_edges ps qs S) as (L & PL & FL). split; [|split].
  - destruct S as (rs & P & F). assert (V : Forall (fun p => 3 <= length p) rs) by (eapply Permutation_Forall; eauto). clear -F V. induction F as [|p q rs qs H F IH]; constructor; apply Forall_cons_iff in V; destruct V as (V1 & V2); auto. rewrite <- (Permutation_length (turned_perm p q H)). exact V1.
  - destruct (perm_pos _ _ PP) as (f & Hf & Hn). intros i j a b Hi Hj E. rewrite Hn in Hi, Hj. apply Hf. eapply V2; eauto.
  - destruct (perm_pos _ _ PL) as (f & Hf & Hn). intros i j e' f' p Hi Hj Hij He Hf'. destruct (f2_pos _ _ _ _ _ FL Hi) as (e & Ei & Re). destruct (f2_pos _ _ _ _ _ FL Hj) as (e2 & Ej & Re2). rewrite Hn in Ei, Ej.
    destruct (V3 (f i) (f j) e e2 p Ei Ej) as (K1 & K2); [intros K; apply Hij; now apply Hf|eapply eqv_on; eauto|eapply eqv_on; eauto|].
    split; [destruct Re as [-> | ->]|destruct Re2 as [-> | ->]]; cbn [fst snd]; tauto.
Qed.

Lemma inside_same ps qs z : same_polys ps qs -> inside_eo ps z = inside_eo qs z.
Proof.
  intros S. destruct (polys_edges ps qs S) as (L & P & F). unfold inside_eo, crossings. fold (par (crossed z) (concat (map edges ps))) (par (crossed z) (concat (map edges qs))).
  rewrite (par_perm _ _ _ P). clear P. induction F as [|[a b] f L D H F IH]; [reflexivity|]. rewrite !par_cons, IH. f_equal. destruct H as [-> | ->]; auto. apply crossed_sym.
Qed.

Lemma outline_same ps qs z : same_polys ps qs -> outline qs z -> outline ps z.
Proof. intros S (d' & Hd & Hz). destruct (esame_in _ _ _ (polys_edges ps qs S) Hd) as (d & Hd1 & He). exists d. split; auto. eapply eqv_on; eauto. Qed.

Lemma turned_sym p q : turned p q -> turned q p.
Proof.
  intros (a & b & -> & [-> | ->]).
  - exists b, a. auto.
  - exists (rev a), (rev b). rewrite rev_app_distr. split; auto. right. now rewrite rev_app_distr, !rev_involutive.
Qed.

Lemma same_sym ps qs : same_polys ps qs -> same_polys qs ps.
Proof.
  intros (rs & P & F). apply Permutation_sym in P. assert (F' : Forall2 turned qs rs). { clear P. induction F; constructor; auto. now apply turned_sym. }
  destruct (f2_perm turned qs rs ps F' P) as (k & K1 & K2). exists k. auto.
Qed.

Lemma off_same ps qs z : same_polys ps qs -> (off ps z <-> off qs z).
Proof. intros S. rewrite <- !outline_off. split; intros H K; apply H; [now apply (outline_same ps qs)|apply (outline_same qs ps); auto; now apply same_sym]. Qed.

(** ** Depth without numbers *)

Definition oddd (ps : list (list point)) (p : list point) : bool := match p with v :: _ => xorb (inside_eo ps v) (inside_eo [p] v) | [] => false end.

Lemma depth_oddd ps k p : nth_error ps k = Some p -> Nat.even (depth ps k) = negb (oddd ps p).
Proof.
  intros Hk. destruct (nth_error_split _ _ Hk) as (l1 & l2 & -> & <-). unfold depth, oddd. rewrite Hk, others_app. destruct p as [|v p]; [reflexivity|].
  rewrite <- Nat.negb_odd. f_equal. fold (par (fun q => inside_eo [q] v) (l1 ++ l2)). rewrite inside_app, inside_cons, par_app, <- !inside_count. destruct (inside_eo l1 v), (inside_eo [v :: p] v), (inside_eo l2 v); reflexivity.
Qed.

Lemma oddd_turned ps p q : valid ps -> In p ps -> turned p q -> oddd ps q = oddd ps p.
Proof.
  intros HV Hp Ht. pose proof (turned_perm p q Ht) as P. destruct p as [|v p]; [apply Permutation_nil in P; now subst|]. destruct q as [|u q]; [apply Permutation_sym, Permutation_nil in P; discriminate|].
  assert (Hu : In u (v :: p)) by (eapply Permutation_in; [symmetry; exact P|now left]). unfold oddd. apply in_split in Hp. destruct Hp as (l1 & l2 & ->).
  rewrite <- (inside_same [v :: p] [u :: q] u) by (exists [v :: p]; split; auto; constructor; auto).
  assert (K : forall w, xorb (inside_eo (l1 ++ (v :: p) :: l2) w) (inside_eo [v :: p] w) = par (fun q => inside_eo [q] w) (l1 ++ l2)).
  { intros w. rewrite inside_app, inside_cons, par_app, <- !inside_count. destruct (inside_eo l1 w), (inside_eo [v :: p] w), (inside_eo l2 w); reflexivity. }
  rewrite !K. apply par_ext. intros x Hx. apply (same_side l1 (v :: p) l2 x u v); auto. now left.
Qed.

Lemma oddd_ext ps qs p : (forall z, inside_eo ps z = inside_eo qs z) -> oddd ps p = oddd qs p.
Proof. intros H. unfold oddd. destruct p; auto. now rewrite H. Qed.

Lemma interior_oddd ps : (interior2 ps == sumq (fun p => (if oddd ps p then -1 else 1) * Qabs (shoelace p)) ps)%Q.
Proof.
  unfold interior2. rewrite (sumq_index []). apply sumq_ext. intros k Hk. apply in_seq in Hk. destruct (lt_nth _ ps k) as (p & Hp); [lia|]. rewrite (depth_oddd ps k p Hp), (nth_error_nth _ _ [] Hp).
  destruct (oddd ps p); reflexivity.
Qed.

Lemma ntri_oddd ps : ntri ps = sumz (fun p => Z.of_nat (length p) + if oddd ps p then 2 else -2)%Z ps.
Proof.
  unfold ntri. rewrite (sumz_index [] _ ps). apply sumz_ext. intros k Hk. apply in_seq in Hk. destruct (lt_nth _ ps k) as (p & Hp); [lia|]. rewrite (depth_oddd ps k p Hp), (nth_error_nth _ _ [] Hp).
  destruct (oddd ps p); reflexivity.
Qed.

Lemma shoelace_turned p q : turned p q -> (Qabs (shoelace q) == Qabs (shoelace p))%Q.
Proof.
  intros (a & b & -> & [-> | ->]); unfold shoelace.
  - rewrite (sumq_perm _ _ _ (edges_rot b a)). reflexivity.
  - rewrite (sumq_perm _ _ _ (edges_rev (b ++ a))), sumq_map. cbn [fst snd]. rewrite (sumq_perm _ _ _ (edges_rot a b)), <- Qabs_opp.
    rewrite (sumq_ext (fun x => det (snd x) (fst x)) (fun x => (-1) * det (fst x) (snd x))%Q) by (intros x _; rewrite (det_anti (snd x) (fst x)); ring). rewrite sumq_scale. apply Qabs_wd. ring.
Qed.

Lemma sumz_perm {A} (f : A -> Z) l l' : Permutation l l' -> sumz f l = sumz f l'.
Proof. induction 1; cbn [sumz]; lia. Qed.

Theorem interior_same ps qs : valid ps -> same_polys ps qs -> (interior2 ps == interior2 qs)%Q.
Proof.
  intros HV S. rewrite !interior_oddd. destruct S as (rs & P & F). rewrite (sumq_perm _ _ _ P). assert (S : same_polys ps qs) by (exists rs; auto).
  assert (G : forall l m, Forall2 turned l m -> incl l ps -> (sumq (fun p => (if oddd ps p then -1 else 1) * Qabs (shoelace p)) l == sumq (fun p => (if oddd qs p then -1 else 1) * Qabs (shoelace p)) m)%Q).
  { induction 1 as [|p q l m H F' IH]; intros Hi; cbn [sumq]; [reflexivity|]. rewrite IH by (intros x Hx; apply Hi; now right). assert (Hp : In p ps) by (apply Hi; now left).
    rewrite <- (oddd_ext ps qs q (fun z => inside_same ps qs z S)), (oddd_turned ps p q HV Hp H), (shoelace_turned p q H). reflexivity. }
  apply G; auto. intros x Hx. eapply Permutation_in; [symmetry; exact P|exact Hx].
Qed.

Theorem ntri_same ps qs : valid ps -> same_polys ps qs -> ntri ps = ntri qs.
Proof.
  intros HV S. rewrite !ntri_oddd. destruct S as (rs & P & F). rewrite (sumz_perm _ _ _ P). assert (S : same_polys ps qs) by (exists rs; auto).
  assert (G : forall l m, Forall2 turned l m -> incl l ps -> (sumz (fun p => Z.of_nat (length p) + if oddd ps p then 2 else -2) l = sumz (fun p => Z.of_nat (length p) + if oddd qs p then 2 else -2) m)%Z).
  { induction 1 as [|p q l m H F' IH]; intros Hi; cbn [sumz]; [reflexivity|]. rewrite IH by (intros x Hx; apply Hi; now right). assert (Hp : In p ps) by (apply Hi; now left).
    rewrite <- (oddd_ext ps qs q (fun z => inside_same ps qs z S)), (oddd_turned ps p q HV Hp H), (Permutation_length (turned_perm p q H)). reflexivity. }
  apply G; auto. intros x Hx. eapply Permutation_in; [symmetry; exact P|exact Hx].
Qed.

Lemma covers_same ps qs T U : same_polys ps qs -> covers ps T -> covers qs U -> same_region (outline ps) T U.
Proof.
  intros S HT HU z Hz. apply outline_off in Hz. destruct (HT z Hz) as (K1 & _). pose proof Hz as Hz'. apply (off_same ps qs z S) in Hz'. destruct (HU z Hz') as (K2 & _). rewrite <- K1, <- K2. rewrite (inside_same ps qs z S). reflexivity.
Qed.

Lemma same_refl ps : same_polys ps ps.
Proof. exists ps. split; auto. induction ps as [|p ps IH]; constructor; auto. exists [], p. cbn. rewrite app_nil_r. auto. Qed.
