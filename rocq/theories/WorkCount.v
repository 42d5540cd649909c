(** How many iterations the counted functions take. *)
From Coq Require Import QArith Lqa List Arith Lia Bool.
From Verif Require Import Base Coord Trap Lanes Plane Geo Region Depth Orders Random Work.
Import ListNotations.
Local Open Scope nat_scope.

Lemma cbind_inv {E A B} (r : cres E A) (f : A -> cres E B) b : fst (cbind r f) = Ok b -> exists a, fst r = Ok a /\ fst (f a) = Ok b /\ snd (cbind r f) = snd r + snd (f a).
Proof. unfold cbind. cbn zeta. destruct (fst r) as [a| |]; cbn [fst snd]; intros H; try discriminate. eauto. Qed.

Lemma free_inv {E A B} (x : res E A) (f : A -> cres E B) b : fst (cbind (free x) f) = Ok b -> exists a, x = Ok a /\ fst (f a) = Ok b /\ snd (cbind (free x) f) = snd (f a).
Proof. intros H. apply cbind_inv in H. destruct H as (a & H1 & H2 & H3). exists a. auto. Qed.

Ltac fi H := let a := fresh "x" in let E := fresh "Ex" in let S := fresh "Es" in
  apply free_inv in H; destruct H as (a & E & H & S); rewrite S; clear S.

(** ** Nodes visited *)

Lemma count_find k qs (p : point) : forall q, snd (find_c k qs p q) = vis k qs p q.
Proof.
  induction k as [|k IH]; intros q; auto. cbn [find_c vis]. unfold tick, cbind, free, rdu. cbn zeta. destruct (nth_error qs q) as [[l r b|ti]|]; cbn [fst snd]; auto. rewrite IH. lia.
Qed.

Lemma find_mono d qs (p : point) : forall k q x, find d qs p q = Ok x -> d <= k -> find k qs p q = Ok x.
Proof.
  induction d as [|d IH]; intros [|k] q x H L; try discriminate; [lia|]. cbn [find] in *. unfold rdu in *. destruct (nth_error qs q) as [[l r b|ti]|]; cbn [bind] in *; auto. apply IH; auto. lia.
Qed.

Lemma vis_bound d qs (p : point) : forall q x, find d qs p q = Ok x -> forall k, vis k qs p q <= d.
Proof.
  induction d as [|d IH]; intros q x H k; [discriminate|]. destruct k as [|k]; [cbn; lia|]. cbn [find vis] in *. unfold rdu in *. destruct (nth_error qs q) as [[l r b|ti]|]; cbn [bind] in *; [|lia|discriminate].
  specialize (IH _ _ H k). lia.
Qed.

Lemma vis_mono d qs (p : point) k : forall q x, find d qs p q = Ok x -> d <= k -> vis k qs p q = vis d qs p q.
Proof.
  revert k. induction d as [|d IH]; intros k q x H L; [discriminate|]. destruct k as [|k]; [lia|]. cbn [find vis] in *. unfold rdu in *. destruct (nth_error qs q) as [[l r b|ti]|]; cbn [bind] in *; [|auto|discriminate].
  f_equal. eapply IH; eauto. lia.
Qed.

(** The rest of a search, from a node where an earlier search ended. *)
Lemma vis_cut k qs0 qs (p : point) (HK : forall q l r b, nth_error qs0 q = Some (QBranch l r b) -> nth_error qs q = Some (QBranch l r b)) :
  forall d q0 q i x, find k qs0 p q0 = Ok (q, i) -> find d qs p q0 = Ok x -> forall k', vis k' qs p q + vis k qs0 p q0 <= S d.
Proof.
  induction k as [|k IH]; intros d q0 q i x H H' k'; [discriminate|]. cbn [find vis] in H |- *. unfold rdu in H. destruct (nth_error qs0 q0) as [[l r b|ti]|] eqn:E; cbn [bind] in H; [| |discriminate].
  - pose proof (HK _ _ _ _ E) as E'. destruct d as [|d]; [discriminate|]. cbn [find] in H'. unfold rdu in H'. rewrite E' in H'. cbn [bind] in H'. specialize (IH _ _ _ _ _ H H' k'). lia.
  - injection H as <- <-. pose proof (vis_bound d qs p q0 x H' k'). lia.
Qed.

(** ** Insertion *)
Section Count.
Context {I : Type}.
Notation stt := (state Q I).
Variables (ieqb : I -> I -> bool) (gv : I -> point) (dbg : bool).

Lemma count_add_vertex k (st : stt) a q st' ni : fst (add_vertex_c gv dbg k st a q) = Ok (st', ni) ->
  snd (add_vertex_c gv dbg k st a q) = vis k (st_qs st) (gv a) q /\ length (st_qs st') = length (st_qs st) + 2.
Proof.
  unfold add_vertex_c. cbn zeta. intros H. apply cbind_inv in H. destruct H as ([qp ti] & H1 & H & S). rewrite S, count_find. clear S.
  do 2 fi H. cbn [split_horizontal] in H |- *. do 2 fi H. cbn [free fst snd] in *. injection H as <- <-. cbn [st_qs]. rewrite !app_length, upd_length. cbn. lia.
Qed.

Lemma count_seg_loop k si nm c0 c1 : forall (st : stt) ni tl tr st' t, fst (seg_loop_c ieqb k st si nm c0 c1 ni tl tr) = Ok (st', t) ->
  snd (seg_loop_c ieqb k st si nm c0 c1 ni tl tr) + length (st_qs st) = S (length (st_qs st')).
Proof.
  induction k as [|k IH]; intros st ni tl tr st' t H; [discriminate|]. cbn [seg_loop_c] in *. cbn zeta in *. unfold tick in *. cbn [fst snd] in *. destruct (Nat.eqb ni nm). { cbn [free fst snd] in *. injection H as -> _. lia. }
  do 7 fi H. destruct (onat_eqb (t_r x2) (t_r x5)).
  - do 4 fi H. apply IH in H. cbn [st_qs] in H. rewrite app_length, upd_length in H. cbn [length] in H. lia.
  - destruct (onat_eqb (t_l x2) (t_l x4)); [|discriminate]. do 5 fi H. apply IH in H. cbn [st_qs] in H. rewrite app_length, upd_length in H. cbn [length] in H. lia.
Qed.

Lemma count_add_segment k (st : stt) a b c0 c1 st' : fst (add_segment_c ieqb dbg k st a b c0 c1) = Ok st' ->
  snd (add_segment_c ieqb dbg k st a b c0 c1) + length (st_qs st) + 1 = length (st_qs st').
Proof.
  unfold add_segment_c. cbn zeta. intros H. do 5 fi H. cbn [split_vertical] in H |- *. do 4 fi H. apply cbind_inv in H. destruct H as ([st3 tu] & H1 & H & S). rewrite S. clear S.
  apply count_seg_loop in H1. cbn [st_qs] in H1. rewrite !app_length, upd_length in H1. cbn [length] in H1. do 2 fi H. cbn [free fst snd] in *. injection H as <-. cbn [st_qs]. lia.
Qed.

Lemma count_add_vertex_at k (st : stt) vls v a q st' vls' ni : fst (add_vertex_at_c gv dbg k st vls v a q) = Ok (st', vls', ni) ->
  snd (add_vertex_at_c gv dbg k st vls v a q) = vis k (st_qs st) (gv a) q /\ length (st_qs st') = length (st_qs st) + 2.
Proof.
  unfold add_vertex_at_c. intros H. apply cbind_inv in H. destruct H as ([s m] & H1 & H & S). rewrite S. apply count_add_vertex in H1. destruct H1 as (-> & H1). fi H. cbn [free fst snd] in *. injection H as <- _ _. lia.
Qed.
End Count.
