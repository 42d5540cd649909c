(** Cutting a monotone piece: the fans produced are a sequence of ears cut off one after the other. *)
From Coq Require Import List Arith Bool Lia Permutation.
From Verif Require Import Base Coord Trap Mono Tri Trace Protocol.
Import ListNotations.

(** ** Specification: cutting ears *)

Section Ears.
Context {C : Type} {OC : CoordOps C} {I : Type}.
Notation vert := (I * coords C)%type.
Notation tri := (vert * vert * vert)%type.

(** The middle one of three vertices, from top to bottom, can be cut off. *)
Definition ear (left : bool) (a b c : vert) : Prop := is_left (snd c) (snd a) (snd b) = left.

(** The triangle cut off, counterclockwise. *)
Definition orient (left : bool) (a b c : vert) : tri := if left then (a, b, c) else (a, c, b).

(** [clips left V T V']: cutting the ears [T] one after the other leads from the chain [V] to the chain [V']. *)
Inductive clips (left : bool) : list vert -> list tri -> list vert -> Prop :=
| clips_nil V : clips left V [] V
| clips_cons l a b c r T V' : ear left a b c -> clips left (l ++ a :: c :: r) T V' ->
    clips left (l ++ a :: b :: c :: r) (orient left a b c :: T) V'.

Definition idx (t : tri) : I * I * I := let '(a, b, c) := t in (fst a, fst b, fst c).

(** Equal as lists of triangles up to order and rotation of each triangle. *)
Definition rot {A} (t u : A * A * A) : Prop :=
  let '(a, b, c) := t in u = (a, b, c) \/ u = (b, c, a) \/ u = (c, a, b).
Definition same_tris {A} (l l' : list (A * A * A)) : Prop := exists m, Forall2 rot l m /\ Permutation m l'.

(** ** Facts about them *)

Lemma rot_refl {A} (t : A * A * A) : rot t t.
Proof. destruct t as [[a b] c]. now left. Qed.

Lemma same_refl {A} (l : list (A * A * A)) : same_tris l l.
Proof. exists l. split; auto. induction l; constructor; auto. apply rot_refl. Qed.

Lemma same_app {A} (a b c d : list (A * A * A)) : same_tris a b -> same_tris c d -> same_tris (a ++ c) (b ++ d).
Proof.
  intros (m & H1 & H2) (m' & H3 & H4). exists (m ++ m'). split; [now apply Forall2_app|now apply Permutation_app].
Qed.

Lemma same_map {A B} (f g : B -> A * A * A) l : (forall x, rot (f x) (g x)) -> same_tris (map f l) (map g l).
Proof. intros H. exists (map g l). split; auto. induction l; constructor; auto. Qed.

Lemma same_perm {A} (l l' l'' : list (A * A * A)) : same_tris l l' -> Permutation l' l'' -> same_tris l l''.
Proof. intros (m & H1 & H2) H. exists m. split; auto. now transitivity l'. Qed.

Lemma last_cons_ne {A} (a : A) l d : l <> [] -> last (a :: l) d = last l d.
Proof. destruct l; [congruence|reflexivity]. Qed.

Lemma clips_app left V T V' : clips left V T V' -> forall T' V'', clips left V' T' V'' -> clips left V (T ++ T') V''.
Proof. induction 1; intros; cbn; auto. constructor; auto. Qed.

Lemma clips_len left V T V' : clips left V T V' -> length V = length T + length V'.
Proof. induction 1; cbn; auto. rewrite !app_length in *. cbn in *. lia. Qed.

Ltac la := cbn [app]; repeat (rewrite <- app_assoc; cbn [app]); try reflexivity.

Lemma sbind_ok {St F X Y} (s : St) (x : X) (f : St -> X -> sres St F Y) : sbind (s, Ok x) f = f s x.
Proof. reflexivity. Qed.
Ltac sb := unfold lift; rewrite ?sbind_ok; cbv beta iota.

(** Consecutive pairs. *)
Fixpoint conse {A} (l : list A) : list (A * A) :=
  match l with
  | a :: l' => match l' with b :: _ => (a, b) :: conse l' | [] => [] end
  | [] => []
  end.

Lemma conse_cons2 {A} (a b : A) l : conse (a :: b :: l) = (a, b) :: conse (b :: l).
Proof. reflexivity. Qed.

Lemma conse_snoc {A} (l : list A) a b : conse ((l ++ [a]) ++ [b]) = conse (l ++ [a]) ++ [(a, b)].
Proof.
  induction l as [|x l IH]; [reflexivity|]. destruct l as [|y l]; [reflexivity|]. cbn [app] in *. rewrite !conse_cons2. cbn [app]. now rewrite IH.
Qed.

Lemma conse_rev {A} (l : list A) : conse (rev l) = rev (map (fun p => (snd p, fst p)) (conse l)).
Proof.
  induction l as [|a l IH]; [reflexivity|]. destruct l as [|b l]; [reflexivity|].
  rewrite conse_cons2. cbn [map rev fst snd] in *. rewrite <- IH. now rewrite conse_snoc.
Qed.

Lemma pairs_conse {A} (f : A -> I) r (l : list A) : pairs r (map f l) = map (fun p => (r, f (fst p), f (snd p))) (conse l).
Proof.
  induction l as [|a l IH]; [reflexivity|]. destruct l as [|b l]; [reflexivity|]. rewrite conse_cons2. cbn [map fst snd pairs] in *. now rewrite IH.
Qed.

Lemma conse_len {A} (l : list A) : length (conse l) = length l - 1.
Proof. induction l as [|a l IH]; [reflexivity|]. destruct l as [|b l]; [reflexivity|]. rewrite conse_cons2. cbn in *. lia. Qed.

Lemma clips_back left p P X : forall S s, (forall u v, In (u, v) (conse (s :: X)) -> ear left u v p) ->
  clips left (S ++ (s :: X) ++ p :: P) (rev (map (fun q => orient left (fst q) (snd q) p) (conse (s :: X)))) (S ++ s :: p :: P).
Proof.
  induction X as [|x X IH] using rev_ind; intros S s H; [constructor|].
  destruct X as [|y X] using rev_ind.
  - cbn. constructor; [|constructor]. apply H. now left.
  - clear IHX. replace (conse (s :: (X ++ [y]) ++ [x])) with (conse (s :: X ++ [y]) ++ [(y, x)]) in * by
      (symmetry; exact (conse_snoc (s :: X) y x)).
    rewrite map_app, rev_app_distr. cbn [map rev app fst snd].
    replace (S ++ s :: ((X ++ [y]) ++ [x]) ++ p :: P) with ((S ++ s :: X) ++ y :: x :: p :: P) by la.
    constructor. { apply H. apply in_or_app. right. now left. }
    replace ((S ++ s :: X) ++ y :: p :: P) with (S ++ (s :: X ++ [y]) ++ p :: P) by la.
    apply IH. intros u v Huv. apply H. apply in_or_app. now left.
Qed.

Lemma clips_advance left x R Q : forall S q, (forall u v, In (u, v) (conse (q :: Q)) -> ear left x u v) ->
  clips left (S ++ x :: (q :: Q) ++ R) (map (fun p => orient left x (fst p) (snd p)) (conse (q :: Q))) (S ++ x :: last Q q :: R).
Proof.
  induction Q as [|r Q IH]; intros S q H; [constructor|]. rewrite conse_cons2 in *. cbn [map fst snd app].
  constructor. { apply H. now left. } replace (last (r :: Q) q) with (last Q r).
  - apply IH. intros u v Huv. apply H. now right.
  - clear. revert q r. induction Q as [|a Q IH]; intros; [reflexivity|]. change (last (a :: Q) r = last (a :: Q) q). destruct Q; [reflexivity|]. exact (eq_trans (eq_sym (IH r a)) (IH q a)).
Qed.

(** ** The array with its two stacks *)

Definition view (m : mono C I) (left : bool) (S J P : list vert) : Prop :=
  m = mkMono (S ++ J ++ P) (length S) (length S + length J) left.

Section E.
Context {E : Type}.
Notation err := (tri_error E).

Lemma rd_app (S R : list vert) x : rd (E := err) (S ++ x :: R) (length S) = Ok x.
Proof. unfold rd. now rewrite nth_error_app2, Nat.sub_diag by lia. Qed.

Lemma v_peek m left S x J P : view m left (S ++ [x]) J P -> skipped_peek (E := E) m = Ok x.
Proof.
  intros ->. unfold skipped_peek. cbn [m_st m_a]. rewrite app_length. cbn [length]. destruct (Nat.ltb_spec (length S + 1) 1); [lia|].
  rewrite Nat.add_sub, <- app_assoc. apply rd_app.
Qed.

Lemma v_peek2 m left S x y J P : view m left (S ++ [x; y]) J P -> skipped_peek2 (E := E) m = Ok (x, y).
Proof.
  intros ->. unfold skipped_peek2. cbn [m_st m_a]. rewrite app_length. cbn [length]. destruct (Nat.ltb_spec (length S + 2) 2); [lia|].
  replace (length S + 2 - 2) with (length S) by lia. rewrite <- app_assoc. cbn [app]. rewrite rd_app. cbn [bind].
  replace (S ++ x :: y :: J ++ P) with ((S ++ [x]) ++ y :: J ++ P) by now rewrite <- app_assoc.
  replace (length S + 2 - 1) with (length (S ++ [x])) by (rewrite app_length; cbn; lia). rewrite rd_app. reflexivity.
Qed.

Lemma v_pop m left S x J P : view m left (S ++ [x]) J P ->
  exists m', skipped_pop (E := E) m = Ok (m', x) /\ view m' left S (x :: J) P.
Proof.
  intros ->. unfold skipped_pop. cbn [m_st m_a m_pt m_left]. rewrite app_length. cbn [length]. destruct (Nat.ltb_spec (length S + 1) 1); [lia|].
  rewrite Nat.add_sub, <- app_assoc. cbn [app]. rewrite rd_app. eexists. split; [reflexivity|]. unfold view. cbn [length app]. f_equal. lia.
Qed.

Lemma v_pending m left S J p P : view m left S J (p :: P) -> pending_peek (E := E) m = Ok p.
Proof.
  intros ->. unfold pending_peek. cbn [m_pt m_a]. rewrite app_assoc, <- app_length. apply rd_app.
Qed.

Lemma v_has m left S J P : view m left S J P -> has_pending m = match P with [] => false | _ => true end.
Proof.
  intros ->. unfold has_pending. cbn [m_pt m_a]. rewrite !app_length. destruct P; cbn [length].
  - apply Nat.ltb_ge. lia.
  - apply Nat.ltb_lt. lia.
Qed.

Lemma v_remaining m left S J P : view m left S J P -> remaining (E := E) m = Ok (length S + length P).
Proof.
  intros ->. unfold remaining. cbn [m_pt m_a m_st]. rewrite !app_length. destruct (Nat.ltb_spec (length S + (length J + length P)) (length S + length J)); [lia|].
  f_equal. lia.
Qed.

Lemma upd_app (S R : list vert) x y : upd (S ++ x :: R) (length S) y = S ++ y :: R.
Proof. induction S as [|a S IH]; cbn; [reflexivity|]. now rewrite IH. Qed.

Lemma v_transfer m left S J p P : view m left S J (p :: P) ->
  exists m', transfer_pending (E := E) m = Ok m' /\
    view m' left (S ++ [p]) (match J with [] => [] | j :: J => J ++ [j] end) P.
Proof.
  intros ->. unfold transfer_pending. cbn [m_st m_a m_pt m_left]. destruct J as [|j J].
  - cbn [length]. rewrite Nat.add_0_r, Nat.eqb_refl. cbn [negb bind]. eexists. split; [reflexivity|]. unfold view.
    rewrite !app_length. cbn [length app]. rewrite <- app_assoc. f_equal; lia.
  - cbn [length]. destruct (Nat.eqb_spec (length S) (length S + Datatypes.S (length J))); [lia|]. cbn [negb]. unfold swap.
    cbn [app]. rewrite rd_app. cbn [bind].
    replace (S ++ j :: J ++ p :: P) with ((S ++ j :: J) ++ p :: P) by now rewrite <- app_assoc.
    replace (length S + Datatypes.S (length J)) with (length (S ++ j :: J)) by (rewrite app_length; reflexivity).
    rewrite rd_app. cbn [bind]. rewrite <- app_assoc. cbn [app]. rewrite upd_app.
    replace (S ++ p :: J ++ p :: P) with ((S ++ p :: J) ++ p :: P) by now rewrite <- app_assoc.
    replace (length (S ++ j :: J)) with (length (S ++ p :: J)) by (rewrite !app_length; reflexivity).
    rewrite upd_app. eexists. split; [reflexivity|]. unfold view. rewrite !app_length. cbn [length].
    f_equal; try lia; la.
Qed.

Lemma v_reset m left S J x y R : view m left S J [] -> S = x :: y :: R -> view (reset_position m) left [x; y] [] R.
Proof.
  intros -> ->. unfold reset_position, view. cbn [m_st m_a m_left]. rewrite app_nil_r, firstn_app, Nat.sub_diag, firstn_all, firstn_O, app_nil_r. reflexivity.
Qed.

Lemma v_can m left S J P : view m left S J P -> forall S0 x y p P', S = S0 ++ [x; y] -> P = p :: P' ->
  can_triangulate (E := E) m = Ok (Bool.eqb left (is_left (snd p) (snd x) (snd y))).
Proof.
  intros Hv S0 x y p P' -> ->. unfold can_triangulate. rewrite (v_has _ _ _ _ _ Hv), (v_pending _ _ _ _ _ _ Hv), (v_peek2 _ _ _ _ _ _ _ Hv).
  rewrite Hv. cbn [m_st m_left]. rewrite app_length. cbn [length]. destruct (Nat.leb_spec 2 (length S0 + 2)); [|lia]. reflexivity.
Qed.

Lemma v_can_short m left S J P : view m left S J P -> length S < 2 \/ P = [] -> can_triangulate (E := E) m = Ok false.
Proof.
  intros Hv H. unfold can_triangulate. rewrite (v_has _ _ _ _ _ Hv), Hv. cbn [m_st]. destruct H as [H| ->].
  - destruct (Nat.leb_spec 2 (length S)); [lia|]. reflexivity.
  - now rewrite andb_false_r.
Qed.

(** Either there is an ear at the top of the stacks or the test says no. *)
Lemma v_can_dec m left S J P : view m left S J P ->
  (exists S0 x y p P', S = S0 ++ [x; y] /\ P = p :: P' /\ ear left x y p /\ can_triangulate (E := E) m = Ok true) \/
  (can_triangulate (E := E) m = Ok false /\
   forall S0 x y p P', S = S0 ++ [x; y] -> P = p :: P' -> ~ ear left x y p).
Proof.
  intros Hv. destruct S as [|y S] using rev_ind; [|clear IHS; destruct S as [|x S] using rev_ind; [|clear IHS]].
  - right. split; [eapply v_can_short; eauto; left; cbn; lia|]. intros S0 x y p P' H. symmetry in H. now apply app_eq_nil in H.
  - right. split; [eapply v_can_short; eauto; left; cbn; lia|]. intros S0 a b p P' H. apply (f_equal (@length _)) in H. rewrite !app_length in H. cbn in H. lia.
  - destruct P as [|p P].
    + right. split; [eapply v_can_short; eauto|]. intros. discriminate.
    + rewrite <- app_assoc in Hv. cbn [app] in Hv. pose proof (v_can _ _ _ _ _ Hv S x y p P eq_refl eq_refl) as Hc.
      rewrite Hc. destruct (Bool.eqb_spec left (is_left (snd p) (snd x) (snd y))) as [He|He].
      * left. exists S, x, y, p, P. rewrite <- app_assoc. repeat split; auto. now symmetry.
      * right. split; [reflexivity|]. intros S0 a b q P' H1 H2. rewrite <- app_assoc in H1. cbn in H1.
        injection H2 as <- <-. apply (f_equal (@rev _)) in H1. rewrite !rev_app_distr in H1. cbn in H1. injection H1 as <- <- _.
        unfold ear. congruence.
Qed.

Lemma v_def_back m left S J P i v : view m left S J P -> nth_error J i = Some v -> deferred_index (E := E) m true i = Ok (fst v).
Proof.
  intros -> H. unfold deferred_index, rd. cbn [m_st m_a]. rewrite nth_error_app2, Nat.add_comm, Nat.add_sub by lia.
  rewrite nth_error_app1, H; [reflexivity|]. apply nth_error_Some. congruence.
Qed.

Lemma v_def_adv m left S J P i v : view m left S J P -> nth_error (rev J) i = Some v -> deferred_index (E := E) m false i = Ok (fst v).
Proof.
  intros -> H. assert (Hi : i < length J). { rewrite <- rev_length. apply nth_error_Some. congruence. }
  unfold deferred_index, rd. cbn [m_pt m_a]. destruct (Nat.ltb_spec (length S + length J) (1 + i)); [lia|].
  rewrite nth_error_app2 by lia. rewrite nth_error_app1 by lia.
  replace (length S + length J - 1 - i - length S) with (length J - Datatypes.S i) by lia.
  assert (Hr : nth_error J (length J - Datatypes.S i) = Some v).
  { rewrite (nth_error_nth' J (fst v, snd v)) by lia. f_equal. apply nth_error_nth with (d := (fst v, snd v)) in H.
    rewrite rev_nth in H by auto. exact H. }
  now rewrite Hr.
Qed.

(** ** Loops *)

Notation log := (list (call I)).
Notation exts l := (map (fun v : vert => CExt (fst v)) l).

Lemma back_ok left n : forall m S J p P direct dt, length S < n -> S <> [] -> view m left S J (p :: P) ->
  exists S' s X m', S = S' ++ s :: X /\ (forall u v, In (u, v) (conse (s :: X)) -> ear left u v p) /\
    view m' left (S' ++ [s]) (X ++ J) (p :: P) /\
    forall k (t : log), n <= k -> back_loop (E := E) rec_ext k m direct dt t =
    (t ++ (if direct then exts (tl (rev (s :: X))) else []), Ok (m', if direct then dt else dt + length X)).
Proof.
  induction n as [|n IH]; intros m S J p P direct dt Hk Hne Hv; [lia|].
  destruct (v_can_dec _ _ _ _ _ Hv) as [(S0 & x & y & q & P' & -> & HP & He & Ec)|(Ec & _)].
  - injection HP as <- <-. replace (S0 ++ [x; y]) with ((S0 ++ [x]) ++ [y]) in Hv by now rewrite <- app_assoc.
    destruct (v_pop _ _ _ _ _ _ Hv) as (m1 & Ep & Hv1). pose proof (v_peek _ _ _ _ _ _ Hv1) as Ek.
    specialize (IH m1 (S0 ++ [x]) (y :: J) p P direct (if direct then dt else dt + 1)).
    destruct IH as (S' & s & X & m' & HS & Hears & Hv' & Hb); auto.
    { rewrite app_length in *. cbn in *. lia. } { intros H. symmetry in H. now apply app_cons_not_nil in H. }
    exists S', s, (X ++ [y]), m'.
    assert (Hend : exists Z, s :: X = Z ++ [x] /\ S0 = S' ++ Z).
    { destruct X as [|w X] using rev_ind.
      - exists []. apply (f_equal (@rev _)) in HS. rewrite !rev_app_distr in HS. cbn in HS. injection HS as -> HS.
        apply (f_equal (@rev _)) in HS. rewrite !rev_involutive in HS. subst. now rewrite app_nil_r.
      - clear IHX. exists (s :: X). replace (S' ++ s :: X ++ [w]) with ((S' ++ s :: X) ++ [w]) in HS by now rewrite <- app_assoc.
        apply app_inj_tail in HS. destruct HS as (-> & ->). auto. }
    destruct Hend as (Z & HZ & HS0). change (s :: X ++ [y]) with ((s :: X) ++ [y]). rewrite HZ in *.
    split. { subst S0. now rewrite <- !app_assoc. }
    split. { rewrite conse_snoc. intros u v Huv. apply in_app_or in Huv. destruct Huv as [Huv|[Huv|[]]]; auto. now injection Huv as <- <-. }
    split. { now rewrite <- app_assoc. }
    intros k t Hk'. destruct k as [|k]; [lia|]. cbn [back_loop advance_loop]. unfold lift. rewrite Ec. sb. rewrite Ep. sb. rewrite Ek. sb. unfold add_triangle, rec_ext. destruct direct; sb; rewrite Hb by lia.
    + rewrite !rev_app_distr. cbn [rev app tl map]. now rewrite <- app_assoc.
    + rewrite !app_nil_r. rewrite app_length. cbn [length]. do 3 f_equal. lia.
  - destruct (exists_last Hne) as (S' & s & ->). exists S', s, [], m. split; auto. split; [intros ? ? []|].
    split; auto. intros k t Hk'. destruct k as [|k]; [lia|]. cbn [back_loop advance_loop]. unfold lift. rewrite Ec. sb. destruct direct; cbn; rewrite app_nil_r; repeat f_equal. lia.
Qed.

Lemma adv_ok left n : forall m S x q J P direct dt, length P < n -> view m left (S ++ [x; q]) J P ->
  exists Q R m', P = Q ++ R /\ (forall u v, In (u, v) (conse (q :: Q)) -> ear left x u v) /\
    view m' left (S ++ [x; last Q q]) (J ++ removelast (q :: Q)) R /\
    forall k (t : log), n <= k -> advance_loop (E := E) rec_ext k m direct dt t =
    (t ++ (if direct then exts Q else []), Ok (m', if direct then dt else dt + length Q)).
Proof.
  induction n as [|n IH]; intros m S x q J P direct dt Hk Hv; [lia|].
  destruct (v_can_dec _ _ _ _ _ Hv) as [(S0 & x' & y & p & P' & HS & -> & He & Ec)|(Ec & _)].
  - assert (H2 : S = S0 /\ x' = x /\ y = q).
    { apply (f_equal (@rev _)) in HS. rewrite !rev_app_distr in HS. cbn in HS. injection HS as -> -> HS.
      apply (f_equal (@rev _)) in HS. rewrite !rev_involutive in HS. auto. }
    destruct H2 as (<- & -> & ->). clear HS.
    replace (S ++ [x; q]) with ((S ++ [x]) ++ [q]) in Hv by now rewrite <- app_assoc.
    destruct (v_pop _ _ _ _ _ _ Hv) as (m1 & Ep & Hv1). pose proof (v_pending _ _ _ _ _ _ Hv1) as Eq.
    destruct (v_transfer _ _ _ _ _ _ Hv1) as (m2 & Ht & Hv2).
    specialize (IH m2 S x p (J ++ [q]) P' direct (if direct then dt else dt + 1)).
    destruct IH as (Q & R & m' & -> & Hears & Hv' & Hb).
    { cbn in Hk. lia. } { now rewrite <- app_assoc in Hv2. }
    exists (p :: Q), R, m'. split; [reflexivity|].
    split. { rewrite conse_cons2. intros u v [Huv|Huv]; auto. now injection Huv as <- <-. }
    split. { replace (last (p :: Q) q) with (last Q p).
      - rewrite <- app_assoc in Hv'. exact Hv'.
      - clear. revert p q. induction Q as [|a Q IH]; intros; [reflexivity|]. destruct Q; [reflexivity|]. exact (IH p q). }
    intros k t Hk'. destruct k as [|k]; [lia|]. cbn [back_loop advance_loop]. unfold lift. rewrite Ec. sb. rewrite Ep. sb. rewrite Eq. sb. unfold add_triangle, rec_ext. destruct direct; sb; rewrite Ht; sb; rewrite Hb by lia.
    + cbn [map]. now rewrite <- app_assoc.
    + rewrite !app_nil_r. cbn [length]. do 3 f_equal. lia.
  - exists [], P, m. split; auto. split; [intros ? ? []|].
    split. { cbn. now rewrite app_nil_r. } intros k t Hk'. destruct k as [|k]; [lia|]. cbn [back_loop advance_loop]. unfold lift. rewrite Ec. sb. destruct direct; cbn; rewrite app_nil_r; repeat f_equal. lia.
Qed.

Lemma def_ok back (m : mono C I) (L : list vert) : forall i (t : log),
  (forall j v, nth_error L j = Some v -> deferred_index (E := E) m back (i + j) = Ok (fst v)) ->
  deferred_loop (E := E) rec_ext m back i (length L) t = (t ++ exts L, Ok tt).
Proof.
  induction L as [|v L IH]; intros i t H; cbn [deferred_loop length map]. { now rewrite app_nil_r. }
  unfold lift. rewrite <- (Nat.add_0_r i) at 1. rewrite (H 0 v eq_refl).
  unfold rec_ext at 1. sb. rewrite IH. { now rewrite <- app_assoc. }
  intros j w Hj. rewrite <- Nat.add_assoc. exact (H (1 + j) w Hj).
Qed.

(** ** The triangles of a log *)

Lemma fans_app (l2 : log) a b c : forall l1 cur, fans_from cur (l1 ++ CNew a b c :: l2) = fans_from cur l1 ++ fans_from [a; b; c] l2.
Proof. induction l1 as [|[x y z|v] l1 IH]; intros cur; cbn; auto. now rewrite IH. Qed.

Lemma tris_app (l1 l2 : log) : starts l1 -> starts l2 -> tris_of (l1 ++ l2) = tris_of l1 ++ tris_of l2.
Proof.
  unfold starts, tris_of. destruct l2 as [|[a b c|v] l2]; intros H1 H2; [now rewrite !app_nil_r| |contradiction].
  destruct l1 as [|[x y z|v] l1]; [reflexivity| |contradiction].
  cbn [app fans_of]. rewrite fans_app, map_app, concat_app. reflexivity.
Qed.

Lemma starts_app (l1 l2 : log) : starts l1 -> starts l2 -> starts (l1 ++ l2).
Proof. destruct l1 as [|[x y z|v] l1]; cbn; auto. Qed.

Lemma one_fan_tris (a b c : I) (l : list vert) : tris_of (CNew a b c :: exts l) = pairs a (b :: c :: map fst l).
Proof.
  unfold tris_of, fans_of. assert (H : forall cur, fans_from cur (exts l) = [cur ++ map fst l]).
  { induction l as [|v l IH]; intros cur; cbn [map fans_from]; [now rewrite app_nil_r|]. rewrite IH, <- app_assoc. reflexivity. }
  rewrite H. cbn. now rewrite app_nil_r.
Qed.

(** ** One fan *)

(** The triangles of the calls are the triangles [T], up to rotation; with clockwise winding only their number is known. *)
Definition agree (cw : bool) (l m : list (I * I * I)) : Prop := length l = length m /\ (cw = false -> same_tris l m).

Lemma same_len {A} (l l' : list (A * A * A)) : same_tris l l' -> length l = length l'.
Proof. intros (m & H1 & H2). apply Permutation_length in H2. rewrite <- H2. clear H2. induction H1; cbn; congruence. Qed.

Lemma agree_app cw a b c d : agree cw a b -> agree cw c d -> agree cw (a ++ c) (b ++ d).
Proof. intros (H1 & H2) (H3 & H4). split; [rewrite !app_length; lia|]. intros H. apply same_app; auto. Qed.

Lemma agree_refl cw l : agree cw l l.
Proof. split; auto. intros _. apply same_refl. Qed.

Lemma pairs_len (r a : I) l : length (pairs r (a :: l)) = length l.
Proof. revert a. induction l as [|b l IH]; intros a; [reflexivity|]. cbn [pairs length]. f_equal. apply IH. Qed.

Definition fan_result (cw left : bool) (V : list vert) (r : nat -> log -> sres log err (mono C I)) : Prop :=
  exists S J P m' calls T, view m' left S J P /\ S <> [] /\ starts calls /\ calls <> [] /\
    clips left V T (S ++ P) /\ T <> [] /\ agree cw (tris_of calls) (map idx T) /\ exists N, forall fuel t, N <= fuel -> r fuel t = (t ++ calls, Ok m').

Lemma last_snoc {A} (l : list A) a d : last (l ++ [a]) d = a.
Proof. induction l as [|b l IH]; [reflexivity|]. cbn. rewrite IH. destruct l; reflexivity. Qed.

Lemma rot1 {A} (a b c : A) : rot (a, b, c) (b, c, a).
Proof. right. now left. Qed.
Lemma rot2 {A} (a b c : A) : rot (a, b, c) (c, a, b).
Proof. right. now right. Qed.

Lemma last_any {A} (l : list A) a d d' : last (a :: l) d = last (a :: l) d'.
Proof. revert a. induction l as [|b l IH]; intros a; [reflexivity|]. exact (IH b). Qed.

Lemma rev_last {A} (q : A) Q : rev (q :: Q) = last Q q :: rev (removelast (q :: Q)).
Proof.
  rewrite (app_removelast_last (l := q :: Q) q) at 1 by discriminate. rewrite rev_app_distr. cbn [rev app]. f_equal.
  now destruct Q.
Qed.

Lemma one_fan_ok cw left m S x y J p P : view m left (S ++ [x; y]) J (p :: P) -> ear left x y p ->
  fan_result cw left (S ++ x :: y :: p :: P) (fun fuel t => one_fan (E := E) rec_new rec_ext cw fuel m t).
Proof.
  intros Hv He. unfold one_fan.
  replace (S ++ [x; y]) with ((S ++ [x]) ++ [y]) in Hv by la.
  destruct (v_pop _ _ _ _ _ _ Hv) as (m1 & Ep & Hv1).
  pose proof (v_peek _ _ _ _ _ _ Hv1) as Ek. pose proof (v_pending _ _ _ _ _ _ Hv1) as Eq.
  assert (Hml : m_left m1 = left) by now rewrite Hv1.
  destruct (can_triangulate (E := E) m1) as [back|?|?] eqn:Ec; [|destruct (v_can_dec _ _ _ _ _ Hv1) as [(? & ? & ? & ? & ? & _ & _ & _ & H)|(H & _)]; congruence..].
  destruct back.
  - (* backtracking *)
    set (direct := xorb (xorb true left) cw).
    destruct (back_ok left (Datatypes.S (length (S ++ [x]))) m1 (S ++ [x]) (y :: J) p P direct (if direct then 0 else 1)) as (S' & s & X & m' & HS & Hears & Hv' & Hb); auto.
    { intros H. symmetry in H. now apply app_cons_not_nil in H. }
    assert (Hx : exists Z, s :: X = Z ++ [x]).
    { destruct (exists_last (l := s :: X)) as (Z & w & HZ); [discriminate|]. exists Z. rewrite HZ in HS. rewrite app_assoc in HS.
      apply app_inj_tail in HS. destruct HS as (_ & ->). exact HZ. }
    destruct Hx as (Z & HZ).
    assert (Hears' : forall a b, In (a, b) (conse (s :: X ++ [y])) -> ear left a b p).
    { intros a b. change (s :: X ++ [y]) with ((s :: X) ++ [y]). rewrite HZ, conse_snoc in *. intros Hab. apply in_app_or in Hab.
      destruct Hab as [Hab|[Hab|[]]]; auto. now injection Hab as <- <-. }
    exists (S' ++ [s]), (X ++ y :: J), (p :: P), m',
      (if direct then CNew (if left then fst x else fst p) (fst y) (if left then fst p else fst x) :: exts (tl (rev (s :: X))) else CNew (fst p) (fst s) (fst (hd y X)) :: exts (tl (X ++ [y]))),
      (rev (map (fun q => orient left (fst q) (snd q) p) (conse (s :: X ++ [y])))).
    split; [exact Hv'|]. split. { intros H. symmetry in H. now apply app_cons_not_nil in H. }
    split; [now destruct direct|]. split; [now destruct direct|].
    split. { replace (S ++ x :: y :: p :: P) with (S' ++ (s :: X ++ [y]) ++ p :: P).
      - rewrite <- (app_assoc S' [s]). now apply clips_back.
      - replace (S ++ x :: y :: p :: P) with ((S ++ [x]) ++ y :: p :: P) by la. rewrite HS. la. }
    split. { intros H. apply (f_equal (@length _)) in H. rewrite rev_length, map_length, conse_len in H. cbn in H. rewrite app_length in H. cbn in H. lia. }
    split.
    { split.
      { rewrite map_length, rev_length, map_length, conse_len. cbn [length]. rewrite app_length. cbn [length]. destruct direct; rewrite one_fan_tris, pairs_len; cbn [length]; rewrite map_length.
        - pose proof (rev_length (s :: X)) as K. destruct (rev (s :: X)); cbn in *; lia.
        - destruct X; cbn; rewrite ?app_length; cbn; lia. }
      intros Hcw. assert (Hd : direct = negb left) by (unfold direct; rewrite Hcw; now destruct left). rewrite Hd. rewrite map_rev, map_map. destruct left; cbn [negb].
      - rewrite one_fan_tris.
        replace (fst s :: fst (hd y X) :: map fst (tl (X ++ [y]))) with (map fst (s :: X ++ [y])) by (destruct X; reflexivity).
        rewrite pairs_conse. eapply same_perm; [|apply Permutation_rev]. apply same_map. intros [a b]. apply rot1.
      - rewrite one_fan_tris. replace (fst y :: fst x :: map fst (tl (rev (s :: X)))) with (map fst (rev (s :: X ++ [y]))).
        + rewrite pairs_conse, conse_rev, map_rev, map_map. rewrite <- !map_rev. apply same_map. intros [a b]. apply rot2.
        + change (s :: X ++ [y]) with ((s :: X) ++ [y]). rewrite HZ, !rev_app_distr. reflexivity. }
    assert (Hloop : forall fuel (t : log), Datatypes.S (length S + length P) <= fuel -> sbind (lift t (skipped_pop (E := E) m1)) (fun s '(m, _) => sbind (lift s (skipped_peek (E := E) m)) (fun s v =>
       sbind (add_triangle (E := E) rec_ext direct (if direct then 0 else 1) s (fst v)) (fun s dt => back_loop (E := E) rec_ext fuel m direct dt s))) =
       (t ++ (if direct then exts (tl (rev (s :: X))) else []), Ok (m', if direct then (if direct then 0 else 1) else (if direct then 0 else 1) + length X))).
    { intros fuel t Hf. rewrite <- (Hb (Datatypes.S fuel)) by (rewrite app_length; cbn; lia). cbn [back_loop]. unfold lift. rewrite Ec. reflexivity. }
    unfold lift in Hloop. exists (Datatypes.S (length S + length P)). intros fuel t Hf. cbv beta. unfold lift. rewrite Ep. sb. rewrite Ek. sb. rewrite Eq. sb. rewrite Ec. sb. rewrite Hml.
    fold direct. destruct direct.
    2:{ sb. rewrite Hloop by auto. sb.
      rewrite (v_pending _ _ _ _ _ _ Hv'). sb. rewrite (v_peek _ _ _ _ _ _ Hv'). sb.
      rewrite (v_def_back _ _ _ _ _ 0 (hd y X) Hv') by now destruct X. sb.
      unfold rec_new. sb. replace (1 + length X - 1) with (length (tl (X ++ [y]))) by (destruct X; cbn; rewrite ?app_length; cbn; lia).
      rewrite (def_ok true m' (tl (X ++ [y]))).
      * sb. la.
      * intros j v Hj. apply (v_def_back _ _ _ _ _ _ v Hv'). destruct X as [|w X]; [destruct j; discriminate|]. cbn [tl app] in *. cbn [nth_error Nat.add].
        replace (X ++ y :: J) with ((X ++ [y]) ++ J) by la. rewrite nth_error_app1; auto. apply nth_error_Some. congruence. }
    destruct left; cbn [negb] in *; unfold rec_new at 1; sb; rewrite Hloop by auto; sb; la.
  - (* advancing *)
    set (direct := xorb (xorb false left) cw).
    destruct (v_transfer _ _ _ _ _ _ Hv1) as (m2 & Et & Hv2). replace ((S ++ [x]) ++ [p]) with (S ++ [x; p]) in Hv2 by la.
    destruct (adv_ok left (Datatypes.S (length P)) m2 S x p (J ++ [y]) P direct (if direct then 0 else 1)) as (Q & R & m' & HP & Hears & Hv' & Hb); auto.
    assert (Hears' : forall a b, In (a, b) (conse (y :: p :: Q)) -> ear left x a b).
    { intros a b. rewrite conse_cons2. intros [Hab|Hab]; auto. now injection Hab as <- <-. }
    exists (S ++ [x; last Q p]), ((J ++ [y]) ++ removelast (p :: Q)), R, m',
      (if direct then CNew (if left then fst x else fst p) (fst y) (if left then fst p else fst x) :: exts Q else CNew (fst x) (fst (last Q p)) (fst (hd y (rev (removelast (p :: Q))))) :: exts (tl (rev (removelast (p :: Q)) ++ [y]))),
      (map (fun q => orient left x (fst q) (snd q)) (conse (y :: p :: Q))).
    split; [exact Hv'|]. split. { intros H. symmetry in H. now apply app_cons_not_nil in H. }
    split; [now destruct direct|]. split; [now destruct direct|].
    split. { replace (S ++ x :: y :: p :: P) with (S ++ x :: (y :: p :: Q) ++ R) by (rewrite HP; la).
      replace ((S ++ [x; last Q p]) ++ R) with (S ++ x :: last (p :: Q) y :: R).
      - now apply clips_advance.
      - rewrite <- app_assoc. cbn [app]. do 3 f_equal. destruct Q as [|q Q]; [reflexivity|]. exact (last_any Q q y p). }
    split; [rewrite conse_cons2; discriminate|].
    split.
    { assert (Hlen0 : length (rev (removelast (p :: Q))) = length Q).
      { pose proof (rev_length (p :: Q)) as H. rewrite rev_last in H. cbn [length] in H. lia. }
      split.
      { rewrite map_length, map_length, conse_len. cbn [length]. destruct direct; rewrite one_fan_tris, pairs_len; cbn [length]; rewrite map_length; [lia|].
        destruct (rev (removelast (p :: Q))); cbn in *; rewrite ?app_length; cbn; lia. }
      intros Hcw. assert (Hd : direct = left) by (unfold direct; rewrite Hcw; now destruct left). rewrite Hd. clear Hlen0. rewrite map_map. destruct left; cbn [negb].
      - rewrite one_fan_tris. replace (fst y :: fst p :: map fst Q) with (map fst (y :: p :: Q)) by reflexivity.
        rewrite pairs_conse. apply same_map. intros [a b]. apply rot_refl.
      - rewrite one_fan_tris.
        replace (fst (last Q p) :: fst (hd y (rev (removelast (p :: Q)))) :: map fst (tl (rev (removelast (p :: Q)) ++ [y]))) with (map fst (rev (y :: p :: Q))).
        + rewrite pairs_conse, conse_rev, map_rev, map_map. eapply same_perm; [|symmetry; apply Permutation_rev].
          exists (rev (map (fun q => idx (orient false x (fst q) (snd q))) (conse (y :: p :: Q)))). split; [|reflexivity].
          rewrite <- !map_rev. generalize (rev (conse (y :: p :: Q))). intros l. induction l as [|[a b] l IH]; constructor; auto. apply rot_refl.
        + change (rev (y :: p :: Q)) with (rev (p :: Q) ++ [y]). rewrite rev_last. cbn [app map]. destruct (rev (removelast (p :: Q))); reflexivity. }
    assert (Hloop : forall fuel (t : log), Datatypes.S (length S + length P) <= fuel -> sbind (lift t (transfer_pending (E := E) m1)) (fun s m => advance_loop (E := E) rec_ext fuel m direct (if direct then 0 else 1) s) =
       (t ++ (if direct then exts Q else []), Ok (m', if direct then (if direct then 0 else 1) else (if direct then 0 else 1) + length Q))).
    { intros fuel t Hf. rewrite <- (Hb fuel) by lia. unfold lift. rewrite Et. reflexivity. }
    unfold lift in Hloop. exists (Datatypes.S (length S + length P)). intros fuel t Hf. cbv beta. unfold lift. rewrite Ep. sb. rewrite Ek. sb. rewrite Eq. sb. rewrite Ec. sb. rewrite Hml.
    fold direct. destruct direct.
    + destruct left; cbn [negb] in *; unfold rec_new at 1; sb; rewrite Hloop by auto; sb; la.
    + sb. rewrite Hloop by auto. sb.
      rewrite (v_peek2 _ _ _ _ _ _ _ Hv'). sb.
      assert (Hrev : rev ((J ++ [y]) ++ removelast (p :: Q)) = (rev (removelast (p :: Q)) ++ [y]) ++ rev J) by (rewrite !rev_app_distr; cbn; now rewrite <- app_assoc).
      rewrite (v_def_adv _ _ _ _ _ 0 (hd y (rev (removelast (p :: Q)))) Hv') by (rewrite Hrev; now destruct (rev (removelast (p :: Q)))). sb.
      unfold rec_new. sb.
      assert (Hlen : length (rev (removelast (p :: Q))) = length Q).
      { pose proof (rev_length (p :: Q)) as H. rewrite rev_last in H. cbn [length] in H. lia. }
      replace (1 + length Q - 1) with (length (tl (rev (removelast (p :: Q)) ++ [y]))) by (rewrite <- Hlen; destruct (rev (removelast (p :: Q))); cbn; rewrite ?app_length; cbn; lia).
      rewrite (def_ok false m' (tl (rev (removelast (p :: Q)) ++ [y]))).
      * sb. la.
      * intros j v Hj. apply (v_def_adv _ _ _ _ _ _ v Hv'). rewrite Hrev. rewrite nth_error_app1.
        -- destruct (rev (removelast (p :: Q)) ++ [y]); [destruct j; discriminate|exact Hj].
        -- destruct (rev (removelast (p :: Q)) ++ [y]) eqn:Hd; [destruct j; discriminate|]. cbn [tl] in Hj. cbn. assert (j < length l) by (apply nth_error_Some; congruence). lia.
Qed.

(** ** All fans *)

(** Chains that always have an ear, and stay so when an ear is cut off. *)
Definition has_ears (left : bool) (good : list vert -> Prop) : Prop :=
  (forall V, good V -> 3 <= length V -> exists l a b c r, V = l ++ a :: b :: c :: r /\ ear left a b c) /\
  (forall l a b c r, good (l ++ a :: b :: c :: r) -> ear left a b c -> good (l ++ a :: c :: r)).

Lemma clips_good left good V T V' : has_ears left good -> clips left V T V' -> good V -> good V'.
Proof. intros (_ & Hc). induction 1; eauto. Qed.

Lemma clips_two left V T V' : clips left V T V' -> 2 <= length V -> 2 <= length V'.
Proof. induction 1; auto. intros _. apply IHclips. rewrite app_length. cbn. lia. Qed.

Definition noear left (S : list vert) : Prop := forall l a b c r, S = l ++ a :: b :: c :: r -> ~ ear left a b c.

Definition cut_result cw left (V : list vert) (r : nat -> nat -> log -> sres log err unit) : Prop :=
  exists N calls T V', clips left V T V' /\ length V' = 2 /\ starts calls /\ agree cw (tris_of calls) (map idx T) /\
    forall fuel k t, N <= fuel -> N <= k -> r fuel k t = (t ++ calls, Ok tt).

Notation bf cw := (fun m fuel k t => build_fans (E := E) rec_new rec_ext cw fuel k m t).

Lemma noear_snoc left S x y p : noear left (S ++ [x; y]) -> ~ ear left x y p -> noear left (S ++ [x; y; p]).
Proof.
  intros H He l a b c r Heq. destruct r as [|z r] using rev_ind.
  - replace (l ++ [a; b; c]) with (((l ++ [a]) ++ [b]) ++ [c]) in Heq by la. replace (S ++ [x; y; p]) with (((S ++ [x]) ++ [y]) ++ [p]) in Heq by la.
    apply app_inj_tail in Heq. destruct Heq as (Heq & ->). apply app_inj_tail in Heq. destruct Heq as (Heq & ->). apply app_inj_tail in Heq. now destruct Heq as (_ & ->).
  - replace (S ++ [x; y; p]) with ((S ++ [x; y]) ++ [p]) in Heq by la. replace (l ++ a :: b :: c :: r ++ [z]) with ((l ++ a :: b :: c :: r) ++ [z]) in Heq by la.
    apply app_inj_tail in Heq. destruct Heq as (Heq & _). eapply H; eauto.
Qed.

Lemma two_last (S : list vert) : 2 <= length S -> exists S0 x y, S = S0 ++ [x; y].
Proof.
  intros H. destruct S as [|y S] using rev_ind; [cbn in H; lia|clear IHS]. destruct S as [|x S] using rev_ind; [cbn in H; lia|clear IHS].
  exists S, x, y. la.
Qed.

Lemma build_fans_ok cw left good : has_ears left good -> forall n m S J P, view m left S J P -> length (S ++ P) = n -> 2 <= length S -> good (S ++ P) ->
  cut_result cw left (S ++ P) (bf cw m).
Proof.
  intros Hears n. induction n as [n IHn] using lt_wf_ind.
  (* an ear is cut off *)
  assert (Hstep : forall m S J p P, view m left S J (p :: P) -> length (S ++ p :: P) = n -> good (S ++ p :: P) ->
    (exists S0 x y, S = S0 ++ [x; y] /\ ear left x y p) -> cut_result cw left (S ++ p :: P) (bf cw m)).
  { intros m S J p P Hv Hn Hg (S0 & x & y & -> & He).
    pose proof (v_can _ _ _ _ _ Hv S0 x y p P eq_refl eq_refl) as Ec. rewrite He, Bool.eqb_reflx in Ec.
    destruct (one_fan_ok cw left m S0 x y J p P Hv He) as (S' & J' & P' & m' & calls & T & Hv' & Hne & Hst & Hc & Hcl & HT & Hsame & N1 & Hrun).
    replace (S0 ++ x :: y :: p :: P) with ((S0 ++ [x; y]) ++ p :: P) in Hcl by la.
    assert (Hlen : length (S' ++ P') < n).
    { apply clips_len in Hcl. rewrite <- Hn. destruct T; [congruence|]. cbn [length] in Hcl. lia. }
    assert (Hg' : good (S' ++ P')) by (eapply clips_good; eauto).
    assert (H2 : 2 <= length (S' ++ P')). { eapply clips_two; eauto. rewrite !app_length. cbn. lia. }
    assert (Hnext : exists m'' S'' J'' P'', view m'' left S'' J'' P'' /\ S'' ++ P'' = S' ++ P' /\ 2 <= length S'' /\
      forall fuel k t, (if has_pending m' then sbind (lift t (transfer_pending (E := E) m')) (fun s m => bf cw m fuel k s) else bf cw (reset_position m') fuel k t) = bf cw m'' fuel k t).
    { destruct P' as [|p' P'].
      - rewrite app_nil_r in H2. destruct S' as [|x' [|y' R]]; [cbn in H2; lia..|].
        exists (reset_position m'), [x'; y'], [], R. split; [eapply v_reset; eauto|]. split; [now rewrite app_nil_r|]. split; [cbn; lia|].
        intros. now rewrite (v_has _ _ _ _ _ Hv').
      - destruct (v_transfer _ _ _ _ _ _ Hv') as (m'' & Et & Hv''). eexists _, _, _, _. split; [exact Hv''|]. split; [la|].
        split. { rewrite app_length. cbn. destruct S'; [congruence|]. cbn. lia. }
        intros. rewrite (v_has _ _ _ _ _ Hv'). rewrite Et. reflexivity. }
    destruct Hnext as (m'' & S'' & J'' & P'' & Hv'' & HS'' & H2'' & Hrun'').
    destruct (IHn _ Hlen m'' S'' J'' P'') as (N2 & calls2 & T2 & V' & Hcl2 & HV' & Hst2 & Hsame2 & Hrun2); auto; [now rewrite HS''..|].
    exists (Datatypes.S (N1 + N2)), (calls ++ calls2), (T ++ T2), V'.
    split. { eapply clips_app; eauto. now rewrite <- HS''. } split; auto. split; [now apply starts_app|].
    split. { rewrite tris_app, map_app by auto. now apply agree_app. }
    intros fuel k t Hf Hk. destruct k as [|k]; [lia|]. cbn [build_fans]. unfold lift at 1. rewrite (v_remaining _ _ _ _ _ Hv). sb.
    destruct (Nat.leb_spec 3 (length (S0 ++ [x; y]) + length (p :: P))) as [_|Hbad]; [|rewrite app_length in Hbad; cbn in Hbad; lia].
    rewrite Ec. sb. rewrite Hrun by lia. sb. unfold lift in Hrun''. rewrite Hrun''. rewrite Hrun2 by lia. now rewrite app_assoc. }
  (* no ear was cut off yet in this pass *)
  assert (Hclean : forall p m S P, length P = p -> view m left S [] P -> length (S ++ P) = n -> 2 <= length S -> good (S ++ P) -> noear left S ->
    cut_result cw left (S ++ P) (bf cw m)).
  { induction p as [|p IHp]; intros m S P Hp Hv Hn H2 Hg Hno.
    - destruct P; [|discriminate]. rewrite app_nil_r in *. destruct (Nat.le_gt_cases 3 (length S)) as [H3|H3].
      + destruct (proj1 Hears S Hg H3) as (l & a & b & c & r & -> & He). now elim (Hno l a b c r eq_refl).
      + exists 1, [], [], S. split; [constructor|]. split; [lia|]. split; [exact Logic.I|]. split; [apply agree_refl|].
        intros fuel k t _ Hk. destruct k as [|k]; [lia|]. cbn [build_fans]. unfold lift at 1. rewrite (v_remaining _ _ _ _ _ Hv). sb. cbn [length].
        replace (length S + 0) with 2 by lia. cbn. now rewrite app_nil_r.
    - destruct P as [|q P]; [discriminate|]. injection Hp as Hp.
      destruct (v_can_dec _ _ _ _ _ Hv) as [(S0 & x & y & q' & P' & HS & HP & He & Ec)|(Ec & Hnot)].
      + injection HP as <- <-. eapply Hstep; eauto.
      + destruct (v_transfer _ _ _ _ _ _ Hv) as (m' & Et & Hv').
        destruct (two_last S H2) as (S0 & x & y & ->).
        destruct (IHp m' ((S0 ++ [x; y]) ++ [q]) P Hp Hv') as (N & calls & T & V' & Hcl & HV' & Hst & Hsame & Hrun).
        { rewrite <- app_assoc. exact Hn. } { rewrite app_length. lia. } { rewrite <- app_assoc. exact Hg. }
        { replace ((S0 ++ [x; y]) ++ [q]) with (S0 ++ [x; y; q]) by la. apply noear_snoc; auto. eapply Hnot; eauto. }
        exists (Datatypes.S N), calls, T, V'. split. { now rewrite <- app_assoc in Hcl. } split; auto. split; auto. split; auto.
        intros fuel k t Hf Hk. destruct k as [|k]; [lia|]. cbn [build_fans]. unfold lift at 1. rewrite (v_remaining _ _ _ _ _ Hv). sb.
        destruct (Nat.leb_spec 3 (length (S0 ++ [x; y]) + length (q :: P))) as [_|Hbad]; [|rewrite app_length in Hbad; cbn in Hbad; lia].
        rewrite Ec. sb. rewrite (v_has _ _ _ _ _ Hv). rewrite Et. sb. apply Hrun; lia. }
  (* general states *)
  intros m S J P. revert m S J. remember (length P) as p eqn:Hp. revert P Hp. induction p as [|p IHp]; intros P Hp m S J Hv Hn H2 Hg.
  - destruct P; [|discriminate]. rewrite app_nil_r in *. destruct S as [|x [|y R]]; [cbn in H2; lia..|].
    destruct R as [|z R].
    + exists 1, [], [], [x; y]. split; [constructor|]. split; [reflexivity|]. split; [exact Logic.I|]. split; [apply agree_refl|].
      intros fuel k t _ Hk. destruct k as [|k]; [lia|]. cbn [build_fans]. unfold lift at 1. rewrite (v_remaining _ _ _ _ _ Hv). sb. cbn. now rewrite app_nil_r.
    + pose proof (v_reset _ _ _ _ _ _ _ Hv eq_refl) as Hv'.
      destruct (Hclean _ (reset_position m) [x; y] (z :: R) eq_refl Hv' Hn (le_n 2) Hg) as (N & calls & T & V' & Hcl & HV' & Hst & Hsame & Hrun).
      { intros l a b c r H. apply (f_equal (@length _)) in H. rewrite app_length in H. cbn in H. lia. }
      exists (Datatypes.S N), calls, T, V'. split; auto. split; auto. split; auto. split; auto.
      intros fuel k t Hf Hk. destruct k as [|k]; [lia|]. cbn [build_fans]. unfold lift at 1. rewrite (v_remaining _ _ _ _ _ Hv). sb.
      cbn [length Nat.add Nat.leb]. rewrite (v_can_short _ _ _ _ _ Hv) by auto. sb. rewrite (v_has _ _ _ _ _ Hv). apply Hrun; lia.
  - destruct P as [|q P]; [discriminate|]. injection Hp as Hp.
    destruct (v_can_dec _ _ _ _ _ Hv) as [(S0 & x & y & q' & P' & HS & HP & He & Ec)|(Ec & Hnot)].
    + injection HP as <- <-. eapply Hstep; eauto.
    + destruct (v_transfer _ _ _ _ _ _ Hv) as (m' & Et & Hv').
      destruct (IHp P Hp m' _ _ Hv') as (N & calls & T & V' & Hcl & HV' & Hst & Hsame & Hrun).
      { rewrite <- app_assoc. exact Hn. } { rewrite app_length. lia. } { rewrite <- app_assoc. exact Hg. }
      exists (Datatypes.S N), calls, T, V'. split. { now rewrite <- app_assoc in Hcl. } split; auto. split; auto. split; auto.
      intros fuel k t Hf Hk. destruct k as [|k]; [lia|]. cbn [build_fans]. unfold lift at 1. rewrite (v_remaining _ _ _ _ _ Hv). sb.
      destruct (Nat.leb_spec 3 (length S + length (q :: P))) as [_|Hbad]; [|cbn in Hbad; lia].
      rewrite Ec. sb. rewrite (v_has _ _ _ _ _ Hv). rewrite Et. sb. apply Hrun; lia.
Qed.

(** A whole chain, as built by [mb_build]. *)
Theorem mono_cut cw left good V : has_ears left good -> good V -> 2 <= length V ->
  cut_result cw left V (bf cw (mkMono V 2 2 left)).
Proof.
  intros He Hg H2. destruct V as [|x [|y R]]; [cbn in H2; lia..|].
  exact (build_fans_ok cw left good He _ (mkMono (x :: y :: R) 2 2 left) [x; y] [] R eq_refl eq_refl (le_n 2) Hg).
Qed.
End E.

(** ** Consequences *)

Lemma clips_ends left V T V' : clips left V T V' -> forall x d, hd_error V = Some x -> hd_error V' = Some x /\ last V' d = last V d.
Proof.
  induction 1 as [V|l a b c r T V' He Hc IH]; intros x d Hx; [auto|].
  assert (Hx' : hd_error (l ++ a :: c :: r) = Some x) by (destruct l; exact Hx).
  destruct (IH x d Hx') as (H1 & H2). split; auto. rewrite H2. clear.
  induction l as [|z l IH]; [reflexivity|]. cbn [app]. rewrite !last_cons_ne; [exact IH| |]; intros H; symmetry in H; now apply app_cons_not_nil in H.
Qed.
End Ears.
