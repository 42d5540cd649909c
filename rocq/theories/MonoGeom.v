(** Monotone pieces over the rationals: there is always an ear, and the ears cut off tile the piece. *)
From Coq Require Import QArith Qabs Lqa List Arith Bool Lia Permutation Sorted.
From Verif Require Import Base Coord Trap Mono Tri Trace Protocol MonoProof Plane.
Import ListNotations.
Local Open Scope Q_scope.

(** ** Vectors that point up *)

Definition vpos (x y : Q) : Prop := 0 < y \/ (y == 0 /\ 0 < x).

Lemma plt_vpos a b : plt a b <-> vpos (cx b - cx a) (cy b - cy a).
Proof. unfold plt, vpos. split; (intros [H|[H K]]; [left|right]; lra). Qed.

Lemma vpos_comb x y x' y' s t : vpos x y -> vpos x' y' -> 0 <= s -> 0 < t -> vpos (s * x + t * x') (s * y + t * y').
Proof.
  unfold vpos. intros H H' Hs Ht. destruct (Qlt_le_dec 0 s) as [Hs'|Hs'].
  - assert (0 <= s * y /\ 0 <= t * y'). { destruct H as [H|[H _]], H' as [H'|[H' _]]; split; try nra. }
    destruct H as [H|[H K]]. { left. nra. } destruct H' as [H'|[H' K']]. { left. nra. }
    right. split; nra.
  - assert (Hz : s == 0) by lra. rewrite Hz. destruct H' as [H'|[H' K']]; [left|right; split]; nra.
Qed.

Lemma vpos_scale x y k : vpos x y -> vpos (x * k) (y * k) -> 0 < k.
Proof.
  unfold vpos. intros H K. destruct (Qlt_le_dec 0 k) as [Hk|Hk]; auto. exfalso.
  destruct H as [H|[H H']]; [|rewrite H in K]; destruct K as [K|[K K']]; try nra.
  assert (k == 0) by nra. rewrite H0 in K'. lra.
Qed.

(** ** The farthest vertex is convex *)

Lemma cross_det a b c : cross a b c == (cx a * cy b - cy a * cx b) + (cx b * cy c - cy b * cx c) + (cx c * cy a - cy c * cx a).
Proof. unfold cross. ring. Qed.

(** [e] from [p] to [q]; distances from the line [p q] are [cross p q]. *)
Lemma convex_far (s : Q) p q a b c : plt p q -> plt c b -> plt b a ->
  s * cross p q c <= s * cross p q b -> s * cross p q a < s * cross p q b -> 0 < s * cross c a b.
Proof.
  intros He Hcb Hba Hc Ha. rewrite plt_vpos in *.
  apply (vpos_scale (cx q - cx p) (cy q - cy p)); auto.
  assert (H : vpos ((s * cross p q b - s * cross p q c) * (cx a - cx b) + (s * cross p q b - s * cross p q a) * (cx b - cx c))
                   ((s * cross p q b - s * cross p q c) * (cy a - cy b) + (s * cross p q b - s * cross p q a) * (cy b - cy c))).
  { apply vpos_comb; auto; lra. }
  destruct H as [H|[H K]].
  - left. assert (E : (cy q - cy p) * (s * cross c a b) == (s * cross p q b - s * cross p q c) * (cy a - cy b) + (s * cross p q b - s * cross p q a) * (cy b - cy c)) by (unfold cross; ring).
    now rewrite E.
  - right. split.
    + rewrite <- H. unfold cross; ring.
    + assert (E : (cx q - cx p) * (s * cross c a b) == (s * cross p q b - s * cross p q c) * (cx a - cx b) + (s * cross p q b - s * cross p q a) * (cx b - cx c)) by (unfold cross; ring).
      now rewrite E.
Qed.

(** ** Mountains *)

(** Sides: [1] for the left, [-1] for the right. *)
Definition sgn (left : bool) : Q := if left then 1 else -1.

(** A chain from top to bottom, all inner vertices strictly on one side of the line from its last to its first vertex. *)
Definition mountain (left : bool) (V : list point) : Prop :=
  StronglySorted (fun a b => plt b a) V /\
  exists q p M, V = q :: M ++ [p] /\ forall v, In v M -> 0 < sgn left * cross p q v.

Notation dsc := (fun a b : point => plt b a).

Section Geom.
Context {I : Type}.
Notation vert := (I * coords Q)%type.

Lemma first_max (d : point -> Q) (M : list point) : M <> [] ->
  exists l b r, M = l ++ b :: r /\ (forall v, In v M -> d v <= d b) /\ (forall v, In v l -> d v < d b).
Proof.
  induction M as [|x M IH]; intros H; [congruence|]. destruct M as [|y M].
  - exists [], x, []. split; auto. split; [|easy]. intros v [->|[]]. apply Qle_refl.
  - destruct IH as (l & b & r & E & H1 & H2); [discriminate|]. rewrite E in *. destruct (Qlt_le_dec (d x) (d b)) as [K|K].
    + exists (x :: l), b, r. split; auto. split; intros v [->|Hv]; auto. now apply Qlt_le_weak.
    + exists [], x, (l ++ b :: r). split; auto. split; [|easy]. intros v [->|Hv]; [apply Qle_refl|]. eapply Qle_trans; eauto.
Qed.

Lemma sorted_app_cons {A} (R : A -> A -> Prop) l a b r : StronglySorted R (l ++ a :: b :: r) -> R a b.
Proof.
  induction l as [|x l IH]; cbn; intros H; inversion H as [|? ? H1 H2]; subst; auto. now inversion H2.
Qed.

Lemma sorted_remove {A} (R : A -> A -> Prop) l a r : StronglySorted R (l ++ a :: r) -> StronglySorted R (l ++ r).
Proof.
  induction l as [|x l IH]; cbn; intros H; inversion H as [|? ? H1 H2]; subst; auto. constructor; auto.
  rewrite Forall_app in *. destruct H2 as (H2 & H3). inversion H3; auto.
Qed.

Lemma sorted_in {A} (R : A -> A -> Prop) l r : StronglySorted R (l ++ r) -> forall a b, In a l -> In b r -> R a b.
Proof.
  induction l as [|x l IH]; cbn; intros H a b; [easy|]. inversion H as [|? ? H1 H2]; subst. rewrite Forall_app, !Forall_forall in H2.
  intros [->|Ha] Hb; [now apply H2|auto].
Qed.

Lemma mountain_ear left (V : list point) : mountain left V -> (3 <= length V)%nat ->
  exists l a b c r, V = l ++ a :: b :: c :: r /\ 0 < sgn left * cross c a b.
Proof.
  intros (Hs & q & p & M & -> & HM) H3. assert (Hne : M <> []). { intros ->. cbn in H3. lia. }
  destruct (first_max (fun v => sgn left * cross p q v) M Hne) as (l & b & r & -> & Hmax & Hlt). cbn beta in *.
  assert (Hpq : plt p q). { eapply (sorted_in dsc [q] _ Hs); [now left|]. apply in_or_app. right. now left. }
  assert (Hb : 0 < sgn left * cross p q b). { apply HM. apply in_or_app. right. now left. }
  assert (Hz : forall s, s * cross p q q == 0 /\ s * cross p q p == 0). { intros s. unfold cross. split; ring. }
  assert (Ha : exists l' a, q :: l = l' ++ [a] /\ sgn left * cross p q a < sgn left * cross p q b).
  { destruct (exists_last (l := q :: l)) as (l' & a & E); [discriminate|]. exists l', a. split; auto. destruct l as [|x l].
    - destruct l' as [|? [|]]; try discriminate. injection E as <-. now rewrite (proj1 (Hz _)).
    - destruct l' as [|? l']; [discriminate|]. injection E as -> E. apply Hlt. rewrite E. apply in_or_app. right. now left. }
  assert (Hc : exists c r', r ++ [p] = c :: r' /\ sgn left * cross p q c <= sgn left * cross p q b).
  { destruct r as [|c r].
    - exists p, []. split; auto. rewrite (proj2 (Hz _)). now apply Qlt_le_weak.
    - exists c, (r ++ [p]). split; auto. apply Hmax. apply in_or_app. right. right. now left. }
  destruct Ha as (l' & a & El & Ha), Hc as (c & r' & Er & Hc).
  assert (E : q :: (l ++ b :: r) ++ [p] = l' ++ a :: b :: c :: r').
  { rewrite <- app_assoc. cbn [app]. rewrite Er. rewrite app_comm_cons, El, <- app_assoc. reflexivity. }
  exists l', a, b, c, r'. split; auto. rewrite E in Hs. apply (convex_far _ p q); auto.
  - apply (sorted_app_cons dsc (l' ++ [a]) b c r'). now rewrite <- app_assoc.
  - now apply (sorted_app_cons dsc l' a b (c :: r')).
Qed.

Lemma mountain_remove left (l : list point) a b c r : mountain left (l ++ a :: b :: c :: r) -> mountain left (l ++ a :: c :: r).
Proof.
  intros (Hs & q & p & M & E & HM). split.
  - replace (l ++ a :: b :: c :: r) with ((l ++ [a]) ++ b :: c :: r) in Hs by now rewrite <- app_assoc. apply sorted_remove in Hs. now rewrite <- app_assoc in Hs.
  - destruct (exists_last (l := c :: r)) as (r' & z & Er); [discriminate|]. rewrite Er in *.
    assert (El : exists l', l ++ [a] = q :: l').
    { destruct l as [|x l]; cbn in E; injection E as -> E; [exists []|exists (l ++ [a])]; reflexivity. }
    destruct El as (l' & El). replace (l ++ a :: b :: r' ++ [z]) with ((l ++ [a]) ++ b :: r' ++ [z]) in E by now rewrite <- app_assoc.
    rewrite El in E. cbn [app] in E. injection E as E. replace (l' ++ b :: r' ++ [z]) with ((l' ++ b :: r') ++ [z]) in E by now rewrite <- app_assoc.
    apply app_inj_tail in E. destruct E as (<- & ->). exists q, p, (l' ++ r'). split.
    + replace (l ++ a :: r' ++ [p]) with ((l ++ [a]) ++ r' ++ [p]) by now rewrite <- app_assoc. rewrite El. cbn. now rewrite <- app_assoc.
    + intros v Hv. apply HM. rewrite in_app_iff in *. cbn. tauto.
Qed.

Lemma sgn_left left (a b c : point) : plt c a -> 0 < sgn left * cross c a b -> is_left c a b = left.
Proof.
  intros Hp H. destruct left; cbn in H.
  - apply is_left_cross; auto; lra.
  - destruct (is_left c a b) eqn:E; auto. apply is_left_cross in E; auto; lra.
Qed.

Lemma left_sgn left (a b c : point) : plt c a -> is_left c a b = left -> 0 <= sgn left * cross c a b.
Proof.
  intros Hp H. destruct (Qeq_dec (cross c a b) 0) as [E|E]. { rewrite E. rewrite Qmult_0_r. apply Qle_refl. }
  pose proof (is_left_cross c a b Hp E) as K. destruct left; cbn.
  - apply K in H. lra.
  - assert (~ 0 < cross c a b). { rewrite <- K. congruence. } lra.
Qed.

Lemma mountain_ears left : has_ears (I := I) left (fun V => mountain left (map snd V)).
Proof.
  split.
  - intros V HV H3. rewrite <- (map_length snd) in H3. destruct (mountain_ear _ _ HV H3) as (l & a & b & c & r & E & He).
    apply map_eq_app in E. destruct E as (l' & r1 & -> & <- & E). apply map_eq_cons in E. destruct E as (a' & r2 & -> & <- & E).
    apply map_eq_cons in E. destruct E as (b' & r3 & -> & <- & E). apply map_eq_cons in E. destruct E as (c' & r' & -> & <- & <-).
    exists l', a', b', c', r'. split; auto. apply sgn_left; auto. destruct HV as (Hs & _). rewrite map_app in Hs. cbn [map] in Hs.
    apply (sorted_in dsc (map snd l' ++ [snd a'; snd b']) (snd c' :: map snd r')).
    + now rewrite <- app_assoc.
    + apply in_or_app. right. now left.
    + now left.
  - intros l a b c r H _. rewrite map_app in *. now apply mountain_remove in H.
Qed.

(** ** Sums over triangles *)

Definition tri_sum (w : point -> point -> Q) (t : point * point * point) : Q := let '(a, b, c) := t in w a b + w b c + w c a.
Fixpoint sumq {A} (f : A -> Q) (l : list A) : Q := match l with [] => 0 | x :: l => f x + sumq f l end.
Definition anti (w : point -> point -> Q) : Prop := forall a b, w a b == - w b a.
Definition pos (t : vert * vert * vert) : point * point * point := let '(a, b, c) := t in (snd a, snd b, snd c).

Lemma sumq_app {A} (f : A -> Q) l l' : sumq f (l ++ l') == sumq f l + sumq f l'.
Proof. induction l as [|a l IH]; cbn [sumq app]; [ring|]. rewrite IH. ring. Qed.

Lemma sumq_perm {A} (f : A -> Q) l l' : Permutation l l' -> sumq f l == sumq f l'.
Proof. induction 1; cbn [sumq]; [reflexivity|rewrite IHPermutation; reflexivity|ring|etransitivity; eauto]. Qed.

Lemma sumq_ext {A} (f g : A -> Q) l : (forall x, In x l -> f x == g x) -> sumq f l == sumq g l.
Proof. induction l as [|a l IH]; cbn [sumq map]; intros H; [reflexivity|]. rewrite (H a) by now left. rewrite IH; [reflexivity|]. intros x Hx. apply H. now right. Qed.

Lemma sumq_scale {A} (f : A -> Q) k l : sumq (fun x => k * f x) l == k * sumq f l.
Proof. induction l as [|a l IH]; cbn [sumq map]; [ring|]. rewrite IH. ring. Qed.

Lemma sumq_map {A B} (f : B -> Q) (g : A -> B) l : sumq f (map g l) = sumq (fun x => f (g x)) l.
Proof. induction l as [|a l IH]; cbn [sumq map]; [reflexivity|]. now rewrite IH. Qed.

(** Sum along a path. *)
Definition wsum (w : point -> point -> Q) (l : list point) : Q := sumq (fun e => w (fst e) (snd e)) (conse l).

Lemma wsum_cons2 w a b l : wsum w (a :: b :: l) = w a b + wsum w (b :: l).
Proof. reflexivity. Qed.

Lemma wsum_mid w l a r : wsum w (l ++ a :: r) == wsum w (l ++ [a]) + wsum w (a :: r).
Proof.
  induction l as [|x l IH].
  - cbn [app]. change (wsum w [a]) with 0. ring.
  - destruct l as [|y l]; cbn [app] in *; rewrite !wsum_cons2.
    + change (wsum w [a]) with 0. ring.
    + rewrite IH. ring.
Qed.

Lemma clips_sum w left V T V' : anti w -> clips (I := I) left V T V' ->
  sumq (fun t => tri_sum w (pos t)) T == sgn left * (wsum w (map snd V) - wsum w (map snd V')).
Proof.
  intros Hw. induction 1 as [V|l a b c r T V' He Hc IH]; cbn [sumq]. { ring. }
  rewrite IH. rewrite !map_app. cbn [map].
  rewrite (wsum_mid w (map snd l) (snd a) (snd b :: _)), (wsum_mid w (map snd l) (snd a) (snd c :: _)). rewrite !wsum_cons2.
  unfold orient. destruct left; cbn [pos tri_sum sgn].
  - rewrite (Hw (snd c) (snd a)). ring.
  - rewrite (Hw (snd c) (snd b)), (Hw (snd b) (snd a)). ring.
Qed.

(** Every triangle cut off a mountain is counterclockwise or flat. *)
Lemma clips_ccw left V T V' : clips (I := I) left V T V' -> StronglySorted (fun a b => plt b a) (map snd V) ->
  forall a b c, In (a, b, c) T -> 0 <= cross (snd a) (snd b) (snd c).
Proof.
  induction 1 as [V|l a b c r T V' He Hc IH]; intros Hs x y z; [easy|]. rewrite map_app in Hs. cbn [map] in Hs. intros [H|H].
  - assert (Hp : plt (snd c) (snd a)).
    { apply (sorted_in dsc (map snd l ++ [snd a; snd b]) (snd c :: map snd r)); [now rewrite <- app_assoc| |now left]. apply in_or_app. right. now left. }
    pose proof (left_sgn _ _ _ _ Hp He) as K. destruct left; cbn in H; injection H as <- <- <-; cbn [sgn] in K.
    + assert (E : cross (snd a) (snd b) (snd c) == cross (snd c) (snd a) (snd b)) by (unfold cross; ring). lra.
    + assert (E : cross (snd a) (snd c) (snd b) == - cross (snd c) (snd a) (snd b)) by (unfold cross; ring). lra.
  - apply IH; auto. rewrite map_app. cbn [map].
    replace (map snd l ++ snd a :: snd b :: snd c :: map snd r) with ((map snd l ++ [snd a]) ++ snd b :: snd c :: map snd r) in Hs by now rewrite <- app_assoc.
    apply sorted_remove in Hs. now rewrite <- app_assoc in Hs.
Qed.

Lemma clips_in left V T V' : clips (I := I) left V T V' -> forall a b c, In (a, b, c) T -> In a V /\ In b V /\ In c V.
Proof.
  induction 1 as [V|l a b c r T V' He Hc IH]; intros x y z; [easy|]. intros [H|H].
  - destruct left; cbn in H; injection H as <- <- <-; rewrite !in_app_iff; cbn; tauto.
  - destruct (IH _ _ _ H) as (H1 & H2 & H3). rewrite !in_app_iff in *. cbn in *. tauto.
Qed.

(** ** A piece fed vertex by vertex to the builder *)

Fixpoint feed {E} (b : mbuilder Q I) (l : list vert) : res E (mbuilder Q I) :=
  match l with
  | [] => Ok b
  | (i, c) :: l => bind (mb_add b i c) (fun b => feed b l)
  end.

Definition has_dx (q : point) (l : list vert) : bool := existsb (fun v => negb (Qeq_bool (cx (snd v)) (cx q))) l.
Definition has_dy (q : point) (l : list vert) : bool := existsb (fun v => negb (Qeq_bool (cy (snd v)) (cy q))) l.

Lemma feed_ok {E} v0 (l : list vert) : forall W dx dy,
  feed (E := E) (mkMB (v0 :: W) dx dy) l = Ok (mkMB (v0 :: W ++ l) (dx || has_dx (snd v0) l) (dy || has_dy (snd v0) l)).
Proof.
  induction l as [|[i c] l IH]; intros W dx dy; cbn [feed].
  - now rewrite app_nil_r, !orb_false_r.
  - unfold mb_add, rd. cbn [mb_vec nth_error bind app]. rewrite IH. cbn [has_dx has_dy existsb snd c_eqb QOps mb_dx mb_dy]. rewrite <- app_assoc. cbn [app].
    do 2 f_equal; [destruct dx, (Qeq_bool (cx c) (cx (snd v0)))|destruct dy, (Qeq_bool (cy c) (cy (snd v0)))]; reflexivity.
Qed.

Lemma mountain_dxy left q p M v : StronglySorted (fun a b => plt b a) (q :: M ++ [p]) -> In v M -> 0 < sgn left * cross p q v ->
  ~ (cx v == cx q /\ cx p == cx q) /\ ~ (cy v == cy q /\ cy p == cy q).
Proof.
  intros Hs Hv H. split; intros (H1 & H2); assert (E : cross p q v == 0).
  - unfold cross. setoid_replace (cx q - cx p) with 0 by lra. setoid_replace (cx v - cx p) with 0 by lra. ring.
  - rewrite E, Qmult_0_r in H. now apply Qlt_irrefl in H.
  - unfold cross. setoid_replace (cy q - cy p) with 0 by lra. setoid_replace (cy v - cy p) with 0 by lra. ring.
  - rewrite E, Qmult_0_r in H. now apply Qlt_irrefl in H.
Qed.

Lemma build_mountain left v0 (l : list vert) : mountain left (map snd (v0 :: l)) -> (3 <= length (v0 :: l))%nat ->
  exists b, feed (E := ierr) (mb_new (fst v0) (snd v0)) l = Ok b /\ mb_vec b = v0 :: l /\ mb_build b = Ok (Some (mkMono (v0 :: l) 2 2 left)).
Proof.
  intros (Hs & q & p & M & E & HM) H3. cbn [map] in E. injection E as Hq E.
  apply map_eq_app in E. destruct E as (l1 & l2 & -> & E1 & E2). apply map_eq_cons in E2. destruct E2 as (z & l3 & -> & Hz & E2).
  apply map_eq_nil in E2. subst l3. destruct l1 as [|v1 l1]; [cbn in H3; lia|]. subst M. cbn [map] in *.
  assert (H1 : 0 < sgn left * cross p q (snd v1)) by (apply HM; now left).
  assert (Hs' : StronglySorted (fun a b => plt b a) (q :: (snd v1 :: map snd l1) ++ [p])).
  { subst q p. rewrite map_app in Hs. exact Hs. }
  destruct (mountain_dxy left q p _ (snd v1) Hs' (or_introl eq_refl) H1) as (Hdx & Hdy).
  unfold mb_new. rewrite <- surjective_pairing, feed_ok. eexists. split; [reflexivity|]. cbn [mb_vec app]. split; [reflexivity|].
  assert (Ex : has_dx (snd v0) (v1 :: l1 ++ [z]) = true).
  { unfold has_dx. apply existsb_exists. destruct (Qeq_dec (cx (snd v1)) (cx q)) as [H|H].
    - exists z. split; [right; apply in_or_app; right; now left|]. apply negb_true_iff. destruct (Qeq_bool (cx (snd z)) (cx (snd v0))) eqn:Hb; auto.
      apply Qeq_bool_iff in Hb. elim Hdx. subst q p. auto.
    - exists v1. split; [now left|]. apply negb_true_iff. destruct (Qeq_bool (cx (snd v1)) (cx (snd v0))) eqn:Hb; auto. apply Qeq_bool_iff in Hb. subst q. now elim H. }
  assert (Ey : has_dy (snd v0) (v1 :: l1 ++ [z]) = true).
  { unfold has_dy. apply existsb_exists. destruct (Qeq_dec (cy (snd v1)) (cy q)) as [H|H].
    - exists z. split; [right; apply in_or_app; right; now left|]. apply negb_true_iff. destruct (Qeq_bool (cy (snd z)) (cy (snd v0))) eqn:Hb; auto.
      apply Qeq_bool_iff in Hb. elim Hdy. subst q p. auto.
    - exists v1. split; [now left|]. apply negb_true_iff. destruct (Qeq_bool (cy (snd v1)) (cy (snd v0))) eqn:Hb; auto. apply Qeq_bool_iff in Hb. subst q. now elim H. }
  unfold mb_build. cbn [mb_vec mb_dx mb_dy orb]. rewrite Ex, Ey. cbn [andb].
  destruct (Nat.ltb_spec (length (v0 :: v1 :: l1 ++ [z])) 3) as [Hbad|_]. { cbn in Hbad. rewrite app_length in Hbad. cbn in Hbad. lia. }
  unfold rd at 1. replace (length (v0 :: v1 :: l1 ++ [z]) - 1)%nat with (length (v0 :: v1 :: l1)) by (cbn; rewrite app_length; cbn; lia).
  change (v0 :: v1 :: l1 ++ [z]) with ((v0 :: v1 :: l1) ++ [z]) at 1. rewrite nth_error_app2, Nat.sub_diag by auto. cbn [nth_error bind rd].
  cbn. do 3 f_equal. subst q p. apply sgn_left; auto. eapply (sorted_in dsc [snd v0] _ Hs'); [now left|]. right. apply in_or_app. right. now left.
Qed.

(** ** The triangles of a piece *)

Definition tri_pos (gv : I -> point) (t : I * I * I) : point * point * point := let '(a, b, c) := t in (gv a, gv b, gv c).
Definition tri_cross (t : point * point * point) : Q := let '(a, b, c) := t in cross a b c.

(** What the triangles of a mountain [V] with indices located by [gv] satisfy. *)
Definition covers (gv : I -> point) (left : bool) (V : list vert) (T : list (I * I * I)) : Prop :=
  (length T + 2 = length V)%nat /\
  (forall a b c, In (a, b, c) T -> In a (map fst V) /\ In b (map fst V) /\ In c (map fst V) /\ 0 <= cross (gv a) (gv b) (gv c)) /\
  (forall w, anti w -> forall q p M, map snd V = q :: M ++ [p] ->
     sumq (fun t => tri_sum w (tri_pos gv t)) T == sgn left * (wsum w (map snd V) + w p q)).

Lemma rot_sum w (t u : point * point * point) : rot t u -> tri_sum w t == tri_sum w u.
Proof. destruct t as [[a b] c]. intros [-> |[-> | ->]]; cbn [tri_sum]; ring. Qed.

Lemma rot_pos gv (t u : I * I * I) : rot t u -> rot (tri_pos gv t) (tri_pos gv u).
Proof. destruct t as [[a b] c]. intros [-> |[-> | ->]]; cbn; auto. Qed.

Lemma same_sum w gv (l l' : list (I * I * I)) : same_tris l l' ->
  sumq (fun t => tri_sum w (tri_pos gv t)) l == sumq (fun t => tri_sum w (tri_pos gv t)) l'.
Proof.
  intros (m & H1 & H2). rewrite <- (sumq_perm _ _ _ H2). clear H2. induction H1 as [|t u l m H H1 IH]; [reflexivity|]. cbn [sumq].
  rewrite IH. rewrite (rot_sum w (tri_pos gv t) (tri_pos gv u)) by now apply rot_pos. reflexivity.
Qed.

Lemma same_in {A} (l l' : list (A * A * A)) t : same_tris l l' -> In t l -> exists u, In u l' /\ rot t u.
Proof.
  intros (m & H1 & H2) Hin. assert (H : exists u, In u m /\ rot t u).
  { clear H2. induction H1 as [|x y l m H H1 IH]; [easy|]. destruct Hin as [->|Hin]; [exists y; split; auto; now left|].
    destruct (IH Hin) as (u & Hu & K). exists u. split; auto. now right. }
  destruct H as (u & Hu & K). exists u. split; auto. eapply Permutation_in; eauto.
Qed.

Lemma wsum_ends w (V' : list point) q p : length V' = 2%nat -> hd_error V' = Some q -> last V' q = p -> wsum w V' == w q p.
Proof.
  destruct V' as [|a [|b [|]]]; try discriminate. cbn. intros _ H ->. injection H as ->. unfold wsum. cbn. ring.
Qed.

Lemma hd_error_map {A B} (f : A -> B) l : hd_error (map f l) = option_map f (hd_error l).
Proof. now destruct l. Qed.
Lemma last_map {A B} (f : A -> B) l d : last (map f l) (f d) = f (last l d).
Proof. induction l as [|a l IH]; [reflexivity|]. destruct l as [|b l]; [reflexivity|]. exact IH. Qed.

Theorem piece_cut {E} gv left (V : list vert) : mountain left (map snd V) -> (2 <= length V)%nat ->
  (forall v, In v V -> gv (fst v) = snd v) ->
  exists N calls, starts calls /\ covers gv left V (tris_of calls) /\
    forall fuel k t, (N <= fuel)%nat -> (N <= k)%nat ->
      build_fans (E := E) rec_new rec_ext false fuel k (mkMono V 2 2 left) t = (t ++ calls, Ok tt).
Proof.
  intros Hm H2 Hgv.
  destruct (mono_cut (E := E) false left _ V (mountain_ears left) Hm H2) as (N & calls & T & V' & Hcl & HV' & Hst & (_ & Hsame) & Hrun). specialize (Hsame eq_refl).
  exists N, calls. split; auto. split; auto.
  assert (Hpos : forall t, In t T -> tri_pos gv (idx t) = pos t).
  { intros [[a b] c] Ht. destruct (clips_in _ _ _ _ Hcl _ _ _ Ht) as (Ha & Hb & Hc). cbn. now rewrite !Hgv. }
  split; [|split].
  - rewrite (same_len _ _ Hsame), map_length. pose proof (clips_len _ _ _ _ Hcl). lia.
  - intros a b c Hin. destruct (same_in _ _ _ Hsame Hin) as (u & Hu & Hrot). apply in_map_iff in Hu. destruct Hu as ([[x y] z] & <- & Ht).
    destruct (clips_in _ _ _ _ Hcl _ _ _ Ht) as (Ha & Hb & Hc).
    pose proof (clips_ccw _ _ _ _ Hcl (proj1 Hm) _ _ _ Ht) as Hccw.
    apply (in_map fst) in Ha as Ha'. apply (in_map fst) in Hb as Hb'. apply (in_map fst) in Hc as Hc'.
    rewrite <- (Hgv _ Ha), <- (Hgv _ Hb), <- (Hgv _ Hc) in Hccw. cbn in Hrot.
    assert (Hr : cross (gv a) (gv b) (gv c) == cross (gv (fst x)) (gv (fst y)) (gv (fst z))).
    { destruct Hrot as [Hrot|[Hrot|Hrot]]; injection Hrot as <- <- <-; unfold cross; ring. }
    rewrite Hr. destruct Hrot as [Hrot|[Hrot|Hrot]]; injection Hrot as <- <- <-; auto.
  - intros w Hw q p M HV. rewrite (same_sum _ _ _ _ Hsame), sumq_map.
    rewrite (sumq_ext _ (fun t => tri_sum w (pos t))) by (intros t Ht; now rewrite Hpos).
    rewrite (clips_sum w _ _ _ _ Hw Hcl). assert (Hh : hd_error (map snd V) = Some q) by now rewrite HV.
    destruct V as [|v0 V]; [discriminate|]. destruct (clips_ends _ _ _ _ Hcl v0 v0 eq_refl) as (E1 & E2).
    assert (Hq : snd v0 = q) by (cbn in Hh; congruence).
    rewrite (wsum_ends w (map snd V') q p).
    + rewrite (Hw p q). ring.
    + now rewrite map_length.
    + rewrite hd_error_map, E1. cbn. now rewrite Hq.
    + rewrite <- Hq, last_map, E2, <- last_map, HV. rewrite last_cons_ne by (intros H; symmetry in H; now apply app_cons_not_nil in H).
      clear. induction M as [|a M IH]; [reflexivity|]. cbn [app]. rewrite last_cons_ne; auto. intros H; symmetry in H; now apply app_cons_not_nil in H.
Qed.

(** With either winding the cutting succeeds and makes as many triangles. *)
Theorem piece_run {E} cw left (V : list vert) : mountain left (map snd V) -> (2 <= length V)%nat ->
  exists N calls, starts calls /\ (length (tris_of calls) + 2 = length V)%nat /\
    forall fuel k t, (N <= fuel)%nat -> (N <= k)%nat ->
      build_fans (E := E) rec_new rec_ext cw fuel k (mkMono V 2 2 left) t = (t ++ calls, Ok tt).
Proof.
  intros Hm H2. destruct (mono_cut (E := E) cw left _ V (mountain_ears left) Hm H2) as (N & calls & T & V' & Hcl & HV' & Hst & (Hl & _) & Hrun).
  exists N, calls. split; auto. split; auto. rewrite Hl, map_length. pose proof (clips_len _ _ _ _ Hcl). lia.
Qed.

End Geom.

(** ** Areas *)

Definition det (a b : point) : Q := cx a * cy b - cy a * cx b.

(** Twice the signed area of a closed polygon. *)
Definition shoelace (l : list point) : Q := sumq (fun e => det (fst e) (snd e)) (edges l).

Lemma edges_conse {A} (a : A) l : edges (a :: l) = conse (a :: l ++ [a]).
Proof.
  unfold edges. generalize a at 2 4. intros z. revert a. induction l as [|b l IH]; intros a; [reflexivity|].
  cbn [app combine]. rewrite conse_cons2. f_equal. apply IH.
Qed.

Lemma edges_sum w q (M : list point) p : sumq (fun e => w (fst e) (snd e)) (edges (q :: M ++ [p])) == wsum w (q :: M ++ [p]) + w p q.
Proof.
  rewrite edges_conse. rewrite <- app_assoc. cbn [app]. fold (wsum w (q :: M ++ [p; q])).
  change (q :: M ++ [p; q]) with ((q :: M) ++ p :: [q]). rewrite wsum_mid. unfold wsum at 2. cbn. ring.
Qed.

Lemma det_anti : anti det.
Proof. intros a b. unfold det. ring. Qed.

Lemma det_cross t : tri_sum det t == tri_cross t.
Proof. destruct t as [[a b] c]. cbn. rewrite cross_det. unfold det. reflexivity. Qed.

(** Twice the area of an indexed triangle. *)
Definition area2 {I} (gv : I -> point) (t : I * I * I) : Q := tri_cross (tri_pos gv t).

Lemma covers_area {I} gv left (V : list (I * coords Q)) T : mountain left (map snd V) -> covers gv left V T ->
  sumq (area2 gv) T == Qabs (shoelace (map snd V)).
Proof.
  intros (_ & q & p & M & E & _) (_ & Hccw & Hsum).
  assert (H : sumq (area2 gv) T == sgn left * shoelace (map snd V)).
  { unfold shoelace. rewrite E, edges_sum, <- E, <- (Hsum det det_anti q p M E). apply sumq_ext. intros t _. now rewrite det_cross. }
  assert (Hpos : 0 <= sumq (area2 gv) T).
  { clear - Hccw. induction T as [|[[a b] c] T IH]; cbn [sumq]; [apply Qle_refl|].
    destruct (Hccw a b c) as (_ & _ & _ & H); [now left|]. assert (0 <= sumq (area2 gv) T) by (apply IH; intros; apply Hccw; now right).
    change (area2 gv (a, b, c)) with (cross (gv a) (gv b) (gv c)). lra. }
  rewrite H in *. destruct left; cbn [sgn] in *.
  - rewrite Qabs_pos by lra. ring.
  - rewrite Qabs_neg by lra. ring.
Qed.

(** ** Statement about the code *)

Theorem piece_triangles {I E} gv left (v0 : I * coords Q) l :
  mountain left (map snd (v0 :: l)) -> (3 <= length (v0 :: l))%nat -> (forall v, In v (v0 :: l) -> gv (fst v) = snd v) ->
  exists b m, feed (E := ierr) (mb_new (fst v0) (snd v0)) l = Ok b /\ mb_build b = Ok (Some m) /\
  exists N calls, (forall fuel k t, (N <= fuel)%nat -> (N <= k)%nat ->
      build_fans (E := E) rec_new rec_ext false fuel k m t = (t ++ calls, Ok tt)) /\
    (length (tris_of calls) + 2 = length (v0 :: l))%nat /\
    (forall a b c, In (a, b, c) (tris_of calls) ->
       In a (map fst (v0 :: l)) /\ In b (map fst (v0 :: l)) /\ In c (map fst (v0 :: l)) /\ 0 <= cross (gv a) (gv b) (gv c)) /\
    sumq (area2 gv) (tris_of calls) == Qabs (shoelace (map snd (v0 :: l))).
Proof.
  intros Hm H3 Hgv. destruct (build_mountain left v0 l Hm H3) as (b & Hb & _ & Hbuild). eexists _, _. split; [exact Hb|]. split; [exact Hbuild|].
  destruct (piece_cut (E := E) gv left (v0 :: l) Hm) as (N & calls & _ & Hc & Hrun); auto. { lia. }
  exists N, calls. split; auto. split; [apply Hc|]. split; [apply Hc|]. eapply covers_area; eauto.
Qed.
