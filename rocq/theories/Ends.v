(** The trapezoidation ends on every input, for arbitrary coordinates: whatever the comparisons and side tests answer
    and whatever the polygons are, no loop of the construction runs forever.  The invariant does not mention
    geometry: the nexuses can be ranked so that every trapezoid has its lower nexus ranked below its upper one. *)
From Coq Require Import List Arith Bool Lia Permutation QArith Lqa.
From Verif Require Import Base Coord Trap Mono Tri Bounds.
Import ListNotations.
Local Open Scope nat_scope.

(** ** Outcomes without exhausted budget *)

Definition ends {E A} (Q : A -> Prop) (r : res E A) : Prop :=
  match r with
  | Ok a => Q a
  | Err _ => True
  | Crash Fuel => False
  | Crash _ => True
  end.

Lemma ends_bind {E A B} (Q : A -> Prop) (R : B -> Prop) (r : res E A) (f : A -> res E B) :
  ends Q r -> (forall a, Q a -> ends R (f a)) -> ends R (bind r f).
Proof. destruct r as [a|e|[]]; simpl; auto. Qed.

Lemma ends_weaken {E A} (Q R : A -> Prop) (r : res E A) : (forall a, Q a -> R a) -> ends Q r -> ends R r.
Proof. destruct r as [a|e|[]]; simpl; auto. Qed.

Lemma ends_safe {E A} (Q R : A -> Prop) (r : res E A) : ends Q r -> safe R r -> ends (fun a => Q a /\ R a) r.
Proof. destruct r as [a|e|[]]; simpl; auto. Qed.

Lemma ends_rd {E A} (l : list A) i : ends (E := E) (fun a => nth_error l i = Some a) (rd l i).
Proof. unfold rd. destruct (nth_error l i); simpl; auto. Qed.

Lemma ends_rdu {E A} (l : list A) i : ends (E := E) (fun a => nth_error l i = Some a) (rdu l i).
Proof. unfold rdu. destruct (nth_error l i); simpl; auto. Qed.

Lemma ends_modify {E A} (l : list A) i f (Q : A -> Prop) :
  (forall a, nth_error l i = Some a -> ends Q (f a)) ->
  ends (E := E) (fun l' => exists a b, nth_error l i = Some a /\ Q b /\ f a = Ok b /\ l' = upd l i b) (modify l i f).
Proof.
  intros Hf. unfold modify. destruct (nth_error l i) eqn:En; simpl; auto.
  specialize (Hf a eq_refl). destruct (f a) as [b|e|[]] eqn:Ef; simpl in *; auto. exists a, b; auto.
Qed.

(** ** Ranks *)

Definition belowq (rk : nat -> Q) (N : nat) (v : Q) : nat :=
  length (filter (fun m => negb (Qle_bool v (rk m))) (seq 0 N)).

Lemma Qle_bool_false a b : Qle_bool a b = false -> (b < a)%Q.
Proof. intros H. apply Qnot_le_lt. intros Hle. apply Qle_bool_iff in Hle. congruence. Qed.

Lemma filter_le {A} (f g : A -> bool) l : (forall x, In x l -> f x = true -> g x = true) -> length (filter f l) <= length (filter g l).
Proof.
  induction l as [|a l IH]; simpl; intros H; auto.
  assert (IH' : length (filter f l) <= length (filter g l)) by (apply IH; auto).
  destruct (f a) eqn:Fa; [rewrite (H a (or_introl eq_refl) Fa); simpl; lia|]. destruct (g a); simpl; lia.
Qed.

Lemma filter_lt {A} (f g : A -> bool) l : (forall x, In x l -> f x = true -> g x = true) ->
  (exists x, In x l /\ f x = false /\ g x = true) -> length (filter f l) < length (filter g l).
Proof.
  induction l as [|a l IH]; intros H (x & Hx & Fx & Gx); [destruct Hx|].
  simpl. destruct Hx as [->|Hx].
  - rewrite Fx, Gx. simpl. assert (length (filter f l) <= length (filter g l)) by (apply filter_le; simpl in H; auto). lia.
  - assert (length (filter f l) < length (filter g l)) by (apply IH; [simpl in H; auto|eauto]).
    destruct (f a) eqn:Fa; [rewrite (H a (or_introl eq_refl) Fa); simpl; lia|]. destruct (g a); simpl; lia.
Qed.

Lemma filter_len {A} (f : A -> bool) l : length (filter f l) <= length l.
Proof. induction l as [|a l IH]; simpl; auto. destruct (f a); simpl; lia. Qed.

Lemma belowq_lt rk N a v : (rk a < v)%Q -> a < N -> belowq rk N (rk a) < belowq rk N v.
Proof.
  intros Hlt Ha. apply filter_lt.
  - intros x _ Hx. apply negb_true_iff in Hx. apply negb_true_iff.
    apply Qle_bool_false in Hx. destruct (Qle_bool v (rk x)) eqn:E; auto. apply Qle_bool_iff in E. exfalso. lra.
  - exists a. split; [apply in_seq; lia|]. split.
    + apply negb_false_iff. apply Qle_bool_iff. lra.
    + apply negb_true_iff. destruct (Qle_bool v (rk a)) eqn:E; auto. apply Qle_bool_iff in E. exfalso. lra.
Qed.

Lemma belowq_le rk N v : belowq rk N v <= N.
Proof. unfold belowq. etransitivity; [apply filter_len|]. rewrite seq_length. lia. Qed.

Definition aboveq (rk : nat -> Q) (N : nat) (v : Q) : nat :=
  length (filter (fun m => negb (Qle_bool (rk m) v)) (seq 0 N)).

Lemma aboveq_lt rk N a v : (v < rk a)%Q -> a < N -> aboveq rk N (rk a) < aboveq rk N v.
Proof.
  intros Hlt Ha. apply filter_lt.
  - intros x _ Hx. apply negb_true_iff in Hx. apply negb_true_iff.
    apply Qle_bool_false in Hx. destruct (Qle_bool (rk x) v) eqn:E; auto. apply Qle_bool_iff in E. exfalso. lra.
  - exists a. split; [apply in_seq; lia|]. split.
    + apply negb_false_iff. apply Qle_bool_iff. lra.
    + apply negb_true_iff. destruct (Qle_bool (rk a) v) eqn:E; auto. apply Qle_bool_iff in E. exfalso. lra.
Qed.

Lemma aboveq_le rk N v : aboveq rk N v <= N.
Proof. unfold aboveq. etransitivity; [apply filter_len|]. rewrite seq_length. lia. Qed.

(** A rank just below a given one (or above all). *)
Lemma rank_between (rk : nat -> Q) N (u : option Q) :
  exists r, (forall b, u = Some b -> (r < b)%Q) /\
    (forall m, m < N -> match u with Some b => (rk m < b)%Q -> (rk m < r)%Q | None => (rk m < r)%Q end).
Proof.
  induction N as [|N (r & H1 & H2)].
  - destruct u as [b|]; [exists (b - 1)%Q|exists 0%Q]; split; intros; try lia; try congruence.
    injection H as <-. lra.
  - destruct u as [b|].
    + destruct (Qlt_le_dec (rk N) r) as [Hl|Hl].
      * exists r. split; auto. intros m Hm Hb. destruct (Nat.eq_dec m N) as [->|Hne]; auto. apply H2; auto. lia.
      * destruct (Qlt_le_dec (rk N) b) as [Hb|Hb].
        -- exists ((rk N + b) / (2 # 1))%Q. assert (E : ((rk N + b) / (2 # 1) == (1 # 2) * (rk N + b))%Q) by field.
           split.
           ++ intros b' Hb'. injection Hb' as <-. rewrite E. lra.
           ++ intros m Hm Hmb. rewrite E. destruct (Nat.eq_dec m N) as [->|Hne]; [lra|].
              specialize (H2 m ltac:(lia) Hmb). lra.
        -- exists r. split; auto. intros m Hm Hmb. destruct (Nat.eq_dec m N) as [->|Hne]; [lra|]. apply H2; auto. lia.
    + destruct (Qlt_le_dec (rk N) r) as [Hl|Hl].
      * exists r. split; auto. intros m Hm. destruct (Nat.eq_dec m N) as [->|Hne]; auto. apply H2. lia.
      * exists (rk N + 1)%Q. split; [congruence|]. intros m Hm. destruct (Nat.eq_dec m N) as [->|Hne]; [lra|].
        specialize (H2 m ltac:(lia)). lra.
Qed.

Section Ends.
Context {C : Type} {OC : CoordOps C} {I : Type}.

Notation ups x := (iter_trapezoids (C := C) (I := I) x Asc).
Notation downs x := (iter_trapezoids (C := C) (I := I) x Desc).

(** ** The search structure *)

Definition leveled (lv : nat -> nat) (qs : list (qnode C)) : Prop :=
  (forall q l r b, nth_error qs q = Some (QBranch l r b) -> lv l < lv q /\ lv r < lv q) /\
  (forall q, lv q <= length qs).

(** A leaf becomes a branch to new leaves or to another leaf. *)
Lemma leveled_branch lv qs s ti c1 c2 b ext :
  leveled lv qs -> nth_error qs s = Some (QSink ti) ->
  ext <> [] -> Forall (fun q => exists t, q = QSink t) ext ->
  (forall c, c = c1 \/ c = c2 -> c >= length qs \/ (c <> s /\ exists t, nth_error qs c = Some (QSink t))) ->
  exists lv', leveled lv' (upd qs s (QBranch c1 c2 b) ++ ext).
Proof.
  intros (Hl & Hb) Hs Hne Hext Hc.
  assert (Hlen : length (upd qs s (QBranch c1 c2 b) ++ ext) >= S (length qs)).
  { rewrite app_length, upd_length. destruct ext; [congruence|simpl; lia]. }
  exists (fun x => match nth_error qs x with Some (QBranch _ _ _) => S (lv x) | _ => if x =? s then 1 else 0 end).
  split.
  - intros q l r b' Hq.
    destruct (lt_dec q (length qs)) as [Hql|Hql].
    2:{ rewrite nth_error_app2 in Hq by (rewrite upd_length; lia). apply nth_error_In in Hq.
        rewrite Forall_forall in Hext. apply Hext in Hq. destruct Hq as (t & Hq). discriminate. }
    rewrite nth_error_app1 in Hq by (rewrite upd_length; lia).
    rewrite nth_upd in Hq. destruct (Nat.eqb_spec s q) as [<-|Hsq].
    + rewrite Hs in Hq |- *. injection Hq as <- <- <-. rewrite Nat.eqb_refl.
      assert (K : forall c, c = c1 \/ c = c2 ->
        match nth_error qs c with Some (QBranch _ _ _) => S (lv c) | _ => if c =? s then 1 else 0 end < 1).
      { intros c Hcc. destruct (Hc c Hcc) as [Hge|(Hne' & t & Ht)].
        - rewrite (proj2 (nth_error_None qs c)) by lia. destruct (Nat.eqb_spec c s) as [->|]; [|lia].
          apply nth_lt in Hs. lia.
        - rewrite Ht. destruct (Nat.eqb_spec c s); [congruence|lia]. }
      split; apply K; auto.
    + rewrite Hq. destruct (Hl q l r b' Hq) as (H1 & H2).
      assert (K : forall c, lv c < lv q ->
        match nth_error qs c with Some (QBranch _ _ _) => S (lv c) | _ => if c =? s then 1 else 0 end < S (lv q)).
      { intros c Hcc. destruct (nth_error qs c) as [[]|]; try lia; destruct (c =? s); lia. }
      split; apply K; auto.
  - intros q. pose proof (Hb q). destruct (nth_error qs q) as [[]|]; try lia; destruct (q =? s); lia.
Qed.

Lemma find_ends lv qs c : leveled lv qs -> forall k q, lv q < k ->
  ends (fun p => nth_error qs (fst p) = Some (QSink (snd p))) (find k qs c q).
Proof.
  intros (Hl & _). induction k as [|k IH]; intros q Hk; [lia|]. cbn [find].
  eapply ends_bind; [apply ends_rdu|]. intros [l r b|ti] Hq; simpl; auto.
  destruct (Hl _ _ _ _ Hq). apply IH. destruct (use_left b c); lia.
Qed.

Lemma check_query_ends lv (st : state C I) : leveled lv (st_qs st) -> forall k q, lv q < k ->
  ends (fun _ => True) (check_query k st q).
Proof.
  intros (Hl & _). induction k as [|k IH]; intros q Hk; [lia|]. cbn [check_query].
  eapply ends_bind; [apply ends_rdu|]. intros [l r b|ti] Hq.
  - destruct (Hl _ _ _ _ Hq). eapply ends_bind; [apply IH; lia|]. intros _ _. apply IH. lia.
  - eapply ends_bind; [apply ends_rdu|]. intros; exact Logic.I.
Qed.

Lemma top_ends lv qs : leveled lv qs -> forall k q, lv q < k -> ends (fun _ => True) (top_trapezoid k qs q).
Proof.
  intros (Hl & _). induction k as [|k IH]; intros q Hk; [lia|]. cbn [top_trapezoid].
  eapply ends_bind; [apply ends_rd|]. intros [l r [|]|ti] Hq; simpl; auto.
  destruct (Hl _ _ _ _ Hq). apply IH. lia.
Qed.

Lemma for_all_ends {A} (l : list A) f : (forall a, ends (fun _ => True) (f a)) -> ends (fun _ => True) (for_all l f).
Proof.
  intros H. induction l as [|a l IH]; simpl; auto. eapply ends_bind; [apply H|]. auto.
Qed.

Lemma assert_ends b : ends (fun _ => True) (assert b).
Proof. destruct b; exact Logic.I. Qed.

Lemma check_ends dbg fuel lv (st : state C I) : leveled lv (st_qs st) -> length (st_qs st) < fuel ->
  ends (fun _ => True) (check_consistency dbg fuel st).
Proof.
  intros Hl Hf. unfold check_consistency. destruct dbg; [|exact Logic.I].
  eapply ends_bind; [apply for_all_ends|intros _ _].
  { intros ni. unfold check_nexus. eapply ends_bind; [apply ends_rdu|]. intros n _.
    eapply ends_bind; [apply for_all_ends|intros _ _; apply for_all_ends].
    - intros ti. eapply ends_bind; [apply ends_rdu|]. intros; apply assert_ends.
    - intros ti. eapply ends_bind; [apply ends_rdu|]. intros; apply assert_ends. }
  eapply ends_bind; [apply for_all_ends|intros _ _].
  { intros ti. unfold check_trapezoid. eapply ends_bind; [apply ends_rdu|]. intros t _.
    eapply (ends_bind (fun _ => True)).
    { destruct (t_d t); [|exact Logic.I]. eapply ends_bind; [apply ends_rdu|]. intros; apply assert_ends. }
    intros _ _. eapply (ends_bind (fun _ => True)).
    { destruct (t_u t); [|exact Logic.I]. eapply ends_bind; [apply ends_rdu|]. intros; apply assert_ends. }
    intros _ _. eapply ends_bind; [apply ends_rdu|]. intros [] _; [exact Logic.I|apply assert_ends]. }
  apply (check_query_ends lv); auto. destruct Hl as (_ & Hb). specialize (Hb 0). lia.
Qed.

(** ** Lists of trapezoids at a nexus *)

(** Dividers going up come first. *)
Definition ordered (x : nexus C I) : Prop :=
  match n_div x with Two a b => d_dir a = Desc -> d_dir b = Desc | _ => True end.

Lemma down_in ieqb ns ss s (x : nexus C I) : ends (fun ti => In ti (downs x)) (get_down_trapezoid ieqb ns ss s x).
Proof.
  unfold get_down_trapezoid, iter_trapezoids.
  destruct (filter_dividers x Desc) as [|a|a b]; simpl; auto.
  - eapply ends_bind; [apply ends_rd|]. intros nmin _. destruct (ieqb _ _); [exact Logic.I|].
    eapply ends_bind; [apply ends_rd|]. intros nmax _.
    eapply (ends_bind (fun _ => True)).
    { destruct (ieqb _ _); [|exact Logic.I]. eapply ends_bind; [apply ends_rd|]. intros.
      eapply ends_bind; [apply ends_rd|]. intros; exact Logic.I. }
    intros c _. simpl. destruct (is_on_left s c); auto.
  - eapply ends_bind; [apply ends_rd|]. intros nmin _. destruct (ieqb _ _); [exact Logic.I|].
    eapply ends_bind; [apply ends_rd|]. intros nmax _.
    eapply (ends_bind (fun _ => True)).
    { destruct (ieqb _ _); [|exact Logic.I]. eapply ends_bind; [apply ends_rd|]. intros.
      eapply ends_bind; [apply ends_rd|]. intros; exact Logic.I. }
    intros c _. simpl. destruct (is_on_left s c); auto.
Qed.

Lemma between_in d c1 c2 (x : nexus C I) : In (get_trapezoid_between d c1 c2 x) (iter_trapezoids x d).
Proof.
  unfold get_trapezoid_between, iter_trapezoids.
  destruct (filter_dividers x d) as [|a|a b]; simpl; auto; destruct d; destruct (is_left _ _ _); auto.
Qed.

Lemma toward_in ss ns d c (x : nexus C I) : ends (fun ti => In ti (iter_trapezoids x d)) (get_trapezoid_toward ss ns d c x).
Proof.
  unfold get_trapezoid_toward, iter_trapezoids.
  destruct (filter_dividers x d) as [|a|a b]; simpl; auto.
  eapply ends_bind; [apply ends_rd|]. intros s _. eapply ends_bind; [apply ends_rd|]. intros n1 _.
  eapply ends_bind; [apply ends_rd|]. intros n2 _. simpl. destruct (is_left _ _ _); auto.
Qed.

Ltac nodup1 := repeat match goal with
  | H : NoDup (_ :: _) |- _ => apply NoDup_cons_iff in H; destruct H
  end.

Ltac four := split; [reflexivity|split; [nodup1; simpl in *; repeat (apply NoDup_cons); try apply NoDup_nil; simpl; intuition (try congruence)
                                        |split; [intros t Ht; nodup1; simpl in *; intuition (try congruence)|auto]]].

Lemma replace_downs old new (x x' : nexus C I) :
  replace_trapezoid old new x = Ok x' -> ~ In old (ups x) -> NoDup (downs x) -> ~ In new (downs x) -> ordered x ->
  ups x' = ups x /\ NoDup (downs x') /\ (forall t, In t (downs x') -> t = new \/ (In t (downs x) /\ t <> old)) /\ ordered x'.
Proof.
  unfold replace_trapezoid, iter_trapezoids, filter_dividers, ordered.
  destruct x as [v c ul dl dv]. cbn [n_v n_c n_ul n_dl n_div first_trapezoid].
  intros Hr Hu Hn Hnew Ho.
  destruct (Nat.eqb_spec ul old) as [->|Hul]; [exfalso; apply Hu; simpl; auto|].
  destruct (Nat.eqb_spec dl old) as [->|Hdl].
  - injection Hr as <-. cbn [n_v n_c n_ul n_dl n_div first_trapezoid].
    destruct dv as [|[s0 r0 []]|[s0 r0 []] [s1 r1 []]]; cbn [dir_eqb d_dir d_r] in *; four.
  - destruct dv as [|[s0 r0 d0]|[s0 r0 d0] [s1 r1 d1]]; cbn [d_r] in Hr; [discriminate| |].
    + destruct (Nat.eqb_spec r0 old) as [->|]; [|discriminate]. injection Hr as <-.
      destruct d0; cbn [dir_eqb d_dir d_r n_v n_c n_ul n_dl n_div first_trapezoid set_divr d_si] in *; [exfalso; apply Hu; simpl; auto|].
      four.
    + destruct (Nat.eqb_spec r0 old) as [->|Hr0].
      { injection Hr as <-.
        destruct d0; cbn [dir_eqb d_dir d_r n_v n_c n_ul n_dl n_div first_trapezoid set_divr d_si] in *.
        { destruct d1; exfalso; apply Hu; simpl; auto. }
        rewrite (Ho eq_refl) in *. cbn [dir_eqb] in *. four. }
      destruct (Nat.eqb_spec r1 old) as [->|Hr1]; [|discriminate].
      injection Hr as <-.
      destruct d0, d1; cbn [dir_eqb d_dir d_r n_v n_c n_ul n_dl n_div first_trapezoid set_divr d_si] in *;
        try (specialize (Ho eq_refl); discriminate); try solve [exfalso; apply Hu; simpl; auto]; four.
Qed.

Lemma replace_vc old new (x x' : nexus C I) : replace_trapezoid old new x = Ok x' -> n_v x' = n_v x /\ n_c x' = n_c x.
Proof.
  unfold replace_trapezoid. intros H.
  repeat (match type of H with (if ?b then _ else _) = _ => destruct b | match ?z with Zero => _ | One _ => _ | Two _ _ => _ end = _ => destruct z end;
    try discriminate; try (injection H as <-; auto)).
Qed.

Lemma replace_ups old new (x x' : nexus C I) :
  replace_trapezoid old new x = Ok x' -> ~ In old (downs x) -> ordered x ->
  downs x' = downs x /\ (forall t, In t (ups x') -> t = new \/ In t (ups x)) /\ ordered x'.
Proof.
  unfold replace_trapezoid, iter_trapezoids, filter_dividers, ordered.
  destruct x as [v c ul dl dv]. cbn [n_v n_c n_ul n_dl n_div first_trapezoid].
  intros Hr Hd Ho.
  destruct (Nat.eqb_spec ul old) as [->|Hul].
  - injection Hr as <-. cbn [n_v n_c n_ul n_dl n_div first_trapezoid]. repeat split; auto.
    intros t Ht; simpl in *; intuition auto.
  - destruct (Nat.eqb_spec dl old) as [->|Hdl]; [exfalso; apply Hd; simpl; auto|].
    destruct dv as [|[s0 r0 d0]|[s0 r0 d0] [s1 r1 d1]]; cbn [d_r] in Hr; [discriminate| |].
    + destruct (Nat.eqb_spec r0 old) as [->|]; [|discriminate]. injection Hr as <-.
      destruct d0; cbn [dir_eqb d_dir d_r n_v n_c n_ul n_dl n_div first_trapezoid set_divr d_si] in *; [|exfalso; apply Hd; simpl; auto].
      repeat split; auto. intros t Ht; simpl in *; intuition auto.
    + destruct (Nat.eqb_spec r0 old) as [->|Hr0].
      { injection Hr as <-.
        destruct d0, d1; cbn [dir_eqb d_dir d_r n_v n_c n_ul n_dl n_div first_trapezoid set_divr d_si] in *;
          try solve [exfalso; apply Hd; simpl; auto]; repeat split; auto; intros t Ht; simpl in *; intuition auto. }
      destruct (Nat.eqb_spec r1 old) as [->|Hr1]; [|discriminate].
      injection Hr as <-.
      destruct d0, d1; cbn [dir_eqb d_dir d_r n_v n_c n_ul n_dl n_div first_trapezoid set_divr d_si] in *;
          try solve [exfalso; apply Hd; simpl; auto]; repeat split; auto; intros t Ht; simpl in *; intuition auto.
Qed.

Definition other (d : dir) : dir := match d with Asc => Desc | Desc => Asc end.

Lemma add_div_lists ns ss ni si r (P : dir -> Prop) :
  ends P (get_segment_direction ss ni si) ->
  ends (fun ns' => exists x x' d, P d /\ nth_error ns ni = Some x /\ ns' = upd ns ni x' /\ (n_v x' = n_v x /\ n_c x' = n_c x) /\
     iter_trapezoids x' (other d) = iter_trapezoids x (other d) /\
     (forall t, In t (iter_trapezoids x' d) -> t = r \/ In t (iter_trapezoids x d)) /\
     (NoDup (iter_trapezoids x d) -> ~ In r (iter_trapezoids x d) -> NoDup (iter_trapezoids x' d)) /\
     (ordered x -> ordered x'))
    (nexus_add_segment (C := C) (I := I) ns ss ni si r).
Proof.
  intros HP. unfold nexus_add_segment.
  eapply ends_bind; [exact HP|]. intros d Hd. cbv zeta.
  eapply ends_bind; [apply ends_rd|]. intros x Hx.
  eapply (ends_bind (fun divs =>
    let x' := mkNexus (n_v x) (n_c x) (n_ul x) (n_dl x) divs in
    iter_trapezoids x' (other d) = iter_trapezoids x (other d) /\
     (forall t, In t (iter_trapezoids x' d) -> t = r \/ In t (iter_trapezoids x d)) /\
     (NoDup (iter_trapezoids x d) -> ~ In r (iter_trapezoids x d) -> NoDup (iter_trapezoids x' d)) /\
     (ordered x -> ordered x'))).
  2:{ intros divs (H1 & H2 & H3 & H4). simpl.
      exists x, (mkNexus (n_v x) (n_c x) (n_ul x) (n_dl x) divs), d. repeat split; auto. }
  unfold iter_trapezoids, filter_dividers, ordered. cbv zeta.
  destruct (n_div x) as [|[s0 r0 d0]|a b]; [| |exact Logic.I].
  - simpl. destruct d; simpl; (split; [reflexivity|]); (split; [simpl; intros; intuition auto|]); split; auto;
      intros _ Hr; repeat (apply NoDup_cons); try apply NoDup_nil; simpl in *; intuition (try congruence).
  - eapply (ends_bind (fun swap : bool => d0 = d \/ swap = dir_eqb d Asc)).
    { cbn [d_dir]. destruct (dir_eqb d0 d) eqn:Ed; [|simpl; auto].
      assert (d0 = d) by (destruct d0, d; simpl in Ed; congruence).
      eapply ends_bind; [apply ends_rd|]. intros u0 _. eapply ends_bind; [apply ends_rd|]. intros u1 _.
      eapply ends_bind; [apply ends_rd|]. intros n1 _. simpl. auto. }
    intros sw Hsw. destruct d0, d; destruct sw; destruct Hsw as [Hsw|Hsw]; try discriminate Hsw; cbn;
      (split; [reflexivity|]); (split; [simpl; intros; intuition auto|]); (split; [|auto]);
      intros Hn Hr; nodup1; simpl in *; repeat (apply NoDup_cons); try apply NoDup_nil; simpl; intuition (try congruence).
Qed.

Lemma direction_ends ss ni si :
  ends (fun d => exists s, nth_error ss si = Some s /\
          ((ni = s_max s /\ d = Desc) \/ (ni <> s_max s /\ ni = s_min s /\ d = Asc)))
    (get_segment_direction (C := C) ss ni si).
Proof.
  unfold get_segment_direction. eapply ends_bind; [apply ends_rd|]. intros s Hs.
  destruct (Nat.eqb_spec ni (s_max s)); [simpl; exists s; auto|].
  destruct (Nat.eqb_spec ni (s_min s)); simpl; auto. exists s; auto.
Qed.

(** ** The invariant *)

Variable gv : I -> coords C.

Record tidy (rk : nat -> Q) (st : state C I) : Prop := mkTidy {
  td_down : forall n x t, nth_error (st_ns st) n = Some x -> In t (downs x) ->
              exists y, nth_error (st_ts st) t = Some y /\ t_u y = Some n;
  td_nd : forall n x, nth_error (st_ns st) n = Some x -> NoDup (downs x);
  td_ord : forall n x, nth_error (st_ns st) n = Some x -> ordered x;
  td_upr : forall n x t, nth_error (st_ns st) n = Some x -> In t (ups x) -> t < length (st_ts st);
  td_up : forall n x t y u, nth_error (st_ns st) n = Some x -> In t (ups x) -> nth_error (st_ts st) t = Some y ->
            t_u y = Some u -> (rk n < rk u)%Q;
  td_du : forall t y d u, nth_error (st_ts st) t = Some y -> t_d y = Some d -> t_u y = Some u -> (rk d < rk u)%Q;
  td_rng : forall t y, nth_error (st_ts st) t = Some y -> opt_lt (t_d y) (length (st_ns st)) /\ opt_lt (t_u y) (length (st_ns st));
  td_sink : forall t y, nth_error (st_ts st) t = Some y -> nth_error (st_qs st) (t_k y) = Some (QSink t);
  td_c : forall n x, nth_error (st_ns st) n = Some x -> n_c x = gv (n_v x);
  td_lv : exists lv, leveled lv (st_qs st)
}.

Definition good (st : state C I) : Prop := exists rk, tidy rk st.

Lemma tidy_new : tidy (fun _ => 0%Q) (state_new (C := C) (I := I)).
Proof.
  split; unfold state_new; cbn [st_ns st_ts st_qs].
  1-5: intros [|n]; discriminate.
  - intros [|[|t]] y d u H; try discriminate. injection H as <-. discriminate.
  - intros [|[|t]] y H; try discriminate. injection H as <-. simpl. auto.
  - intros [|[|t]] y H; try discriminate. injection H as <-. reflexivity.
  - intros [|n]; discriminate.
  - exists (fun _ => 0). split; [|simpl; lia]. intros [|[|q]] l r b; discriminate.
Qed.

(** Level and leaf of every trapezoid when one leaf is split. *)
Lemma sink_other (ts : list trap) (qs : list (qnode C)) s ti q' ext t y :
  (forall t y, nth_error ts t = Some y -> nth_error qs (t_k y) = Some (QSink t)) ->
  nth_error qs s = Some (QSink ti) -> nth_error ts t = Some y -> t <> ti ->
  nth_error (upd qs s q' ++ ext) (t_k y) = Some (QSink t).
Proof.
  intros Hs Hq Ht Hne. apply nth_app_l. rewrite nth_upd_ne; auto.
  intros ->. rewrite (Hs _ _ Ht) in Hq. congruence.
Qed.

Lemma nth_snoc_inv {A} (l : list A) x i a : nth_error (l ++ [x]) i = Some a ->
  (nth_error l i = Some a /\ i < length l) \/ (i = length l /\ a = x).
Proof.
  intros H. destruct (lt_dec i (length l)) as [Hl|Hl].
  - rewrite nth_error_app1 in H by lia. auto.
  - rewrite nth_error_app2 in H by lia. destruct (i - length l) as [|k] eqn:E.
    + right. injection H as <-. split; [lia|auto].
    + simpl in H. destruct k; discriminate.
Qed.

Lemma nth_upd_inv {A} (l : list A) i x j a : nth_error (upd l i x) j = Some a ->
  (j <> i /\ nth_error l j = Some a) \/ (j = i /\ a = x /\ exists b, nth_error l i = Some b).
Proof.
  rewrite nth_upd. destruct (Nat.eqb_spec i j) as [<-|Hne]; intros H.
  - right. destruct (nth_error l i); [|discriminate]. injection H as <-. eauto.
  - left. auto.
Qed.

Section Insert.
Variable ieqb : I -> I -> bool.
Variable dbg : bool.
Variable fuel : nat.

Notation nn st := (length (st_ns st)).
Notation nq st := (length (st_qs st)).

Lemma add_vertex_ends st vi qi : good st -> nq st + 2 < fuel ->
  ends (fun p => good (fst p) /\ snd p = nn st /\ nn (fst p) = nn st + 1 /\ nq (fst p) = nq st + 2)
    (add_vertex gv dbg fuel st vi qi).
Proof.
  intros (rk & [Hd Hnd Hor Hur Hup Hdu Hrg Hsk Hcc (lv & Hlv)]) Hf. unfold add_vertex. cbv zeta.
  eapply ends_bind.
  { apply (find_ends lv); eauto. destruct Hlv as (_ & Hb). specialize (Hb qi). lia. }
  intros [qp ti] Hqp. cbn [fst snd] in Hqp.
  eapply ends_bind; [apply ends_rd|]. intros q_left Hql. rewrite Hqp in Hql. injection Hql as <-.
  eapply ends_bind; [apply ends_rd|]. intros t Ht. cbn [split_horizontal set_sink t_l t_r t_d t_u t_k].
  destruct (rank_between rk (nn st) (match t_u t with Some u => Some (rk u) | None => None end)) as (r & Hr1 & Hr2).
  set (n0 := nn st) in *. set (tn := length (st_ts st)).
  set (rk' := fun m => if m =? n0 then r else rk m).
  assert (Krk : forall m, m < n0 -> rk' m = rk m).
  { intros m Hm. unfold rk'. destruct (Nat.eqb_spec m n0); [lia|auto]. }
  assert (Kn0 : rk' n0 = r) by (unfold rk'; now rewrite Nat.eqb_refl).
  destruct (Hrg _ _ Ht) as (Rd & Ru).
  eapply (ends_bind (fun ns2 => length ns2 = n0 + 1 /\
     (forall n x, nth_error ns2 n = Some x -> NoDup (downs x) /\ ordered x /\ n_c x = gv (n_v x)) /\
     (forall n x, n < n0 -> nth_error ns2 n = Some x -> exists x0, nth_error (st_ns st) n = Some x0 /\
        ups x = ups x0 /\
        (forall s, In s (downs x) -> (s = tn /\ t_u t = Some n) \/ (In s (downs x0) /\ (t_u t = Some n -> s <> ti)))) /\
     nth_error ns2 n0 = Some (nexus_new vi (gv vi) tn ti))).
  { set (xn := nexus_new vi (gv vi) tn ti).
    assert (Hnew : NoDup (downs xn) /\ ordered xn /\ n_c xn = gv (n_v xn)).
    { unfold xn, nexus_new, iter_trapezoids, filter_dividers, ordered; simpl. split; [repeat constructor; auto|auto]. }
    assert (Hall : forall n x, nth_error (st_ns st ++ [xn]) n = Some x -> NoDup (downs x) /\ ordered x /\ n_c x = gv (n_v x)).
    { intros n x Hx. apply nth_snoc_inv in Hx. destruct Hx as [(Hx & _)|(_ & ->)]; [split; [eauto|split; eauto]|auto]. }
    destruct (t_u t) as [nu|] eqn:Eu; cbn [opt_lt] in Ru.
    - eapply ends_weaken; [|apply (ends_modify _ _ _ (fun _ => True))].
      2:{ intros a _. destruct (replace_trapezoid ti tn a) as [|e|c] eqn:Er; simpl; auto.
          unfold replace_trapezoid in Er. destruct (_ =? _); [discriminate|]. destruct (_ =? _); [discriminate|].
          destruct (n_div a); [discriminate| |]; repeat (destruct (_ =? _); [discriminate|]); discriminate. }
      intros ns2 (a & b & Ha & _ & Eb & ->).
      assert (Ha' : nth_error (st_ns st) nu = Some a).
      { rewrite nth_error_app1 in Ha by lia. exact Ha. }
      destruct (replace_downs ti tn a b Eb) as (U1 & U2 & U3 & U4); eauto.
      { intros Hin. specialize (Hup nu a ti t nu Ha' Hin Ht Eu). lra. }
      { intros Hin. destruct (Hd nu a tn Ha' Hin) as (y & Hy & _). apply nth_lt in Hy. unfold tn in Hy. lia. }
      split; [rewrite upd_length, app_length; simpl; unfold n0; lia|]. split.
      { intros n x Hx. apply nth_upd_inv in Hx. destruct Hx as [(_ & Hx)|(_ & -> & _)]; [eauto|].
        destruct (replace_vc _ _ _ _ Eb) as (V1 & V2). rewrite V1, V2. eauto. }
      split.
      + intros n x Hn Hx. apply nth_upd_inv in Hx. destruct Hx as [(Hne & Hx)|(-> & -> & _)].
        * rewrite nth_error_app1 in Hx by (unfold n0 in Hn; lia). exists x. split; auto. split; auto.
          intros s Hs. right. split; auto. congruence.
        * exists a. split; auto. split; auto. intros s Hs. destruct (U3 s Hs) as [->|(H1 & H2)]; auto.
      + rewrite nth_upd_ne by (unfold n0; lia). apply nth_snoc.
    - simpl. split; [rewrite app_length; simpl; unfold n0; lia|]. split; auto. split.
      + intros n x Hn Hx. rewrite nth_error_app1 in Hx by (unfold n0 in Hn; lia). exists x. split; auto. split; auto.
        intros s Hs. right. split; auto. congruence.
      + apply nth_snoc. }
  intros ns2 (Hlen & Hnd2 & Hold & Hnew).
  match goal with |- context [check_consistency dbg fuel ?s] => set (st' := s) end.
  assert (Htn : tn = length (upd (st_ts st) ti (mkTrap (t_l t) (t_r t) (t_d t) (Some n0) (nq st)))) by (rewrite upd_length; auto).
  assert (G : tidy rk' st').
  { split; unfold st'; cbn [st_ns st_ts st_qs].
    - intros n x s Hx Hs. destruct (lt_dec n n0) as [Hn|Hn].
      + destruct (Hold n x Hn Hx) as (x0 & Hx0 & _ & Hs'). destruct (Hs' s Hs) as [(-> & Hu)|(Hin & Hni)].
        * exists (mkTrap (t_l t) (t_r t) (Some n0) (t_u t) (nq st + 1)). split; [|exact Hu].
          rewrite Htn. apply nth_snoc.
        * destruct (Hd n x0 s Hx0 Hin) as (y & Hy & Hyu).
          assert (Hsi : s <> ti). { intros ->. rewrite Ht in Hy. injection Hy as <-. apply (Hni Hyu). reflexivity. }
          exists y. split; auto. apply nth_app_l. rewrite nth_upd_ne; auto.
      + assert (n = n0) as -> by (apply nth_lt in Hx; lia). rewrite Hnew in Hx. injection Hx as <-.
        unfold iter_trapezoids, filter_dividers, nexus_new in Hs; simpl in Hs. destruct Hs as [<-|[]].
        exists (mkTrap (t_l t) (t_r t) (t_d t) (Some n0) (nq st)). split; [|reflexivity].
        apply nth_app_l. apply nth_upd_eq. now apply nth_lt in Ht.
    - intros n x Hx. apply (Hnd2 n x Hx).
    - intros n x Hx. apply (Hnd2 n x Hx).
    - intros n x s Hx Hs. rewrite app_length, upd_length. simpl. destruct (lt_dec n n0) as [Hn|Hn].
      + destruct (Hold n x Hn Hx) as (x0 & Hx0 & Hu & _). rewrite Hu in Hs. specialize (Hur n x0 s Hx0 Hs). lia.
      + assert (n = n0) as -> by (apply nth_lt in Hx; lia). rewrite Hnew in Hx. injection Hx as <-.
        unfold iter_trapezoids, filter_dividers, nexus_new in Hs; simpl in Hs. destruct Hs as [<-|[]]. unfold tn. lia.
    - intros n x s y u Hx Hs Hy Hyu. destruct (lt_dec n n0) as [Hn|Hn].
      + destruct (Hold n x Hn Hx) as (x0 & Hx0 & Hu & _). rewrite Hu in Hs. rewrite (Krk n Hn).
        pose proof (Hur n x0 s Hx0 Hs) as Hsl.
        apply nth_snoc_inv in Hy. destruct Hy as [(Hy & _)|(-> & _)]; [|rewrite upd_length in Hsl; lia].
        apply nth_upd_inv in Hy. destruct Hy as [(Hne & Hy)|(-> & -> & _)].
        * rewrite (Krk u). { eapply Hup; eauto. } destruct (Hrg _ _ Hy) as (_ & Hr). rewrite Hyu in Hr. exact Hr.
        * cbn [t_u] in Hyu. injection Hyu as <-. rewrite Kn0. specialize (Hr2 n Hn).
          destruct (t_u t) as [w|] eqn:Ew; auto. apply Hr2. exact (Hup n x0 ti t w Hx0 Hs Ht Ew).
      + assert (n = n0) as -> by (apply nth_lt in Hx; lia). rewrite Hnew in Hx. injection Hx as <-.
        unfold iter_trapezoids, filter_dividers, nexus_new in Hs; simpl in Hs. destruct Hs as [<-|[]].
        rewrite Htn, nth_snoc in Hy. injection Hy as <-. cbn [t_u] in Hyu. rewrite Hyu in *. cbn [opt_lt] in Ru.
        rewrite Kn0, (Krk u Ru). apply Hr1. reflexivity.
    - intros s y d u Hy Hyd Hyu. apply nth_snoc_inv in Hy. destruct Hy as [(Hy & _)|(-> & ->)].
      + apply nth_upd_inv in Hy. destruct Hy as [(Hne & Hy)|(-> & -> & _)].
        * destruct (Hrg _ _ Hy) as (R1 & R2). rewrite Hyd in R1. rewrite Hyu in R2. cbn [opt_lt] in R1, R2.
          rewrite (Krk d R1), (Krk u R2). eapply Hdu; eauto.
        * cbn [t_u t_d] in Hyu, Hyd. injection Hyu as <-. rewrite Hyd in *. cbn [opt_lt] in Rd. rewrite Kn0, (Krk d Rd).
          specialize (Hr2 d Rd). destruct (t_u t) as [w|] eqn:Ew; auto. apply Hr2. exact (Hdu ti t d w Ht Hyd Ew).
      + cbn [t_u t_d] in Hyu, Hyd. injection Hyd as <-. rewrite Hyu in *. cbn [opt_lt] in Ru. rewrite Kn0, (Krk u Ru).
        apply Hr1. reflexivity.
    - intros s y Hy. rewrite Hlen. apply nth_snoc_inv in Hy. destruct Hy as [(Hy & _)|(-> & ->)].
      + apply nth_upd_inv in Hy. destruct Hy as [(Hne & Hy)|(-> & -> & _)].
        * destruct (Hrg _ _ Hy) as (R1 & R2). split; eapply opt_lt_mono; try eassumption; unfold n0; lia.
        * cbn [t_u t_d]. split; [eapply opt_lt_mono; [|exact Rd]; unfold n0; lia|simpl; lia].
      + cbn [t_u t_d]. split; [simpl; lia|eapply opt_lt_mono; [|exact Ru]; unfold n0; lia].
    - intros s y Hy. apply nth_snoc_inv in Hy. destruct Hy as [(Hy & _)|(-> & ->)].
      + apply nth_upd_inv in Hy. rewrite <- app_assoc. destruct Hy as [(Hne & Hy)|(-> & -> & _)].
        * eapply sink_other; eauto.
        * cbn [t_k]. rewrite nth_error_app2 by (rewrite upd_length; lia). rewrite upd_length, Nat.sub_diag. reflexivity.
      + cbn [t_k]. rewrite <- Htn. rewrite nth_error_app2; rewrite app_length, upd_length; simpl; [|lia].
        now rewrite Nat.sub_diag.
    - intros n x Hx. apply (Hnd2 n x Hx).
    - rewrite <- app_assoc. eapply leveled_branch; [exact Hlv|exact Hqp|discriminate|repeat constructor; eauto|].
      intros c [->| ->]; left; lia. }
  destruct G as [G1 G2 G3 G4 G5 G6 G7 G8 G10 (lv' & G9)].
  assert (Hq' : nq st' = nq st + 2).
  { unfold st'; cbn [st_qs]. rewrite !app_length, upd_length; simpl; lia. }
  eapply ends_bind; [eapply check_ends; [exact G9|lia]|].
  intros _ _. simpl. split; [exists rk'; split; eauto|]. split; auto.
Qed.

Lemma replace_ends old new (x : nexus C I) : ends (fun _ => True) (replace_trapezoid old new x).
Proof.
  destruct (replace_trapezoid old new x) as [|e|c] eqn:Er; simpl; auto.
  unfold replace_trapezoid in Er. destruct (_ =? _); [discriminate|]. destruct (_ =? _); [discriminate|].
  destruct (n_div x); [discriminate| |]; repeat (destruct (_ =? _); [discriminate|]); discriminate.
Qed.

(** Replacing in the upper list of a nexus. *)
Lemma tidy_replace_up rk st st' ni old new yo yn :
  tidy rk st -> nth_error (st_ts st) old = Some yo -> t_u yo <> Some ni ->
  nth_error (st_ts st) new = Some yn -> (forall u, t_u yn = Some u -> (rk ni < rk u)%Q) ->
  st_ts st' = st_ts st -> st_qs st' = st_qs st ->
  (exists a b, nth_error (st_ns st) ni = Some a /\ replace_trapezoid old new a = Ok b /\ st_ns st' = upd (st_ns st) ni b) ->
  tidy rk st'.
Proof.
  intros [Hd Hnd Hor Hur Hup Hdu Hrg Hsk Hcc Hlv] Ho Hou Hn Hnu Et Eq (a & b & Ha & Eb & En).
  destruct (replace_ups old new a b Eb) as (U1 & U2 & U3).
  { intros Hin. destruct (Hd ni a old Ha Hin) as (y & Hy & Hyu). congruence. }
  { eauto. }
  split; rewrite ?Et, ?Eq, ?En, ?upd_length; auto.
  - intros n x s Hx Hs. apply nth_upd_inv in Hx. destruct Hx as [(_ & Hx)|(-> & -> & _)]; eauto.
    rewrite U1 in Hs. eauto.
  - intros n x Hx. apply nth_upd_inv in Hx. destruct Hx as [(_ & Hx)|(-> & -> & _)]; eauto. rewrite U1. eauto.
  - intros n x Hx. apply nth_upd_inv in Hx. destruct Hx as [(_ & Hx)|(-> & -> & _)]; eauto.
  - intros n x s Hx Hs. apply nth_upd_inv in Hx. destruct Hx as [(_ & Hx)|(-> & -> & _)]; eauto.
    destruct (U2 s Hs) as [->|Hs']; eauto. now apply nth_lt in Hn.
  - intros n x s y u Hx Hs Hy Hyu. apply nth_upd_inv in Hx. destruct Hx as [(_ & Hx)|(-> & -> & _)].
    { eapply Hup; [exact Hx|exact Hs|exact Hy|exact Hyu]. }
    destruct (U2 s Hs) as [->|Hs'].
    + rewrite Hn in Hy. injection Hy as <-. auto.
    + eapply Hup; [exact Ha|exact Hs'|exact Hy|exact Hyu].
  - intros n x Hx. apply nth_upd_inv in Hx. destruct Hx as [(_ & Hx)|(-> & -> & _)]; [eauto|].
    destruct (replace_vc _ _ _ _ Eb) as (V1 & V2). rewrite V1, V2. eauto.
Qed.

(** One step of [seg_loop] on trapezoids and search structure: [ti] gets a new leaf, [tj] a new lower nexus. *)
Lemma tidy_step rk st st' lv ti tj y yj y' yj' nd qs' :
  tidy rk st -> leveled lv qs' ->
  nth_error (st_ts st) ti = Some y -> nth_error (st_ts st) tj = Some yj -> ti <> tj ->
  t_u y' = t_u y -> t_d y' = t_d y -> nth_error qs' (t_k y') = Some (QSink ti) ->
  t_u yj' = t_u yj -> t_d yj' = Some nd -> t_k yj' = t_k yj -> t_d y = Some nd ->
  (forall u, t_u yj = Some u -> (rk nd < rk u)%Q) ->
  (forall t z, nth_error (st_ts st) t = Some z -> t <> ti -> nth_error qs' (t_k z) = Some (QSink t)) ->
  st_ns st' = st_ns st -> st_ts st' = upd (upd (st_ts st) ti y') tj yj' -> st_qs st' = qs' ->
  tidy rk st'.
Proof.
  intros [Hd Hnd Hor Hur Hup Hdu Hrg Hsk Hcc Hlv0] Hlv Hi Hj Hne Y1 Y2 Y3 J1 J2 J3 Hyd Hju Hoth En Et Eq.
  assert (K : forall t z, nth_error (st_ts st') t = Some z -> exists z0, nth_error (st_ts st) t = Some z0 /\ t_u z = t_u z0).
  { rewrite Et. intros t z Hz. apply nth_upd_inv in Hz. destruct Hz as [(_ & Hz)|(-> & -> & _)]; [|eauto].
    apply nth_upd_inv in Hz. destruct Hz as [(_ & Hz)|(-> & -> & _)]; eauto. }
  assert (K' : forall t z0, nth_error (st_ts st) t = Some z0 -> exists z, nth_error (st_ts st') t = Some z /\ t_u z = t_u z0).
  { rewrite Et. intros t z0 Hz. destruct (Nat.eq_dec t tj) as [->|Htj].
    - exists yj'. split; [|congruence]. apply nth_upd_eq. rewrite upd_length. now apply nth_lt in Hz.
    - rewrite nth_upd_ne by auto. destruct (Nat.eq_dec t ti) as [->|Hti].
      + exists y'. split; [|congruence]. apply nth_upd_eq. now apply nth_lt in Hz.
      + exists z0. rewrite nth_upd_ne by auto. auto. }
  split; rewrite ?En, ?Eq; auto.
  - intros n x s Hx Hs. destruct (Hd n x s Hx Hs) as (z0 & Hz0 & Hu). destruct (K' s z0 Hz0) as (z & Hz & Hzu).
    exists z. split; auto. congruence.
  - intros n x s Hx Hs. rewrite Et, !upd_length. eauto.
  - intros n x s z u Hx Hs Hz Hzu. destruct (K s z Hz) as (z0 & Hz0 & Hu).
    apply (Hup n x s z0 u Hx Hs Hz0). congruence.
  - intros s z d u Hz Hzd Hzu. rewrite Et in Hz.
    apply nth_upd_inv in Hz. destruct Hz as [(_ & Hz)|(-> & -> & _)].
    + apply nth_upd_inv in Hz. destruct Hz as [(_ & Hz)|(-> & -> & _)].
      * apply (Hdu s z d u Hz Hzd Hzu).
      * rewrite Y1 in Hzu. rewrite Y2 in Hzd. apply (Hdu ti y d u Hi Hzd Hzu).
    + rewrite J1 in Hzu. rewrite J2 in Hzd. injection Hzd as <-. auto.
  - intros s z Hz. rewrite Et in Hz.
    apply nth_upd_inv in Hz. destruct Hz as [(_ & Hz)|(-> & -> & _)].
    + apply nth_upd_inv in Hz. destruct Hz as [(_ & Hz)|(-> & -> & _)]; [eauto|].
      rewrite Y1, Y2. eauto.
    + rewrite J1, J2. split; [|apply (Hrg _ _ Hj)]. destruct (Hrg _ _ Hi) as (R & _). now rewrite Hyd in R.
  - intros s z Hz. rewrite Et in Hz.
    apply nth_upd_inv in Hz. destruct Hz as [(_ & Hz)|(-> & -> & _)].
    + apply nth_upd_inv in Hz. destruct Hz as [(Hs & Hz)|(-> & -> & _)]; auto.
    + rewrite J3. auto.
  - eauto.
Qed.

Ltac conj := repeat match goal with |- _ /\ _ => split end.

Lemma seg_loop_ends rk si ni_min c_min c_max : forall k st ni tl tr yl yr,
  tidy rk st -> nth_error (st_ts st) tl = Some yl -> t_d yl = Some ni ->
  nth_error (st_ts st) tr = Some yr -> t_d yr = Some ni -> belowq rk (nn st) (rk ni) < k ->
  ends (fun p => tidy rk (fst p) /\ nn (fst p) = nn st /\ st_ss (fst p) = st_ss st /\
          nq (fst p) <= nq st + belowq rk (nn st) (rk ni) /\
          (rk ni_min <= rk ni)%Q /\
          exists y, nth_error (st_ts (fst p)) (snd p) = Some y /\ t_d y = Some ni_min)
    (seg_loop ieqb k st si ni_min c_min c_max ni tl tr).
Proof.
  induction k as [|k IH]; intros st ni tl tr yl yr Ht Hl Hld Hr Hrd Hk; [lia|]. cbn [seg_loop].
  destruct (Nat.eqb_spec ni ni_min) as [->|Hnm].
  { simpl. conj; auto; try lia; try lra. eauto. }
  pose proof Ht as [Hd Hnd Hor Hur Hup Hdu Hrg Hsk Hcc (lv & Hlv)].
  eapply ends_bind; [apply ends_rdu|]. intros n Hn.
  eapply ends_bind; [apply ends_rdu|]. intros s Hs.
  eapply ends_bind; [apply down_in|]. intros ti Hin.
  destruct (Hd ni n ti Hn Hin) as (t & Hti & Htu).
  unfold rdu at 1. rewrite Hti. cbn [bind].
  unfold ok_or. destruct (t_d t) as [nd|] eqn:Etd; cbn [bind]; [|exact Logic.I].
  unfold rdu at 1. rewrite Hl. cbn [bind]. unfold rdu at 1. rewrite Hr. cbn [bind]. cbv zeta.
  assert (Hlt : (rk nd < rk ni)%Q) by exact (Hdu ti t nd ni Hti Etd Htu).
  assert (Hndl : nd < nn st). { destruct (Hrg _ _ Hti) as (R & _). now rewrite Etd in R. }
  assert (Hbl : belowq rk (nn st) (rk nd) < belowq rk (nn st) (rk ni)) by (apply belowq_lt; auto).
  assert (Hnni : nd <> ni) by (intros ->; lra).
  assert (Hne_l : ti <> tl). { intros ->. rewrite Hti in Hl. injection Hl as <-. congruence. }
  assert (Hne_r : ti <> tr). { intros ->. rewrite Hti in Hr. injection Hr as <-. congruence. }
  pose proof (Hsk _ _ Hti) as Hqs. pose proof (Hsk _ _ Hl) as Hql. pose proof (Hsk _ _ Hr) as Hqr.
  assert (Hoth : forall q' ext t0 z, nth_error (st_ts st) t0 = Some z -> t0 <> ti ->
     nth_error (upd (st_qs st) (t_k t) q' ++ ext) (t_k z) = Some (QSink t0)).
  { intros. eapply sink_other; eauto. }
  assert (Hnew : forall q', nth_error (upd (st_qs st) (t_k t) q' ++ [QSink ti]) (nq st) = Some (QSink ti)).
  { intros q'. replace (nq st) with (length (upd (st_qs st) (t_k t) q')) by apply upd_length. apply nth_snoc. }
  destruct (onat_eqb (t_r t) (t_r yr)).
  - unfold rd at 1. rewrite Hqs. cbn [bind]. unfold modify at 1. rewrite Hti. cbn [bind].
    unfold modify at 1. rewrite nth_upd_ne by auto. rewrite Hr. cbn [bind].
    match goal with |- context [upd (st_qs st) (t_k t) ?q ++ _] => set (qb := q) end.
    assert (exists lv', leveled lv' (upd (st_qs st) (t_k t) qb ++ [QSink ti])) as (lv' & Hlv').
    { eapply leveled_branch; [exact Hlv|exact Hqs|discriminate|repeat constructor; eauto|].
      intros c [->| ->]; [left; lia|right]. split; eauto. intros E. rewrite E in Hqr. congruence. }
    set (ts2 := upd (upd (st_ts st) ti (set_right si (set_sink (nq st) t))) tr (set_down nd yr)).
    set (st1 := mkState (st_ns st) (st_ss st) ts2 (upd (st_qs st) (t_k t) qb ++ [QSink ti])).
    assert (T1 : tidy rk st1).
    { eapply (tidy_step rk st st1 lv' ti tr t yr (set_right si (set_sink (nq st) t)) (set_down nd yr) nd);
        [exact Ht|exact Hlv'|exact Hti|exact Hr|exact Hne_r|reflexivity|reflexivity|apply Hnew|reflexivity|reflexivity
        |reflexivity|exact Etd| |intros; apply Hoth; auto|reflexivity|reflexivity|reflexivity].
      intros u Hu. assert ((rk ni < rk u)%Q) by exact (Hdu tr yr ni u Hr Hrd Hu). lra. }
    assert (L1 : nth_error ts2 ti = Some (set_right si (set_sink (nq st) t))).
    { unfold ts2. rewrite nth_upd_ne by auto. apply nth_upd_eq. now apply nth_lt in Hti. }
    assert (L2 : nth_error ts2 tr = Some (set_down nd yr)).
    { unfold ts2. apply nth_upd_eq. rewrite upd_length. now apply nth_lt in Hr. }
    assert (Hq1 : nq st1 = nq st + 1). { unfold st1; cbn [st_qs]. rewrite app_length, upd_length. reflexivity. }
    eapply (ends_bind (fun ns1 => ns1 = st_ns st \/ exists a b, nth_error (st_ns st) nd = Some a /\
       replace_trapezoid ti tr a = Ok b /\ ns1 = upd (st_ns st) nd b)).
    { destruct (negb (nd =? ni_min)); [|simpl; auto].
      eapply ends_bind; [apply ends_rdu|]. intros n' Hn'. destruct (negb _); [|simpl; auto].
      eapply ends_weaken; [|apply (ends_modify _ _ _ (fun _ => True)); intros; apply replace_ends].
      intros ns1 (a & b & Ha & _ & Eb & ->). right. eauto. }
    intros ns1 Hns1.
    assert (T2 : tidy rk (mkState ns1 (st_ss st) ts2 (upd (st_qs st) (t_k t) qb ++ [QSink ti]))).
    { destruct Hns1 as [->|(a & b & Ha & Eb & ->)]; [exact T1|].
      eapply (tidy_replace_up rk st1 _ nd ti tr); [exact T1|exact L1| |exact L2| |reflexivity|reflexivity|].
      - cbn [set_right set_sink t_u]. congruence.
      - cbn [set_down t_u]. intros u Hu. assert ((rk ni < rk u)%Q) by exact (Hdu tr yr ni u Hr Hrd Hu). lra.
      - exists a, b. cbn [st1 st_ns]. auto. }
    assert (Hl1 : length ns1 = nn st). { destruct Hns1 as [->|(a & b & _ & _ & ->)]; rewrite ?upd_length; auto. }
    eapply ends_weaken; [|apply (IH _ nd ti tr _ _ T2 L1 Etd L2 eq_refl)]; cbn [st_ns]; rewrite Hl1; [|lia].
    intros [st3 tr3] (A1 & A2 & A3 & A4 & A5 & A6). cbn [fst snd st_ns st_ss st_qs] in *.
    change (length (upd (st_qs st) (t_k t) qb ++ [QSink ti])) with (nq st1) in A4.
    conj; auto; try lia; try lra.
  - destruct (onat_eqb (t_l t) (t_l yl)); [|exact Logic.I].
    unfold rd at 1. rewrite Hqs. cbn [bind]. unfold modify at 1. rewrite Hti. cbn [bind].
    unfold modify at 1. rewrite nth_upd_ne by auto. rewrite Hl. cbn [bind].
    match goal with |- context [upd (st_qs st) (t_k t) ?q ++ _] => set (qb := q) end.
    assert (exists lv', leveled lv' (upd (st_qs st) (t_k t) qb ++ [QSink ti])) as (lv' & Hlv').
    { eapply leveled_branch; [exact Hlv|exact Hqs|discriminate|repeat constructor; eauto|].
      intros c [->| ->]; [right|left; lia]. split; eauto. intros E. rewrite E in Hql. congruence. }
    set (ts2 := upd (upd (st_ts st) ti (set_left si (set_sink (nq st) t))) tl (set_down nd yl)).
    set (st1 := mkState (st_ns st) (st_ss st) ts2 (upd (st_qs st) (t_k t) qb ++ [QSink ti])).
    assert (T1 : tidy rk st1).
    { eapply (tidy_step rk st st1 lv' ti tl t yl (set_left si (set_sink (nq st) t)) (set_down nd yl) nd);
        [exact Ht|exact Hlv'|exact Hti|exact Hl|exact Hne_l|reflexivity|reflexivity|apply Hnew|reflexivity|reflexivity
        |reflexivity|exact Etd| |intros; apply Hoth; auto|reflexivity|reflexivity|reflexivity].
      intros u Hu. assert ((rk ni < rk u)%Q) by exact (Hdu tl yl ni u Hl Hld Hu). lra. }
    assert (L1 : nth_error ts2 ti = Some (set_left si (set_sink (nq st) t))).
    { unfold ts2. rewrite nth_upd_ne by auto. apply nth_upd_eq. now apply nth_lt in Hti. }
    assert (L2 : nth_error ts2 tl = Some (set_down nd yl)).
    { unfold ts2. apply nth_upd_eq. rewrite upd_length. now apply nth_lt in Hl. }
    assert (Hq1 : nq st1 = nq st + 1). { unfold st1; cbn [st_qs]. rewrite app_length, upd_length. reflexivity. }
    eapply (ends_bind (fun _ => True)).
    { destruct (nd =? ni_min); [exact Logic.I|]. eapply ends_bind; [apply ends_rdu|]. intros; exact Logic.I. }
    intros onl _.
    eapply (ends_bind (fun ns1 => ns1 = st_ns st \/ exists a b, nth_error (st_ns st) nd = Some a /\
       replace_trapezoid ti tl a = Ok b /\ ns1 = upd (st_ns st) nd b)).
    { destruct onl; [|simpl; auto].
      eapply ends_weaken; [|apply (ends_modify _ _ _ (fun _ => True)); intros; apply replace_ends].
      intros ns1 (a & b & Ha & _ & Eb & ->). right. eauto. }
    intros ns1 Hns1.
    assert (T2 : tidy rk (mkState ns1 (st_ss st) ts2 (upd (st_qs st) (t_k t) qb ++ [QSink ti]))).
    { destruct Hns1 as [->|(a & b & Ha & Eb & ->)]; [exact T1|].
      eapply (tidy_replace_up rk st1 _ nd ti tl); [exact T1|exact L1| |exact L2| |reflexivity|reflexivity|].
      - cbn [set_left set_sink t_u]. congruence.
      - cbn [set_down t_u]. intros u Hu. assert ((rk ni < rk u)%Q) by exact (Hdu tl yl ni u Hl Hld Hu). lra.
      - exists a, b. cbn [st1 st_ns]. auto. }
    assert (Hl1 : length ns1 = nn st). { destruct Hns1 as [->|(a & b & _ & _ & ->)]; rewrite ?upd_length; auto. }
    eapply ends_weaken; [|apply (IH _ nd tl ti _ _ T2 L2 eq_refl L1 Etd)]; cbn [st_ns]; rewrite Hl1; [|lia].
    intros [st3 tr3] (A1 & A2 & A3 & A4 & A5 & A6). cbn [fst snd st_ns st_ss st_qs] in *.
    change (length (upd (st_qs st) (t_k t) qb ++ [QSink ti])) with (nq st1) in A4.
    conj; auto; try lia; try lra.
Qed.

Lemma add_segment_ends st ni_min ni_max c_min c_max : good st -> nq st + nn st + 2 < fuel ->
  ends (fun st' => good st' /\ nn st' = nn st /\ nq st' <= nq st + nn st + 2)
    (add_segment ieqb dbg fuel st ni_min ni_max c_min c_max).
Proof.
  intros (rk & Ht0) Hf. pose proof Ht0 as [Hd Hnd Hor Hur Hup Hdu Hrg Hsk Hcc (lv & Hlv)].
  unfold add_segment. cbv zeta.
  set (sg := mkSeg ni_min ni_max c_min c_max). set (ss1 := st_ss st ++ [sg]). set (si := length (st_ss st)).
  assert (Hsi : nth_error ss1 si = Some sg) by apply nth_snoc.
  eapply ends_bind; [apply ends_rdu|]. intros nx Hnx. cbv beta in Hnx.
  eapply ends_bind; [apply ends_rdu|]. intros s Hs. rewrite Hsi in Hs. injection Hs as <-.
  eapply ends_bind; [apply down_in|]. intros ti Hin.
  destruct (Hd ni_max nx ti Hnx Hin) as (t & Hti & Htu).
  unfold rdu at 1. rewrite Hti. cbn [bind].
  pose proof (Hsk _ _ Hti) as Hqs. unfold rd at 1. rewrite Hqs. cbn [bind].
  cbn [split_vertical set_sink t_l t_r t_d t_u t_k].
  set (tn := length (st_ts st)).
  eapply ends_bind.
  { apply (add_div_lists _ _ _ _ _ (fun d => d = Desc)). eapply ends_weaken; [|apply direction_ends].
    intros d (s & Hs & [(_ & ->)|(Hne & _ & _)]); auto. rewrite Hsi in Hs. injection Hs as <-. cbn in Hne. congruence. }
  intros ns1 (x & x1 & d & -> & Hx & Ens1 & (V1 & V2) & X1 & X2 & X3 & X4). cbn [other] in X1.
  rewrite Hnx in Hx. injection Hx as <-.
  unfold ok_or. destruct (t_d t) as [nd|] eqn:Etd; cbn [bind]; [|exact Logic.I].
  assert (Hlt : (rk nd < rk ni_max)%Q) by exact (Hdu ti t nd ni_max Hti Etd Htu).
  assert (Hndl : nd < nn st). { destruct (Hrg _ _ Hti) as (R & _). now rewrite Etd in R. }
  assert (Hnni : nd <> ni_max) by (intros ->; lra).
  eapply ends_bind; [apply ends_rdu|]. intros n1 Hn1.
  set (yl := mkTrap (t_l t) (Some si) (Some nd) (t_u t) (nq st)).
  set (yr := mkTrap (Some si) (t_r t) (Some nd) (t_u t) (nq st + 1)).
  set (ts1 := upd (st_ts st) ti yl ++ [yr]).
  match goal with |- context [upd (st_qs st) (t_k t) ?q ++ _] => set (qb := q) end.
  set (qs1 := (upd (st_qs st) (t_k t) qb ++ [QSink ti]) ++ [QSink tn]).
  assert (Htn : tn = length (upd (st_ts st) ti yl)) by (rewrite upd_length; auto).
  assert (Ll : nth_error ts1 ti = Some yl).
  { unfold ts1. apply nth_app_l. apply nth_upd_eq. now apply nth_lt in Hti. }
  assert (Lr : nth_error ts1 tn = Some yr).
  { unfold ts1. rewrite Htn. apply nth_snoc. }
  set (st1 := mkState ns1 ss1 ts1 qs1).
  assert (T1 : tidy rk st1).
  { assert (Kold : forall t0 z, nth_error ts1 t0 = Some z -> t0 = tn /\ z = yr \/ t0 = ti /\ z = yl \/ (t0 <> ti /\ nth_error (st_ts st) t0 = Some z)).
    { intros t0 z Hz. unfold ts1 in Hz. apply nth_snoc_inv in Hz. destruct Hz as [(Hz & _)|(-> & ->)]; [|left; rewrite Htn; auto].
      apply nth_upd_inv in Hz. destruct Hz as [(Hne & Hz)|(-> & -> & _)]; auto. }
    assert (Kx : forall n x, nth_error ns1 n = Some x -> (n = ni_max /\ x = x1) \/ nth_error (st_ns st) n = Some x).
    { rewrite Ens1. intros n x Hx. apply nth_upd_inv in Hx. destruct Hx as [(_ & Hx)|(-> & -> & _)]; auto. }
    split; unfold st1; cbn [st_ns st_ts st_qs].
    - intros n x s Hx Hs.
      assert (Kin : s = tn /\ n = ni_max \/ exists x0, nth_error (st_ns st) n = Some x0 /\ In s (downs x0)).
      { destruct (Kx n x Hx) as [(-> & ->)|Hx0]; [|eauto]. destruct (X2 s Hs) as [->|Hs']; [left; auto|right; exists nx; split; [exact Hnx|exact Hs']]. }
      destruct Kin as [(-> & ->)|(x0 & Hx0 & Hs0)]; [exists yr; auto|].
      destruct (Hd n x0 s Hx0 Hs0) as (y & Hy & Hyu).
      destruct (Nat.eq_dec s ti) as [->|Hne].
      + exists yl. split; auto. rewrite Hti in Hy. injection Hy as <-. exact Hyu.
      + exists y. split; auto. unfold ts1. apply nth_app_l. rewrite nth_upd_ne; auto.
    - intros n x Hx. destruct (Kx n x Hx) as [(-> & ->)|Hx0]; [|eauto]. apply X3; eauto.
      intros Hi. destruct (Hd ni_max nx tn Hnx Hi) as (y & Hy & _). apply nth_lt in Hy. unfold tn in Hy. lia.
    - intros n x Hx. destruct (Kx n x Hx) as [(-> & ->)|Hx0]; eauto.
    - intros n x s Hx Hs. unfold ts1. rewrite app_length, upd_length. simpl.
      assert (s < length (st_ts st)); [|lia].
      destruct (Kx n x Hx) as [(-> & ->)|Hx0]; [rewrite X1 in Hs|]; eauto.
    - intros n x s y u Hx Hs Hy Hyu.
      assert (exists x0, nth_error (st_ns st) n = Some x0 /\ In s (ups x0)) as (x0 & Hx0 & Hs0).
      { destruct (Kx n x Hx) as [(-> & ->)|Hx0]; [rewrite X1 in Hs|]; eauto. }
      pose proof (Hur n x0 s Hx0 Hs0) as Hsl.
      destruct (Kold s y Hy) as [(-> & _)|[(-> & ->)|(_ & Hy0)]].
      + unfold tn in Hsl. lia.
      + apply (Hup n x0 ti t u Hx0 Hs0 Hti). exact Hyu.
      + apply (Hup n x0 s y u Hx0 Hs0 Hy0 Hyu).
    - intros s y d u Hy Hyd Hyu. destruct (Kold s y Hy) as [(-> & ->)|[(-> & ->)|(_ & Hy0)]].
      + apply (Hdu ti t d u Hti); cbn in *; congruence.
      + apply (Hdu ti t d u Hti); cbn in *; congruence.
      + apply (Hdu s y d u Hy0 Hyd Hyu).
    - intros s y Hy. rewrite Ens1, upd_length. destruct (Hrg _ _ Hti) as (R1 & R2). rewrite Etd in R1.
      destruct (Kold s y Hy) as [(-> & ->)|[(-> & ->)|(_ & Hy0)]]; cbn [yl yr t_d t_u]; eauto.
    - intros s y Hy. unfold qs1. destruct (Kold s y Hy) as [(-> & ->)|[(-> & ->)|(Hne & Hy0)]].
      + cbn [yr t_k]. rewrite nth_error_app2; rewrite app_length, upd_length; simpl; [|lia]. now rewrite Nat.sub_diag.
      + cbn [yl t_k]. rewrite <- app_assoc, nth_error_app2 by (rewrite upd_length; lia). now rewrite upd_length, Nat.sub_diag.
      + rewrite <- app_assoc. eapply sink_other; eauto.
    - intros n x Hx. destruct (Kx n x Hx) as [(-> & ->)|Hx0]; [rewrite V1, V2|]; eauto.
    - unfold qs1. rewrite <- app_assoc. eapply leveled_branch; [exact Hlv|exact Hqs|discriminate|repeat constructor; eauto|].
      intros c [->| ->]; left; lia. }
  assert (Hl1 : length ns1 = nn st) by (rewrite Ens1; apply upd_length).
  eapply (ends_bind (fun ns2 => ns2 = ns1 \/ exists a b, nth_error ns1 nd = Some a /\
       replace_trapezoid ti tn a = Ok b /\ ns2 = upd ns1 nd b)).
  { destruct (_ && _); [|simpl; auto].
    eapply ends_weaken; [|apply (ends_modify _ _ _ (fun _ => True)); intros; apply replace_ends].
    intros ns2 (a & b & Ha & _ & Eb & ->). right. eauto. }
  intros ns2 Hns2.
  assert (T2 : tidy rk (mkState ns2 ss1 ts1 qs1)).
  { destruct Hns2 as [->|(a & b & Ha & Eb & ->)]; [exact T1|].
    eapply (tidy_replace_up rk st1 _ nd ti tn); [exact T1|exact Ll| |exact Lr| |reflexivity|reflexivity|].
    - cbn [yl t_u]. congruence.
    - cbn [yr t_u]. intros u Hu. rewrite Htu in Hu. injection Hu as <-. exact Hlt.
    - exists a, b. cbn [st1 st_ns]. auto. }
  assert (Hl2 : length ns2 = nn st). { destruct Hns2 as [->|(a & b & _ & _ & ->)]; rewrite ?upd_length; auto. }
  assert (Hqs1 : length qs1 = nq st + 2). { unfold qs1. rewrite !app_length, upd_length. simpl. lia. }
  eapply ends_bind.
  { eapply seg_loop_ends; [exact T2|exact Ll|reflexivity|exact Lr|reflexivity|]. cbn [st_ns].
    pose proof (belowq_le rk (length ns2) (rk nd)). lia. }
  intros [st3 tr] (T3 & A2 & A3 & A4 & A5 & (y & Hy & Hyd)). cbn [fst snd st_ns st_ss st_qs] in *.
  pose proof (belowq_le rk (length ns2) (rk nd)) as Hb.
  pose proof T3 as [Hd3 Hnd3 Hor3 Hur3 Hup3 Hdu3 Hrg3 Hsk3 Hcc3 (lv3 & Hlv3)].
  eapply ends_bind.
  { apply (add_div_lists _ _ _ _ _ (fun d => d = Asc)). eapply ends_weaken; [|apply direction_ends].
    intros d (s & Hs & [(Hmm & _)|(_ & _ & ->)]); auto. rewrite A3, Hsi in Hs. injection Hs as <-. cbn in Hmm.
    rewrite Hmm in A5. lra. }
  intros ns4 (x & x4 & d & -> & Hx & Ens4 & (W1 & W2) & Y1 & Y2 & _ & Y4). cbn [other] in Y1.
  assert (T4 : tidy rk (mkState ns4 (st_ss st3) (st_ts st3) (st_qs st3))).
  { assert (Kx : forall n x', nth_error ns4 n = Some x' -> (n = ni_min /\ x' = x4) \/ nth_error (st_ns st3) n = Some x').
    { rewrite Ens4. intros n x' Hx'. apply nth_upd_inv in Hx'. destruct Hx' as [(_ & Hx')|(-> & -> & _)]; auto. }
    split; cbn [st_ns st_ts st_qs]; auto.
    - intros n x' s Hx' Hs. destruct (Kx n x' Hx') as [(-> & ->)|Hx0]; [rewrite Y1 in Hs|]; eauto.
    - intros n x' Hx'. destruct (Kx n x' Hx') as [(-> & ->)|Hx0]; [rewrite Y1|]; eauto.
    - intros n x' Hx'. destruct (Kx n x' Hx') as [(-> & ->)|Hx0]; eauto.
    - intros n x' s Hx' Hs. destruct (Kx n x' Hx') as [(-> & ->)|Hx0]; [|eauto].
      destruct (Y2 s Hs) as [->|Hs']; [now apply nth_lt in Hy|eauto].
    - intros n x' s z u Hx' Hs Hz Hzu. destruct (Kx n x' Hx') as [(-> & ->)|Hx0].
      + destruct (Y2 s Hs) as [->|Hs'].
        * rewrite Hy in Hz. injection Hz as <-. apply (Hdu3 tr y ni_min u Hy Hyd Hzu).
        * apply (Hup3 ni_min x s z u Hx Hs' Hz Hzu).
      + apply (Hup3 n x' s z u Hx0 Hs Hz Hzu).
    - intros s z Hz. rewrite Ens4, upd_length. eauto.
    - intros n x' Hx'. destruct (Kx n x' Hx') as [(-> & ->)|Hx0]; [rewrite W1, W2|]; eauto.
    - eauto. }
  eapply ends_bind; [eapply check_ends; [exact Hlv3|cbn [st_qs]; lia]|].
  intros _ _. simpl. split; [exists rk; exact T4|]. rewrite Ens4, upd_length. lia.
Qed.

(** ** Polygons *)

Lemma add_vertex_at_ends st vls vli i q : good st -> nq st + 2 < fuel ->
  ends (fun p => let '(st', _, _) := p in good st' /\ nn st' = nn st + 1 /\ nq st' = nq st + 2)
    (add_vertex_at gv dbg fuel st vls vli i q).
Proof.
  intros Hg Hf. unfold add_vertex_at.
  eapply ends_bind; [apply add_vertex_ends; auto|].
  intros [st' ni] (H1 & _ & H2 & H3). cbn [fst snd] in *.
  eapply ends_bind; [apply (ends_modify _ _ _ (fun _ => True)); intros; exact Logic.I|].
  intros vls' _. simpl. auto.
Qed.

Lemma add_nth_ends st vls si : good st -> nq st + nn st + 8 < fuel ->
  ends (fun p => let '(st', _, added) := p in
          good st' /\ nn st' = nn st + added /\ added <= 2 /\ nq st' <= nq st + 2 * added + nn st' + 2)
    (add_nth_segment ieqb gv dbg fuel st vls si).
Proof.
  intros Hg Hf. unfold add_nth_segment. cbv zeta.
  eapply ends_bind; [apply ends_rd|]. intros vl0 _.
  eapply ends_bind; [apply ends_rd|]. intros vl1 _.
  eapply (ends_bind (fun p => let '(st1, _, _, _, added) := p in
     good st1 /\ nn st1 = nn st + added /\ added <= 2 /\ nq st1 = nq st + 2 * added)).
  { destruct vl0 as [c0 i0 q0|c0 n0], vl1 as [c1 i1 q1|c1 n1].
    - destruct (coords_lt c0 c1).
      + eapply ends_bind; [apply add_vertex_at_ends; auto; lia|].
        intros [[st1 vls1] n0] (G1 & G2 & G3).
        eapply ends_bind; [apply add_vertex_at_ends; auto; lia|].
        intros [[st2 vls2] n1] (K1 & K2 & K3). simpl. conj; auto; lia.
      + eapply ends_bind; [apply add_vertex_at_ends; auto; lia|].
        intros [[st1 vls1] n0] (G1 & G2 & G3).
        eapply ends_bind; [apply add_vertex_at_ends; auto; lia|].
        intros [[st2 vls2] n1] (K1 & K2 & K3). simpl. conj; auto; lia.
    - eapply ends_bind; [apply add_vertex_at_ends; auto; lia|].
      intros [[st1 vls1] n0] (G1 & G2 & G3). simpl. conj; auto; lia.
    - eapply ends_bind; [apply add_vertex_at_ends; auto; lia|].
      intros [[st1 vls1] n1] (G1 & G2 & G3). simpl. conj; auto; lia.
    - simpl. conj; auto; lia. }
  intros [[[[st1 vls1] ni0] ni1] added] (G1 & G2 & G3 & G4).
  eapply ends_bind; [apply ends_rdu|]. intros n0 _.
  eapply ends_bind; [apply ends_rdu|]. intros n1 _.
  eapply (ends_bind (fun st' => good st' /\ nn st' = nn st1 /\ nq st' <= nq st1 + nn st1 + 2)).
  { destruct (coords_lt _ _); apply add_segment_ends; auto; lia. }
  intros st2 (K1 & K2 & K3). simpl. conj; auto; lia.
Qed.

Lemma walk_down_ends rk st c1 c2 : tidy rk st -> forall k ti,
  (forall y d, nth_error (st_ts st) ti = Some y -> t_d y = Some d -> belowq rk (nn st) (rk d) + 1 < k) -> 0 < k ->
  ends (fun _ => True) (walk k st Desc c1 c2 ti).
Proof.
  intros [Hd Hnd Hor Hur Hup Hdu Hrg Hsk _ _]. induction k as [|k IH]; intros ti Hk Hk0; [lia|]. cbn [walk].
  eapply ends_bind; [apply ends_rdu|]. intros t Ht. cbv beta in Ht.
  eapply (ends_bind (fun _ => True)).
  { unfold reached. destruct (t_d t); [|exact Logic.I]. eapply ends_bind; [apply ends_rd|]. intros; exact Logic.I. }
  intros [|] _; [exact Logic.I|].
  unfold ok_or. destruct (t_d t) as [n|] eqn:Ed; cbn [bind]; [|exact Logic.I].
  eapply ends_bind; [apply ends_rdu|]. intros x Hx. cbv beta in Hx.
  specialize (Hk t n Ht Ed).
  apply IH; [|lia]. intros y d Hy Hyd.
  destruct (Hd n x _ Hx (between_in Desc c1 c2 x)) as (y' & Hy' & Hu). rewrite Hy in Hy'. injection Hy' as <-.
  assert (Hlt : (rk d < rk n)%Q) by exact (Hdu _ y d n Hy Hyd Hu).
  destruct (Hrg _ _ Hy) as (R & _). rewrite Hyd in R. cbn [opt_lt] in R.
  pose proof (belowq_lt rk (nn st) d (rk n) Hlt R). lia.
Qed.

Lemma walk_up_ends rk st c1 c2 : tidy rk st -> forall k ti,
  (forall y u, nth_error (st_ts st) ti = Some y -> t_u y = Some u -> aboveq rk (nn st) (rk u) + 1 < k) -> 0 < k ->
  ends (fun _ => True) (walk k st Asc c1 c2 ti).
Proof.
  intros [Hd Hnd Hor Hur Hup Hdu Hrg Hsk _ _]. induction k as [|k IH]; intros ti Hk Hk0; [lia|]. cbn [walk].
  eapply ends_bind; [apply ends_rdu|]. intros t Ht. cbv beta in Ht.
  eapply (ends_bind (fun _ => True)).
  { unfold reached. destruct (t_u t); [|exact Logic.I]. eapply ends_bind; [apply ends_rd|]. intros; exact Logic.I. }
  intros [|] _; [exact Logic.I|].
  unfold ok_or. destruct (t_u t) as [n|] eqn:Eu; cbn [bind]; [|exact Logic.I].
  eapply ends_bind; [apply ends_rdu|]. intros x Hx. cbv beta in Hx.
  specialize (Hk t n Ht Eu).
  apply IH; [|lia]. intros y u Hy Hyu.
  assert (Hlt : (rk n < rk u)%Q) by exact (Hup n x _ y u Hx (between_in Asc c1 c2 x) Hy Hyu).
  destruct (Hrg _ _ Hy) as (_ & R). rewrite Hyu in R. cbn [opt_lt] in R.
  pose proof (aboveq_lt rk (nn st) u (rk n) Hlt R). lia.
Qed.

Lemma walk_ends st d c1 c2 ti : good st -> nn st + 1 < fuel -> ends (fun _ => True) (walk fuel st d c1 c2 ti).
Proof.
  intros (rk & Ht) Hf. destruct d.
  - apply (walk_up_ends rk); auto; [|lia]. intros y u _ _. pose proof (aboveq_le rk (nn st) (rk u)). lia.
  - apply (walk_down_ends rk); auto; [|lia]. intros y u _ _. pose proof (belowq_le rk (nn st) (rk u)). lia.
Qed.

(** Some pending vertex is met within one round. *)
Lemma pending_ahead (vls : list (vloc C I)) vli : 0 < npend vls ->
  exists j v, j < length vls /\ nth_error vls ((vli + 1 + j) mod length vls) = Some v /\ is_pending v = true.
Proof.
  intros H.
  assert (exists p v, nth_error vls p = Some v /\ is_pending v = true) as (p & v & Hp & Hv).
  { unfold npend in H. destruct (filter is_pending vls) as [|v l] eqn:E; simpl in H; [lia|].
    assert (Hin : In v (filter is_pending vls)) by (rewrite E; simpl; auto).
    apply filter_In in Hin. destruct Hin as (Hin & Hv). apply In_nth_error in Hin. destruct Hin as (p & Hp). eauto. }
  pose proof (nth_lt _ _ _ _ Hp) as Hl. set (n := length vls) in *.
  assert (Hn : n <> 0) by lia.
  exists ((p + (n - (vli + 1) mod n)) mod n), v. split; [apply Nat.mod_upper_bound; auto|]. split; auto.
  rewrite Nat.add_mod_idemp_r by auto.
  pose proof (Nat.mod_upper_bound (vli + 1) n Hn) as Hm.
  rewrite <- Nat.add_mod_idemp_l by auto.
  replace ((vli + 1) mod n + (p + (n - (vli + 1) mod n))) with (p + 1 * n) by lia.
  rewrite Nat.mod_add by auto. rewrite Nat.mod_small by auto. exact Hp.
Qed.

Lemma relocate_ends st : good st -> nn st + 1 < fuel -> forall k vls un vli loc c,
  un <= npend vls ->
  (un = 0 \/ exists j v, j + 1 + (un - 1) * length vls <= k /\
     nth_error vls ((vli + 1 + j) mod length vls) = Some v /\ is_pending v = true) ->
  ends (fun _ => True) (relocate fuel k st vls un vli loc c).
Proof.
  intros Hg Hf. induction k as [|k IH]; intros vls un vli loc c Hun Hj.
  { destruct un; [exact Logic.I|]. destruct Hj as [|(j & v & Hj & _)]; lia. }
  cbn [relocate]. destruct un as [|un]; [exact Logic.I|].
  destruct Hj as [|(j & v & Hj & Hv & Hp)]; [discriminate|].
  replace (S un - 1) with un in Hj by lia.
  set (n := length vls) in *. set (w := (vli + 1) mod n).
  eapply ends_bind; [apply ends_rd|]. intros vl Hvl. cbv beta in Hvl.
  destruct vl as [ct i q|ct ni].
  - eapply (ends_bind (fun _ => True)).
    { destruct loc; [|exact Logic.I]. eapply ends_bind; [apply ends_rdu|]. intros x _.
      eapply ends_weaken; [|apply toward_in]. auto. }
    intros ti0 _. eapply ends_bind; [apply walk_ends; auto|]. intros ti _.
    eapply ends_bind; [apply ends_rdu|]. intros t _.
    set (vls' := upd vls w (Pending ct i (t_k t))).
    assert (Hnp : npend vls' = npend vls) by (eapply npend_upd_same; eauto).
    assert (Hlen : length vls' = n) by apply upd_length.
    apply IH; [lia|]. destruct un as [|un]; [auto|right].
    destruct (pending_ahead vls' w) as (j' & v' & Hj' & Hv' & Hp'); [lia|].
    exists j', v'. split; [|auto]. rewrite Hlen in *. replace (S un - 1) with un by lia. nia.
  - eapply ends_bind; [apply ends_rdu|]. intros x _.
    apply IH; auto. right. destruct j as [|j].
    { exfalso. rewrite Nat.add_0_r in Hv. fold w in Hv. rewrite Hvl in Hv. injection Hv as <-. discriminate. }
    exists j, v. split; [replace (S un - 1) with un by lia; lia|]. split; auto.
    assert (Hn : n <> 0). { intros E. destruct vls; [|discriminate]. destruct w; discriminate. }
    rewrite <- Hv. f_equal. unfold w. rewrite <- Nat.add_assoc.
    rewrite Nat.add_mod_idemp_l by auto. f_equal; lia.
Qed.

Notation ok := (fun _ : I => True).

Lemma polygon_loop_ends math_n N len : forall order i st vls pending uc nu,
  good st -> wf ok st -> Forall (vl_wf ok (sz st)) vls -> 1 < length vls -> pending = npend vls ->
  length vls <= N -> nn st + npend vls <= N -> nq st + length order * (N + 8) < fuel -> N * N <= fuel -> N + 1 < fuel ->
  ends (fun p => good (fst p) /\ nq (fst p) <= nq st + length order * (N + 8))
  (polygon_loop ieqb gv dbg fuel math_n len order i st vls pending uc nu).
Proof.
  induction order as [|vi order IH]; intros i st vls pending uc nu Hg Hw Hv Hl Hp HlN HnN Hq HN2 HN1; cbn [polygon_loop].
  { simpl. split; auto. lia. }
  cbn [length] in Hq.
  assert (Hpl : npend vls <= length vls) by apply filter_len.
  eapply ends_bind; [apply (ends_safe _ _ _ (add_nth_ends st vls vi Hg ltac:(lia)) (add_nth_safe ok ieqb gv dbg fuel st vls vi Hw Hv Hl))|].
  intros [[st1 vls1] added] ((G1 & G2 & G3 & G4) & (Hg1 & Hv1 & Hl1 & Hp1 & Hm1 & Hi1)). cbv zeta.
  assert (Hw1 : wf ok st1) by apply Hg1.
  assert (Hq1 : nq st1 <= nq st + (N + 8)) by lia.
  assert (K : forall vls2 uc nu, Forall (vl_wf ok (sz st1)) vls2 -> length vls2 = length vls1 -> npend vls2 = npend vls1 ->
    ends (fun p => good (fst p) /\ nq (fst p) <= nq st + length (vi :: order) * (N + 8))
    (polygon_loop ieqb gv dbg fuel math_n len order (i + 1) st1 vls2 (pending - added) uc nu)).
  { intros vls2 uc' nu' Hv2 Hl2 Hp2.
    eapply ends_weaken; [|apply (IH (i + 1) st1 vls2 (pending - added) uc' nu'); auto; lia].
    intros [st' vls'] (A1 & A2). cbn [fst length] in *. split; auto. lia. }
  destruct (i =? nu).
  - eapply ends_bind.
    { apply (ends_safe (fun _ => True) (fun vls' => Forall (vl_wf ok (sz st1)) vls' /\ length vls' = length vls1 /\
           npend vls' = npend vls1 /\ ins_mono vls1 vls')).
      - apply relocate_ends; auto; [lia|lia|].
        destruct (pending - added) as [|un] eqn:Eun; [auto|right].
        destruct (pending_ahead vls1 vi) as (j & v & Hj & Hv' & Hp'); [lia|].
        exists j, v. split; [|auto].
        assert (un < length vls1). { pose proof (filter_len is_pending vls1). unfold npend in *. lia. }
        replace (S un - 1) with un by lia. assert (un * length vls1 + length vls1 <= N * N); [|lia].
        assert (length vls1 <= N) by lia. nia.
      - apply relocate_safe; auto. simpl. destruct Hi1 as (v & Hv' & Hpv).
        assert (Hvv : vl_wf ok (sz st1) v) by (rewrite Forall_forall in Hv1; apply Hv1; now apply nth_error_In in Hv').
        destruct v as [c' i' q'|c' n']; simpl in *; [discriminate|]. lia. }
    intros vls2 (_ & A1 & A2 & A3 & A4). apply K; auto.
  - apply K; auto.
Qed.

Lemma build_loop_ends math_n shuf N : (forall k n, Permutation (shuf k n) (seq 0 n)) ->
  N * N <= fuel -> N + 1 < fuel ->
  forall elems k st vl,
  good st -> wf ok st -> fresh ok gv vl ->
  nn st + length vl + continues elems <= N ->
  nq st + (length vl + continues elems) * (N + 8) < fuel ->
  ends (fun st' => good st' /\ nn st' <= N /\ nq st' < fuel) (build_loop ieqb gv dbg fuel math_n shuf elems k st vl).
Proof.
  intros Hsh HN2 HN1. induction elems as [|[i|] elems IH]; intros k st vl Hg Hw Hf Hn Hq; cbn [build_loop].
  - simpl in *. split; auto. split; nia.
  - cbn [continues] in *. apply IH; auto; try (rewrite app_length; simpl length; lia).
    apply Forall_app. split; auto. constructor; auto. exists i. auto.
  - cbn [continues] in *. cbv zeta. destruct (0 <? length vl); [|apply IH; auto].
    destruct (Nat.ltb_spec (length vl) 3); [exact Logic.I|].
    pose proof (add_polygon_safe ok ieqb gv dbg fuel math_n (shuf k (length vl)) st vl Hw (fresh_wf ok gv _ _ Hw Hf)
      ltac:(lia) (Hsh k (length vl)) (fresh_npend ok gv vl Hf)) as G.
    assert (E : ends (fun p => good (fst p) /\ nq (fst p) <= nq st + length vl * (N + 8))
      (add_polygon ieqb gv dbg fuel math_n (shuf k (length vl)) st vl)).
    { unfold add_polygon. replace (length vl * (N + 8)) with (length (shuf k (length vl)) * (N + 8)).
      2:{ f_equal. rewrite (Permutation_length (Hsh k (length vl))). apply seq_length. }
      apply polygon_loop_ends; auto; try lia.
      - now apply fresh_wf with gv.
      - now rewrite (fresh_npend ok gv vl Hf).
      - rewrite (fresh_npend ok gv vl Hf). lia.
      - rewrite (Permutation_length (Hsh k (length vl))), seq_length. nia. }
    pose proof (ends_safe _ _ _ E G) as EG.
    eapply (ends_bind (fun p => (good (fst p) /\ nq (fst p) <= nq st + length vl * (N + 8)) /\
      grow ok (length vl) (length vl) (length vl + length vl) st (fst p))).
    { destruct (add_polygon _ _ _ _ _ _ _ _) as [p|e|[]]; simpl in *; auto. }
    intros [st' vls'] ((A1 & A2) & A3). cbn [fst] in *. unfold grow in A3. unfold sz in A3; simpl in A3.
    apply IH; auto; try (simpl length; nia). { apply A3. } constructor.
Qed.

(** The trapezoidation of every input ends; the budget needed is quadratic in the number of vertices. *)
Theorem trapezoidize_ends math_n shuf elems : (forall k n, Permutation (shuf k n) (seq 0 n)) ->
  (continues elems + 4) * (continues elems + 4) <= fuel ->
  ends (fun st => good st /\ nn st <= continues elems /\ nq st < fuel) (trapezoidize ieqb gv dbg fuel math_n shuf elems).
Proof.
  intros Hsh Hf. set (N := continues elems) in *.
  assert (Hc : continues (elems ++ [NewPolygon]) = N).
  { unfold N. clear. induction elems as [|[i|] l IH]; simpl; auto. }
  unfold trapezoidize. apply build_loop_ends; auto; try nia.
  - eexists. apply tidy_new.
  - apply wf_new.
  - constructor.
  - rewrite Hc. simpl. lia.
  - rewrite Hc. simpl. nia.
Qed.

End Insert.
End Ends.
