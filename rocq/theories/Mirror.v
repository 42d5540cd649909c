(** What clockwise builders receive: the fans of the counterclockwise run, mirrored, some of them with two vertices exchanged. *)
From Coq Require Import List Arith Bool Lia.
From Verif Require Import Base Coord Trap Mono Tri Trace Protocol MonoProof.
Import ListNotations.

(** ** Specification *)

(** The fan with the same triangles, all turned over: the same first vertex, the others in reverse order. *)
Definition mirror {I} (f : list I) : list I := match f with r :: l => r :: rev l | [] => [] end.

(** The first and the third vertex exchanged. *)
Definition swap13 {I} (f : list I) : list I := match f with a :: b :: c :: l => c :: b :: a :: l | _ => f end.

Definition turned {I} (f g : list I) : Prop := f = mirror g \/ f = swap13 (mirror g).

Section Mirror.
Context {C : Type} {OC : CoordOps C} {I E : Type}.
Notation err := (tri_error E).
Notation vert := (I * coords C)%type.
Notation log := (list (call I)).
Notation exts l := (map (fun v : vert => CExt (fst v)) l).

(** Two computations with the recorder: the same result, and fan by fan the calls of the first are those of the second turned over. *)
Definition twin {A} (p q : log -> sres log err A) : Prop :=
  exists c c' r, (forall t, p t = (t ++ c, r)) /\ (forall t, q t = (t ++ c', r)) /\
    ((forall k, r <> Crash k) -> starts c /\ starts c' /\ Forall2 turned (fans_of c) (fans_of c')).

Lemma twin_ret {A} (r : res err A) : twin (fun s => (s, r)) (fun s => (s, r)).
Proof. exists [], [], r. repeat split; intros; rewrite ?app_nil_r; auto; cbn; auto. Qed.

Lemma fans_of_app (c d : log) : starts c -> starts d -> fans_of (c ++ d) = fans_of c ++ fans_of d.
Proof.
  destruct c as [|[x y z|v] c]; cbn [starts]; intros Hc Hd; [reflexivity| |contradiction].
  destruct d as [|[a b w|v] d]; [now rewrite !app_nil_r| |contradiction]. cbn [app fans_of]. now rewrite fans_app.
Qed.

Lemma twin_bind {A B} (p q : log -> sres log err A) (p' q' : A -> log -> sres log err B) : twin p q -> (forall a, twin (p' a) (q' a)) ->
  twin (fun s => sbind (p s) (fun s a => p' a s)) (fun s => sbind (q s) (fun s a => q' a s)).
Proof.
  intros (c & c' & r & Hp & Hq & H) H'. destruct r as [a|e|x].
  - destruct (H' a) as (d & d' & r' & Hp' & Hq' & Hd). exists (c ++ d), (c' ++ d'), r'.
    split; [intros t; rewrite Hp; unfold sbind; cbn; now rewrite Hp', app_assoc|]. split; [intros t; rewrite Hq; unfold sbind; cbn; now rewrite Hq', app_assoc|].
    intros N. destruct H as (S1 & S2 & F); [discriminate|]. destruct (Hd N) as (S3 & S4 & F'). rewrite !fans_of_app by auto. repeat split; auto using starts_app, Forall2_app.
  - exists c, c', (Err e). split; [intros t; now rewrite Hp|]. split; [intros t; now rewrite Hq|]. intros _. apply H. discriminate.
  - exists c, c', (Crash x). split; [intros t; now rewrite Hp|]. split; [intros t; now rewrite Hq|]. intros N. now elim (N x).
Qed.

Lemma twin_equiv {A} (p p' q q' : log -> sres log err A) : (forall s, p' s = p s) -> (forall s, q' s = q s) -> twin p q -> twin p' q'.
Proof. intros Ep Eq (c & c' & r & Hp & Hq & H). exists c, c', r. repeat split; intros; rewrite ?Ep, ?Eq; auto; now apply H. Qed.

(** ** Loops, with any step budget *)

Ltac la := cbn [app]; repeat (rewrite <- app_assoc; cbn [app]); try reflexivity.
Ltac sb := unfold lift; rewrite ?sbind_ok; cbv beta iota.

Lemma back_two left k : forall (m : mono C I) S J p P, S <> [] -> view m left S J (p :: P) ->
  (exists S' s X m', S = S' ++ s :: X /\ view m' left (S' ++ [s]) (X ++ J) (p :: P) /\
    forall direct dt (t : log), back_loop (E := E) rec_ext k m direct dt t =
    (t ++ (if direct then exts (tl (rev (s :: X))) else []), Ok (m', if direct then dt else dt + length X))) \/
  forall direct dt, exists c, forall t : log, back_loop (E := E) rec_ext k m direct dt t = (t ++ c, Crash Fuel).
Proof.
  induction k as [|k IH]; intros m S J p P Hne Hv. { right. intros direct dt. exists []. intros t. cbn. now rewrite app_nil_r. }
  destruct (v_can_dec (E := E) _ _ _ _ _ Hv) as [(S0 & x & y & q & P' & -> & HP & He & Ec)|(Ec & _)].
  - injection HP as <- <-. replace (S0 ++ [x; y]) with ((S0 ++ [x]) ++ [y]) in Hv by now rewrite <- app_assoc.
    destruct (v_pop (E := E) _ _ _ _ _ _ Hv) as (m1 & Ep & Hv1). pose proof (v_peek (E := E) _ _ _ _ _ _ Hv1) as Ek.
    destruct (IH m1 (S0 ++ [x]) (y :: J) p P) as [(S' & s & X & m' & HS & Hv' & Hb)|Hb]; auto.
    { intros H. symmetry in H. now apply app_cons_not_nil in H. }
    + left. exists S', s, (X ++ [y]), m'.
      assert (Hend : exists Z, s :: X = Z ++ [x] /\ S0 = S' ++ Z).
      { destruct X as [|w X] using rev_ind.
        - exists []. apply (f_equal (@rev _)) in HS. rewrite !rev_app_distr in HS. cbn in HS. injection HS as -> HS.
          apply (f_equal (@rev _)) in HS. rewrite !rev_involutive in HS. subst. now rewrite app_nil_r.
        - clear IHX. exists (s :: X). replace (S' ++ s :: X ++ [w]) with ((S' ++ s :: X) ++ [w]) in HS by now rewrite <- app_assoc.
          apply app_inj_tail in HS. destruct HS as (-> & ->). auto. }
      destruct Hend as (Z & HZ & HS0). change (s :: X ++ [y]) with ((s :: X) ++ [y]). rewrite HZ in *.
      split. { subst S0. now rewrite <- !app_assoc. } split. { now rewrite <- app_assoc. }
      intros direct dt t. cbn [back_loop]. unfold lift. rewrite Ec. sb. rewrite Ep. sb. rewrite Ek. sb. unfold add_triangle, rec_ext. destruct direct; sb; rewrite Hb.
      * rewrite !rev_app_distr. cbn [rev app tl map]. now rewrite <- app_assoc.
      * rewrite !app_nil_r. rewrite app_length. cbn [length]. do 3 f_equal. lia.
    + right. intros direct dt. destruct (Hb direct (if direct then dt else dt + 1)) as (c & Hc). exists ((if direct then [CExt (fst x)] else []) ++ c).
      intros t. cbn [back_loop]. unfold lift. rewrite Ec. sb. rewrite Ep. sb. rewrite Ek. sb. unfold add_triangle, rec_ext. destruct direct; sb; rewrite Hc; [now rewrite <- app_assoc|reflexivity].
  - left. destruct (exists_last Hne) as (S' & s & ->). exists S', s, [], m. split; auto. split; auto.
    intros direct dt t. cbn [back_loop]. unfold lift. rewrite Ec. sb. destruct direct; cbn; rewrite app_nil_r; repeat f_equal. lia.
Qed.

Lemma adv_two left k : forall (m : mono C I) S x q J P, view m left (S ++ [x; q]) J P ->
  (exists Q R m', P = Q ++ R /\ view m' left (S ++ [x; last Q q]) (J ++ removelast (q :: Q)) R /\
    forall direct dt (t : log), advance_loop (E := E) rec_ext k m direct dt t =
    (t ++ (if direct then exts Q else []), Ok (m', if direct then dt else dt + length Q))) \/
  forall direct dt, exists c, forall t : log, advance_loop (E := E) rec_ext k m direct dt t = (t ++ c, Crash Fuel).
Proof.
  induction k as [|k IH]; intros m S x q J P Hv. { right. intros direct dt. exists []. intros t. cbn. now rewrite app_nil_r. }
  destruct (v_can_dec (E := E) _ _ _ _ _ Hv) as [(S0 & x' & y & p & P' & HS & -> & He & Ec)|(Ec & _)].
  - assert (H2 : S = S0 /\ x' = x /\ y = q).
    { apply (f_equal (@rev _)) in HS. rewrite !rev_app_distr in HS. cbn in HS. injection HS as -> -> HS.
      apply (f_equal (@rev _)) in HS. rewrite !rev_involutive in HS. auto. }
    destruct H2 as (<- & -> & ->). clear HS.
    replace (S ++ [x; q]) with ((S ++ [x]) ++ [q]) in Hv by now rewrite <- app_assoc.
    destruct (v_pop (E := E) _ _ _ _ _ _ Hv) as (m1 & Ep & Hv1). pose proof (v_pending (E := E) _ _ _ _ _ _ Hv1) as Eq.
    destruct (v_transfer (E := E) _ _ _ _ _ _ Hv1) as (m2 & Ht & Hv2).
    destruct (IH m2 S x p (J ++ [q]) P') as [(Q & R & m' & -> & Hv' & Hb)|Hb].
    { now rewrite <- app_assoc in Hv2. }
    + left. exists (p :: Q), R, m'. split; [reflexivity|].
      split. { replace (last (p :: Q) q) with (last Q p).
        - rewrite <- app_assoc in Hv'. exact Hv'.
        - clear. revert p q. induction Q as [|a Q IH]; intros; [reflexivity|]. destruct Q; [reflexivity|]. exact (IH p q). }
      intros direct dt t. cbn [advance_loop]. unfold lift. rewrite Ec. sb. rewrite Ep. sb. rewrite Eq. sb. unfold add_triangle, rec_ext. destruct direct; sb; rewrite Ht; sb; rewrite Hb.
      * cbn [map]. now rewrite <- app_assoc.
      * rewrite !app_nil_r. cbn [length]. do 3 f_equal. lia.
    + right. intros direct dt. destruct (Hb direct (if direct then dt else dt + 1)) as (c & Hc). exists ((if direct then [CExt (fst p)] else []) ++ c).
      intros t. cbn [advance_loop]. unfold lift. rewrite Ec. sb. rewrite Ep. sb. rewrite Eq. sb. unfold add_triangle, rec_ext. destruct direct; sb; rewrite Ht; sb; rewrite Hc; [now rewrite <- app_assoc|reflexivity].
  - left. exists [], P, m. split; auto. split. { cbn. now rewrite app_nil_r. }
    intros direct dt t. cbn [advance_loop]. unfold lift. rewrite Ec. sb. destruct direct; cbn; rewrite app_nil_r; repeat f_equal. lia.
Qed.

(** ** One fan *)

Lemma one_fan_fans (a b c : I) (l : list vert) : fans_of (CNew a b c :: exts l) = [a :: b :: c :: map fst l].
Proof.
  unfold fans_of. assert (H : forall cur, fans_from cur (exts l) = [cur ++ map fst l]).
  { induction l as [|v l IH]; intros cur; cbn [map fans_from]; [now rewrite app_nil_r|]. rewrite IH, <- app_assoc. reflexivity. }
  now rewrite H.
Qed.

Lemma one_fan_twin left fuel (m : mono C I) S x y J p P : view m left (S ++ [x; y]) J (p :: P) -> ear left x y p ->
  twin (fun t => one_fan (E := E) rec_new rec_ext true fuel m t) (fun t => one_fan (E := E) rec_new rec_ext false fuel m t) /\
  forall t m', snd (one_fan (E := E) rec_new rec_ext true fuel m t) = Ok m' -> m_st m' <= m_pt m'.
Proof.
  intros Hv He.
  replace (S ++ [x; y]) with ((S ++ [x]) ++ [y]) in Hv by la.
  destruct (v_pop (E := E) _ _ _ _ _ _ Hv) as (m1 & Ep & Hv1).
  pose proof (v_peek (E := E) _ _ _ _ _ _ Hv1) as Ek. pose proof (v_pending (E := E) _ _ _ _ _ _ Hv1) as Eq.
  assert (Hml : m_left m1 = left) by now rewrite Hv1.
  destruct (can_triangulate (E := E) m1) as [back|?|?] eqn:Ec; [|destruct (v_can_dec (E := E) _ _ _ _ _ Hv1) as [(? & ? & ? & ? & ? & _ & _ & _ & H)|(H & _)]; congruence..].
  destruct back.
  - (* backtracking *)
    destruct (v_can_dec (E := E) _ _ _ _ _ Hv1) as [(S0 & x0 & x1 & q & P' & HS0 & HP0 & He0 & _)|(H & _)]; [|congruence].
    destruct (back_two left (Datatypes.S fuel) m1 (S ++ [x]) (y :: J) p P) as [(S' & s & X & m' & HS & Hv' & Hb)|Hb]; auto.
    { intros H. symmetry in H. now apply app_cons_not_nil in H. }
    + assert (Hx : exists Z, s :: X = Z ++ [x]).
      { destruct (exists_last (l := s :: X)) as (Z & w & HZ); [discriminate|]. exists Z. rewrite HZ in HS. rewrite app_assoc in HS.
        apply app_inj_tail in HS. destruct HS as (_ & ->). exact HZ. }
      destruct Hx as (Z & HZ).
      set (calls cw := if xorb (xorb true left) cw then CNew (if left then fst x else fst p) (fst y) (if left then fst p else fst x) :: exts (tl (rev (s :: X))) else CNew (fst p) (fst s) (fst (hd y X)) :: exts (tl (X ++ [y]))).
      assert (Hrun : forall cw (t : log), one_fan (E := E) rec_new rec_ext cw fuel m t = (t ++ calls cw, Ok m')).
      { intros cw t. unfold one_fan.
        set (direct := xorb (xorb true left) cw).
        assert (Hloop : forall (t : log), sbind (lift t (skipped_pop (E := E) m1)) (fun s '(m, _) => sbind (lift s (skipped_peek (E := E) m)) (fun s v =>
          sbind (add_triangle (E := E) rec_ext direct (if direct then 0 else 1) s (fst v)) (fun s dt => back_loop (E := E) rec_ext fuel m direct dt s))) =
          (t ++ (if direct then exts (tl (rev (s :: X))) else []), Ok (m', if direct then (if direct then 0 else 1) else (if direct then 0 else 1) + length X))).
        { intros t'. rewrite <- Hb. cbn [back_loop]. unfold lift. rewrite Ec. reflexivity. }
        unfold lift in Hloop. unfold lift. rewrite Ep. sb. rewrite Ek. sb. rewrite Eq. sb. rewrite Ec. sb. rewrite Hml.
        subst calls. cbv beta. fold direct. destruct direct.
        2:{ sb. rewrite Hloop by auto. sb.
          rewrite (v_pending _ _ _ _ _ _ Hv'). sb. rewrite (v_peek _ _ _ _ _ _ Hv'). sb.
          rewrite (v_def_back _ _ _ _ _ 0 (hd y X) Hv') by now destruct X. sb.
          unfold rec_new. sb. replace (1 + length X - 1) with (length (tl (X ++ [y]))) by (destruct X; cbn; rewrite ?app_length; cbn; lia).
          rewrite (def_ok true m' (tl (X ++ [y]))).
          * sb. la.
          * intros j v Hj. apply (v_def_back _ _ _ _ _ _ v Hv'). destruct X as [|w X]; [destruct j; discriminate|]. cbn [tl app] in *. cbn [nth_error Nat.add].
            replace (X ++ y :: J) with ((X ++ [y]) ++ J) by la. rewrite nth_error_app1; auto. apply nth_error_Some. congruence. }
        destruct left; cbn [negb] in *; unfold rec_new at 1; sb; rewrite Hloop by auto; sb; la. }
      split.
      * exists (calls true), (calls false), (Ok m'). split; auto. split; auto. intros _. subst calls. cbv beta.
        assert (G1 : fst p :: fst s :: fst (hd y X) :: map fst (tl (X ++ [y])) = fst p :: map fst (Z ++ [x; y])).
        { replace (Z ++ [x; y]) with ((s :: X) ++ [y]) by (rewrite HZ; la). destruct X; reflexivity. }
        assert (G2 : tl (rev (s :: X)) = rev Z) by (rewrite HZ, rev_app_distr; reflexivity).
        rewrite G2. destruct left; cbn [xorb negb]; (split; [exact Logic.I|]); (split; [exact Logic.I|]); rewrite !one_fan_fans, G1; (apply Forall2_cons; [|apply Forall2_nil]).
        -- right. cbn [mirror]. rewrite <- map_rev, rev_app_distr. reflexivity.
        -- left. cbn [mirror]. f_equal. rewrite map_rev. change (fst y :: fst x :: rev (map fst Z)) with (rev [fst x; fst y] ++ rev (map fst Z)).
           rewrite <- rev_app_distr, rev_involutive, map_app. reflexivity.
      * intros t m'' Hm. rewrite Hrun in Hm. injection Hm as <-. rewrite Hv'. cbn. lia.
    + assert (Hcr : forall cw, exists c, forall t : log, one_fan (E := E) rec_new rec_ext cw fuel m t = (t ++ c, Crash Fuel)).
      { intros cw. set (direct := xorb (xorb true left) cw). destruct (Hb direct (if direct then 0 else 1)) as (c & Hc).
        assert (Hloop : forall (t : log), sbind (lift t (skipped_pop (E := E) m1)) (fun s '(m, _) => sbind (lift s (skipped_peek (E := E) m)) (fun s v =>
          sbind (add_triangle (E := E) rec_ext direct (if direct then 0 else 1) s (fst v)) (fun s dt => back_loop (E := E) rec_ext fuel m direct dt s))) = (t ++ c, Crash Fuel)).
        { intros t'. rewrite <- Hc. cbn [back_loop]. unfold lift. rewrite Ec. reflexivity. }
        unfold lift in Hloop.
        exists ((if direct then [CNew (if left then fst x else fst p) (fst y) (if left then fst p else fst x)] else []) ++ c).
        intros t. unfold one_fan. unfold lift. rewrite Ep. sb. rewrite Ek. sb. rewrite Eq. sb. rewrite Ec. sb. rewrite Hml. fold direct. destruct direct.
        - destruct left; cbn [negb]; unfold rec_new at 1; sb; rewrite Hloop; unfold sbind; cbn [fst snd]; now rewrite <- app_assoc.
        - sb. rewrite Hloop. reflexivity. }
      split.
      * destruct (Hcr true) as (c & Hc). destruct (Hcr false) as (c' & Hc'). exists c, c', (Crash Fuel). split; auto. split; auto. intros N. now elim (N Fuel).
      * intros t m' Hm. destruct (Hcr true) as (c & Hc). rewrite Hc in Hm. discriminate.
  - (* advancing *)
    destruct (v_transfer (E := E) _ _ _ _ _ _ Hv1) as (m2 & Et & Hv2). replace ((S ++ [x]) ++ [p]) with (S ++ [x; p]) in Hv2 by la.
    destruct (adv_two left fuel m2 S x p (J ++ [y]) P) as [(Q & R & m' & HP & Hv' & Hb)|Hb]; auto.
    + set (calls cw := if xorb (xorb false left) cw then CNew (if left then fst x else fst p) (fst y) (if left then fst p else fst x) :: exts Q else CNew (fst x) (fst (last Q p)) (fst (hd y (rev (removelast (p :: Q))))) :: exts (tl (rev (removelast (p :: Q)) ++ [y]))).
      assert (Hrun : forall cw (t : log), one_fan (E := E) rec_new rec_ext cw fuel m t = (t ++ calls cw, Ok m')).
      { intros cw t. unfold one_fan.
        set (direct := xorb (xorb false left) cw).
        assert (Hloop : forall (t : log), sbind (lift t (transfer_pending (E := E) m1)) (fun s m => advance_loop (E := E) rec_ext fuel m direct (if direct then 0 else 1) s) =
          (t ++ (if direct then exts Q else []), Ok (m', if direct then (if direct then 0 else 1) else (if direct then 0 else 1) + length Q))).
        { intros t'. rewrite <- Hb. unfold lift. rewrite Et. reflexivity. }
        unfold lift in Hloop. unfold lift. rewrite Ep. sb. rewrite Ek. sb. rewrite Eq. sb. rewrite Ec. sb. rewrite Hml.
        subst calls. cbv beta. fold direct. destruct direct.
        + destruct left; cbn [negb] in *; unfold rec_new at 1; sb; rewrite Hloop by auto; sb; la.
        + sb. rewrite Hloop by auto. sb.
          rewrite (v_peek2 _ _ _ _ _ _ _ Hv'). sb.
          assert (Hrev : rev ((J ++ [y]) ++ removelast (p :: Q)) = (rev (removelast (p :: Q)) ++ [y]) ++ rev J) by (rewrite !rev_app_distr; cbn; now rewrite <- app_assoc).
          rewrite (v_def_adv _ _ _ _ _ 0 (hd y (rev (removelast (p :: Q)))) Hv') by (rewrite Hrev; now destruct (rev (removelast (p :: Q)))). sb.
          unfold rec_new. sb.
          assert (Hlen : length (rev (removelast (p :: Q))) = length Q).
          { pose proof (rev_length (p :: Q)) as H. rewrite rev_last in H. cbn [length] in H. lia. }
          replace (1 + length Q - 1) with (length (tl (rev (removelast (p :: Q)) ++ [y]))) by (rewrite <- Hlen; destruct (rev (removelast (p :: Q))); cbn; rewrite ?app_length; cbn; lia).
          rewrite (def_ok false m' (tl (rev (removelast (p :: Q)) ++ [y]))).
          * sb. la.
          * intros j v Hj. apply (v_def_adv _ _ _ _ _ _ v Hv'). rewrite Hrev. rewrite nth_error_app1.
            -- destruct (rev (removelast (p :: Q)) ++ [y]); [destruct j; discriminate|exact Hj].
            -- destruct (rev (removelast (p :: Q)) ++ [y]) eqn:Hd; [destruct j; discriminate|]. cbn [tl] in Hj. cbn. assert (j < length l) by (apply nth_error_Some; congruence). lia. }
      split.
      * exists (calls true), (calls false), (Ok m'). split; auto. split; auto. intros _. subst calls. cbv beta.
        assert (G1 : fst x :: fst (last Q p) :: fst (hd y (rev (removelast (p :: Q)))) :: map fst (tl (rev (removelast (p :: Q)) ++ [y])) = fst x :: map fst (rev (y :: p :: Q))).
        { change (rev (y :: p :: Q)) with (rev (p :: Q) ++ [y]). rewrite rev_last. cbn [app map]. destruct (rev (removelast (p :: Q))); reflexivity. }
        destruct left; cbn [xorb negb]; (split; [exact Logic.I|]); (split; [exact Logic.I|]); rewrite !one_fan_fans, G1; (apply Forall2_cons; [|apply Forall2_nil]).
        -- left. cbn [mirror]. f_equal. rewrite map_rev. reflexivity.
        -- right. cbn [mirror]. rewrite map_rev, rev_involutive. reflexivity.
      * intros t m'' Hm. rewrite Hrun in Hm. injection Hm as <-. rewrite Hv'. cbn. lia.
    + assert (Hcr : forall cw, exists c, forall t : log, one_fan (E := E) rec_new rec_ext cw fuel m t = (t ++ c, Crash Fuel)).
      { intros cw. set (direct := xorb (xorb false left) cw). destruct (Hb direct (if direct then 0 else 1)) as (c & Hc).
        assert (Hloop : forall (t : log), sbind (lift t (transfer_pending (E := E) m1)) (fun s m => advance_loop (E := E) rec_ext fuel m direct (if direct then 0 else 1) s) = (t ++ c, Crash Fuel)).
        { intros t'. rewrite <- Hc. unfold lift. rewrite Et. reflexivity. }
        unfold lift in Hloop.
        exists ((if direct then [CNew (if left then fst x else fst p) (fst y) (if left then fst p else fst x)] else []) ++ c).
        intros t. unfold one_fan. unfold lift. rewrite Ep. sb. rewrite Ek. sb. rewrite Eq. sb. rewrite Ec. sb. rewrite Hml. fold direct. destruct direct.
        - destruct left; cbn [negb]; unfold rec_new at 1; sb; rewrite Hloop; unfold sbind; cbn [fst snd]; now rewrite <- app_assoc.
        - sb. rewrite Hloop. reflexivity. }
      split.
      * destruct (Hcr true) as (c & Hc). destruct (Hcr false) as (c' & Hc'). exists c, c', (Crash Fuel). split; auto. split; auto. intros N. now elim (N Fuel).
      * intros t m' Hm. destruct (Hcr true) as (c & Hc). rewrite Hc in Hm. discriminate.
Qed.

(** ** All fans *)

Lemma twin_bind' {A B} (p q : log -> sres log err A) (p' q' : A -> log -> sres log err B) : twin p q -> (forall a t, snd (p t) = Ok a -> twin (p' a) (q' a)) ->
  twin (fun s => sbind (p s) (fun s a => p' a s)) (fun s => sbind (q s) (fun s a => q' a s)).
Proof.
  intros (c & c' & r & Hp & Hq & H) H'. destruct r as [a|e|x].
  - destruct (H' a []) as (d & d' & r' & Hp' & Hq' & Hd); [now rewrite Hp|]. exists (c ++ d), (c' ++ d'), r'.
    split; [intros t; rewrite Hp; unfold sbind; cbn; now rewrite Hp', app_assoc|]. split; [intros t; rewrite Hq; unfold sbind; cbn; now rewrite Hq', app_assoc|].
    intros N. destruct H as (S1 & S2 & F); [discriminate|]. destruct (Hd N) as (S3 & S4 & F'). rewrite !fans_of_app by auto. repeat split; auto using starts_app, Forall2_app.
  - exists c, c', (Err e). split; [intros t; now rewrite Hp|]. split; [intros t; now rewrite Hq|]. intros _. apply H. discriminate.
  - exists c, c', (Crash x). split; [intros t; now rewrite Hp|]. split; [intros t; now rewrite Hq|]. intros N. now elim (N x).
Qed.

(** Every array with ordered stack positions can be read as two stacks. *)
Lemma view_ex (m : mono C I) : m_st m <= m_pt m -> m_pt m <= length (m_a m) ->
  exists S J P, view m (m_left m) S J P.
Proof.
  intros H1 H2. destruct m as [a s p l]. cbn [m_st m_pt m_a m_left] in *.
  exists (firstn s a), (firstn (p - s) (skipn s a)), (skipn (p - s) (skipn s a)). unfold view.
  rewrite firstn_skipn, firstn_skipn, !firstn_length, skipn_length. f_equal; lia.
Qed.

Ltac tb := match goal with |- twin (fun s => sbind (@?q s) (fun s' a => @?q' a s')) (fun t => sbind (@?p t) (fun t' a' => @?p' a' t')) => apply (twin_bind' q p q' p') end.

Lemma build_fans_twin fuel k : forall m : mono C I, m_st m <= m_pt m ->
  twin (fun t => build_fans (E := E) rec_new rec_ext true fuel k m t) (fun t => build_fans (E := E) rec_new rec_ext false fuel k m t).
Proof.
  induction k as [|k IH]; intros m Hm; cbn [build_fans]; [apply twin_ret|].
  tb. { apply twin_ret. } intros r t0 Er. cbv beta in Er. unfold lift in Er. cbn [snd] in Er.
  assert (Hp : m_pt m <= length (m_a m)). { unfold remaining in Er. destruct (Nat.ltb_spec (length (m_a m)) (m_pt m)); [discriminate|auto]. }
  destruct (view_ex m Hm Hp) as (S & J & P & Hv). cbv beta.
  destruct (Nat.leb 3 r); [|destruct (Nat.eqb r 2); apply twin_ret].
  assert (Hrest : forall m' : mono C I, m_st m' <= m_pt m' ->
    twin (fun s : log => if has_pending m' then sbind (lift s (transfer_pending (E := E) m')) (fun s m => build_fans (E := E) rec_new rec_ext true fuel k m s) else build_fans rec_new rec_ext true fuel k (reset_position m') s)
         (fun s : log => if has_pending m' then sbind (lift s (transfer_pending (E := E) m')) (fun s m => build_fans (E := E) rec_new rec_ext false fuel k m s) else build_fans rec_new rec_ext false fuel k (reset_position m') s)).
  { intros m' Hm'. destruct (has_pending m').
    - apply (twin_bind' (fun s => lift s (transfer_pending (E := E) m')) (fun s => lift s (transfer_pending (E := E) m'))); [apply twin_ret|].
      intros m'' t Ht. apply IH. unfold lift in Ht. cbn [snd] in Ht. unfold transfer_pending in Ht.
      destruct (if negb (Nat.eqb (m_st m') (m_pt m')) then swap (E := E) (m_a m') (m_st m') (m_pt m') else Ok (m_a m')); try discriminate. cbn [bind] in Ht. injection Ht as <-. cbn. lia.
    - apply IH. cbn. lia. }
  tb. { apply twin_ret. } intros b t1 Eb. cbv beta in Eb. unfold lift in Eb. cbn [snd] in Eb. cbv beta.
  tb.
  - cbv beta. destruct b; [|apply twin_ret]. destruct (v_can_dec (E := E) _ _ _ _ _ Hv) as [(S0 & x & y & q & P' & HS & HP & He & Ec)|(Ec & _)]; [|congruence].
    subst S P. exact (proj1 (one_fan_twin (m_left m) fuel m S0 x y J q P' Hv He)).
  - intros m' t Hm'. cbv beta in *. apply Hrest. destruct b; [|cbn in Hm'; injection Hm' as <-; exact Hm].
    destruct (v_can_dec (E := E) _ _ _ _ _ Hv) as [(S0 & x & y & q & P' & HS & HP & He & Ec)|(Ec & _)]; [|congruence].
    subst S P. exact (proj2 (one_fan_twin (m_left m) fuel m S0 x y J q P' Hv He) t m' Hm').
Qed.

Ltac tw :=
  repeat first
    [ apply twin_ret
    | progress unfold lift
    | match goal with
      | |- twin (fun s => sbind (@?q s) (fun s' a => @?q' a s')) (fun t => sbind (@?p t) (fun t' a' => @?p' a' t')) =>
        apply (twin_bind q p q' p'); [|intros ?]
      | |- twin (fun s => match ?x with _ => _ end) _ => destruct x
      | |- twin (fun s => (if ?x then _ else _)) _ => destruct x
      end ].

Lemma mb_build_pos (b : mbuilder C I) m : mb_build b = Ok (Some m) -> m_st m <= m_pt m.
Proof.
  unfold mb_build. destruct (Nat.ltb _ _); [discriminate|]. destruct (mb_dx b && mb_dy b); [|discriminate].
  destruct (rd _ _); try discriminate. cbn [bind]. destruct (rd _ _); try discriminate. cbn [bind]. destruct (rd _ _); try discriminate. cbn [bind].
  intros H. injection H as <-. auto.
Qed.

Lemma finish_twin fuel (b : mbuilder C I) : twin (fun s => finish (E := E) rec_new rec_ext true fuel b s) (fun s => finish (E := E) rec_new rec_ext false fuel b s).
Proof.
  unfold finish. destruct (mb_build b) as [[m|]|e|c] eqn:Eb; [|apply twin_ret..]. apply build_fans_twin. exact (mb_build_pos b m Eb).
Qed.

Section Drive.
Variable gv : I -> coords C.
Variable fuel : nat.
Variable st : state C I.

Lemma extend_twin t ni n ms : twin (fun s => extend_monotones (E := E) gv rec_new rec_ext true fuel st t ni n ms s) (fun s => extend_monotones (E := E) gv rec_new rec_ext false fuel st t ni n ms s).
Proof.
  unfold extend_monotones.
  repeat first
    [ apply finish_twin | progress tw
    | match goal with |- context [let '(_, _) := ?x in _] => destruct x as [[?|] [?|]] end ].
Qed.

Lemma finish_all_twin ms : twin (fun s => finish_all (E := E) rec_new rec_ext true fuel ms s) (fun s => finish_all (E := E) rec_new rec_ext false fuel ms s).
Proof. unfold finish_all. repeat first [ apply finish_twin | progress tw ]. Qed.

Lemma step_v_twin x ms ul uc ur down : twin (fun s => step_v (E := E) rec_new rec_ext true fuel x ms ul uc ur down s) (fun s => step_v (E := E) rec_new rec_ext false fuel x ms ul uc ur down s).
Proof. unfold step_v. repeat first [ apply finish_all_twin | progress tw ]. Qed.

Lemma step_a_twin x t n ms dl dc dr : twin (fun s => step_a (S := log) (E := E) st x t n ms dl dc dr s) (fun s => step_a (S := log) (E := E) st x t n ms dl dc dr s).
Proof. unfold step_a. repeat first [ progress tw ]. Qed.

Lemma tri_step_twin x t ni : twin (fun s => tri_step (E := E) gv rec_new rec_ext true fuel st x t ni s) (fun s => tri_step (E := E) gv rec_new rec_ext false fuel st x t ni s).
Proof. unfold tri_step. repeat first [ apply extend_twin | apply step_v_twin | apply step_a_twin | progress tw ]. Qed.

Lemma tri_loop_twin k : forall x, twin (fun s => tri_loop (E := E) gv rec_new rec_ext true fuel st k x s) (fun s => tri_loop (E := E) gv rec_new rec_ext false fuel st k x s).
Proof.
  induction k as [|k IH]; intros x; cbn [tri_loop]; [tw|].
  repeat first [ apply tri_step_twin | apply IH | progress tw ].
Qed.

Lemma inner_twin : twin (fun s => triangulate_inner (E := E) gv rec_new rec_ext true fuel st s) (fun s => triangulate_inner (E := E) gv rec_new rec_ext false fuel st s).
Proof. unfold triangulate_inner. repeat first [ apply tri_loop_twin | progress tw ]. Qed.
End Drive.

(** The calls of a clockwise and of a counterclockwise builder: the same result; without a crash the fans correspond. *)
Lemma calls_twin ieqb (gv : I -> coords C) dbg fuel math_n shuf elems :
  snd (api_calls E ieqb gv true dbg fuel math_n shuf elems) = snd (api_calls E ieqb gv false dbg fuel math_n shuf elems) /\
  ((forall k, snd (api_calls E ieqb gv true dbg fuel math_n shuf elems) <> Crash k) ->
   Forall2 turned (fans_of (fst (api_calls E ieqb gv true dbg fuel math_n shuf elems))) (fans_of (fst (api_calls E ieqb gv false dbg fuel math_n shuf elems)))).
Proof.
  unfold api_calls. destruct (trapezoidize ieqb gv dbg fuel math_n shuf elems) as [st|e|c]; cbn [fst snd fans_of]; [|split; [reflexivity|intros; constructor]..].
  unfold run_calls. destruct (inner_twin gv fuel st) as (c & c' & r & Hp & Hq & H). rewrite Hp, Hq. cbn [fst snd app]. split; [reflexivity|]. intros N. now apply H.
Qed.
End Mirror.
