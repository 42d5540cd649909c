(** The monotone pieces under construction while the trapezoidation is traversed. *)
From Coq Require Import QArith Lqa List Arith Lia Bool Sorted.
From Verif Require Import Base Coord Trap Mono Tri Trace Protocol MonoProof Lanes Plane MonoGeom Geo Region TrapInv Locate Faces Budget.
Import ListNotations.
Local Open Scope nat_scope.

(** ** Runs of the traversal with a recording receiver *)

Section Emits.
Context {I E : Type}.
Notation log := (list (call I)).
Notation err := (tri_error E).
Notation piece := (bool * list (I * coords Q))%type.
Variable D : bool -> list (I * coords Q) -> list (I * I * I) -> Prop.

(** [fuel] is enough to cut the piece. *)
Definition quick (fuel : nat) (p : piece) : Prop :=
  exists cw t, snd (build_fans (E := E) rec_new rec_ext cw fuel fuel (mkMono (snd p) 2 2 (fst p)) t) <> Crash Fuel.

(** With enough fuel [f] succeeds with [a] and records calls whose triangles are those of the pieces [Ps]; with less it
    runs out of fuel, or does the same and the fuel is enough for each of the pieces. *)
Definition emits {A} (f : nat -> log -> sres log err A) (Ps : list piece) (a : A) : Prop :=
  exists N calls Ts, starts calls /\ tris_of calls = concat Ts /\ Forall2 (fun p T => D (fst p) (snd p) T) Ps Ts /\
    (forall fuel t, N <= fuel -> f fuel t = (t ++ calls, Ok a)) /\
    forall fuel t, snd (f fuel t) = Crash Fuel \/ (f fuel t = (t ++ calls, Ok a) /\ Forall (quick fuel) Ps).

Lemma emits_ret {A} (a : A) f : (forall fuel t, f fuel t = (t, Ok a)) -> emits f [] a.
Proof.
  intros H. exists 0, [], []. repeat split; auto; intros fuel t.
  - intros _. now rewrite app_nil_r.
  - right. rewrite app_nil_r. auto.
Qed.

Lemma emits_bind {A B} f Ps (a : A) (g : A -> nat -> log -> sres log err B) Qs b : emits f Ps a -> emits (g a) Qs b ->
  emits (fun fuel t => sbind (f fuel t) (fun s x => g x fuel s)) (Ps ++ Qs) b.
Proof.
  intros (N1 & c1 & T1 & S1 & E1 & F1 & R1 & L1) (N2 & c2 & T2 & S2 & E2 & F2 & R2 & L2). exists (N1 + N2), (c1 ++ c2), (T1 ++ T2).
  split; [now apply starts_app|]. split; [rewrite tris_app, concat_app by auto; now rewrite E1, E2|]. split; [now apply Forall2_app|]. split.
  - intros fuel t H. rewrite R1 by lia. unfold sbind. cbn [fst snd]. rewrite R2 by lia. now rewrite app_assoc.
  - intros fuel t. destruct (L1 fuel t) as [H|(H & K)].
    + left. destruct (f fuel t) as [s [x|e|c]]; cbn in H; try discriminate. cbn. congruence.
    + rewrite H. unfold sbind. cbn [fst snd]. destruct (L2 fuel (t ++ c1)) as [H'|(H' & K')]; [now left|]. right. rewrite H', app_assoc. split; auto. apply Forall_app. auto.
Qed.

Lemma emits_ext {A} (f g : nat -> log -> sres log err A) Ps a : (forall fuel t, g fuel t = f fuel t) -> emits f Ps a -> emits g Ps a.
Proof. intros H (N & c & T & S1 & E1 & F1 & R1 & L1). exists N, c, T. repeat split; auto; intros; rewrite H; auto. Qed.

Lemma emits_lift {A B} (r : res err A) (a : A) (g : A -> nat -> log -> sres log err B) Qs b : r = Ok a -> emits (g a) Qs b ->
  emits (fun fuel t => sbind (lift t r) (fun s x => g x fuel s)) Qs b.
Proof. intros -> H. exact H. Qed.
End Emits.

Lemma sorted_snoc (l : list point) y z : StronglySorted (fun a b => plt b a) (l ++ [y]) -> plt z y -> StronglySorted (fun a b => plt b a) ((l ++ [y]) ++ [z]).
Proof.
  induction l as [|x l IH]; cbn [app]; intros H Hz.
  - constructor; [constructor; constructor|]. constructor; auto.
  - inversion H as [|? ? H1 H2]; subst. constructor; auto. rewrite Forall_app in *. destruct H2 as (H2 & H3). rewrite Forall_app. inversion H3; subst.
    split; [split; auto|]. constructor; auto. eapply plt_trans; eauto.
Qed.

Lemma wsum_snoc w (l : list point) y z : (wsum w ((l ++ [y]) ++ [z]) == wsum w (l ++ [y]) + w y z)%Q.
Proof. rewrite <- app_assoc. cbn [app]. rewrite wsum_mid. unfold wsum at 2. cbn. ring. Qed.

Lemma wsum_one w y : (wsum w [y] == 0)%Q.
Proof. reflexivity. Qed.

Section Open.
Context {I E : Type}.
Variables (W : list point) (Es : list edge) (M : Q) (gv : I -> point) (st : state Q I).
Hypothesis HG : geo W Es.
Hypothesis HM : shear M W.
Hypothesis HF : full W Es M gv st.
Hypothesis HD : forall v n, nth_error (st_ns st) v = Some n -> deg n = 2.
Variable cw : bool.
Variable D : bool -> list (I * coords Q) -> list (I * I * I) -> Prop.
Notation log := (list (call I)).
Notation err := (tri_error E).
Notation vert := (I * coords Q)%type.
Notation piece := (bool * list vert)%type.
Notation mb := (mbuilder Q I).

(** Finished pieces are mountains of at least three of the vertices, based on an edge. *)
Definition okv (v : vert) : Prop := gv (fst v) = snd v /\ In (snd v) W.
Definition piece_ok (p : piece) : Prop :=
  mountain (fst p) (map snd (snd p)) /\ 3 <= length (snd p) /\ Forall okv (snd p) /\
  exists e Mm, In e Es /\ map snd (snd p) = snd e :: Mm ++ [fst e].

(** Every finished piece is cut. *)
Hypothesis HP : forall left V, piece_ok (left, V) -> exists N calls, starts calls /\ D left V (tris_of calls) /\
  forall fuel t, N <= fuel -> build_fans (E := E) rec_new rec_ext cw fuel fuel (mkMono V 2 2 left) t = (t ++ calls, Ok tt).

Notation ts := (st_ts st).
Notation ss := (st_ss st).
Notation ns := (st_ns st).
Notation tl := (Faces.tl st).
Notation tr := (Faces.tr st).
Notation td := (Faces.td st).
Notation tu := (Faces.tu st).
Notation smin := (Faces.smin st).
Notation smax := (Faces.smax st).
Notation pnt := (Faces.pnt st).
Notation hv := (Faces.hv M st).

Let HC : core W Es M gv st := f_core _ _ _ _ _ HF.

Definition vat (v : nat) : option vert := option_map (fun n => (n_v n, n_c n)) (nth_error ns v).

Lemma vat_n v n : nth_error ns v = Some n -> vat v = Some (n_v n, n_c n).
Proof. unfold vat. now intros ->. Qed.
Lemma vat_pnt v y : vat v = Some y -> snd y = pnt v /\ gv (fst y) = snd y /\ exists n, nth_error ns v = Some n /\ y = (n_v n, n_c n).
Proof.
  unfold vat. destruct (nth_error ns v) as [n|] eqn:E'; [|discriminate]. cbn. intros [= <-]. cbn. split; [|split].
  - now rewrite (pnt_n st v n E').
  - apply (c_v _ _ _ _ _ HC). eapply nth_error_In; eauto.
  - eauto.
Qed.

(** A builder that was given the vertices [v0 :: l]. *)
Definition mbl (v0 : vert) (l : list vert) : mb := mkMB (v0 :: l) (has_dx (snd v0) l) (has_dy (snd v0) l).

Lemma mbl_add {E'} v0 l i c : mb_add (E := E') (mbl v0 l) i c = Ok (mbl v0 (l ++ [(i, c)])).
Proof.
  pose proof (@feed_ok I E' v0 [(i, c)] l (has_dx (snd v0) l) (has_dy (snd v0) l)) as H. cbn [feed] in H. unfold mbl.
  destruct (mb_add _ i c) as [b| |]; cbn [bind] in H; try discriminate. injection H as ->. unfold has_dx, has_dy. now rewrite !existsb_app.
Qed.

Lemma mbl_new i c : mb_new i c = mbl (i, c) [].
Proof. reflexivity. Qed.

(** A piece under construction: based on segment [base], which is on its right if [left], last vertex [u]. *)
Definition open (left : bool) (base u : nat) (b : mb) : Prop :=
  exists g v0 l, nth_error ss base = Some g /\ vat (smax base) = Some v0 /\ b = mbl v0 l /\
    StronglySorted (fun a b => plt b a) (map snd (v0 :: l)) /\ Forall okv (v0 :: l) /\
    Forall (fun v => (0 < sgn left * cross (s_cmin g) (s_cmax g) (snd v))%Q) l /\
    exists l' y, v0 :: l = l' ++ [y] /\ vat u = Some y.

Notation Wv := (fun w (b : mb) => wsum w (map snd (mb_vec b))).

Lemma open_new left base v n : nth_error ns v = Some n -> smax base = v -> base < length ss -> open left base v (mb_new (n_v n) (n_c n)).
Proof.
  intros Hn Hs Hb. destruct (lt_nth _ _ _ Hb) as (g & Hg). exists g, (n_v n, n_c n), []. rewrite Hs. repeat split; auto.
  - now apply vat_n.
  - cbn. constructor; constructor.
  - constructor; auto. split; cbn; [apply (c_v _ _ _ _ _ HC); eapply nth_error_In; eauto|]. rewrite <- (pnt_n st v n Hn). eapply (pnt_in W Es M gv); eauto.
  - exists [], (n_v n, n_c n). split; auto. now apply vat_n.
Qed.

(** Feeding the lower vertex [d]. *)
Lemma open_add left base u b d n g : open left base u b -> nth_error ss base = Some g -> nth_error ns d = Some n -> (hv d < hv u)%Q ->
  exists b', (forall E', mb_add (E := E') b (n_v n) (n_c n) = Ok b') /\ mb_vec b' = mb_vec b ++ [(n_v n, n_c n)] /\
    (forall w, Wv w b' == Wv w b + w (pnt u) (pnt d))%Q /\
    ((0 < sgn left * cross (s_cmin g) (s_cmax g) (pnt d))%Q -> open left base d b') /\
    (d = smin base -> u <> smax base -> mb_build b' = Ok (Some (mkMono (mb_vec b') 2 2 left)) /\ piece_ok (left, mb_vec b') /\
       exists Mm, map snd (mb_vec b') = pnt (smax base) :: Mm ++ [pnt d]).
Proof.
  intros (g' & v0 & l & Hg & Hv0 & -> & Hsort & Hgv & Hside & l' & y & El & Hy) Hg' Hn Hlt. assert (g' = g) by congruence. subst g'. clear Hg'.
  exists (mbl v0 (l ++ [(n_v n, n_c n)])). split; [intros; apply mbl_add|]. split; [reflexivity|].
  destruct (vat_pnt u y Hy) as (Ey & _ & nu & Hnu & _). destruct (vat_pnt _ v0 Hv0) as (Ev0 & _ & _).
  assert (Ed : pnt d = n_c n) by now apply pnt_n.
  assert (Hvec : map snd (mb_vec (mbl v0 (l ++ [(n_v n, n_c n)]))) = (map snd l' ++ [snd y]) ++ [pnt d]).
  { cbn [mbl mb_vec]. change (v0 :: l ++ [(n_v n, n_c n)]) with ((v0 :: l) ++ [(n_v n, n_c n)]). rewrite El, !map_app. cbn [map snd]. now rewrite Ed. }
  assert (Hold : map snd (v0 :: l) = map snd l' ++ [snd y]) by (rewrite El, map_app; reflexivity).
  assert (Hplt : plt (pnt d) (snd y)).
  { rewrite Ey. apply (ht_lt W M HM); auto.
    - eapply (pnt_in W Es M gv); eauto.
    - eapply (pnt_in W Es M gv); eauto. }
  assert (Hsort' : StronglySorted (fun a b => plt b a) (map snd (mb_vec (mbl v0 (l ++ [(n_v n, n_c n)]))))).
  { rewrite Hvec. apply sorted_snoc; auto. rewrite Hold in Hsort. exact Hsort. }
  assert (Hgv' : Forall okv (v0 :: l ++ [(n_v n, n_c n)])).
  { change (v0 :: l ++ [(n_v n, n_c n)]) with ((v0 :: l) ++ [(n_v n, n_c n)]). apply Forall_app. split; auto. constructor; auto. split; cbn.
    - apply (c_v _ _ _ _ _ HC). eapply nth_error_In; eauto.
    - rewrite <- Ed. eapply (pnt_in W Es M gv); eauto. }
  split; [|split].
  - intros w. rewrite Hvec, wsum_snoc. cbn [mbl mb_vec]. rewrite Hold, Ey. reflexivity.
  - intros Hc. exists g, v0, (l ++ [(n_v n, n_c n)]). repeat split; auto.
    + apply Forall_app. split; auto. constructor; auto. cbn. now rewrite <- Ed.
    + exists (v0 :: l), (n_v n, n_c n). split; auto. now apply vat_n.
  - intros Hd Hu. destruct (seg_at W Es M gv st HG HM HF base g Hg) as (_ & _ & Emin & Emax & _).
    assert (Hlen : l <> []).
    { intros ->. destruct l' as [|? [|]]; try discriminate. injection El as ->. destruct (vat_pnt _ _ Hv0) as (_ & _ & n1 & Hn1 & E1). destruct (vat_pnt _ _ Hy) as (_ & _ & n2 & Hn2 & E2).
      apply Hu. apply (points_eq W Es M gv st u (smax base) (n_c n1) HC); [|now apply points_nth]. assert (n_c n1 = n_c n2) as -> by congruence. now apply points_nth. }
    assert (Hm : mountain left (map snd (v0 :: l ++ [(n_v n, n_c n)]))).
    { split; auto. exists (snd v0), (n_c n), (map snd l). split. { cbn [map]. now rewrite map_app. }
      intros v Hv. apply in_map_iff in Hv. destruct Hv as (x & <- & Hx). rewrite Forall_forall in Hside. specialize (Hside x Hx).
      rewrite Ev0, <- Ed, Hd, Emin, Emax. exact Hside. }
    assert (H3 : 3 <= length (v0 :: l ++ [(n_v n, n_c n)])). { destruct l; [easy|]. cbn. rewrite app_length. cbn. lia. }
    split; [|split].
    + destruct (build_mountain left v0 (l ++ [(n_v n, n_c n)]) Hm H3) as (b & Hb & _ & Hbuild). unfold mb_new in Hb.
      rewrite <- surjective_pairing in Hb. rewrite feed_ok in Hb. cbn [orb app] in Hb. injection Hb as <-. exact Hbuild.
    + split; [exact Hm|]. split; auto. split; auto. exists (sedge g), (map snd l). split; [apply (c_ss _ _ _ _ _ HC base g Hg)|].
      cbn [snd mbl mb_vec map sedge fst]. now rewrite map_app, Ev0, <- Emin, <- Emax, <- Hd, Ed.
    + exists (map snd l). cbn [mbl mb_vec map]. now rewrite map_app, Ev0, Ed.
Qed.

Lemma finish_emits left b : mb_build b = Ok (Some (mkMono (mb_vec b) 2 2 left)) -> piece_ok (left, mb_vec b) ->
  emits D (fun fuel => finish (E := E) rec_new rec_ext cw fuel b) [(left, mb_vec b)] tt.
Proof.
  intros Hb Hok. destruct (HP left _ Hok) as (N & calls & Hs & Hd & Hrun). exists N, calls, [tris_of calls]. repeat split; auto.
  - cbn. now rewrite app_nil_r.
  - intros fuel t Hf. unfold finish. rewrite Hb. now apply Hrun.
  - intros fuel t. unfold finish. rewrite Hb. cbn [lift sbind fst snd]. 
    destruct (build_fans_mono (E := E) rec_new rec_ext cw fuel (fuel + N) (Nat.le_add_r _ _) fuel (fuel + N) (mkMono (mb_vec b) 2 2 left) t (Nat.le_add_r _ _)) as [H|H]; [now left|].
    rewrite (Hrun (fuel + N) t) in H by lia. right. split; auto. constructor; auto. exists cw, t. cbn [fst snd]. rewrite H. discriminate.
Qed.

(** The value of a finished piece. *)
Definition pval (w : point -> point -> Q) (p : piece) : Q :=
  (sgn (fst p) * (wsum w (map snd (snd p)) + w (last (map snd (snd p)) dpt) (hd dpt (map snd (snd p)))))%Q.
Definition pcount (Ps : list piece) : nat := fold_right (fun p k => length (snd p) - 2 + k) 0 Ps.

Lemma pcount_app Ps Qs : pcount (Ps ++ Qs) = pcount Ps + pcount Qs.
Proof. induction Ps as [|p Ps IH]; cbn [pcount app fold_right]; [reflexivity|]. unfold pcount in *. rewrite IH. lia. Qed.

Lemma pval_at w left V q p Mm : map snd V = q :: Mm ++ [p] -> (pval w (left, V) == sgn left * (wsum w (map snd V) + w p q))%Q.
Proof.
  intros H. unfold pval. cbn [fst snd]. rewrite H. cbn [hd]. change (q :: Mm ++ [p]) with ((q :: Mm) ++ [p]). rewrite last_last. reflexivity.
Qed.

(** ** The monotones of an inner trapezoid *)

Definition mono_ok (i : nat) (ms : ot mb) : Prop :=
  exists e f u, tl i = Some e /\ tr i = Some f /\ tu i = Some u /\
  match ms with
  | OOne m => (u = smax f /\ open false e u m) \/ (u <> smax f /\ u = smax e /\ open true f u m)
  | OTwo a b => u <> smax e /\ u <> smax f /\ open false e u a /\ open true f u b
  end.

Definition mval (w : point -> point -> Q) (i : nat) (ms : ot mb) : Q :=
  match ms with
  | OOne m => match tr i, tu i with
    | Some f, Some u => if Nat.eqb u (smax f) then (- Wv w m)%Q else Wv w m
    | _, _ => 0%Q
    end
  | OTwo a b => (- Wv w a + Wv w b)%Q
  end.
Definition mcount (ms : ot mb) : nat :=
  match ms with OOne m => length (mb_vec m) | OTwo a b => length (mb_vec a) + length (mb_vec b) - 1 end.

Lemma open_len left base u b : open left base u b -> 1 <= length (mb_vec b).
Proof. intros (g & v0 & l & _ & _ & -> & _). cbn. lia. Qed.

Section At.
Variables (i e f u d : nat) (t : trap) (gl gr : seg Q) (nd : nexus Q I).
Hypothesis Ht : nth_error ts i = Some t.
Hypothesis He : tl i = Some e.
Hypothesis Hf : tr i = Some f.
Hypothesis Hu : tu i = Some u.
Hypothesis Hd : td i = Some d.
Hypothesis Hgl : nth_error ss e = Some gl.
Hypothesis Hgr : nth_error ss f = Some gr.
Hypothesis Hnd : nth_error ns d = Some nd.

Lemma one_left m : mono_ok i (OOne m) -> u <> smax e -> u = smax f /\ open false e u m.
Proof.
  intros (e' & f' & u' & H1 & H2 & H3 & H4) Hne. assert (e' = e) by congruence. assert (f' = f) by congruence. assert (u' = u) by congruence. subst.
  destruct H4 as [H4|H4]; [auto|]. exfalso. tauto.
Qed.
Lemma one_right m : mono_ok i (OOne m) -> u <> smax f -> u = smax e /\ open true f u m.
Proof.
  intros (e' & f' & u' & H1 & H2 & H3 & H4) Hne. assert (e' = e) by congruence. assert (f' = f) by congruence. assert (u' = u) by congruence. subst.
  destruct H4 as [H4|H4]; [exfalso|]; tauto.
Qed.
Lemma one_left' m : mono_ok i (OOne m) -> u = smax f -> open false e u m.
Proof.
  intros (e' & f' & u' & H1 & H2 & H3 & H4) Hne. assert (e' = e) by congruence. assert (f' = f) by congruence. assert (u' = u) by congruence. subst e' f' u'.
  destruct H4 as [H4|H4]; tauto.
Qed.
Lemma mval_l w m : u = smax f -> mval w i (OOne m) = (- Wv w m)%Q.
Proof. intros H. unfold mval. rewrite Hf, Hu. now rewrite (proj2 (Nat.eqb_eq _ _) H). Qed.
Lemma mval_r w m : u <> smax f -> mval w i (OOne m) = Wv w m.
Proof. intros H. unfold mval. rewrite Hf, Hu. now rewrite (proj2 (Nat.eqb_neq _ _) H). Qed.

Lemma one_right' m : mono_ok i (OOne m) -> u = smax e -> open true f u m /\ forall w, (mval w i (OOne m) == Wv w m)%Q.
Proof.
  intros H Hue. destruct (Nat.eq_dec u (smax f)) as [Huf|Huf].
  - pose proof (one_left' m H Huf) as (g & v0 & l & Hg & Hv0 & -> & Hs & Hgv & Hside & l' & y & El & Hy).
    assert (l = []) as ->.
    { rewrite <- Hue in Hv0. assert (Hvy : v0 = y) by congruence. destruct l' as [|x l']; [now injection El|]. exfalso. injection El as -> ->.
      subst y. cbn [map] in Hs. inversion Hs as [|? ? _ H2]; subst. rewrite map_app in H2. apply Forall_app in H2. destruct H2 as (_ & H2). inversion H2 as [|? ? H3 _]; subst.
      cbn [snd] in H3. now apply (plt_irrefl (snd x) (snd x)) in H3. }
    split.
    + exists gr, v0, []. rewrite <- Huf. repeat split; auto. { now rewrite Hue. } exists [], v0. split; auto. now rewrite Hue.
    + intros w. rewrite (mval_l w _ Huf). cbn [mbl mb_vec map]. cbn [snd]. change (wsum w [snd v0]) with 0%Q. reflexivity.
  - destruct (one_right m H Huf) as (_ & Ho). split; auto. intros w. now rewrite (mval_r w _ Huf).
Qed.

Lemma two_open a b : mono_ok i (OTwo a b) -> u <> smax e /\ u <> smax f /\ open false e u a /\ open true f u b.
Proof.
  intros (e' & f' & u' & H1 & H2 & H3 & H4). assert (e' = e) by congruence. assert (f' = f) by congruence. assert (u' = u) by congruence. now subst.
Qed.

Lemma du : (hv d < hv u)%Q.
Proof. apply (du_lt W Es M gv st HF i); auto. Qed.

(** The lower vertex is strictly beside a side that does not end there. *)
Lemma d_right : d <> smin e -> (0 < sgn false * cross (s_cmin gl) (s_cmax gl) (pnt d))%Q.
Proof.
  intros Hne. destruct (tl_spans W Es M gv st HG HM HF i e He) as (g & d' & u' & Hg & Hd' & Hu' & S1 & S2 & S3).
  assert (g = gl) by congruence. assert (d' = d) by congruence. assert (u' = u) by congruence. subst.
  destruct (seg_at W Es M gv st HG HM HF e gl Hgl) as (_ & _ & E1 & E2 & Hin & _ & (n1 & Hn1) & _).
  destruct (f_td _ _ _ _ _ HF i t Ht) as (T1 & _).
  destruct (reg_l W Es M gv st i t e HC Ht) as (g & Hg' & Ea). { unfold Faces.tl in He. now rewrite Ht in He. }
  assert (g = gl) by congruence. subst g.
  destruct (reg_end W Es M gv st i t Desc d HC Ht) as (n & Hn & Eb). { unfold Faces.td in Hd. rewrite Ht in Hd. exact Hd. }
  assert (n = nd) by congruence. subst n. cbn [aend] in Eb. rewrite Ea, Eb in T1. cbn [touch_l] in T1.
  pose proof (pnt_n st d nd Hnd) as Ed. rewrite <- Ed in T1.
  assert (Hlt : (hv (smin e) < hv d)%Q). { apply Qle_lteq in S1. destruct S1 as [S1|S1]; auto. exfalso. apply Hne. symmetry. eapply (hv_inj W Es M gv); eauto. }
  assert (K : ~ (cx (pnt d) == X M (sedge gl) (ht M (pnt d)))%Q).
  { apply (off_edge W Es M HG HM); auto. { eapply (pnt_in W Es M gv); eauto. }
    - cbn [sedge fst]. rewrite <- E1. exact Hlt.
    - cbn [sedge snd]. rewrite <- E2. unfold Faces.hv in *. lra. }
  assert (K2 : (cross (s_cmin gl) (s_cmax gl) (pnt d) < 0)%Q).
  { apply (cross_neg W Es M HG HM (sedge gl)); auto. apply Qle_lteq in T1. destruct T1 as [T1|T1]; auto. exfalso. apply K. now rewrite T1. }
  cbn [sgn]. lra.
Qed.

Lemma d_left : d <> smin f -> (0 < sgn true * cross (s_cmin gr) (s_cmax gr) (pnt d))%Q.
Proof.
  intros Hne. destruct (tr_spans W Es M gv st HG HM HF i f Hf) as (g & d' & u' & Hg & Hd' & Hu' & S1 & S2 & S3).
  assert (g = gr) by congruence. assert (d' = d) by congruence. assert (u' = u) by congruence. subst.
  destruct (seg_at W Es M gv st HG HM HF f gr Hgr) as (_ & _ & E1 & E2 & Hin & _ & (n1 & Hn1) & _).
  destruct (f_td _ _ _ _ _ HF i t Ht) as (_ & T1).
  destruct (reg_r W Es M gv st i t f HC Ht) as (g & Hg' & Ea). { unfold Faces.tr in Hf. now rewrite Ht in Hf. }
  assert (g = gr) by congruence. subst g.
  destruct (reg_end W Es M gv st i t Desc d HC Ht) as (n & Hn & Eb). { unfold Faces.td in Hd. rewrite Ht in Hd. exact Hd. }
  assert (n = nd) by congruence. subst n. cbn [aend] in Eb. rewrite Ea, Eb in T1. cbn [touch_r] in T1.
  pose proof (pnt_n st d nd Hnd) as Ed. rewrite <- Ed in T1.
  assert (Hlt : (hv (smin f) < hv d)%Q). { apply Qle_lteq in S1. destruct S1 as [S1|S1]; auto. exfalso. apply Hne. symmetry. eapply (hv_inj W Es M gv); eauto. }
  assert (K : ~ (cx (pnt d) == X M (sedge gr) (ht M (pnt d)))%Q).
  { apply (off_edge W Es M HG HM); auto. { eapply (pnt_in W Es M gv); eauto. }
    - cbn [sedge fst]. rewrite <- E1. exact Hlt.
    - cbn [sedge snd]. rewrite <- E2. unfold Faces.hv in *. lra. }
  assert (K2 : (0 < cross (s_cmin gr) (s_cmax gr) (pnt d))%Q).
  { apply (cross_pos W Es M HG HM (sedge gr)); auto. apply Qle_lteq in T1. destruct T1 as [T1|T1]; auto. exfalso. now apply K. }
  cbn [sgn]. lra.
Qed.

(** ** One step of the monotones *)

Notation extend := (extend_monotones (E := E) gv rec_new rec_ext cw).

(** The parts of [extend_monotones] that do not depend on the case. *)
Definition ext_rest (ms : ot mb) (complete : option mb) (rest : option (ot mb)) (fuel : nat) (s : log) : sres log err (ot mb) :=
  match complete with
  | Some b =>
    sbind (finish rec_new rec_ext cw fuel b s) (fun s _ =>
    match rest with
    | Some ms => (s, Ok ms)
    | None => sbind (lift s (rd ns u)) (fun s n_up =>
       sbind (lift s (mb_add (mb_new (n_v n_up) (gv (n_v n_up))) (n_v nd) (n_c nd))) (fun s b' => (s, Ok (OOne b'))))
    end)
  | None => match rest with Some ms => (s, Ok ms) | None => (s, Ok ms) end
  end.
Definition ext_case (ms : ot mb) : option mb * option (ot mb) :=
  if Nat.eqb d (smin e) && negb (Nat.eqb d (smin f)) && negb (Nat.eqb u (smax e)) then
    match ms with OOne a => (Some a, None) | OTwo a b => (Some a, Some (OOne b)) end
  else if Nat.eqb d (smin f) && negb (Nat.eqb d (smin e)) && negb (Nat.eqb u (smax f)) then
    match ms with OOne a => (Some a, None) | OTwo a b => (Some b, Some (OOne a)) end
  else (None, Some ms).

Lemma extend_eq fuel s ms ms1 : add_to_all (E := E) ms nd = Ok ms1 ->
  extend fuel st t d nd ms s = ext_rest ms1 (fst (ext_case ms1)) (snd (ext_case ms1)) fuel s.
Proof.
  intros Ha. unfold extend_monotones. rewrite Ha. unfold lift at 1. unfold sbind at 1. cbn [fst snd].
  assert (t_l t = Some e) as -> by (unfold Faces.tl in He; now rewrite Ht in He). assert (t_r t = Some f) as -> by (unfold Faces.tr in Hf; now rewrite Ht in Hf).
  assert (t_u t = Some u) as -> by (unfold Faces.tu in Hu; now rewrite Ht in Hu).
  unfold lift at 1, ok_or at 1. unfold sbind at 1. cbn [fst snd]. unfold rd at 1. rewrite Hgl. unfold lift at 1. unfold sbind at 1. cbn [fst snd].
  unfold lift at 1, ok_or at 1. unfold sbind at 1. cbn [fst snd]. unfold rd at 1. rewrite Hgr. unfold lift at 1. unfold sbind at 1. cbn [fst snd].
  unfold lift at 1, ok_or at 1. unfold sbind at 1. cbn [fst snd].
  destruct (seg_at W Es M gv st HG HM HF e gl Hgl) as (E1 & E2 & _). destruct (seg_at W Es M gv st HG HM HF f gr Hgr) as (E3 & E4 & _).
  unfold ext_case. rewrite E1, E2, E3, E4.
  match goal with |- context [if ?b then _ else _] => destruct b end; [destruct ms1; reflexivity|].
  match goal with |- context [if ?b then _ else _] => destruct b end; destruct ms1; reflexivity.
Qed.

Ltac use_add H b' Hb := destruct H as (b' & Hb & ?Hvec & ?Hw & ?Hopen & ?Hbuild).

(** The piece from [u] to [d] that starts a new base. *)
Lemma fresh_ok left base nu : nth_error ns u = Some nu -> smax base = u -> forall g, nth_error ss base = Some g ->
  (0 < sgn left * cross (s_cmin g) (s_cmax g) (pnt d))%Q ->
  exists b', (forall E', mb_add (E := E') (mb_new (n_v nu) (n_c nu)) (n_v nd) (n_c nd) = Ok b') /\ open left base d b' /\ length (mb_vec b') = 2 /\
    forall w, (Wv w b' == w (pnt u) (pnt d))%Q.
Proof.
  intros Hnu Hs g Hg Hside. assert (Ho : open left base u (mb_new (n_v nu) (n_c nu))) by (apply open_new; auto; eapply nth_lt; eauto).
  destruct (open_add left base u _ d nd g Ho Hg Hnd du) as (b' & Hb & Hvec & Hw & Hop & _). exists b'. split; auto. split; auto. split.
  - rewrite Hvec. reflexivity.
  - intros w. rewrite Hw. cbn [mb_new mb_vec map]. rewrite (wsum_one w (n_c nu)). ring.
Qed.

Lemma gv_up nu : nth_error ns u = Some nu -> gv (n_v nu) = n_c nu.
Proof. intros H. apply (c_v _ _ _ _ _ HC). eapply nth_error_In; eauto. Qed.

Lemma nu_ex : exists nu, nth_error ns u = Some nu.
Proof. destruct (tu_n W Es M gv st HF i u Hu) as (n & Hn & _). eauto. Qed.

(** The trapezoid ends on its right side. *)
Lemma extend_right ms : mono_ok i ms -> d = smin f -> d <> smin e ->
  exists Ps m, emits D (fun fuel s => extend fuel st t d nd ms s) Ps (OOne m) /\ Forall piece_ok Ps /\ open false e d m /\
    (forall w, anti w -> sumq (pval w) Ps - Wv w m == mval w i ms + w (pnt d) (pnt (smax f)))%Q /\
    pcount Ps + length (mb_vec m) = mcount ms + 1.
Proof.
  intros Hok Hdf Hde. pose proof du as Hdu. destruct nu_ex as (nu & Hnu). pose proof (d_right Hde) as Hside.
  assert (C1 : Nat.eqb d (smin e) = false) by now apply Nat.eqb_neq. assert (C2 : Nat.eqb d (smin f) = true) by now apply Nat.eqb_eq.
  destruct (Nat.eq_dec u (smax f)) as [Huf|Huf].
  - (* no piece is finished *)
    assert (C3 : Nat.eqb u (smax f) = true) by now apply Nat.eqb_eq.
    destruct ms as [m|a b]; [|destruct (two_open a b Hok) as (_ & Hbad & _); contradiction].
    pose proof (one_left' m Hok Huf) as Ho. destruct (open_add false e u m d nd gl Ho Hgl Hnd Hdu) as (m' & Hm & Hvec & Hw & Hop & _).
    exists [], m'. split; [|split; [constructor|split; [auto|split]]].
    + apply emits_ret. intros fuel s. rewrite (extend_eq fuel s (OOne m) (OOne m')) by (cbn; now rewrite Hm).
      unfold ext_case. rewrite C1, C2, C3. cbn. reflexivity.
    + intros w Hw'. rewrite Hw, (mval_l w m Huf). cbn [sumq]. rewrite <- Huf, (Hw' (pnt d) (pnt u)). ring.
    + rewrite Hvec, app_length. reflexivity.
  - assert (C3 : Nat.eqb u (smax f) = false) by now apply Nat.eqb_neq.
    destruct ms as [m|a b].
    + destruct (one_right m Hok Huf) as (Hue & Ho). destruct (open_add true f u m d nd gr Ho Hgr Hnd Hdu) as (m' & Hm & Hvec & Hw & _ & Hbuild).
      destruct (Hbuild Hdf Huf) as (Hb & Hpok & Mm & HMm). destruct (fresh_ok false e nu Hnu (eq_sym Hue) gl Hgl Hside) as (b' & Hb' & Hop' & Hl' & Hw').
      exists [(true, mb_vec m')], b'. split; [|split; [repeat constructor; auto; apply Hpok|split; [auto|split]]].
      * apply (emits_ext D (fun fuel s => sbind (finish (E := E) rec_new rec_ext cw fuel m' s) (fun s _ => (s, Ok (OOne b'))))).
        { intros fuel s. rewrite (extend_eq fuel s (OOne m) (OOne m')) by (cbn; now rewrite Hm). unfold ext_case. rewrite C1, C2, C3. cbn [andb negb fst snd ext_rest].
          destruct (finish rec_new rec_ext cw fuel m' s) as [s' [[]|?|?]]; unfold sbind at 1 3; cbn [fst snd]; auto. unfold rd. rewrite Hnu. unfold lift, sbind. cbn [fst snd].
          rewrite (gv_up nu Hnu), Hb'. reflexivity. }
        apply (emits_bind D (fun fuel s => finish (E := E) rec_new rec_ext cw fuel m' s) [(true, mb_vec m')] tt (fun _ _ s => (s, Ok (OOne b'))) []).
        { now apply finish_emits. } apply emits_ret. reflexivity.
      * intros w Hanti. cbn [sumq]. rewrite (pval_at w true (mb_vec m') _ _ _ HMm). cbn [sgn]. rewrite Hw, Hw', (mval_r w m Huf). ring.
      * cbn [pcount fold_right snd]. rewrite Hvec, app_length, Hl'. cbn [length mcount]. pose proof (open_len _ _ _ _ Ho). lia.
    + destruct (two_open a b Hok) as (_ & _ & Ho1 & Ho2).
      destruct (open_add false e u a d nd gl Ho1 Hgl Hnd Hdu) as (a' & Ha & Hveca & Hwa & Hopa & _).
      destruct (open_add true f u b d nd gr Ho2 Hgr Hnd Hdu) as (b' & Hb & Hvecb & Hwb & _ & Hbuild).
      destruct (Hbuild Hdf Huf) as (Hbb & Hpok & Mm & HMm).
      exists [(true, mb_vec b')], a'. split; [|split; [repeat constructor; auto; apply Hpok|split; [auto|split]]].
      * apply (emits_ext D (fun fuel s => sbind (finish (E := E) rec_new rec_ext cw fuel b' s) (fun s _ => (s, Ok (OOne a'))))).
        { intros fuel s. rewrite (extend_eq fuel s (OTwo a b) (OTwo a' b')) by (cbn; now rewrite Ha, Hb). unfold ext_case. rewrite C1, C2, C3. cbn [andb negb fst snd ext_rest]. reflexivity. }
        apply (emits_bind D (fun fuel s => finish (E := E) rec_new rec_ext cw fuel b' s) [(true, mb_vec b')] tt (fun _ _ s => (s, Ok (OOne a'))) []).
        { now apply finish_emits. } apply emits_ret. reflexivity.
      * intros w Hanti. cbn [sumq mval]. rewrite (pval_at w true (mb_vec b') _ _ _ HMm). cbn [sgn]. rewrite Hwa, Hwb. ring.
      * cbn [pcount fold_right snd mcount]. rewrite Hveca, Hvecb, !app_length. cbn [length]. pose proof (open_len _ _ _ _ Ho1). pose proof (open_len _ _ _ _ Ho2). lia.
Qed.

(** The trapezoid ends on its left side. *)
Lemma extend_left ms : mono_ok i ms -> d = smin e -> d <> smin f ->
  exists Ps m, emits D (fun fuel s => extend fuel st t d nd ms s) Ps (OOne m) /\ Forall piece_ok Ps /\ open true f d m /\
    (forall w, anti w -> sumq (pval w) Ps + Wv w m == mval w i ms + w (pnt (smax e)) (pnt d))%Q /\
    pcount Ps + length (mb_vec m) = mcount ms + 1.
Proof.
  intros Hok Hde Hdf. pose proof du as Hdu. destruct nu_ex as (nu & Hnu). pose proof (d_left Hdf) as Hside.
  assert (C1 : Nat.eqb d (smin e) = true) by now apply Nat.eqb_eq. assert (C2 : Nat.eqb d (smin f) = false) by now apply Nat.eqb_neq.
  destruct (Nat.eq_dec u (smax e)) as [Hue|Hue].
  - assert (C3 : Nat.eqb u (smax e) = true) by now apply Nat.eqb_eq.
    destruct ms as [m|a b]; [|destruct (two_open a b Hok) as (Hbad & _); contradiction].
    destruct (one_right' m Hok Hue) as (Ho & Hv). destruct (open_add true f u m d nd gr Ho Hgr Hnd Hdu) as (m' & Hm & Hvec & Hw & Hop & _).
    exists [], m'. split; [|split; [constructor|split; [auto|split]]].
    + apply emits_ret. intros fuel s. rewrite (extend_eq fuel s (OOne m) (OOne m')) by (cbn; now rewrite Hm).
      unfold ext_case. rewrite C1, C2, C3. cbn. reflexivity.
    + intros w Hw'. rewrite Hw, Hv. cbn [sumq]. rewrite <- Hue. ring.
    + rewrite Hvec, app_length. reflexivity.
  - assert (C3 : Nat.eqb u (smax e) = false) by now apply Nat.eqb_neq.
    destruct ms as [m|a b].
    + destruct (one_left m Hok Hue) as (Huf & Ho). destruct (open_add false e u m d nd gl Ho Hgl Hnd Hdu) as (m' & Hm & Hvec & Hw & _ & Hbuild).
      destruct (Hbuild Hde Hue) as (Hb & Hpok & Mm & HMm). destruct (fresh_ok true f nu Hnu (eq_sym Huf) gr Hgr Hside) as (b' & Hb' & Hop' & Hl' & Hw').
      exists [(false, mb_vec m')], b'. split; [|split; [repeat constructor; auto; apply Hpok|split; [auto|split]]].
      * apply (emits_ext D (fun fuel s => sbind (finish (E := E) rec_new rec_ext cw fuel m' s) (fun s _ => (s, Ok (OOne b'))))).
        { intros fuel s. rewrite (extend_eq fuel s (OOne m) (OOne m')) by (cbn; now rewrite Hm). unfold ext_case. rewrite C1, C2, C3. cbn [andb negb fst snd ext_rest].
          destruct (finish rec_new rec_ext cw fuel m' s) as [s' [[]|?|?]]; unfold sbind at 1 3; cbn [fst snd]; auto. unfold rd. rewrite Hnu. unfold lift, sbind. cbn [fst snd].
          rewrite (gv_up nu Hnu), Hb'. reflexivity. }
        apply (emits_bind D (fun fuel s => finish (E := E) rec_new rec_ext cw fuel m' s) [(false, mb_vec m')] tt (fun _ _ s => (s, Ok (OOne b'))) []).
        { now apply finish_emits. } apply emits_ret. reflexivity.
      * intros w Hanti. cbn [sumq]. rewrite (pval_at w false (mb_vec m') _ _ _ HMm). cbn [sgn]. rewrite Hw, Hw', (mval_l w m Huf), (Hanti (pnt d)). ring.
      * cbn [pcount fold_right snd]. rewrite Hvec, app_length, Hl'. cbn [length mcount]. pose proof (open_len _ _ _ _ Ho). lia.
    + destruct (two_open a b Hok) as (_ & _ & Ho1 & Ho2).
      destruct (open_add false e u a d nd gl Ho1 Hgl Hnd Hdu) as (a' & Ha & Hveca & Hwa & _ & Hbuild).
      destruct (open_add true f u b d nd gr Ho2 Hgr Hnd Hdu) as (b' & Hb & Hvecb & Hwb & Hopb & _).
      destruct (Hbuild Hde Hue) as (Hbb & Hpok & Mm & HMm).
      exists [(false, mb_vec a')], b'. split; [|split; [repeat constructor; auto; apply Hpok|split; [auto|split]]].
      * apply (emits_ext D (fun fuel s => sbind (finish (E := E) rec_new rec_ext cw fuel a' s) (fun s _ => (s, Ok (OOne b'))))).
        { intros fuel s. rewrite (extend_eq fuel s (OTwo a b) (OTwo a' b')) by (cbn; now rewrite Ha, Hb). unfold ext_case. rewrite C1, C2, C3. cbn [andb negb fst snd ext_rest]. reflexivity. }
        apply (emits_bind D (fun fuel s => finish (E := E) rec_new rec_ext cw fuel a' s) [(false, mb_vec a')] tt (fun _ _ s => (s, Ok (OOne b'))) []).
        { now apply finish_emits. } apply emits_ret. reflexivity.
      * intros w Hanti. cbn [sumq mval]. rewrite (pval_at w false (mb_vec a') _ _ _ HMm). cbn [sgn]. rewrite Hwa, Hwb, (Hanti (pnt d)). ring.
      * cbn [pcount fold_right snd mcount]. rewrite Hveca, Hvecb, !app_length. cbn [length]. pose proof (open_len _ _ _ _ Ho1). pose proof (open_len _ _ _ _ Ho2). lia.
Qed.

(** Both sides end: everything is finished. *)
Lemma extend_both ms : mono_ok i ms -> d = smin e -> d = smin f ->
  exists ms' Ps, (forall fuel s, extend fuel st t d nd ms s = (s, Ok ms')) /\
    emits D (fun fuel s => finish_all (E := E) rec_new rec_ext cw fuel ms' s) Ps tt /\ Forall piece_ok Ps /\
    (forall w, anti w -> sumq (pval w) Ps == mval w i ms + w (pnt (smax e)) (pnt d) + w (pnt d) (pnt (smax f)))%Q /\
    pcount Ps + 1 = mcount ms.
Proof.
  intros Hok Hde Hdf. pose proof du as Hdu.
  assert (C1 : Nat.eqb d (smin e) = true) by now apply Nat.eqb_eq. assert (C2 : Nat.eqb d (smin f) = true) by now apply Nat.eqb_eq.
  assert (Hext : forall fuel s ms1, add_to_all (E := E) ms nd = Ok ms1 -> extend fuel st t d nd ms s = (s, Ok ms1)).
  { intros fuel s ms1 Ha. rewrite (extend_eq fuel s ms ms1 Ha). unfold ext_case. rewrite C1, C2. reflexivity. }
  assert (Hne : ~ (u = smax e /\ u = smax f)).
  { intros (H1 & H2). apply (lr_ne W Es M gv st HG HM HF i e f He Hf).
    destruct (c_ss _ _ _ _ _ HC e gl Hgl) as (A1 & A2 & _). destruct (c_ss _ _ _ _ _ HC f gr Hgr) as (B1 & B2 & _).
    destruct (seg_at W Es M gv st HG HM HF e gl Hgl) as (E1 & E2 & _). destruct (seg_at W Es M gv st HG HM HF f gr Hgr) as (E3 & E4 & _).
    apply (medges_eq W Es M gv st e f (sedge gl) HC); [now apply medges_nth|]. assert (sedge gl = sedge gr) as ->; [|now apply medges_nth].
    unfold sedge. assert (s_min gl = s_min gr) as K1 by congruence. assert (s_max gl = s_max gr) as K2 by congruence. rewrite K1 in A1. rewrite K2 in A2.
    f_equal; congruence. }
  destruct ms as [m|a b].
  - destruct (Nat.eq_dec u (smax f)) as [Huf|Huf].
    + assert (Hue : u <> smax e) by tauto. pose proof (one_left' m Hok Huf) as Ho.
      destruct (open_add false e u m d nd gl Ho Hgl Hnd Hdu) as (m' & Hm & Hvec & Hw & _ & Hbuild). destruct (Hbuild Hde Hue) as (Hb & Hpok & Mm & HMm).
      exists (OOne m'), [(false, mb_vec m')]. split; [intros; apply Hext; cbn; now rewrite Hm|]. split; [cbn [finish_all]; now apply finish_emits|].
      split; [repeat constructor; auto; apply Hpok|]. split.
      * intros w Hanti. cbn [sumq]. rewrite (pval_at w false (mb_vec m') _ _ _ HMm). cbn [sgn]. rewrite Hw, (mval_l w m Huf), <- Huf, (Hanti (pnt d) (pnt (smax e))), (Hanti (pnt d) (pnt u)). ring.
      * cbn [pcount fold_right snd mcount]. rewrite Hvec, app_length. cbn [length]. pose proof (open_len _ _ _ _ Ho). lia.
    + destruct (one_right m Hok Huf) as (Hue & Ho).
      destruct (open_add true f u m d nd gr Ho Hgr Hnd Hdu) as (m' & Hm & Hvec & Hw & _ & Hbuild). destruct (Hbuild Hdf Huf) as (Hb & Hpok & Mm & HMm).
      exists (OOne m'), [(true, mb_vec m')]. split; [intros; apply Hext; cbn; now rewrite Hm|]. split; [cbn [finish_all]; now apply finish_emits|].
      split; [repeat constructor; auto; apply Hpok|]. split.
      * intros w Hanti. cbn [sumq]. rewrite (pval_at w true (mb_vec m') _ _ _ HMm). cbn [sgn]. rewrite Hw, (mval_r w m Huf), <- Hue. ring.
      * cbn [pcount fold_right snd mcount]. rewrite Hvec, app_length. cbn [length]. pose proof (open_len _ _ _ _ Ho). lia.
  - destruct (two_open a b Hok) as (Hue & Huf & Ho1 & Ho2).
    destruct (open_add false e u a d nd gl Ho1 Hgl Hnd Hdu) as (a' & Ha & Hveca & Hwa & _ & Hba). destruct (Hba Hde Hue) as (Ba & Pa & Ma & HMa).
    destruct (open_add true f u b d nd gr Ho2 Hgr Hnd Hdu) as (b' & Hb & Hvecb & Hwb & _ & Hbb). destruct (Hbb Hdf Huf) as (Bb & Pb & Mb & HMb).
    exists (OTwo a' b'), ([(false, mb_vec a')] ++ [(true, mb_vec b')]). split; [intros; apply Hext; cbn; now rewrite Ha, Hb|]. split.
    { cbn [finish_all]. apply (emits_bind D (fun fuel s => finish (E := E) rec_new rec_ext cw fuel a' s) [(false, mb_vec a')] tt (fun _ fuel s => finish (E := E) rec_new rec_ext cw fuel b' s)); now apply finish_emits. }
    split; [repeat constructor; auto; try apply Pa; apply Pb|]. split.
    + intros w Hanti. cbn [app sumq mval]. rewrite (pval_at w false (mb_vec a') _ _ _ HMa), (pval_at w true (mb_vec b') _ _ _ HMb). cbn [sgn].
      rewrite Hwa, Hwb, (Hanti (pnt d) (pnt (smax e))). ring.
    + cbn [app pcount fold_right snd mcount]. rewrite Hveca, Hvecb, !app_length. cbn [length]. pose proof (open_len _ _ _ _ Ho1). pose proof (open_len _ _ _ _ Ho2). lia.
Qed.

(** The lower vertex is between the sides. *)
Definition split_m (m : ot mb) (s : log) : sres log err (mb * mb) :=
  match m with
  | OOne a =>
    sbind (lift s (ok_or (t_u t) (TEInternal IE_Inner))) (fun s ni_up =>
    sbind (lift s (rd ns ni_up)) (fun s n =>
    sbind (lift s (mb_add (mb_new (n_v n) (n_c n)) (n_v nd) (n_c nd))) (fun s b =>
    sbind (lift s (ok_or (t_l t) (TEInternal IE_Inner))) (fun s sl =>
    sbind (lift s (rd ss sl)) (fun s s_l =>
    if Nat.eqb ni_up (s_max s_l) then (s, Ok (b, a))
    else
      sbind (lift s (ok_or (t_r t) (TEInternal IE_Inner))) (fun s sr =>
      sbind (lift s (rd ss sr)) (fun s s_r =>
      if Nat.eqb ni_up (s_max s_r) then (s, Ok (a, b))
      else (s, Err (TEInternal IE_TopOfSegment)))))))))
  | OTwo a b => (s, Ok (a, b))
  end.

Lemma extend_split ms : mono_ok i ms -> d <> smin e -> d <> smin f ->
  exists ms' ml mr, (forall fuel s, extend fuel st t d nd ms s = (s, Ok ms')) /\ (forall s, split_m ms' s = (s, Ok (ml, mr))) /\
    open false e d ml /\ open true f d mr /\
    (forall w, anti w -> - Wv w ml + Wv w mr == mval w i ms)%Q /\
    length (mb_vec ml) + length (mb_vec mr) = mcount ms + 3.
Proof.
  intros Hok Hde Hdf. pose proof du as Hdu. destruct nu_ex as (nu & Hnu). pose proof (d_right Hde) as Sl. pose proof (d_left Hdf) as Sr.
  assert (C1 : Nat.eqb d (smin e) = false) by now apply Nat.eqb_neq. assert (C2 : Nat.eqb d (smin f) = false) by now apply Nat.eqb_neq.
  assert (Hext : forall fuel s ms1, add_to_all (E := E) ms nd = Ok ms1 -> extend fuel st t d nd ms s = (s, Ok ms1)).
  { intros fuel s ms1 Ha. rewrite (extend_eq fuel s ms ms1 Ha). unfold ext_case. rewrite C1, C2. reflexivity. }
  assert (T1 : t_l t = Some e) by (unfold Faces.tl in He; now rewrite Ht in He). assert (T2 : t_r t = Some f) by (unfold Faces.tr in Hf; now rewrite Ht in Hf).
  assert (T3 : t_u t = Some u) by (unfold Faces.tu in Hu; now rewrite Ht in Hu).
  destruct (seg_at W Es M gv st HG HM HF e gl Hgl) as (E1 & E2 & _). destruct (seg_at W Es M gv st HG HM HF f gr Hgr) as (E3 & E4 & _).
  destruct ms as [m|a b].
  - destruct (Nat.eq_dec u (smax e)) as [Hue|Hue].
    + destruct (one_right' m Hok Hue) as (Ho & Hv). destruct (open_add true f u m d nd gr Ho Hgr Hnd Hdu) as (m' & Hm & Hvec & Hw & Hop & _).
      destruct (fresh_ok false e nu Hnu (eq_sym Hue) gl Hgl Sl) as (b' & Hb' & Hop' & Hl' & Hw').
      exists (OOne m'), b', m'. split; [intros; apply Hext; cbn; now rewrite Hm|]. split; [|split; [auto|split; [auto|split]]].
      * intros s. unfold split_m. rewrite T3, T1. unfold lift, ok_or, rd, sbind. cbn [fst snd]. rewrite Hnu. cbn [fst snd]. rewrite Hb'. cbn [fst snd]. rewrite Hgl. cbn [fst snd].
        rewrite <- E2, (proj2 (Nat.eqb_eq _ _) Hue). reflexivity.
      * intros w Hanti. rewrite Hw, Hw', Hv. ring.
      * rewrite Hvec, app_length, Hl'. cbn [length mcount]. lia.
    + destruct (one_left m Hok Hue) as (Huf & Ho). destruct (open_add false e u m d nd gl Ho Hgl Hnd Hdu) as (m' & Hm & Hvec & Hw & Hop & _).
      destruct (fresh_ok true f nu Hnu (eq_sym Huf) gr Hgr Sr) as (b' & Hb' & Hop' & Hl' & Hw').
      exists (OOne m'), m', b'. split; [intros; apply Hext; cbn; now rewrite Hm|]. split; [|split; [auto|split; [auto|split]]].
      * intros s. unfold split_m. rewrite T3, T1, T2. unfold lift, ok_or, rd, sbind. cbn [fst snd]. rewrite Hnu. cbn [fst snd]. rewrite Hb'. cbn [fst snd]. rewrite Hgl. cbn [fst snd].
        rewrite <- E2, (proj2 (Nat.eqb_neq _ _) Hue). rewrite Hgr. cbn [fst snd]. rewrite <- E4, (proj2 (Nat.eqb_eq _ _) Huf). reflexivity.
      * intros w Hanti. rewrite Hw, Hw', (mval_l w m Huf). ring.
      * rewrite Hvec, app_length, Hl'. cbn [length mcount]. lia.
  - destruct (two_open a b Hok) as (Hue & Huf & Ho1 & Ho2).
    destruct (open_add false e u a d nd gl Ho1 Hgl Hnd Hdu) as (a' & Ha & Hveca & Hwa & Hopa & _).
    destruct (open_add true f u b d nd gr Ho2 Hgr Hnd Hdu) as (b' & Hb & Hvecb & Hwb & Hopb & _).
    exists (OTwo a' b'), a', b'. split; [intros; apply Hext; cbn; now rewrite Ha, Hb|]. split; [reflexivity|]. split; auto. split; auto. split.
    + intros w Hanti. cbn [mval]. rewrite Hwa, Hwb. ring.
    + rewrite Hveca, Hvecb, !app_length. cbn [length mcount]. pose proof (open_len _ _ _ _ Ho1). lia.
Qed.

End At.
End Open.
