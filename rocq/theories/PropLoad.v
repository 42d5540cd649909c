(** Loading polygon lists from text files, as the geography test and the benchmark do. *)
From Coq Require Import List Arith Bool Ascii Lia QArith Permutation.
From Coq.Floats Require Import SpecFloat.
From Verif Require Import Base Coord Trap Tri Format Builders Runs Input Basic PropBasic Plane ValidB EvenOdd Outcome MonoGeom Area Cover Inv PropTri PropMesh Float FloatRuns FloatWit PropFloat Load.
Import ListNotations.
Local Open Scope nat_scope.
Local Open Scope list_scope.
Local Open Scope char_scope.

(** ** What a file means *)

(** Space, tab, newline, form feed, carriage return. *)
Definition space (c : ascii) : Prop := In (nat_of_ascii c) [32; 9; 10; 12; 13]%nat.
Definition blank (l : text) : Prop := Forall space l.
(** A word: at least one character, none of them a space. *)
Definition word (l : text) : Prop := l <> [] /\ Forall (fun c => ~ space c) l.
(** The first word of a line, and what follows it. *)
Definition first_word (l w rest : text) : Prop := exists s, l = s ++ w ++ rest /\ blank s /\ word w /\ (rest = [] \/ exists c r, rest = c :: r /\ space c).
(** A line giving a vertex: two words that are numbers; more words may follow. *)
Definition vertex_line {C} (parse : text -> option C) (v : coords C) (l : text) : Prop :=
  exists x y l1 l2, first_word l x l1 /\ first_word l1 y l2 /\ parse x = Some (cx v) /\ parse y = Some (cy v).

(** The lines of a list of polygons: each polygon is the non-empty list of the lines of its vertices, then a blank line; further blank lines anywhere
    outside polygons. *)
Inductive writes {C} (parse : text -> option C) : list (list (coords C)) -> list text -> Prop :=
| W_end : writes parse [] []
| W_blank b ps ls : blank b -> writes parse ps ls -> writes parse ps (b :: ls)
| W_polygon p rows b ps ls : p <> [] -> Forall2 (vertex_line parse) p rows -> blank b -> writes parse ps ls -> writes parse (p :: ps) (rows ++ b :: ls).

(** Lines to text, each ended by a newline. *)
Definition nl : ascii := ascii_of_nat 10.
Definition join (ls : list text) : text := concat (map (fun l => l ++ [nl]) ls).
Definition one_line (l : text) : Prop := ~ In nl l.

(** ** Words *)

Lemma is_space_spec c : is_space c = true <-> space c.
Proof. destruct c as [[] [] [] [] [] [] [] []]; vm_compute; split; intros H; try reflexivity; try discriminate; repeat (destruct H as [H|H]; try discriminate); try tauto. Qed.
Local Arguments is_space : simpl never.
Lemma not_space c : ~ space c -> is_space c = false.
Proof. rewrite <- is_space_spec. now destruct (is_space c). Qed.

Lemma words_word w : Forall (fun c => ~ space c) w -> forall cur l, words_from cur (w ++ l) = words_from (rev w ++ cur) l.
Proof. induction 1 as [|c w Hc Hw IH]; intros cur l; cbn; auto. rewrite (not_space c Hc), IH. cbn. now rewrite <- app_assoc. Qed.
Lemma words_blank s : blank s -> forall l, words (s ++ l) = words l.
Proof. induction 1 as [|c s Hc Hs IH]; intros l; cbn; auto. unfold words in *. cbn. apply is_space_spec in Hc. rewrite Hc. cbn. apply IH. Qed.
Lemma words_first l w rest : first_word l w rest -> words l = w :: words rest.
Proof.
  intros (s & -> & Hs & (Hw & Hn) & Hr). rewrite words_blank by auto. unfold words. rewrite words_word by auto. rewrite app_nil_r.
  assert (E : rev w <> []). { intros E. apply Hw. apply (f_equal (@rev ascii)) in E. now rewrite rev_involutive in E. }
  destruct Hr as [->|(c & r & -> & Hc)]; cbn.
  - destruct (rev w) eqn:R; [congruence|]. rewrite <- R, rev_involutive. reflexivity.
  - apply is_space_spec in Hc. rewrite Hc. destruct (rev w) eqn:R; [congruence|]. rewrite <- R, rev_involutive. cbn. reflexivity.
Qed.
Lemma words_none l : blank l -> words l = [].
Proof. intros H. rewrite <- (app_nil_r l), words_blank; auto. Qed.

Lemma space_dec c : space c \/ ~ space c.
Proof. rewrite <- is_space_spec. destruct (is_space c); auto. Qed.
Lemma span l : exists w rest, l = w ++ rest /\ Forall (fun c => ~ space c) w /\ (rest = [] \/ exists c r, rest = c :: r /\ space c).
Proof.
  induction l as [|c l (w & rest & -> & Hw & Hr)]; [exists [], []; repeat split; auto|]. destruct (space_dec c) as [S|S].
  - exists [], (c :: w ++ rest). repeat split; auto. right. eauto.
  - exists (c :: w), rest. repeat split; auto.
Qed.
Lemma split_first l : blank l \/ exists w rest, first_word l w rest.
Proof.
  induction l as [|c l [IH|(w & rest & s & -> & Hs & Hw)]]; [left; constructor| |]; destruct (space_dec c) as [S|S].
  - left. now constructor.
  - right. destruct (span (c :: l)) as (w & rest & E & Hw & Hr). exists w, rest, []. repeat split; auto; [constructor|]. intros ->. cbn in E. subst rest. destruct Hr as [H|(c' & r & H & H')]; congruence.
  - right. exists w, rest, (c :: s). repeat split; try apply Hw. now constructor.
  - right. destruct (span (c :: s ++ w ++ rest)) as (w' & rest' & E & Hw' & Hr). exists w', rest', []. repeat split; auto; [constructor|]. intros ->. cbn in E. subst rest'. destruct Hr as [H|(c' & r & H & H')]; congruence.
Qed.

(** ** Lines *)

Lemma words_end cur l c : space c -> words_from cur (l ++ [c]) = words_from cur l.
Proof.
  intros Hc. apply is_space_spec in Hc. revert cur. induction l as [|d l IH]; intros cur; cbn.
  - rewrite Hc. now rewrite app_nil_r.
  - destruct (is_space d); rewrite IH; auto.
Qed.
Lemma chomp_end l : chomp l = l \/ l = chomp l ++ [return_].
Proof.
  induction l as [|c l IH]; [now left|]. destruct l as [|d l]; [cbn; destruct (Ascii.eqb_spec c return_); subst; auto|].
  change (chomp (c :: d :: l)) with (c :: chomp (d :: l)). destruct IH as [IH|IH]; [left; now rewrite IH|right; cbn [app]; now rewrite <- IH].
Qed.
Lemma words_chomp l : words (chomp l) = words l.
Proof. destruct (chomp_end l) as [E|E]; [now rewrite E|]. rewrite E at 2. unfold words. rewrite words_end; auto. unfold space. cbn. tauto. Qed.

Lemma lines_one l : one_line l -> forall cur rest, lines_from cur (l ++ rest) = lines_from (rev l ++ cur) rest.
Proof.
  induction l as [|c l IH]; intros H cur rest; cbn; auto. destruct (Ascii.eqb_spec c newline) as [E|E]; [elim H; left; exact E|].
  rewrite IH by (intros K; apply H; now right). cbn. now rewrite <- app_assoc.
Qed.
Lemma lines_join ls last : Forall one_line ls -> one_line last -> lines (join ls ++ last) = map chomp ls ++ match last with [] => [] | _ => [last] end.
Proof.
  intros H Hl. induction H as [|l ls H1 H2 IH]; cbn.
  - rewrite <- (app_nil_r last) at 1. unfold lines. rewrite lines_one by auto. cbn. rewrite app_nil_r. destruct last as [|c l]; auto.
    destruct (rev (c :: l)) eqn:R; [apply (f_equal (@rev ascii)) in R; rewrite rev_involutive in R; discriminate|]. now rewrite <- R, rev_involutive.
  - unfold join in *. cbn. rewrite <- !app_assoc. unfold lines. rewrite lines_one by auto. cbn. rewrite ?app_nil_r, rev_involutive. f_equal. exact IH.
Qed.

(** Every text is made of lines. *)
Lemma text_lines t : exists ls last, t = join ls ++ last /\ Forall one_line ls /\ one_line last.
Proof.
  induction t as [|c t (ls & last & -> & H1 & H2)]; [exists [], []; repeat split; auto; intros []|]. destruct (Ascii.eqb_spec c nl) as [->|E].
  - exists ([] :: ls), last. repeat split; auto. constructor; auto. intros [].
  - destruct ls as [|l ls].
    + exists [], (c :: last). repeat split; auto. intros [K|K]; [congruence|now apply H2].
    + inversion H1; subst. exists ((c :: l) :: ls), last. repeat split; auto. constructor; auto. intros [K|K]; [congruence|contradiction].
Qed.

Local Arguments load_line : simpl never.
Section Load.
Context {C : Type} (parse : text -> option C).

Lemma line_row out cur v l : vertex_line parse v l -> load_line parse (out, cur) l = Some (out, cur ++ [v]).
Proof.
  intros (x & y & l1 & l2 & F1 & F2 & P1 & P2). unfold load_line. rewrite (words_first _ _ _ F1), (words_first _ _ _ F2), P1, P2. destruct v. reflexivity.
Qed.
Lemma line_blank out cur l : blank l -> load_line parse (out, cur) l = Some (match cur with [] => out | _ => out ++ [cur] end, []).
Proof. intros H. unfold load_line. now rewrite words_none. Qed.
Lemma line_chomp st l : load_line parse st (chomp l) = load_line parse st l.
Proof. unfold load_line. now rewrite words_chomp. Qed.
Lemma loop_chomp ls : forall st, load_loop parse st (map chomp ls) = load_loop parse st ls.
Proof. induction ls as [|l ls IH]; intros st; cbn; auto. rewrite line_chomp. destruct (load_line parse st l); auto. Qed.
Lemma loop_app ls ls' : forall st, load_loop parse st (ls ++ ls') = match load_loop parse st ls with Some st => load_loop parse st ls' | None => None end.
Proof. induction ls as [|l ls IH]; intros st; cbn; auto. destruct (load_line parse st l); auto. Qed.
Lemma loop_rows p rows : Forall2 (vertex_line parse) p rows -> forall out cur, load_loop parse (out, cur) rows = Some (out, cur ++ p).
Proof. induction 1 as [|v l p rows H1 H2 IH]; intros out cur; cbn; [now rewrite app_nil_r|]. rewrite (line_row _ _ _ _ H1), IH. now rewrite <- app_assoc. Qed.
Lemma loop_writes ps ls : writes parse ps ls -> forall out, load_loop parse (out, []) ls = Some (out ++ ps, []).
Proof.
  induction 1 as [|b ps ls Hb H IH|p rows b ps ls Hp Hr Hb H IH]; intros out; cbn.
  - now rewrite app_nil_r.
  - rewrite line_blank by auto. apply IH.
  - rewrite loop_app, (loop_rows p) by auto. cbn [load_loop app]. rewrite line_blank by auto. destruct p as [|v p]; [congruence|]. rewrite IH. now rewrite <- app_assoc.
Qed.

(** C58: a file with these lines is read back: the polygons with their vertices, in order. *)
Theorem C58_reads ps ls : writes parse ps ls -> Forall one_line ls -> load_polygon_list parse (join ls) = Some ps.
Proof.
  intros H Hl. unfold load_polygon_list. rewrite <- (app_nil_r (join ls)), lines_join by (auto; intros []). cbn. rewrite app_nil_r, loop_chomp, (loop_writes ps) by auto. reflexivity.
Qed.

(** C58: a last polygon not followed by a blank line is dropped without an error, whether its last line is ended by a newline or not. *)
Theorem C58_last_dropped ps ls p rows : writes parse ps ls -> Forall one_line ls -> Forall2 (vertex_line parse) p rows -> Forall one_line rows ->
  load_polygon_list parse (join (ls ++ rows)) = Some ps /\
  forall v l, vertex_line parse v l -> one_line l -> load_polygon_list parse (join (ls ++ rows) ++ l) = Some ps.
Proof.
  intros H Hl Hr Hr'. assert (Ho : Forall one_line (ls ++ rows)) by (apply Forall_app; auto). split.
  - unfold load_polygon_list. rewrite <- (app_nil_r (join (ls ++ rows))), lines_join by (auto; intros []). cbn. rewrite app_nil_r, loop_chomp, loop_app, (loop_writes ps) by auto. cbn. rewrite (loop_rows p) by auto. reflexivity.
  - intros v l Hv Hv'. unfold load_polygon_list. rewrite lines_join by auto. rewrite loop_app, loop_chomp, loop_app, (loop_writes ps) by auto. cbn. rewrite (loop_rows p) by auto.
    destruct l as [|c l]; cbn [load_loop]; auto. now rewrite (line_row _ _ _ _ Hv).
Qed.

Lemma line_ok st l : (exists st', load_line parse st l = Some st') <-> blank l \/ exists v, vertex_line parse v l.
Proof.
  destruct st as (out, cur). split.
  - intros (st' & H). destruct (split_first l) as [B|(x & l1 & F1)]; auto. right. unfold load_line in H. rewrite (words_first _ _ _ F1) in H. destruct (parse x) as [vx|] eqn:P1; [|discriminate].
    destruct (split_first l1) as [B|(y & l2 & F2)]; [rewrite words_none in H by auto; discriminate|]. rewrite (words_first _ _ _ F2) in H. destruct (parse y) as [vy|] eqn:P2; [|discriminate].
    exists (vx, vy), x, y, l1, l2. auto.
  - intros [B|(v & H)]; [rewrite line_blank by auto|rewrite (line_row _ _ _ _ H)]; eauto.
Qed.
Lemma loop_ok ls : forall st, (exists st', load_loop parse st ls = Some st') <-> Forall (fun l => blank l \/ exists v, vertex_line parse v l) ls.
Proof.
  induction ls as [|l ls IH]; intros st; cbn; [split; eauto|]. split.
  - intros (st' & H). destruct (load_line parse st l) as [st1|] eqn:E; [|discriminate]. constructor; [apply (line_ok st); eauto|apply (IH st1); eauto].
  - intros H. inversion H as [|? ? H1 H2]; subst. apply (line_ok st) in H1. destruct H1 as (st1 & E). rewrite E. now apply IH.
Qed.

(** C58: reading fails exactly when some line is neither blank nor begins with two numbers; otherwise no polygon returned is empty. *)
Theorem C58_accepts ls last : Forall one_line ls -> one_line last ->
  ((exists ps, load_polygon_list parse (join ls ++ last) = Some ps) <-> Forall (fun l => blank l \/ exists v, vertex_line parse v l) (ls ++ [last])).
Proof.
  intros H1 H2. unfold load_polygon_list. rewrite lines_join by auto.
  assert (E : load_loop parse ([], []) (map chomp ls ++ match last with [] => [] | _ => [last] end) = load_loop parse ([], []) (ls ++ match last with [] => [] | _ => [last] end)) by now rewrite !loop_app, loop_chomp.
  rewrite E. assert (F : Forall (fun l => blank l \/ exists v, vertex_line parse v l) (ls ++ [last]) <-> Forall (fun l => blank l \/ exists v, vertex_line parse v l) (ls ++ match last with [] => [] | _ => [last] end)).
  { rewrite !Forall_app. destruct last; [|tauto]. split; intros (K & _); split; auto. constructor; auto. left. constructor. }
  rewrite F, <- (loop_ok _ ([], [])). split.
  - intros (ps & H). destruct (load_loop parse _ _) as [st|] in H |- *; [eauto|discriminate].
  - intros ((out & cur) & H). rewrite H. eauto.
Qed.

Theorem C58_no_empty file ps p : load_polygon_list parse file = Some ps -> In p ps -> p <> [].
Proof.
  unfold load_polygon_list. intros H. destruct (load_loop parse ([], []) (lines file)) as [(out & cur)|] eqn:E; [|discriminate]. injection H as <-.
  assert (K : forall ls st out cur, load_loop parse st ls = Some (out, cur) -> (forall q, In q (fst st) -> q <> []) -> forall q, In q out -> q <> []).
  { clear. induction ls as [|l ls IH]; intros (o, c) out cur E Hs; cbn in E; [injection E as -> ->; auto|]. destruct (load_line parse (o, c) l) as [(o1, c1)|] eqn:E1; [|discriminate]. apply (IH _ _ _ E). cbn.
    unfold load_line in E1. destruct (words l) as [|x [|y w]].
    - injection E1 as <- <-. destruct c as [|v c]; auto. intros q Hq. apply in_app_or in Hq. destruct Hq as [Hq|[<-|[]]]; auto. discriminate.
    - destruct (parse x); discriminate.
    - destruct (parse x); [|discriminate]. destruct (parse y); [|discriminate]. injection E1 as <- <-. auto. }
  intros Hp. apply (K _ _ _ _ E) in Hp; auto.
Qed.
End Load.

(** ** From the file to the triangles *)

Lemma groups_run {I} (is : list I) : forall cur l, groups_from cur (map Continue is ++ l) = groups_from (cur ++ is) l.
Proof. induction is as [|i is IH]; intros cur l; cbn; [now rewrite app_nil_r|]. rewrite IH. now rewrite <- app_assoc. Qed.

Lemma map_nth_seq {V} (d : V) (q : list V) : map (fun i => match nth_error q i with Some v => v | None => d end) (seq 0 (length q)) = q.
Proof. induction q as [|v q IH]; cbn; auto. f_equal. rewrite <- seq_shift, map_map. exact IH. Qed.

(** C24: read as polygons, the indices that nested vectors enumerate, with the vertices found there, are the inner vectors that are not empty. *)
Theorem C24_polygons {V} (d : V) (p : list (list V)) :
  map (map (fun ij => match vv_get p ij with Some v => v | None => d end)) (groups (enumerate 0 (map (@length V) p))) = filter (fun q => negb (Nat.eqb (length q) 0)) p.
Proof.
  assert (K : forall p pre, map (map (fun ij => match vv_get (pre ++ p) ij with Some v => v | None => d end)) (groups (enumerate (length pre) (map (@length V) p))) = filter (fun q => negb (Nat.eqb (length q) 0)) p); [|exact (K p [])].
  clear p. induction p as [|q p IH]; intros pre; cbn; auto. unfold groups. rewrite <- (map_map (fun i => (length pre, i)) Continue), groups_run. cbn [app groups_from].
  specialize (IH (pre ++ [q])). rewrite app_length in IH. cbn [length] in IH. rewrite Nat.add_1_r, <- app_assoc in IH. cbn [app] in IH. destruct q as [|v q]; [exact IH|].
  set (w := v :: q) in *. assert (L : exists i is, map (fun i => (length pre, i)) (seq 0 (length w)) = i :: is) by (cbn; eauto). destruct L as (i & is & L). rewrite L, <- L. cbn [map]. change (negb (Nat.eqb (length w) 0)) with true. cbv iota. f_equal; [|exact IH].
  rewrite map_map. unfold vv_get. cbn [fst snd]. rewrite nth_error_app2, Nat.sub_diag by lia. cbn [nth_error]. apply map_nth_seq.
Qed.

(** Vertices of loaded polygons. *)
Definition at_ (ps : list (list (coords spec_float))) (ij : nat * nat) : coords spec_float := match vv_get ps ij with Some v => v | None => (f00, f00) end.
Definition used_ (ps : list (list (coords spec_float))) : list (element (nat * nat)) := enumerate 0 (map (@length _) ps).
Definition pair_eqb (a b : nat * nat) : bool := Nat.eqb (fst a) (fst b) && Nat.eqb (snd a) (snd b).

Lemma pair_eqb_ok a b : pair_eqb a b = true <-> a = b.
Proof. destruct a, b. unfold pair_eqb. cbn. rewrite andb_true_iff, !Nat.eqb_eq. split; [intros (-> & ->); auto|now intros [= -> ->]]. Qed.

(** C58: the way of the geography test: a file is loaded, the polygons are iterated and, when they are valid and C47 applies to them, triangulated. *)
Theorem C58_geography parse ps ls dbg math_n shuf : (forall k n, Permutation (shuf k n) (seq 0 n)) ->
  writes parse ps ls -> Forall one_line ls -> ps <> [] -> valid (map (map fpos) ps) ->
  spread 24 128 (-62) 61 (at_ ps) (used_ ps) -> all_clear 24 128 (at_ ps) (used_ ps) ->
  load_polygon_list parse (join ls) = Some ps /\ (exists k, vv_elems k ps = Ok (used_ ps)) /\
  exists T fuel, triangulate (OC := f32) (fan_to_list (indexed_list (vec_triples (nat * nat)) [])) pair_eqb (at_ ps) dbg fuel math_n shuf (used_ ps) = Returned (inl T) T /\
    tiles (map (map fpos) ps) (map (tri_pos (fun ij => fpos (at_ ps ij))) T).
Proof.
  intros Hs Hw Ho Hn HV HS HC. split; [now apply C58_reads|]. split; [eexists; apply C24_enumeration, Nat.lt_succ_diag_r|].
  assert (E : map (map (fun ij => fpos (at_ ps ij))) (groups (used_ ps)) = map (map fpos) ps).
  { transitivity (map (map fpos) (map (map (at_ ps)) (groups (used_ ps)))); [rewrite map_map; apply map_ext; intros l; now rewrite map_map|]. f_equal.
    transitivity (filter (fun q => negb (Nat.eqb (length q) 0)) ps); [apply C24_polygons|].
    destruct HV as (K & _). clear - K. induction ps as [|q ps IH]; cbn; auto. inversion K as [|? ? K1 K2]; subst. rewrite map_length in K1. destruct (Nat.eqb_spec (length q) 0); [lia|]. cbn. now rewrite IH. }
  assert (HV' : valid (map (map (fun ij => fpos (at_ ps ij))) (groups (used_ ps)))) by now rewrite E.
  assert (Hn' : map (map (fun ij => fpos (at_ ps ij))) (groups (used_ ps)) <> []) by (rewrite E; destruct ps; [congruence|discriminate]).
  destruct (C01_returns (fun ij => fpos (at_ ps ij)) pair_eqb dbg math_n shuf pair_eqb_ok Hs (used_ ps) HV' Hn') as (T & HT). exists T.
  pose proof (C03_tiles (fun ij => fpos (at_ ps ij)) pair_eqb dbg math_n shuf pair_eqb_ok Hs (used_ ps) HV' Hn' T HT) as K. rewrite E in K.
  destruct HT as (fuel & HT). exists fuel. split; [|exact K]. rewrite (C47_f32 _ pair_eqb (at_ ps) dbg fuel math_n shuf (used_ ps) HS HC). exact HT.
Qed.

(** ** A sample file *)

(** One digit, for the sample. *)
Definition digit (t : text) : option nat :=
  match t with [c] => let n := nat_of_ascii c in if (Nat.leb 48 n && Nat.leb n 57)%bool then Some (n - 48) else None | _ => None end.

(** Two blank lines first; tabs, a third word and a carriage return; one blank line contains spaces. *)
Definition sample_lines : list text :=
  [[]; []; ["0"; " "; "0"]; [" "; "4"; "009"; " "; "0"; " "; "x"]; ["0"; " "; "4"; "013"]; [" "; " "]; ["5"; " "; "5"]; ["6"; " "; "5"]; ["5"; " "; "6"]; []].
Definition sample_polygons : list (list (coords nat)) := [[(0, 0); (4, 0); (0, 4)]; [(5, 5); (6, 5); (5, 6)]].

Ltac spaces := repeat (apply Forall_cons; [unfold space; cbn; tauto|]); apply Forall_nil.
Ltac letters := repeat (apply Forall_cons; [unfold space; cbn; lia|]); apply Forall_nil.
Ltac first_at s := exists s; split; [reflexivity|split; [spaces|split; [split; [discriminate|letters]|]]].
Ltac ends := first [left; reflexivity | right; do 2 eexists; split; [reflexivity|unfold space; cbn; tauto]].

Example C58_hyp : writes digit sample_polygons sample_lines /\ Forall one_line sample_lines.
Proof.
  split.
  - unfold sample_lines, sample_polygons. apply W_blank; [spaces|]. apply W_blank; [spaces|].
    apply (W_polygon digit [(0, 0); (4, 0); (0, 4)] [["0"; " "; "0"]; [" "; "4"; "009"; " "; "0"; " "; "x"]; ["0"; " "; "4"; "013"]] [" "; " "]); [discriminate| |spaces|].
    + repeat apply Forall2_cons; [| | |apply Forall2_nil].
      * exists ["0"], ["0"], [" "; "0"], []. split; [first_at (@nil ascii); ends|split; [first_at [" "]; ends|split; reflexivity]].
      * exists ["4"], ["0"], ["009"; " "; "0"; " "; "x"], [" "; "x"]. split; [first_at [" "]; ends|split; [first_at ["009"; " "]; ends|split; reflexivity]].
      * exists ["0"], ["4"], [" "; "4"; "013"], ["013"]. split; [first_at (@nil ascii); ends|split; [first_at [" "]; ends|split; reflexivity]].
    + apply (W_polygon digit [(5, 5); (6, 5); (5, 6)] [["5"; " "; "5"]; ["6"; " "; "5"]; ["5"; " "; "6"]] []); [discriminate| |spaces|apply W_end].
      repeat apply Forall2_cons; [| | |apply Forall2_nil].
      * exists ["5"], ["5"], [" "; "5"], []. split; [first_at (@nil ascii); ends|split; [first_at [" "]; ends|split; reflexivity]].
      * exists ["6"], ["5"], [" "; "5"], []. split; [first_at (@nil ascii); ends|split; [first_at [" "]; ends|split; reflexivity]].
      * exists ["5"], ["6"], [" "; "6"], []. split; [first_at (@nil ascii); ends|split; [first_at [" "]; ends|split; reflexivity]].
  - repeat (apply Forall_cons; [unfold one_line; intros H; cbn in H; repeat (destruct H as [H|H]; [discriminate|]); exact H|]). apply Forall_nil.
Qed.

Example C58_case : load_polygon_list digit (join sample_lines) = Some sample_polygons.
Proof. vm_compute. reflexivity. Qed.
(** Without the last, empty line the second polygon is missing; with a word that is no number the file is refused. *)
Example C58_dropped_case : load_polygon_list digit (join (removelast sample_lines)) = Some [[(0, 0); (4, 0); (0, 4)]].
Proof. vm_compute. reflexivity. Qed.
Example C58_refused_case : load_polygon_list digit (join (sample_lines ++ [["7"; " "; "x"]])) = None.
Proof. vm_compute. reflexivity. Qed.

(** The sample with [f32] coordinates meets the hypotheses of the geography theorem. *)
Definition digit32 (t : text) : option spec_float := option_map (fun n => binary_normalize 24 128 (Z.of_nat n) 0 false) (digit t).
Definition sample32 : list (list (coords spec_float)) := map (map (fun '(x, y) => let f n := binary_normalize 24 128 (Z.of_nat n) 0 false in (f x, f y))) sample_polygons.

Lemma writes_map {A B} (parse : text -> option A) (f : A -> B) ps ls : writes parse ps ls -> writes (fun t => option_map f (parse t)) (map (map (fun '(x, y) => (f x, f y))) ps) ls.
Proof.
  induction 1 as [|b ps ls Hb H IH|p rows b ps ls Hp Hr Hb H IH]; cbn [map]; constructor; auto; [destruct p; [congruence|discriminate]|].
  clear - Hr. induction Hr as [|v l p rows H1 H2 IH]; cbn; constructor; auto. destruct H1 as (x & y & l1 & l2 & F1 & F2 & P1 & P2). exists x, y, l1, l2. split; auto. split; auto. destruct v as (vx, vy). cbn in *. rewrite P1, P2. auto.
Qed.

Example C58_geography_hyp : writes digit32 sample32 sample_lines /\ valid (map (map fpos) sample32) /\
  spread 24 128 (-62) 61 (at_ sample32) (used_ sample32) /\ all_clear 24 128 (at_ sample32) (used_ sample32).
Proof.
  assert (HI : forall ij, In (Continue ij) (used_ sample32) -> In (at_ sample32 ij) (concat sample32)).
  { intros ij H. unfold used_ in H. apply C24_get_vertex in H. destruct H as (v & H). unfold at_. rewrite H. unfold vv_get in H. destruct (nth_error sample32 (fst ij)) as [q|] eqn:E; [|discriminate].
    apply in_concat. exists q. split; [eapply nth_error_In; eauto|eapply nth_error_In; eauto]. }
  split; [apply writes_map, C58_hyp|]. split; [apply validb_valid; vm_compute; reflexivity|].
  split; [apply (spreadb_all _ _ _ _ _ _ _ HI)|apply (clearb_all _ _ _ _ _ HI)]; vm_compute; reflexivity.
Qed.

Print Assumptions C58_reads.
Print Assumptions C58_last_dropped.
Print Assumptions C58_accepts.
Print Assumptions C58_no_empty.
Print Assumptions C24_polygons.
Print Assumptions C58_geography.
