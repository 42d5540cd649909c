(** The construction with a counter: one for each iteration of each loop (src/trapezoidation.rs 30-51 find, 266-284 build, 362-436 segments, 396-431
    relocation, 417-422 walk, 506-548 descent of a segment).  The checks of debug builds are not counted.  [erase_*]: without the
    counter these are the functions of [Trap.v]. *)
From Coq Require Import List Arith Lia Bool.
From Verif Require Import Base Coord Trap.
Import ListNotations.
Local Open Scope res_scope.

Definition cres (E A : Type) : Type := (res E A * nat)%type.
Definition free {E A} (r : res E A) : cres E A := (r, 0).
Definition tick {E A} (r : cres E A) : cres E A := (fst r, S (snd r)).
Definition cbind {E A B} (r : cres E A) (f : A -> cres E B) : cres E B :=
  match fst r with
  | Ok a => let y := f a in (fst y, snd r + snd y)
  | Err e => (Err e, snd r)
  | Crash c => (Crash c, snd r)
  end.
Definition cmap_err {E F A} (f : E -> F) (r : cres E A) : cres F A := (map_err f (fst r), snd r).

Declare Scope cres_scope.
Delimit Scope cres_scope with cres.
Notation "'count' x <- a ; b" := (cbind a (fun x => b)) (at level 200, x name, a at level 100, b at level 200) : cres_scope.
Notation "'count' ' p <- a ; b" := (cbind a (fun p => b)) (at level 200, p pattern, a at level 100, b at level 200) : cres_scope.

Lemma fst_cbind {E A B} (r : cres E A) (f : A -> cres E B) : fst (cbind r f) = bind (fst r) (fun a => fst (f a)).
Proof. unfold cbind. destruct (fst r); reflexivity. Qed.

Lemma fst_tick {E A} (r : cres E A) : fst (tick r) = fst r.
Proof. reflexivity. Qed.

Lemma cbind_ok {E A B} (r : cres E A) (f : A -> cres E B) a : fst r = Ok a -> cbind r f = (fst (f a), snd r + snd (f a)).
Proof. unfold cbind. now intros ->. Qed.

Section Work.
Context {C : Type} {OC : CoordOps C} {I : Type}.
Notation seg := (seg C).
Notation qnode := (qnode C).
Notation nexus := (nexus C I).
Notation state := (state C I).
Notation vloc := (vloc C I).
Notation element := (element I).
Local Open Scope cres_scope.


Fixpoint find_c (fuel : nat) (qs : list qnode) (c : coords C) (qi : nat) : cres ierr (nat * nat) :=
  match fuel with
  | 0 => free (Crash Fuel)
  | S fuel =>
    tick (count q <- free (rdu qs qi);
          match q with
          | QBranch l r b => find_c fuel qs c (if use_left b c then l else r)
          | QSink ti => free (Ok (qi, ti))
          end)
  end.

Section Insert.
Variable ieqb : I -> I -> bool.
Variable gv : I -> coords C.
Variable dbg : bool.
Variable fuel : nat.

Definition add_vertex_c (st : state) (vi : I) (qi_root : nat) : cres ierr (state * nat) :=
  let c := gv vi in
  count '(qi_parent, ti) <- find_c fuel (st_qs st) c qi_root;
  let ti_new := length (st_ts st) in
  let qi_down := length (st_qs st) in
  let qi_up := qi_down + 1 in
  let ni := length (st_ns st) in
  let ns1 := st_ns st ++ [nexus_new vi c ti_new ti] in
  count q_left <- free (rd (st_qs st) qi_parent);
  let qs1 := (upd (st_qs st) qi_parent (QBranch qi_down qi_up (QY c)) ++ [q_left]) ++ [QSink ti_new] in
  count t <- free (rd (st_ts st) ti);
  let (t_down, t_new) := split_horizontal qi_down qi_up ni (set_sink qi_down t) in
  let ts1 := upd (st_ts st) ti t_down in
  count ns2 <- free (match t_u t_new with
            | Some ni_up => modify ns1 ni_up (replace_trapezoid ti ti_new)
            | None => Ok ns1
            end);
  let st' := mkState ns2 (st_ss st) (ts1 ++ [t_new]) qs1 in
  count _ <- free (check_consistency dbg fuel st');
  free (Ok (st', ni)).

Fixpoint seg_loop_c (k : nat) (st : state) (si ni_min : nat) (c_min c_max : coords C) (ni ti_upleft ti_upright : nat)
  : cres ierr (state * nat) :=
  match k with
  | 0 => free (Crash Fuel)
  | S k =>
    tick (if Nat.eqb ni ni_min then free (Ok (st, ti_upright))
    else
      count n <- free (rdu (st_ns st) ni);
      count s <- free (rdu (st_ss st) si);
      count ti <- free (get_down_trapezoid ieqb (st_ns st) (st_ss st) s n);
      count t <- free (rdu (st_ts st) ti);
      count ni <- free (ok_or (t_d t) IE_MinNotFound);
      count t_upleft <- free (rdu (st_ts st) ti_upleft);
      count t_upright <- free (rdu (st_ts st) ti_upright);
      let qi_sink := t_k t in
      if onat_eqb (t_r t) (t_r t_upright) then
        let qi_left := length (st_qs st) in
        count q_left <- free (rd (st_qs st) qi_sink);
        let qs1 := upd (st_qs st) qi_sink (QBranch qi_left (t_k t_upright) (QX c_min c_max)) ++ [q_left] in
        count ts1 <- free (modify (st_ts st) ti (fun t => Ok (set_right si (set_sink qi_left t))));
        count ts2 <- free (modify ts1 ti_upright (fun t => Ok (set_down ni t)));
        count ns1 <- free (if negb (Nat.eqb ni ni_min) then
                     (do n' <- rdu (st_ns st) ni;
                     if negb (is_on_left s (n_c n')) then
                       modify (st_ns st) ni (replace_trapezoid ti ti_upright)
                     else Ok (st_ns st))%res
                   else Ok (st_ns st));
        seg_loop_c k (mkState ns1 (st_ss st) ts2 qs1) si ni_min c_min c_max ni ti ti_upright
      else if onat_eqb (t_l t) (t_l t_upleft) then
        let qi_right := length (st_qs st) in
        count q_right <- free (rd (st_qs st) qi_sink);
        let qs1 := upd (st_qs st) qi_sink (QBranch (t_k t_upleft) qi_right (QX c_min c_max)) ++ [q_right] in
        count ts1 <- free (modify (st_ts st) ti (fun t => Ok (set_left si (set_sink qi_right t))));
        count ts2 <- free (modify ts1 ti_upleft (fun t => Ok (set_down ni t)));
        count on_left <- free (if Nat.eqb ni ni_min then Ok true
                       else (do n' <- rdu (st_ns st) ni; Ok (is_on_left s (n_c n')))%res);
        count ns1 <- free (if on_left : bool then modify (st_ns st) ni (replace_trapezoid ti ti_upleft)
                   else Ok (st_ns st));
        seg_loop_c k (mkState ns1 (st_ss st) ts2 qs1) si ni_min c_min c_max ni ti_upleft ti
      else free (Err IE_NoMatchingSide))
  end.

Definition add_segment_c (st : state) (ni_min ni_max : nat) (c_min c_max : coords C) : cres ierr state :=
  let si := length (st_ss st) in
  let ss1 := st_ss st ++ [mkSeg ni_min ni_max c_min c_max] in
  count n_max <- free (rdu (st_ns st) ni_max);
  count s <- free (rdu ss1 si);
  count ti <- free (get_down_trapezoid ieqb (st_ns st) ss1 s n_max);
  count t <- free (rdu (st_ts st) ti);
  let qi := t_k t in
  let ti_new := length (st_ts st) in
  let qi_left := length (st_qs st) in
  let qi_right := qi_left + 1 in
  count q_left <- free (rd (st_qs st) qi);
  let qs1 := (upd (st_qs st) qi (QBranch qi_left qi_right (QX c_min c_max)) ++ [q_left]) ++ [QSink ti_new] in
  let (t_left, t_new) := split_vertical qi_left qi_right si (set_sink qi_left t) in
  let ts1 := upd (st_ts st) ti t_left ++ [t_new] in
  count ns1 <- free (nexus_add_segment (st_ns st) ss1 ni_max si ti_new);
  count ni <- free (ok_or (t_d t_left) IE_MinNotFound);
  count n <- free (rdu ns1 ni);
  count ns2 <- free (if negb (Nat.eqb ni ni_min) && negb (is_on_left s (n_c n)) then
               modify ns1 ni (replace_trapezoid ti ti_new)
             else Ok ns1);
  count '(st3, ti_upright) <- seg_loop_c fuel (mkState ns2 ss1 ts1 qs1) si ni_min c_min c_max ni ti ti_new;
  count ns4 <- free (nexus_add_segment (st_ns st3) (st_ss st3) ni_min si ti_upright);
  let st4 := mkState ns4 (st_ss st3) (st_ts st3) (st_qs st3) in
  count _ <- free (check_consistency dbg fuel st4);
  free (Ok st4).

Definition add_vertex_at_c (st : state) (vls : list vloc) (vli : nat) (index : I) (qi : nat)
  : cres ierr (state * list vloc * nat) :=
  count '(st', ni) <- add_vertex_c st index qi;
  count vls' <- free (modify vls vli (fun vl => Ok (Inserted (vl_coords vl) ni)));
  free (Ok (st', vls', ni)).

(** The vertices of the next segment. *)
Definition add_ends_c (st : state) (vls : list vloc) (vli0 vli1 : nat) (vl0 vl1 : vloc) : cres ierr (state * list vloc * nat * nat * nat) :=
    match vl0, vl1 with
    | Pending c0 index0 qi0, Pending c1 index1 qi1 =>
      if coords_lt c0 c1 then
        count '(st1, vls1, ni0) <- add_vertex_at_c st vls vli0 index0 qi0;
        count '(st2, vls2, ni1) <- add_vertex_at_c st1 vls1 vli1 index1 qi1;
        free (Ok (st2, vls2, ni0, ni1, 2))
      else
        count '(st1, vls1, ni1) <- add_vertex_at_c st vls vli1 index1 qi1;
        count '(st2, vls2, ni0) <- add_vertex_at_c st1 vls1 vli0 index0 qi0;
        free (Ok (st2, vls2, ni0, ni1, 2))
    | Pending _ index0 qi0, Inserted _ ni1 =>
      count '(st1, vls1, ni0) <- add_vertex_at_c st vls vli0 index0 qi0;
      free (Ok (st1, vls1, ni0, ni1, 1))
    | Inserted _ ni0, Pending _ index1 qi1 =>
      count '(st1, vls1, ni1) <- add_vertex_at_c st vls vli1 index1 qi1;
      free (Ok (st1, vls1, ni0, ni1, 1))
    | Inserted _ ni0, Inserted _ ni1 => free (Ok (st, vls, ni0, ni1, 0))
    end.

Definition add_nth_segment_c (st : state) (vls : list vloc) (si : nat) : cres ierr (state * list vloc * nat) :=
  let vli0 := si in
  let vli1 := (si + 1) mod (length vls) in
  count vl0 <- free (rd vls vli0);
  count vl1 <- free (rd vls vli1);
  count '(st1, vls1, ni0, ni1, added) <- add_ends_c st vls vli0 vli1 vl0 vl1;
  count n0 <- free (rdu (st_ns st1) ni0);
  count n1 <- free (rdu (st_ns st1) ni1);
  count st2 <-
    (if coords_lt (n_c n0) (n_c n1) then add_segment_c st1 ni0 ni1 (n_c n0) (n_c n1)
     else add_segment_c st1 ni1 ni0 (n_c n1) (n_c n0));
  free (Ok (st2, vls1, added)).

Fixpoint walk_c (k : nat) (st : state) (d : dir) (c_origin c_target : coords C) (ti : nat) : cres ierr nat :=
  match k with
  | 0 => free (Crash Fuel)
  | S k =>
    tick (count t <- free (rdu (st_ts st) ti);
    count r <- free (reached (st_ns st) t d c_target);
    if r : bool then free (Ok ti)
    else
      count ni <- free (ok_or (match d with Asc => t_u t | Desc => t_d t end) IE_ContainingNotFound);
      count n <- free (rdu (st_ns st) ni);
      walk_c k st d c_origin c_target (get_trapezoid_between d c_origin c_target n))
  end.

Fixpoint relocate_c (k : nat) (st : state) (vls : list vloc) (unlocated vli : nat) (loc : location)
  (c_origin : coords C) : cres ierr (list vloc) :=
  match unlocated with
  | 0 => free (Ok vls)
  | S unlocated' =>
    match k with
    | 0 => free (Crash Fuel)
    | S k =>
      tick (let vli := (vli + 1) mod (length vls) in
      count vl <- free (rd vls vli);
      match vl with
      | Inserted _ ni =>
        count n <- free (rdu (st_ns st) ni);
        relocate_c k st vls unlocated vli (LNexus ni) (n_c n)
      | Pending c_target index _ =>
        let d := if coords_gt c_target c_origin then Asc else Desc in
        count ti0 <- free (match loc with
                  | LNexus ni =>
                    (do n <- rdu (st_ns st) ni;
                    get_trapezoid_toward (st_ss st) (st_ns st) d c_target n)%res
                  | LTrap ti => Ok ti
                  end);
        count ti <- walk_c fuel st d c_origin c_target ti0;
        count t <- free (rdu (st_ts st) ti);
        relocate_c k st (upd vls vli (Pending c_target index (t_k t))) unlocated' vli (LTrap ti) c_target
      end)
    end
  end.

Fixpoint polygon_loop_c (math_n : nat -> nat -> nat) (len : nat) (order : list nat) (i : nat) (st : state)
  (vls : list vloc) (pending update_count next_update : nat) : cres ierr (state * list vloc) :=
  match order with
  | [] => free (Ok (st, vls))
  | vi0 :: order =>
    tick (count '(st1, vls1, added) <- add_nth_segment_c st vls vi0;
    let pending := pending - added in
    if Nat.eqb i next_update then
      count vls2 <- relocate_c fuel st1 vls1 pending vi0 (LNexus 0) coords_zero;
      polygon_loop_c math_n len order (i + 1) st1 vls2 pending (update_count + 1) (math_n len (update_count + 1))
    else
      polygon_loop_c math_n len order (i + 1) st1 vls1 pending update_count next_update)
  end.

Definition add_polygon_c (math_n : nat -> nat -> nat) (order : list nat) (st : state) (vls : list vloc)
  : cres ierr (state * list vloc) :=
  let len := length vls in
  polygon_loop_c math_n len order 0 st vls len 1 (math_n len 1).

Fixpoint build_loop_c (math_n : nat -> nat -> nat) (shuf : nat -> nat -> list nat) (elems : list element)
  (k : nat) (st : state) (v_lookup : list vloc) : cres trap_error state :=
  match elems with
  | [] => free (Ok st)
  | Continue index :: elems =>
    tick (build_loop_c math_n shuf elems k st (v_lookup ++ [Pending (gv index) index 0]))
  | NewPolygon :: elems =>
    tick (let v_count := length v_lookup in
    if Nat.ltb 0 v_count then
      if Nat.ltb v_count 3 then free (Err (NotEnoughVertices v_count))
      else
        count '(st', _) <- cmap_err TrapInternal (add_polygon_c math_n (shuf k v_count) st v_lookup);
        build_loop_c math_n shuf elems (k + 1) st' []
    else build_loop_c math_n shuf elems k st v_lookup)
  end.

Definition trapezoidize_c (math_n : nat -> nat -> nat) (shuf : nat -> nat -> list nat) (elems : list element)
  : cres trap_error state :=
  build_loop_c math_n shuf (elems ++ [NewPolygon]) 0 state_new [].
End Insert.

(** ** Without the counter *)

Ltac er := repeat first [rewrite fst_cbind | rewrite fst_tick | progress cbn [free fst bind cmap_err]].
Ltac bd := match goal with |- bind ?a _ = bind ?a _ => destruct a as [?| |]; cbn [bind]; try reflexivity end.

Lemma erase_find k qs c : forall q, fst (find_c k qs c q) = find k qs c q.
Proof. induction k as [|k IH]; intros q; auto. cbn [find_c find]. er. bd. destruct a as [l r b|ti]; er; auto. Qed.

Section Erase.
Variables (ieqb : I -> I -> bool) (gv : I -> coords C) (dbg : bool) (fuel : nat).

Lemma erase_add_vertex st vi q : fst (add_vertex_c gv dbg fuel st vi q) = add_vertex gv dbg fuel st vi q.
Proof.
  unfold add_vertex_c, add_vertex. cbn zeta. er. rewrite erase_find. bd. destruct a as [qp ti]. er. bd. er. bd. cbn [split_horizontal]. er. bd. er. bd.
Qed.

Lemma erase_seg_loop k si nm c0 c1 : forall st ni tl tr, fst (seg_loop_c ieqb k st si nm c0 c1 ni tl tr) = seg_loop ieqb k st si nm c0 c1 ni tl tr.
Proof.
  induction k as [|k IH]; intros st ni tl tr; auto. cbn [seg_loop_c seg_loop]. rewrite fst_tick. destruct (Nat.eqb ni nm); auto. er.
  do 7 (bd; er). cbn zeta. match goal with |- context [onat_eqb ?a ?b] => destruct (onat_eqb a b) end.
  - er. do 4 (bd; er). apply IH.
  - match goal with |- context [onat_eqb ?a ?b] => destruct (onat_eqb a b) end; auto. er. do 5 (bd; er). apply IH.
Qed.

Lemma erase_add_segment st a b c0 c1 : fst (add_segment_c ieqb dbg fuel st a b c0 c1) = add_segment ieqb dbg fuel st a b c0 c1.
Proof.
  unfold add_segment_c, add_segment. cbn zeta. er. do 5 (bd; er). cbn [split_vertical]. er. do 4 (bd; er). rewrite erase_seg_loop. bd. match goal with p : (state * nat)%type |- _ => destruct p as [st3 tu] end. er. do 2 (bd; er).
Qed.

Lemma erase_add_vertex_at st vls v i q : fst (add_vertex_at_c gv dbg fuel st vls v i q) = add_vertex_at gv dbg fuel st vls v i q.
Proof. unfold add_vertex_at_c, add_vertex_at. er. rewrite erase_add_vertex. bd. destruct a as [st' ni]. er. bd. Qed.

Lemma erase_add_nth st vls j : fst (add_nth_segment_c ieqb gv dbg fuel st vls j) = add_nth_segment ieqb gv dbg fuel st vls j.
Proof.
  unfold add_nth_segment_c, add_nth_segment. cbn zeta. er. do 2 (bd; er).
  assert (E : fst (add_ends_c gv dbg fuel st vls j ((j + 1) mod length vls) a a0) = match a, a0 with
    | Pending c0 index0 qi0, Pending c1 index1 qi1 =>
      if coords_lt c0 c1 then
        (do '(st1, vls1, ni0) <- add_vertex_at gv dbg fuel st vls j index0 qi0;
        do '(st2, vls2, ni1) <- add_vertex_at gv dbg fuel st1 vls1 ((j + 1) mod length vls) index1 qi1;
        Ok (st2, vls2, ni0, ni1, 2))%res
      else
        (do '(st1, vls1, ni1) <- add_vertex_at gv dbg fuel st vls ((j + 1) mod length vls) index1 qi1;
        do '(st2, vls2, ni0) <- add_vertex_at gv dbg fuel st1 vls1 j index0 qi0;
        Ok (st2, vls2, ni0, ni1, 2))%res
    | Pending _ index0 qi0, Inserted _ ni1 =>
      (do '(st1, vls1, ni0) <- add_vertex_at gv dbg fuel st vls j index0 qi0;
      Ok (st1, vls1, ni0, ni1, 1))%res
    | Inserted _ ni0, Pending _ index1 qi1 =>
      (do '(st1, vls1, ni1) <- add_vertex_at gv dbg fuel st vls ((j + 1) mod length vls) index1 qi1;
      Ok (st1, vls1, ni0, ni1, 1))%res
    | Inserted _ ni0, Inserted _ ni1 => Ok (st, vls, ni0, ni1, 0)
    end).
  { unfold add_ends_c. destruct a as [c0 i0 q0|c0 n0], a0 as [c1 i1 q1|c1 n1]; auto.
    - destruct (coords_lt c0 c1); er; rewrite erase_add_vertex_at; bd; destruct a as [[s v] x]; er; rewrite erase_add_vertex_at; bd; destruct a as [[s2 v2] x2]; reflexivity.
    - er; rewrite erase_add_vertex_at; bd; destruct a as [[s v] x]; reflexivity.
    - er; rewrite erase_add_vertex_at; bd; destruct a as [[s v] x]; reflexivity. }
  rewrite E. bd. destruct a1 as [[[[st1 vls1] ni0] ni1] ad]. er. do 2 (bd; er). match goal with |- context [coords_lt ?x ?y] => destruct (coords_lt x y) end; rewrite erase_add_segment; bd.
Qed.

Lemma erase_walk k st d c0 c1 : forall ti, fst (walk_c k st d c0 c1 ti) = walk k st d c0 c1 ti.
Proof. induction k as [|k IH]; intros ti; auto. cbn [walk_c walk]. er. do 2 (bd; er). destruct a0; auto. er. do 2 (bd; er). apply IH. Qed.

Lemma erase_relocate k st : forall vls u vli l c, fst (relocate_c fuel k st vls u vli l c) = relocate fuel k st vls u vli l c.
Proof.
  induction k as [|k IH]; intros vls [|u] vli l c; auto. cbn [relocate_c relocate]. cbn zeta. er. bd. destruct a as [ct ix q|cc ni]; er; [|bd; er; apply IH].
  bd. er. rewrite erase_walk. bd. er. bd. er. apply IH.
Qed.

Lemma erase_polygon_loop mn len order : forall i st vls pd uc nu, fst (polygon_loop_c ieqb gv dbg fuel mn len order i st vls pd uc nu) = polygon_loop ieqb gv dbg fuel mn len order i st vls pd uc nu.
Proof.
  induction order as [|x order IH]; intros i st vls pd uc nu; auto. cbn [polygon_loop_c polygon_loop]. er. rewrite erase_add_nth. bd. destruct a as [[st1 vls1] ad]. cbn zeta. destruct (Nat.eqb i nu); [|apply IH].
  er. rewrite erase_relocate. bd. apply IH.
Qed.

Lemma erase_build mn shuf elems : forall k st vl, fst (build_loop_c ieqb gv dbg fuel mn shuf elems k st vl) = build_loop ieqb gv dbg fuel mn shuf elems k st vl.
Proof.
  induction elems as [|[ix|] elems IH]; intros k st vl; auto; cbn [build_loop_c build_loop]; er; [apply IH|]. cbn zeta. destruct (Nat.ltb 0 (length vl)); [|apply IH]. destruct (Nat.ltb (length vl) 3); auto.
  er. unfold add_polygon_c, add_polygon. rewrite erase_polygon_loop. bd. destruct a as [st' vls']. er. apply IH.
Qed.

Theorem erase mn shuf elems : fst (trapezoidize_c ieqb gv dbg fuel mn shuf elems) = trapezoidize ieqb gv dbg fuel mn shuf elems.
Proof. apply erase_build. Qed.
End Erase.
End Work.
