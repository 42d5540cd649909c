(** Construction of the trapezoidation.  Models [src/segment.rs], [src/querynode.rs], [src/trapezoid.rs],
    [src/nexus.rs] and the [TrapezoidationState] part of [src/trapezoidation.rs]. *)
From Coq Require Import List Arith Bool.
From Verif Require Import Base Coord.
Import ListNotations.
Local Open Scope res_scope.

(** [DividerDirection] (src/nexus.rs 8-12). *)
Inductive dir := Asc | Desc.

Definition dir_eqb (a b : dir) : bool :=
  match a, b with Asc, Asc | Desc, Desc => true | _, _ => false end.

(** [Divider] (src/nexus.rs 14-39): segment, trapezoid on its right, direction. *)
Record divider := mkDiv { d_si : nat; d_r : nat; d_dir : dir }.

(** [Trapezoid] (src/trapezoid.rs 6-12). *)
Record trap := mkTrap {
  t_l : option nat; t_r : option nat; t_d : option nat; t_u : option nat; t_k : nat
}.

(** [Trapezoid::all] (src/trapezoid.rs 41-49). *)
Definition trap_all (k : nat) : trap := mkTrap None None None None k.

(** [Trapezoid::set_down/set_left/set_right/set_sink] (src/trapezoid.rs 81-95). *)
Definition set_down (n : nat) (t : trap) : trap := mkTrap (t_l t) (t_r t) (Some n) (t_u t) (t_k t).
Definition set_left (s : nat) (t : trap) : trap := mkTrap (Some s) (t_r t) (t_d t) (t_u t) (t_k t).
Definition set_right (s : nat) (t : trap) : trap := mkTrap (t_l t) (Some s) (t_d t) (t_u t) (t_k t).
Definition set_sink (k : nat) (t : trap) : trap := mkTrap (t_l t) (t_r t) (t_d t) (t_u t) k.

(** [Trapezoid::split_vertical] (src/trapezoid.rs 51-64): the updated (left) and the new (right) trapezoid. *)
Definition split_vertical (ql qr si : nat) (t : trap) : trap * trap :=
  (mkTrap (t_l t) (Some si) (t_d t) (t_u t) ql, mkTrap (Some si) (t_r t) (t_d t) (t_u t) qr).

(** [Trapezoid::split_horizontal] (src/trapezoid.rs 66-79): the updated (lower) and the new (upper) trapezoid. *)
Definition split_horizontal (qd qu ni : nat) (t : trap) : trap * trap :=
  (mkTrap (t_l t) (t_r t) (t_d t) (Some ni) qd, mkTrap (t_l t) (t_r t) (Some ni) (t_u t) qu).

Section Trap.
Context {C : Type} {OC : CoordOps C} {I : Type}.

(** [Segment] (src/segment.rs 6-11). *)
Record seg := mkSeg { s_min : nat; s_max : nat; s_cmin : coords C; s_cmax : coords C }.

(** [Segment::is_on_left] (src/segment.rs 45-47). *)
Definition is_on_left (s : seg) (c : coords C) : bool := is_left (s_cmin s) (s_cmax s) c.

(** [QueryNodeBranch] and [QueryNode] (src/querynode.rs 9-12, 32-35). *)
Inductive qbranch := QX (c_min c_max : coords C) | QY (c : coords C).
Inductive qnode := QBranch (l r : nat) (b : qbranch) | QSink (t : nat).

(** [Nexus] (src/nexus.rs 47-54). *)
Record nexus := mkNexus {
  n_v : I; n_c : coords C; n_ul : nat; n_dl : nat; n_div : zot divider
}.

(** [TrapezoidationState] / [Trapezoidation] (src/trapezoidation.rs 175-183, 651-657).  The polygon list is a
    parameter of the functions below. *)
Record state := mkState {
  st_ns : list nexus; st_ss : list seg; st_ts : list trap; st_qs : list qnode
}.

(** [TrapezoidationState::new] (src/trapezoidation.rs 186-213). *)
Definition state_new : state := mkState [] [] [trap_all 0] [QSink 0].

(** Branch decision in [find_trapezoid_from_root] (src/trapezoidation.rs 36-45). *)
Definition use_left (b : qbranch) (c : coords C) : bool :=
  match b with
  | QX c_min c_max => is_left c_min c_max c
  | QY cy => coords_le c cy
  end.

(** [find_trapezoid_from_root] (src/trapezoidation.rs 30-51). *)
Fixpoint find (fuel : nat) (qs : list qnode) (c : coords C) (qi : nat) : res ierr (nat * nat) :=
  match fuel with
  | 0 => Crash Fuel
  | S fuel =>
    do q <- rdu qs qi;
    match q with
    | QBranch l r b => find fuel qs c (if use_left b c then l else r)
    | QSink ti => Ok (qi, ti)
    end
  end.

(** ** Nexus *)

(** [Nexus::new] (src/nexus.rs 90-99). *)
Definition nexus_new (vi : I) (c : coords C) (ti_up ti_down : nat) : nexus := mkNexus vi c ti_up ti_down Zero.

(** [Nexus::filter_dividers] (src/nexus.rs 197-201); [Zot::from_options] keeps the present values in order. *)
Definition filter_dividers (n : nexus) (d : dir) : zot divider :=
  match n_div n with
  | Zero => Zero
  | One a => if dir_eqb (d_dir a) d then One a else Zero
  | Two a b =>
    match dir_eqb (d_dir a) d, dir_eqb (d_dir b) d with
    | true, true => Two a b
    | true, false => One a
    | false, true => One b
    | false, false => Zero
    end
  end.

Definition set_divr (r : nat) (d : divider) : divider := mkDiv (d_si d) r (d_dir d).

(** [Nexus::replace_trapezoid] and [find_trapezoid] (src/nexus.rs 136-154): replaces the first match in the order
    upleft, downleft, first divider, second divider. *)
Definition replace_trapezoid (old new : nat) (n : nexus) : res ierr nexus :=
  if Nat.eqb (n_ul n) old then Ok (mkNexus (n_v n) (n_c n) new (n_dl n) (n_div n))
  else if Nat.eqb (n_dl n) old then Ok (mkNexus (n_v n) (n_c n) (n_ul n) new (n_div n))
  else
    match n_div n with
    | One a =>
      if Nat.eqb (d_r a) old then Ok (mkNexus (n_v n) (n_c n) (n_ul n) (n_dl n) (One (set_divr new a)))
      else Err IE_NotConnected
    | Two a b =>
      if Nat.eqb (d_r a) old then Ok (mkNexus (n_v n) (n_c n) (n_ul n) (n_dl n) (Two (set_divr new a) b))
      else if Nat.eqb (d_r b) old then Ok (mkNexus (n_v n) (n_c n) (n_ul n) (n_dl n) (Two a (set_divr new b)))
      else Err IE_NotConnected
    | Zero => Err IE_NotConnected
    end.

(** [Nexus::get_segment_direction] (src/nexus.rs 186-195). *)
Definition get_segment_direction (ss : list seg) (ni si : nat) : res ierr dir :=
  do s <- rd ss si;
  if Nat.eqb ni (s_max s) then Ok Desc
  else if Nat.eqb ni (s_min s) then Ok Asc
  else Err IE_SegDirection.

(** [Nexus::add_segment] (src/nexus.rs 156-184). *)
Definition nexus_add_segment (ns : list nexus) (ss : list seg) (ni si ti_right : nat) : res ierr (list nexus) :=
  do d <- get_segment_direction ss ni si;
  let div := mkDiv si ti_right d in
  do n <- rd ns ni;
  do divs <-
    match n_div n with
    | Zero => Ok (One div)
    | One div0 =>
      do swap <-
        (if dir_eqb (d_dir div0) d then
           do s0 <- rd ss (d_si div0);
           do s1 <- rd ss si;
           do n1 <- rd ns (match d with Asc => s_max s1 | Desc => s_min s1 end);
           Ok (is_on_left s0 (n_c n1))
         else Ok (dir_eqb d Asc));
      Ok (if swap : bool then Two div div0 else Two div0 div)
    | Two _ _ => Err IE_TwoSegments
    end;
  Ok (upd ns ni (mkNexus (n_v n) (n_c n) (n_ul n) (n_dl n) divs)).

(** [Nexus::get_down_trapezoid_in_direction] (src/nexus.rs 223-242). *)
Definition get_down_trapezoid (ieqb : I -> I -> bool) (ns : list nexus) (ss : list seg) (s : seg) (n : nexus)
  : res ierr nat :=
  match filter_dividers n Desc with
  | Zero => Ok (n_dl n)
  | One div_r | Two _ div_r =>
    do n_min <- rd ns (s_min s);
    if ieqb (n_v n_min) (n_v n) then Err IE_SegNexus
    else
      do n_max <- rd ns (s_max s);
      do c <-
        (if ieqb (n_v n_max) (n_v n) then
           do s_r <- rd ss (d_si div_r);
           do n_r <- rd ns (s_min s_r);
           Ok (n_c n_r)
         else Ok (n_c n));
      Ok (if is_on_left s c then d_r div_r else n_dl n)
  end.

(** The trapezoid left of all dividers in a direction: [ti_upleft] / [ti_downleft]. *)
Definition first_trapezoid (n : nexus) (d : dir) : nat :=
  match d with Asc => n_ul n | Desc => n_dl n end.

(** [Nexus::get_trapezoid_between_coords] (src/nexus.rs 244-268); it never returns [Err]. *)
Definition get_trapezoid_between (d : dir) (c_from c_to : coords C) (n : nexus) : nat :=
  match filter_dividers n d with
  | Zero => first_trapezoid n d
  | One div_r | Two _ div_r =>
    let (c_from, c_to) := match d with Desc => (c_to, c_from) | Asc => (c_from, c_to) end in
    if is_left c_from c_to (n_c n) then d_r div_r else first_trapezoid n d
  end.

(** [Nexus::get_trapezoid_toward_coords] (src/nexus.rs 270-289). *)
Definition get_trapezoid_toward (ss : list seg) (ns : list nexus) (d : dir) (c_to : coords C) (n : nexus)
  : res ierr nat :=
  match filter_dividers n d with
  | Zero => Ok (first_trapezoid n d)
  | One div =>
    do s <- rd ss (d_si div);
    do n_min <- rd ns (s_min s);
    do n_max <- rd ns (s_max s);
    Ok (if is_left (n_c n_min) (n_c n_max) c_to then first_trapezoid n d else d_r div)
  | Two _ _ => Err IE_TwoDividers
  end.

(** [Nexus::up_trapezoids] / [down_trapezoids] (src/nexus.rs 207-213): leftmost and rightmost trapezoid. *)
Definition outer_trapezoids (n : nexus) (d : dir) : list nat :=
  first_trapezoid n d ::
  match filter_dividers n d with Zero => [] | One a => [d_r a] | Two _ b => [d_r b] end.

(** [iter_up_trapezoids] / [iter_down_trapezoids], i.e. [NexusTrapezoidIter] (src/nexus.rs 215-221, 292-334): the
    leftmost trapezoid and then those right of each divider of that direction. *)
Definition iter_trapezoids (n : nexus) (d : dir) : list nat :=
  first_trapezoid n d ::
  match filter_dividers n d with Zero => [] | One a => [d_r a] | Two a b => [d_r a; d_r b] end.

(** ** Debug checks (only in builds with debug assertions) *)

(** [for x in l { f(x) }] for checks. *)
Fixpoint for_all {A} (l : list A) (f : A -> res ierr unit) : res ierr unit :=
  match l with
  | [] => Ok tt
  | a :: l => do _ <- f a; for_all l f
  end.

Definition onat_eqb (a b : option nat) : bool :=
  match a, b with
  | Some a, Some b => Nat.eqb a b
  | None, None => true
  | _, _ => false
  end.

(** [panic!] unless the condition holds. *)
Definition assert (b : bool) : res ierr unit := if b then Ok tt else Crash Panic.

(** [check_consistency_nexus] (src/trapezoidation.rs 594-610). *)
Definition check_nexus (st : state) (ni : nat) : res ierr unit :=
  do n <- rdu (st_ns st) ni;
  do _ <- for_all (outer_trapezoids n Asc)
            (fun ti => do t <- rdu (st_ts st) ti; assert (onat_eqb (t_d t) (Some ni)));
  for_all (outer_trapezoids n Desc)
            (fun ti => do t <- rdu (st_ts st) ti; assert (onat_eqb (t_u t) (Some ni))).

(** [check_consistency_trapezoid] (src/trapezoidation.rs 612-635). *)
Definition check_trapezoid (st : state) (ti : nat) : res ierr unit :=
  do t <- rdu (st_ts st) ti;
  do _ <- match t_d t with
          | Some ni => do n <- rdu (st_ns st) ni; assert (existsb (Nat.eqb ti) (iter_trapezoids n Asc))
          | None => Ok tt
          end;
  do _ <- match t_u t with
          | Some ni => do n <- rdu (st_ns st) ni; assert (existsb (Nat.eqb ti) (iter_trapezoids n Desc))
          | None => Ok tt
          end;
  do q <- rdu (st_qs st) (t_k t);
  match q with
  | QSink tj => assert (Nat.eqb ti tj)
  | QBranch _ _ _ => Crash Panic
  end.

(** [check_consistency_query_node] (src/trapezoidation.rs 577-592); the node count it returns is not used.  Fuel bounds
    the recursion depth. *)
Fixpoint check_query (fuel : nat) (st : state) (qi : nat) : res ierr unit :=
  match fuel with
  | 0 => Crash Fuel
  | S fuel =>
    do q <- rdu (st_qs st) qi;
    match q with
    | QBranch l r _ => do _ <- check_query fuel st l; check_query fuel st r
    | QSink ti => do _ <- rdu (st_ts st) ti; Ok tt
    end
  end.

(** [check_consistency] (src/trapezoidation.rs 560-575); [dbg] says whether debug assertions are compiled in. *)
Definition check_consistency (dbg : bool) (fuel : nat) (st : state) : res ierr unit :=
  if dbg then
    do _ <- for_all (seq 0 (length (st_ns st))) (check_nexus st);
    do _ <- for_all (seq 0 (length (st_ts st))) (check_trapezoid st);
    check_query fuel st 0
  else Ok tt.

(** ** Insertion of vertices and segments *)

Section Insert.
Variable ieqb : I -> I -> bool.   (* == on the index type *)
Variable gv : I -> coords C.      (* coordinates of get_vertex(index) *)
Variable dbg : bool.              (* debug assertions compiled in? *)
Variable fuel : nat.              (* step budget of each loop *)

(** [TrapezoidationState::add_vertex] (src/trapezoidation.rs 442-470). *)
Definition add_vertex (st : state) (vi : I) (qi_root : nat) : res ierr (state * nat) :=
  let c := gv vi in
  do '(qi_parent, ti) <- find fuel (st_qs st) c qi_root;
  let ti_new := length (st_ts st) in
  let qi_down := length (st_qs st) in
  let qi_up := qi_down + 1 in
  let ni := length (st_ns st) in
  let ns1 := st_ns st ++ [nexus_new vi c ti_new ti] in
  (* branch_y / branch: the old node content moves to qi_down (src/querynode.rs 105-114) *)
  do q_left <- rd (st_qs st) qi_parent;
  let qs1 := (upd (st_qs st) qi_parent (QBranch qi_down qi_up (QY c)) ++ [q_left]) ++ [QSink ti_new] in
  do t <- rd (st_ts st) ti;
  let (t_down, t_new) := split_horizontal qi_down qi_up ni (set_sink qi_down t) in
  let ts1 := upd (st_ts st) ti t_down in
  do ns2 <- match t_u t_new with
            | Some ni_up => modify ns1 ni_up (replace_trapezoid ti ti_new)
            | None => Ok ns1
            end;
  let st' := mkState ns2 (st_ss st) (ts1 ++ [t_new]) qs1 in
  do _ <- check_consistency dbg fuel st';
  Ok (st', ni).

(** The [while ni != ni_min] loop of [add_segment] (src/trapezoidation.rs 506-548); returns the state and
    [ti_upright]. *)
Fixpoint seg_loop (k : nat) (st : state) (si ni_min : nat) (c_min c_max : coords C) (ni ti_upleft ti_upright : nat)
  : res ierr (state * nat) :=
  match k with
  | 0 => Crash Fuel
  | S k =>
    if Nat.eqb ni ni_min then Ok (st, ti_upright)
    else
      do n <- rdu (st_ns st) ni;
      do s <- rdu (st_ss st) si;
      do ti <- get_down_trapezoid ieqb (st_ns st) (st_ss st) s n;
      do t <- rdu (st_ts st) ti;
      do ni <- ok_or (t_d t) IE_MinNotFound;
      do t_upleft <- rdu (st_ts st) ti_upleft;
      do t_upright <- rdu (st_ts st) ti_upright;
      let qi_sink := t_k t in
      if onat_eqb (t_r t) (t_r t_upright) then
        let qi_left := length (st_qs st) in
        do q_left <- rd (st_qs st) qi_sink;
        (* merge_x / branch (src/querynode.rs 100-114) *)
        let qs1 := upd (st_qs st) qi_sink (QBranch qi_left (t_k t_upright) (QX c_min c_max)) ++ [q_left] in
        do ts1 <- modify (st_ts st) ti (fun t => Ok (set_right si (set_sink qi_left t)));
        do ts2 <- modify ts1 ti_upright (fun t => Ok (set_down ni t));
        do ns1 <- (if negb (Nat.eqb ni ni_min) then
                     do n' <- rdu (st_ns st) ni;
                     if negb (is_on_left s (n_c n')) then
                       modify (st_ns st) ni (replace_trapezoid ti ti_upright)
                     else Ok (st_ns st)
                   else Ok (st_ns st));
        seg_loop k (mkState ns1 (st_ss st) ts2 qs1) si ni_min c_min c_max ni ti ti_upright
      else if onat_eqb (t_l t) (t_l t_upleft) then
        let qi_right := length (st_qs st) in
        do q_right <- rd (st_qs st) qi_sink;
        let qs1 := upd (st_qs st) qi_sink (QBranch (t_k t_upleft) qi_right (QX c_min c_max)) ++ [q_right] in
        do ts1 <- modify (st_ts st) ti (fun t => Ok (set_left si (set_sink qi_right t)));
        do ts2 <- modify ts1 ti_upleft (fun t => Ok (set_down ni t));
        do on_left <- (if Nat.eqb ni ni_min then Ok true
                       else do n' <- rdu (st_ns st) ni; Ok (is_on_left s (n_c n')));
        do ns1 <- (if on_left : bool then modify (st_ns st) ni (replace_trapezoid ti ti_upleft)
                   else Ok (st_ns st));
        seg_loop k (mkState ns1 (st_ss st) ts2 qs1) si ni_min c_min c_max ni ti_upleft ti
      else Err IE_NoMatchingSide
  end.

(** [TrapezoidationState::add_segment] (src/trapezoidation.rs 472-558). *)
Definition add_segment (st : state) (ni_min ni_max : nat) (c_min c_max : coords C) : res ierr state :=
  let si := length (st_ss st) in
  let ss1 := st_ss st ++ [mkSeg ni_min ni_max c_min c_max] in
  do n_max <- rdu (st_ns st) ni_max;
  do s <- rdu ss1 si;
  do ti <- get_down_trapezoid ieqb (st_ns st) ss1 s n_max;
  do t <- rdu (st_ts st) ti;
  let qi := t_k t in
  let ti_new := length (st_ts st) in
  let qi_left := length (st_qs st) in
  let qi_right := qi_left + 1 in
  (* branch_x / branch (src/querynode.rs 95-114) *)
  do q_left <- rd (st_qs st) qi;
  let qs1 := (upd (st_qs st) qi (QBranch qi_left qi_right (QX c_min c_max)) ++ [q_left]) ++ [QSink ti_new] in
  let (t_left, t_new) := split_vertical qi_left qi_right si (set_sink qi_left t) in
  let ts1 := upd (st_ts st) ti t_left ++ [t_new] in
  do ns1 <- nexus_add_segment (st_ns st) ss1 ni_max si ti_new;
  do ni <- ok_or (t_d t_left) IE_MinNotFound;
  do n <- rdu ns1 ni;
  do ns2 <- (if negb (Nat.eqb ni ni_min) && negb (is_on_left s (n_c n)) then
               modify ns1 ni (replace_trapezoid ti ti_new)
             else Ok ns1);
  do '(st3, ti_upright) <- seg_loop fuel (mkState ns2 ss1 ts1 qs1) si ni_min c_min c_max ni ti ti_new;
  do ns4 <- nexus_add_segment (st_ns st3) (st_ss st3) ni_min si ti_upright;
  let st4 := mkState ns4 (st_ss st3) (st_ts st3) (st_qs st3) in
  do _ <- check_consistency dbg fuel st4;
  Ok st4.

(** ** Polygons *)

(** [VertexLocation] (src/trapezoidation.rs 84-96). *)
Inductive vloc := Pending (c : coords C) (i : I) (q : nat) | Inserted (c : coords C) (n : nat).

Definition vl_coords (v : vloc) : coords C :=
  match v with Pending c _ _ => c | Inserted c _ => c end.

(** The inner [add_vertex] of [add_nth_segment] (src/trapezoidation.rs 294-302). *)
Definition add_vertex_at (st : state) (vls : list vloc) (vli : nat) (index : I) (qi : nat)
  : res ierr (state * list vloc * nat) :=
  do '(st', ni) <- add_vertex st index qi;
  do vls' <- modify vls vli (fun vl => Ok (Inserted (vl_coords vl) ni));
  Ok (st', vls', ni).

(** [add_nth_segment] (src/trapezoidation.rs 292-347); returns also the number of vertices added. *)
Definition add_nth_segment (st : state) (vls : list vloc) (si : nat) : res ierr (state * list vloc * nat) :=
  let vli0 := si in
  let vli1 := (si + 1) mod (length vls) in
  do vl0 <- rd vls vli0;
  do vl1 <- rd vls vli1;
  do '(st1, vls1, ni0, ni1, added) <-
    match vl0, vl1 with
    | Pending c0 index0 qi0, Pending c1 index1 qi1 =>
      if coords_lt c0 c1 then
        do '(st1, vls1, ni0) <- add_vertex_at st vls vli0 index0 qi0;
        do '(st2, vls2, ni1) <- add_vertex_at st1 vls1 vli1 index1 qi1;
        Ok (st2, vls2, ni0, ni1, 2)
      else
        do '(st1, vls1, ni1) <- add_vertex_at st vls vli1 index1 qi1;
        do '(st2, vls2, ni0) <- add_vertex_at st1 vls1 vli0 index0 qi0;
        Ok (st2, vls2, ni0, ni1, 2)
    | Pending _ index0 qi0, Inserted _ ni1 =>
      do '(st1, vls1, ni0) <- add_vertex_at st vls vli0 index0 qi0;
      Ok (st1, vls1, ni0, ni1, 1)
    | Inserted _ ni0, Pending _ index1 qi1 =>
      do '(st1, vls1, ni1) <- add_vertex_at st vls vli1 index1 qi1;
      Ok (st1, vls1, ni0, ni1, 1)
    | Inserted _ ni0, Inserted _ ni1 => Ok (st, vls, ni0, ni1, 0)
    end;
  do n0 <- rdu (st_ns st1) ni0;
  do n1 <- rdu (st_ns st1) ni1;
  do st2 <-
    (if coords_lt (n_c n0) (n_c n1) then add_segment st1 ni0 ni1 (n_c n0) (n_c n1)
     else add_segment st1 ni1 ni0 (n_c n1) (n_c n0));
  Ok (st2, vls1, added).

(** [reached_containing_trapezoid] (src/trapezoidation.rs 371-382). *)
Definition reached (ns : list nexus) (t : trap) (d : dir) (c : coords C) : res ierr bool :=
  match (match d with Asc => t_u t | Desc => t_d t end) with
  | Some ni =>
    do n <- rd ns ni;
    Ok (match d with Asc => coords_gt (n_c n) c | Desc => coords_lt (n_c n) c end)
  | None => Ok true
  end.

(** The loop [while !reached_containing_trapezoid(..)] (src/trapezoidation.rs 417-422). *)
Fixpoint walk (k : nat) (st : state) (d : dir) (c_origin c_target : coords C) (ti : nat) : res ierr nat :=
  match k with
  | 0 => Crash Fuel
  | S k =>
    do t <- rdu (st_ts st) ti;
    do r <- reached (st_ns st) t d c_target;
    if r : bool then Ok ti
    else
      do ni <- ok_or (match d with Asc => t_u t | Desc => t_d t end) IE_ContainingNotFound;
      do n <- rdu (st_ns st) ni;
      walk k st d c_origin c_target (get_trapezoid_between d c_origin c_target n)
  end.

(** [Location] (src/trapezoidation.rs 366-369). *)
Inductive location := LNexus (n : nat) | LTrap (t : nat).

(** The loop [while unlocated_pending_vertices != 0] (src/trapezoidation.rs 396-431). *)
Fixpoint relocate (k : nat) (st : state) (vls : list vloc) (unlocated vli : nat) (loc : location)
  (c_origin : coords C) : res ierr (list vloc) :=
  match unlocated with
  | 0 => Ok vls
  | S unlocated' =>
    match k with
    | 0 => Crash Fuel
    | S k =>
      let vli := (vli + 1) mod (length vls) in
      do vl <- rd vls vli;
      match vl with
      | Inserted _ ni =>
        do n <- rdu (st_ns st) ni;
        relocate k st vls unlocated vli (LNexus ni) (n_c n)
      | Pending c_target index _ =>
        let d := if coords_gt c_target c_origin then Asc else Desc in
        do ti0 <- match loc with
                  | LNexus ni =>
                    do n <- rdu (st_ns st) ni;
                    get_trapezoid_toward (st_ss st) (st_ns st) d c_target n
                  | LTrap ti => Ok ti
                  end;
        do ti <- walk fuel st d c_origin c_target ti0;
        do t <- rdu (st_ts st) ti;
        relocate k st (upd vls vli (Pending c_target index (t_k t))) unlocated' vli (LTrap ti) c_target
      end
    end
  end.

(** The [for] loop of [add_polygon] (src/trapezoidation.rs 362-436).  [math_n] stands for [math_n(len, update_count)]
    (src/math.rs 15-21), floating point logarithms: any function. *)
Fixpoint polygon_loop (math_n : nat -> nat -> nat) (len : nat) (order : list nat) (i : nat) (st : state)
  (vls : list vloc) (pending update_count next_update : nat) : res ierr (state * list vloc) :=
  match order with
  | [] => Ok (st, vls)
  | vi0 :: order =>
    do '(st1, vls1, added) <- add_nth_segment st vls vi0;
    let pending := pending - added in
    if Nat.eqb i next_update then
      do vls2 <- relocate fuel st1 vls1 pending vi0 (LNexus 0) coords_zero;
      polygon_loop math_n len order (i + 1) st1 vls2 pending (update_count + 1) (math_n len (update_count + 1))
    else
      polygon_loop math_n len order (i + 1) st1 vls1 pending update_count next_update
  end.

(** [add_polygon] (src/trapezoidation.rs 290-439).  [order] is the shuffled [0..len] (random). *)
Definition add_polygon (math_n : nat -> nat -> nat) (order : list nat) (st : state) (vls : list vloc)
  : res ierr (state * list vloc) :=
  let len := length vls in
  polygon_loop math_n len order 0 st vls len 1 (math_n len 1).

(** [PolygonElement] (src/inputs/polygon_list.rs 10-17). *)
Inductive element := Continue (i : I) | NewPolygon.

(** The loop of [build] (src/trapezoidation.rs 266-284).  [shuf k len] is the order used for the [k]-th polygon. *)
Fixpoint build_loop (math_n : nat -> nat -> nat) (shuf : nat -> nat -> list nat) (elems : list element)
  (k : nat) (st : state) (v_lookup : list vloc) : res trap_error state :=
  match elems with
  | [] => Ok st
  | Continue index :: elems =>
    build_loop math_n shuf elems k st (v_lookup ++ [Pending (gv index) index 0])
  | NewPolygon :: elems =>
    let v_count := length v_lookup in
    if Nat.ltb 0 v_count then
      if Nat.ltb v_count 3 then Err (NotEnoughVertices v_count)
      else
        do '(st', _) <- map_err TrapInternal (add_polygon math_n (shuf k v_count) st v_lookup);
        build_loop math_n shuf elems (k + 1) st' []
    else build_loop math_n shuf elems k st v_lookup
  end.

(** [TrapezoidationState::new(ps).build()] (src/trapezoidation.rs 257-287), i.e. [PolygonList::trapezoidize]
    (src/inputs/polygon_list.rs 172-174). *)
Definition trapezoidize (math_n : nat -> nat -> nat) (shuf : nat -> nat -> list nat) (elems : list element)
  : res trap_error state :=
  build_loop math_n shuf (elems ++ [NewPolygon]) 0 state_new [].

End Insert.
End Trap.

Arguments seg C : clear implicits.
Arguments qbranch C : clear implicits.
Arguments qnode C : clear implicits.
Arguments nexus C I : clear implicits.
Arguments state C I : clear implicits.
Arguments vloc C I : clear implicits.
Arguments element I : clear implicits.
