(** Output collections and formats.  Models [src/outputs/**]. *)
From Coq Require Import List Arith Bool.
From Verif Require Import Base Coord Trap Mono Tri.
Import ListNotations.

(** ** Collections *)

(** Trait [List<V>] (src/outputs/list.rs 2-16). *)
Record list_ops (L V : Type) := mkLO {
  lo_push : L -> V -> V -> V -> L;
  lo_len : L -> nat;
  lo_trunc : L -> nat -> L
}.
Arguments lo_push {L V}. Arguments lo_len {L V}. Arguments lo_trunc {L V}.

(** [List<V> for Vec<V>] (src/outputs/list.rs 18-32). *)
Definition vec_flat (V : Type) : list_ops (list V) V := {|
  lo_push l a b c := ((l ++ [a]) ++ [b]) ++ [c];
  lo_len l := length l / 3;
  lo_trunc l n := firstn (n * 3) l
|}.

(** [List<V> for Vec<[V; 3]>] and [Vec<(V, V, V)>] (src/outputs/list.rs 34-60). *)
Definition vec_triples (V : Type) : list_ops (list (V * V * V)) V := {|
  lo_push l a b c := l ++ [(a, b, c)];
  lo_len l := length l;
  lo_trunc l n := firstn n l
|}.

(** Traits [Fans] and [Fan<V>] (src/outputs/fan.rs 2-8, 21-38). *)
Record fans_ops (FS F : Type) := mkFSO {
  fs_len : FS -> nat;
  fs_trunc : FS -> nat -> FS;
  fs_push : FS -> F -> FS
}.
Arguments fs_len {FS F}. Arguments fs_trunc {FS F}. Arguments fs_push {FS F}.
Record fan_ops (F V : Type) := mkFO { fo_new : V -> V -> V -> F; fo_push : F -> V -> F }.
Arguments fo_new {F V}. Arguments fo_push {F V}.

(** [Fans for Vec<F>] (src/outputs/fan.rs 40-54). *)
Definition vec_fans (F : Type) : fans_ops (list F) F := {|
  fs_len l := length l;
  fs_trunc l n := firstn n l;
  fs_push l f := l ++ [f]
|}.

(** [Fan<V> for Vec<V>] (src/outputs/fan.rs 10-18). *)
Definition vec_fan (V : Type) : fan_ops (list V) V := {|
  fo_new a b c := [a; b; c];
  fo_push l v := l ++ [v]
|}.

(** ** Generic builders *)

(** [GenericList] (src/outputs/formats/generic_list.rs): the list and the initial triangle count. *)
Definition glist (L : Type) : Type := (L * nat)%type.
Definition glist_new {L V} (o : list_ops L V) (l : L) : glist L := (l, lo_len o l).
Definition glist_add {L V} (o : list_ops L V) (g : glist L) (a b c : V) : glist L := (lo_push o (fst g) a b c, snd g).
Definition glist_fail {L V} (o : list_ops L V) (g : glist L) : L := lo_trunc o (fst g) (snd g).

(** [GenericFans] (src/outputs/formats/generic_fans.rs): the fans, the current fan, the initial fan count. *)
Record gfans (FS F : Type) := mkGF { gf_fans : FS; gf_cur : F; gf_n : nat }.
Arguments mkGF {FS F}. Arguments gf_fans {FS F}. Arguments gf_cur {FS F}. Arguments gf_n {FS F}.
Definition gfans_init {FS F V} (o : fans_ops FS F) (p : fan_ops F V) (fs : FS) (a b c : V) : gfans FS F :=
  mkGF fs (fo_new p a b c) (fs_len o fs).
Definition gfans_new {FS F V} (o : fans_ops FS F) (p : fan_ops F V) (g : gfans FS F) (a b c : V) : gfans FS F :=
  mkGF (fs_push o (gf_fans g) (gf_cur g)) (fo_new p a b c) (gf_n g).
Definition gfans_ext {FS F V} (p : fan_ops F V) (g : gfans FS F) (v : V) : gfans FS F :=
  mkGF (gf_fans g) (fo_push p (gf_cur g) v) (gf_n g).
Definition gfans_build {FS F} (o : fans_ops FS F) (g : gfans FS F) : FS := fs_push o (gf_fans g) (gf_cur g).
Definition gfans_fail {FS F} (o : fans_ops FS F) (g : gfans FS F) : FS := fs_trunc o (gf_fans g) (gf_n g).

(** ** Formats.  [M] is the caller's collection (passed as [&mut]); the returned output is the same collection.  The
    error type [Infallible] is [Empty_set]. *)
Section Formats.
Context {I : Type}.

(** [IndexedFanFormat] (src/outputs/formats/indexed_fan.rs 23-71). *)
Definition indexed_fan {FS F} (o : fans_ops FS F) (p : fan_ops F I) (fs : FS) : fan_format I Empty_set FS FS := {|
  ff_B := gfans FS F;
  ff_cw := false;
  ff_dropped := fs;
  ff_init a b c := inl (gfans_init o p fs a b c);
  ff_new g a b c := (gfans_new o p g a b c, None);
  ff_ext g a := (gfans_ext p g a, None);
  ff_build g := (inl (gfans_build o g), gfans_build o g);
  ff_fail g _ := gfans_fail o g
|}.

(** [DeindexedFanFormat] (src/outputs/formats/deindexed_fan.rs 25-81); [vertex i] is [get_vertex(i).clone()]. *)
Definition deindexed_fan {FS F V} (vertex : I -> V) (o : fans_ops FS F) (p : fan_ops F V) (fs : FS)
  : fan_format I Empty_set FS FS := {|
  ff_B := gfans FS F;
  ff_cw := false;
  ff_dropped := fs;
  ff_init a b c := inl (gfans_init o p fs (vertex a) (vertex b) (vertex c));
  ff_new g a b c := (gfans_new o p g (vertex a) (vertex b) (vertex c), None);
  ff_ext g a := (gfans_ext p g (vertex a), None);
  ff_build g := (inl (gfans_build o g), gfans_build o g);
  ff_fail g _ := gfans_fail o g
|}.

(** [DelimitedFanError] (src/outputs/formats/delimited_fan.rs 8-10). *)
Inductive delim_error := IndexMatchesDelimiter.

Section Delimited.
Context {FS : Type} (o : fans_ops FS I) (ieqb : I -> I -> bool) (delim : I).

(** [push_index] (src/outputs/formats/delimited_fan.rs 75-82). *)
Definition push_index (fs : FS) (vi : I) : FS * option delim_error :=
  if ieqb delim vi then (fs, Some IndexMatchesDelimiter) else (fs_push o fs vi, None).

(** Three [push_index(..)?] in a row (src/outputs/formats/delimited_fan.rs 68-70, 92-94). *)
Definition push3 (fs : FS) (a b c : I) : FS * option delim_error :=
  match push_index fs a with
  | (fs, Some e) => (fs, Some e)
  | (fs, None) =>
    match push_index fs b with
    | (fs, Some e) => (fs, Some e)
    | (fs, None) => push_index fs c
    end
  end.

(** [DelimitedFanFormat] (src/outputs/formats/delimited_fan.rs 37-111); the builder state is the collection and
    [initial_vert_count]. *)
Definition delimited_fan (fs : FS) : fan_format I delim_error FS FS := {|
  ff_B := (FS * nat)%type;
  ff_cw := false;
  ff_dropped := fs;
  ff_init a b c :=
    let n := fs_len o fs in
    let fs1 := if Nat.ltb 0 n then fs_push o fs delim else fs in
    match push3 fs1 a b c with
    | (fs2, None) => inl (fs2, n)
    | (fs2, Some e) => inr (e, fs2)
    end;
  ff_new g a b c :=
    let (fs2, r) := push3 (fs_push o (fst g) delim) a b c in ((fs2, snd g), r);
  ff_ext g a := let (fs2, r) := push_index (fst g) a in ((fs2, snd g), r);
  ff_build g := (inl (fst g), fst g);
  ff_fail g _ := fs_trunc o (fst g) (snd g)
|}.
End Delimited.

(** Traits [ListFormat] and [ListBuilder] (src/outputs/list_format.rs 6-42).  [lf_drop]: what is left of the caller's
    storage when the builder is dropped without [fail]. *)
Record list_format (E Out M : Type) := mkLF {
  lf_B : Type;
  lf_cw : bool;
  lf_dropped : M;
  lf_init : lf_B + (E * M);
  lf_add : lf_B -> I -> I -> I -> lf_B * option E;
  lf_build : lf_B -> (Out + E) * M;
  lf_fail : lf_B -> tri_error E -> M;
  lf_drop : lf_B -> M
}.
Arguments lf_B {E Out M}. Arguments lf_cw {E Out M}. Arguments lf_dropped {E Out M}. Arguments lf_init {E Out M}.
Arguments lf_add {E Out M}. Arguments lf_build {E Out M}. Arguments lf_fail {E Out M}. Arguments lf_drop {E Out M}.

(** [IndexedListFormat] (src/outputs/formats/indexed_list.rs 21-60). *)
Definition indexed_list {L} (o : list_ops L I) (l : L) : list_format Empty_set L L := {|
  lf_B := glist L;
  lf_cw := false;
  lf_dropped := l;
  lf_init := inl (glist_new o l);
  lf_add g a b c := (glist_add o g a b c, None);
  lf_build g := (inl (fst g), fst g);
  lf_fail g _ := glist_fail o g;
  lf_drop g := fst g
|}.

(** [DeindexedListFormat] (src/outputs/formats/deindexed_list.rs 23-69). *)
Definition deindexed_list {L V} (vertex : I -> V) (o : list_ops L V) (l : L) : list_format Empty_set L L := {|
  lf_B := glist L;
  lf_cw := false;
  lf_dropped := l;
  lf_init := inl (glist_new o l);
  lf_add g a b c := (glist_add o g (vertex a) (vertex b) (vertex c), None);
  lf_build g := (inl (fst g), fst g);
  lf_fail g _ := glist_fail o g;
  lf_drop g := fst g
|}.

(** [FanToListFormat] (src/outputs/formats/fan_to_list.rs 16-70): list builder, fan root, last vertex. *)
Definition fan_to_list {E Out M} (lf : list_format E Out M) : fan_format I E Out M := {|
  ff_B := (lf_B lf * I * I)%type;
  ff_cw := lf_cw lf;
  ff_dropped := lf_dropped lf;
  ff_init a b c :=
    match lf_init lf with
    | inr em => inr em
    | inl lb =>
      match lf_add lf lb a b c with
      | (lb, None) => inl (lb, a, c)
      | (lb, Some e) => inr (e, lf_drop lf lb)
      end
    end;
  ff_new g a b c :=
    let '(lb, _, _) := g in
    let (lb, r) := lf_add lf lb a b c in ((lb, a, c), r);
  ff_ext g v :=
    let '(lb, v0, v1) := g in
    let (lb, r) := lf_add lf lb v0 v1 v in ((lb, v0, v), r);
  ff_build g := let '(lb, _, _) := g in lf_build lf lb;
  ff_fail g e := let '(lb, _, _) := g in lf_fail lf lb e
|}.

(** [ReverseFanFormat] (src/outputs/formats/reverse_fan.rs 14-47). *)
Definition reverse_fan {E Out M} (f : fan_format I E Out M) : fan_format I E Out M := {|
  ff_B := ff_B f;
  ff_cw := negb (ff_cw f);
  ff_dropped := ff_dropped f;
  ff_init := ff_init f;
  ff_new := ff_new f;
  ff_ext := ff_ext f;
  ff_build := ff_build f;
  ff_fail := ff_fail f
|}.

End Formats.
Arguments list_format I E Out M : clear implicits.
Arguments lf_B {I E Out M}. Arguments lf_cw {I E Out M}. Arguments lf_dropped {I E Out M}. Arguments lf_init {I E Out M}.
Arguments lf_add {I E Out M}. Arguments lf_build {I E Out M}. Arguments lf_fail {I E Out M}. Arguments lf_drop {I E Out M}.
