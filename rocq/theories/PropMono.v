(** Properties of the cutting of monotone pieces. *)
From Coq Require Import QArith Qabs Lqa List Sorted.
From Verif Require Import Base Coord Trap Mono Tri Trace Protocol MonoProof Plane MonoGeom.
Import ListNotations.
Local Open Scope Q_scope.

(** C37: a piece of at least three vertices, from top to bottom, with all inner vertices strictly on one side of its base
    edge: [MonotoneBuilder::build] accepts it, [build_fans] stops without error, and the triangles it hands to the builder
    are [n - 2], use only the piece's own vertices, are counterclockwise or flat, and their areas add up to the piece's. *)
Theorem C37_piece (I E : Type) (gv : I -> point) (left : bool) (v0 : I * coords Q) (l : list (I * coords Q)) :
  mountain left (map snd (v0 :: l)) -> (3 <= length (v0 :: l))%nat -> (forall v, In v (v0 :: l) -> gv (fst v) = snd v) ->
  exists b m, feed (E := ierr) (mb_new (fst v0) (snd v0)) l = Ok b /\ mb_build b = Ok (Some m) /\
  exists N calls, (forall fuel k t, (N <= fuel)%nat -> (N <= k)%nat ->
      build_fans (E := E) rec_new rec_ext false fuel k m t = (t ++ calls, Ok tt)) /\
    (length (tris_of calls) + 2 = length (v0 :: l))%nat /\
    (forall a b c, In (a, b, c) (tris_of calls) ->
       In a (map fst (v0 :: l)) /\ In b (map fst (v0 :: l)) /\ In c (map fst (v0 :: l)) /\ 0 <= cross (gv a) (gv b) (gv c)) /\
    sumq (area2 gv) (tris_of calls) == Qabs (shoelace (map snd (v0 :: l))).
Proof. exact (piece_triangles gv left v0 l). Qed.

(** A piece with two concave vertices. *)
Definition comb : list point := [(0, 10); (-3, 8); (-1, 6); (-4, 3); (-2, 1); (0, 0)].

Example comb_mountain : mountain true comb /\ (3 <= length comb)%nat.
Proof.
  split; [|cbn; repeat constructor]. split.
  - repeat constructor; unfold plt; cbn; left; reflexivity.
  - exists (0, 10), (0, 0), [(-3, 8); (-1, 6); (-4, 3); (-2, 1)]. split; [reflexivity|].
    intros v Hv. cbn in Hv. destruct Hv as [<- |[<- |[<- |[<- |[]]]]]; reflexivity.
Qed.

(** The calls made for it. *)
Example comb_calls :
  build_fans (E := unit) rec_new rec_ext false 20 20
    (mkMono (combine [0; 1; 2; 3; 4; 5]%nat comb) 2 2 true) [] =
  ([CNew 0 1 2; CNew 4 0 2; CExt 3; CNew 0 4 5]%nat, Ok tt).
Proof. vm_compute. reflexivity. Qed.

Print Assumptions C37_piece.
