(** Concrete valid inputs. *)
From Coq Require Import List Arith Bool QArith Lqa Lia.
From Verif Require Import Base Coord Trap Mono Tri Trace Protocol Builders Runs Plane.
Import ListNotations.
Local Open Scope Q_scope.

Ltac nth_cases H i :=
  first [ destruct i as [|i]; [injection H as H; subst|nth_cases H i] | cbn in H; destruct i; discriminate ].

(** A single triangle. *)
Definition cw_tri : list (coords Q) := [pt 3 2; pt 4 0; pt 2 0].

Ltac solve_valid :=
  split; [repeat constructor|split];
  [ intros i j a b Ha Hb [Hx Hy]; cbn [concat app] in *; nth_cases Ha i; nth_cases Hb j; try reflexivity; exfalso;
    cbv [pt cx cy fst snd inject_Z] in *; lra
  | intros i j e f p He Hf Hij (t & Ht0 & Ht1 & Htx & Hty) (u & Hu0 & Hu1 & Hux & Huy);
    cbn [concat app map edges combine] in *;
    nth_cases He i; nth_cases Hf j; try (exfalso; now apply Hij); destruct p as [px py];
    cbv [peq pt cx cy fst snd inject_Z] in *;
    first [ exfalso; lra | split; (left; split; lra) || (right; split; lra) ] ].

Lemma cw_tri_valid : valid [cw_tri].
Proof. unfold cw_tri. solve_valid. Qed.

Lemma square_valid : valid [square].
Proof. unfold square. solve_valid. Qed.

Lemma ell_valid : valid [ell].
Proof. unfold ell. solve_valid. Qed.

(** A quadrilateral with a triangular hole. *)
Definition holed : list (coords Q) := [pt 0 0; pt 9 1; pt 8 9; pt 1 8; pt 3 3; pt 5 4; pt 4 6].
Definition holed_elems : list (element nat) :=
  [Continue 0%nat; Continue 1%nat; Continue 2%nat; Continue 3%nat; NewPolygon; Continue 4%nat; Continue 5%nat; Continue 6%nat].

Lemma holed_valid : valid (map (map (gv_of holed)) (groups holed_elems)).
Proof. cbn. unfold gv_of, holed. cbn [nth]. solve_valid. Qed.
