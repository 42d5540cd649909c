(** Reading a polygon list from a text file.  Models [src/tests/util/load_polygon_list.rs]; a file is the list of its bytes, opening and reading it
    succeed and the bytes are ASCII; [parse] stands for [str::parse::<f32>]. *)
From Coq Require Import List Bool Ascii.
From Verif Require Import Coord.
Import ListNotations.
Local Open Scope char_scope.

Notation text := (list ascii).
Definition newline : ascii := "010".
Definition return_ : ascii := "013".

(** A trailing carriage return removed, as [BufRead::lines] does for lines ended by a newline (standard library, called in load_polygon_list.rs 9). *)
Fixpoint chomp (l : text) : text :=
  match l with
  | [] => []
  | [c] => if Ascii.eqb c return_ then [] else [c]
  | c :: l => c :: chomp l
  end.

(** [BufRead::lines] (load_polygon_list.rs 9): the text up to each newline, and what follows the last newline unless it is empty. *)
Fixpoint lines_from (cur : text) (l : text) : list text :=
  match l with
  | [] => match cur with [] => [] | _ => [rev cur] end
  | c :: l => if Ascii.eqb c newline then chomp (rev cur) :: lines_from [] l else lines_from (c :: cur) l
  end.
Definition lines (l : text) : list text := lines_from [] l.

(** [char::is_ascii_whitespace]: space, tab, newline, form feed, carriage return. *)
Definition is_space (c : ascii) : bool := existsb (Ascii.eqb c) [" "; "009"; "010"; "012"; "013"].

(** [str::split_ascii_whitespace] (load_polygon_list.rs 11). *)
Fixpoint words_from (cur : text) (l : text) : list text :=
  let flush := match cur with [] => [] | _ => [rev cur] end in
  match l with
  | [] => flush
  | c :: l => if is_space c then flush ++ words_from [] l else words_from (c :: cur) l
  end.
Definition words (l : text) : list text := words_from [] l.

Section Load.
Context {C : Type} (parse : text -> option C).

(** One turn of the loop (load_polygon_list.rs 9-22); [None] is an error passed on by [?]: no second word (14), or a word that is no number (13, 14). *)
Definition load_line (st : list (list (coords C)) * list (coords C)) (line : text) : option (list (list (coords C)) * list (coords C)) :=
  let (output, current) := st in
  match words line with
  | x :: chunks =>
    match parse x with
    | Some x =>
      match chunks with
      | y :: _ => match parse y with Some y => Some (output, current ++ [(x, y)]) | None => None end
      | [] => None
      end
    | None => None
    end
  | [] =>
    (* [std::mem::swap] and [is_empty] (17-21) *)
    let next := current in
    Some (match next with [] => output | _ => output ++ [next] end, [])
  end.

Fixpoint load_loop (st : list (list (coords C)) * list (coords C)) (ls : list text) : option (list (list (coords C)) * list (coords C)) :=
  match ls with
  | [] => Some st
  | l :: ls => match load_line st l with Some st => load_loop st ls | None => None end
  end.

(** [load_polygon_list] (load_polygon_list.rs 5-25): what is still in [current] after the loop is not returned. *)
Definition load_polygon_list (file : text) : option (list (list (coords C))) :=
  match load_loop ([], []) (lines file) with
  | Some (output, _) => Some output
  | None => None
  end.
End Load.
