(** Model of the -mbb flag of stldice and binvox-dice: the regular expression and the six numbers.

    Go's regexp is leftmost-first: among the matches the one a backtracking search with greedy
    repetition finds first.  The expression is anchored at both ends, so that search starts at the first
    byte.  The classes are those of bytes: all excluded characters are ASCII, so a repetition of a negated
    class can only end between two characters where the next item is ASCII. *)
From Verif Require Import Base.
From Coq Require Import ZArith List Bool Init.Byte.
Import ListNotations.

(** \s in Go's regexp: [\t\n\f\r ]. *)
Definition re_space (b : byte) : bool := match b with x09 | x0a | x0c | x0d | x20 => true | _ => false end.
Definition re_comma (b : byte) : bool := match b with x2c => true | _ => false end.
Definition re_dash (b : byte) : bool := match b with x2d => true | _ => false end.
Definition re_open (b : byte) : bool := match b with x28 | x5b => true | _ => false end.
Definition re_close (b : byte) : bool := match b with x29 | x5d => true | _ => false end.
(** [^,\s] and [^\]\)\s]. *)
Definition re_field (b : byte) : bool := negb (re_comma b) && negb (re_space b).
Definition re_last (b : byte) : bool := negb (re_close b) && negb (re_space b).

(** An item of an expression: one character, x?, x* and the group (x+). *)
Inductive item := Chr (p : byte -> bool) | Opt (p : byte -> bool) | Star (p : byte -> bool) | Group (p : byte -> bool).

(** Try [f n], [f (n-1)], ..., [f lo]. *)
Fixpoint greedy {A} (f : nat -> option A) (n lo : nat) : option A :=
  match f n with
  | Some a => Some a
  | None => match n with O => None | S n' => if Nat.leb lo n' then greedy f n' lo else None end
  end.

(** How many of the first bytes are of class [p]. *)
Fixpoint run (p : byte -> bool) (s : list byte) : nat :=
  match s with b :: s' => if p b then S (run p s') else O | [] => O end.

(** The groups of the first match of the items, which must end at the end of the text. *)
Fixpoint re_match (r : list item) (s : list byte) : option (list (list byte)) :=
  match r with
  | [] => match s with [] => Some [] | _ => None end
  | Chr p :: r => match s with b :: s' => if p b then re_match r s' else None | [] => None end
  | Opt p :: r => greedy (fun n => re_match r (skipn n s)) (Nat.min 1 (run p s)) 0
  | Star p :: r => greedy (fun n => re_match r (skipn n s)) (run p s) 0
  | Group p :: r =>
      match run p s with
      | O => None
      | n => greedy (fun n => option_map (cons (firstn n s)) (re_match r (skipn n s))) n 1
      end
  end.

(** cmd/stldice/stldice.go:33 and cmd/binvox-dice/binvox-dice.go:36 mbbRE. *)
Definition mbb_corner : list item :=
  [Opt re_open; Star re_space; Group re_field; Star re_space; Chr re_comma; Star re_space; Group re_field;
   Star re_space; Chr re_comma; Star re_space; Group re_last; Star re_space; Opt re_close; Star re_space].
Definition mbb_re : list item := Star re_space :: mbb_corner ++ Chr re_dash :: Star re_space :: mbb_corner.

(** cmd/stldice/stldice.go:193-219 parseMBB, cmd/binvox-dice/binvox-dice.go:51-77: [None] is an error. *)
Definition parseMBB {F} (ft : FloatText F) (s : list byte) : option (F * F * F * (F * F * F)) :=
  match re_match mbb_re s with
  | Some [a; b; c; d; e; f] =>
      match parseF ft a, parseF ft b, parseF ft c, parseF ft d, parseF ft e, parseF ft f with
      | Some a, Some b, Some c, Some d, Some e, Some f => Some ((a, b, c), (d, e, f))
      | _, _, _, _, _, _ => None
      end
  | _ => None
  end.
