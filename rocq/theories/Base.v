(** Shared model vocabulary: bytes, text, decimal integers, keys. *)
From Coq Require Import ZArith List Lia Bool Ascii String.
From Coq Require Import Init.Byte.
From stdpp Require Import base list list_numbers gmap sets fin_sets.
Import ListNotations.
Open Scope Z_scope.

(** ** Bytes.  Go [byte]/[uint8]. *)
Notation byte := Init.Byte.byte.

Global Instance byte_eq_dec : EqDecision byte := Byte.byte_eq_dec.

Definition b2z (b : byte) : Z := Z.of_N (Byte.to_N b).

(** Go conversion [byte(z)]: keeps the low 8 bits. *)
Definition z2b (z : Z) : byte :=
  match Byte.of_N (Z.to_N (z mod 256)) with Some b => b | None => x00 end.

(** Text literals. *)
Definition txt (s : string) : list byte := String.list_byte_of_string s.

(** [key]: a voxel location, binvox/binvox.go:40-42 and vshell/vshell.go (type key). *)
Notation key := (Z * Z * Z)%type.
Definition kx (k : key) : Z := fst (fst k).
Definition ky (k : key) : Z := snd (fst k).
Definition kz (k : key) : Z := snd k.

(** ** Decimal text.  Go's [%v] of an int. *)
Definition digit (d : Z) : byte := z2b (48 + d).

Fixpoint dec_digits (fuel : nat) (n : Z) (acc : list byte) : list byte :=
  match fuel with
  | O => acc
  | S fuel' =>
      let acc' := digit (n mod 10) :: acc in
      if n / 10 =? 0 then acc' else dec_digits fuel' (n / 10) acc'
  end.

Definition show_nat (n : Z) : list byte := dec_digits (S (Z.to_nat (Z.log2 n))) n [].

Definition show_int (n : Z) : list byte :=
  if n <? 0 then x2d :: show_nat (- n) else show_nat n.

(** Regular expression class [\d], restricted as in Go RE2 to ASCII digits. *)
Definition is_digit (b : byte) : bool := (48 <=? b2z b) && (b2z b <=? 57).

(** Go RE2 class [\s] = [\t\n\f\r ]; [\S] is its complement. *)
Definition is_space (b : byte) : bool :=
  (b2z b =? 9) || (b2z b =? 10) || (b2z b =? 12) || (b2z b =? 13) || (b2z b =? 32).

Definition max_int : Z := 9223372036854775807.

(** [strconv.Atoi] on a string already known to match [\d+]: range error above 2^63-1. *)
Definition atoi_digits (l : list byte) : option Z :=
  let n := fold_left (fun a b => a * 10 + (b2z b - 48)) l 0 in
  if n <=? max_int then Some n else None.

(** [bufio.Reader.ReadString('\n')]: the line including the newline and the rest; [None] is the EOF
    error when there is no newline left. *)
Fixpoint read_line (l : list byte) : option (list byte * list byte) :=
  match l with
  | [] => None
  | b :: l' =>
      if Byte.eqb b x0a then Some ([b], l')
      else match read_line l' with
           | Some (line, rest) => Some (b :: line, rest)
           | None => None
           end
  end.

(** [span p l]: the longest prefix satisfying [p], and the rest. *)
Fixpoint span (p : byte -> bool) (l : list byte) : list byte * list byte :=
  match l with
  | [] => ([], [])
  | b :: l' => if p b then let '(a, r) := span p l' in (b :: a, r) else ([], l)
  end.

Fixpoint drop_lit (p l : list byte) : option (list byte) :=
  match p, l with
  | [], _ => Some l
  | a :: p', b :: l' => if Byte.eqb a b then drop_lit p' l' else None
  | _ :: _, [] => None
  end.

(** [(c+)] for a byte class [c] whose following regex item cannot match [c]: maximal, non-empty. *)
Definition token (p : byte -> bool) (l : list byte) : option (list byte * list byte) :=
  let '(a, r) := span p l in match a with [] => None | _ => Some (a, r) end.

(** The shape common to dimRE and translateRE, [^prefix(c+) (c+) (c+)\s*$] (binvox/read.go:14-15),
    for a class [c] disjoint from [\s]: each group must stop at a byte outside [c], so the match is
    deterministic. *)
Definition match3 (prefix : list byte) (c : byte -> bool) (line : list byte)
  : option (list byte * list byte * list byte) :=
  match drop_lit prefix line with
  | None => None
  | Some l1 =>
    match token c l1 with
    | Some (a, x20 :: l2) =>
      match token c l2 with
      | Some (b, x20 :: l3) =>
        match token c l3 with
        | Some (d, l4) => if forallb is_space l4 then Some (a, b, d) else None
        | None => None
        end
      | _ => None
      end
    | _ => None
    end
  end.

(** scaleRE, [^scale (\S+)\s*$] (binvox/read.go:16). *)
Definition match1 (prefix : list byte) (c : byte -> bool) (line : list byte) : option (list byte) :=
  match drop_lit prefix line with
  | None => None
  | Some l1 =>
    match token c l1 with
    | Some (a, l2) => if forallb is_space l2 then Some a else None
    | None => None
    end
  end.

Definition not_space (b : byte) : bool := negb (is_space b).

(** ** Floats as text.

    [fmtG] is Go's [%g] formatting of a float64 (shortest representation that parses back) and
    [parseF] is [strconv.ParseFloat(_, 64)].  They are not modelled digit by digit: a value of this
    record is any pair of functions that satisfies the contract documented by package strconv
    (FormatFloat with precision -1: "the minimal number of digits necessary to represent the value
    uniquely", i.e. ParseFloat gives the value back).  The carrier identifies all NaNs. *)
Record FloatText (F : Type) := {
  fmtG : F -> list byte;
  parseF : list byte -> option F;
  parse_fmt : forall x, parseF (fmtG x) = Some x;
  fmt_token : forall x, fmtG x <> [] /\ forallb not_space (fmtG x) = true
}.
Arguments fmtG {F}. Arguments parseF {F}. Arguments parse_fmt {F}. Arguments fmt_token {F}.
