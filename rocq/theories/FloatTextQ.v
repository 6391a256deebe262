(** A concrete [FloatText]: rationals printed as "num/den".  It shows that the contract assumed of
    Go's [%g]/[ParseFloat] is satisfiable and lets examples be computed. *)
From Verif Require Import Base BaseLemmas.
From Coq Require Import ZArith QArith List Lia Bool Init.Byte.
From stdpp Require Import base list.
Import ListNotations.
Open Scope Z_scope.

Definition fmtQ (q : Q) : list byte := show_int (Qnum q) ++ [x2f] ++ show_nat (Zpos (Qden q)).

Definition not_slash (b : byte) : bool := negb (Byte.eqb b x2f).

Definition parse_int (l : list byte) : Z :=
  match l with x2d :: l' => - undec 0 l' | _ => undec 0 l end.

Definition parseQ (l : list byte) : option Q :=
  match span not_slash l with
  | (a, x2f :: r) => Some (Qmake (parse_int a) (Z.to_pos (undec 0 r)))
  | _ => None
  end.

Lemma digits_not_slash l : forallb is_digit l = true -> forallb not_slash l = true.
Proof.
  rewrite !forallb_forall. intros H b Hb. apply H in Hb. unfold not_slash.
  destruct (Byte.eqb b x2f) eqn:E; [|reflexivity]. apply byte_eqb_eq in E as ->. discriminate.
Qed.

Lemma parse_show_int n : parse_int (show_int n) = n.
Proof.
  unfold show_int. destruct (Z.ltb_spec n 0).
  - cbn [parse_int]. rewrite show_nat_undec by lia. lia.
  - unfold parse_int. pose proof (show_nat_digits n) as Hd. specialize (Hd ltac:(lia)).
    pose proof (show_nat_undec n ltac:(lia)) as Hu.
    destruct (show_nat n) as [|[] l]; try exact Hu. discriminate.
Qed.

Lemma show_int_not_slash n : forallb not_slash (show_int n) = true.
Proof.
  unfold show_int. destruct (Z.ltb_spec n 0).
  - cbn [forallb]. rewrite digits_not_slash by (apply show_nat_digits; lia). reflexivity.
  - apply digits_not_slash, show_nat_digits. lia.
Qed.

Lemma digits_not_space l : forallb is_digit l = true -> forallb not_space l = true.
Proof.
  rewrite !forallb_forall. intros H b Hb. apply H in Hb. revert Hb. clear.
  unfold is_digit, not_space, is_space. destruct b; (reflexivity || discriminate).
Qed.

Lemma show_int_not_space n : forallb not_space (show_int n) = true.
Proof.
  unfold show_int. destruct (Z.ltb_spec n 0).
  - cbn [forallb]. rewrite digits_not_space by (apply show_nat_digits; lia). reflexivity.
  - apply digits_not_space, show_nat_digits. lia.
Qed.

Program Definition qtext : FloatText Q := {| fmtG := fmtQ; parseF := parseQ |}.
Next Obligation.
  intros [n d]. unfold parseQ, fmtQ. cbn [Qnum Qden].
  rewrite span_app.
  - cbn [app]. rewrite parse_show_int, show_nat_undec by lia. reflexivity.
  - apply show_int_not_slash.
  - intros b [= <-]. reflexivity.
Qed.
Next Obligation.
  intros [n d]. unfold fmtQ. cbn [Qnum Qden]. split.
  - destruct (show_int n); discriminate.
  - rewrite !forallb_app, show_int_not_space, (digits_not_space (show_nat (Z.pos d))); [reflexivity|].
    apply show_nat_digits. lia.
Qed.
