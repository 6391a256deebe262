(** Model of cmd/merge-binvox.

    The directory is a function from names to contents, [names] what reading the directory lists, in any
    order.  filepath.Glob is that of the Go library for a pattern prefix*ext with a prefix without
    metacharacters and without a path separator: the names with that beginning and end, sorted bytewise.
    Simplifications: float64 is replaced by exact rationals; log output and flag parsing are not
    modelled; creating and writing the output file succeed. *)
From Verif Require Import Base BinvoxModel Geom VshellModel VshellCodec StldiceModel.
From Coq Require Import ZArith QArith List Bool String Init.Byte.
From stdpp Require Import base list gmap sets sorting.
Import ListNotations.
Open Scope Z_scope.

(** Go's order of strings: bytewise, a prefix first. *)
Fixpoint name_leb (a b : list byte) : bool :=
  match a, b with
  | [], _ => true
  | _ :: _, [] => false
  | x :: a', y :: b' => if b2z x <? b2z y then true else if b2z x =? b2z y then name_leb a' b' else false
  end.
Definition name_le (a b : list byte) : Prop := name_leb a b = true.
#[global] Instance name_le_dec : RelDecision name_le.
Proof. intros a b. unfold name_le. apply _. Defined.

(** Does a name match prefix*ext? *)
Definition matches (prefix ext n : list byte) : bool :=
  match drop_lit prefix n with
  | None => false
  | Some r => match drop_lit (rev ext) (rev r) with None => false | Some _ => true end
  end.

(** cmd/merge-binvox/merge-binvox.go:29, cmd/merge-stl/merge-stl.go:29 filepath.Glob. *)
Definition Glob (names : list (list byte)) (prefix ext : list byte) : list (list byte) :=
  merge_sort name_le (filter (fun n => matches prefix ext n = true) names).

(** cmd/merge-binvox/merge-binvox.go:33-46, cmd/merge-stl/merge-stl.go:33-46: the files to merge; [None]
    for log.Fatal because the output file is among them and -f is not given. *)
Fixpoint inputs (force : bool) (out : list byte) (files : list (list byte)) : option (list (list byte)) :=
  match files with
  | [] => Some []
  | f :: files =>
      if decide (f = out) then (if force then inputs force out files else None)
      else option_map (cons f) (inputs force out files)
  end.

(** How a run ends. *)
Inductive exit := Finished | Fatal | Crashed.

Section Cmd.
  Context (ft : FloatText Q).

  (** vshell/merge.go:11-33 Merge, with the reading of the files; [es] gives for the i-th file the growth
      policy, the slice capacity and the iteration orders.  [inl] is an error ([Fatal] for the command)
      or a panic. *)
  Fixpoint merge_files (d : dir) (es : nat -> env) (vs : option vshell) (files : list (list byte))
    : exit + option vshell :=
    match files with
    | [] => inr vs
    | f :: files =>
        match d f with
        | None => inl Fatal
        | Some bytes =>
            match read ft bytes 0 0 0 0 0 0 with
            | inl _ => inl Fatal
            | inr bv =>
                match (match vs with
                       | None => vs_New (e_grow (es O)) (e_white (es O)) (e_color (es O)) (e_order (es O)) bv
                       | Some vs => vs_Add (e_grow (es O)) (e_cap (es O)) (e_white (es O)) (e_color (es O)) (e_order (es O)) vs (Some bv)
                       end) with
                | (vs', Done) => merge_files d (fun i => es (S i)) (Some vs') files
                | (_, Failed _) => inl Fatal
                | (_, Panicked) => inl Crashed
                end
            end
        end
    end.

  (** cmd/merge-binvox/merge-binvox.go:21-59 main, with vshell/write.go:14-30 Write: without any input Merge
      returns a nil shell; Write creates the output file and then dereferences nil. *)
  Definition merge_binvox (force : bool) (prefix : list byte) (d : dir) (names : list (list byte)) (es : nat -> env) : dir * exit :=
    let out := prefix ++ txt ".vsh" in
    match inputs force out (Glob names prefix (txt ".binvox")) with
    | None => (d, Fatal)
    | Some files =>
        match merge_files d es None files with
        | inl e => (d, e)
        | inr None => (put_file d (out, []), Crashed)
        | inr (Some vs) => (put_file d (out, swrite_file ft vs 0 0 0 0 0 0), Finished)
        end
    end.
End Cmd.
