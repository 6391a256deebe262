(** Model of filepath.Glob for any pattern, and of merge-binvox and merge-stl with any prefix.

    filepath.Glob and filepath.Match are in Go's library, not in /repo; they are modelled by their
    documentation, for a pattern without a path separator on a system where the separator is a slash:
      pattern: { term }
      term: '*' any sequence of non-separators; '?' any single non-separator; '[' [ '^' ] { range } ']' a class, not empty;
            '\' c the character c; c the character c, other than '*', '?', '\', '['
      range: c the character c, other than '\', '-', ']'; '\' c the character c; lo '-' hi
    A malformed pattern is the only error.  Simplification: a character is a byte (file names in ASCII). *)
From Verif Require Import Base BinvoxModel Geom VshellModel VshellCodec StldiceModel CmdMergeModel StlMerge CmdStlModel.
From Coq Require Import ZArith QArith List Bool String Init.Byte.
From stdpp Require Import base list gmap sets sorting relations.
Import ListNotations.
Open Scope Z_scope.

Inductive term := TStar | TAny | TClass (negated : bool) (ranges : list (byte * byte)) | TLit (c : byte).

(** Where in a pattern: outside classes, or in one, with the ranges read so far and a character that may begin a range. *)
Inductive mode := Outside | InClass (negated : bool) (ranges : list (byte * byte)) (first : option byte).
Definition all_ranges (rs : list (byte * byte)) (first : option byte) : list (byte * byte) :=
  match first with None => rs | Some lo => (lo, lo) :: rs end.

(** filepath.Match's reading of a pattern; [None] is ErrBadPattern. *)
Fixpoint parse (m : mode) (p : list byte) : option (list term) :=
  match m, p with
  | Outside, [] => Some []
  | Outside, c :: p' =>
      if Byte.eqb c "*" then option_map (cons TStar) (parse Outside p')
      else if Byte.eqb c "?" then option_map (cons TAny) (parse Outside p')
      else if Byte.eqb c "\" then match p' with [] => None | e :: p'' => option_map (cons (TLit e)) (parse Outside p'') end
      else if Byte.eqb c "[" then
        match p' with
        | [] => None
        | e :: p'' => if Byte.eqb e "^" then parse (InClass true [] None) p'' else parse (InClass false [] None) p'
        end
      else option_map (cons (TLit c)) (parse Outside p')
  | InClass _ _ _, [] => None
  | InClass neg rs first, c :: p' =>
      match first, Byte.eqb c "-" with
      | Some lo, true =>
          match p' with
          | [] => None
          | h :: p'' =>
              if Byte.eqb h "-" || Byte.eqb h "]" then None
              else if Byte.eqb h "\" then match p'' with [] => None | e :: p3 => parse (InClass neg ((lo, e) :: rs) None) p3 end
              else parse (InClass neg ((lo, h) :: rs) None) p''
          end
      | _, _ =>
          if Byte.eqb c "]" then match all_ranges rs first with [] => None | rs' => option_map (cons (TClass neg rs')) (parse Outside p') end
          else if Byte.eqb c "-" then None
          else if Byte.eqb c "\" then match p' with [] => None | e :: p'' => parse (InClass neg (all_ranges rs first) (Some e)) p'' end
          else parse (InClass neg (all_ranges rs first) (Some c)) p'
      end
  end.

Definition in_range (c : byte) (r : byte * byte) : bool := (b2z (fst r) <=? b2z c) && (b2z c <=? b2z (snd r)).
(** Does a term other than * match a character? *)
Definition term_matches (t : term) (c : byte) : bool :=
  match t with
  | TStar => false
  | TAny => negb (Byte.eqb c "/")
  | TClass neg rs => xorb neg (existsb (in_range c) rs)
  | TLit d => Byte.eqb d c
  end.
(** filepath.Match, the pattern being read. *)
Fixpoint match_terms (ts : list term) (n : list byte) : bool :=
  match ts with
  | [] => match n with [] => true | _ => false end
  | TStar :: ts' =>
      (fix skip (n : list byte) : bool :=
        match_terms ts' n || match n with [] => false | c :: n' => negb (Byte.eqb c "/") && skip n' end) n
  | t :: ts' => match n with [] => false | c :: n' => term_matches t c && match_terms ts' n' end
  end.

(** filepath.Glob of a pattern without a slash: the matching names of the working directory, sorted; [None] is an error. *)
Definition filepath_Glob (names : list (list byte)) (pattern : list byte) : option (list (list byte)) :=
  match parse Outside pattern with
  | None => None
  | Some ts => Some (merge_sort name_le (filter (fun n => match_terms ts n = true) names))
  end.

Section Cmd.
  Context (ft : FloatText Q).

  (** cmd/merge-binvox/merge-binvox.go:21-59 main with any prefix. *)
  Definition merge_binvox_any (force : bool) (prefix : list byte) (d : dir) (names : list (list byte)) (es : nat -> env) : dir * exit :=
    let out := prefix ++ txt ".vsh" in
    match filepath_Glob names (prefix ++ txt "*.binvox") with
    | None => (d, Fatal)
    | Some found =>
        match inputs force out found with
        | None => (d, Fatal)
        | Some files =>
            match merge_files ft d es None files with
            | inl e => (d, e)
            | inr None => (put_file d (out, []), Crashed)
            | inr (Some vs) => (put_file d (out, swrite_file ft vs 0 0 0 0 0 0), Finished)
            end
        end
    end.

  Context {tri error : Type} (no_file : error) (load : list byte -> error + list tri) (save : list tri -> list byte).

  (** cmd/merge-stl/merge-stl.go:21-58 main with any prefix (compare [merge_stl] of CmdStlModel.v). *)
  Inductive merge_stl_any (force : bool) (workers : nat) (prefix : list byte) (d : dir) (names : list (list byte)) : dir -> exit -> Prop :=
  | ma_pattern : filepath_Glob names (prefix ++ txt "*.stl") = None ->
      merge_stl_any force workers prefix d names d Fatal
  | ma_refused found : filepath_Glob names (prefix ++ txt "*.stl") = Some found -> inputs force (prefix ++ txt ".stl") found = None ->
      merge_stl_any force workers prefix d names d Fatal
  | ma_error found files s e m : filepath_Glob names (prefix ++ txt "*.stl") = Some found -> inputs force (prefix ++ txt ".stl") found = Some files ->
      rtc (mstep (load_file no_file load d) workers) (minit files) s -> main s = CReturn (Some e, m) ->
      merge_stl_any force workers prefix d names d Fatal
  | ma_saved found files s mesh : filepath_Glob names (prefix ++ txt "*.stl") = Some found -> inputs force (prefix ++ txt ".stl") found = Some files ->
      rtc (mstep (load_file no_file load d) workers) (minit files) s -> main s = CReturn (None, Some mesh) ->
      merge_stl_any force workers prefix d names (put_file d (prefix ++ txt ".stl", save mesh)) Finished
  | ma_nil found files s d' : filepath_Glob names (prefix ++ txt "*.stl") = Some found -> inputs force (prefix ++ txt ".stl") found = Some files ->
      rtc (mstep (load_file no_file load d) workers) (minit files) s -> main s = CReturn (None, None) ->
      d' = d \/ d' = put_file d (prefix ++ txt ".stl", []) ->
      merge_stl_any force workers prefix d names d' Crashed.
End Cmd.
