(** Model of the script that cmd/binvox-dice prints, and of running it.

    As in StldiceScriptModel, all of bash that is modelled is: comments, empty lines, words split at blanks, one program after the other.
    The number type and its arithmetic are those of BinvoxDiceModel; %g of a number and %q of the -mbb text are parameters.
    The program binvox (Patrick Min's voxelizer, not in /repo) is a parameter too: [binvox ws stl] is what it makes of the STL file [stl]
    with the words [ws] for -d and -bb, if it succeeds.  It writes to the first of stem.binvox, stem_1.binvox, stem_2.binvox, ... that
    does not exist yet; binvox-dice counts on that (binvox-dice.go:118-122). *)
From Verif Require Import Base BaseLemmas BinvoxModel Geom VoxelizeModel MeshSpec StldiceModel VoxcutModel CmdMergeModel CmdMergeProps CmdStlModel ToMesh StldiceScriptModel BinvoxDiceModel CmdSvx.
From Coq Require Import ZArith QArith List Bool String Init.Byte Permutation.
From stdpp Require Import base list gmap sets fin_sets.
Import ListNotations.
Open Scope Z_scope.

(** fmt.Printf with one argument whose %v is [c]: %[1]v is the argument and %% a percent sign; other verbs are not modelled (None). *)
Fixpoint format1 (f c : list byte) : option (list byte) :=
  match f with
  | [] => Some []
  | x25 :: x5b :: x31 :: x5d :: x76 :: f' => option_map (app c) (format1 f' c)
  | x25 :: x25 :: f' => option_map (cons x25) (format1 f' c)
  | x25 :: _ => None
  | b :: f' => option_map (cons b) (format1 f' c)
  end.

Section Script.
  Context {F : Type} (ar : arith F) (fmtG : F -> list byte).

  (** cmd/binvox-dice/binvox-dice.go:97-101 sFmt. *)
  Definition sFmt (args : list (list byte)) : list byte :=
    txt "voxcut -ostl out%[1]v.stl" ++ concat (map (fun a => txt " " ++ TrimSuffix a (txt ".stl") ++ txt "%[1]v.binvox") args).

  (** cmd/binvox-dice/binvox-dice.go:114-116. *)
  Definition binvox_line (x1 y1 z1 x2 y2 z2 : F) (arg : list byte) : list byte :=
    txt "binvox -pb -d 1024 -bb " ++ fmtG x1 ++ txt " " ++ fmtG y1 ++ txt " " ++ fmtG z1 ++ txt " " ++ fmtG x2 ++ txt " " ++ fmtG y2 ++ txt " " ++ fmtG z2 ++ txt " " ++ arg.

  (** cmd/binvox-dice/binvox-dice.go:115 and 123: the line of a command.  (A "?" stands for text that is not modelled.) *)
  Definition print_command (args : list (list byte)) (c : command F) : list byte :=
    match c with
    | RunBinvox x1 y1 z1 x2 y2 z2 arg => binvox_line x1 y1 z1 x2 y2 z2 arg
    | RunVoxcut suffix => match format1 (sFmt args) suffix with Some l => l | None => txt "?" end
    end.

  (** cmd/binvox-dice/binvox-dice.go:103-128: the lines of all commands; line 113 prints an empty line before each tile, and a tile ends
      with voxcut. *)
  Fixpoint print_commands (args : list (list byte)) (first : bool) (cs : list (command F)) : list (list byte) :=
    match cs with
    | [] => []
    | c :: cs' => (if first then [[]] else []) ++ print_command args c :: print_commands args (match c with RunVoxcut _ => true | _ => false end) cs'
    end.

  (** cmd/binvox-dice/binvox-dice.go:80-82; [mbb] is %q of the -mbb flag. *)
  Definition show_flag (b : bool) : list byte := if b then txt "true" else txt "false".
  Definition dice_header (factor : Z) (mbb : list byte) (subx suby subz : bool) (args : list (list byte)) : list (list byte) :=
    [txt "#!/bin/bash -x"; txt "# Generated with command line:"; txt "# binvox-dice \"; x23 :: x09 :: txt "-factor " ++ show_int factor ++ txt " \";
     x23 :: x09 :: txt "-mbb " ++ mbb ++ txt " \"; x23 :: x09 :: txt "-subx " ++ show_flag subx ++ txt " \"; x23 :: x09 :: txt "-suby " ++ show_flag suby ++ txt " \";
     x23 :: x09 :: txt "-subz " ++ show_flag subz ++ txt " \"; x23 :: x09 :: match args with [] => [] | a :: l => a ++ concat (map (fun a => txt " " ++ a) l) end].

  (** cmd/binvox-dice/binvox-dice.go:39-129 main after parsing the -mbb flag (C66); no output without arguments (47-49). *)
  Definition dice_script (factor : Z) (mbb : list byte) (subx suby subz : bool) (llx lly llz urx ury urz : F) (args : list (list byte)) : option (list (list byte)) :=
    match args with
    | [] => None
    | _ => Some (dice_header factor mbb subx suby subz args
        ++ print_commands args true (dice_commands ar args llx lly llz urx ury urz (cuts factor subx) (cuts factor suby) (cuts factor subz)))
    end.
End Script.

(** ** Running it *)
Section Run.
  Context {error : Type} (no_file : error) (load : list byte -> error + list face) (save : list face -> list byte)
    (NewVoxelMesh : list key -> list face -> Prop) (ft : FloatText Q) (workers : nat) (binvox : list (list byte) -> list byte -> option (list byte)).

  Inductive binvox_run (d : dir) (ws : list (list byte)) (arg : list byte) : dir -> Prop :=
  | binvox_fails : match d arg with Some stl => binvox ws stl = None | None => True end \/ (forall stem, arg <> stem ++ txt ".stl") -> binvox_run d ws arg d
  | binvox_saves stem stl bytes c : arg = stem ++ txt ".stl" -> d arg = Some stl -> binvox ws stl = Some bytes -> 0 <= c ->
      (forall c', 0 <= c' < c -> d (stem ++ cut_suffix c' ++ txt ".binvox") <> None) -> d (stem ++ cut_suffix c ++ txt ".binvox") = None ->
      binvox_run d ws arg (put_file d (stem ++ cut_suffix c ++ txt ".binvox", bytes)).

  Inductive run_dice_line (d : dir) (line : list byte) : dir -> Prop :=
  | run_empty : line = [] -> run_dice_line d line d
  | run_binvox ws arg d' : words line = txt "binvox" :: txt "-pb" :: ws ++ [arg] -> length ws = 9%nat -> binvox_run d ws arg d' -> run_dice_line d line d'
  | run_known d' : run_line no_file load save NewVoxelMesh ft workers d line d' -> run_dice_line d line d'.

  Inductive run_dice : dir -> list (list byte) -> dir -> Prop :=
  | dice_done d : run_dice d [] d
  | dice_next d line lines d1 d2 : run_dice_line d line d1 -> run_dice d1 lines d2 -> run_dice d (line :: lines) d2.
End Run.
