(** Model of cmd/voxcut and cmd/voxcut-dice over a directory, with all three outputs, the flags on the command line and the printed script.

    Simplifications: writes do not fail; -smooth is not given; -manifold is a boolean; of package flag, only "-name value" for the flags
    that voxcut-dice passes; a number on the command line is a decimal without leading zeros (others are None: not modelled).  Of bash:
    comments and one program per line, words split at blanks. *)
From Verif Require Import Base BaseLemmas BinvoxModel Geom VoxelizeModel MeshSpec ManifoldModel VoxcutModel StldiceModel CmdMergeModel CmdMergeProps CmdStlModel ToMesh StldiceScriptModel StldiceScript.
From Coq Require Import ZArith QArith List Bool String Init.Byte Permutation.
From stdpp Require Import base list gmap sets fin_sets.
Import ListNotations.
Open Scope Z_scope.

Record voxcut_flags := Flags { f_ob : list byte; f_os : list byte; f_ov : list byte; f_sx : Z; f_sy : Z; f_sz : Z; f_cx : Z; f_cy : Z; f_cz : Z }.
(** cmd/voxcut/voxcut.go:29-39: the defaults. *)
Definition no_flags : voxcut_flags := Flags [] [] [] 0 0 0 0 0 0.

(** flag.Int: strconv.ParseInt(v, 0, 64) on decimals without leading zeros. *)
Definition flag_int (v : list byte) : option Z :=
  match v with [x30] => Some 0 | x30 :: _ => None | _ => if forallb is_digit v then atoi_digits v else None end.

(** cmd/voxcut/voxcut.go:29-41: package flag on the command line; what is left are the names. *)
Fixpoint parse_voxcut (fl : voxcut_flags) (args : list (list byte)) : option (voxcut_flags * list (list byte)) :=
  match args with
  | (x2d :: name) :: v :: rest =>
      let '(Flags ob os ov sx sy sz cx cy cz) := fl in
      if decide (name = txt "obinvox") then parse_voxcut (Flags v os ov sx sy sz cx cy cz) rest
      else if decide (name = txt "ostl") then parse_voxcut (Flags ob v ov sx sy sz cx cy cz) rest
      else if decide (name = txt "ovox") then parse_voxcut (Flags ob os v sx sy sz cx cy cz) rest
      else match flag_int v with
      | None => None
      | Some n =>
          if decide (name = txt "sx") then parse_voxcut (Flags ob os ov n sy sz cx cy cz) rest
          else if decide (name = txt "sy") then parse_voxcut (Flags ob os ov sx n sz cx cy cz) rest
          else if decide (name = txt "sz") then parse_voxcut (Flags ob os ov sx sy n cx cy cz) rest
          else if decide (name = txt "cx") then parse_voxcut (Flags ob os ov sx sy sz n cy cz) rest
          else if decide (name = txt "cy") then parse_voxcut (Flags ob os ov sx sy sz cx n cz) rest
          else if decide (name = txt "cz") then parse_voxcut (Flags ob os ov sx sy sz cx cy n) rest
          else None
      end
  | [x2d :: _] => None
  | names => Some (fl, names)
  end.

Section Dir.
  Context (save : list face -> list byte) (NewVoxelMesh : list key -> list face -> Prop) (ft : FloatText Q) (manifold : bool).

  (** cmd/voxcut/voxcut.go:81-87 -obinvox. *)
  Definition put_binvox (fl : voxcut_flags) (b : binvox Q) (d : dir) : dir :=
    if decide (f_ob fl = []) then d else put_file d (f_ob fl, write_file ft b (f_sx fl) (f_sy fl) (f_sz fl) (f_cx fl) (f_cy fl) (f_cz fl)).

  (** cmd/voxcut/voxcut.go:89-101 -ovox; the two loops of writeVOX may visit the map in different orders. *)
  Definition put_vox (fl : voxcut_flags) (b : binvox Q) (d d' : dir) : Prop :=
    if decide (f_ov fl = []) then d' = d else
    exists l1 l2, Permutation l1 (elements (white b)) /\ Permutation l2 (elements (white b)) /\ d' = put_file d (f_ov fl, writeVOX l1 l2).

  (** cmd/voxcut/voxcut.go:103-121 -ostl. *)
  Definition voxcut_mesh (b : binvox Q) (m : list face) : Prop := if manifold then manifold_run b m else is_mesh NewVoxelMesh b m.
  Definition put_stl (fl : voxcut_flags) (b : binvox Q) (d d' : dir) : Prop :=
    if decide (f_os fl = []) then d' = d else exists m, voxcut_mesh b m /\ d' = put_file d (f_os fl, save m).

  (** cmd/voxcut/voxcut.go:43-125 main. *)
  Inductive voxcut_prog (d : dir) (args : list (list byte)) : dir -> exit -> Prop :=
  | vp_usage fl names : parse_voxcut no_flags args = Some (fl, names) ->
      names = [] \/ (f_ob fl = [] /\ f_os fl = [] /\ f_ov fl = []) -> voxcut_prog d args d Fatal
  | vp_fatal fl base cuts : parse_voxcut no_flags args = Some (fl, base :: cuts) ->
      voxcut_main ft (f_sx fl) (f_sy fl) (f_sz fl) (f_cx fl) (f_cy fl) (f_cz fl) (d base) (map d cuts) = None -> voxcut_prog d args d Fatal
  | vp_done fl base cuts b d2 d3 : parse_voxcut no_flags args = Some (fl, base :: cuts) -> ~ (f_ob fl = [] /\ f_os fl = [] /\ f_ov fl = []) ->
      voxcut_main ft (f_sx fl) (f_sy fl) (f_sz fl) (f_cx fl) (f_cy fl) (f_cz fl) (d base) (map d cuts) = Some b ->
      put_vox fl b (put_binvox fl b d) d2 -> put_stl fl b d2 d3 -> voxcut_prog d args d3 Finished.

  (** cmd/voxcut-dice/voxcut-dice.go:56-71: the words of the command for tile [t], without "voxcut" itself. *)
  Definition dice_args (size : Z) (pv pb ps : list byte) (names : list (list byte)) (t : key) : list (list byte) :=
    [txt "-sx"; show_int (kx t); txt "-sy"; show_int (ky t); txt "-sz"; show_int (kz t); txt "-cx"; show_int size; txt "-cy"; show_int size; txt "-cz"; show_int size]
    ++ (if decide (pv = []) then [] else [txt "-ovox"; tile_name pv (txt ".vox") size t])
    ++ (if decide (pb = []) then [] else [txt "-obinvox"; tile_name pb (txt ".binvox") size t])
    ++ (if decide (ps = []) then [] else [txt "-ostl"; tile_name ps (txt ".stl") size t])
    ++ names.

  (** cmd/voxcut-dice/voxcut-dice.go:53-84: the loop over the tiles when commands are executed. *)
  Inductive dice_tiles_run (size : Z) (pv pb ps : list byte) (names : list (list byte)) (d : dir) : list key -> dir -> exit -> Prop :=
  | dt_end : dice_tiles_run size pv pb ps names d [] d Finished
  | dt_fatal t ts d' : voxcut_prog d (dice_args size pv pb ps names t) d' Fatal -> dice_tiles_run size pv pb ps names d (t :: ts) d' Fatal
  | dt_next t ts d1 d' e : voxcut_prog d (dice_args size pv pb ps names t) d1 Finished -> dice_tiles_run size pv pb ps names d1 ts d' e ->
      dice_tiles_run size pv pb ps names d (t :: ts) d' e.

  (** cmd/voxcut-dice/voxcut-dice.go:32-55 main up to the loop: the corners of the tiles, or a fatal error (None).  The loops end only
      for a positive size (C41_no_end); [fuel] bounds them. *)
  Definition dice_corners (fuel : nat) (size : Z) (pv pb ps : list byte) (basef : option (list byte)) : option (list key) :=
    if decide (pv = [] /\ pb = [] /\ ps = []) then None
    else match read_file ft basef 0 0 0 1 1 1 with
    | None => None
    | Some b =>
        if (size >? NX b) && (size >? NY b) && (size >? NZ b) then None
        else match for_loop fuel 0 (NX b) size, for_loop fuel 0 (NY b) size, for_loop fuel 0 (NZ b) size with
          | Some xs, Some ys, Some zs => Some (dice_tiles xs ys zs)
          | _, _, _ => None
          end
    end.

  (** cmd/voxcut-dice/voxcut-dice.go:73-76: the script that -n prints; strings.Join(args, " "). *)
  Definition dice_line (args : list (list byte)) : list byte := txt "voxcut" ++ concat (map (fun a => [x20] ++ a) args).
  Definition dice_dry (size : Z) (pv pb ps : list byte) (names : list (list byte)) (ts : list key) : list (list byte) :=
    txt "#!/bin/bash -x" :: map (fun t => dice_line (dice_args size pv pb ps names t)) ts.

  (** bash runs every line, whatever became of the lines before. *)
  Inductive run_dry : dir -> list (list byte) -> dir -> Prop :=
  | dry_done d : run_dry d [] d
  | dry_comment d rest lines d' : run_dry d lines d' -> run_dry d ((x23 :: rest) :: lines) d'
  | dry_voxcut d line args lines d1 e d' : words line = txt "voxcut" :: args -> voxcut_prog d args d1 e -> run_dry d1 lines d' -> run_dry d (line :: lines) d'.
End Dir.
