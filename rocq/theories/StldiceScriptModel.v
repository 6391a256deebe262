(** Model of the script that cmd/stldice prints, and of running it.

    The script is bash's: the first line is a comment to it, every other line is split at blanks into the name of a program and
    its arguments, the programs run one after the other, whether they fail or not (there is no -e).  That is all of bash that is
    modelled, so names must not contain blanks or other characters special to it.  fauxgl's STL reader and writer and its
    NewVoxelMesh are parameters, as in CmdStlModel and ToMesh; [NewVoxelMesh l m]: it may return [m] for [l].  Simplified: float64 is replaced by exact rationals. *)
From Verif Require Import Base BaseLemmas BinvoxModel Geom VoxelizeModel MeshSpec StldiceModel VoxcutModel CmdMergeModel CmdMergeProps CmdStlModel ToMesh.
From Verif Require GlobModel.
From Coq Require Import ZArith QArith List Bool String Init.Byte Permutation.
From stdpp Require Import base list gmap sets fin_sets sorting.
Import ListNotations.
Open Scope Z_scope.

(** ** The script *)

(** cmd/stldice/stldice.go:98-102: the keys of the map, sorted. *)
Definition sorted_keys (l : list (list byte)) : list (list byte) := merge_sort name_le (remove_dups l).

(** cmd/stldice/stldice.go:103-106 stlOutPrefix; the names of the arguments are without their .stl. *)
Definition stlOutPrefix (args : list (list byte)) : list byte := match args with [a] => a | _ => txt "out" end.

(** cmd/stldice/stldice.go:107 common. *)
Definition common (dim nx ny nz : Z) : list byte := show_int dim ++ [x2d] ++ show_int nx ++ [x2d] ++ show_int ny ++ [x2d] ++ show_int nz.

(** cmd/stldice/stldice.go:108-114: the line for the suffix [v]. *)
Definition voxcut_line (args : list (list byte)) (dim nx ny nz : Z) (v : list byte) : list byte :=
  let c := common dim nx ny nz in
  txt "voxcut -ostl " ++ stlOutPrefix args ++ [x2d] ++ c ++ v ++ txt ".stl " ++ hd [] args ++ [x2d] ++ c ++ v ++ txt ".binvox"
  ++ concat (map (fun a => [x20] ++ a ++ [x2d] ++ c ++ v ++ txt ".binvox") (tl args)).

(** cmd/stldice/stldice.go:96-117: all lines; [suffixes] are those collected in the map. *)
Definition script (args : list (list byte)) (dim nx ny nz : Z) (suffixes : list (list byte)) : list (list byte) :=
  let pfxs := sorted_keys suffixes in
  [txt "#!/bin/bash -x"] ++ map (voxcut_line args dim nx ny nz) pfxs
  ++ (if (1 <? length pfxs)%nat then [txt "merge-stl -f -prefix " ++ stlOutPrefix args ++ [x2d] ++ common dim nx ny nz] else []).

(** ** Running it *)
Fixpoint split_words (cur line : list byte) : list (list byte) :=
  match line with
  | [] => [cur]
  | c :: line' => if decide (c = x20) then cur :: split_words [] line' else split_words (cur ++ [c]) line'
  end.
Definition words (line : list byte) : list (list byte) := split_words [] line.

Section Run.
  Context {error : Type} (no_file : error) (load : list byte -> error + list face) (save : list face -> list byte)
    (NewVoxelMesh : list key -> list face -> Prop) (ft : FloatText Q) (workers : nat).

  (** cmd/voxcut/voxcut.go:43-126 main with -ostl only: no window, no smoothing, no -manifold. *)
  Inductive voxcut_stl (d : dir) (ostl base : list byte) (cuts : list (list byte)) : dir -> exit -> Prop :=
  | voxcut_fatal : voxcut_main ft 0 0 0 0 0 0 (d base) (map d cuts) = None -> voxcut_stl d ostl base cuts d Fatal
  | voxcut_saved b f whites cols : voxcut_main ft 0 0 0 0 0 0 (d base) (map d cuts) = Some b ->
      Permutation whites (elements (white b)) -> Permutation cols (elements (dom (colors b))) -> NewVoxelMesh (whites ++ cols) (f (whites ++ cols)) ->
      voxcut_stl d ostl base cuts (put_file d (ostl, save (ToMesh f b whites cols))) Finished.

  Inductive run_line (d : dir) (line : list byte) : dir -> Prop :=
  | run_comment rest : line = x23 :: rest -> run_line d line d
  | run_voxcut ostl base cuts d' e : words line = txt "voxcut" :: txt "-ostl" :: ostl :: base :: cuts ->
      voxcut_stl d ostl base cuts d' e -> run_line d line d'
  | run_merge prefix names d' e : words line = [txt "merge-stl"; txt "-f"; txt "-prefix"; prefix] -> listing d names ->
      GlobModel.merge_stl_any no_file load save true workers prefix d names d' e -> run_line d line d'.

  Inductive run_script : dir -> list (list byte) -> dir -> Prop :=
  | run_done d : run_script d [] d
  | run_next d line lines d1 d2 : run_line d line d1 -> run_script d1 lines d2 -> run_script d (line :: lines) d2.
End Run.
