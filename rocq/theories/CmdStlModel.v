(** Model of cmd/merge-stl, cmd/marching-cubes and cmd/manifold-mesh.

    The directory is that of CmdMergeModel.  Reading and writing STL files is done by the fauxgl library,
    which is not part of the repository: [load] and [save] are arbitrary functions.  Simplifications as in
    CmdMergeModel; a triangle is an element of any type. *)
From Verif Require Import Base BinvoxModel Geom StldiceModel CmdMergeModel StlMerge.
From Coq Require Import ZArith QArith List Bool String Init.Byte.
From stdpp Require Import base list relations.
Import ListNotations.

Section Cmd.
  Context {tri error : Type} (no_file : error) (load : list byte -> error + list tri) (save : list tri -> list byte).

  (** fauxgl.LoadSTL of a name. *)
  Definition load_file (d : dir) (n : list byte) : error + list tri :=
    match d n with None => inl no_file | Some bytes => load bytes end.

  (** cmd/merge-stl/merge-stl.go:21-58 main, with stl/stl.go:12-47 Merge (StlMerge.v) under any schedule: how a
      run can end.  Without any input Merge returns a nil mesh and SaveSTL panics, before or after it has
      created the output file. *)
  Inductive merge_stl (force : bool) (workers : nat) (prefix : list byte) (d : dir) (names : list (list byte)) : dir -> exit -> Prop :=
  | ms_refused : inputs force (prefix ++ txt ".stl") (Glob names prefix (txt ".stl")) = None ->
      merge_stl force workers prefix d names d Fatal
  | ms_error files s e m : inputs force (prefix ++ txt ".stl") (Glob names prefix (txt ".stl")) = Some files ->
      rtc (mstep (load_file d) workers) (minit files) s -> main s = CReturn (Some e, m) ->
      merge_stl force workers prefix d names d Fatal
  | ms_saved files s mesh : inputs force (prefix ++ txt ".stl") (Glob names prefix (txt ".stl")) = Some files ->
      rtc (mstep (load_file d) workers) (minit files) s -> main s = CReturn (None, Some mesh) ->
      merge_stl force workers prefix d names (put_file d (prefix ++ txt ".stl", save mesh)) Finished
  | ms_nil files s d' : inputs force (prefix ++ txt ".stl") (Glob names prefix (txt ".stl")) = Some files ->
      rtc (mstep (load_file d) workers) (minit files) s -> main s = CReturn (None, None) ->
      d' = d \/ d' = put_file d (prefix ++ txt ".stl", []) ->
      merge_stl force workers prefix d names d' Crashed.

  (** cmd/marching-cubes/marching-cubes.go:19-44 and cmd/manifold-mesh/manifold-mesh.go:18-43 main after flag
      parsing; [mesher] is the method called, [None] a panic in it. *)
  Definition mesh_cmd (ft : FloatText Q) (mesher : binvox Q -> option (list tri)) (d : dir) (infile outfile : list byte) : dir * exit :=
    match d infile with
    | None => (d, Fatal)
    | Some bytes =>
        match read ft bytes 0 0 0 0 0 0 with
        | inl _ => (d, Fatal)
        | inr model =>
            match mesher model with
            | None => (d, Crashed)
            | Some mesh => (put_file d (outfile, save mesh), Finished)
            end
        end
    end.
End Cmd.
