(** Model of cmd/stldice and cmd/binvox-dice.

    Simplifications: float64 is replaced by exact rationals; log output, -smooth and flag parsing are
    not modelled; the directory is a function from names to contents; all writes succeed (an
    interrupted run is described in StldiceProps.v). *)
From Verif Require Import Base BinvoxModel Geom VoxelizeModel VoxcutModel.
From Coq Require Import ZArith QArith Qround List Bool String Init.Byte.
From stdpp Require Import base list list_numbers gmap sets.
Import ListNotations.
Open Scope Z_scope.

(** fauxgl's Mesh.BoundingBox (not in /repo): the minima and maxima of all vertices; the zero box for
    an empty mesh. *)
Definition qmin2 (a b : Q) : Q := if qlt b a then b else a.
Definition qmax2 (a b : Q) : Q := if qlt a b then b else a.
Definition box_add (bx : qpt * qpt) (p : qpt) : qpt * qpt :=
  let '(mn, mx) := bx in
  ((qmin2 (px mn) (px p), qmin2 (py mn) (py p), qmin2 (pz mn) (pz p)),
   (qmax2 (px mx) (px p), qmax2 (py mx) (py p), qmax2 (pz mx) (pz p))).
Definition bounding_box (mesh : list tri) : qpt * qpt :=
  match mesh with
  | [] => ((0, 0, 0), (0, 0, 0))%Q
  | t :: _ => fold_left (fun bx t => box_add (box_add (box_add bx (tv1 t)) (tv2 t)) (tv3 t)) mesh (tv1 t, tv1 t)
  end.

(** mbb.Size() of fauxgl. *)
Definition size_x (bx : qpt * qpt) : Q := (px (snd bx) - px (fst bx))%Q.
Definition size_y (bx : qpt * qpt) : Q := (py (snd bx) - py (fst bx))%Q.
Definition size_z (bx : qpt * qpt) : Q := (pz (snd bx) - pz (fst bx))%Q.

(** cmd/stldice/stldice.go:78-84 scale. *)
Definition mbb_scale (bx : qpt * qpt) : Q :=
  let s := size_x bx in
  let s := if qlt s (size_y bx) then size_y bx else s in
  if qlt s (size_z bx) then size_z bx else s.

(** cmd/stldice/stldice.go:126-127. *)
Definition dice_vpmm (scale : Q) (dim : Z) : Q := (inject_Z dim / scale)%Q.
Definition dice_mmpv (scale : Q) (dim : Z) : Q := (1 / dice_vpmm scale dim)%Q.

(** cmd/stldice/stldice.go:131-133: the voxels needed along an axis of the given extent. *)
Definition model_dim (scale : Q) (dim : Z) (extent : Q) : Z := Qceiling (extent * dice_vpmm scale dim).

(** cmd/stldice/stldice.go:137-139: Go's division truncates. *)
Definition region_dim (D n : Z) : Z := Z.quot D n.

(** cmd/stldice/stldice.go:144-152,156-172: the region of one tile. *)
Definition region (mn : qpt) (mmpv : Q) (dx dy dz : Z) (t : key) : binvox Q :=
  let m := dx in
  let m := if dy >? m then dy else m in
  let m := if dz >? m then dz else m in
  BinVOX dx dy dz
    (px mn + inject_Z (kx t * dx) * mmpv)%Q (py mn + inject_Z (ky t * dy) * mmpv)%Q (pz mn + inject_Z (kz t * dz) * mmpv)%Q
    (inject_Z m * mmpv)%Q None None.

(** fmt's %02d of a non-negative int. *)
Definition pad2 (n : Z) : list byte := repeat x30 (2 - length (show_nat n)) ++ show_nat n.

(** cmd/stldice/stldice.go:160,185: the part of the name added to outPrefix. *)
Definition suffix_of (t : key) : list byte := [x2d] ++ pad2 (kx t) ++ [x2d] ++ pad2 (ky t) ++ [x2d] ++ pad2 (kz t).

(** cmd/stldice/stldice.go:160-161 outFile. *)
Definition out_file (prefix : list byte) (t : key) : list byte := prefix ++ suffix_of t ++ txt ".binvox".

(** The directory. *)
Notation dir := (list byte -> option (list byte)).
Definition put_file (d : dir) (w : list byte * list byte) : dir :=
  fun name => if decide (name = fst w) then Some (snd w) else d name.
Definition put_files (d : dir) (ws : list (list byte * list byte)) : dir := fold_left put_file ws d.

Section Dice.
  Context (ft : FloatText Q).

  (** cmd/stldice/stldice.go:173-184: what is written for a region: nothing if it is empty. *)
  Definition region_file (b : binvox Q) (mesh : list tri) : vox_error + option (list byte) :=
    match Voxelize b mesh with
    | inl e => inl e
    | inr b' => inr (if decide (size (white b') = 0%nat) then None else Some (write_file ft b' 0 0 0 0 0 0))
    end.

  (** cmd/stldice/stldice.go:155-189: the loop over the tiles: the files written, in order, and the
      suffixes returned ([None]: an error). *)
  Fixpoint dice_loop (d : dir) (prefix : list byte) (reg : key -> binvox Q) (mesh : list tri) (ts : list key)
    : list (list byte * list byte) * option (list (list byte)) :=
    match ts with
    | [] => ([], Some [])
    | t :: ts' =>
        match d (out_file prefix t) with
        | Some _ => dice_loop d prefix reg mesh ts'
        | None =>
            match region_file (reg t) mesh with
            | inl _ => ([], None)
            | inr None => dice_loop d prefix reg mesh ts'
            | inr (Some bytes) =>
                let w := (out_file prefix t, bytes) in
                let '(ws, r) := dice_loop (put_file d w) prefix reg mesh ts' in
                (w :: ws, match r with None => None | Some l => Some (suffix_of t :: l) end)
            end
        end
    end.

  (** cmd/stldice/stldice.go:125-190 diceMesh. *)
  Definition diceMesh (d : dir) (mesh : list tri) (bx : qpt * qpt) (scale : Q) (dim nx ny nz : Z) (prefix : list byte)
    : list (list byte * list byte) * option (list (list byte)) :=
    let dx := region_dim (model_dim scale dim (size_x bx)) nx in
    let dy := region_dim (model_dim scale dim (size_y bx)) ny in
    let dz := region_dim (model_dim scale dim (size_z bx)) nz in
    if (dx =? 0) || (dy =? 0) || (dz =? 0) then ([], None)
    else dice_loop d prefix (region (fst bx) (dice_mmpv scale dim) dx dy dz) mesh
           (dice_tiles (seqZ 0 nx) (seqZ 0 ny) (seqZ 0 nz)).

  (** cmd/stldice/stldice.go:86 outPrefix, [arg] without its .stl. *)
  Definition out_prefix (arg : list byte) (dim nx ny nz : Z) : list byte :=
    arg ++ [x2d] ++ show_int dim ++ [x2d] ++ show_int nx ++ [x2d] ++ show_int ny ++ [x2d] ++ show_int nz.

  (** cmd/stldice/stldice.go:61-94: the loop over the arguments, each with its trimmed name and its
      mesh ([None]: it cannot be loaded): files written in order, and the suffixes collected
      ([None]: log.Fatal). *)
  Fixpoint main_loop (d : dir) (bx : option (qpt * qpt)) (dim nx ny nz : Z) (args : list (list byte * option (list tri)))
    : list (list byte * list byte) * option (list (list byte)) :=
    match args with
    | [] => ([], Some [])
    | (name, None) :: _ => ([], None)
    | (name, Some mesh) :: args' =>
        let bx' := match bx with Some b => b | None => bounding_box mesh end in
        match diceMesh d mesh bx' (mbb_scale bx') dim nx ny nz (out_prefix name dim nx ny nz) with
        | (ws, None) => (ws, None)
        | (ws, Some l) =>
            let '(ws', r) := main_loop (put_files d ws) (Some bx') dim nx ny nz args' in
            (ws ++ ws', match r with None => None | Some l' => Some (l ++ l') end)
        end
    end.

  (** cmd/stldice/stldice.go:47-94 main up to the printing of the commands; one voxcut command is
      printed per distinct suffix (lines 98-114).  The remainders of line 47 are taken for nonzero n. *)
  Definition stldice_main (d : dir) (bx : option (qpt * qpt)) (dim nx ny nz : Z) (args : list (list byte * option (list tri)))
    : list (list byte * list byte) * option (list (list byte)) :=
    if negb (Z.rem dim nx =? 0) || negb (Z.rem dim ny =? 0) || negb (Z.rem dim nz =? 0) then ([], None)
    else main_loop d bx dim nx ny nz args.
End Dice.
