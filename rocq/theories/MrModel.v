(** Model of cmd/stldice-mr/stldice-mr.go: the MapReduce version of the slicer.

    Simplifications: float64 is replaced by exact rationals; the encodings of the messages (protocol
    buffers, msgpack, PNG) are not modelled; gleam is taken to run the mapper on every message, to
    hand the reducer every emitted value of a key once, in some order ([arr]), and to run the reducer
    once per key.  A [range] over a Go map visits the entries in an order chosen by a parameter. *)
From Verif Require Import Base BinvoxModel Geom VoxelizeModel VoxcutModel StldiceModel SvxModel.
From Coq Require Import ZArith QArith List Bool String Init.Byte.
From stdpp Require Import base list list_numbers gmap sets.
Import ListNotations.
Open Scope Z_scope.

Section Mr.
  Context (dim nx ny nz : Z).
  (** The normal that gl.NewTriangleForPoints gives a triangle. *)
  Context (nrm : qpt -> qpt -> qpt -> qpt).

  (** cmd/stldice-mr/stldice-mr.go:131-140 and 185-192: the triangles travel as points; the mapper
      makes new ones of them. *)
  Definition remake (mesh : list tri) : list tri :=
    imap (fun i t => Tri (Z.of_nat i) (tv1 t) (tv2 t) (tv3 t) (nrm (tv1 t) (tv2 t) (tv3 t))) mesh.

  (** cmd/stldice-mr/stldice-mr.go:82-169 generateMR: the messages, by the same computations as
      cmd/stl2svx's generateMR ([mr_jobs] in SvxModel.v; the offset of a job is not sent here). *)
  Definition messages (meshes : list (list tri)) : option (list bvInfo) := mr_jobs dim nx ny nz meshes.

  (** cmd/stldice-mr/stldice-mr.go:209-215 keyFunc: key (the Z within the region) and value. *)
  Definition emit (base : bool) (k : key) : list (Z * voxelInfo) :=
    if (kx k <? 0) || (ky k <? 0) || (kz k <? 0) then [] else [(kz k, VoxelInfo (kx k) (ky k) base)].

  (** cmd/stldice-mr/stldice-mr.go:178-223 voxelize; [None]: the mapper's error. *)
  Definition mapper (ord : list key -> list key) (j : bvInfo) : option (list (Z * voxelInfo)) :=
    match Voxelize (j_bv j) (remake (j_mesh j)) with
    | inl _ => None
    | inr b => Some (flat_map (emit (j_base j)) (ord (elements (white b)) ++ ord (map fst (map_to_list (colors b)))))
    end.
  Fixpoint mappers (ord : nat -> list key -> list key) (n : nat) (js : list bvInfo) : option (list (Z * voxelInfo)) :=
    match js with
    | [] => Some []
    | j :: js' => match mapper (ord n) j, mappers ord (S n) js' with Some r, Some r' => Some (r ++ r') | _, _ => None end
    end.

  (** cmd/stldice-mr/stldice-mr.go:63 GroupBy. *)
  Definition group (z : Z) (rows : list (Z * voxelInfo)) : list voxelInfo := map snd (List.filter (fun r => fst r =? z) rows).

  (** cmd/stldice-mr/stldice-mr.go:235-250. *)
  Definition mr_put (m : gmap (Z * Z) bool) (v : voxelInfo) : gmap (Z * Z) bool :=
    let k := (v_X v, v_Y v) in
    match m !! k with
    | Some true => <[k := v_Base v]> m
    | Some false => m
    | None => <[k := v_Base v]> m
    end.
  (** cmd/stldice-mr/stldice-mr.go:252-262. *)
  Definition mr_draw (img : image) (kv : Z * Z * bool) : image := set_pixel img (fst kv) (if snd kv then 255 else 0).
  (** cmd/stldice-mr/stldice-mr.go:232-280 imager. *)
  Definition reducer (pord : list (Z * Z * bool) -> list (Z * Z * bool)) (vs : list voxelInfo) : image :=
    fold_left mr_draw (pord (map_to_list (fold_left mr_put vs ∅))) (black_image dim dim).

  (** cmd/stldice-mr/stldice-mr.go:42-77 main: the image file of slice z, if one is written.
      [None]: log.Fatal or a mapper's error. *)
  Definition mr_slice ord arr pord (meshes : list (list tri)) (z : Z) : option (option image) :=
    match messages meshes with
    | None => None
    | Some js =>
        match mappers ord 0 js with
        | None => None
        | Some rows => Some (match group z rows with [] => None | vs => Some (reducer pord (arr vs)) end)
        end
    end.
End Mr.
