(** Model of ManifoldMesh and TriangleLess, binvox/manifold.go.

    Simplifications: float64 is replaced by exact rationals; of a triangle only the vertex positions
    are kept; the iteration orders of the voxel maps and of the cell map are parameters; the log
    output for unhandled patterns is not modelled. *)
From Verif Require Import Base BinvoxModel Geom VoxelizeModel MeshSpec MeshPush MarchModel ManifoldXform ManifoldTables.
From Coq Require Import ZArith QArith List Bool.
From stdpp Require Import base list gmap.
Import ListNotations.
Open Scope Z_scope.

(** binvox/manifold.go:32-41 keyFunc: a missing key reads as 0. *)
Definition or_bit (m : gmap key Z) (k : key) (g : Z) : gmap key Z := <[k := Z.lor (default 0 (m !! k)) g]> m.

Definition key_func (m : gmap key Z) (v : key) : gmap key Z :=
  let '(x, y, z) := v in
  let m := or_bit m (x, y, z) g0 in
  let m := or_bit m (x - 1, y, z) g1 in
  let m := or_bit m (x, y + 1, z) g3 in
  let m := or_bit m (x - 1, y + 1, z) g2 in
  let m := or_bit m (x, y, z - 1) g4 in
  let m := or_bit m (x - 1, y, z - 1) g5 in
  let m := or_bit m (x, y + 1, z - 1) g7 in
  or_bit m (x - 1, y + 1, z - 1) g6.

(** binvox/manifold.go:31-47: [whites] and [cols] are the orders in which the two voxel maps are
    visited. *)
Definition manifold_cells (whites cols : list key) : gmap key Z := foldl key_func ∅ (whites ++ cols).

(** binvox/manifold.go:50-61 voxelToVector; the offsets are in units of dd = 0.5. *)
Definition mf_v2v (b : binvox Q) (k : key) (dx dy dz : Z) : qpt :=
  let mmpv := (1 / vpmm b)%Q in
  let x := (inject_Z (kx k) + 1)%Q in
  let y := inject_Z (ky k) in
  let z := (inject_Z (kz k) + 1)%Q in
  (((x + inject_Z dx * (1 # 2)) * mmpv + TX b)%Q, ((y + inject_Z dy * (1 # 2)) * mmpv + TY b)%Q,
   ((z + inject_Z dz * (1 # 2)) * mmpv + TZ b)%Q).

(** binvox/manifold.go:30-68 ManifoldMesh; [order] is the order in which the map iteration at line 63
    visits the cells and their patterns. *)
Definition ManifoldMesh (b : binvox Q) (order : list (key * Z)) : list face :=
  flat_map (fun '(k, n) => grid2tris k n (mf_v2v b)) order.

(** An execution of ManifoldMesh: some order of the three map iterations. *)
Definition manifold_run (b : binvox Q) (m : list face) : Prop :=
  exists whites cols order,
    Permutation whites (elements (white b)) /\ Permutation cols (elements (dom (colors b))) /\
    Permutation order (map_to_list (manifold_cells whites cols)) /\
    m = ManifoldMesh b order.

(** binvox/manifold.go:541-595 TriangleLess, on the two triangles compared. *)
Definition TriangleLess (s t : face) : bool :=
  let '(a1, a2, a3) := s in let '(b1, b2, b3) := t in
  if qlt (pz a1) (pz b1) then true else
  if qlt (pz b1) (pz a1) then false else
  if qlt (py a1) (py b1) then true else
  if qlt (py b1) (py a1) then false else
  if qlt (px a1) (px b1) then true else
  if qlt (px b1) (px a1) then false else
  if qlt (pz a2) (pz b2) then true else
  if qlt (pz b2) (pz a2) then false else
  if qlt (py a2) (py b2) then true else
  if qlt (py b2) (py a2) then false else
  if qlt (px a2) (px b2) then true else
  if qlt (px b2) (px a2) then false else
  if qlt (pz a3) (pz b3) then true else
  if qlt (pz b3) (pz a3) then false else
  if qlt (py a3) (py b3) then true else
  if qlt (py b3) (py a3) then false else
  qlt (px a3) (px b3).
