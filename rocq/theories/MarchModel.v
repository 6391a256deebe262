(** Model of MarchingCubes, binvox/marching-cubes.go.

    Simplifications: float64 is replaced by exact rationals; of a [gl.Triangle] only the three vertex
    positions are kept (the normals are computed from them); the mesh is its list of triangles;
    the iteration order of the [gridCells] map is a parameter. *)
From Verif Require Import Base BinvoxModel Geom VoxelizeModel MeshSpec MarchTables.
From Coq Require Import ZArith QArith Qabs List Bool.
From stdpp Require Import base list gmap sets fin_sets.
Import ListNotations.
Open Scope Z_scope.

(** binvox/marching-cubes.go:10 iso. *)
Definition iso : Q := 1 # 2.

(** binvox/marching-cubes.go:13-16 gridCell. *)
Record gridCell := GridCell { gcp : list qpt; gcval : list Q }.

Definition qpt0 : qpt := (0%Q, 0%Q, 0%Q).

(** binvox/marching-cubes.go:26-36 keyFunc: the eight grid cells of a voxel. *)
Definition voxel_cells (v : key) : list key :=
  let '(x, y, z) := v in
  [(x, y, z); (x - 1, y, z); (x, y + 1, z); (x - 1, y + 1, z);
   (x, y, z - 1); (x - 1, y, z - 1); (x, y + 1, z - 1); (x - 1, y + 1, z - 1)].

(** binvox/marching-cubes.go:24-42: the voxels visited, white then coloured; the two maps are filled
    by insertions only, so the order of the visits does not matter and [elements] stands for any. *)
Definition visited (b : binvox Q) : list key := elements (white b) ++ elements (dom (colors b)).

Definition voxel_lookup (b : binvox Q) : gmap key Q :=
  foldl (fun m v => <[v := 1%Q]> m) ∅ (visited b).

Definition grid_cells (b : binvox Q) : gset key :=
  foldl (fun s v => foldl (fun s k => {[k]} ∪ s) s (voxel_cells v)) ∅ (visited b).

(** binvox/marching-cubes.go:45-56 voxelToVector. *)
Definition mc_v2v (b : binvox Q) (k : key) (dx dy dz : Z) : qpt :=
  let mmpv := (1 / vpmm b)%Q in
  let x := (inject_Z (kx k) + (1 # 2))%Q in
  let y := (inject_Z (ky k) + (1 # 2))%Q in
  let z := (inject_Z (kz k) + (1 # 2))%Q in
  (((x + inject_Z dx) * mmpv + TX b)%Q, ((y + inject_Z dy) * mmpv + TY b)%Q,
   ((z + inject_Z dz) * mmpv + TZ b)%Q).

(** binvox/marching-cubes.go:154-180 cell; a missing key of the lookup map reads as 0. *)
Definition mc_cell (m : gmap key Q) (v2v : key -> Z -> Z -> Z -> qpt) (k : key) : gridCell :=
  let '(x, y, z) := k in
  let val (k : key) := default 0%Q (m !! k) in
  GridCell
    [v2v k 0 0 0; v2v k 1 0 0; v2v k 1 (-1) 0; v2v k 0 (-1) 0;
     v2v k 0 0 1; v2v k 1 0 1; v2v k 1 (-1) 1; v2v k 0 (-1) 1]
    [val (x, y, z); val (x + 1, y, z); val (x + 1, y - 1, z); val (x, y - 1, z);
     val (x, y, z + 1); val (x + 1, y, z + 1); val (x + 1, y - 1, z + 1); val (x, y - 1, z + 1)].

(** binvox/marching-cubes.go:184-200 vertexInterp. *)
Definition vertexInterp (isolevel : Q) (p1 p2 : qpt) (valp1 valp2 : Q) : qpt :=
  if qlt (Qabs (isolevel - valp1)) epsilon then p1
  else if qlt (Qabs (isolevel - valp2)) epsilon then p2
  else if qlt (Qabs (valp1 - valp2)) epsilon then p1
  else
    let mu := ((isolevel - valp1) / (valp2 - valp1))%Q in
    ((px p1 + mu * (px p2 - px p1))%Q, (py p1 + mu * (py p2 - py p1))%Q, (pz p1 + mu * (pz p2 - pz p1))%Q).

(** binvox/marching-cubes.go:67-91: cubeIndex has bit i set if value i is below iso. *)
Definition cubeIndex (g : gridCell) : Z :=
  let bit i := if qlt (nth i (gcval g) 0%Q) iso then Z.shiftl 1 (Z.of_nat i) else 0 in
  foldl Z.lor 0 (map bit (seq 0 8)).

(** binvox/marching-cubes.go:101-136: the corners of cube edge 0, 1, ..., 11. *)
Definition edge_corners : list (nat * nat) :=
  [(0, 1); (1, 2); (2, 3); (3, 0); (4, 5); (5, 6); (6, 7); (7, 4); (0, 4); (1, 5); (2, 6); (3, 7)]%nat.

(** binvox/marching-cubes.go:98-136 vertlist: vertex of edge [i] if marked, else the zero Vector. *)
Definition vertlist (g : gridCell) : list qpt :=
  let e := nth (Z.to_nat (cubeIndex g)) edgeTable 0 in
  imap (fun i c =>
          if negb (Z.land e (Z.shiftl 1 (Z.of_nat i)) =? 0)
          then vertexInterp iso (nth (fst c) (gcp g) qpt0) (nth (snd c) (gcp g) qpt0)
                 (nth (fst c) (gcval g) 0%Q) (nth (snd c) (gcval g) 0%Q)
          else qpt0) edge_corners.

(** binvox/marching-cubes.go:139-149: the triangle loop; [None] is an index-out-of-range panic. *)
Fixpoint tri_loop {A} (vl : list A) (row : list Z) (fuel i : nat) : option (list (A * A * A)) :=
  match fuel with
  | O => None
  | S fuel' =>
      match nth_error row i with
      | None => None
      | Some r =>
          if r =? -1 then Some []
          else
            match nth_error row (i + 2), nth_error row (i + 1) with
            | Some r2, Some r1 =>
                if (r <? 0) || (r2 <? 0) || (r1 <? 0) then None else
                match nth_error vl (Z.to_nat r), nth_error vl (Z.to_nat r2), nth_error vl (Z.to_nat r1) with
                | Some a, Some b, Some c =>
                    match tri_loop vl row fuel' (i + 3) with
                    | Some ts => Some ((a, b, c) :: ts)
                    | None => None
                    end
                | _, _, _ => None
                end
            | _, _ => None
            end
      end
  end.

(** binvox/marching-cubes.go:66-151 polygonize. *)
Definition polygonize (g : gridCell) : option (list face) :=
  if nth (Z.to_nat (cubeIndex g)) edgeTable 0 =? 0 then Some []
  else tri_loop (vertlist g) (nth (Z.to_nat (cubeIndex g)) triTable []) 17 0.

(** Appending the results of all cells; a panic in one is a panic of the whole. *)
Fixpoint concat_opt {A} (l : list (option (list A))) : option (list A) :=
  match l with
  | [] => Some []
  | None :: _ => None
  | Some x :: l' => match concat_opt l' with Some y => Some (x ++ y) | None => None end
  end.

(** binvox/marching-cubes.go:22-64 MarchingCubes; [order] is the order in which the map iteration at
    line 58 visits the cells. *)
Definition MarchingCubes (b : binvox Q) (order : list key) : option (list face) :=
  concat_opt (map (fun k => polygonize (mc_cell (voxel_lookup b) (mc_v2v b) k)) order).
