(** MarchingCubes, binvox/marching-cubes.go, with float64 computed as the processor does (IEEE 754
    binary64, round to nearest even; no fused multiply-add, as on amd64).

    MarchModel.v is the same function over exact rationals.  Simplifications as there: of a
    [gl.Triangle] only the three vertex positions are kept; the iteration order of the [gridCells]
    map is a parameter. *)
From Coq Require Import ZArith QArith List Bool.
From stdpp Require Import base list gmap sets fin_sets.
From Flocq Require Import Core IEEE754.BinarySingleNaN.
From Verif Require Import Base BinvoxModel BinvoxDiceModel BinvoxDiceFloat MarchTables MarchModel.
Import ListNotations.
Open Scope Z_scope.

#[local] Instance prec_gtm : Prec_gt_0 prec := eq_refl.
#[local] Instance prec_ltm : Prec_lt_emax prec emax := eq_refl.

Notation fvec := (float64 * float64 * float64)%type.
Notation fface := (fvec * fvec * fvec)%type.

Definition fi (n : Z) : float64 := f_int go_float64 n.
(** The constants 0.5 (binvox/marching-cubes.go:10 iso, and 46-48) and 1e-9 (binvox/voxelize.go:12):
    quotients of exact integers, so correctly rounded like Go's constants. *)
Definition f_half : float64 := f_div go_float64 (fi 1) (fi 2).
Definition f_epsilon : float64 := f_div go_float64 (fi 1) (fi 1000000000).
(** Go's < on float64 (false on NaN). *)
Definition f_lt (x y : float64) : bool := match Bcompare x y with Some Lt => true | _ => false end.

(** binvox/binvox.go:135-141 VoxelsPerMM: Scale <= 0 gives 1 (a NaN is not <= 0). *)
Definition f_voxelsPerMM (b : binvox float64) : float64 :=
  match Bcompare (Scale b) (fi 0) with
  | Some Lt | Some Eq => fi 1
  | _ => f_div go_float64 (fi (dim b)) (Scale b)
  end.

(** The voxels of a model, without its position and their colours: the part that MarchModel's
    [visited] and [grid_cells] read. *)
Definition shape (b : binvox float64) : binvox Q :=
  BinVOX (NX b) (NY b) (NZ b) 0%Q 0%Q 0%Q 0%Q (White b)
    (option_map (fmap (fun _ => Color 0%Q 0%Q 0%Q 0%Q)) (Colors b)).

(** binvox/marching-cubes.go:24-42: the lookup map; the grid cells are [grid_cells (shape b)]. *)
Definition f_lookup (b : binvox float64) : gmap key float64 :=
  foldl (fun m v => <[v := fi 1]> m) ∅ (visited (shape b)).

(** binvox/marching-cubes.go:45-56 voxelToVector on one axis: ((k + 0.5) + d) * mmpv + t. *)
Definition f_v2v1 (mmpv t : float64) (k d : Z) : float64 :=
  f_add go_float64 (f_mul go_float64 (f_add go_float64 (f_add go_float64 (fi k) f_half) (fi d)) mmpv) t.

(** binvox/marching-cubes.go:44-45 mmpv. *)
Definition f_mm (b : binvox float64) : float64 := f_div go_float64 (fi 1) (f_voxelsPerMM b).

(** binvox/marching-cubes.go:45-56 voxelToVector. *)
Definition f_v2v (b : binvox float64) (k : key) (dx dy dz : Z) : fvec :=
  let mmpv := f_mm b in
  (f_v2v1 mmpv (TX b) (kx k) dx, f_v2v1 mmpv (TY b) (ky k) dy, f_v2v1 mmpv (TZ b) (kz k) dz).

(** binvox/marching-cubes.go:13-16 gridCell. *)
Record fgridCell := FGridCell { fgp : list fvec; fgval : list float64 }.

(** binvox/marching-cubes.go:154-180 cell. *)
Definition f_cell (m : gmap key float64) (v2v : key -> Z -> Z -> Z -> fvec) (k : key) : fgridCell :=
  let '(x, y, z) := k in
  let val (k : key) := default (fi 0) (m !! k) in
  FGridCell
    [v2v k 0 0 0; v2v k 1 0 0; v2v k 1 (-1) 0; v2v k 0 (-1) 0;
     v2v k 0 0 1; v2v k 1 0 1; v2v k 1 (-1) 1; v2v k 0 (-1) 1]
    [val (x, y, z); val (x + 1, y, z); val (x + 1, y - 1, z); val (x, y - 1, z);
     val (x, y, z + 1); val (x + 1, y, z + 1); val (x + 1, y - 1, z + 1); val (x, y - 1, z + 1)].

Definition fx (p : fvec) : float64 := fst (fst p).
Definition fy (p : fvec) : float64 := snd (fst p).
Definition fz (p : fvec) : float64 := snd p.

(** binvox/marching-cubes.go:184-200 vertexInterp. *)
Definition f_vertexInterp (isolevel : float64) (p1 p2 : fvec) (valp1 valp2 : float64) : fvec :=
  if f_lt (Babs (f_sub go_float64 isolevel valp1)) f_epsilon then p1
  else if f_lt (Babs (f_sub go_float64 isolevel valp2)) f_epsilon then p2
  else if f_lt (Babs (f_sub go_float64 valp1 valp2)) f_epsilon then p1
  else
    let mu := f_div go_float64 (f_sub go_float64 isolevel valp1) (f_sub go_float64 valp2 valp1) in
    let c a b := f_add go_float64 a (f_mul go_float64 mu (f_sub go_float64 b a)) in
    (c (fx p1) (fx p2), c (fy p1) (fy p2), c (fz p1) (fz p2)).

Definition fvec0 : fvec := (fi 0, fi 0, fi 0).

(** binvox/marching-cubes.go:67-91. *)
Definition f_cubeIndex (g : fgridCell) : Z :=
  let bit i := if f_lt (nth i (fgval g) (fi 0)) f_half then Z.shiftl 1 (Z.of_nat i) else 0 in
  foldl Z.lor 0 (map bit (seq 0 8)).

(** binvox/marching-cubes.go:98-136 vertlist. *)
Definition f_vertlist (g : fgridCell) : list fvec :=
  let e := nth (Z.to_nat (f_cubeIndex g)) edgeTable 0 in
  imap (fun i c =>
          if negb (Z.land e (Z.shiftl 1 (Z.of_nat i)) =? 0)
          then f_vertexInterp f_half (nth (fst c) (fgp g) fvec0) (nth (snd c) (fgp g) fvec0)
                 (nth (fst c) (fgval g) (fi 0)) (nth (snd c) (fgval g) (fi 0))
          else fvec0) edge_corners.

(** binvox/marching-cubes.go:66-151 polygonize. *)
Definition f_polygonize (g : fgridCell) : option (list fface) :=
  if nth (Z.to_nat (f_cubeIndex g)) edgeTable 0 =? 0 then Some []
  else tri_loop (f_vertlist g) (nth (Z.to_nat (f_cubeIndex g)) triTable []) 17 0.

(** binvox/marching-cubes.go:22-64 MarchingCubes. *)
Definition f_MarchingCubes (b : binvox float64) (order : list key) : option (list fface) :=
  concat_opt (map (fun k => f_polygonize (f_cell (f_lookup b) (f_v2v b) k)) order).
