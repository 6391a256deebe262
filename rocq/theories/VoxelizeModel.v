(** Model of the voxelizer, binvox/voxelize.go.

    Simplifications, for the whole file: float64 is replaced by exact rationals [Q] and int by
    unbounded [Z] (no rounding, no overflow, no NaN/Inf); [plotFunc] callbacks are represented by the
    list of their calls in order; log output is not modelled. *)
From Verif Require Import Base BinvoxModel Geom ForkJoin.
From Coq Require Import ZArith QArith Qround List Lia Bool.
From stdpp Require Import base list gmap.
Import ListNotations.
Open Scope Z_scope.

(** fauxgl [*Triangle]: a pointer [taddr] and the fields the voxelizer reads: the three vertex
    positions and V1.Normal.  Two triangles are "the same" for the code iff the pointers are equal. *)
Record tri := Tri { taddr : Z; tv1 : qpt; tv2 : qpt; tv3 : qpt; tnorm : qpt }.

Definition px (p : qpt) : Q := fst (fst p).
Definition py (p : qpt) : Q := snd (fst p).
Definition pz (p : qpt) : Q := snd p.

(** binvox/voxelize.go:12 epsilon. *)
Definition epsilon : Q := 1 # 1000000000.

Definition qlt (a b : Q) : bool := negb (Qle_bool b a).

(** binvox/voxelize.go:157-172 intersectSegment. *)
Definition intersectSegment (v0 v1 : qpt) (z : Q) : option qpt :=
  let u := ((px v1 - px v0)%Q, (py v1 - py v0)%Q, (pz v1 - pz v0)%Q) in
  let w := ((px v0 - 0)%Q, (py v0 - 0)%Q, (pz v0 - z)%Q) in
  let d := (0 * px u + 0 * py u + 1 * pz u)%Q in
  let n := (0 * px w + 0 * py w + (-1) * pz w)%Q in
  if qlt (- epsilon) d && qlt d epsilon then None
  else
    let t := (n / d)%Q in
    if qlt t 0 || qlt 1 t then None
    else Some ((px v0 + px u * t)%Q, (py v0 + py u * t)%Q, (pz v0 + pz u * t)%Q).

(** binvox/voxelize.go:141-155 intersectTriZPlane. *)
Definition intersectTriZPlane (t : tri) (z : Q) : option (qpt * qpt * tri) :=
  match intersectSegment (tv1 t) (tv2 t) z, intersectSegment (tv2 t) (tv3 t) z with
  | Some v1, Some v2 => Some (v1, v2, t)
  | o1, o2 =>
      match o1, o2, intersectSegment (tv3 t) (tv1 t) z with
      | Some v1, _, Some v3 => Some (v1, v3, t)
      | None, Some v2, Some v3 => Some (v2, v3, t)
      | _, _, _ => None
      end
  end.

(** binvox/voxelize.go:130-138 intersectZPlane. *)
Fixpoint intersectZPlane (mesh : list tri) (z : Q) : list (qpt * qpt * tri) :=
  match mesh with
  | [] => []
  | t :: mesh' =>
      match intersectTriZPlane t z with
      | Some p => p :: intersectZPlane mesh' z
      | None => intersectZPlane mesh' z
      end
  end.

(** binvox/voxelize.go:181-189: the loop of firstOctantBressenham, [n] iterations left. *)
Fixpoint bres_loop (n : nat) (x y eps dx dy : Z) : list (Z * Z) :=
  match n with
  | O => []
  | S n' =>
      let eps := eps + dy in
      (x, y) :: (if 2 * eps >=? dx then bres_loop n' (x + 1) (y + 1) (eps - dx) dx dy
                 else bres_loop n' (x + 1) y eps dx dy)
  end.

(** binvox/voxelize.go:175-189 firstOctantBressenham: the points it plots, in order. *)
Definition firstOctantBressenham (x1 y1 x2 y2 : Z) : list (Z * Z) :=
  bres_loop (Z.to_nat (x2 + 1 - x1)) x1 y1 0 (x2 - x1) (y2 - y1).

(** binvox/voxelize.go:208-235: the octant switch of rasterizeShellPair; the (x,y) calls of plotFunc. *)
Definition plotLine (x1 y1 x2 y2 : Z) : list (Z * Z) :=
  let dy := y2 - y1 in
  let dx := x2 - x1 in
  if (dx >=? 0) && (dy >=? 0) && (dx >=? dy) then firstOctantBressenham x1 y1 x2 y2
  else if (dx >=? 0) && (dy >=? 0) then map (fun '(x, y) => (y, x)) (firstOctantBressenham y1 x1 y2 x2)
  else if (dx <? 0) && (dy >=? 0) && (dy >? - dx) then
    map (fun '(x, y) => (- y, x)) (firstOctantBressenham y1 (- x1) y2 (- x2))
  else if (dx <? 0) && (dy >=? 0) then
    map (fun '(x, y) => (- x, y)) (firstOctantBressenham (- x1) y1 (- x2) y2)
  else if (dx <? 0) && (dy <? 0) && (- dx >=? - dy) then
    map (fun '(x, y) => (- x, - y)) (firstOctantBressenham (- x1) (- y1) (- x2) (- y2))
  else if (dx <? 0) && (dy <? 0) then
    map (fun '(x, y) => (- y, - x)) (firstOctantBressenham (- y1) (- x1) (- y2) (- x2))
  else if (dx >=? 0) && (dy <? 0) && (- dy >? dx) then
    map (fun '(x, y) => (y, - x)) (firstOctantBressenham (- y1) x1 (- y2) x2)
  else map (fun '(x, y) => (x, - y)) (firstOctantBressenham x1 (- y1) x2 (- y2)).

(** binvox/voxelize.go:14-25 setMap and addTri. *)
Notation setMap := (gmap key (list tri)).
Definition tris_at (s : setMap) (k : key) : list tri := default [] (s !! k).
Definition addTri (s : setMap) (k : key) (t : tri) : setMap :=
  if existsb (fun t' => taddr t' =? taddr t) (tris_at s k) then s
  else <[k := tris_at s k ++ [t]]> s.

(** binvox/voxelize.go:238-257 xMinMaxMap and update. *)
Notation xMinMaxMap := (gmap Z (Z * Z)).
Definition mm_update (m : xMinMaxMap) (xi yi : Z) : xMinMaxMap :=
  match m !! yi with
  | Some (mn, mx) => <[yi := (if xi <? mn then xi else mn, if xi >? mx then xi else mx)]> m
  | None => <[yi := (xi, xi)]> m
  end.

(** binvox/voxelize.go:198-205 plotFunc. *)
Definition plotFunc (b : binvox Q) (zi : Z) (t : tri) (st : setMap * xMinMaxMap) (p : Z * Z)
  : setMap * xMinMaxMap :=
  let '(x, y) := p in
  if (y >=? 0) && (y <? NY b) then (addTri (fst st) (x, y, zi) t, mm_update (snd st) x y) else st.

(** binvox/voxelize.go:193-196: the grid cell of a point. *)
Definition gridi (v p o : Q) : Z := Qfloor (v * (p - o)).

(** binvox/voxelize.go:192-236 rasterizeShellPair. *)
Definition pair_points (b : binvox Q) (p : qpt * qpt * tri) : list (Z * Z) :=
  let '(v1, v2, _) := p in
  plotLine (gridi (vpmm b) (px v1) (TX b)) (gridi (vpmm b) (py v1) (TY b))
           (gridi (vpmm b) (px v2) (TX b)) (gridi (vpmm b) (py v2) (TY b)).

Definition rasterizeShellPair (b : binvox Q) (zi : Z) (st : setMap * xMinMaxMap) (p : qpt * qpt * tri)
  : setMap * xMinMaxMap :=
  fold_left (plotFunc b zi (snd p)) (pair_points b p) st.

(** binvox/voxelize.go:274-294: the triangles of one shell voxel; returns the counts of entering and
    leaving triangles not seen before in this row, and the updated set of seen triangles. *)
Fixpoint count_tris (ts : list tri) (seen : list Z) (cin cout : Z) : Z * Z * list Z :=
  match ts with
  | [] => (cin, cout, seen)
  | t :: ts' =>
      if existsb (Z.eqb (taddr t)) seen then count_tris ts' seen cin cout
      else
        let d := (px (tnorm t) * (-1) + py (tnorm t) * 0 + pz (tnorm t) * 0)%Q in
        if qlt epsilon d then count_tris ts' (taddr t :: seen) (cin + 1) cout
        else if qlt d (- epsilon) then count_tris ts' (taddr t :: seen) cin (cout + 1)
        else count_tris ts' (taddr t :: seen) cin cout
  end.

(** binvox/voxelize.go:265-300: the loop over one row; the arguments of the setVoxelFunc calls. *)
Fixpoint row_loop (n : nat) (nx : Z) (s : setMap) (yi zi xi : Z) (inside : bool) (seen : list Z) : list key :=
  match n with
  | O => []
  | S n' =>
      if xi >=? nx then []
      else
        let k := (xi, yi, zi) in
        if (0 <? length (tris_at s k))%nat then
          let '(cin, cout, seen') := count_tris (tris_at s k) seen 0 0 in
          let inside' := if cin >? cout then true else if cin <? cout then false else inside in
          k :: row_loop n' nx s yi zi (xi + 1) inside' seen'
        else if inside && (xi >=? 0) then k :: row_loop n' nx s yi zi (xi + 1) inside seen
        else row_loop n' nx s yi zi (xi + 1) inside seen
  end.

(** One row goroutine of floodFill, binvox/voxelize.go:264-302. *)
Definition fill_row (b : binvox Q) (zi : Z) (s : setMap) (yi mn mx : Z) : list key :=
  row_loop (Z.to_nat (mx + 1 - mn)) (NX b) s yi zi mn false [].

(** binvox/voxelize.go:109-118: what voxelizeZ hands to floodFill. *)
Definition slice_shell (b : binvox Q) (mesh : list tri) (zi : Z) : setMap * xMinMaxMap :=
  let dz := (1 / vpmm b)%Q in
  let z := (TZ b + ((1 # 2) + inject_Z zi) * dz)%Q in
  fold_left (rasterizeShellPair b zi) (intersectZPlane mesh z) (∅, ∅).

(** The voxels of one row, and of one slice (floodFill, binvox/voxelize.go:260-305, read sequentially). *)
Definition row_voxels (b : binvox Q) (mesh : list tri) (zi yi : Z) : list key :=
  let '(s, m) := slice_shell b mesh zi in
  match m !! yi with Some (mn, mx) => fill_row b zi s yi mn mx | None => [] end.

Definition slice_rows (b : binvox Q) (mesh : list tri) (zi : Z) : list Z :=
  map fst (map_to_list (snd (slice_shell b mesh zi))).

Definition slice_voxels (b : binvox Q) (mesh : list tri) (zi : Z) : list key :=
  flat_map (row_voxels b mesh zi) (slice_rows b mesh zi).

Inductive vox_error := EZeroDim.

Definition with_white (b : binvox Q) (v : gset key) : binvox Q :=
  BinVOX (NX b) (NY b) (NZ b) (TX b) (TY b) (TZ b) (Scale b) (Some v) (Colors b).

(** binvox/voxelize.go:79-105 VoxelizeZ, sequential reading (see [vox_code] for the goroutines). *)
Definition zero_dim (b : binvox Q) : bool := (NX b =? 0) || (NY b =? 0) || (NZ b =? 0).

Definition VoxelizeZ (b : binvox Q) (mesh : list tri) (zi : Z) : vox_error + binvox Q :=
  if zero_dim b then inl EZeroDim
  else inr (with_white b (list_to_set (slice_voxels b mesh zi))).

(** binvox/voxelize.go:32-77 Voxelize, sequential reading. *)
Definition Voxelize (b : binvox Q) (mesh : list tri) : vox_error + binvox Q :=
  if zero_dim b then inl EZeroDim
  else inr (with_white b (list_to_set (flat_map (slice_voxels b mesh) (seqZ 0 (NZ b))))).

(** ** The goroutines.

    Thread names: the caller of Voxelize, one goroutine per slice, one per row of a slice. *)
Inductive vtid := TMain | TSlice (zi : Z) | TRow (zi yi : Z).
Global Instance vtid_eq_dec : EqDecision vtid.
Proof. solve_decision. Defined.

(** [rows zi] is the order in which slice [zi] ranges over its xMinMaxMap (binvox/voxelize.go:262):
    any order of the map's keys. *)
Definition vox_code (b : binvox Q) (mesh : list tri) (rows : Z -> list Z) (t : vtid)
  : list (@act vtid key) :=
  match t with
  | TMain =>                                                     (* binvox/voxelize.go:52-73 *)
      flat_map (fun zi => [AAdd TMain; ASpawn (TSlice zi)]) (seqZ 0 (NZ b)) ++ [AWait TMain; ARead]
  | TSlice zi =>                                                 (* binvox/voxelize.go:55-69, 261-304 *)
      flat_map (fun yi => [AAdd t; ASpawn (TRow zi yi)]) (rows zi) ++ [AWait t; ADone TMain]
  | TRow zi yi =>                                                (* binvox/voxelize.go:264-302, 45-49 *)
      flat_map (fun k => [ALock; APut k; AUnlock]) (row_voxels b mesh zi yi) ++ [ADone (TSlice zi)]
  end.
