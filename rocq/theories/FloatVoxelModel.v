(** The voxelizer, binvox/voxelize.go, with float64 computed as the processor does (IEEE 754 binary64,
    round to nearest even; no fused multiply-add, as on amd64).

    VoxelizeModel.v is the same code over exact rationals; its [plotLine] (integers only) is used here
    too.  Simplifications as there: int is unbounded [Z], except for the conversion from float64;
    [plotFunc] callbacks are the list of their calls; the slice and row goroutines are read
    sequentially here and are in FloatVoxelConc.v, where no schedule gives another result. *)
From Coq Require Import ZArith QArith List Bool.
From stdpp Require Import base list gmap sets fin_sets.
From Flocq Require Import Core IEEE754.BinarySingleNaN.
From Verif Require Import Base BinvoxModel VoxelizeModel BinvoxDiceModel BinvoxDiceFloat MarchModel FloatMeshModel.
Import ListNotations.
Open Scope Z_scope.

#[local] Instance prec_gtv : Prec_gt_0 prec := eq_refl.
#[local] Instance prec_ltv : Prec_lt_emax prec emax := eq_refl.

(** fauxgl [*Triangle]: its address, the vertex positions and V1.Normal. *)
Record ftri := FTri { faddr : Z; fv1 : fvec; fv2 : fvec; fv3 : fvec; fnorm : fvec }.

Notation "x +f y" := (f_add go_float64 x y) (at level 50, left associativity).
Notation "x -f y" := (f_sub go_float64 x y) (at level 50, left associativity).
Notation "x *f y" := (f_mul go_float64 x y) (at level 40, left associativity).
Notation "x /f y" := (f_div go_float64 x y) (at level 40, left associativity).

(** fauxgl Vector.Sub, Add, MulScalar, Dot. *)
Definition v_sub (a b : fvec) : fvec := (fx a -f fx b, fy a -f fy b, fz a -f fz b).
Definition v_add (a b : fvec) : fvec := (fx a +f fx b, fy a +f fy b, fz a +f fz b).
Definition v_scale (a : fvec) (t : float64) : fvec := (fx a *f t, fy a *f t, fz a *f t).
Definition v_dot (a b : fvec) : float64 := fx a *f fx b +f fy a *f fy b +f fz a *f fz b.

(** binvox/voxelize.go:157-172 intersectSegment. *)
Definition f_intersectSegment (v0 v1 : fvec) (z : float64) : option fvec :=
  let u := v_sub v1 v0 in
  let w := v_sub v0 (fi 0, fi 0, z) in
  let d := v_dot (fi 0, fi 0, fi 1) u in
  let n := v_dot (fi 0, fi 0, fi (-1)) w in
  if f_lt (Bopp f_epsilon) d && f_lt d f_epsilon then None
  else
    let t := n /f d in
    if f_lt t (fi 0) || f_lt (fi 1) t then None
    else Some (v_add v0 (v_scale u t)).

(** binvox/voxelize.go:141-155 intersectTriZPlane; the triangle of the pair is the argument. *)
Definition f_intersectTriZPlane (t : ftri) (z : float64) : option (fvec * fvec) :=
  match f_intersectSegment (fv1 t) (fv2 t) z, f_intersectSegment (fv2 t) (fv3 t) z with
  | Some v1, Some v2 => Some (v1, v2)
  | o1, o2 =>
      match o1, o2, f_intersectSegment (fv3 t) (fv1 t) z with
      | Some v1, _, Some v3 => Some (v1, v3)
      | None, Some v2, Some v3 => Some (v2, v3)
      | _, _, _ => None
      end
  end.

(** int(math.Floor(x)), binvox/voxelize.go:193-196.  Go leaves the conversion of NaN, infinities and
    numbers outside int64 open; -2^63 is what amd64 gives. *)
Definition f_floor (x : float64) : Z :=
  match x with
  | B754_zero _ => 0
  | B754_finite s m e _ =>
      let n := if s then Z.neg m else Z.pos m in
      let r := if 0 <=? e then n * 2 ^ e else n / 2 ^ (- e) in
      if (- 2 ^ 63 <=? r) && (r <? 2 ^ 63) then r else - 2 ^ 63
  | _ => - 2 ^ 63
  end.

(** binvox/voxelize.go:193-196: the grid cell of a coordinate. *)
Definition f_gridi (v p o : float64) : Z := f_floor (v *f (p -f o)).

(** binvox/voxelize.go:38-39, 112: the height at which slice [zi] is cut. *)
Definition f_slice_z (b : binvox float64) (zi : Z) : float64 :=
  let dz := fi 1 /f f_voxelsPerMM b in
  TZ b +f (f_half +f fi zi) *f dz.

(** binvox/voxelize.go:192-235 rasterizeShellPair: the points plotted for triangle [t] in slice [zi]. *)
Definition f_pair_points (b : binvox float64) (p : fvec * fvec) : list (Z * Z) :=
  let v := f_voxelsPerMM b in
  plotLine (f_gridi v (fx (fst p)) (TX b)) (f_gridi v (fy (fst p)) (TY b))
           (f_gridi v (fx (snd p)) (TX b)) (f_gridi v (fy (snd p)) (TY b)).

(** binvox/voxelize.go:14-25 setMap and addTri. *)
Notation fsetMap := (gmap key (list ftri)).
Definition ftris_at (s : fsetMap) (k : key) : list ftri := default [] (s !! k).
Definition f_addTri (s : fsetMap) (k : key) (t : ftri) : fsetMap :=
  if existsb (fun t' => faddr t' =? faddr t) (ftris_at s k) then s
  else <[k := ftris_at s k ++ [t]]> s.

(** binvox/voxelize.go:198-205 plotFunc. *)
Definition f_plotFunc (b : binvox float64) (zi : Z) (t : ftri) (st : fsetMap * xMinMaxMap) (p : Z * Z)
  : fsetMap * xMinMaxMap :=
  let '(x, y) := p in
  if (y >=? 0) && (y <? NY b) then (f_addTri (fst st) (x, y, zi) t, mm_update (snd st) x y) else st.

(** binvox/voxelize.go:109-118, 130-138: what voxelizeZ hands to floodFill: the triangles that meet the
    plane, in order, each plotted. *)
Definition f_slice_shell (b : binvox float64) (mesh : list ftri) (zi : Z) : fsetMap * xMinMaxMap :=
  fold_left (fun st t =>
      match f_intersectTriZPlane t (f_slice_z b zi) with
      | Some p => fold_left (f_plotFunc b zi t) (f_pair_points b p) st
      | None => st
      end) mesh (∅, ∅).

(** binvox/voxelize.go:282: the x component of the normal against the direction of travel. *)
Definition f_facing (t : ftri) : float64 := v_dot (fnorm t) (fi (-1), fi 0, fi 0).

(** binvox/voxelize.go:274-294. *)
Fixpoint f_count_tris (ts : list ftri) (seen : list Z) (cin cout : Z) : Z * Z * list Z :=
  match ts with
  | [] => (cin, cout, seen)
  | t :: ts' =>
      if existsb (Z.eqb (faddr t)) seen then f_count_tris ts' seen cin cout
      else
        let d := f_facing t in
        if f_lt f_epsilon d then f_count_tris ts' (faddr t :: seen) (cin + 1) cout
        else if f_lt d (Bopp f_epsilon) then f_count_tris ts' (faddr t :: seen) cin (cout + 1)
        else f_count_tris ts' (faddr t :: seen) cin cout
  end.

(** binvox/voxelize.go:265-300. *)
Fixpoint f_row_loop (n : nat) (nx : Z) (s : fsetMap) (yi zi xi : Z) (inside : bool) (seen : list Z) : list key :=
  match n with
  | O => []
  | S n' =>
      if xi >=? nx then []
      else
        let k := (xi, yi, zi) in
        if (0 <? length (ftris_at s k))%nat then
          let '(cin, cout, seen') := f_count_tris (ftris_at s k) seen 0 0 in
          let inside' := if cin >? cout then true else if cin <? cout then false else inside in
          k :: f_row_loop n' nx s yi zi (xi + 1) inside' seen'
        else if inside && (xi >=? 0) then k :: f_row_loop n' nx s yi zi (xi + 1) inside seen
        else f_row_loop n' nx s yi zi (xi + 1) inside seen
  end.

(** binvox/voxelize.go:260-305 floodFill. *)
Definition f_row_voxels (b : binvox float64) (mesh : list ftri) (zi yi : Z) : list key :=
  let '(s, m) := f_slice_shell b mesh zi in
  match m !! yi with
  | Some (mn, mx) => f_row_loop (Z.to_nat (mx + 1 - mn)) (NX b) s yi zi mn false []
  | None => []
  end.

Definition f_slice_voxels (b : binvox float64) (mesh : list ftri) (zi : Z) : list key :=
  flat_map (f_row_voxels b mesh zi) (map fst (map_to_list (snd (f_slice_shell b mesh zi)))).

Definition f_zero_dim (b : binvox float64) : bool := (NX b =? 0) || (NY b =? 0) || (NZ b =? 0).

(** binvox/voxelize.go:79-105 VoxelizeZ: the voxels, or the error. *)
Definition f_VoxelizeZ (b : binvox float64) (mesh : list ftri) (zi : Z) : vox_error + gset key :=
  if f_zero_dim b then inl EZeroDim else inr (list_to_set (f_slice_voxels b mesh zi)).

(** binvox/voxelize.go:32-77 Voxelize: the voxels left in b.WhiteVoxels, or the error. *)
Definition f_Voxelize (b : binvox float64) (mesh : list ftri) : vox_error + gset key :=
  if f_zero_dim b then inl EZeroDim
  else inr (list_to_set (flat_map (f_slice_voxels b mesh) (seqZ 0 (NZ b)))).
