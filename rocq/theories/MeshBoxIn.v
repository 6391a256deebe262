(** C78: which points of space the surface of a voxelized box encloses. *)
From Verif Require Import Base BaseLemmas BinvoxModel BinvoxSpec Geom VoxelizeModel VoxelizeSpec VoxelizeBox MeshSpec MeshCells MeshInside
  ManifoldModel ManifoldProofs ManifoldProps VoxelizeProps MeshNear MeshSolid MeshBox.
From Coq Require Import ZArith QArith Qabs List Lia Lqa Bool.
From stdpp Require Import base list gmap sets fin_sets.
Import ListNotations.
Open Scope Z_scope.

(** In voxels. *)
Lemma near_coord b w d : (0 < vpmm b)%Q -> let p := near b w d in
  (vpmm b * (px p - TX b) == inject_Z (kx w) + (1 # 2) + px d /\ vpmm b * (py p - TY b) == inject_Z (ky w) + (1 # 2) + py d /\
   vpmm b * (pz p - TZ b) == inject_Z (kz w) + (1 # 2) + pz d)%Q.
Proof.
  intros Hv p. destruct d as [[d1 d2] d3]. unfold p, near, px, py, pz. cbn [fst snd].
  set (n := vpmm b) in *. assert (N : ~ (n == 0)%Q) by lra. repeat split; field; exact N.
Qed.

(** Every point of the box that is half a voxel from its bottom and its top is enclosed by the mesh, and no point is that is
    a voxel away from the box in x or y or half a voxel in z. *)
Theorem C78_encloses b x0 y0 z0 x1 y1 z1 b' m w d : zero_dim b = false -> (0 < vpmm b)%Q -> colors b = ∅ ->
  (x0 <= x1)%Q -> (y0 <= y1)%Q -> (z0 + epsilon <= z1)%Q ->
  (TX b <= x0)%Q -> (TY b <= y0)%Q -> (TZ b <= z0)%Q ->
  let s := (1 / vpmm b)%Q in
  (x1 < TX b + s * inject_Z (NX b))%Q -> (y1 < TY b + s * inject_Z (NY b))%Q -> (z1 <= TZ b + s * inject_Z (NZ b))%Q ->
  Voxelize b (box_mesh x0 y0 z0 x1 y1 z1) = inr b' -> manifold_run b' m ->
  in_cube d -> off_lines d -> let p := near b w d in
  off_mesh m p /\ meets_no_edge m p /\
  (in_cuboid x0 y0 (z0 + (1 # 2) * s) x1 y1 (z1 - (1 # 2) * s) p -> winding m p = 1) /\
  (~ in_cuboid (x0 - s) (y0 - s) (z0 - (1 # 2) * s) (x1 + s) (y1 + s) (z1 + (1 # 2) * s) p -> winding m p = 0).
Proof.
  intros Hz Hv Hc Hx Hy Hzz Hx0 Hy0 Hz0 s Hx1 Hy1 Hz1 Hb Hr Hd Hl p.
  destruct (box_wc b b' x0 y0 z0 x1 y1 z1 Hz Hv Hx Hy Hzz Hx0 Hc Hb) as [Hw Hu].
  destruct (box_header b b' x0 y0 z0 x1 y1 z1 Hc Hb) as (Ev & Etx & Ety & Etz & _).
  pose proof (C36_well_composed b' m Hr Hw Hu) as Wt.
  assert (Ep : p = near b' w d) by (unfold p, near; rewrite Ev, Etx, Ety, Etz; reflexivity).
  assert (Hv' : (0 < vpmm b')%Q) by (rewrite Ev; exact Hv).
  destruct (C70_inside_cube b' m w d Hv' Hr Wt Hw Hd Hl) as (O & N & W1 & W0). rewrite <- Ep in O, N, W1, W0.
  split; [exact O|]. split; [exact N|].
  pose proof (box_filled b b' x0 y0 z0 x1 y1 z1 Hz Hv Hx Hy Hzz Hx0 Hc Hb w) as Hf.
  destruct (near_coord b w d Hv) as (Cx & Cy & Cz). fold p in Cx, Cy, Cz.
  destruct Hd as (Dx & Dy & Dz). apply Qabs_lt in Dx, Dy, Dz.
  set (n := vpmm b) in *. assert (Hs : (n * s == 1)%Q) by (unfold s; field; lra). assert (Ps : (0 < s)%Q) by (unfold s; apply Qlt_shift_div_l; lra).
  assert (Sc : forall x y, (x <= y -> n * x <= n * y)%Q) by (intros x y Hxy; apply Qmult_le_l; assumption).
  assert (Sl : forall x y, (x < y -> n * x < n * y)%Q) by (intros x y Hxy; apply Qmult_lt_l; assumption).
  assert (Sd : forall x y, (n * x <= n * y -> x <= y)%Q) by (intros x y Hxy; apply (Qmult_le_l x y n Hv); exact Hxy).
  assert (Zlt : forall a c, (inject_Z a < inject_Z c)%Q -> a < c) by (intros a c H; rewrite Zlt_Qlt; exact H).
  split.
  - intros (Ix & Iy & Iz). apply W1, Hf.
    assert (Jx1 : (n * px p <= n * x1)%Q) by (apply Sc; lra). assert (Jx0 : (n * x0 <= n * px p)%Q) by (apply Sc; lra).
    assert (Jy1 : (n * py p <= n * y1)%Q) by (apply Sc; lra). assert (Jy0 : (n * y0 <= n * py p)%Q) by (apply Sc; lra).
    assert (Jz1 : (n * pz p <= n * (z1 - (1 # 2) * s))%Q) by (apply Sc; lra). assert (Jz0 : (n * (z0 + (1 # 2) * s) <= n * pz p)%Q) by (apply Sc; lra).
    assert (Gx1 : (n * x1 < n * (TX b + s * inject_Z (NX b)))%Q) by (apply Sl; lra). assert (Gx0 : (n * TX b <= n * x0)%Q) by (apply Sc; lra).
    assert (Gy1 : (n * y1 < n * (TY b + s * inject_Z (NY b)))%Q) by (apply Sl; lra). assert (Gy0 : (n * TY b <= n * y0)%Q) by (apply Sc; lra).
    assert (Gz1 : (n * z1 <= n * (TZ b + s * inject_Z (NZ b)))%Q) by (apply Sc; lra). assert (Gz0 : (n * TZ b <= n * z0)%Q) by (apply Sc; lra).
    assert (E : forall t k, (n * (t + s * k) == n * t + k)%Q) by (intros t k; transitivity (n * t + (n * s) * k)%Q; [ring|rewrite Hs; ring]).
    rewrite E in Gx1, Gy1, Gz1.
    assert (E1 : (n * (z1 - (1 # 2) * s) == n * z1 - (1 # 2))%Q) by (transitivity (n * z1 - (1 # 2) * (n * s))%Q; [ring|rewrite Hs; ring]).
    assert (E0 : (n * (z0 + (1 # 2) * s) == n * z0 + (1 # 2))%Q) by (transitivity (n * z0 + (1 # 2) * (n * s))%Q; [ring|rewrite Hs; ring]).
    rewrite E1 in Jz1. rewrite E0 in Jz0. clear E E1 E0 Sc Sl.
    assert (A : forall t q, (n * (q - t) == n * q - n * t)%Q) by (intros; ring). rewrite A in Cx, Cy, Cz.
    split.
    + unfold in_grid, in_region.
      assert (B : forall k c (e N : Q), (inject_Z k + (1 # 2) + e == c -> -(1 # 2) < e < 1 # 2 -> 0 <= c -> c < N -> (-(1) < inject_Z k /\ inject_Z k < N))%Q) by (intros; lra).
      assert (X : (inject_Z (-1) < inject_Z (kx w) /\ inject_Z (kx w) < inject_Z (NX b))%Q) by (apply (B _ (n * px p - n * TX b) (px d))%Q; lra).
      assert (Y : (inject_Z (-1) < inject_Z (ky w) /\ inject_Z (ky w) < inject_Z (NY b))%Q) by (apply (B _ (n * py p - n * TY b) (py d))%Q; lra).
      assert (Z0 : (inject_Z (-1) < inject_Z (kz w) /\ inject_Z (kz w) < inject_Z (NZ b))%Q) by (apply (B _ (n * pz p - n * TZ b) (pz d))%Q; lra).
      destruct X as [X1 X2], Y as [Y1 Y2], Z0 as [Z1 Z2]. apply Zlt in X1, X2, Y1, Y2, Z1, Z2. lia.
    + exists (px p, py p, ((inject_Z (kz w) + (1 # 2)) * s + TZ b)%Q). 
      assert (Ez : (n * ((inject_Z (kz w) + (1 # 2)) * s + TZ b) == inject_Z (kz w) + (1 # 2) + n * TZ b)%Q).
      { transitivity ((n * s) * (inject_Z (kz w) + (1 # 2)) + n * TZ b)%Q; [ring|rewrite Hs; ring]. }
      split.
      * split; [exact Ix|]. split; [exact Iy|]. change (pz (px p, py p, ?z)) with z. split; apply Sd; rewrite Ez; lra.
      * split; [|split]; [change (px (px p, py p, ?z)) with (px p)|change (py (px p, py p, ?z)) with (py p)|change (pz (px p, py p, ?z)) with z]; fold n; rewrite A; lra.
  - intros Hout. apply W0. intros Hin. apply Hout. apply Hf in Hin as (_ & r & (Rx & Ry & Rz) & (Sx & Sy & Sz)). fold n in Sx, Sy, Sz.
    assert (A : forall t q, (n * (q - t) == n * q - n * t)%Q) by (intros; ring). rewrite A in Cx, Cy, Cz, Sx, Sy, Sz.
    assert (Es : forall q c, (n * (q + c * s) == n * q + c)%Q) by (intros q c; transitivity (n * q + (n * s) * c)%Q; [ring|rewrite Hs; ring]).
    assert (Lo : forall lo q c r, (lo <= r -> n * r - n * q <= c -> lo - c * s <= q)%Q).
    { intros lo q c r' H1 H2. apply Sc in H1. apply Sd. setoid_replace (lo - c * s)%Q with (lo + (- c) * s)%Q by ring. rewrite Es. lra. }
    assert (Hi : forall hi q c r, (r <= hi -> n * q - n * r <= c -> q <= hi + c * s)%Q).
    { intros hi q c r' H1 H2. apply Sc in H1. apply Sd. rewrite Es. lra. }
    assert (One : forall x y, (x + 1 * s <= y <-> x + s <= y)%Q) by (intros; lra).
    split; [|split]; split.
    + pose proof (Lo x0 (px p) 1%Q (px r) ltac:(lra) ltac:(lra)). lra.
    + pose proof (Hi x1 (px p) 1%Q (px r) ltac:(lra) ltac:(lra)). lra.
    + pose proof (Lo y0 (py p) 1%Q (py r) ltac:(lra) ltac:(lra)). lra.
    + pose proof (Hi y1 (py p) 1%Q (py r) ltac:(lra) ltac:(lra)). lra.
    + apply (Lo z0 (pz p) (1 # 2)%Q (pz r)); lra.
    + apply (Hi z1 (pz p) (1 # 2)%Q (pz r)); lra.
Qed.

(** Non-vacuity: the box of [C78_example]; the point (1.1, 1.95, 1.98) is inside, (4.1, 4.95, 4.98) outside. *)
Example C78_encloses_example b' m : Voxelize grid5 (box_mesh (1#4) (1#4) (1#4) (17#5) (17#5) (17#5)) = inr b' -> manifold_run b' m ->
  let d := ((- (2 # 5))%Q, (9 # 20)%Q, (12 # 25)%Q) in
  winding m (near grid5 (1, 1, 1) d) = 1 /\ winding m (near grid5 (4, 4, 4) d) = 0.
Proof.
  intros Hb Hr d.
  assert (D1 : in_cube d) by (repeat split; reflexivity).
  assert (D2 : off_lines d) by (repeat split; intros E; vm_compute in E; discriminate).
  assert (H : forall w, let p := near grid5 w d in let s := (1 / vpmm grid5)%Q in
    (in_cuboid (1 # 4) (1 # 4) ((1 # 4) + (1 # 2) * s) (17 # 5) (17 # 5) ((17 # 5) - (1 # 2) * s) p -> winding m p = 1) /\
    (~ in_cuboid ((1 # 4) - s) ((1 # 4) - s) ((1 # 4) - (1 # 2) * s) ((17 # 5) + s) ((17 # 5) + s) ((17 # 5) + (1 # 2) * s) p -> winding m p = 0)).
  { intros w. apply (C78_encloses grid5 (1#4) (1#4) (1#4) (17#5) (17#5) (17#5) b' m w d); try assumption; try reflexivity; discriminate. }
  split; apply H.
  - repeat split; discriminate.
  - intros (_ & [_ Hy] & _). vm_compute in Hy. apply Hy. reflexivity.
Qed.

Print Assumptions C78_encloses.
