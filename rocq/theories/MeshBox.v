(** C78: from a box of triangles through Voxelize to the surface and back: the meshes of a voxelized box. *)
From Verif Require Import Base BaseLemmas BinvoxModel BinvoxSpec BinvoxLemmas BinvoxProofs Geom VoxelizeModel VoxelizeSpec VoxelizeProps VoxelizeBox
  MeshSpec MeshCells MarchModel MarchProofs MarchProps ManifoldModel ManifoldProofs ManifoldProps ManifoldXform MeshVolume MeshInside ManifoldExact MeshWatertight MeshNear MeshSolid.
From Coq Require Import ZArith QArith Qabs Qround List Lia Lqa Bool Permutation.
From stdpp Require Import base list gmap sets fin_sets.
Import ListNotations.
Open Scope Z_scope.

(** ** Product sets of voxels *)

Definition prod_pat (a0 a1 b0 b1 c0 c1 : bool) : Z :=
  enc8 (a0 && b0 && c0) (a1 && b0 && c0) (a1 && b1 && c0) (a0 && b1 && c0)
       (a0 && b0 && c1) (a1 && b0 && c1) (a1 && b1 && c1) (a0 && b1 && c1).

Lemma prod_pat_ok a0 a1 b0 b1 c0 c1 : let n := prod_pat a0 a1 b0 b1 c0 c1 in
  conn_ok n true = true /\ conn_ok n false = true /\ existsb (Z.eqb n) unhandled_chains = false.
Proof. destruct a0, a1, b0, b1, c0, c1; vm_compute; auto. Qed.

Lemma product_pat fx fy fz (fill : key -> bool) k : (forall v, fill v = fx (kx v) && fy (ky v) && fz (kz v)) ->
  pat fill k = prod_pat (fx (kx k + 0)) (fx (kx k + 1)) (fy (ky k + 0)) (fy (ky k + -1)) (fz (kz k + 0)) (fz (kz k + 1)).
Proof. intros H. unfold pat, prod_pat. rewrite !H. reflexivity. Qed.

Lemma product_well_composed b fx fy fz : (forall v, fillb b v = fx (kx v) && fy (ky v) && fz (kz v)) ->
  well_composed b /\ (forall k n, block_pattern b k n -> ~ In n unhandled_chains).
Proof.
  intros H. split.
  - intros k. pose proof (product_pat fx fy fz (fillb b) k H) as E.
    pose proof (prod_pat_ok (fx (kx k + 0)) (fx (kx k + 1)) (fy (ky k + 0)) (fy (ky k + -1)) (fz (kz k + 0)) (fz (kz k + 1))) as P.
    cbv zeta in P. rewrite <- E in P. destruct P as (P1 & P2 & _). split.
    + apply (conn_ok_connected (fillb b) true); [intros v; symmetry; apply fillb_iff|exact P1].
    + apply (conn_ok_connected (fillb b) false); [intros v; rewrite <- fillb_iff; apply not_true_iff_false|exact P2].
  - intros k n Hp Hin. apply block_pattern_pat in Hp as ->. pose proof (product_pat fx fy fz (fillb b) k H) as E.
    pose proof (prod_pat_ok (fx (kx k + 0)) (fx (kx k + 1)) (fy (ky k + 0)) (fy (ky k + -1)) (fz (kz k + 0)) (fz (kz k + 1))) as P.
    cbv zeta in P. rewrite <- E in P. destruct P as (_ & _ & P3).
    apply not_true_iff_false in P3. apply P3, existsb_exists. eexists. split; [exact Hin|apply Z.eqb_refl].
Qed.

(** ** The voxels of a box *)

Definition lo_x (b : binvox Q) (x0 : Q) : Z := Z.max 0 (Qfloor (vpmm b * (x0 - TX b))).
Definition lo_y (b : binvox Q) (y0 : Q) : Z := Z.max 0 (Qfloor (vpmm b * (y0 - TY b))).
Definition lo_z (b : binvox Q) (z0 : Q) : Z := Z.max 0 (Qceiling (vpmm b * (z0 - TZ b) - (1 # 2))).
Definition hi_x (b : binvox Q) (x1 : Q) : Z := Z.min (NX b) (Qfloor (vpmm b * (x1 - TX b)) + 1).
Definition hi_y (b : binvox Q) (y1 : Q) : Z := Z.min (NY b) (Qfloor (vpmm b * (y1 - TY b)) + 1).
Definition hi_z (b : binvox Q) (z1 : Q) : Z := Z.min (NZ b) (Qfloor (vpmm b * (z1 - TZ b) - (1 # 2)) + 1).

Definition inside (lo hi n : Z) : bool := (lo <=? n) && (n <? hi).

Lemma inside_iff lo hi n : inside lo hi n = true <-> lo <= n < hi.
Proof. unfold inside. rewrite andb_true_iff, Z.leb_le, Z.ltb_lt. lia. Qed.

Lemma floor_ge q n : (inject_Z n <= q)%Q <-> n <= Qfloor q.
Proof.
  split; [intros H; rewrite <- (Qfloor_Z n); apply Qfloor_resp_le, H|].
  intros H. pose proof (Qfloor_le q). rewrite Zle_Qle in H. lra.
Qed.

Lemma ceiling_le q n : (q <= inject_Z n)%Q <-> Qceiling q <= n.
Proof.
  split; [intros H; rewrite <- (Qceiling_Z n); apply Qceiling_resp_le, H|].
  intros H. pose proof (Qle_ceiling q). rewrite Zle_Qle in H. lra.
Qed.

Lemma floor_span a c : (a <= c)%Q -> (c - a < inject_Z (Qfloor c + 1 - Qfloor a) < c - a + 2)%Q.
Proof.
  intros H. pose proof (Qfloor_le a). pose proof (Qfloor_le c). pose proof (Qlt_floor a) as L1. pose proof (Qlt_floor c) as L2.
  rewrite inject_Z_plus in L1, L2. replace (Qfloor c + 1 - Qfloor a) with (Qfloor c + 1 + - Qfloor a) by lia.
  rewrite !inject_Z_plus, inject_Z_opp. change (inject_Z 1) with 1%Q in *. lra.
Qed.

Lemma middle_span a c : (c - a - 1 < inject_Z (Qfloor (c - (1 # 2)) + 1 - Qceiling (a - (1 # 2))) <= c - a + 1)%Q.
Proof.
  pose proof (Qfloor_le (c - (1 # 2))). pose proof (Qlt_floor (c - (1 # 2))) as L1.
  pose proof (Qle_ceiling (a - (1 # 2))). pose proof (Qceiling_lt (a - (1 # 2))) as L2.
  replace (Qceiling (a - (1 # 2)) - 1) with (Qceiling (a - (1 # 2)) + - (1)) in L2 by lia.
  rewrite inject_Z_plus in L1, L2.
  set (F := Qfloor (c - (1 # 2))) in *. set (C := Qceiling (a - (1 # 2))) in *.
  replace (F + 1 - C) with (F + 1 + - C) by lia. rewrite !inject_Z_plus, inject_Z_opp.
  change (inject_Z (- (1))) with (- (1))%Q in L2. change (inject_Z 1) with 1%Q in *. lra.
Qed.

Lemma floor_lt q n : (q < inject_Z n)%Q -> Qfloor q < n.
Proof. intros H. pose proof (Qfloor_le q). rewrite Zlt_Qlt. lra. Qed.

Lemma inj_leQ a c : a <= c -> (inject_Z a <= inject_Z c)%Q.
Proof. intros. rewrite <- Zle_Qle. assumption. Qed.

Section Box.
  Context (b b' : binvox Q) (x0 y0 z0 x1 y1 z1 : Q) (Hz : zero_dim b = false) (Hv : (0 < vpmm b)%Q).
  Context (Hx : (x0 <= x1)%Q) (Hy : (y0 <= y1)%Q) (Hzz : (z0 + epsilon <= z1)%Q) (Hx0 : (TX b <= x0)%Q).
  Context (Hc : colors b = ∅) (Hb : Voxelize b (box_mesh x0 y0 z0 x1 y1 z1) = inr b').

  Lemma box_header : vpmm b' = vpmm b /\ TX b' = TX b /\ TY b' = TY b /\ TZ b' = TZ b /\ colors b' = ∅.
  Proof using Hb Hc.
    pose proof Hb as H. clear -H Hc. unfold Voxelize in H. destruct (zero_dim b); [discriminate|]. injection H as <-. auto.
  Qed.

  (** The voxels are those of C59 ... *)
  Lemma box_filled k : filled b' k <->
    in_grid (NX b) (NY b) (NZ b) k /\ exists r, in_cuboid x0 y0 z0 x1 y1 z1 r /\ in_mid_square b k r.
  Proof using Hz Hv Hx Hy Hzz Hx0 Hc Hb.
    rewrite <- (C59_box b x0 y0 z0 x1 y1 z1 Hz Hv Hx Hy Hzz Hx0 k). rewrite Hb. unfold filled. cbn [result_voxels].
    destruct box_header as (_ & _ & _ & _ & ->). rewrite lookup_empty. split; [|auto]. intros [H|[? H]]; [exact H|discriminate].
  Qed.

  (** ... and so a product of three intervals. *)
  Lemma box_product k : filled b' k <->
    lo_x b x0 <= kx k < hi_x b x1 /\ lo_y b y0 <= ky k < hi_y b y1 /\ lo_z b z0 <= kz k < hi_z b z1.
  Proof using Hz Hv Hx Hy Hzz Hx0 Hc Hb.
    rewrite box_filled. destruct k as [[x y] z].
    assert (EX : (exists r, in_cuboid x0 y0 z0 x1 y1 z1 r /\ in_mid_square b (x, y, z) r) <->
      (gridi (vpmm b) x0 (TX b) <= x <= gridi (vpmm b) x1 (TX b) /\ gridi (vpmm b) y0 (TY b) <= y <= gridi (vpmm b) y1 (TY b) /\
       (vpmm b * (z0 - TZ b) <= inject_Z z + (1 # 2) <= vpmm b * (z1 - TZ b))%Q)).
    { rewrite (cells b Hv (TX b) x0 x1 x Hx), (cells b Hv (TY b) y0 y1 y Hy).
      unfold in_cuboid, in_mid_square, kx, ky, kz. cbn [fst snd]. split.
      - intros (r & (R1 & R2 & R3) & M1 & M2 & M3). split; [eauto|]. split; [eauto|]. rewrite <- M3. split; nra.
      - intros ((rx & A1 & A2) & (ry & B1 & B2) & C1 & C2).
        exists (q3 rx ry (TZ b + (inject_Z z + (1 # 2)) / vpmm b)%Q). cbn [px py pz q3 fst snd].
        assert (E : (vpmm b * (TZ b + (inject_Z z + (1 # 2)) / vpmm b - TZ b) == inject_Z z + (1 # 2))%Q) by (field; lra).
        split; [|split; [exact A2|split; [exact B2|exact E]]]. split; [exact A1|split; [exact B1|]].
        set (r := (TZ b + (inject_Z z + (1 # 2)) / vpmm b)%Q) in *. clearbody r.
        assert (L : forall p q, (vpmm b * (p - TZ b) <= vpmm b * (q - TZ b))%Q -> (p <= q)%Q) by (intros p q Hpq; apply Qmult_le_l in Hpq; [lra|exact Hv]).
        split; apply L; lra. }
    rewrite EX. clear EX. unfold in_grid, in_region, kx, ky, kz, gridi. cbn [fst snd].
    assert (Z1 : (vpmm b * (z0 - TZ b) <= inject_Z z + (1 # 2))%Q <-> Qceiling (vpmm b * (z0 - TZ b) - (1 # 2)) <= z).
    { rewrite <- ceiling_le. split; intros; lra. }
    assert (Z2 : (inject_Z z + (1 # 2) <= vpmm b * (z1 - TZ b))%Q <-> z <= Qfloor (vpmm b * (z1 - TZ b) - (1 # 2))).
    { rewrite <- floor_ge. split; intros; lra. }
    rewrite Z1, Z2. unfold lo_x, lo_y, lo_z, hi_x, hi_y, hi_z. lia.
  Qed.

  Lemma box_fillb v : fillb b' v = inside (lo_x b x0) (hi_x b x1) (kx v) && inside (lo_y b y0) (hi_y b y1) (ky v) && inside (lo_z b z0) (hi_z b z1) (kz v).
  Proof using Hz Hv Hx Hy Hzz Hx0 Hc Hb.
    apply eq_true_iff_eq. rewrite fillb_iff, box_product, !andb_true_iff, !inside_iff. tauto.
  Qed.

  Lemma box_count : voxel_count b' = Z.max 0 (hi_x b x1 - lo_x b x0) * Z.max 0 (hi_y b y1 - lo_y b y0) * Z.max 0 (hi_z b z1 - lo_z b z0).
  Proof using Hz Hv Hx Hy Hzz Hx0 Hc Hb.
    set (lx := lo_x b x0) in *. set (ly := lo_y b y0) in *. set (lz := lo_z b z0) in *.
    set (nx := Z.max 0 (hi_x b x1 - lx)) in *. set (ny := Z.max 0 (hi_y b y1 - ly)). set (nz := Z.max 0 (hi_z b z1 - lz)).
    unfold voxel_count.
    assert (Hm : forall k, k ∈ white b' ∪ dom (colors b') <-> in_region lx ly lz nx ny nz k).
    { intros k. rewrite elem_of_union, elem_of_dom. change (filled b' k <-> in_region lx ly lz nx ny nz k). rewrite box_product.
      unfold in_region. fold lx ly lz. unfold nx, ny, nz. lia. }
    destruct (decide (0 < nx /\ 0 < ny /\ 0 < nz)) as [(P1 & P2 & P3)|Hn].
    - rewrite <- loop_keys_length with (sx := lx) (sy := ly) (sz := lz) by lia. f_equal.
      assert (E : white b' ∪ dom (colors b') = list_to_set (loop_keys lx ly lz nx ny nz)).
      { apply set_eq. intros k. rewrite Hm, elem_of_list_to_set, loop_keys_elem by assumption. reflexivity. }
      rewrite E, size_list_to_set; [reflexivity|]. apply loop_keys_NoDup; assumption.
    - assert (E : white b' ∪ dom (colors b') = ∅).
      { apply set_eq. intros k. rewrite Hm. split; [|intros H; apply elem_of_empty in H; contradiction]. unfold in_region. lia. }
      rewrite E, size_empty. nia.
  Qed.

  Lemma box_wc : well_composed b' /\ (forall k n, block_pattern b' k n -> ~ In n unhandled_chains).
  Proof using Hz Hv Hx Hy Hzz Hx0 Hc Hb. exact (product_well_composed b' _ _ _ box_fillb). Qed.

  (** In the grid: at least the extent of the box, at most one voxel more on each side (half a voxel for z). *)
  Section Fits.
    Context (Hy0 : (TY b <= y0)%Q) (Hz0 : (TZ b <= z0)%Q).
    Context (Hx1 : (vpmm b * (x1 - TX b) < inject_Z (NX b))%Q) (Hy1 : (vpmm b * (y1 - TY b) < inject_Z (NY b))%Q)
            (Hz1 : (vpmm b * (z1 - TZ b) <= inject_Z (NZ b))%Q).

    Lemma box_spans : exists nx ny nz, voxel_count b' = nx * ny * nz /\ 0 <= nx /\ 0 <= ny /\ 0 <= nz /\
      (vpmm b * (x1 - x0) < inject_Z nx < vpmm b * (x1 - x0) + 2)%Q /\
      (vpmm b * (y1 - y0) < inject_Z ny < vpmm b * (y1 - y0) + 2)%Q /\
      (vpmm b * (z1 - z0) - 1 < inject_Z nz <= vpmm b * (z1 - z0) + 1)%Q.
    Proof using Hz Hv Hx Hy Hzz Hx0 Hc Hb Hy0 Hz0 Hx1 Hy1 Hz1.
      assert (Vx : (vpmm b * (x0 - TX b) <= vpmm b * (x1 - TX b))%Q) by nra.
      assert (Vy : (vpmm b * (y0 - TY b) <= vpmm b * (y1 - TY b))%Q) by nra.
      assert (Px : (0 <= vpmm b * (x0 - TX b))%Q) by nra. assert (Py : (0 <= vpmm b * (y0 - TY b))%Q) by nra. assert (Pz : (0 <= vpmm b * (z0 - TZ b))%Q) by nra.
      assert (Vz : (vpmm b * (z0 - TZ b) <= vpmm b * (z1 - TZ b))%Q) by (unfold epsilon in Hzz; nra).
      assert (Dx : (vpmm b * (x1 - TX b) - vpmm b * (x0 - TX b) == vpmm b * (x1 - x0))%Q) by ring.
      assert (Dy : (vpmm b * (y1 - TY b) - vpmm b * (y0 - TY b) == vpmm b * (y1 - y0))%Q) by ring.
      assert (Dz : (vpmm b * (z1 - TZ b) - vpmm b * (z0 - TZ b) == vpmm b * (z1 - z0))%Q) by ring.
      pose proof (floor_span _ _ Vx) as Sx. pose proof (floor_span _ _ Vy) as Sy. pose proof (middle_span (vpmm b * (z0 - TZ b)) (vpmm b * (z1 - TZ b))) as Sz.
      rewrite Dx in Sx. rewrite Dy in Sy. rewrite Dz in Sz.
      assert (Ex : hi_x b x1 - lo_x b x0 = Qfloor (vpmm b * (x1 - TX b)) + 1 - Qfloor (vpmm b * (x0 - TX b))).
      { unfold hi_x, lo_x. apply (floor_ge _ 0) in Px. pose proof (floor_lt _ _ Hx1). lia. }
      assert (Ey : hi_y b y1 - lo_y b y0 = Qfloor (vpmm b * (y1 - TY b)) + 1 - Qfloor (vpmm b * (y0 - TY b))).
      { unfold hi_y, lo_y. apply (floor_ge _ 0) in Py. pose proof (floor_lt _ _ Hy1). lia. }
      assert (Ez : hi_z b z1 - lo_z b z0 = Qfloor (vpmm b * (z1 - TZ b) - (1 # 2)) + 1 - Qceiling (vpmm b * (z0 - TZ b) - (1 # 2))).
      { unfold hi_z, lo_z. assert (F : Qfloor (vpmm b * (z1 - TZ b) - (1 # 2)) < NZ b) by (apply floor_lt; lra).
        assert (C : 0 <= Qceiling (vpmm b * (z0 - TZ b) - (1 # 2))).
        { assert (C : Qceiling (- (1 # 2)) <= Qceiling (vpmm b * (z0 - TZ b) - (1 # 2))) by (apply Qceiling_resp_le; lra). exact C. }
        lia. }
      exists (hi_x b x1 - lo_x b x0), (hi_y b y1 - lo_y b y0), (Z.max 0 (hi_z b z1 - lo_z b z0)).
      assert (Nx : 0 <= hi_x b x1 - lo_x b x0). { apply (Qfloor_resp_le _ _) in Vx. lia. }
      assert (Ny : 0 <= hi_y b y1 - lo_y b y0). { apply (Qfloor_resp_le _ _) in Vy. lia. }
      rewrite box_count. rewrite !(Z.max_r 0 (_ - lo_x _ _)) by exact Nx. rewrite !(Z.max_r 0 (_ - lo_y _ _)) by exact Ny.
      rewrite Ex, Ey, Ez in *.
      split; [reflexivity|]. split; [exact Nx|]. split; [exact Ny|]. split; [lia|]. split; [exact Sx|]. split; [exact Sy|].
      destruct (Z.max_spec 0 (Qfloor (vpmm b * (z1 - TZ b) - (1 # 2)) + 1 - Qceiling (vpmm b * (z0 - TZ b) - (1 # 2)))) as [[Hm ->]|[Hm ->]]; [exact Sz|].
      apply (inj_leQ _ 0) in Hm. change (inject_Z 0) with 0%Q in *. rewrite <- Dz in Sz |- *. lra.
    Qed.
  End Fits.
End Box.

(** * C78 *)

(** ** Specification *)

(** The box meets the middle square of the voxel [w] of the grid (as in C59). *)
Definition box_meets (b : binvox Q) (x0 y0 z0 x1 y1 z1 : Q) (w : key) : Prop :=
  in_grid (NX b) (NY b) (NZ b) w /\ exists r, in_cuboid x0 y0 z0 x1 y1 z1 r /\ in_mid_square b w r.

Definition volume_between (lo hi : Q) (m : list face) : Prop := (lo <= signed_volume m <= hi)%Q.

Lemma mul3_le a b c a' b' c' : (0 <= a -> 0 <= b -> a <= a' -> b <= b' -> c <= c' -> 0 <= c' -> a * b * c <= a' * b' * c')%Q.
Proof.
  intros Ha Hb H1 H2 H3 H4.
  assert (P1 : (a * b <= a' * b')%Q) by nra. assert (P0 : (0 <= a * b)%Q) by nra.
  set (p := (a * b)%Q) in *. set (q := (a' * b')%Q) in *. clearbody p q. nra.
Qed.

(** ManifoldMesh of a voxelized box: watertight, around exactly the voxels that the box meets. *)
Theorem C78_manifold b x0 y0 z0 x1 y1 z1 : zero_dim b = false -> (0 < vpmm b)%Q -> colors b = ∅ ->
  (x0 <= x1)%Q -> (y0 <= y1)%Q -> (z0 + epsilon <= z1)%Q -> (TX b <= x0)%Q ->
  exists b', Voxelize b (box_mesh x0 y0 z0 x1 y1 z1) = inr b' /\ (exists m, manifold_run b' m) /\
    forall m, manifold_run b' m -> watertight m /\ encloses b m (box_meets b x0 y0 z0 x1 y1 z1).
Proof.
  intros Hz Hv Hc Hx Hy Hzz Hx0.
  destruct (Voxelize b (box_mesh x0 y0 z0 x1 y1 z1)) as [e|b'] eqn:Hb.
  { unfold Voxelize in Hb. rewrite Hz in Hb. discriminate. }
  exists b'. split; [reflexivity|]. split; [apply C36_total|]. intros m Hr.
  destruct (box_wc b b' x0 y0 z0 x1 y1 z1 Hz Hv Hx Hy Hzz Hx0 Hc Hb) as [Hw Hu].
  destruct (box_header b b' x0 y0 z0 x1 y1 z1 Hc Hb) as (Ev & Etx & Ety & Etz & _).
  pose proof (C36_well_composed b' m Hr Hw Hu) as Wt. split; [exact Wt|].
  intros w d H1 H2 p.
  assert (Eb : p = near b' w d) by (unfold p, near; rewrite Ev, Etx, Ety, Etz; reflexivity). rewrite Eb.
  assert (Hv' : (0 < vpmm b')%Q) by (rewrite Ev; exact Hv).
  unfold box_meets. rewrite <- (box_filled b b' x0 y0 z0 x1 y1 z1 Hz Hv Hx Hy Hzz Hx0 Hc Hb w).
  exact (C70_inside_manifold b' m w d Hv' Hr Wt H1 H2).
Qed.

(** If the box is inside the grid, the volume is that of the box up to less than one voxel on each side in x and y
    and half a voxel in z. *)
Theorem C78_manifold_volume b x0 y0 z0 x1 y1 z1 b' m : zero_dim b = false -> (0 < vpmm b)%Q -> colors b = ∅ ->
  (x0 <= x1)%Q -> (y0 <= y1)%Q -> (z0 + epsilon <= z1)%Q ->
  (TX b <= x0)%Q -> (TY b <= y0)%Q -> (TZ b <= z0)%Q ->
  let s := (1 / vpmm b)%Q in
  (x1 < TX b + s * inject_Z (NX b))%Q -> (y1 < TY b + s * inject_Z (NY b))%Q -> (z1 <= TZ b + s * inject_Z (NZ b))%Q ->
  Voxelize b (box_mesh x0 y0 z0 x1 y1 z1) = inr b' -> manifold_run b' m ->
  volume_between ((x1 - x0) * (y1 - y0) * (z1 - z0 - s)) ((x1 - x0 + 2 * s) * (y1 - y0 + 2 * s) * (z1 - z0 + s)) m.
Proof.
  intros Hz Hv Hc Hx Hy Hzz Hx0 Hy0 Hz0 s Hx1 Hy1 Hz1 Hb Hr.
  destruct (box_wc b b' x0 y0 z0 x1 y1 z1 Hz Hv Hx Hy Hzz Hx0 Hc Hb) as [Hw Hu].
  destruct (box_header b b' x0 y0 z0 x1 y1 z1 Hc Hb) as (Ev & _).
  assert (Es : (vpmm b * s == 1)%Q) by (unfold s; field; lra). assert (Ps : (0 < s)%Q) by (unfold s; apply Qlt_shift_div_l; lra).
  assert (Sc : forall t e n, ((e - t) * (vpmm b * s) == (e - t))%Q -> (e < t + s * n -> vpmm b * (e - t) < n)%Q /\ (e <= t + s * n -> vpmm b * (e - t) <= n)%Q).
  { intros t e n _. split; intros H.
    - assert (G : (vpmm b * (e - t) < vpmm b * (s * n))%Q) by (apply Qmult_lt_l; lra). setoid_replace (vpmm b * (s * n))%Q with (vpmm b * s * n)%Q in G by ring. rewrite Es in G. lra.
    - assert (G : (vpmm b * (e - t) <= vpmm b * (s * n))%Q) by (apply Qmult_le_l; lra). setoid_replace (vpmm b * (s * n))%Q with (vpmm b * s * n)%Q in G by ring. rewrite Es in G. lra. }
  apply (Sc (TX b) x1) in Hx1; [|rewrite Es; ring]. apply (Sc (TY b) y1) in Hy1; [|rewrite Es; ring]. apply (Sc (TZ b) z1) in Hz1; [|rewrite Es; ring]. clear Sc.
  destruct (box_spans b b' x0 y0 z0 x1 y1 z1 Hz Hv Hx Hy Hzz Hx0 Hc Hb Hy0 Hz0 Hx1 Hy1 Hz1) as (nx & ny & nz & En & N1 & N2 & N3 & Bx & By & Bz).
  unfold volume_between. rewrite (C69_manifold_exact b' m Hr Hw Hu), En.
  assert (Vv : (inject_Z (nx * ny * nz) * voxel_volume b' == (inject_Z nx * s) * (inject_Z ny * s) * (inject_Z nz * s))%Q).
  { unfold voxel_volume. rewrite Ev. fold s. rewrite !inject_Z_mult. ring. }
  rewrite Vv. apply inj_leQ in N1, N2, N3. change (inject_Z 0) with 0%Q in *.
  assert (Ex : (vpmm b * (x1 - x0) * s == x1 - x0)%Q) by (transitivity ((vpmm b * s) * (x1 - x0))%Q; [ring|rewrite Es; ring]).
  assert (Ey : (vpmm b * (y1 - y0) * s == y1 - y0)%Q) by (transitivity ((vpmm b * s) * (y1 - y0))%Q; [ring|rewrite Es; ring]).
  assert (Ez : (vpmm b * (z1 - z0) * s == z1 - z0)%Q) by (transitivity ((vpmm b * s) * (z1 - z0))%Q; [ring|rewrite Es; ring]).
  set (ax := (vpmm b * (x1 - x0))%Q) in *. set (ay := (vpmm b * (y1 - y0))%Q) in *. set (az := (vpmm b * (z1 - z0))%Q) in *.
  set (qx := inject_Z nx) in *. set (qy := inject_Z ny) in *. set (qz := inject_Z nz) in *. clearbody qx qy qz ax ay az s. clear Vv En.
  assert (L : forall p q, (p <= q)%Q -> (p * s <= q * s)%Q) by (intros p q Hpq; nra).
  assert (Ax : (x1 - x0 <= qx * s <= x1 - x0 + 2 * s)%Q). { pose proof (L ax qx ltac:(lra)). pose proof (L qx (ax + 2)%Q ltac:(lra)). lra. }
  assert (Ay : (y1 - y0 <= qy * s <= y1 - y0 + 2 * s)%Q). { pose proof (L ay qy ltac:(lra)). pose proof (L qy (ay + 2)%Q ltac:(lra)). lra. }
  assert (Az : (z1 - z0 - s <= qz * s <= z1 - z0 + s)%Q). { pose proof (L (az - 1)%Q qz ltac:(lra)). pose proof (L qz (az + 1)%Q ltac:(lra)). lra. }
  assert (Q0 : (0 <= qz * s)%Q) by nra.
  clear -Ax Ay Az Q0 Hx Hy Hzz Ps. unfold epsilon in Hzz. split; apply mul3_le; lra.
Qed.

(** MarchingCubes of a voxelized box: closed, around the same voxels. *)
Theorem C78_marching_cubes b x0 y0 z0 x1 y1 z1 : zero_dim b = false -> (0 < vpmm b)%Q -> colors b = ∅ ->
  (x0 <= x1)%Q -> (y0 <= y1)%Q -> (z0 + epsilon <= z1)%Q -> (TX b <= x0)%Q ->
  exists b', Voxelize b (box_mesh x0 y0 z0 x1 y1 z1) = inr b' /\
    forall order, Permutation order (elements (grid_cells b')) ->
    exists m, MarchingCubes b' order = Some m /\ closed_mesh m /\ encloses b m (box_meets b x0 y0 z0 x1 y1 z1).
Proof.
  intros Hz Hv Hc Hx Hy Hzz Hx0.
  destruct (Voxelize b (box_mesh x0 y0 z0 x1 y1 z1)) as [e|b'] eqn:Hb.
  { unfold Voxelize in Hb. rewrite Hz in Hb. discriminate. }
  exists b'. split; [reflexivity|]. intros order Ho. destruct (C33_closed b' order Ho) as (m & Em & Hm).
  exists m. split; [exact Em|]. split; [exact Hm|].
  destruct (box_header b b' x0 y0 z0 x1 y1 z1 Hc Hb) as (Ev & Etx & Ety & Etz & _).
  intros w d H1 H2 p.
  assert (Eb : p = near b' w d) by (unfold p, near; rewrite Ev, Etx, Ety, Etz; reflexivity). rewrite Eb.
  assert (Hv' : (0 < vpmm b')%Q) by (rewrite Ev; exact Hv).
  unfold box_meets. rewrite <- (box_filled b b' x0 y0 z0 x1 y1 z1 Hz Hv Hx Hy Hzz Hx0 Hc Hb w).
  exact (C70_inside_marching_cubes b' order m w d Hv' Ho Em H1 H2).
Qed.

(** Non-vacuity: the box from (1/4,1/4,1/4) to (17/5,17/5,17/5) in a grid of 5x5x5 voxels of 1 mm. *)
Example C78_example : zero_dim grid5 = false /\ (0 < vpmm grid5)%Q /\ colors grid5 = ∅ /\ ((1#4) + epsilon <= (17#5))%Q /\
  (TX grid5 <= (1#4))%Q /\ ((17#5) < TX grid5 + 1 / vpmm grid5 * inject_Z (NX grid5))%Q /\
  forall b' m, Voxelize grid5 (box_mesh (1#4) (1#4) (1#4) (17#5) (17#5) (17#5)) = inr b' -> manifold_run b' m -> (signed_volume m == 48)%Q.
Proof.
  assert (H1 : zero_dim grid5 = false) by reflexivity. assert (H2 : (0 < vpmm grid5)%Q) by reflexivity. assert (H3 : colors grid5 = ∅) by reflexivity.
  assert (H4 : ((1#4) <= (17#5))%Q) by discriminate. assert (H5 : ((1#4) + epsilon <= (17#5))%Q) by discriminate. assert (H6 : (TX grid5 <= (1#4))%Q) by discriminate.
  split; [exact H1|]. split; [exact H2|]. split; [exact H3|]. split; [exact H5|]. split; [exact H6|]. split; [reflexivity|].
  intros b' m Hb Hr. destruct (box_wc grid5 b' _ _ _ _ _ _ H1 H2 H4 H4 H5 H6 H3 Hb) as [Hw Hu].
  rewrite (C69_manifold_exact b' m Hr Hw Hu), (box_count grid5 b' _ _ _ _ _ _ H1 H2 H4 H4 H5 H6 H3 Hb).
  destruct (box_header grid5 b' _ _ _ _ _ _ H3 Hb) as (Ev & _). unfold voxel_volume. rewrite Ev. vm_compute. reflexivity.
Qed.

Print Assumptions C78_manifold.
Print Assumptions C78_manifold_volume.
Print Assumptions C78_marching_cubes.
