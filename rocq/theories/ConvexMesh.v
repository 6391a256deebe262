(** C80: the surface that ToMesh gives for a voxelized convex solid. *)
From Verif Require Import Base BaseLemmas BinvoxSpec BinvoxModel Geom VoxelizeModel VoxelizeSpec VoxelizeLine VoxelizeSlice VoxelizeFill VoxelizeProps VoxelizeAccuracy Convex ConvexEx
  MeshSpec MeshCells MeshInside MeshSolid ToMesh ToMeshWind MeshNear.
From Coq Require Import ZArith QArith Qabs List Lia Lqa Bool Permutation.
From stdpp Require Import base list gmap sets fin_sets.
Import ListNotations.
Open Scope Z_scope.

(** [r] is at most one and a half voxels from [p] along x and along y and at most half a voxel along z. *)
Definition close (b : binvox Q) (p r : qpt) : Prop :=
  (Qabs (vpmm b * (px r - px p)) <= 3 # 2 /\ Qabs (vpmm b * (py r - py p)) <= 3 # 2 /\ Qabs (vpmm b * (pz r - pz p)) <= 1 # 2)%Q.

Lemma abs_le a m : (- m <= a <= m)%Q -> (Qabs a <= m)%Q.
Proof. intros H. apply Qabs_Qle_condition. lra. Qed.

Lemma near_close b w d r : (0 < vpmm b)%Q -> MeshNear.in_cube d -> mid_height b w r -> within (1 # 2) b w r -> close b (near b w d) r.
Proof.
  intros Hv (Dx & Dy & Dz) Hm [Hx Hy]. apply Qabs_Qlt_condition in Dx, Dy, Dz. unfold mid_height in Hm.
  assert (V : ~ (vpmm b == 0)%Q) by (intros C; rewrite C in Hv; discriminate).
  assert (E : forall a t c, (vpmm b * (c - (a * (1 / vpmm b) + t)) == vpmm b * (c - t) - a)%Q) by (intros; field; exact V).
  unfold close, near. unfold px, py, pz in *. cbn [fst snd]. rewrite !E.
  repeat split; apply abs_le; unfold px, py, pz in *.
  all: lra.
Qed.

(** Voxelize and then ToMesh: the mesh winds once around every point of the grid that has only points of the solid close to it, and not
    around any point that has none. *)
Theorem C80_surface NewVoxelMesh b mesh b' whites cols w d : zero_dim b = false -> (0 < vpmm b)%Q -> colors b = ∅ -> NoDup (map taddr mesh) -> convex_surface mesh ->
  (forall t, In t mesh -> side_clear t) -> (forall t zi, In t mesh -> 0 <= zi < NZ b -> sliceable t (slice_z b zi)) ->
  Voxelize b mesh = inr b' -> Permutation whites (elements (white b')) -> Permutation cols (elements (dom (colors b'))) ->
  surface_of (whites ++ cols) (NewVoxelMesh (whites ++ cols)) ->
  let m := ToMesh NewVoxelMesh b' whites cols in let p := near b w d in
  MeshNear.in_cube d -> off_mesh m p /\ (meets_no_edge m p ->
    (in_grid (NX b) (NY b) (NZ b) w -> (forall r, close b p r -> behind mesh r) -> winding m p = 1) /\
    ((forall r, close b p r -> ~ behind mesh r) -> winding m p = 0)).
Proof.
  intros Hz Hv Hcol Hnd Hconv Hside Hsl Hb Hw Hc Hlib m p Hd.
  assert (Hres : forall k, result_voxels (Voxelize b mesh) k <-> k ∈ white b') by (intros k; rewrite Hb; reflexivity).
  unfold Voxelize in Hb. rewrite Hz in Hb. injection Hb as Hb.
  assert (Ev : vpmm b' = vpmm b) by (rewrite <- Hb; reflexivity). assert (Ecol : colors b' = ∅) by (rewrite <- Hb; exact Hcol).
  assert (Ep : near b' w d = p) by (rewrite <- Hb; reflexivity).
  assert (Hf : filled b' w <-> result_voxels (Voxelize b mesh) w).
  { rewrite Hres. unfold filled. rewrite Ecol, lookup_empty. split; [intros [H|[? H]]; [exact H|discriminate H]|left; assumption]. }
  pose proof (C71_winding NewVoxelMesh b' whites cols ltac:(rewrite Ev; exact Hv) Hw Hc Hlib w d Hd) as H. cbn zeta in H. rewrite Ep in H. fold m in H.
  destruct H as [H1 H2]. split; [exact H1|]. intros Hne. destruct (H2 Hne) as [H3 H4]. split.
  - intros Hg Hin. apply H3, Hf. apply C80_inside; [assumption..| |exact Hg|].
    + intros t Ht. apply Hsl; [exact Ht|]. unfold in_grid, in_region in Hg. lia.
    + intros r Hm Hr. apply Hin. apply near_close; assumption.
  - intros Hout. apply H4. intros C. apply Hf in C. apply C80_near in C as (r & Hr & Hm & Hwi); [|assumption..]. apply (Hout r); [|exact Hr]. apply near_close; assumption.
Qed.

(** Non-vacuity: the mesh of the voxelized wedge winds once around (9.6, 11.3, 2.45) and not around (15.6, 20.3, 11.45). *)
Definition voxelized_ex : binvox Q := match Voxelize grid_ex wedge_ex with inr b => b | inl _ => grid_ex end.
Example C80_surface_example : let m := ToMesh unit_faces voxelized_ex (elements (white voxelized_ex)) (elements (dom (colors voxelized_ex))) in
  let p := near grid_ex (9, 11, 2) ((1 # 10)%Q, (- (1 # 5))%Q, (- (1 # 20))%Q) in let q := near grid_ex (15, 20, 11) ((1 # 10)%Q, (- (1 # 5))%Q, (- (1 # 20))%Q) in
  (forall r, close grid_ex p r -> behind wedge_ex r) /\ winding m p = 1 /\ (forall r, close grid_ex q r -> ~ behind wedge_ex r) /\ winding m q = 0.
Proof.
  cbn zeta. set (d := ((1 # 10)%Q, (- (1 # 5))%Q, (- (1 # 20))%Q)).
  assert (Hd : MeshNear.in_cube d) by (repeat split; reflexivity).
  assert (Hcl : forall p r, close grid_ex p r -> (- (3 # 2) <= px r - px p <= 3 # 2 /\ - (3 # 2) <= py r - py p <= 3 # 2 /\ - (1 # 2) <= pz r - pz p <= 1 # 2)%Q).
  { intros p r (Hx & Hy & Hz). apply Qabs_Qle_condition in Hx, Hy, Hz. rewrite grid_vpmm in Hx, Hy, Hz. lra. }
  assert (Hp : forall r, close grid_ex (near grid_ex (9, 11, 2) d) r -> behind wedge_ex r).
  { intros r Hr. apply Hcl in Hr as (Hx & Hy & Hz). apply wedge_behind. unfold in_wedge.
    assert (E1 : (px (near grid_ex (9, 11, 2)%Z d) == 48 # 5)%Q) by reflexivity. assert (E2 : (py (near grid_ex (9, 11, 2)%Z d) == 113 # 10)%Q) by reflexivity.
    assert (E3 : (pz (near grid_ex (9, 11, 2)%Z d) == 49 # 20)%Q) by reflexivity. rewrite E1 in Hx. rewrite E2 in Hy. rewrite E3 in Hz.
    unfold px at 2 4 6, py at 2 4, pz at 2 4. cbn [fst snd]. lra. }
  assert (Hq : forall r, close grid_ex (near grid_ex (15, 20, 11) d) r -> ~ behind wedge_ex r).
  { intros r Hr C. apply Hcl in Hr as (Hx & Hy & Hz). apply wedge_behind in C as (_ & _ & C & _).
    assert (E1 : (px (near grid_ex (15, 20, 11)%Z d) == 78 # 5)%Q) by reflexivity. 
    assert (E3 : (pz (near grid_ex (15, 20, 11)%Z d) == 229 # 20)%Q) by reflexivity. rewrite E1 in Hx. rewrite E3 in Hz.
    unfold px at 2, pz at 2 in C. cbn [fst snd] in C. lra. }
  assert (Hb : Voxelize grid_ex wedge_ex = inr voxelized_ex) by reflexivity.
  assert (Hs : forall w, meets_no_edge (ToMesh unit_faces voxelized_ex (elements (white voxelized_ex)) (elements (dom (colors voxelized_ex)))) (near grid_ex w d) ->
    (in_grid 16 24 12 w -> (forall r, close grid_ex (near grid_ex w d) r -> behind wedge_ex r) ->
      winding (ToMesh unit_faces voxelized_ex (elements (white voxelized_ex)) (elements (dom (colors voxelized_ex)))) (near grid_ex w d) = 1) /\
    ((forall r, close grid_ex (near grid_ex w d) r -> ~ behind wedge_ex r) ->
      winding (ToMesh unit_faces voxelized_ex (elements (white voxelized_ex)) (elements (dom (colors voxelized_ex)))) (near grid_ex w d) = 0)).
  { intros w. refine (proj2 (C80_surface unit_faces grid_ex wedge_ex voxelized_ex _ _ w d _ _ _ _ _ _ _ Hb _ _ _ Hd)); try reflexivity.
    - apply (bool_decide_unpack _). vm_compute. exact I.
    - apply wedge_convex. reflexivity.
    - intros t Ht. exact (wedge_side _ _ _ _ Ht).
    - intros t zi Ht Hz. refine (wedge_sliceable _ _ _ _ _ _ _ Ht); [unfold epsilon; lra|]. intros C.
      assert (E : (slice_z grid_ex zi == inject_Z zi + (1 # 2))%Q) by (unfold slice_z; rewrite grid_vpmm; change (TZ grid_ex) with 0%Q; field). rewrite E in C. unfold pz in C. cbn [snd] in C. assert ((0 <= inject_Z zi)%Q) by (change 0%Q with (inject_Z 0); rewrite <- Zle_Qle; lia). lra.
    - apply C71_unit_faces. apply NoDup_ListNoDup, (bool_decide_unpack _). vm_compute. exact I. }
  split; [exact Hp|]. split; [apply Hs; [apply edges_clear; vm_compute; reflexivity|unfold in_grid, in_region, kx, ky, kz; cbn; lia|exact Hp]|].
  split; [exact Hq|]. apply Hs; [apply edges_clear; vm_compute; reflexivity|exact Hq].
Qed.
