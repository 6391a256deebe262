(** C81: stldice and its script on convex solids: the STL file encloses the base minus the cuts. *)
From Verif Require Import Base BaseLemmas BinvoxSpec BinvoxModel Geom VoxelizeModel VoxelizeSpec VoxelizeProps StldiceModel StldiceProps
  CmdMergeModel CmdMergeProps CmdDice MeshSpec MeshCells MeshInside MeshNear MeshSolid CmdStlModel ToMesh StldiceScriptModel ToMeshWind StldiceScript Convex ConvexEx ConvexMesh.
From Coq Require Import ZArith QArith Qabs List Bool String Init.Byte Lia Lqa.
From stdpp Require Import base list gmap.
Import ListNotations.
Open Scope Z_scope.

(** ** Specification *)

(** A convex solid that the slicer and the filler can handle in every layer of grid [b] (as in C80). *)
Definition fit (b : binvox Q) (mesh : list tri) : Prop :=
  convex_surface mesh /\ (forall t, In t mesh -> side_clear t) /\ forall t zi, In t mesh -> 0 <= zi < NZ b -> sliceable t (slice_z b zi).

(** All, and none, of the points close to [p] (1.5 voxels in x and y, half a voxel in z) are in the solid. *)
Definition deep (b : binvox Q) (mesh : list tri) (p : qpt) : Prop := forall r, close b p r -> behind mesh r.
Definition clear_of (b : binvox Q) (mesh : list tri) (p : qpt) : Prop := forall r, close b p r -> ~ behind mesh r.

(** [m] encloses, up to those distances, what is in the solid [base] and in none of the [cuts], within [nx] x [ny] x [nz] voxels of the
    grid [b]; [p] is any point inside a voxel of the (unbounded) grid and not straight above or below an edge of [m]. *)
Definition encloses_rest (b : binvox Q) (nx ny nz : Z) (base : list tri) (cuts : list (list tri)) (m : list face) : Prop :=
  forall w d, MeshNear.in_cube d -> let p := near b w d in meets_no_edge m p ->
    (in_grid nx ny nz w -> deep b base p -> (forall cut, In cut cuts -> clear_of b cut p) -> winding m p = 1) /\
    (clear_of b base p \/ (exists cut, In cut cuts /\ deep b cut p) -> winding m p = 0).

(** ** Proof *)
Lemma whole_ok bx dim nx ny nz : good bx dim nx ny nz -> (0 < vpmm (whole bx dim))%Q /\ zero_dim (whole bx dim) = false /\
  let td := tile_dims bx dim nx ny nz in nx * kx td <= NX (whole bx dim) /\ ny * ky td <= NY (whole bx dim) /\ nz * kz td <= NZ (whole bx dim).
Proof.
  intros (Hs & Hx & Hy & Hz). pose proof (C42_lost_layers bx dim nx ny nz Hs) as (L1 & L2 & L3 & _). cbn zeta in *.
  destruct Hs as (Hsc & _ & _ & _ & Hdim & Hnx & Hny & Hnz).
  pose proof (Z.mod_pos_bound (NX (whole bx dim)) nx Hnx). pose proof (Z.mod_pos_bound (NY (whole bx dim)) ny Hny). pose proof (Z.mod_pos_bound (NZ (whole bx dim)) nz Hnz).
  assert (0 < NX (whole bx dim)) by nia. assert (0 < NY (whole bx dim)) by nia. assert (0 < NZ (whole bx dim)) by nia.
  split; [|split; [unfold zero_dim; lia|repeat split; lia]].
  set (side := (mbb_scale bx / inject_Z dim)%Q). assert (Hside : (0 < side)%Q) by (apply side_pos; assumption).
  assert (Hw : (vpmm (whole bx dim) == 1 / side)%Q).
  { apply (vpmm_grid (Z.max (NX (whole bx dim)) (Z.max (NY (whole bx dim)) (NZ (whole bx dim))))); [lia|exact Hside|apply dim_max|reflexivity]. }
  rewrite Hw. apply Qlt_shift_div_l; [exact Hside|lra].
Qed.

Section Run.
  Context {error : Type} (no_file : error) (load : list byte -> error + list face) (save : list face -> list byte) (Hfmt : forall m, load (save m) = inr m).
  Context (NewVoxelMesh : list key -> list face -> Prop) (Hlib : forall l m, List.NoDup l -> NewVoxelMesh l m -> surface_of l m).
  Context (ft : FloatText Q) (workers : nat).

  (** [stldice base.stl cut1.stl ...] and then the script that it prints, for convex solids with unique names in a directory without
      their files: the STL file that is left encloses the base minus the cuts. *)
  Theorem C81_script d0 box bx dim nx ny nz bname base cuts ws suffixes d2 :
    let args := (bname, base) :: cuts in let b := whole bx dim in let td := tile_dims bx dim nx ny nz in
    let prefix := stlOutPrefix (map fst args) ++ txt "-" ++ show_int dim ++ txt "-" ++ show_int nx ++ txt "-" ++ show_int ny ++ txt "-" ++ show_int nz in
    match box with Some b => b = bx | None => bounding_box base = bx end ->
    good bx dim nx ny nz -> divides dim nx ny nz -> List.NoDup (map fst args) -> Forall proper (map fst args) ->
    (forall name mesh, In (name, mesh) args -> List.NoDup (map taddr mesh) /\ fit b mesh) ->
    (forall n, d0 n <> None -> ~ In x2f n) ->
    (forall name mid, In name (map fst args) -> d0 (name ++ mid ++ txt ".binvox") = None) -> (forall mid, d0 (prefix ++ mid ++ txt ".stl") = None) ->
    stldice_main ft d0 box dim nx ny nz (map (fun a => (fst a, Some (snd a))) args) = (ws, Some suffixes) ->
    run_script no_file load save NewVoxelMesh ft workers (put_files d0 ws) (script (map fst args) dim nx ny nz suffixes) d2 ->
    (exists w d, in_grid (nx * kx td) (ny * ky td) (nz * kz td) w /\ MeshNear.in_cube d /\ deep b base (near b w d) /\ forall cut, In cut (map snd cuts) -> clear_of b cut (near b w d)) ->
    exists n bytes m, d2 n = Some bytes /\ load bytes = inr m /\ encloses_rest b (nx * kx td) (ny * ky td) (nz * kz td) base (map snd cuts) m /\
      ((exists v v', In v suffixes /\ In v' suffixes /\ v <> v') -> n = prefix ++ txt ".stl") /\
      (forall v, (forall v', In v' suffixes -> v' = v) -> n = prefix ++ v ++ txt ".stl").
  Proof using Hfmt Hlib.
    intros args b td prefix Hbox Hgood Hdv Hnd Hplain Hfit Hslash Hd0 Hd0' Hrun Hscr (w0 & e0 & Hg0 & He0 & Hdeep0 & Hclear0).
    pose proof (whole_ok bx dim nx ny nz Hgood) as (Hv & Hz & Tx & Ty & Tz). fold b in Hv, Hz, Tx, Ty, Tz. fold td in Tx, Ty, Tz.
    assert (Hset : forall name mesh w d, In (name, mesh) args -> in_grid (nx * kx td) (ny * ky td) (nz * kz td) w -> MeshNear.in_cube d -> deep b mesh (near b w d) -> model_voxel bx dim nx ny nz mesh w).
    { intros name mesh w d Hin Hg Hd H. destruct (Hfit _ _ Hin) as (Ha & Hc & Hs & Hsl). split; [exact Hg|]. fold b.
      assert (Hg' : in_grid (NX b) (NY b) (NZ b) w) by (clear -Hg Tx Ty Tz; unfold in_grid, in_region in *; lia).
      apply C80_inside; [exact Hz|exact Hv|apply NoDup_ListNoDup, Ha|exact Hc|exact Hs| |exact Hg'|].
      - intros t Ht. apply Hsl; [exact Ht|]. clear -Hg'. unfold in_grid, in_region in Hg'. lia.
      - intros r Hm Hr. apply H. apply near_close; assumption. }
    assert (Hunset : forall name mesh w d, In (name, mesh) args -> MeshNear.in_cube d -> clear_of b mesh (near b w d) -> ~ model_voxel bx dim nx ny nz mesh w).
    { intros name mesh w d Hin Hd H [_ C]. fold b in C. destruct (Hfit _ _ Hin) as (Ha & Hc & _).
      apply C80_near in C as (r & Hr & Hm & Hw); [|exact Hz|exact Hv|apply NoDup_ListNoDup, Ha|exact Hc]. apply (H r); [|exact Hr]. apply near_close; assumption. }
    assert (Hcut : forall cut, In cut (map snd cuts) -> exists name, In (name, cut) args) by (intros cut Hin; apply in_map_iff in Hin as ([name cut'] & <- & Hin); exists name; right; exact Hin).
    assert (Hleft : forall w d, in_grid (nx * kx td) (ny * ky td) (nz * kz td) w -> MeshNear.in_cube d -> deep b base (near b w d) -> (forall cut, In cut (map snd cuts) -> clear_of b cut (near b w d)) ->
      left_over bx dim nx ny nz base (map snd cuts) w).
    { intros w d Hg Hd H1 H2. split; [apply (Hset bname base w d); [left; reflexivity|assumption..]|]. intros cut Hin. destruct (Hcut cut Hin) as (name & Hn). apply (Hunset name cut w d Hn Hd). apply H2, Hin. }
    destruct (C79_script no_file load save Hfmt NewVoxelMesh Hlib ft workers d0 box bx dim nx ny nz bname base cuts ws suffixes d2) as (n & bytes & m & Hd2 & Hlo & Hsur & Hn1 & Hn2);
      [exact Hbox|exact Hgood|exact Hdv|exact Hnd|exact Hplain|intros name mesh Hin; apply (Hfit name mesh Hin)|exact Hslash|exact Hd0|exact Hd0'|exact Hrun|exact Hscr|exists w0; apply (Hleft w0 e0); assumption|].
    exists n, bytes, m. split; [exact Hd2|]. split; [exact Hlo|]. split; [|split; assumption].
    - intros w d Hd p Hne. destruct (Hsur w d Hd) as [_ H]. destruct (H Hne) as [H1 H2]. fold b in H1, H2. fold p in H1, H2. split.
      + intros Hg Hde Hcl. apply H1. apply (Hleft w d); assumption.
      + intros Hor. apply H2. intros [Hb Hc]. destruct Hor as [Ho|(cut & Hin & Hde)]; [exact (Hunset bname base w d (or_introl eq_refl) Hd Ho Hb)|].
        destruct (Hcut cut Hin) as (name & Hn). apply (Hc cut Hin). apply (Hset name cut w d Hn); [apply Hb|exact Hd|exact Hde].
  Qed.
End Run.
