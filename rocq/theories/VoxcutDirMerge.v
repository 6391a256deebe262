(** C83: the tiles of voxcut-dice that a voxel is in, and the STL tiles put together with merge-stl. *)
From Verif Require Import Base BaseLemmas BinvoxSpec BinvoxModel Geom VoxelizeModel MeshSpec MeshCells MeshInside MeshNear MeshSolid ManifoldModel VoxcutModel VoxcutProps VoxcutDiceProps StldiceModel StldiceProps
  CmdMergeModel CmdMergeProps CmdStlModel CmdStlProps CmdDiceMesh ToMesh ToMeshWind StldiceScriptModel StldiceScript CmdManifold VoxcutDirModel VoxcutDir.
From Verif Require GlobModel GlobProps.
From Coq Require Import ZArith QArith List Bool String Init.Byte Lia Permutation.
From stdpp Require Import base list gmap sets fin_sets.
Import ListNotations.
Open Scope Z_scope.

(** ** In how many tiles a voxel is *)
Definition axis_tiles (size a : Z) : list Z := if doubled size a then [a - size; a] else [a / size * size].
Lemma axis_tiles_in size n a t : 0 < size -> 0 <= a < n -> (In t (axis_tiles size a) <-> (0 <= t < n /\ exists q, t = q * size) /\ t <= a <= t + size).
Proof.
  intros Hs Ha. pose proof (Z.div_mod a size ltac:(lia)) as D. pose proof (Z.mod_pos_bound a size Hs) as M. unfold axis_tiles, doubled.
  pose proof (Z.div_pos a size ltac:(lia) Hs) as P. set (q := a / size) in *. set (r := a mod size) in *. clearbody q r.
  destruct (Z.ltb_spec 0 a) as [H0|H0], (Z.eqb_spec r 0) as [H1|H1]; cbn [andb].
  - subst r. assert (Hq : 1 <= q) by nia. split.
    + intros [<-|[<-|[]]]; (split; [split; [nia|]|lia]); [exists (q - 1); nia|exists q; nia].
    + intros ((G & q' & ->) & L). assert (E : q' = q \/ q' = q - 1) by nia. destruct E as [-> | ->]; [right; left|left]; nia.
  - split.
    + intros [<-|[]]. split; [split; [nia|exists q; reflexivity]|nia].
    + intros ((G & q' & ->) & L). left. assert (q' = q) by nia. subst. reflexivity.
  - assert (a = 0) by lia. subst a. split.
    + intros [<-|[]]. assert (q = 0) by nia. subst q. split; [split; [lia|exists 0; lia]|lia].
    + intros ((G & q' & ->) & L). left. assert (q = 0) by nia. subst q. assert (q' = 0) by nia. subst. reflexivity.
  - exfalso. assert (a = 0) by lia. subst a. nia.
Qed.
Lemma axis_tiles_nodup size a : 0 < size -> List.NoDup (axis_tiles size a).
Proof. intros Hs. unfold axis_tiles. destruct (doubled size a); repeat constructor; [intros [C|[]]; lia|intros []..]. Qed.
Lemma dice_tiles_length xs ys zs : length (dice_tiles xs ys zs) = (length xs * length ys * length zs)%nat.
Proof.
  unfold dice_tiles. induction zs as [|z zs IH]; [cbn; lia|]. cbn [flat_map]. rewrite app_length, IH.
  assert (E : length (flat_map (fun yi => map (fun xi => (xi, yi, z)) xs) ys) = (length xs * length ys)%nat).
  { clear. induction ys as [|y ys IH]; [cbn; lia|]. cbn [flat_map]. rewrite app_length, IH, map_length. cbn [length]. nia. }
  rewrite E. cbn [length]. nia.
Qed.

(** A voxel whose index on an axis is a positive multiple of the size is, on that axis, in two tiles: the STL and VOX files of adjacent
    tiles have a layer of voxels in common. *)
Theorem C83_layers nx ny nz size v : 0 < size -> in_grid nx ny nz v ->
  exists ts, List.NoDup ts /\ (forall t, In t ts <-> tile_corner nx ny nz size t /\ in_tile size t v) /\ Z.of_nat (length ts) = copies size v.
Proof.
  intros Hs Hg. unfold in_grid, in_region in Hg. exists (dice_tiles (axis_tiles size (kx v)) (axis_tiles size (ky v)) (axis_tiles size (kz v))). split; [|split].
  - apply dice_tiles_nodup; apply axis_tiles_nodup, Hs.
  - intros t. rewrite in_dice_tiles, (axis_tiles_in size nx), (axis_tiles_in size ny), (axis_tiles_in size nz) by lia. unfold tile_corner, in_tile, in_grid, in_region. split.
    + intros ((A & B) & (C & D) & (E & F')). repeat split; try lia; [apply A|apply C|apply E].
    + intros ((G & A & B & C) & D & E & F'). repeat split; try lia; assumption.
  - rewrite dice_tiles_length. unfold axis_tiles, copies. destruct (doubled size (kx v)), (doubled size (ky v)), (doubled size (kz v)); reflexivity.
Qed.
Print Assumptions C83_layers.

Lemma zsum_count {A} (p : A -> bool) l : zsum (fun t => if p t then 1 else 0) l = Z.of_nat (length (List.filter p l)).
Proof. induction l as [|a l IH]; [reflexivity|]. cbn [zsum List.filter]. rewrite IH. destruct (p a); cbn [length]; lia. Qed.

(** ** The STL tiles put together *)
(** [m] has the winding number [f w] in voxel [w] of the grid of [b]. *)
Definition winds (b : binvox Q) (m : list face) (f : key -> Z -> Prop) : Prop :=
  forall w d, MeshNear.in_cube d -> let p := near b w d in off_mesh m p /\ (meets_no_edge m p -> f w (winding m p)).

Section Merge.
  Context {error : Type} (no_file : error) (load : list byte -> error + list face) (save : list face -> list byte) (Hfmt : forall m, load (save m) = inr m).
  Context (NewVoxelMesh : list key -> list face -> Prop) (Hlib : forall l m, List.NoDup l -> NewVoxelMesh l m -> surface_of l m).
  Context (ft : FloatText Q) (workers : nat).

  (** voxcut-dice -ostl, by itself or as a printed script, then merge-stl: the surface of what remains of the base, but counted two, four
      or eight times at the voxels that are in more than one tile. *)
  Theorem C83_merge b cuts bname cnames size pv pb ps ts names d0 d1 d2 e :
    well_formed b -> white b <> ∅ -> (0 < vpmm b)%Q -> Forall (fun c => match c with Some c => well_formed c | None => True end) cuts -> hd x00 bname <> x2d ->
    0 < size <= max_int -> ps <> [] -> inputs_safe (NX b) (NY b) (NZ b) size pv pb ps (bname :: cnames) ->
    d0 bname = file_of ft (Some b) -> map d0 cnames = map (file_of ft) cuts -> (forall mid, d0 (ps ++ mid ++ txt ".stl") = None) ->
    List.NoDup ts -> (forall t, In t ts <-> tile_corner (NX b) (NY b) (NZ b) size t) ->
    dice_tiles_run save NewVoxelMesh ft false size pv pb ps (bname :: cnames) d0 ts d1 Finished \/
      (Forall proper (bname :: cnames) /\ forallb ordinary pv = true /\ forallb ordinary pb = true /\ forallb ordinary ps = true /\ run_dry save NewVoxelMesh ft false d0 (dice_dry size pv pb ps (bname :: cnames) ts) d1) ->
    (exists v, remains b cuts v) -> listing d1 names -> GlobProps.in_directory names -> GlobProps.plain ps ->
    GlobModel.merge_stl_any no_file load save true workers ps d1 names d2 e ->
    e = Finished /\ exists m, d2 (ps ++ txt ".stl") = Some (save m) /\
      winds b m (fun w n => (remains b cuts w -> n = copies size w) /\ (~ remains b cuts w -> n = 0)).
  Proof using Hfmt Hlib.
    intros Hwf Hne Hv Hcuts Hname Hs Hps Hsafe Hb Hc Hd0 Hnd Hts Hrun (v0 & Hv0) Hl Hdir Hpp Hm. apply (GlobProps.C86_stl_plain no_file load save true workers ps d1 names d2 e Hpp Hdir) in Hm.
    assert (Hout : ~ (pv = [] /\ pb = [] /\ ps = [])) by tauto.
    set (S := tile_name ps (txt ".stl") size). set (R := tile_rest b cuts size).
    assert (Hafter : (forall n, (forall t, In t ts -> no_output size pv pb ps t n) -> d1 n = d0 n) /\
      forall t, In t ts -> (exists m, d1 (S t) = Some (save m) /\ surrounds b m (R t)) \/ (d1 (S t) = None /\ forall v, ~ R t v)).
    { destruct Hrun as [Hrun|(Hp1 & Hp2 & Hp3 & Hp4 & Hrun)].
      - destruct (C83_dice save NewVoxelMesh Hlib ft false b cuts bname cnames size pv pb ps Hwf Hne Hv Hcuts Hname Hs Hout Hsafe ts d0 d1 Finished Hb Hc Hnd (fun t Ht => proj1 (Hts t) Ht) Hrun) as [H1 H2].
        split; [exact H1|]. intros t Ht. left. destruct (H2 t Ht) as (_ & _ & Hst & _). exact (Hst Hps).
      - destruct (C83_dry save NewVoxelMesh Hlib ft false b cuts bname cnames size pv pb ps Hwf Hne Hv Hcuts Hname Hs Hout Hsafe ts d0 d1 Hb Hc Hnd (fun t Ht => proj1 (Hts t) Ht) Hp1 Hp2 Hp3 Hp4 Hrun) as [H1 H2].
        split; [exact H1|]. intros t Ht. destruct (H2 t Ht) as [[[_ Ha] Hn]|(_ & _ & Hst & _)]; [right|left; exact (Hst Hps)]. split.
        + unfold S. rewrite Hn by (intros (_ & C & _); apply (C Hps); reflexivity). unfold tile_name. rewrite !app_assoc. rewrite <- !(app_assoc ps). apply Hd0.
        + intros v (Hr & Hin). apply Ha. exists v. split; [exact Hr|]. unfold in_closed, axis_window, in_tile in *. lia. }
    clear Hrun. destruct Hafter as [Hother Htile].
    assert (HSinj : forall t t', In t ts -> In t' ts -> S t = S t' -> t = t') by (intros t t' H1 H2 E; apply (C41_names_distinct ps (txt ".stl") size (NX b) (NY b) (NZ b)); [apply Hts, H1|apply Hts, H2|exact E]).
    set (ts' := List.filter (fun t => match d1 (S t) with Some _ => true | None => false end) ts).
    assert (Hts' : forall t, In t ts' <-> In t ts /\ d1 (S t) <> None).
    { intros t. unfold ts'. rewrite filter_In. destruct (d1 (S t)); split; intros [? ?]; (split; [assumption|]); congruence. }
    assert (Hnts' : List.NoDup ts') by (apply List.NoDup_filter, Hnd).
    assert (HR : forall t v, In t ts -> R t v -> In t ts').
    { intros t v Ht Hr. apply Hts'. split; [exact Ht|]. destruct (Htile t Ht) as [(m & -> & _)|[_ C]]; [discriminate|]. exfalso. exact (C v Hr). }
    assert (HS : forall t, exists mid, S t = ps ++ mid ++ txt ".stl" /\ mid <> []).
    { intros t. unfold S, tile_name. rewrite !app_assoc, <- !(app_assoc ps). eexists. split; [reflexivity|]. discriminate. }
    assert (Hparts : stl_parts d1 ps (map S ts')).
    { split.
      - apply NoDup_ListNoDup, NoDup_fmap_2_strong; [|apply NoDup_ListNoDup, Hnts']. intros t t' Ht Ht' E'. rewrite elem_of_list_In in Ht, Ht'. apply HSinj; [apply Hts', Ht|apply Hts', Ht'|exact E'].
      - intros n. split.
        + intros Hn. apply in_map_iff in Hn as (t & <- & Ht). destruct (HS t) as (mid & E & Hmid). split; [|split; [exists mid; exact E|apply Hts', Ht]].
          rewrite E. intros E'. apply app_inv_head in E'. apply (f_equal length) in E'. rewrite app_length in E'. destruct mid; [contradiction|cbn [length] in E'; lia].
        + intros (Hn & (mid & E) & Hdn).
          destruct (List.Exists_dec (fun t => S t = n) ts (fun t => decide (S t = n))) as [Hx|Hx].
          * apply List.Exists_exists in Hx as (t & Ht & Et). apply in_map_iff. exists t. split; [exact Et|]. apply Hts'. rewrite Et. auto.
          * exfalso. apply Hdn. rewrite Hother; [rewrite E; apply Hd0|]. intros t Ht. destruct (no_output_dec size pv pb ps t n) as [?|C]; [assumption|]. exfalso.
            destruct (no_output_case _ _ _ _ _ _ C) as [En|[En|En]].
            -- revert En. rewrite E. unfold tile_name. rewrite !app_assoc. change (txt ".binvox") with (txt ".bi" ++ txt "nvox"). rewrite (app_assoc _ (txt ".bi")). apply ext_neq; [reflexivity|discriminate].
            -- apply Hx, List.Exists_exists. exists t. split; [exact Ht|symmetry; exact En].
            -- revert En. rewrite E. unfold tile_name. rewrite !app_assoc. apply ext_neq; [reflexivity|discriminate]. }
    pose proof (C67_outcome no_file load save true workers ps d1 names d2 e _ Hl (or_introl eq_refl) Hparts Hm) as Hend.
    assert (Hg0 : in_grid (NX b) (NY b) (NZ b) v0) by (apply Hwf, Hv0).
    assert (Hne' : exists t0, In t0 ts').
    { destruct (C41_partition size (NX b) (NY b) (NZ b) v0 ltac:(lia) Hg0) as (t & (Ht & Hin) & _). exists t. apply (HR t v0); [apply Hts, Ht|]. split; [exact Hv0|]. unfold in_region, in_tile in *. lia. }
    destruct Hne' as (t0 & Ht0). destruct e.
    2:{ exfalso. destruct Hend as (_ & f & bytes & er & Hif & Hbb & Hlo). apply in_map_iff in Hif as (t & <- & Ht). apply Hts' in Ht as [Ht Hne']. destruct (Htile t Ht) as [(m & Hd1 & _)|[C _]]; [|contradiction].
        rewrite Hd1 in Hbb. injection Hbb as <-. rewrite Hfmt in Hlo. discriminate. }
    2:{ exfalso. destruct Hend as [C _]. apply map_eq_nil in C. rewrite C in Ht0. destruct Ht0. }
    split; [reflexivity|]. destruct Hend as (_ & forder & ms & Hpo & Hms & Hd2). exists (concat ms). split; [exact Hd2|].
    apply Permutation_map_inv in Hpo as (tt & -> & Hpt).
    assert (Htt : forall t, In t tt <-> In t ts') by (intros t; split; apply Permutation_in; [exact (Permutation_sym Hpt)|exact Hpt]).
    assert (Hall : Forall2 (fun t m => surrounds b m (R t)) tt ms).
    { assert (Hsub : forall t, In t tt -> In t ts') by (intros t; apply Htt). clear -Hms Hsub Hts' Htile Hfmt. remember (map S tt) as l eqn:E. revert tt E Hsub.
      induction Hms as [|f m l ms (bytes & Hb & Hlo) _ IH]; intros [|t tt] E Hsub; try discriminate; constructor.
      - injection E as -> _. destruct (proj1 (Hts' t) (Hsub t (or_introl eq_refl))) as [Ht Hn]. destruct (Htile t Ht) as [(m' & Hd1 & Hsur)|[C _]]; [|contradiction].
        rewrite Hd1 in Hb. injection Hb as <-. rewrite Hfmt in Hlo. injection Hlo as <-. exact Hsur.
      - injection E as _ ->. apply IH; [reflexivity|]. intros t' Ht'. apply Hsub. right. exact Ht'. }
    intros w c Hcube p.
    split. { apply off_concat. clear -Hall Hcube. subst p. induction Hall as [|t m tt ms H _ IH]; constructor; [exact (proj1 (H w c Hcube))|exact IH]. }
    intros Hedge.
    assert (Hsum : Forall2 (fun t m => (R t w -> winding m p = 1) /\ (~ R t w -> winding m p = 0)) tt ms).
    { clear -Hall Hcube Hedge. subst p. induction Hall as [|t m tt ms H _ IH]; constructor.
      - apply (proj2 (H w c Hcube)). eapply no_edge_sub; [|exact Hedge]. intros f Hf. cbn [concat]. apply in_app_iff. left. exact Hf.
      - apply IH. eapply no_edge_sub; [|exact Hedge]. intros f Hf. cbn [concat]. apply in_app_iff. right. exact Hf. }
    rewrite winding_concat. split.
    - intros Hrem. assert (Hg : in_grid (NX b) (NY b) (NZ b) w) by (apply Hwf, Hrem).
      destruct (C83_layers (NX b) (NY b) (NZ b) size w ltac:(lia) Hg) as (l & Hnl & Hin & <-).
      set (pr := fun t : key => if in_dec (fun x y : key => decide (x = y)) t l then true else false).
      assert (Ez : zsum (fun m => winding m p) ms = zsum (fun t => if pr t then 1 else 0) tt).
      { assert (Hcor : forall t, In t tt -> tile_corner (NX b) (NY b) (NZ b) size t) by (intros t Ht; apply Hts, Hts', Htt, Ht).
        clear -Hsum Hin Hrem Hcor. revert Hcor. induction Hsum as [|t m tt ms [H1 H0] _ IH]; intros Hcor; [reflexivity|]. cbn [zsum].
        rewrite IH by (intros t' Ht'; apply Hcor; right; exact Ht'). f_equal. unfold pr. destruct (in_dec _ t l) as [Hi|Hi].
        - apply H1. split; [exact Hrem|apply Hin, Hi].
        - apply H0. intros [_ C]. apply Hi, Hin. split; [apply Hcor; left; reflexivity|exact C]. }
      rewrite Ez, zsum_count. f_equal. apply Permutation_length, Permutation.NoDup_Permutation.
      + apply List.NoDup_filter, (Permutation_NoDup Hpt Hnts').
      + exact Hnl.
      + intros t. rewrite filter_In. unfold pr. destruct (in_dec _ t l) as [Hi|Hi]; [|split; [intros [_ C]; discriminate|contradiction]].
        split; [auto|]. intros _. split; [|reflexivity]. apply Htt. apply Hin in Hi as [H1 H2]. apply (HR t w); [apply Hts, H1|]. split; assumption.
    - intros Hrem. clear -Hsum Hrem. induction Hsum as [|t m tt ms [_ H0] _ IH]; [reflexivity|]. cbn [zsum]. rewrite H0, IH; [reflexivity|]. intros [C _]. contradiction.
  Qed.
End Merge.
Print Assumptions C83_merge.
