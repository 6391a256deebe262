(** C75: stldice, marching-cubes on every tile, merge-stl: the STL encloses the voxels of the whole model. *)
From Verif Require Import Base BaseLemmas BinvoxSpec BinvoxModel Geom VoxelizeModel VoxelizeSpec VoxelizeProps FloatTextQ StldiceModel StldiceProps CmdMergeModel CmdMergeProps CmdMergeTiles
  CmdDice MeshSpec MeshCells MarchModel MarchProofs MarchProps MeshInside MeshNear MeshSolid StlMerge CmdStlModel CmdStlProps CmdStlClosed.
From Verif Require GlobModel GlobProps.
From Coq Require Import ZArith QArith List Bool String Init.Byte Lia Lqa Permutation.
From stdpp Require Import base list relations gmap sets sorting.
Import ListNotations.
Open Scope Z_scope.

(** ** Joining meshes *)
Lemma winding_app m n q : winding (m ++ n) q = winding m q + winding n q.
Proof. apply zsum_app. Qed.

Lemma winding_point m q q' : qpt_eq q q' -> winding m q = winding m q'.
Proof. intros H. apply zsum_ext. intros t _. apply crossing_q_eq, H. Qed.

Lemma off_mesh_point m q q' : qpt_eq q q' -> off_mesh m q -> off_mesh m q'.
Proof.
  intros (Ex & Ey & Ez)%qpt_eq_iff H a b c Hin (r1 & r2 & r3 & H1 & H2 & H3 & H4 & H5 & H6 & H7). apply (H a b c Hin). exists r1, r2, r3.
  rewrite Ex, Ey, Ez. repeat split; assumption.
Qed.
Lemma no_edge_point m q q' : qpt_eq q q' -> meets_no_edge m q -> meets_no_edge m q'.
Proof. intros (Ex & Ey & Ez)%qpt_eq_iff H a b p Hin Hs [H1 H2]. apply (H a b p Hin Hs). rewrite Ex, Ey. auto. Qed.

Lemma off_concat ms q : Forall (fun m => off_mesh m q) ms -> off_mesh (concat ms) q.
Proof. intros H a b c Hin. apply in_concat in Hin as (m & Hm & Hin). rewrite List.Forall_forall in H. exact (H m Hm a b c Hin). Qed.
Lemma no_edge_concat ms q : Forall (fun m => meets_no_edge m q) ms -> meets_no_edge (concat ms) q.
Proof.
  intros H a b p Hin. unfold mesh_edges in Hin. apply in_flat_map in Hin as (t & Ht & Hin). apply in_concat in Ht as (m & Hm & Ht).
  rewrite List.Forall_forall in H. apply (H m Hm). unfold mesh_edges. apply in_flat_map. eauto.
Qed.
Lemma winding_concat ms q : winding (concat ms) q = zsum (fun m => winding m q) ms.
Proof. induction ms as [|m ms IH]; [reflexivity|]. cbn [concat zsum]. rewrite winding_app, IH. reflexivity. Qed.

(** Grids that place all voxels alike place the points beside them alike. *)
Lemma near_world b b' td t w e : (0 < vpmm b)%Q -> (forall k, qpt_eq (world b k) (world b' (tile_voxel td t k))) ->
  qpt_eq (near b w e) (near b' (tile_voxel td t w) e).
Proof.
  intros Hv H.
  assert (HS : (1 / vpmm b == 1 / vpmm b')%Q).
  { pose proof (H (0,0,0)) as H0. pose proof (H (1,0,0)) as H1. destruct t as [[t1 t2] t3]. unfold qpt_eq, world, tile_voxel, kx, ky, kz in H0, H1. cbn [fst snd] in H0, H1. destruct H0 as (H0 & _), H1 as (H1 & _).
    rewrite inject_Z_plus in H0, H1. change (inject_Z 0) with 0%Q in *. change (inject_Z 1) with 1%Q in *. unfold Qdiv in *. set (s := (/ vpmm b)%Q) in *. set (s' := (/ vpmm b')%Q) in *.
    set (tt := inject_Z (t1 * fst (fst td))) in *. clearbody s s' tt.
    ring_simplify in H0. ring_simplify in H1. rewrite <- H0 in H1 || idtac. lra. }
  specialize (H w). destruct w as [[w1 w2] w3], t as [[t1 t2] t3], e as [[e1 e2] e3]. unfold qpt_eq, world, near, tile_voxel, px, py, pz, kx, ky, kz in *. cbn [fst snd] in *.
  destruct H as (H1 & H2 & H3). unfold Qdiv in *. rewrite !Qmult_1_l in *. set (s := (/ vpmm b)%Q) in *. set (s' := (/ vpmm b')%Q) in *.
  set (a1 := inject_Z (_ + w1)) in *. set (a2 := inject_Z (_ + w2)) in *. set (a3 := inject_Z (_ + w3)) in *. clearbody s s' a1 a2 a3.
  split; [|split].
  - rewrite <- HS in H1 |- *. setoid_replace ((inject_Z w1 + (1 # 2) + e1) * s + TX b)%Q with ((TX b + inject_Z w1 * s) + ((1 # 2) + e1) * s)%Q by ring. rewrite H1. ring.
  - rewrite <- HS in H2 |- *. setoid_replace ((inject_Z w2 + (1 # 2) + e2) * s + TY b)%Q with ((TY b + inject_Z w2 * s) + ((1 # 2) + e2) * s)%Q by ring. rewrite H2. ring.
  - rewrite <- HS in H3 |- *. setoid_replace ((inject_Z w3 + (1 # 2) + e3) * s + TZ b)%Q with ((TZ b + inject_Z w3 * s) + ((1 # 2) + e3) * s)%Q by ring. rewrite H3. ring.
Qed.

Lemma zsum_one {B} `{EqDecision B} (x : B) l : List.NoDup l -> In x l -> zsum (fun y => if decide (y = x) then 1 else 0) l = 1.
Proof.
  intros Hnd Hin. induction Hnd as [|y l Hni _ IH]; [destruct Hin|]. cbn [zsum]. destruct Hin as [->|Hin].
  - rewrite decide_True by reflexivity. rewrite (zsum_ext _ (fun _ => 0)); [|intros z Hz; apply decide_False; intros ->; contradiction].
    assert (E : zsum (fun _ : B => 0) l = 0) by (clear; induction l; cbn; lia). rewrite E. reflexivity.
  - rewrite decide_False by (intros ->; contradiction). rewrite IH by exact Hin. reflexivity.
Qed.

(** The part of the model's grid that [g] is in. *)
Lemma tile_unique td t t' g : 0 < kx td -> 0 < ky td -> 0 < kz td ->
  in_grid (kx td) (ky td) (kz td) (kx g - kx t * kx td, ky g - ky t * ky td, kz g - kz t * kz td) ->
  in_grid (kx td) (ky td) (kz td) (kx g - kx t' * kx td, ky g - ky t' * ky td, kz g - kz t' * kz td) -> t = t'.
Proof.
  intros Hx Hy Hz H H'. assert (L : forall n a b g, 0 < n -> 0 <= g - a * n < n -> 0 <= g - b * n < n -> a = b).
  { clear. intros n a b g Hn Ha Hb. assert (a = g / n) by (apply Z.div_unique with (g - a * n); lia). assert (b = g / n) by (apply Z.div_unique with (g - b * n); lia). congruence. }
  destruct t as [[t1 t2] t3], t' as [[s1 s2] s3]. unfold in_grid, kx, ky, kz in *. cbn [fst snd] in *.
  destruct H as (H1 & H2 & H3), H' as (G1 & G2 & G3). rewrite (L _ _ _ _ Hx H1 G1), (L _ _ _ _ Hy H2 G2), (L _ _ _ _ Hz H3 G3). reflexivity.
Qed.

Lemma filled_model b w : filled b w <-> w ∈ VshellGeom.model_of b.
Proof. unfold filled, VshellGeom.model_of. rewrite elem_of_union, elem_of_dom. reflexivity. Qed.

Lemma stl_not_binvox p mid t : forall q, p ++ mid ++ txt ".stl" <> out_file q t.
Proof.
  intros q E. unfold out_file in E. rewrite !app_assoc in E. apply (f_equal (fun l => List.last l x00)) in E.
  change (txt ".stl") with (txt ".st" ++ [x6c]) in E. change (txt ".binvox") with (txt ".binvo" ++ [x78]) in E. rewrite !app_assoc, !last_last in E. discriminate.
Qed.

(** ** The commands *)
Section Cmd.
  Context {error : Type} (no_file : error) (load : list byte -> error + list face) (save : list face -> list byte)
    (Hfmt : forall m, load (save m) = inr m).

  Lemma mesh_all_out ft order jobs d d1 : mesh_all save ft order d jobs = (d1, Finished) ->
    List.NoDup (map snd jobs) -> (forall n, In n (map snd jobs) -> ~ In n (map fst jobs)) ->
    (forall n, ~ In n (map snd jobs) -> d1 n = d n) /\
    (forall i o, In (i, o) jobs -> exists bytes b m, d i = Some bytes /\ read ft bytes 0 0 0 0 0 0 = inr b /\ MarchingCubes b (order b) = Some m /\ d1 o = Some (save m)).
  Proof using.
    revert d. induction jobs as [|[i o] jobs IH]; intros d E Hnd Hap; cbn [mesh_all] in E; [injection E as <-; split; [reflexivity|intros ? ? []]|].
    unfold mesh_cmd in E. destruct (d i) as [bytes|] eqn:Ed; [|discriminate]. destruct (read ft bytes 0 0 0 0 0 0) as [|b] eqn:Er; [discriminate|].
    destruct (MarchingCubes b (order b)) as [m|] eqn:Em; [|discriminate]. cbn [map fst snd] in Hnd, Hap. inversion_clear Hnd as [|? ? Hni Hnd'].
    destruct (IH _ E Hnd') as [H1 H2]; [intros n Hn Hi; apply (Hap n); [right; exact Hn|right; exact Hi]|]. split.
    - intros n Hn. cbn [map snd] in Hn. rewrite H1 by (intros H; apply Hn; right; exact H). unfold put_file. cbn [fst snd]. apply decide_False. intros ->. apply Hn. left. reflexivity.
    - intros i' o' [Eio|Hin].
      + injection Eio as <- <-. exists bytes, b, m. split; [exact Ed|]. split; [exact Er|]. split; [exact Em|]. rewrite H1 by exact Hni. unfold put_file. cbn [fst snd]. apply decide_True. reflexivity.
      + destruct (H2 i' o' Hin) as (bs & b' & m' & Hd & H3). exists bs, b', m'. split; [|exact H3].
        unfold put_file in Hd. cbn [fst snd] in Hd. destruct (decide (i' = o)) as [->|]; [|exact Hd]. exfalso.
        apply (Hap o); [left; reflexivity|right; apply in_map_iff; exists (o, o'); auto].
  Qed.

  Lemma mesh_all_ok ft order jobs d : (forall b, Permutation (order b) (elements (grid_cells b))) ->
    (forall i, In i (map fst jobs) -> exists bytes b, d i = Some bytes /\ read ft bytes 0 0 0 0 0 0 = inr b) ->
    (forall n, In n (map snd jobs) -> ~ In n (map fst jobs)) -> exists d1, mesh_all save ft order d jobs = (d1, Finished).
  Proof using.
    intros Hord. revert d. induction jobs as [|[i o] jobs IH]; intros d Hi Hap; cbn [mesh_all]; [eauto|].
    destruct (Hi i) as (bytes & b & Hd & Hr); [left; reflexivity|]. unfold mesh_cmd. rewrite Hd, Hr.
    destruct (C33_closed b (order b) (Hord b)) as (m & Em & _). rewrite Em. apply IH.
    - intros i' Hi'. destruct (Hi i' (or_intror Hi')) as (bytes' & b' & Hd' & Hr'). exists bytes', b'. split; [|exact Hr'].
      unfold put_file. cbn [fst snd]. rewrite decide_False; [exact Hd'|]. intros ->. apply (Hap o); [left; reflexivity|right; exact Hi'].
    - intros n Hn Hn'. apply (Hap n); [right; exact Hn|right; exact Hn'].
  Qed.

  (** A mesh is diced, every tile that got a file is meshed into a file of its own, and the results are merged. *)
  Theorem C75_dice_mesh_merge ft order d0 mesh bx dim nx ny nz prefix ws r jobs outp :
    good bx dim nx ny nz -> List.NoDup (map taddr mesh) -> (forall mid, d0 (prefix ++ mid ++ txt ".binvox") = None) ->
    (forall mid, d0 (outp ++ mid ++ txt ".stl") = None) ->
    diceMesh ft d0 mesh bx (mbb_scale bx) dim nx ny nz prefix = (ws, r) ->
    let d := put_files d0 ws in
    List.NoDup (map fst jobs) -> (forall n, In n (map fst jobs) <-> exists t, in_grid nx ny nz t /\ n = out_file prefix t /\ d n <> None) ->
    List.NoDup (map snd jobs) -> (forall n, In n (map snd jobs) -> exists mid, n = outp ++ mid ++ txt ".stl" /\ mid <> []) ->
    (forall b, Permutation (order b) (elements (grid_cells b))) ->
    exists d1, mesh_all save ft order d jobs = (d1, Finished) /\
    forall force workers names d2 e, jobs <> [] -> listing d1 names -> GlobProps.in_directory names -> GlobProps.plain outp ->
      GlobModel.merge_stl_any no_file load save force workers outp d1 names d2 e ->
    e = Finished /\
    exists bytes m, d2 (outp ++ txt ".stl") = Some bytes /\ load bytes = inr m /\ closed_mesh m /\
      encloses (whole bx dim) m (model_voxel bx dim nx ny nz mesh).
  Proof using Hfmt.
    intros Hgood Haddr Hd0 Hd0' Hdice d Hnd1 Hin1 Hnd2 Hout Hord.
    set (td := tile_dims bx dim nx ny nz). pose proof Hgood as (Hs & Hx & Hy & Hz). fold td in Hx, Hy, Hz.
    assert (Hd0'' : forall t, in_grid nx ny nz t -> d0 (out_file prefix t) = None).
    { intros t _. apply (Hd0 _). }
    destruct (diced_files ft d0 mesh bx dim nx ny nz prefix ws r Hgood Hd0'' Hdice) as [Hfile Hother]. fold d in Hfile, Hother.
    assert (Hends : forall n, In n (map snd jobs) -> ~ In n (map fst jobs)).
    { intros n Hn Hi. destruct (Hout n Hn) as (mid & -> & _). apply Hin1 in Hi as (t & _ & E & _). exact (stl_not_binvox _ _ _ _ E). }
    destruct (mesh_all_ok ft order jobs d Hord) as (d1 & Hall); [|exact Hends|].
    { intros i Hi. apply Hin1 in Hi as (t & Ht & -> & Hne).
      destruct (tile_reads ft d bx dim nx ny nz mesh prefix t Hgood Haddr Ht (Hfile t Ht)) as [_ HT]. destruct (HT Hne) as ((bytes & H1 & H2) & _). eauto. }
    exists d1. split; [exact Hall|]. intros force workers names d2 e Hjobs Hl Hdir Hpp Hm. apply (GlobProps.C86_stl_plain no_file load save force workers outp d1 names d2 e Hpp Hdir) in Hm.
    destruct (mesh_all_out ft order jobs d d1 Hall Hnd2 Hends) as [Hrest Hjob].
    assert (Hp : stl_parts d1 outp (map snd jobs)).
    { split; [exact Hnd2|]. intros n. symmetry. split.
      - intros (_ & (mid & ->) & Hn). destruct (in_dec (fun x y => decide (x = y)) (outp ++ mid ++ txt ".stl") (map snd jobs)) as [Hi|Hi]; [exact Hi|]. exfalso.
        apply Hn. rewrite Hrest by exact Hi. rewrite Hother; [apply Hd0'|]. intros t _ E. exact (stl_not_binvox _ _ _ _ E).
      - intros Hn. destruct (Hout n Hn) as (mid & E & Hmid). split; [|split].
        + rewrite E. intros E'. apply app_inv_head in E'. apply Hmid, length_zero_iff_nil. apply (f_equal length) in E'. rewrite app_length in E'. lia.
        + eauto.
        + apply in_map_iff in Hn as ((i & o) & <- & Hio). destruct (Hjob i o Hio) as (bs & b & m & _ & _ & _ & Ho). cbn [snd]. rewrite Ho. discriminate. }
    assert (Hf : force = true \/ d1 (outp ++ txt ".stl") = None).
    { right. destruct (d1 (outp ++ txt ".stl")) eqn:Ed; [|reflexivity]. exfalso.
      destruct (in_dec (fun x y => decide (x = y)) (outp ++ txt ".stl") (map snd jobs)) as [Hi|Hi].
      - apply (proj2 Hp) in Hi. destruct Hi as [C _]. apply C. reflexivity.
      - rewrite Hrest in Ed by exact Hi. rewrite Hother in Ed by (intros t _ E; exact (stl_not_binvox _ [] _ _ E)). pose proof (Hd0' []) as C. cbn [app] in C. rewrite C in Ed. discriminate. }
    pose proof (C67_outcome no_file load save _ _ _ _ _ _ _ (map snd jobs) Hl Hf Hp Hm) as Hend.
    destruct e.
    2:{ exfalso. destruct Hend as (_ & f & bytes & er & Hif & Hb & Hlo). apply in_map_iff in Hif as ((i & o) & <- & Hio). cbn [snd] in Hb.
        destruct (Hjob i o Hio) as (bs & b & m & _ & _ & _ & Hsv). rewrite Hsv in Hb. injection Hb as <-. rewrite Hfmt in Hlo. discriminate. }
    2:{ exfalso. destruct Hend as [C _]. apply map_eq_nil in C. contradiction. }
    split; [reflexivity|]. destruct Hend as (_ & forder & ms & Hpo & Hms & Hd2).
    (* what each part is *)
    assert (Hpart : forall i o m bytes, In (i, o) jobs -> d1 o = Some bytes -> load bytes = inr m -> closed_mesh m /\ exists t, in_grid nx ny nz t /\ i = out_file prefix t /\
      forall g c, in_octahedron c -> off_axes c -> let p := near (whole bx dim) g c in
        let w := (kx g - kx t * kx td, ky g - ky t * ky td, kz g - kz t * kz td) in
        off_mesh m p /\ meets_no_edge m p /\
        (in_grid (kx td) (ky td) (kz td) w -> model_voxel bx dim nx ny nz mesh g -> winding m p = 1) /\
        (~ (in_grid (kx td) (ky td) (kz td) w /\ model_voxel bx dim nx ny nz mesh g) -> winding m p = 0)).
    { intros i o m bytes Hio Hb Hlo. destruct (Hjob i o Hio) as (bs & b & m' & Hi & Hr & HM & Hsv). rewrite Hsv in Hb. injection Hb as <-. rewrite Hfmt in Hlo. injection Hlo as ->.
      split. { destruct (C33_closed b (order b) (Hord b)) as (m' & Em & Hc). rewrite HM in Em. injection Em as ->. exact Hc. }
      destruct (proj1 (Hin1 i)) as (t & Ht & Ei & Hne); [apply in_map_iff; exists (i, o); auto|].
      exists t. split; [exact Ht|]. split; [exact Ei|]. intros g c Hu Huv p w. subst i.
      destruct (tile_reads ft d bx dim nx ny nz mesh prefix t Hgood Haddr Ht (Hfile t Ht)) as [_ HT]. specialize (HT Hne). fold td in HT.
      assert (Erd : rd ft d (out_file prefix t) = b) by (unfold rd; rewrite Hi, Hr; reflexivity). rewrite Erd in HT.
      destruct HT as (_ & Hmod & _ & _ & _ & _ & _ & Hv & Hw).
      assert (Ew : tile_voxel td t w = g) by (subst w; destruct g as [[? ?] ?]; unfold tile_voxel, kx, ky, kz; cbn [fst snd]; apply key_eq; unfold kx, ky, kz; cbn [fst snd]; lia).
      clearbody w. pose proof (near_world b (whole bx dim) td t w c Hv Hw) as Hq. rewrite Ew in Hq. fold p in Hq.
      destruct (C70_inside_marching_cubes b (order b) m w c Hv (Hord b) HM Hu Huv) as (G1 & G2 & G3 & G4).
      rewrite <- !(winding_point m _ p Hq).
      assert (Hfill : filled b w <-> in_grid (kx td) (ky td) (kz td) w /\ model_voxel bx dim nx ny nz mesh g).
      { rewrite <- Ew, <- Hmod. apply filled_model. }
      split; [exact (off_mesh_point m _ p Hq G1)|]. split; [exact (no_edge_point m _ p Hq G2)|]. split.
      - intros Hw1 Hmv. apply G3, Hfill. auto.
      - intros Hn. apply G4. rewrite Hfill. exact Hn. }
    exists (save (concat ms)), (concat ms). split; [exact Hd2|]. split; [apply Hfmt|].
    assert (Hjo : forall o, In o forder -> exists i, In (i, o) jobs).
    { intros o Hio. apply (Permutation_in _ Hpo), in_map_iff in Hio as ((i & o') & <- & Hio). exists i. exact Hio. }
    assert (Hsome : forall (P : list face -> Prop), (forall i o m bytes, In (i, o) jobs -> d1 o = Some bytes -> load bytes = inr m -> P m) -> Forall P ms).
    { intros P HP. clear -Hms HP Hjo. induction Hms as [|o m forder ms (bytes & Hb & El) _ IH]; constructor.
      - destruct (Hjo o (or_introl eq_refl)) as (i & Hio). exact (HP i o m bytes Hio Hb El).
      - apply IH. intros o' Ho'. apply Hjo. right. exact Ho'. }
    split; [apply closed_concat, Hsome; intros i o m bytes H1 H2 H3; exact (proj1 (Hpart i o m bytes H1 H2 H3))|].
    intros g c Hu Huv p.
    split. { apply off_concat, Hsome. intros i o m bytes H1 H2 H3. destruct (Hpart i o m bytes H1 H2 H3) as (_ & t & _ & _ & H). apply (H g c Hu Huv). }
    split. { apply no_edge_concat, Hsome. intros i o m bytes H1 H2 H3. destruct (Hpart i o m bytes H1 H2 H3) as (_ & t & _ & _ & H). apply (H g c Hu Huv). }
    rewrite winding_concat.
    set (W := fun o => match d1 o with Some bytes => match load bytes with inr m => winding m p | inl _ => 0 end | None => 0 end).
    assert (HW : zsum (fun m => winding m p) ms = zsum (fun j => W (snd j)) jobs).
    { rewrite <- (zsum_map W snd jobs), <- (zsum_perm W _ _ Hpo). clear -Hms. subst W. induction Hms as [|o m forder ms (bytes & Hb & El) _ IH]; [reflexivity|].
      cbn [zsum]. rewrite Hb, El, IH. reflexivity. }
    rewrite HW. split.
    - intros Hmv. pose proof Hmv as [Hcov _]. fold td in Hcov.
      assert (Hex : exists t k, in_grid nx ny nz t /\ in_grid (kx td) (ky td) (kz td) k /\ g = tile_voxel td t k) by (apply (C42_coverage bx dim nx ny nz g Hs); fold td; [lia..|exact Hcov]).
      destruct Hex as (t0 & k0 & Ht0 & Hk0 & Eg). symmetry in Eg.
      assert (Hne0 : d (out_file prefix t0) <> None).
      { destruct (tile_reads ft d bx dim nx ny nz mesh prefix t0 Hgood Haddr Ht0 (Hfile t0 Ht0)) as [H _]. apply (H k0 Hk0). fold td. rewrite Eg. exact Hmv. }
      rewrite (zsum_ext _ (fun j => if decide (fst j = out_file prefix t0) then 1 else 0)).
      + transitivity (zsum (fun i => if decide (i = out_file prefix t0) then 1 else 0) (map fst jobs)); [rewrite zsum_map; reflexivity|]. apply zsum_one; [exact Hnd1|]. apply Hin1. exists t0. auto.
      + intros [i o] Hio. cbn [fst snd]. subst W. cbn beta. destruct (Hjob i o Hio) as (_ & _ & m & _ & _ & _ & Hsv). rewrite Hsv, Hfmt.
        destruct (Hpart i o m _ Hio Hsv (Hfmt m)) as (_ & t & Ht & Ei & H). destruct (H g c Hu Huv) as (_ & _ & H1 & H0). cbn zeta in H1, H0.
        assert (Hk0' : in_grid (kx td) (ky td) (kz td) (kx g - kx t0 * kx td, ky g - ky t0 * ky td, kz g - kz t0 * kz td)).
        { replace (kx g - kx t0 * kx td, ky g - ky t0 * ky td, kz g - kz t0 * kz td) with k0; [exact Hk0|]. rewrite <- Eg. symmetry. clear. destruct k0 as [[? ?] ?]. unfold tile_voxel, kx, ky, kz. cbn [fst snd]. rewrite !Z.add_simpl_l. reflexivity. }
        destruct (decide (i = out_file prefix t0)) as [E|E].
        * rewrite Ei in E. apply (C42_names_distinct _ _ _ _ nx ny nz) in E as [_ ->]; [|assumption..]. apply H1; assumption.
        * apply H0. intros [Hw _]. apply E. rewrite Ei. f_equal. apply (tile_unique td t t0 g); [lia..|exact Hw|exact Hk0'].
    - intros Hmv. rewrite (zsum_ext _ (fun _ => 0)); [clear; induction jobs; cbn; lia|].
      intros [i o] Hio. cbn [fst snd]. subst W. cbn beta. destruct (Hjob i o Hio) as (_ & _ & m & _ & _ & _ & Hsv). rewrite Hsv, Hfmt.
      destruct (Hpart i o m _ Hio Hsv (Hfmt m)) as (_ & t & Ht & Ei & H). destruct (H g c Hu Huv) as (_ & _ & _ & H0). apply H0. tauto.
  Qed.
End Cmd.
Print Assumptions C75_dice_mesh_merge.

(** ** Example: the two boxes that merge-binvox misplaces (C65_misplaced_refuted) come out right this way. *)
From Verif Require Import CmdDiceEx.

Definition jobs2 : list (list byte * list byte) :=
  zip (map (out_file (txt "p")) [(1,0,0); (0,1,0); (1,1,0)]) [txt "o-1.stl"; txt "o-2.stl"; txt "o-3.stl"].

Local Opaque mesh2 bx2 ws2 diceMesh.
Example C75_example : exists d1 names d2 bytes m,
  mesh_all ex_save qtext ex_order (put_files (fun _ => None) ws2) jobs2 = (d1, Finished) /\
  listing d1 names /\ GlobModel.merge_stl_any tt ex_load ex_save false 1 (txt "o") d1 names d2 Finished /\ d2 (txt "o.stl") = Some bytes /\ ex_load bytes = inr m /\
  model_voxel bx2 4 2 2 1 mesh2 (0, 2, 0) /\ winding m (near (whole bx2 4) (0, 2, 0) ((1 # 10)%Q, (1 # 4)%Q, (- (1 # 9))%Q)) = 1 /\
  ~ model_voxel bx2 4 2 2 1 mesh2 (0, 0, 0) /\ winding m (near (whole bx2 4) (0, 0, 0) ((1 # 10)%Q, (1 # 4)%Q, (- (1 # 9))%Q)) = 0.
Proof.
  destruct run2 as (l & Hrun).
  assert (Hfmt : forall m, ex_load (ex_save m) = inr m).
  { intros m. rewrite (proj2 ex_format). f_equal. unfold moved. rewrite <- (map_id m) at 2. apply map_ext. intros [[? ?] ?]. reflexivity. }
  pose proof (C75_dice_mesh_merge tt ex_load ex_save Hfmt qtext ex_order (fun _ => None) mesh2 bx2 4 2 2 1 (txt "p") ws2 (Some l) jobs2 (txt "o")) as H.
  pose proof (listing_of_run ws2 nodup2) as Hl2.
  destruct H as (d1 & E1 & H).
  { unfold good, sane; vm_compute; repeat split; discriminate || reflexivity. }
  { apply NoDup_ListNoDup; apply (bool_decide_unpack _); vm_compute; exact I. }
  { reflexivity. } { reflexivity. } { exact Hrun. }
  { apply NoDup_ListNoDup; apply (bool_decide_unpack _); vm_compute; exact I. }
  { intros n. change (map fst jobs2) with (map (out_file (txt "p")) [(1,0,0); (0,1,0); (1,1,0)]). rewrite <- names2. split.
    - intros Hn. pose proof (proj1 (proj2 Hl2 n) Hn) as Hd. rewrite names2, in_map_iff in Hn. destruct Hn as (t & <- & Ht). exists t. split; [|split; [reflexivity|exact Hd]].
      destruct Ht as [<-|[<-|[<-|[]]]]; unfold in_grid, in_region; kproj; lia.
    - intros (t & _ & _ & Hn). apply (proj2 Hl2). exact Hn. }
  { apply NoDup_ListNoDup; apply (bool_decide_unpack _); vm_compute; exact I. }
  { intros n [<-|[<-|[<-|[]]]]; [exists (txt "-1")|exists (txt "-2")|exists (txt "-3")]; split; [reflexivity|discriminate|reflexivity|discriminate|reflexivity|discriminate]. }
  { intros b. reflexivity. }
  assert (Hl : exists names, listing d1 names /\ GlobProps.in_directory names).
  { destruct (mesh_all_out ex_save qtext ex_order jobs2 _ d1 E1) as [Hrest Hjob].
    { apply NoDup_ListNoDup; apply (bool_decide_unpack _); vm_compute; exact I. }
    { intros n H1 H2. cbn in H1, H2. destruct H1 as [<-|[<-|[<-|[]]]]; repeat (destruct H2 as [E|H2]; [vm_compute in E; discriminate E|]); exact H2. }
    exists (map fst ws2 ++ map snd jobs2). split; [split|].
    - rewrite names2. apply NoDup_ListNoDup; apply (bool_decide_unpack _); vm_compute; exact I.
    - intros n. rewrite in_app_iff, (proj2 Hl2 n). split.
      + intros [Hn|Hn].
        * rewrite Hrest; [exact Hn|]. intros Hi. apply (proj2 Hl2) in Hn. rewrite names2 in Hn. cbn in Hi, Hn.
          destruct Hi as [<-|[<-|[<-|[]]]]; repeat (destruct Hn as [E|Hn]; [vm_compute in E; discriminate E|]); exact Hn.
        * apply in_map_iff in Hn as ((i & o) & <- & Hio). destruct (Hjob i o Hio) as (? & ? & m & _ & _ & _ & Ho). cbn [snd]. rewrite Ho. discriminate.
      + intros Hn. destruct (in_dec (fun x y => decide (x = y)) n (map snd jobs2)) as [Hi|Hi]; [right; exact Hi|left]. rewrite <- (Hrest n Hi). exact Hn.
    - rewrite names2. intros n Hn C. assert (G : forallb (fun n => forallb (fun c => negb (Byte.eqb c x2f)) n) (map (out_file (txt "p")) [(1,0,0); (0,1,0); (1,1,0)] ++ map snd jobs2) = true) by (vm_compute; reflexivity).
      rewrite forallb_forall in G. apply G in Hn. rewrite forallb_forall in Hn. apply Hn in C. vm_compute in C. discriminate. }
  destruct Hl as (names & Hl & Hdir). assert (Hpo : GlobProps.plain (txt "o")) by (intros c [<-|[]]; repeat split; discriminate).
  destruct (C67_ends tt ex_load ex_save false 1 (txt "o") d1 names (le_n _)) as (d2 & e & Hm).
  apply (GlobProps.C86_stl_plain tt ex_load ex_save false 1 (txt "o") d1 names d2 e Hpo Hdir) in Hm.
  destruct (H false 1%nat names d2 e ltac:(discriminate) Hl Hdir Hpo Hm) as (-> & bytes & m & Hd2 & Hlo & _ & Hw).
  assert (M1 : model_voxel bx2 4 2 2 1 mesh2 (0, 2, 0)).
  { apply model2. split; [unfold in_grid, in_region; kproj; lia|]. apply (bool_decide_unpack _). vm_compute. exact I. }
  assert (M0 : ~ model_voxel bx2 4 2 2 1 mesh2 (0, 0, 0)).
  { rewrite model2. intros [_ C]. apply (bool_decide_eq_true_2 _) in C. vm_compute in C. discriminate C. }
  exists d1, names, d2, bytes, m. split; [exact E1|]. split; [exact Hl|]. split; [exact Hm|]. split; [exact Hd2|]. split; [exact Hlo|].
  split; [exact M1|]. split; [|split; [exact M0|]].
  - apply (Hw (0, 2, 0) ((1 # 10)%Q, (1 # 4)%Q, (- (1 # 9))%Q)); [reflexivity|repeat split; intros E; vm_compute in E; discriminate|exact M1].
  - apply (Hw (0, 0, 0) ((1 # 10)%Q, (1 # 4)%Q, (- (1 # 9))%Q)); [reflexivity|repeat split; intros E; vm_compute in E; discriminate|exact M0].
Qed.
