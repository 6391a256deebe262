(** Properties of stl2svx's slices: C45 and C53. *)
From Verif Require Import Base BaseLemmas BinvoxModel BinvoxSpec BinvoxLemmas BinvoxProofs BinvoxProps FloatTextQ Geom VoxelizeModel VoxelizeSpec VoxelizeSlice VoxelizeFill VoxelizeProps
  VoxelizeShift VoxcutModel VoxcutProps VoxcutDiceProps StldiceModel StldiceProps SvxModel.
From Coq Require Import ZArith QArith Qround List Lia Lqa Bool String Permutation Init.Byte.
From stdpp Require Import base list list_numbers gmap sets fin_sets fin_maps.
Import ListNotations.
Open Scope Z_scope.

(** ** C45: the pixels *)

(** The pixel a value is drawn on. *)
Definition pixel_of (dim : Z) (v : voxelInfo) : Z * Z := (v_X v, dim - 1 - v_Y v).

Lemma pixels_lookup dim vs p :
  pixels dim vs !! p =
    if forallb (fun v => bool_decide (pixel_of dim v <> p)) vs then None
    else Some (forallb (fun v => bool_decide (pixel_of dim v <> p) || v_Base v) vs).
Proof.
  unfold pixels. induction vs as [|v vs IH] using rev_ind; [apply lookup_empty|].
  rewrite fold_left_app, !forallb_app. cbn [fold_left forallb]. rewrite !andb_true_r.
  set (m := fold_left (put_pixel dim) vs ∅) in *. unfold put_pixel. fold (pixel_of dim v).
  destruct (decide (pixel_of dim v = p)) as [E|E].
  - rewrite (bool_decide_eq_false_2 (pixel_of dim v <> p)) by (intros H; exact (H E)). rewrite andb_false_r. cbn [orb].
    rewrite E. destruct (m !! p) as [[]|] eqn:Em.
    + rewrite lookup_insert. destruct (forallb _ vs); [discriminate|]. injection IH as <-. reflexivity.
    + rewrite Em. destruct (forallb _ vs); [discriminate|]. injection IH as <-. reflexivity.
    + rewrite lookup_insert. destruct (forallb (fun v => bool_decide (pixel_of dim v <> p)) vs) eqn:Ef; [|discriminate].
      f_equal. symmetry. replace (forallb (fun v0 => bool_decide (pixel_of dim v0 <> p) || v_Base v0) vs) with true; [reflexivity|]. symmetry.
      apply forallb_forall. intros u Hu. rewrite forallb_forall in Ef. rewrite (Ef u Hu). reflexivity.
  - rewrite (bool_decide_eq_true_2 (pixel_of dim v <> p)) by exact E. rewrite andb_true_r. cbn [orb]. rewrite andb_true_r. rewrite <- IH.
    destruct (m !! pixel_of dim v) as [[]|]; [apply lookup_insert_ne, E|reflexivity|apply lookup_insert_ne, E].
Qed.

Lemma pixels_true dim vs p : pixels dim vs !! p = Some true <->
  (exists v, In v vs /\ pixel_of dim v = p) /\ forall v, In v vs -> pixel_of dim v = p -> v_Base v = true.
Proof.
  rewrite pixels_lookup. destruct (forallb (fun v => bool_decide (pixel_of dim v <> p)) vs) eqn:E.
  - split; [discriminate|]. intros ((v & Hv & Hp) & _). rewrite forallb_forall in E. specialize (E v Hv). apply bool_decide_eq_true in E. contradiction.
  - split.
    + intros [= H]. rewrite forallb_forall in H. split.
      * apply not_true_iff_false in E. destruct (existsb (fun v => bool_decide (pixel_of dim v = p)) vs) eqn:Ex.
        -- apply existsb_exists in Ex as (v & Hv & Hp). apply bool_decide_eq_true in Hp. eauto.
        -- exfalso. apply E. apply forallb_forall. intros v Hv. apply bool_decide_eq_true. intros Hp. apply not_true_iff_false in Ex. apply Ex.
           apply existsb_exists. exists v. split; [exact Hv|]. apply bool_decide_eq_true. exact Hp.
      * intros v Hv Hp. specialize (H v Hv). rewrite bool_decide_eq_false_2 in H by (intros Hn; exact (Hn Hp)). exact H.
    + intros (_ & H). f_equal. apply forallb_forall. intros v Hv. destruct (decide (pixel_of dim v = p)) as [Hp|Hp].
      * rewrite (H v Hv Hp), orb_true_r. reflexivity.
      * rewrite bool_decide_eq_true_2 by exact Hp. reflexivity.
Qed.

(** The order in which the map of pixels is drawn does not matter. *)
Lemma draw_list_size l : forall img, iw (fold_left draw_pixel l img) = iw img /\ ih (fold_left draw_pixel l img) = ih img.
Proof.
  induction l as [|kv l IH]; intros img; [auto|]. cbn [fold_left]. destruct (IH (draw_pixel img kv)) as [-> ->].
  unfold draw_pixel, set_pixel. destruct (_ && _); auto.
Qed.

Definition in_image (img : image) (q : Z * Z) : Prop := 0 <= fst q < iw img /\ 0 <= snd q < ih img.

Lemma draw_pixel_at img kv q : pix (draw_pixel img kv) q =
  if decide (q = (fst (fst kv) + 1, snd (fst kv) + 1) /\ in_image img q) then if snd kv then 255 else 0 else pix img q.
Proof.
  unfold draw_pixel, set_pixel, in_image. cbn [fst snd]. destruct ((0 <=? _) && _ && _ && _) eqn:E.
  - cbn [pix]. case_decide as H1; case_decide as H2; try reflexivity.
    + exfalso. apply H2. split; [exact H1|]. subst q. cbn [fst snd]. lia.
    + exfalso. apply H1. tauto.
  - case_decide as H2; [|reflexivity]. exfalso. destruct H2 as [-> H2]. cbn [fst snd] in H2. lia.
Qed.

Lemma draw_list_at l : forall img q, List.NoDup (map fst l) -> in_image img q ->
  (forall b, In ((fst q - 1, snd q - 1), b) l -> pix (fold_left draw_pixel l img) q = if b then 255 else 0) /\
  ((forall b, ~ In ((fst q - 1, snd q - 1), b) l) -> pix (fold_left draw_pixel l img) q = pix img q).
Proof.
  induction l as [|[k v] l IH]; intros img q Hnd Hq; [split; [intros b []|reflexivity]|].
  cbn [map fst] in Hnd. inversion_clear Hnd as [|? ? Hni Hnd']. cbn [fold_left].
  assert (Hq' : in_image (draw_pixel img (k, v)) q).
  { unfold in_image in *. pose proof (draw_list_size [(k, v)] img) as [E1 E2]. cbn [fold_left] in E1, E2. rewrite E1, E2. exact Hq. }
  destruct (IH (draw_pixel img (k, v)) q Hnd' Hq') as [H1 H2]. split.
  - intros b [E|Hin]; [|apply H1, Hin]. injection E as -> ->. rewrite H2.
    + rewrite draw_pixel_at. cbn [fst snd]. rewrite decide_True; [reflexivity|]. split; [|exact Hq]. destruct q as [a c]. cbn [fst snd]. f_equal; lia.
    + intros b' Hin. apply Hni. apply in_map_iff. exists ((fst q - 1, snd q - 1), b'). auto.
  - intros Hn. rewrite H2.
    + rewrite draw_pixel_at. rewrite decide_False; [reflexivity|]. intros [E _]. apply (Hn v). left. f_equal. subst q. cbn [fst snd]. destruct k as [a c]. cbn [fst snd]. f_equal; lia.
    + intros b Hin. apply (Hn b). right. exact Hin.
Qed.

(** [pord] and [ord] pick some order. *)
Definition some_order {A} (f : list A -> list A) : Prop := forall l, Permutation (f l) l.

Lemma imager_spec dim pord vs : some_order pord ->
  iw (imager dim pord vs) = dim + 2 /\ ih (imager dim pord vs) = dim + 2 /\
  forall x y, 0 <= x < dim + 2 -> 0 <= y < dim + 2 ->
    pix (imager dim pord vs) (x, y) = if decide (pixels dim vs !! (x - 1, y - 1) = Some true) then 255 else 0.
Proof.
  intros Hp. unfold imager. destruct (draw_list_size (pord (map_to_list (pixels dim vs))) (black_image (dim + 2) (dim + 2))) as [-> ->].
  split; [reflexivity|]. split; [reflexivity|]. intros x y Hx Hy.
  pose proof (Hp (map_to_list (pixels dim vs))) as Hperm.
  destruct (draw_list_at (pord (map_to_list (pixels dim vs))) (black_image (dim + 2) (dim + 2)) (x, y)) as [H1 H2].
  - apply (Permutation_NoDup (l := map fst (map_to_list (pixels dim vs)))); [apply Permutation_map; symmetry; exact Hperm|]. apply NoDup_ListNoDup, NoDup_fst_map_to_list.
  - unfold in_image. cbn. lia.
  - cbn [fst snd] in *.
    assert (Hin : forall b, In ((x - 1, y - 1), b) (pord (map_to_list (pixels dim vs))) <-> pixels dim vs !! (x - 1, y - 1) = Some b).
    { intros b. rewrite <- elem_of_map_to_list, elem_of_list_In. split; apply Permutation_in; [exact Hperm|symmetry; exact Hperm]. }
    destruct (pixels dim vs !! (x - 1, y - 1)) as [b|] eqn:E.
    + rewrite (H1 b) by (apply Hin; reflexivity). destruct b; case_decide as Hd; congruence.
    + rewrite H2; [|intros b Hb; apply Hin in Hb; discriminate]. rewrite decide_False by discriminate. reflexivity.
Qed.

(** ** The voxels sent *)

Lemma send_keys_spec j zi ks : (forall k, In k ks -> kz k + kz (j_off j) = zi) -> 0 <= zi ->
  exists vs, send_keys j zi ks = Some vs /\
    forall v, In v vs <-> v_Base v = j_base j /\ 0 <= v_X v /\ 0 <= v_Y v /\ In (v_X v - kx (j_off j), v_Y v - ky (j_off j), zi - kz (j_off j)) ks.
Proof.
  intros Hz Hzi. induction ks as [|k ks IH]; [exists []; split; [reflexivity|]; intros v; cbn; tauto|].
  destruct IH as (vs & E & Hvs); [intros k' Hk'; apply Hz; right; exact Hk'|]. cbn [send_keys]. cbv zeta.
  pose proof (Hz k (or_introl eq_refl)) as Hk. rewrite Hk, Z.eqb_refl. cbn [negb]. rewrite E.
  eexists. split; [reflexivity|]. intros v.
  assert (Hkey : (v_X v - kx (j_off j), v_Y v - ky (j_off j), zi - kz (j_off j)) = k <-> v_X v = kx k + kx (j_off j) /\ v_Y v = ky k + ky (j_off j)).
  { destruct k as [[a b] c]. unfold kx, ky, kz in *. cbn [fst snd] in *. split; [intros [= H1 H2 H3]; lia|]. intros [H1 H2]. apply key_eq; lia. }
  destruct ((kx k + kx (j_off j) <? 0) || (ky k + ky (j_off j) <? 0) || (zi <? 0)) eqn:Eneg.
  - rewrite Hvs. cbn [In]. split; [tauto|]. intros (Hb & Hx & Hy & [Hh|Hh]); [|tauto]. exfalso. symmetry in Hh. apply Hkey in Hh. lia.
  - cbn [In]. rewrite Hvs. split.
    + intros [<-|H]; [|tauto]. cbn [v_X v_Y v_Base]. repeat split; [lia|lia|]. left. symmetry. apply Hkey. auto.
    + intros (Hb & Hx & Hy & [Hh|Hh]); [left|right; tauto]. symmetry in Hh. apply Hkey in Hh as [H1 H2]. destruct v as [vx vy vb]. cbn in *. subst. reflexivity.
Qed.

Lemma run_jobs_spec ord zi (sends : bvInfo -> voxelInfo -> Prop) js : forall n,
  (forall n j, In j js -> exists vs, voxelize (ord n) j zi = Some vs /\ forall v, In v vs <-> sends j v) ->
  exists vs, run_jobs ord n js zi = Some vs /\ forall v, In v vs <-> exists j, In j js /\ sends j v.
Proof.
  induction js as [|j js IH]; intros n H; [exists []; split; [reflexivity|]; intros v; split; [intros []|intros (? & [] & _)]|].
  destruct (H n j (or_introl eq_refl)) as (vs & E & Hvs). destruct (IH (S n)) as (vs' & E' & Hvs'); [intros m j' Hj'; apply H; right; exact Hj'|].
  exists (vs ++ vs'). cbn [run_jobs]. rewrite E, E'. split; [reflexivity|]. intros v. rewrite in_app_iff, Hvs, Hvs'. split.
  - intros [Hv|(j' & Hj' & Hv)]; [exists j; split; [left; reflexivity|exact Hv]|exists j'; split; [right; exact Hj'|exact Hv]].
  - intros (j' & [<-|Hj'] & Hv); [left; exact Hv|right; eauto].
Qed.

(** ** Specification *)

(** The voxels of a mesh in the base model's grid. *)
Definition model_voxels (bx : qpt * qpt) (dim : Z) (mesh : list tri) (k : key) : Prop :=
  result_voxels (Voxelize (whole bx dim) mesh) k.

(** Base minus cuts. *)
Definition carved (bx : qpt * qpt) (dim : Z) (base : list tri) (cuts : list (list tri)) (k : key) : Prop :=
  model_voxels bx dim base k /\ forall cut, In cut cuts -> ~ model_voxels bx dim cut k.

Definition distinct_pointers (mesh : list tri) : Prop := List.NoDup (map taddr mesh).

(** What a job of a region in the bottom row of regions sends. *)
Lemma voxelize_region ordf bx dim nx ny t zi b mesh : good bx dim nx ny 1 -> distinct_pointers mesh -> some_order ordf ->
  in_grid nx ny 1 t ->
  let td := tile_dims bx dim nx ny 1 in 0 <= zi < kz td ->
  exists vs, voxelize ordf (BvInfo (kx t * kx td, ky t * ky td, kz t * kz td) (tile_region bx dim nx ny 1 t) b mesh) zi = Some vs /\
    forall v, In v vs <-> v_Base v = b /\ 0 <= v_X v /\ 0 <= v_Y v /\
      VoxelizeSpec.solid (tile_region bx dim nx ny 1 t) mesh zi (v_X v - kx t * kx td, v_Y v - ky t * ky td, zi).
Proof.
  intros (Hs & Hx & Hy & Hz) Hnd Ho Ht td Hzi. fold td in Hx, Hy, Hz. unfold voxelize. cbn [j_bv j_mesh].
  assert (Hkz : kz t = 0) by (unfold in_grid, in_region in Ht; lia).
  pose proof (nonzero_dims bx dim nx ny 1 t Hs ltac:(fold td; lia) ltac:(fold td; lia) ltac:(fold td; lia)) as Hzd.
  assert (Hin : forall k, result_voxels (VoxelizeZ (tile_region bx dim nx ny 1 t) mesh zi) k <-> VoxelizeSpec.solid (tile_region bx dim nx ny 1 t) mesh zi k).
  { apply VoxelizeZ_in; [exact Hzd|]. apply NoDup_ListNoDup. exact Hnd. }
  unfold VoxelizeZ in *. rewrite Hzd in *. set (w := list_to_set (slice_voxels (tile_region bx dim nx ny 1 t) mesh zi) : gset key) in *.
  assert (Hc : colors (with_white (tile_region bx dim nx ny 1 t) w) = ∅) by reflexivity. rewrite Hc.
  rewrite map_to_list_empty. cbn [map]. assert (Eo : ordf [] = []) by (apply Permutation_nil; symmetry; apply Ho).
  rewrite Eo, app_nil_r.
  assert (Hks : forall k, In k (ordf (elements (white (with_white (tile_region bx dim nx ny 1 t) w)))) <-> VoxelizeSpec.solid (tile_region bx dim nx ny 1 t) mesh zi k).
  { intros k. rewrite <- Hin. cbn [result_voxels]. rewrite <- elem_of_elements, elem_of_list_In. split; apply Permutation_in; [apply Ho|symmetry; apply Ho]. }
  destruct (send_keys_spec (BvInfo (kx t * kx td, ky t * ky td, kz t * kz td) (tile_region bx dim nx ny 1 t) b mesh) zi
              (ordf (elements (white (with_white (tile_region bx dim nx ny 1 t) w))))) as (vs & E & Hvs).
  - intros k Hk. apply Hks in Hk as (E & _). cbn [j_off]. kproj. rewrite Hkz. lia.
  - lia.
  - exists vs. split; [exact E|]. intros v. rewrite Hvs, Hks. cbn [j_off j_base]. kproj. rewrite Hkz. rewrite Z.mul_0_l, Z.sub_0_r. reflexivity.
Qed.

(** All regions together send the voxels of the whole model in the covered columns. *)
Lemma regions_send bx dim nx ny mesh zi x y : good bx dim nx ny 1 -> distinct_pointers mesh ->
  let td := tile_dims bx dim nx ny 1 in 0 <= zi < kz td ->
  (exists t, in_grid nx ny 1 t /\ 0 <= x /\ 0 <= y /\ VoxelizeSpec.solid (tile_region bx dim nx ny 1 t) mesh zi (x - kx t * kx td, y - ky t * ky td, zi)) <->
  0 <= x < nx * kx td /\ 0 <= y < ny * ky td /\ model_voxels bx dim mesh (x, y, zi).
Proof.
  intros (Hs & Hx & Hy & Hz) Hnd td Hzi. fold td in Hx, Hy, Hz.
  pose proof (C42_lost_layers bx dim nx ny 1 Hs) as (L1 & L2 & L3 & _). fold td in L1, L2, L3.
  pose proof Hs as (_ & _ & _ & _ & _ & Hnx & Hny & _).
  pose proof (Z.mod_pos_bound (NX (whole bx dim)) nx Hnx). pose proof (Z.mod_pos_bound (NY (whole bx dim)) ny Hny).
  assert (HNX : 0 < NX (whole bx dim)) by nia. assert (HNY : 0 < NY (whole bx dim)) by nia.
  assert (HNZ : NZ (whole bx dim) = kz td) by (rewrite Z.mod_1_r in L3; lia).
  assert (Hwz : zero_dim (whole bx dim) = false) by (unfold zero_dim; lia).
  unfold model_voxels. rewrite Voxelize_in by (apply Hwz || (apply NoDup_ListNoDup; exact Hnd)). kproj.
  assert (Hmv : forall t, moved_grid (whole bx dim) (tile_region bx dim nx ny 1 t) (kx t * kx td, ky t * ky td, kz t * kz td)).
  { intros t. apply tile_moved; [exact Hs|fold td; lia..]. }
  assert (Hd : forall t, NX (tile_region bx dim nx ny 1 t) = kx td /\ NY (tile_region bx dim nx ny 1 t) = ky td).
  { intros t. pose proof (region_dims bx dim nx ny 1 t Hs) as Hdims. fold td in Hdims. split; rewrite <- Hdims; reflexivity. }
  split.
  - intros (t & Ht & Hx0 & Hy0 & Hsol). destruct (Hd t) as [D1 D2].
    pose proof Hsol as (_ & Hyb & Hxb & _). kproj_in Hyb. kproj_in Hxb. rewrite D1 in Hxb. rewrite D2 in Hyb.
    assert (Hkz : kz t = 0) by (unfold in_grid, in_region in Ht; lia).
    unfold in_grid, in_region in Ht.
    pose proof (solid_shift_to (whole bx dim) _ _ (Hmv t) mesh zi _ _ Hsol) as G. kproj_in G. rewrite Hkz, Z.mul_0_l, Z.add_0_r in G.
    replace (x - kx t * kx td + kx t * kx td) with x in G by lia. replace (y - ky t * ky td + ky t * ky td) with y in G by lia.
    split; [nia|]. split; [nia|]. split; [lia|]. apply G; nia.
  - intros (Hxr & Hyr & _ & Hsol).
    exists (x / kx td, y / ky td, 0). destruct (Hd (x / kx td, y / ky td, 0)) as [D1 D2]. split.
    + unfold in_grid, in_region. kproj. split; [split; [apply Z.div_pos; lia|apply Z.div_lt_upper_bound; lia]|]. split; [split; [apply Z.div_pos; lia|apply Z.div_lt_upper_bound; lia]|lia].
    + split; [lia|]. split; [lia|].
      pose proof (solid_shift_from (whole bx dim) _ _ (Hmv (x / kx td, y / ky td, 0)) mesh zi (x - x / kx td * kx td) (y - y / ky td * ky td)) as G. kproj_in G. kproj.
      rewrite Z.mul_0_l, Z.add_0_r in G. rewrite D1, D2 in G.
      replace (x - x / kx td * kx td + x / kx td * kx td) with x in G by lia. replace (y - y / ky td * ky td + y / ky td * ky td) with y in G by lia.
      pose proof (Z.mod_pos_bound x (kx td) ltac:(lia)). pose proof (Z.mod_pos_bound y (ky td) ltac:(lia)).
      pose proof (Z.div_mod x (kx td) ltac:(lia)). pose proof (Z.div_mod y (ky td) ltac:(lia)).
      apply G; [exact Hsol|nia|nia].
Qed.

Lemma region_dims3_eq bx dim nx ny nz : sane bx dim nx ny nz -> region_dims3 dim nx ny nz bx = tile_dims bx dim nx ny nz.
Proof. intros H. rewrite <- (region_dims bx dim nx ny nz (0,0,0) H). reflexivity. Qed.

Lemma in_mesh_jobs dim nx ny nz bx b mesh j : sane bx dim nx ny nz ->
  let td := tile_dims bx dim nx ny nz in
  In j (mesh_jobs dim nx ny nz bx (kx td) (ky td) (kz td) b mesh) <->
  exists t, in_grid nx ny nz t /\ j = BvInfo (kx t * kx td, ky t * ky td, kz t * kz td) (tile_region bx dim nx ny nz t) b mesh.
Proof.
  intros Hs td. unfold mesh_jobs. cbv zeta. rewrite in_map_iff.
  pose proof (region_dims3_eq bx dim nx ny nz Hs) as E. fold td in E.
  assert (Er : forall t, region (fst bx) (dice_mmpv (mbb_scale bx) dim) (kx td) (ky td) (kz td) t = tile_region bx dim nx ny nz t).
  { intros t. rewrite <- E. reflexivity. }
  split.
  - intros (t & <- & Ht). apply in_all_tiles in Ht. exists t. rewrite Er. auto.
  - intros (t & Ht & ->). exists t. rewrite Er. split; [reflexivity|]. apply in_all_tiles, Ht.
Qed.

(** With one region along Z, slice zi of the archive shows base minus cuts, mirrored in Y and with a
    border of one pixel, whatever the order in which the maps are walked. *)
Theorem C45_slice_image dim nx ny ord pord base cuts zi :
  let bx := bounding_box base in
  good bx dim nx ny 1 -> (forall m, In m (base :: cuts) -> distinct_pointers m) ->
  (forall n, some_order (ord n)) -> some_order pord ->
  let td := tile_dims bx dim nx ny 1 in 0 <= zi < kz td ->
  exists img, slice_image dim nx ny 1 ord pord (base :: cuts) zi = Some img /\ iw img = dim + 2 /\ ih img = dim + 2 /\
    forall px py, 0 <= px < dim + 2 -> 0 <= py < dim + 2 ->
      (pix img (px, py) = 255 \/ pix img (px, py) = 0) /\
      (pix img (px, py) = 255 <->
       exists x y, px = x + 1 /\ py = dim - y /\ 0 <= x < nx * kx td /\ 0 <= y < ny * ky td /\ carved bx dim base cuts (x, y, zi)).
Proof.
  intros bx Hg Hnd Ho Hp td Hzi. pose proof Hg as (Hs & Hx & Hy & Hz). fold td in Hx, Hy, Hz.
  unfold slice_image, mr_jobs. fold bx. rewrite (region_dims3_eq bx dim nx ny 1 Hs). fold td.
  destruct td as [[dx dy] dz] eqn:Etd. unfold kx, ky, kz in Hx, Hy, Hz, Hzi. cbn [fst snd] in Hx, Hy, Hz, Hzi.
  replace ((dx =? 0) || (dy =? 0) || (dz =? 0)) with false by lia.
  set (sends := fun (j : bvInfo) (v : voxelInfo) => v_Base v = j_base j /\ 0 <= v_X v /\ 0 <= v_Y v /\
     VoxelizeSpec.solid (j_bv j) (j_mesh j) zi (v_X v - kx (j_off j), v_Y v - ky (j_off j), zi)).
  assert (Hjobs : forall b m j, In j (mesh_jobs dim nx ny 1 bx dx dy dz b m) <-> exists t, in_grid nx ny 1 t /\ j = BvInfo (kx t * dx, ky t * dy, kz t * dz) (tile_region bx dim nx ny 1 t) b m).
  { intros b m j. pose proof (in_mesh_jobs dim nx ny 1 bx b m j Hs) as G. fold td in G. rewrite Etd in G. kproj_in G. exact G. }
  assert (Hvox : forall n b m j, distinct_pointers m -> In j (mesh_jobs dim nx ny 1 bx dx dy dz b m) -> exists vs, voxelize (ord n) j zi = Some vs /\ forall v, In v vs <-> sends j v).
  { intros n b m j Hm Hj. apply Hjobs in Hj as (t & Ht & ->).
    pose proof (voxelize_region (ord n) bx dim nx ny t zi b m Hg Hm (Ho n) Ht) as G. fold td in G. rewrite Etd in G. kproj_in G. unfold sends. cbn [j_off j_bv j_base j_mesh]. kproj. apply G. exact Hzi. }
  destruct (run_jobs_spec ord zi sends (mesh_jobs dim nx ny 1 bx dx dy dz true base ++ flat_map (mesh_jobs dim nx ny 1 bx dx dy dz false) cuts) 0) as (vs & Er & Hvs).
  { intros n j Hj. apply in_app_iff in Hj as [Hj|Hj]; [apply (Hvox n true base); [apply Hnd; left; reflexivity|exact Hj]|].
    apply in_flat_map in Hj as (m & Hm & Hj). apply (Hvox n false m); [apply Hnd; right; exact Hm|exact Hj]. }
  rewrite Er. eexists. split; [reflexivity|]. destruct (imager_spec dim pord vs Hp) as (E1 & E2 & Hpix). split; [exact E1|]. split; [exact E2|].
  assert (Hsend : forall b m x y, distinct_pointers m ->
     ((exists j, In j (mesh_jobs dim nx ny 1 bx dx dy dz b m) /\ sends j (VoxelInfo x y b)) <-> 0 <= x < nx * dx /\ 0 <= y < ny * dy /\ model_voxels bx dim m (x, y, zi))).
  { intros b m x y Hm. pose proof (regions_send bx dim nx ny m zi x y Hg Hm) as G. fold td in G. rewrite Etd in G. kproj_in G. rewrite <- G by exact Hzi. split.
    - intros (j & Hj & Hsj). apply Hjobs in Hj as (t & Ht & ->). unfold sends in Hsj. cbn [j_off j_bv j_base j_mesh v_Base v_X v_Y] in Hsj. kproj_in Hsj. exists t. tauto.
    - intros (t & Ht & H). eexists. split; [apply Hjobs; exists t; split; [exact Ht|reflexivity]|]. unfold sends. cbn [j_off j_bv j_base j_mesh v_Base v_X v_Y]. kproj. tauto. }
  assert (Hbase : forall x y, In (VoxelInfo x y true) vs <-> 0 <= x < nx * dx /\ 0 <= y < ny * dy /\ model_voxels bx dim base (x, y, zi)).
  { intros x y. rewrite Hvs. rewrite <- (Hsend true base x y) by (apply Hnd; left; reflexivity). split.
    - intros (j & Hj & Hsj). exists j. split; [|exact Hsj]. apply in_app_iff in Hj as [Hj|Hj]; [exact Hj|]. exfalso. apply in_flat_map in Hj as (m & _ & Hj).
      apply Hjobs in Hj as (t & _ & ->). destruct Hsj as (E & _). discriminate E.
    - intros (j & Hj & Hsj). exists j. split; [apply in_app_iff; left; exact Hj|exact Hsj]. }
  assert (Hcut : forall x y, In (VoxelInfo x y false) vs <-> 0 <= x < nx * dx /\ 0 <= y < ny * dy /\ exists m, In m cuts /\ model_voxels bx dim m (x, y, zi)).
  { intros x y. rewrite Hvs. split.
    - intros (j & Hj & Hsj). apply in_app_iff in Hj as [Hj|Hj].
      + exfalso. apply Hjobs in Hj as (t & _ & ->). destruct Hsj as (E & _). discriminate E.
      + apply in_flat_map in Hj as (m & Hm & Hj). destruct (proj1 (Hsend false m x y (Hnd m (or_intror Hm)))) as (H1 & H2 & H3); [exists j; auto|]. eauto.
    - intros (H1 & H2 & m & Hm & H3). destruct (proj2 (Hsend false m x y (Hnd m (or_intror Hm)))) as (j & Hj & Hsj); [auto|].
      exists j. split; [|exact Hsj]. apply in_app_iff. right. apply in_flat_map. eauto. }
  intros px py Hpx Hpy. rewrite (Hpix px py Hpx Hpy). kproj. split; [case_decide; auto|].
  assert (Hiff : pixels dim vs !! (px - 1, py - 1) = Some true <-> exists x y, px = x + 1 /\ py = dim - y /\ 0 <= x < nx * dx /\ 0 <= y < ny * dy /\ carved bx dim base cuts (x, y, zi)).
  { rewrite pixels_true. split.
    - intros ((v & Hv & Epx) & Hall). pose proof (Hall v Hv Epx) as Hb. destruct v as [x y b]. unfold pixel_of in Epx. cbn [v_X v_Y v_Base] in *. subst b. injection Epx as E3 E4.
      exists x, y. split; [lia|]. split; [lia|]. pose proof (proj1 (Hbase x y) Hv) as (H1 & H2 & H3). split; [exact H1|]. split; [exact H2|]. split; [exact H3|].
      intros m Hm Hmv. assert (Hf : In (VoxelInfo x y false) vs) by (apply Hcut; eauto).
      specialize (Hall _ Hf). unfold pixel_of in Hall. cbn [v_X v_Y v_Base] in Hall. discriminate Hall. f_equal; lia.
    - intros (x & y & -> & -> & H1 & H2 & H3 & H4). split.
      + exists (VoxelInfo x y true). split; [apply Hbase; auto|]. unfold pixel_of. cbn [v_X v_Y]. f_equal; lia.
      + intros [x' y' b] Hv Epx. unfold pixel_of in Epx. cbn [v_X v_Y v_Base] in *. injection Epx as E3 E4. destruct b; [reflexivity|]. exfalso.
        apply Hcut in Hv as (_ & _ & m & Hm & Hmv). apply (H4 m Hm). replace x with x' by lia. replace y with y' by lia. exact Hmv. }
  rewrite <- Hiff. case_decide as Hd; [tauto|]. split; [discriminate|contradiction].
Qed.
Print Assumptions C45_slice_image.

(** More than one region along Z: any voxel in an upper region kills the program. *)
Lemma run_jobs_fatal ord zi j js : In j js -> (forall n, voxelize (ord n) j zi = None) -> forall n, run_jobs ord n js zi = None.
Proof.
  intros Hin Hf. induction js as [|j' js IH]; [destruct Hin|]. intros n. cbn [run_jobs]. destruct Hin as [->|Hin].
  - rewrite Hf. reflexivity.
  - rewrite IH by exact Hin. destruct (voxelize (ord n) j' zi); reflexivity.
Qed.

Lemma send_keys_fatal j zi k ks : In k ks -> kz k + kz (j_off j) <> zi -> send_keys j zi ks = None.
Proof.
  induction ks as [|k' ks IH]; [intros []|]. intros [->|Hin] Hne; cbn [send_keys]; cbv zeta.
  - replace (zi =? kz k + kz (j_off j)) with false by lia. reflexivity.
  - rewrite IH by assumption. destruct (negb _); reflexivity.
Qed.

Theorem C45_upper_regions_fatal dim nx ny nz ord pord base cuts zi m t k :
  let bx := bounding_box base in
  good bx dim nx ny nz -> (forall n, some_order (ord n)) -> In m (base :: cuts) ->
  in_grid nx ny nz t -> 0 < kz t -> result_voxels (VoxelizeZ (tile_region bx dim nx ny nz t) m zi) k ->
  distinct_pointers m ->
  slice_image dim nx ny nz ord pord (base :: cuts) zi = None.
Proof.
  intros bx (Hs & Hx & Hy & Hz) Ho Hm Ht Hkt Hk Hnd. unfold slice_image, mr_jobs. fold bx. rewrite (region_dims3_eq bx dim nx ny nz Hs).
  destruct (tile_dims bx dim nx ny nz) as [[dx dy] dz] eqn:Etd. unfold kx, ky, kz in Hx, Hy, Hz. cbn [fst snd] in Hx, Hy, Hz.
  replace ((dx =? 0) || (dy =? 0) || (dz =? 0)) with false by lia.
  set (j b := BvInfo (kx t * dx, ky t * dy, kz t * dz) (tile_region bx dim nx ny nz t) b m).
  assert (Hj : exists b, In (j b) (mesh_jobs dim nx ny nz bx dx dy dz true base ++ flat_map (mesh_jobs dim nx ny nz bx dx dy dz false) cuts)).
  { assert (G : forall b, In (j b) (mesh_jobs dim nx ny nz bx dx dy dz b m)).
    { intros b. pose proof (in_mesh_jobs dim nx ny nz bx b m (j b) Hs) as G. rewrite Etd in G. kproj_in G. apply G. exists t. auto. }
    destruct Hm as [<-|Hm]; [exists true; apply in_app_iff; left; apply G|exists false; apply in_app_iff; right; apply in_flat_map; eauto]. }
  destruct Hj as (b & Hj). rewrite (run_jobs_fatal ord zi (j b) _ Hj); [reflexivity|]. intros n. unfold voxelize, j. cbn [j_bv j_mesh].
  pose proof (nonzero_dims bx dim nx ny nz t Hs ltac:(rewrite Etd; kproj; lia) ltac:(rewrite Etd; kproj; lia) ltac:(rewrite Etd; kproj; lia)) as Hzd.
  assert (Hkz : kz k = zi).
  { apply VoxelizeZ_in in Hk as (E & _); [exact E|exact Hzd|apply NoDup_ListNoDup; exact Hnd]. }
  destruct (VoxelizeZ (tile_region bx dim nx ny nz t) m zi) as [|b'] eqn:Ev; [destruct Hk|]. cbn [result_voxels] in Hk.
  apply (send_keys_fatal _ zi k); [|cbn [j_off]; kproj; nia]. apply in_app_iff. left. apply (Permutation_in _ (Permutation_sym (Ho n _))).
  apply elem_of_list_In, elem_of_elements, Hk.
Qed.
Print Assumptions C45_upper_regions_fatal.

(** ** C53: the jobs *)

Lemma length_all_tiles nx ny nz : 0 <= nx -> 0 <= ny -> 0 <= nz -> Z.of_nat (length (all_tiles nx ny nz)) = nx * ny * nz.
Proof.
  intros Hx Hy Hz. unfold all_tiles, dice_tiles.
  assert (G : forall {A B} (f : A -> list B) n l, (forall x, length (f x) = n) -> length (flat_map f l) = (length l * n)%nat).
  { intros A B f n l H. induction l as [|a l IH]; [reflexivity|]. cbn. rewrite app_length, IH, H. lia. }
  rewrite (G _ _ _ (length (seqZ 0 ny) * length (seqZ 0 nx))%nat).
  - rewrite !seqZ_length. lia.
  - intros z. rewrite (G _ _ _ (length (seqZ 0 nx))); [reflexivity|]. intros y. apply map_length.
Qed.

Theorem C53_jobs dim nx ny nz base cuts :
  let bx := bounding_box base in good bx dim nx ny nz ->
  let td := tile_dims bx dim nx ny nz in
  let jobs b m := mesh_jobs dim nx ny nz bx (kx td) (ky td) (kz td) b m in
  mr_jobs dim nx ny nz (base :: cuts) = Some (jobs true base ++ flat_map (jobs false) cuts) /\
  forall b m,
    (* each region once, *)
    List.NoDup (map j_off (jobs b m)) /\ Z.of_nat (length (jobs b m)) = nx * ny * nz /\
    (* of the right size, *)
    (forall j, In j (jobs b m) -> NX (j_bv j) = kx td /\ NY (j_bv j) = ky td /\ NZ (j_bv j) = kz td /\ j_base j = b /\ j_mesh j = m) /\
    (* and every voxel of the covered part of the model in exactly one. *)
    forall g, in_grid (nx * kx td) (ny * ky td) (nz * kz td) g ->
      exists j, In j (jobs b m) /\ in_region (kx (j_off j)) (ky (j_off j)) (kz (j_off j)) (kx td) (ky td) (kz td) g /\
        forall j', In j' (jobs b m) -> in_region (kx (j_off j')) (ky (j_off j')) (kz (j_off j')) (kx td) (ky td) (kz td) g -> j' = j.
Proof.
  intros bx (Hs & Hx & Hy & Hz) td jobs. fold td in Hx, Hy, Hz. pose proof Hs as (_ & _ & _ & _ & _ & Hnx & Hny & Hnz).
  pose proof (region_dims3_eq bx dim nx ny nz Hs) as E3. fold td in E3.
  split.
  { unfold mr_jobs. fold bx. rewrite E3. unfold jobs. destruct td as [[dx dy] dz]. unfold kx, ky, kz in Hx, Hy, Hz. cbn [fst snd] in Hx, Hy, Hz. kproj.
    replace ((dx =? 0) || (dy =? 0) || (dz =? 0)) with false by lia. reflexivity. }
  intros b m.
  assert (Hoff : map j_off (jobs b m) = map (fun t => (kx t * kx td, ky t * ky td, kz t * kz td)) (all_tiles nx ny nz)).
  { unfold jobs, mesh_jobs. cbv zeta. rewrite map_map. reflexivity. }
  assert (Hin : forall j, In j (jobs b m) <-> exists t, in_grid nx ny nz t /\ j = BvInfo (kx t * kx td, ky t * ky td, kz t * kz td) (tile_region bx dim nx ny nz t) b m).
  { intros j. apply in_mesh_jobs, Hs. }
  split.
  { rewrite Hoff. apply FinFun.Injective_map_NoDup; [|apply all_tiles_nodup]. intros [[a1 a2] a3] [[b1 b2] b3] H. unfold kx, ky, kz in *. cbn [fst snd] in *.
    clear -H Hx Hy Hz. destruct td as [[u v] w]. cbn [fst snd] in *.
    pose proof (f_equal (fun p => fst (fst p)) H) as H1. pose proof (f_equal (fun p => snd (fst p)) H) as H2. pose proof (f_equal snd H) as H3. cbn [fst snd] in H1, H2, H3.
    f_equal; [f_equal|]; nia. }
  split.
  { unfold jobs, mesh_jobs. cbv zeta. rewrite map_length. apply length_all_tiles; lia. }
  split.
  { intros j Hj. apply Hin in Hj as (t & Ht & ->). cbn [j_bv j_base j_mesh].
    pose proof (region_dims bx dim nx ny nz t Hs) as Hdims. fold td in Hdims. rewrite <- Hdims. kproj. auto. }
  intros g Hg. destruct (C42_coverage bx dim nx ny nz g Hs) as [HC1 HC2]; [fold td; lia..|]. fold td in HC1, HC2.
  apply HC1 in Hg as (t & k & Ht & Hk & ->). eexists. split; [apply Hin; exists t; split; [exact Ht|reflexivity]|]. split.
  - cbn [j_off]. unfold tile_voxel, in_grid, in_region in *. kproj. lia.
  - intros j' Hj' Hr. apply Hin in Hj' as (t' & Ht' & ->). cbn [j_off] in Hr. unfold in_region in Hr. kproj_in Hr.
    assert (E : t = t'); [|subst; reflexivity].
    apply (HC2 t k t' (kx (tile_voxel td t k) - kx t' * kx td, ky (tile_voxel td t k) - ky t' * ky td, kz (tile_voxel td t k) - kz t' * kz td)).
    + exact Hk.
    + unfold in_grid, in_region. kproj. lia.
    + unfold tile_voxel. kproj. apply key_eq; kproj; lia.
Qed.
Print Assumptions C53_jobs.

(** Non-vacuity: the box 4 x 3 x 4 minus a box over its middle, slice 1, in two regions along X. *)
Definition ex_cut_mesh : list tri := box_mesh 1 1 (-1) 2 2 5.

Example C45_ex : good (bounding_box ex_box_mesh) 4 2 1 1 /\
  (forall m, In m [ex_box_mesh; ex_cut_mesh] -> distinct_pointers m) /\
  exists img, slice_image 4 2 1 1 (fun _ l => l) (fun l => l) [ex_box_mesh; ex_cut_mesh] 1 = Some img /\
    map (fun y => map (fun x => pix img (x, y)) [0; 1; 2; 3; 4; 5]) [0; 1; 2; 3; 4; 5] =
    [[0;   0;   0;   0;   0; 0];
     [0;   0;   0;   0;   0; 0];
     [0; 255;   0;   0; 255; 0];
     [0; 255;   0;   0; 255; 0];
     [0; 255; 255; 255; 255; 0];
     [0;   0;   0;   0;   0; 0]].
Proof.
  rewrite C42_bounding_box_ex. split; [unfold good, sane; vm_compute; repeat split; discriminate || reflexivity|]. split.
  - intros m [<-|[<-|[]]]; apply NoDup_ListNoDup; apply (bool_decide_unpack _); vm_compute; exact I.
  - eexists. split; [vm_compute; reflexivity|]. vm_compute. reflexivity.
Qed.

(** With -nz 2 the same input ends in log.Fatal. *)
Example C45_fatal_ex : slice_image 4 2 1 2 (fun _ l => l) (fun l => l) [ex_box_mesh; ex_cut_mesh] 1 = None.
Proof. vm_compute. reflexivity. Qed.
