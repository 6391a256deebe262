(** C54: what the MapReduce slicer's images show. *)
From Verif Require Import Base BaseLemmas BinvoxModel BinvoxSpec BinvoxLemmas BinvoxProofs BinvoxProps Geom VoxelizeModel VoxelizeSpec VoxelizeSlice VoxelizeFill VoxelizeProps
  VoxelizeShift VoxcutModel VoxcutProps VoxcutDiceProps StldiceModel StldiceProps SvxModel SvxProps MrModel.
From Coq Require Import ZArith QArith Qround List Lia Bool String Permutation Init.Byte.
From stdpp Require Import base list list_numbers gmap sets fin_sets fin_maps.
Import ListNotations.
Open Scope Z_scope.

(** ** The reducer *)

Definition flip (dim : Z) (v : voxelInfo) : voxelInfo := VoxelInfo (v_X v) (dim - 1 - v_Y v) (v_Base v).
Lemma mr_put_flip dim m v : mr_put m v = put_pixel dim m (flip dim v).
Proof. unfold mr_put, put_pixel, flip. cbn [v_X v_Y v_Base]. replace (dim - 1 - (dim - 1 - v_Y v)) with (v_Y v) by lia. reflexivity. Qed.
Lemma mr_pixels dim vs : fold_left mr_put vs ∅ = pixels dim (map (flip dim) vs).
Proof.
  unfold pixels. generalize (∅ : gmap (Z * Z) bool). induction vs as [|v vs IH]; intros m; [reflexivity|]. cbn [fold_left map]. rewrite IH, (mr_put_flip dim). reflexivity.
Qed.
Lemma mr_true vs p : fold_left mr_put vs ∅ !! p = Some true <->
  (exists v, In v vs /\ (v_X v, v_Y v) = p) /\ forall v, In v vs -> (v_X v, v_Y v) = p -> v_Base v = true.
Proof.
  rewrite (mr_pixels 0), pixels_true.
  assert (E : forall v, pixel_of 0 (flip 0 v) = (v_X v, v_Y v)) by (intros v; unfold pixel_of, flip; cbn [v_X v_Y]; f_equal; lia).
  split; intros [(v & Hv & Hp) H]; split.
  - apply in_map_iff in Hv as (u & <- & Hu). rewrite E in Hp. eauto.
  - intros u Hu Hpu. apply (H (flip 0 u)); [apply in_map; exact Hu|rewrite E; exact Hpu].
  - exists (flip 0 v). split; [apply in_map; exact Hv|rewrite E; exact Hp].
  - intros u Hu Hpu. apply in_map_iff in Hu as (w & <- & Hw). rewrite E in Hpu. apply (H w Hw Hpu).
Qed.

Lemma mr_draw_at img kv q : pix (mr_draw img kv) q =
  if decide (q = fst kv /\ in_image img q) then (if snd kv then 255 else 0) else pix img q.
Proof.
  destruct kv as [[a b] c]. unfold mr_draw, set_pixel, in_image. cbn [fst snd]. destruct (_ && _) eqn:E; cbn [pix].
  - destruct (decide (q = (a, b))) as [->|Hq]; [rewrite decide_True by (cbn [fst snd]; split; [reflexivity|lia]); reflexivity|]. rewrite decide_False by tauto. reflexivity.
  - rewrite decide_False; [reflexivity|]. intros [-> H]. cbn [fst snd] in H. lia.
Qed.
Lemma mr_draw_size img kv : iw (mr_draw img kv) = iw img /\ ih (mr_draw img kv) = ih img.
Proof. unfold mr_draw, set_pixel. destruct (_ && _); auto. Qed.
Lemma mr_draw_list_size l : forall img, iw (fold_left mr_draw l img) = iw img /\ ih (fold_left mr_draw l img) = ih img.
Proof. induction l as [|kv l IH]; intros img; [auto|]. cbn [fold_left]. destruct (IH (mr_draw img kv)) as [-> ->]. apply mr_draw_size. Qed.
Lemma mr_draw_list_at l : forall img q, List.NoDup (map fst l) -> in_image img q ->
  (forall b, In (q, b) l -> pix (fold_left mr_draw l img) q = if b : bool then 255 else 0) /\
  ((forall b, ~ In (q, b) l) -> pix (fold_left mr_draw l img) q = pix img q).
Proof.
  induction l as [|[p c] l IH]; intros img q Hnd Hq; [split; [intros b []|reflexivity]|]. inversion_clear Hnd as [|? ? Hni Hnd']. cbn [fold_left].
  assert (Hq' : in_image (mr_draw img (p, c)) q) by (unfold in_image in *; destruct (mr_draw_size img (p, c)) as [-> ->]; exact Hq).
  destruct (IH (mr_draw img (p, c)) q Hnd' Hq') as [I1 I2]. split.
  - intros b [E|Hb]; [|apply I1; exact Hb]. injection E as -> ->. rewrite I2.
    + rewrite mr_draw_at. cbn [fst snd]. rewrite decide_True by auto. reflexivity.
    + intros b' Hb'. apply Hni. apply in_map_iff. exists (q, b'). auto.
  - intros Hn. rewrite I2 by (intros b Hb; apply (Hn b); right; exact Hb). rewrite mr_draw_at. cbn [fst snd]. rewrite decide_False; [reflexivity|].
    intros [-> _]. apply (Hn c). left. reflexivity.
Qed.

(** A pixel is white iff a base voxel and no cut voxel came for it; neither the order of arrival nor
    that of drawing matters. *)
Theorem C54_reducer dim arr pord vs : some_order arr -> some_order pord ->
  let img := reducer dim pord (arr vs) in
  iw img = dim /\ ih img = dim /\ forall x y, 0 <= x < dim -> 0 <= y < dim ->
    (pix img (x, y) = 255 \/ pix img (x, y) = 0) /\
    (pix img (x, y) = 255 <-> In (VoxelInfo x y true) vs /\ ~ In (VoxelInfo x y false) vs).
Proof.
  intros Ha Hp. cbv zeta. unfold reducer. set (m := fold_left mr_put (arr vs) ∅).
  destruct (mr_draw_list_size (pord (map_to_list m)) (black_image dim dim)) as [-> ->]. split; [reflexivity|]. split; [reflexivity|]. intros x y Hx Hy.
  destruct (mr_draw_list_at (pord (map_to_list m)) (black_image dim dim) (x, y)) as [H1 H2].
  - apply (Permutation_NoDup (l := map fst (map_to_list m))); [apply Permutation_map; symmetry; apply Hp|]. apply NoDup_ListNoDup, NoDup_fst_map_to_list.
  - unfold in_image. cbn. lia.
  - assert (Hin : forall b, In ((x, y), b) (pord (map_to_list m)) <-> m !! (x, y) = Some b).
    { intros b. rewrite <- elem_of_map_to_list, elem_of_list_In. split; apply Permutation_in; [apply Hp|symmetry; apply Hp]. }
    assert (Hv : forall v, In v (arr vs) <-> In v vs) by (intros v; split; apply Permutation_in; [apply Ha|symmetry; apply Ha]).
    assert (Hm : m !! (x, y) = Some true <-> In (VoxelInfo x y true) vs /\ ~ In (VoxelInfo x y false) vs).
    { unfold m. rewrite mr_true. split.
      - intros [(v & Hi & E) Hall]. pose proof (Hall v Hi E) as Hb. destruct v as [a b c]. cbn [v_X v_Y v_Base] in *. injection E as -> ->. subst c. split; [apply Hv; exact Hi|].
        intros Hf. apply Hv in Hf. discriminate (Hall _ Hf eq_refl).
      - intros [H3 H4]. split; [exists (VoxelInfo x y true); split; [apply Hv; exact H3|reflexivity]|]. intros [a b c] Hi E. cbn [v_X v_Y v_Base] in *. injection E as -> ->.
        destruct c; [reflexivity|]. apply Hv in Hi. contradiction. }
    destruct (m !! (x, y)) as [b|] eqn:E.
    + rewrite (H1 b) by (apply Hin; reflexivity). destruct b; (split; [auto|]); split; intros H; try discriminate H; try reflexivity; [apply Hm; reflexivity|apply Hm in H; discriminate H].
    + rewrite H2 by (intros b Hb; apply Hin in Hb; discriminate Hb). split; [auto|]. split; intros H; [discriminate H|]. apply Hm in H. discriminate H.
Qed.
Print Assumptions C54_reducer.

(** ** The mappers *)

Section Mr.
  Context (nrm : qpt -> qpt -> qpt -> qpt).
  Notation remake := (remake nrm).

  Lemma remake_distinct mesh : NoDup (map taddr (remake mesh)).
  Proof.
    apply NoDup_alt. intros i j x Hi Hj. unfold MrModel.remake in *. rewrite list_lookup_fmap, list_lookup_imap in Hi, Hj.
    destruct (mesh !! i) as [t|]; [|discriminate Hi]. destruct (mesh !! j) as [t'|]; [|discriminate Hj]. cbn in Hi, Hj. injection Hi as Hi. injection Hj as Hj. lia.
  Qed.

  Lemma emit_in b ks z x y c : In (z, VoxelInfo x y c) (flat_map (emit b) ks) <-> c = b /\ 0 <= x /\ 0 <= y /\ 0 <= z /\ In (x, y, z) ks.
  Proof.
    rewrite in_flat_map. split.
    - intros (k & Hk & H). unfold emit in H. destruct ((kx k <? 0) || (ky k <? 0) || (kz k <? 0)) eqn:E; [destruct H|]. destruct H as [H|[]]. destruct k as [[a e] f]. unfold kx, ky, kz in *. cbn [fst snd] in *.
      injection H as -> -> -> ->. repeat (split; [reflexivity || lia|]). exact Hk.
    - intros (-> & Hx & Hy & Hz & Hk). exists (x, y, z). split; [exact Hk|]. unfold emit. kproj. replace ((x <? 0) || (y <? 0) || (z <? 0)) with false by lia. left. reflexivity.
  Qed.

  Lemma mapper_in ord j : some_order ord -> zero_dim (j_bv j) = false /\ Colors (j_bv j) = None -> exists rows, mapper nrm ord j = Some rows /\
    forall z x y c, In (z, VoxelInfo x y c) rows <-> c = j_base j /\ 0 <= x /\ 0 <= y /\ 0 <= z /\ result_voxels (Voxelize (j_bv j) (remake (j_mesh j))) (x, y, z).
  Proof.
    intros Ho [Hz Hcol]. unfold mapper. unfold Voxelize. rewrite Hz. eexists. split; [reflexivity|]. intros z x y c. rewrite emit_in.
    set (w := with_white _ _). assert (Hc : colors w = ∅) by (unfold colors, w, with_white; cbn [Colors]; rewrite Hcol; reflexivity). rewrite Hc, map_to_list_empty. cbn [map].
    assert (Eo : ord [] = []) by (apply Permutation_nil; symmetry; apply Ho). rewrite Eo, app_nil_r. cbn [result_voxels].
    assert (G : forall k, In k (ord (elements (white w))) <-> k ∈ white w); [|rewrite G; reflexivity].
    intros k. rewrite <- (elem_of_elements (white w)), elem_of_list_In. split; apply Permutation_in; [apply Ho|symmetry; apply Ho].
  Qed.

  Lemma mappers_in ord js : (forall n, some_order (ord n)) -> (forall j, In j js -> zero_dim (j_bv j) = false /\ Colors (j_bv j) = None) -> forall n, exists rows, mappers nrm ord n js = Some rows /\
    forall z x y c, In (z, VoxelInfo x y c) rows <-> exists j, In j js /\ c = j_base j /\ 0 <= x /\ 0 <= y /\ 0 <= z /\ result_voxels (Voxelize (j_bv j) (remake (j_mesh j))) (x, y, z).
  Proof.
    intros Ho. induction js as [|j js IH]; intros Hz n; [exists []; split; [reflexivity|]; intros z x y c; split; [intros []|intros (? & [] & _)]|].
    destruct (IH (fun j Hj => Hz j (or_intror Hj)) (S n)) as (r' & E' & H'). destruct (mapper_in (ord n) j (Ho n) (Hz j (or_introl eq_refl))) as (r & E & H).
    exists (r ++ r'). cbn [mappers]. rewrite E, E'. split; [reflexivity|]. intros z x y c. rewrite in_app_iff, H, H'. split.
    - intros [G|(j' & Hj' & G)]; [exists j; split; [left; reflexivity|exact G]|exists j'; split; [right; exact Hj'|exact G]].
    - intros (j' & [<-|Hj'] & G); [left; exact G|right; eauto].
  Qed.

  (** ** Specification *)

  (** A mesh as loaded from a file: each triangle at its own address, with the normal of its points. *)
  Definition as_loaded (mesh : list tri) : Prop :=
    distinct_pointers mesh /\ forall t, In t mesh -> tnorm t = nrm (tv1 t) (tv2 t) (tv3 t).

  Lemma remake_same b mesh k : as_loaded mesh -> result_voxels (Voxelize b (remake mesh)) k <-> result_voxels (Voxelize b mesh) k.
  Proof.
    intros [Hd Hn]. apply voxelize_same; [|apply NoDup_ListNoDup, remake_distinct|exact Hd]. clear Hd. unfold MrModel.remake.
    apply Forall2_same_length_lookup_2; [apply imap_length|]. intros i t t' Hi Hi'. rewrite list_lookup_imap, Hi' in Hi. cbn in Hi. injection Hi as <-.
    unfold same_tri. cbn. repeat (split; [reflexivity|]). symmetry. apply Hn. apply elem_of_list_In, elem_of_list_lookup. eauto.
  Qed.

  (** A voxel of the model lies at [k] of some region. *)
  Definition piled (bx : qpt * qpt) (dim nx ny nz : Z) (mesh : list tri) (k : key) : Prop :=
    let td := tile_dims bx dim nx ny nz in
    exists t, in_grid nx ny nz t /\
      model_voxels bx dim mesh (kx t * kx td + kx k, ky t * ky td + ky k, kz t * kz td + kz k).

  Lemma region_result bx dim nx ny nz t mesh k : good bx dim nx ny nz -> as_loaded mesh -> in_grid nx ny nz t -> let td := tile_dims bx dim nx ny nz in
    (0 <= kx k /\ 0 <= ky k /\ 0 <= kz k /\ result_voxels (Voxelize (tile_region bx dim nx ny nz t) (remake mesh)) k) <->
    in_grid (kx td) (ky td) (kz td) k /\ model_voxels bx dim mesh (kx t * kx td + kx k, ky t * ky td + ky k, kz t * kz td + kz k).
  Proof.
    intros (Hs & Hx & Hy & Hz) [Hdp Hnr] Ht td. fold td in Hx, Hy, Hz. rewrite (remake_same _ mesh k (conj Hdp Hnr)).
    pose proof (nonzero_dims bx dim nx ny nz t Hs ltac:(fold td; lia) ltac:(fold td; lia) ltac:(fold td; lia)) as Hzd.
    pose proof (region_dims bx dim nx ny nz t Hs) as Hd. fold td in Hd.
    assert (D1 : NX (tile_region bx dim nx ny nz t) = kx td) by (rewrite <- Hd; reflexivity).
    assert (D2 : NY (tile_region bx dim nx ny nz t) = ky td) by (rewrite <- Hd; reflexivity).
    assert (D3 : NZ (tile_region bx dim nx ny nz t) = kz td) by (rewrite <- Hd; reflexivity).
    pose proof (C42_lost_layers bx dim nx ny nz Hs) as (L1 & L2 & L3 & _). fold td in L1, L2, L3.
    pose proof Hs as (_ & _ & _ & _ & _ & Hnx & Hny & Hnz).
    pose proof (Z.mod_pos_bound (NX (whole bx dim)) nx Hnx). pose proof (Z.mod_pos_bound (NY (whole bx dim)) ny Hny). pose proof (Z.mod_pos_bound (NZ (whole bx dim)) nz Hnz).
    assert (Hwz : zero_dim (whole bx dim) = false) by (unfold zero_dim; nia).
    assert (Hmv : moved_grid (whole bx dim) (tile_region bx dim nx ny nz t) (kx t * kx td, ky t * ky td, kz t * kz td)) by (apply tile_moved; [exact Hs|fold td; lia..]).
    assert (Hin : 0 <= kx k -> 0 <= ky k -> 0 <= kz k -> result_voxels (Voxelize (tile_region bx dim nx ny nz t) mesh) k -> in_grid (kx td) (ky td) (kz td) k).
    { intros A1 A2 A3 Hr. apply Voxelize_in in Hr as [Hkz (_ & Hky & Hkx & _)]; [|exact Hzd|apply NoDup_ListNoDup, Hdp]. rewrite D1 in Hkx. rewrite D2 in Hky. rewrite D3 in Hkz. unfold in_grid, in_region. lia. }
    assert (G : in_grid (kx td) (ky td) (kz td) k -> result_voxels (Voxelize (tile_region bx dim nx ny nz t) mesh) k <-> model_voxels bx dim mesh (kx t * kx td + kx k, ky t * ky td + ky k, kz t * kz td + kz k)).
    { intros Hk. pose proof (voxelize_shift (whole bx dim) _ _ Hmv mesh k Hwz Hzd) as S. destruct k as [[a b] c]. kproj. kproj_in S. unfold shift_key in S. kproj_in S.
      unfold model_voxels. rewrite (Z.add_comm (kx t * kx td)), (Z.add_comm (ky t * ky td)), (Z.add_comm (kz t * kz td)).
      unfold in_grid, in_region in *. kproj_in Hk. kproj_in S. apply S; [exact Hdp|rewrite D1, D2, D3; lia|nia]. }
    split.
    - intros (H1' & H2' & H3' & Hr). pose proof (Hin H1' H2' H3' Hr) as Hk. split; [exact Hk|]. apply G; assumption.
    - intros [Hk Hr]. unfold in_grid, in_region in Hk. repeat (split; [lia|]). apply G; [unfold in_grid, in_region; lia|exact Hr].
  Qed.

  Lemma in_group z rows v : In v (group z rows) <-> In (z, v) rows.
  Proof.
    unfold group. rewrite in_map_iff. split.
    - intros ([z' v'] & E & H). cbn in E. subst. apply List.filter_In in H as [H E]. cbn in E. apply Z.eqb_eq in E as ->. exact H.
    - intros H. exists (z, v). split; [reflexivity|]. apply List.filter_In. split; [exact H|apply Z.eqb_refl].
  Qed.

  (** The file of slice z: it is there iff some region of some mesh has a voxel at height z above the
      region's bottom; its pixel (x, y) is white iff at (x, y, z) of some region the base has a voxel
      and at (x, y, z) of no region a cut has.  The regions are drawn over each other. *)
  Theorem C54_slices dim nx ny nz ord arr pord base cuts z : let bx := bounding_box base in good bx dim nx ny nz -> (forall m, In m (base :: cuts) -> as_loaded m) ->
    (forall n, some_order (ord n)) -> some_order arr -> some_order pord ->
    let td := tile_dims bx dim nx ny nz in
    exists o, mr_slice dim nx ny nz nrm ord arr pord (base :: cuts) z = Some o /\
    match o with
    | None => forall x y m, In m (base :: cuts) -> in_grid (kx td) (ky td) (kz td) (x, y, z) -> ~ piled bx dim nx ny nz m (x, y, z)
    | Some img => iw img = dim /\ ih img = dim /\ 0 <= z < kz td /\
        forall x y, 0 <= x < dim -> 0 <= y < dim ->
          (pix img (x, y) = 255 \/ pix img (x, y) = 0) /\
          (pix img (x, y) = 255 <-> in_grid (kx td) (ky td) (kz td) (x, y, z) /\ piled bx dim nx ny nz base (x, y, z) /\ forall cut, In cut cuts -> ~ piled bx dim nx ny nz cut (x, y, z))
    end.
  Proof.
    intros bx Hg Hld Ho Ha Hp td. pose proof Hg as (Hs & Hx & Hy & Hz). fold td in Hx, Hy, Hz.
    set (js := mesh_jobs dim nx ny nz bx (kx td) (ky td) (kz td) true base ++ flat_map (mesh_jobs dim nx ny nz bx (kx td) (ky td) (kz td) false) cuts).
    assert (Ej : messages dim nx ny nz (base :: cuts) = Some js).
    { unfold messages, mr_jobs. fold bx. rewrite (region_dims3_eq bx dim nx ny nz Hs). fold td. unfold js. clearbody td. clear -Hx Hy Hz. destruct td as [[a b] c]. unfold kx, ky, kz in *. cbn [fst snd] in *.
      replace ((a =? 0) || (b =? 0) || (c =? 0)) with false by lia. reflexivity. }
    unfold mr_slice. rewrite Ej.
    assert (Hjobs : forall b m j, In j (mesh_jobs dim nx ny nz bx (kx td) (ky td) (kz td) b m) <-> exists t, in_grid nx ny nz t /\ j = BvInfo (kx t * kx td, ky t * ky td, kz t * kz td) (tile_region bx dim nx ny nz t) b m) by (intros b m j; apply (in_mesh_jobs dim nx ny nz bx b m j Hs)).
    destruct (mappers_in ord js Ho) with (n := 0%nat) as (rows & Er & Hrows).
    { intros j Hj. assert (E : exists t, j_bv j = tile_region bx dim nx ny nz t).
      { apply in_app_iff in Hj as [Hj|Hj]; [|apply in_flat_map in Hj as (m & _ & Hj)]; apply Hjobs in Hj as (t & _ & ->); exists t; reflexivity. }
      destruct E as (t & ->). split; [|reflexivity]. apply nonzero_dims; [exact Hs|fold td; lia..]. }
    rewrite Er.
    assert (Hone : forall b m x y, In m (base :: cuts) -> (exists j, In j (mesh_jobs dim nx ny nz bx (kx td) (ky td) (kz td) b m) /\ b = j_base j /\ 0 <= x /\ 0 <= y /\ 0 <= z /\ result_voxels (Voxelize (j_bv j) (remake (j_mesh j))) (x, y, z))
       <-> in_grid (kx td) (ky td) (kz td) (x, y, z) /\ piled bx dim nx ny nz m (x, y, z)).
    { intros b m x y Hm. specialize (Hld m Hm). unfold piled. fold td. split.
      - intros (j & Hj & _ & H). apply Hjobs in Hj as (t & Ht & ->). cbn [j_bv j_mesh] in H. apply (region_result bx dim nx ny nz t m (x, y, z) Hg Hld Ht) in H as [H1 H2]. fold td in H1, H2. eauto.
      - intros (Hin & t & Ht & H). pose proof (region_result bx dim nx ny nz t m (x, y, z) Hg Hld Ht) as G. fold td in G. cbv zeta in G. destruct G as [_ G]. destruct (G (conj Hin H)) as (H1 & H2 & H3 & H4). kproj_in H1. kproj_in H2. kproj_in H3.
        eexists. split; [apply Hjobs; exists t; split; [exact Ht|reflexivity]|]. cbn [j_base j_bv j_mesh]. tauto. }
    assert (Hbase : forall x y, In (z, VoxelInfo x y true) rows <-> in_grid (kx td) (ky td) (kz td) (x, y, z) /\ piled bx dim nx ny nz base (x, y, z)).
    { intros x y. rewrite Hrows, <- (Hone true base x y (or_introl eq_refl)). split; intros (j & Hj & H); exists j; (split; [|exact H]).
      - apply in_app_iff in Hj as [Hj|Hj]; [exact Hj|]. exfalso. apply in_flat_map in Hj as (m & _ & Hj). apply Hjobs in Hj as (t & _ & ->). destruct H as [E _]. discriminate E.
      - apply in_app_iff. left. exact Hj. }
    assert (Hcut : forall x y, In (z, VoxelInfo x y false) rows <-> in_grid (kx td) (ky td) (kz td) (x, y, z) /\ exists m, In m cuts /\ piled bx dim nx ny nz m (x, y, z)).
    { intros x y. rewrite Hrows. split.
      - intros (j & Hj & H). apply in_app_iff in Hj as [Hj|Hj]; [exfalso; apply Hjobs in Hj as (t & _ & ->); destruct H as [E _]; discriminate E|].
        apply in_flat_map in Hj as (m & Hm & Hj). destruct (proj1 (Hone false m x y (or_intror Hm))) as [H1 H2]; [eauto|]. eauto.
      - intros (H1 & m & Hm & H2). destruct (proj2 (Hone false m x y (or_intror Hm)) (conj H1 H2)) as (j & Hj & H). exists j. split; [|exact H]. apply in_app_iff. right. apply in_flat_map. eauto. }
    eexists. split; [reflexivity|]. destruct (group z rows) as [|v vs] eqn:Eg.
    - intros x y m Hm Hin Hpil. assert (G : exists b, In (VoxelInfo x y b) (group z rows)).
      { destruct Hm as [<-|Hm]; [exists true; apply in_group, Hbase; auto|exists false; apply in_group, Hcut; eauto]. }
      destruct G as (b & G). rewrite Eg in G. destruct G.
    - rewrite <- Eg. destruct (C54_reducer dim arr pord (group z rows) Ha Hp) as (E1 & E2 & Hpix). split; [exact E1|]. split; [exact E2|]. split.
      + assert (Hv : In (z, v) rows) by (apply in_group; rewrite Eg; left; reflexivity). destruct v as [x y []]; [apply Hbase in Hv as [Hv _]|apply Hcut in Hv as [Hv _]]; unfold in_grid, in_region in Hv; kproj_in Hv; lia.
      + intros x y Hx' Hy'. destruct (Hpix x y Hx' Hy') as [H1 H2]. split; [exact H1|]. rewrite H2, !in_group, Hbase, Hcut. split.
        * intros [[H3 H4] H5]. split; [exact H3|]. split; [exact H4|]. intros cut Hc Hpl. apply H5. eauto.
        * intros (H3 & H4 & H5). split; [auto|]. intros (_ & m & Hm & Hpl). exact (H5 m Hm Hpl).
  Qed.

  (** With a single region, the image shows base minus cuts. *)
  Theorem C54_one_region dim ord arr pord base cuts z img : let bx := bounding_box base in good bx dim 1 1 1 -> (forall m, In m (base :: cuts) -> as_loaded m) ->
    (forall n, some_order (ord n)) -> some_order arr -> some_order pord ->
    mr_slice dim 1 1 1 nrm ord arr pord (base :: cuts) z = Some (Some img) ->
    forall x y, 0 <= x < dim -> 0 <= y < dim ->
      pix img (x, y) = 255 <-> in_grid (NX (whole bx dim)) (NY (whole bx dim)) (NZ (whole bx dim)) (x, y, z) /\ carved bx dim base cuts (x, y, z).
  Proof.
    intros bx Hg Hld Ho Ha Hp E x y Hx Hy. destruct (C54_slices dim 1 1 1 ord arr pord base cuts z Hg Hld Ho Ha Hp) as (o & E' & H). fold bx in H. rewrite E in E'. injection E' as <-.
    destruct H as (_ & _ & _ & H). destruct (H x y Hx Hy) as [_ ->]. pose proof Hg as (Hs & Hdx & Hdy & Hdz).
    pose proof (C42_lost_layers bx dim 1 1 1 Hs) as (L1 & L2 & L3 & _). rewrite Z.mod_1_r in L1, L2, L3.
    set (td := tile_dims bx dim 1 1 1) in *. replace (NX (whole bx dim)) with (kx td) by lia. replace (NY (whole bx dim)) with (ky td) by lia. replace (NZ (whole bx dim)) with (kz td) by lia.
    assert (G : forall m, piled bx dim 1 1 1 m (x, y, z) <-> model_voxels bx dim m (x, y, z)).
    { intros m. unfold piled. fold td. kproj. split.
      - intros (t & Ht & Hm). unfold in_grid, in_region in Ht. replace (kx t) with 0 in Hm by lia. replace (ky t) with 0 in Hm by lia. replace (kz t) with 0 in Hm by lia. exact Hm.
      - intros Hm. exists (0, 0, 0). split; [unfold in_grid, in_region; kproj; lia|exact Hm]. }
    unfold carved. rewrite G. split.
    - intros (H1 & H2 & H3). split; [exact H1|]. split; [exact H2|]. intros cut Hc. rewrite <- G. apply H3, Hc.
    - intros (H1 & H2 & H3). split; [exact H1|]. split; [exact H2|]. intros m Hm. rewrite G. apply H3, Hm.
  Qed.
End Mr.
Print Assumptions C54_slices.
Print Assumptions C54_one_region.

(** ** Examples *)

(** The normal of a triangle parallel to two axes. *)
Definition ex_nrm (a b c : qpt) : qpt :=
  let u := ((px b - px a)%Q, (py b - py a)%Q, (pz b - pz a)%Q) in let v := ((px c - px a)%Q, (py c - py a)%Q, (pz c - pz a)%Q) in
  let n := ((py u * pz v - pz u * py v)%Q, (pz u * px v - px u * pz v)%Q, (px u * py v - py u * px v)%Q) in
  let len := (Qabs.Qabs (px n) + Qabs.Qabs (py n) + Qabs.Qabs (pz n))%Q in
  (Qred (px n / len), Qred (py n / len), Qred (pz n / len)).
Definition ex_show (o : option (option image)) (n : nat) : option (list (list Z)) :=
  match o with Some (Some img) => Some (map (fun y => map (fun x => pix img (Z.of_nat x, Z.of_nat y)) (seq 0 n)) (seq 0 n)) | _ => None end.

(** The box 4 x 3 x 4 minus a box over its middle: slice 1 in one region, and in two regions along X.
    There the file is only two voxels wide and the cut, which lies in both regions, removes from both. *)
Lemma ex_as_loaded : forall m, In m [ex_box_mesh; ex_cut_mesh] -> as_loaded ex_nrm m.
Proof.
  intros m [<-|[<-|[]]]; (split; [unfold distinct_pointers; vm_compute; repeat constructor; cbn; intuition discriminate|]); intros t Ht; vm_compute in Ht;
  repeat (destruct Ht as [<-|Ht]; [vm_compute; reflexivity|]); destruct Ht.
Qed.
Example C54_ex : good (bounding_box ex_box_mesh) 4 1 1 1 /\ good (bounding_box ex_box_mesh) 4 2 1 1 /\
  ex_show (mr_slice 4 1 1 1 ex_nrm (fun _ l => l) (fun l => l) (fun l => l) [ex_box_mesh; ex_cut_mesh] 1) 4 =
    Some [[255; 255; 255; 255];
          [255;   0;   0; 255];
          [255;   0;   0; 255];
          [  0;   0;   0;   0]] /\
  ex_show (mr_slice 4 2 1 1 ex_nrm (fun _ l => l) (fun l => l) (fun l => l) [ex_box_mesh; ex_cut_mesh] 1) 4 =
    Some [[255; 255; 0; 0];
          [  0;   0; 0; 0];
          [  0;   0; 0; 0];
          [  0;   0; 0; 0]].
Proof.
  rewrite C42_bounding_box_ex. split; [unfold good, sane; vm_compute; repeat split; discriminate || reflexivity|]. split; [unfold good, sane; vm_compute; repeat split; discriminate || reflexivity|].
  split; vm_compute; reflexivity.
Qed.
(** With -nz 2 there is no file for the upper half. *)
Example C54_lost_slice_ex : ex_show (mr_slice 4 1 1 1 ex_nrm (fun _ l => l) (fun l => l) (fun l => l) [ex_box_mesh] 3) 4 <> None /\
  mr_slice 4 1 1 2 ex_nrm (fun _ l => l) (fun l => l) (fun l => l) [ex_box_mesh] 3 = Some None.
Proof. split; vm_compute; [discriminate|reflexivity]. Qed.
