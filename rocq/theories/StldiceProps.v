(** Properties of cmd/stldice: C42 and C43. *)
From Verif Require Import Base BaseLemmas BinvoxModel BinvoxSpec BinvoxLemmas BinvoxProofs BinvoxProps FloatTextQ Geom VoxelizeModel VoxelizeSpec VoxelizeSlice VoxelizeFill VoxelizeProps
  VoxelizeShift VoxcutModel VoxcutProps VoxcutDiceProps StldiceModel.
From Coq Require Import ZArith QArith Qround List Lia Lqa Bool String Permutation Init.Byte.
From stdpp Require Import base list list_numbers gmap sets fin_sets.
Import ListNotations.
Open Scope Z_scope.

Ltac kproj := repeat match goal with
  | |- context [kx (?a, ?b, ?c)] => change (kx (a, b, c)) with a
  | |- context [ky (?a, ?b, ?c)] => change (ky (a, b, c)) with b
  | |- context [kz (?a, ?b, ?c)] => change (kz (a, b, c)) with c
  end.
Ltac kproj_in H := repeat match type of H with
  | context [kx (?a, ?b, ?c)] => change (kx (a, b, c)) with a in H
  | context [ky (?a, ?b, ?c)] => change (ky (a, b, c)) with b in H
  | context [kz (?a, ?b, ?c)] => change (kz (a, b, c)) with c in H
  end.

(** ** Specification: the grid of the whole model *)

(** A grid of the given dimensions with its corner at [mn] and voxels of side [side]. *)
Definition grid_at (mn : qpt) (side : Q) (nx ny nz : Z) : binvox Q :=
  BinVOX nx ny nz (px mn) (py mn) (pz mn) (inject_Z (Z.max nx (Z.max ny nz)) * side)%Q None None.

(** The voxels of the model: enough of them, of side scale/dim, to cover the box. *)
Definition whole (bx : qpt * qpt) (dim : Z) : binvox Q :=
  let scale := mbb_scale bx in
  grid_at (fst bx) (scale / inject_Z dim)%Q
    (Qceiling (size_x bx * inject_Z dim / scale)) (Qceiling (size_y bx * inject_Z dim / scale)) (Qceiling (size_z bx * inject_Z dim / scale)).

(** The dimensions of a tile, and the model voxel that voxel [k] of tile [t] stands for. *)
Definition tile_dims (bx : qpt * qpt) (dim nx ny nz : Z) : Z * Z * Z :=
  (NX (whole bx dim) / nx, NY (whole bx dim) / ny, NZ (whole bx dim) / nz).
Definition tile_voxel (td : Z * Z * Z) (t k : key) : key :=
  (kx t * kx td + kx k, ky t * ky td + ky k, kz t * kz td + kz k).

(** The region of tile [t] that the program builds. *)
Definition tile_region (bx : qpt * qpt) (dim nx ny nz : Z) (t : key) : binvox Q :=
  region (fst bx) (dice_mmpv (mbb_scale bx) dim) (region_dim (model_dim (mbb_scale bx) dim (size_x bx)) nx)
    (region_dim (model_dim (mbb_scale bx) dim (size_y bx)) ny) (region_dim (model_dim (mbb_scale bx) dim (size_z bx)) nz) t.

Definition sane (bx : qpt * qpt) (dim nx ny nz : Z) : Prop :=
  (0 < mbb_scale bx)%Q /\ (0 <= size_x bx)%Q /\ (0 <= size_y bx)%Q /\ (0 <= size_z bx)%Q /\ 0 < dim /\ 0 < nx /\ 0 < ny /\ 0 < nz.

Lemma model_dim_ceil scale dim e : (0 < scale)%Q -> 0 < dim ->
  model_dim scale dim e = Qceiling (e * inject_Z dim / scale).
Proof. intros Hs Hd. unfold model_dim, dice_vpmm. apply Qceiling_comp. field. lra. Qed.

Lemma ceil_nonneg q : (0 <= q)%Q -> 0 <= Qceiling q.
Proof. intros H. rewrite <- (Qceiling_Z 0). apply Qceiling_resp_le. exact H. Qed.

Lemma dim_q_pos dim : 0 < dim -> (0 < inject_Z dim)%Q.
Proof. intros H. rewrite Zlt_Qlt in H. exact H. Qed.

Lemma whole_dims_nonneg bx dim nx ny nz : sane bx dim nx ny nz -> 0 <= NX (whole bx dim) /\ 0 <= NY (whole bx dim) /\ 0 <= NZ (whole bx dim).
Proof.
  intros (Hs & Hx & Hy & Hz & Hd & _). apply dim_q_pos in Hd. cbn [whole grid_at NX NY NZ].
  assert (G : forall e, (0 <= e)%Q -> 0 <= Qceiling (e * inject_Z dim / mbb_scale bx)).
  { intros e He. apply ceil_nonneg. apply Qle_shift_div_l; [exact Hs|]. nra. }
  auto.
Qed.

Lemma region_dims bx dim nx ny nz t : sane bx dim nx ny nz ->
  (NX (tile_region bx dim nx ny nz t), NY (tile_region bx dim nx ny nz t), NZ (tile_region bx dim nx ny nz t)) = tile_dims bx dim nx ny nz.
Proof.
  intros H. pose proof (whole_dims_nonneg _ _ _ _ _ H) as (H1 & H2 & H3). destruct H as (Hs & _ & _ & _ & Hd & Hx & Hy & Hz).
  unfold tile_dims, tile_region. cbn [region NX NY NZ]. unfold region_dim.
  rewrite !model_dim_ceil by assumption. cbn [whole grid_at NX NY NZ] in *.
  rewrite !Z.quot_div_nonneg by assumption. reflexivity.
Qed.

Lemma mmpv_side scale dim : (0 < scale)%Q -> 0 < dim -> (dice_mmpv scale dim == scale / inject_Z dim)%Q.
Proof. intros Hs Hd. apply dim_q_pos in Hd. unfold dice_mmpv, dice_vpmm. field. lra. Qed.

Lemma vpmm_grid (m : Z) (side : Q) b : 0 < m -> (0 < side)%Q -> BinvoxModel.dim b = m -> (Scale b == inject_Z m * side)%Q -> (vpmm b == 1 / side)%Q.
Proof.
  intros Hm Hs Hd Hsc. apply dim_q_pos in Hm. assert (Hp : (0 < Scale b)%Q) by (rewrite Hsc; nra).
  rewrite vpmm_scale by exact Hp. rewrite Hd, Hsc. field. lra.
Qed.

Lemma side_pos scale dim : (0 < scale)%Q -> 0 < dim -> (0 < scale / inject_Z dim)%Q.
Proof. intros Hs Hd. apply dim_q_pos in Hd. apply Qlt_shift_div_l; lra. Qed.

Lemma tile_moved bx dim nx ny nz t : sane bx dim nx ny nz ->
  let td := tile_dims bx dim nx ny nz in 0 < kx td -> 0 < ky td -> 0 < kz td ->
  moved_grid (whole bx dim) (tile_region bx dim nx ny nz t) (kx t * kx td, ky t * ky td, kz t * kz td).
Proof.
  intros Hsane td Hx Hy Hz. pose proof (region_dims bx dim nx ny nz t Hsane) as Hdims. fold td in Hdims.
  pose proof (whole_dims_nonneg _ _ _ _ _ Hsane) as (W1 & W2 & W3).
  pose proof Hsane as (Hs & _ & _ & _ & Hd & Hnx & Hny & Hnz).
  set (side := (mbb_scale bx / inject_Z dim)%Q). assert (Hside : (0 < side)%Q) by (apply side_pos; assumption).
  assert (Hmm : (dice_mmpv (mbb_scale bx) dim == side)%Q) by (apply mmpv_side; assumption).
  assert (Hw : (vpmm (whole bx dim) == 1 / side)%Q).
  { apply (vpmm_grid (Z.max (NX (whole bx dim)) (Z.max (NY (whole bx dim)) (NZ (whole bx dim))))); [|exact Hside|apply dim_max|reflexivity].
    subst td. unfold tile_dims, kx in Hx. cbn [fst snd] in Hx. destruct (Z.eq_dec (NX (whole bx dim)) 0) as [E|E]; [|lia].
    rewrite E, Z.div_0_l in Hx by lia. lia. }
  assert (Hr : (vpmm (tile_region bx dim nx ny nz t) == 1 / side)%Q).
  { assert (E1 : NX (tile_region bx dim nx ny nz t) = kx td) by (rewrite <- Hdims; reflexivity).
    assert (E2 : NY (tile_region bx dim nx ny nz t) = ky td) by (rewrite <- Hdims; reflexivity).
    assert (E3 : NZ (tile_region bx dim nx ny nz t) = kz td) by (rewrite <- Hdims; reflexivity).
    apply (vpmm_grid (Z.max (kx td) (Z.max (ky td) (kz td)))); [lia|exact Hside|rewrite dim_max, E1, E2, E3; reflexivity|].
    unfold tile_region in *. cbn [region NX NY NZ Scale] in *. rewrite E1, E2, E3, Hmm.
    replace (if kz td >? (if ky td >? kx td then ky td else kx td) then kz td else if ky td >? kx td then ky td else kx td) with (Z.max (kx td) (Z.max (ky td) (kz td))); [reflexivity|].
    rewrite !Z.gtb_ltb. destruct (Z.ltb_spec (kx td) (ky td)); [destruct (Z.ltb_spec (ky td) (kz td))|destruct (Z.ltb_spec (kx td) (kz td))]; lia. }
  assert (Hi : (1 / vpmm (whole bx dim) == side)%Q) by (rewrite Hw; field; lra).
  assert (E1 : region_dim (model_dim (mbb_scale bx) dim (size_x bx)) nx = kx td) by (change (kx td) with (fst (fst td)); rewrite <- Hdims; reflexivity).
  assert (E2 : region_dim (model_dim (mbb_scale bx) dim (size_y bx)) ny = ky td) by (change (ky td) with (snd (fst td)); rewrite <- Hdims; reflexivity).
  assert (E3 : region_dim (model_dim (mbb_scale bx) dim (size_z bx)) nz = kz td) by (change (kz td) with (snd td); rewrite <- Hdims; reflexivity).
  unfold moved_grid. rewrite Hi, Hr, Hw. split; [apply Qlt_shift_div_l; lra|]. split; [reflexivity|].
  unfold tile_region, region. cbn [TX TY TZ whole grid_at]. kproj. rewrite E1, E2, E3, Hmm. repeat split; reflexivity.
Qed.

(** ** C42 *)

(** Voxel [k] of tile [t] is at the place of the model voxel it stands for. *)
Theorem C42_tile_place bx dim nx ny nz t k : sane bx dim nx ny nz ->
  let td := tile_dims bx dim nx ny nz in 0 < kx td -> 0 < ky td -> 0 < kz td ->
  qpt_eq (world (tile_region bx dim nx ny nz t) k) (world (whole bx dim) (tile_voxel td t k)).
Proof.
  intros Hsane td Hx Hy Hz. destruct (tile_moved bx dim nx ny nz t Hsane Hx Hy Hz) as (Hv & Ev & E1 & E2 & E3). fold td in E1, E2, E3.
  unfold world, qpt_eq, tile_voxel. rewrite Ev, E1, E2, E3. kproj.
  rewrite !inject_Z_plus. repeat split; field; lra.
Qed.
Print Assumptions C42_tile_place.

(** The model voxels that lie in a tile: in exactly one if their index is below n * (D / n) on every
    axis, in none otherwise. *)
Theorem C42_coverage bx dim nx ny nz g : sane bx dim nx ny nz ->
  let td := tile_dims bx dim nx ny nz in 0 < kx td -> 0 < ky td -> 0 < kz td ->
  (in_grid (nx * kx td) (ny * ky td) (nz * kz td) g <->
   exists t k, in_grid nx ny nz t /\ in_grid (kx td) (ky td) (kz td) k /\ g = tile_voxel td t k) /\
  (forall t k t' k', in_grid (kx td) (ky td) (kz td) k -> in_grid (kx td) (ky td) (kz td) k' ->
     tile_voxel td t k = tile_voxel td t' k' -> t = t' /\ k = k').
Proof.
  intros _ td Hx Hy Hz. clearbody td. destruct td as [[a b] c]. unfold kx, ky, kz in Hx, Hy, Hz. cbn [fst snd] in Hx, Hy, Hz. split.
  - destruct g as [[x y] z]. unfold in_grid, in_region, tile_voxel, kx, ky, kz. cbn [fst snd]. split.
    + intros (H1 & H2 & H3). exists (x / a, y / b, z / c), (x mod a, y mod b, z mod c). cbn [fst snd].
      assert (G : forall u v n, 0 < v -> 0 <= u < 0 + n * v -> 0 <= u / v < 0 + n /\ 0 <= u mod v < 0 + v /\ u = u / v * v + u mod v).
      { intros u v n Hv Hu. pose proof (Z.mod_pos_bound u v Hv). pose proof (Z.div_mod u v). split; [|lia]. split; [apply Z.div_pos; lia|].
        apply Z.div_lt_upper_bound; lia. }
      pose proof (G x a nx Hx H1) as (? & ? & ?). pose proof (G y b ny Hy H2) as (? & ? & ?). pose proof (G z c nz Hz H3) as (? & ? & ?).
      split; [lia|]. split; [lia|]. apply key_eq; assumption.
    + intros ([[t1 t2] t3] & [[k1 k2] k3] & Ht & Hk & E). cbn [fst snd] in *. injection E as -> -> ->. nia.
  - intros [[t1 t2] t3] [[k1 k2] k3] [[u1 u2] u3] [[l1 l2] l3]. unfold in_grid, in_region, tile_voxel, kx, ky, kz. cbn [fst snd].
    intros Hk Hl E. injection E as E1 E2 E3.
    assert (G : forall t k t' k' a, 0 <= k < 0 + a -> 0 <= k' < 0 + a -> t * a + k = t' * a + k' -> t = t' /\ k = k').
    { intros t k t' k' v Hk0 Hk1 E. assert (t = t') by nia. subst. lia. }
    destruct Hk as (? & ? & ?), Hl as (? & ? & ?).
    destruct (G t1 k1 u1 l1 a) as [-> ->]; [assumption..|]. destruct (G t2 k2 u2 l2 b) as [-> ->]; [assumption..|]. destruct (G t3 k3 u3 l3 c) as [-> ->]; [assumption..|].
    auto.
Qed.
Print Assumptions C42_coverage.

(** What the tiles miss: on each axis the last D mod n layers; nothing if n divides D, as on the
    longest axis. *)
Theorem C42_lost_layers bx dim nx ny nz : sane bx dim nx ny nz -> let td := tile_dims bx dim nx ny nz in
  NX (whole bx dim) - nx * kx td = NX (whole bx dim) mod nx /\
  NY (whole bx dim) - ny * ky td = NY (whole bx dim) mod ny /\
  NZ (whole bx dim) - nz * kz td = NZ (whole bx dim) mod nz /\
  ((size_x bx == mbb_scale bx)%Q -> NX (whole bx dim) = dim) /\
  ((size_y bx == mbb_scale bx)%Q -> NY (whole bx dim) = dim) /\
  ((size_z bx == mbb_scale bx)%Q -> NZ (whole bx dim) = dim) /\
  ((size_x bx == mbb_scale bx)%Q \/ (size_y bx == mbb_scale bx)%Q \/ (size_z bx == mbb_scale bx)%Q).
Proof.
  intros (Hs & Hx & Hy & Hz & Hd & Hnx & Hny & Hnz) td.
  assert (E : forall e, (e == mbb_scale bx)%Q -> Qceiling (e * inject_Z dim / mbb_scale bx) = dim).
  { intros e He. rewrite <- (Qceiling_Z dim) at 2. apply Qceiling_comp. rewrite He. field. lra. }
  subst td. unfold tile_dims. kproj.
  split; [rewrite Z.mod_eq by lia; reflexivity|]. split; [rewrite Z.mod_eq by lia; reflexivity|]. split; [rewrite Z.mod_eq by lia; reflexivity|].
  split; [apply E|]. split; [apply E|]. split; [apply E|].
  unfold mbb_scale. destruct (qlt (size_x bx) (size_y bx)).
  - destruct (qlt (size_y bx) (size_z bx)); [right; right|right; left]; reflexivity.
  - destruct (qlt (size_x bx) (size_z bx)); [right; right|left]; reflexivity.
Qed.
Print Assumptions C42_lost_layers.

Lemma nonzero_dims bx dim nx ny nz t : sane bx dim nx ny nz ->
  let td := tile_dims bx dim nx ny nz in 0 < kx td -> 0 < ky td -> 0 < kz td -> zero_dim (tile_region bx dim nx ny nz t) = false.
Proof.
  intros Hsane td Hx Hy Hz. pose proof (region_dims bx dim nx ny nz t Hsane) as E. fold td in E.
  unfold zero_dim. change (NX (tile_region bx dim nx ny nz t)) with (kx (NX (tile_region bx dim nx ny nz t), NY (tile_region bx dim nx ny nz t), NZ (tile_region bx dim nx ny nz t))).
  change (NY (tile_region bx dim nx ny nz t)) with (ky (NX (tile_region bx dim nx ny nz t), NY (tile_region bx dim nx ny nz t), NZ (tile_region bx dim nx ny nz t))) at 2.
  change (NZ (tile_region bx dim nx ny nz t)) with (kz (NX (tile_region bx dim nx ny nz t), NY (tile_region bx dim nx ny nz t), NZ (tile_region bx dim nx ny nz t))) at 3.
  rewrite E. lia.
Qed.

(** The file of a tile holds exactly the voxels of the whole model that lie in the tile; no file
    means that there are none. *)
Theorem C42_tile_content ft bx dim nx ny nz mesh t : sane bx dim nx ny nz ->
  let td := tile_dims bx dim nx ny nz in 0 < kx td <= max_int -> 0 < ky td <= max_int -> 0 < kz td <= max_int ->
  List.NoDup (map taddr mesh) -> in_grid nx ny nz t ->
  match region_file ft (tile_region bx dim nx ny nz t) mesh with
  | inl _ => False
  | inr None => forall k, in_grid (kx td) (ky td) (kz td) k -> ~ result_voxels (Voxelize (whole bx dim) mesh) (tile_voxel td t k)
  | inr (Some bytes) => exists out, read ft bytes 0 0 0 0 0 0 = inr out /\
      forall k, k ∈ white out <-> in_grid (kx td) (ky td) (kz td) k /\ result_voxels (Voxelize (whole bx dim) mesh) (tile_voxel td t k)
  end.
Proof.
  intros Hsane td Hx Hy Hz Hnd Ht.
  pose proof (nonzero_dims bx dim nx ny nz t Hsane ltac:(fold td; lia) ltac:(fold td; lia) ltac:(fold td; lia)) as Hzd.
  pose proof (tile_moved bx dim nx ny nz t Hsane ltac:(fold td; lia) ltac:(fold td; lia) ltac:(fold td; lia)) as Hmv. fold td in Hmv.
  pose proof (region_dims bx dim nx ny nz t Hsane) as Hdims. fold td in Hdims.
  pose proof (C42_lost_layers bx dim nx ny nz Hsane) as (L1 & L2 & L3 & _). fold td in L1, L2, L3.
  pose proof Hsane as (_ & _ & _ & _ & _ & Hnx & Hny & Hnz).
  pose proof (Z.mod_pos_bound (NX (whole bx dim)) nx Hnx). pose proof (Z.mod_pos_bound (NY (whole bx dim)) ny Hny). pose proof (Z.mod_pos_bound (NZ (whole bx dim)) nz Hnz).
  assert (Hwz : zero_dim (whole bx dim) = false) by (unfold zero_dim; nia).
  set (reg := tile_region bx dim nx ny nz t) in *.
  assert (E1 : NX reg = kx td) by (rewrite <- Hdims; reflexivity). assert (E2 : NY reg = ky td) by (rewrite <- Hdims; reflexivity). assert (E3 : NZ reg = kz td) by (rewrite <- Hdims; reflexivity).
  assert (Hsh : forall k, shift_key (kx t * kx td) (ky t * ky td) (kz t * kz td) k = tile_voxel td t k).
  { intros k. unfold shift_key, tile_voxel. apply key_eq; lia. }
  assert (Hmain : forall k, in_grid (kx td) (ky td) (kz td) k -> (result_voxels (Voxelize reg mesh) k <-> result_voxels (Voxelize (whole bx dim) mesh) (tile_voxel td t k))).
  { intros k Hk. pose proof (voxelize_shift (whole bx dim) reg _ Hmv mesh k Hwz Hzd Hnd) as G.
    kproj_in G. rewrite Hsh in G. rewrite E1, E2, E3 in G. apply G; [exact Hk|].
    unfold in_grid, in_region, tile_voxel in *. kproj. nia. }
  unfold region_file, Voxelize in *. rewrite Hzd in *. cbn [white with_white White default] in *.
  set (vs := list_to_set (flat_map (slice_voxels reg mesh) (seqZ 0 (NZ reg))) : gset key) in *.
  assert (Hres : forall k, result_voxels (inr (with_white reg vs)) k <-> k ∈ vs) by (intros k; reflexivity).
  case_decide as Hsz.
  - intros k Hk. rewrite <- (Hmain k Hk), Hres. unfold white in Hsz. cbn [with_white White default] in Hsz. apply size_empty_iff in Hsz. set_solver.
  - destruct (C02_region_write_exact Q ft (with_white reg vs) 0 0 0 0 0 0) as (ws & Hr & Hws).
    + unfold white in Hsz |- *. cbn [with_white White default] in Hsz |- *. apply set_choose_L. intros E. apply Hsz. rewrite E. apply size_empty.
    + cbn [Z.eqb with_white NX]. lia.
    + cbn [Z.eqb with_white NY]. lia.
    + cbn [Z.eqb with_white NZ]. lia.
    + eexists. split; [exact Hr|]. intros k. unfold white at 1. cbn [White default]. rewrite Hws. cbn [Z.eqb with_white NX NY NZ].
      rewrite E1, E2, E3. rewrite shift_key_0. unfold white. cbn [with_white White default]. split.
      * intros [Hg Hk]. split; [exact Hg|]. apply Hmain; [exact Hg|]. exact Hk.
      * intros [Hg Hk]. split; [exact Hg|]. apply Hmain in Hk; [|exact Hg]. exact Hk.
Qed.
Print Assumptions C42_tile_content.

(** The model grid covers the box, and is not a layer too large. *)
Theorem C42_whole_covers_box bx dim nx ny nz : sane bx dim nx ny nz ->
  let side := (mbb_scale bx / inject_Z dim)%Q in
  (size_x bx <= inject_Z (NX (whole bx dim)) * side < size_x bx + side)%Q /\
  (size_y bx <= inject_Z (NY (whole bx dim)) * side < size_y bx + side)%Q /\
  (size_z bx <= inject_Z (NZ (whole bx dim)) * side < size_z bx + side)%Q.
Proof.
  intros (Hs & _ & _ & _ & Hd & _) side. pose proof (side_pos _ _ Hs Hd) as Hside. fold side in Hside.
  assert (G : forall e, (e <= inject_Z (Qceiling (e * inject_Z dim / mbb_scale bx)) * side < e + side)%Q).
  { intros e. apply dim_q_pos in Hd. assert (E : (e * inject_Z dim / mbb_scale bx == e / side)%Q) by (subst side; field; lra).
    rewrite (Qceiling_comp _ _ E). pose proof (Qle_ceiling (e / side)) as H1. pose proof (Qceiling_lt (e / side)) as H2.
    assert (E2 : (e == e / side * side)%Q) by (field; lra). unfold Z.sub in H2. rewrite inject_Z_plus in H2. change (inject_Z (- (1))) with (- (1))%Q in H2.
    set (q := (e / side)%Q) in *. set (c := inject_Z (Qceiling q)) in *. clearbody q c. split; rewrite E2; nra. }
  split; [apply G|]. split; apply G.
Qed.
Print Assumptions C42_whole_covers_box.

(** *** Names *)

Lemma pad2_inj a b : 0 <= a -> 0 <= b -> pad2 a = pad2 b -> a = b.
Proof.
  intros Ha Hb H. apply (f_equal (undec 0)) in H. unfold pad2 in H. rewrite !undec_zeros, !show_nat_undec in H by assumption. exact H.
Qed.

Lemma pad2_digits a : 0 <= a -> forallb is_digit (pad2 a) = true.
Proof.
  intros Ha. unfold pad2. rewrite forallb_app, show_nat_digits by exact Ha. rewrite andb_true_r.
  induction (2 - length (show_nat a))%nat as [|m IH]; [reflexivity|]. cbn [repeat forallb]. rewrite IH. reflexivity.
Qed.

Lemma suffix_inj t t' nx ny nz : in_grid nx ny nz t -> in_grid nx ny nz t' -> suffix_of t = suffix_of t' -> t = t'.
Proof.
  intros Ht Ht' H. unfold suffix_of in H. cbn [app] in H. injection H as H. unfold in_grid, in_region in *.
  apply split_dash in H as [Hx H]; [|apply pad2_digits; lia..]. apply split_dash in H as [Hy Hz]; [|apply pad2_digits; lia..].
  apply pad2_inj in Hx; [|lia..]. apply pad2_inj in Hy; [|lia..]. apply pad2_inj in Hz; [|lia..].
  destruct t as [[a b] c], t' as [[a' b'] c']. unfold kx, ky, kz in *. cbn [fst snd] in *. apply key_eq; assumption.
Qed.

Lemma forallb_rev {A} (f : A -> bool) l : forallb f l = true -> forallb f (rev l) = true.
Proof. rewrite !forallb_forall. intros H x Hx. apply H, in_rev, Hx. Qed.

(** Files of different inputs or different tiles have different names. *)
Theorem C42_names_distinct p p' t t' nx ny nz : in_grid nx ny nz t -> in_grid nx ny nz t' ->
  out_file p t = out_file p' t' -> p = p' /\ t = t'.
Proof.
  intros Ht Ht' H. unfold out_file in H. rewrite !app_assoc in H. apply app_inv_tail in H.
  assert (Hs : p = p' /\ suffix_of t = suffix_of t').
  { unfold suffix_of in *. apply (f_equal (@rev byte)) in H. rewrite !rev_app_distr in H. cbn [rev app] in H. rewrite <- !app_assoc in H. cbn [app] in H.
    unfold in_grid, in_region in *.
    apply split_dash in H as [H1 H]; [|apply forallb_rev, pad2_digits; lia..].
    apply split_dash in H as [H2 H]; [|apply forallb_rev, pad2_digits; lia..].
    apply split_dash in H as [H3 H]; [|apply forallb_rev, pad2_digits; lia..].
    apply (f_equal (@rev byte)) in H1, H2, H3, H. rewrite !rev_involutive in H1, H2, H3, H. rewrite H1, H2, H3. auto. }
  destruct Hs as [-> Hs]. split; [reflexivity|]. eapply suffix_inj; eassumption.
Qed.
Print Assumptions C42_names_distinct.

Example C42_name_ex : out_file (out_prefix (txt "part") 256 4 4 1) (3,0,0) = txt "part-256-4-4-1-03-00-00.binvox".
Proof. reflexivity. Qed.

(** *** One mesh *)

Lemma put_file_other d w n : n <> fst w -> put_file d w n = d n.
Proof. intros H. unfold put_file. rewrite decide_False by exact H. reflexivity. Qed.

Lemma omap_cons' {A B} (f : A -> option B) x l : omap f (x :: l) = match f x with Some y => y :: omap f l | None => omap f l end.
Proof. reflexivity. Qed.

Definition tile_job ft (d : dir) prefix reg mesh (t : key) : option (list byte * list byte) :=
  match d (out_file prefix t) with
  | Some _ => None
  | None => match region_file ft (reg t) mesh with inr (Some bytes) => Some (out_file prefix t, bytes) | _ => None end
  end.

Lemma dice_loop_spec ft prefix reg mesh nx ny nz ts : List.NoDup ts -> (forall t, In t ts -> in_grid nx ny nz t) ->
  (forall t, In t ts -> exists o, region_file ft (reg t) mesh = inr o) ->
  forall d, dice_loop ft d prefix reg mesh ts =
    (omap (tile_job ft d prefix reg mesh) ts,
     Some (omap (fun t => match tile_job ft d prefix reg mesh t with Some _ => Some (suffix_of t) | None => None end) ts)).
Proof.
  induction ts as [|t ts IH]; intros Hnd Hg Hok d; [reflexivity|]. inversion_clear Hnd as [|? ? Hni Hnd'].
  cbn [dice_loop]. assert (Hg' : forall t, In t ts -> in_grid nx ny nz t) by (intros; apply Hg; right; assumption).
  assert (Hok' : forall t, In t ts -> exists o, region_file ft (reg t) mesh = inr o) by (intros; apply Hok; right; assumption).
  specialize (IH Hnd' Hg' Hok'). rewrite !omap_cons'.
  destruct (d (out_file prefix t)) eqn:Ed.
  { assert (Hj : tile_job ft d prefix reg mesh t = None) by (unfold tile_job; rewrite Ed; reflexivity). rewrite Hj. apply IH. }
  destruct (Hok t (or_introl eq_refl)) as (o & Ho). rewrite Ho. destruct o as [bytes|].
  2: { assert (Hj : tile_job ft d prefix reg mesh t = None) by (unfold tile_job; rewrite Ed, Ho; reflexivity). rewrite Hj. apply IH. }
  set (w := (out_file prefix t, bytes)).
  assert (Hj : tile_job ft d prefix reg mesh t = Some w) by (unfold tile_job; rewrite Ed, Ho; reflexivity). rewrite Hj.
  rewrite IH.
  assert (E : forall u, In u ts -> tile_job ft (put_file d w) prefix reg mesh u = tile_job ft d prefix reg mesh u).
  { intros u Hu. unfold tile_job. rewrite put_file_other; [reflexivity|]. subst w. cbn [fst]. intros H.
    apply (C42_names_distinct _ _ _ _ nx ny nz) in H as [_ ->]; [contradiction|apply Hg', Hu|apply Hg; left; reflexivity]. }
  assert (E' : forall B (f : option (list byte * list byte) -> key -> option B),
    omap (fun u => f (tile_job ft (put_file d w) prefix reg mesh u) u) ts = omap (fun u => f (tile_job ft d prefix reg mesh u) u) ts).
  { intros B f. clear -E. induction ts as [|u ts IH]; [reflexivity|]. cbn. rewrite E by (left; reflexivity). rewrite IH; [reflexivity|].
    intros v Hv. apply E. right. exact Hv. }
  pose proof (E' _ (fun o _ => o)) as E1. cbv beta in E1. pose proof (E' _ (fun o u => match o with Some _ => Some (suffix_of u) | None => None end)) as E2. cbv beta in E2.
  change (omap (tile_job ft (put_file d w) prefix reg mesh) ts = omap (tile_job ft d prefix reg mesh) ts) in E1.
  rewrite E1, E2. reflexivity.
Qed.

Definition all_tiles (nx ny nz : Z) : list key := dice_tiles (seqZ 0 nx) (seqZ 0 ny) (seqZ 0 nz).

Lemma in_all_tiles nx ny nz t : In t (all_tiles nx ny nz) <-> in_grid nx ny nz t.
Proof.
  unfold all_tiles. rewrite in_dice_tiles, <- !elem_of_list_In, !elem_of_seqZ. unfold in_grid, in_region. reflexivity.
Qed.

Lemma all_tiles_nodup nx ny nz : List.NoDup (all_tiles nx ny nz).
Proof. apply dice_tiles_nodup; apply NoDup_ListNoDup, NoDup_seqZ. Qed.

Definition good (bx : qpt * qpt) (dim nx ny nz : Z) : Prop :=
  sane bx dim nx ny nz /\ let td := tile_dims bx dim nx ny nz in 0 < kx td <= max_int /\ 0 < ky td <= max_int /\ 0 < kz td <= max_int.

Lemma region_file_ok ft bx dim nx ny nz mesh t : good bx dim nx ny nz -> exists o, region_file ft (tile_region bx dim nx ny nz t) mesh = inr o.
Proof.
  intros (Hs & Hx & Hy & Hz). unfold region_file, Voxelize. rewrite nonzero_dims; [|exact Hs|lia..]. eauto.
Qed.

Lemma diceMesh_spec ft d mesh bx dim nx ny nz prefix : good bx dim nx ny nz ->
  diceMesh ft d mesh bx (mbb_scale bx) dim nx ny nz prefix =
  (omap (tile_job ft d prefix (tile_region bx dim nx ny nz) mesh) (all_tiles nx ny nz),
   Some (omap (fun t => match tile_job ft d prefix (tile_region bx dim nx ny nz) mesh t with Some _ => Some (suffix_of t) | None => None end) (all_tiles nx ny nz))).
Proof.
  intros Hgood. pose proof Hgood as (Hs & Hx & Hy & Hz). unfold diceMesh.
  pose proof (region_dims bx dim nx ny nz (0,0,0) Hs) as Hd. unfold tile_region in Hd. cbn [region NX NY NZ] in Hd.
  set (dx := region_dim (model_dim (mbb_scale bx) dim (size_x bx)) nx) in *. set (dy := region_dim (model_dim (mbb_scale bx) dim (size_y bx)) ny) in *.
  set (dz := region_dim (model_dim (mbb_scale bx) dim (size_z bx)) nz) in *.
  rewrite <- Hd in Hx, Hy, Hz. unfold kx, ky, kz in Hx, Hy, Hz. cbn [fst snd] in Hx, Hy, Hz.
  replace ((dx =? 0) || (dy =? 0) || (dz =? 0)) with false by lia.
  apply (dice_loop_spec ft prefix (tile_region bx dim nx ny nz) mesh nx ny nz (all_tiles nx ny nz) (all_tiles_nodup nx ny nz)).
  - intros t. apply in_all_tiles.
  - intros t _. apply region_file_ok, Hgood.
Qed.

Lemma in_omap {A B} (f : A -> option B) l y : In y (omap f l) <-> exists x, In x l /\ f x = Some y.
Proof. rewrite <- elem_of_list_In, elem_of_list_omap. setoid_rewrite elem_of_list_In. reflexivity. Qed.

(** A run in a directory without any of the files: the voxels of the files are exactly the voxels of
    the whole model in the covered part of its grid. *)
Theorem C42_union ft d mesh bx dim nx ny nz prefix ws r :
  good bx dim nx ny nz -> List.NoDup (map taddr mesh) -> (forall t, in_grid nx ny nz t -> d (out_file prefix t) = None) ->
  diceMesh ft d mesh bx (mbb_scale bx) dim nx ny nz prefix = (ws, r) ->
  let td := tile_dims bx dim nx ny nz in
  r <> None /\
  forall g, (exists t k bytes out, in_grid nx ny nz t /\ In (out_file prefix t, bytes) ws /\ read ft bytes 0 0 0 0 0 0 = inr out /\ k ∈ white out /\ g = tile_voxel td t k) <->
    in_grid (nx * kx td) (ny * ky td) (nz * kz td) g /\ result_voxels (Voxelize (whole bx dim) mesh) g.
Proof.
  intros Hgood Hnd Hd Hrun td. rewrite diceMesh_spec in Hrun by exact Hgood. injection Hrun as <- <-. split; [discriminate|].
  pose proof Hgood as (Hs & Hx & Hy & Hz). fold td in Hx, Hy, Hz. intros g.
  pose proof (C42_coverage bx dim nx ny nz g Hs) as HC. fold td in HC. destruct HC as [HC _]; [lia..|]. split.
  - intros (t & k & bytes & out & Ht & Hin & Hread & Hk & ->). apply in_omap in Hin as (u & Hu & Hj). apply in_all_tiles in Hu.
    unfold tile_job in Hj. destruct (d (out_file prefix u)); [discriminate|].
    destruct (region_file ft (tile_region bx dim nx ny nz u) mesh) as [|[bs|]] eqn:Ef; [discriminate| |discriminate].
    injection Hj as Hname Hb. apply (C42_names_distinct _ _ _ _ nx ny nz) in Hname as [_ <-]; [|assumption..]. subst bs.
    pose proof (C42_tile_content ft bx dim nx ny nz mesh u Hs) as HT. fold td in HT. specialize (HT Hx Hy Hz Hnd Hu). rewrite Ef in HT.
    destruct HT as (out' & Hr & Ho). rewrite Hread in Hr. injection Hr as <-. apply Ho in Hk as [Hk1 Hk2]. split; [|exact Hk2].
    apply HC. eauto.
  - intros [Hg Hres]. apply HC in Hg as (t & k & Ht & Hk & ->).
    pose proof (C42_tile_content ft bx dim nx ny nz mesh t Hs) as HT. fold td in HT. specialize (HT Hx Hy Hz Hnd Ht).
    destruct (region_file ft (tile_region bx dim nx ny nz t) mesh) as [|[bs|]] eqn:Ef; [destruct HT| |exfalso; exact (HT k Hk Hres)].
    destruct HT as (out & Hr & Ho). exists t, k, bs, out. split; [exact Ht|]. split; [|split; [exact Hr|]; split; [apply Ho; auto|reflexivity]].
    apply in_omap. exists t. split; [apply in_all_tiles, Ht|]. unfold tile_job. rewrite (Hd t Ht), Ef. reflexivity.
Qed.
Print Assumptions C42_union.

(** Solid layers are really lost: a box 4 x 3 x 4 diced with dim 4 in two along y. *)
Definition ex_box_mesh : list tri := box_mesh 0 0 0 4 3 4.
Definition ex_bx : qpt * qpt := ((0, 0, 0), (4, 3, 4))%Q.

Example C42_bounding_box_ex : bounding_box ex_box_mesh = ex_bx.
Proof. vm_compute. reflexivity. Qed.

Lemma ex_good : good ex_bx 4 2 2 1.
Proof. unfold good, sane. vm_compute. repeat split; discriminate || reflexivity. Qed.

Theorem C42_voxels_lost : exists bx dim nx ny nz mesh g, good bx dim nx ny nz /\ Z.rem dim nx = 0 /\ Z.rem dim ny = 0 /\ Z.rem dim nz = 0 /\
  bounding_box mesh = bx /\ List.NoDup (map taddr mesh) /\
  result_voxels (Voxelize (whole bx dim) mesh) g /\
  ~ exists t k, in_grid nx ny nz t /\ in_grid (kx (tile_dims bx dim nx ny nz)) (ky (tile_dims bx dim nx ny nz)) (kz (tile_dims bx dim nx ny nz)) k /\ g = tile_voxel (tile_dims bx dim nx ny nz) t k.
Proof.
  exists ex_bx, 4, 2, 2, 1, ex_box_mesh, (1,2,1). split; [exact ex_good|]. do 3 (split; [reflexivity|]). split; [apply C42_bounding_box_ex|].
  split; [apply NoDup_ListNoDup; apply (bool_decide_unpack _); vm_compute; exact I|].
  split; [apply (bool_decide_unpack (_ ∈ white _)); vm_compute; exact I|].
  destruct ex_good as (Hs & H1 & H2 & H3). intros H. apply (C42_coverage ex_bx 4 2 2 1 (1,2,1) Hs) in H; [|vm_compute; reflexivity..].
  vm_compute in H. destruct H as (_ & (_ & H) & _). discriminate H.
Qed.
Print Assumptions C42_voxels_lost.

Definition ends_mesh : list tri := Eval vm_compute in
  map (fun it => Tri (Z.of_nat (fst it)) (tv1 (snd it)) (tv2 (snd it)) (tv3 (snd it)) (tnorm (snd it))) (zip (seq 0 24) (box_mesh 0 0 0 1 2 2 ++ box_mesh 3 0 0 4 2 2)).
Definition ends_bx : qpt * qpt := ((0, 0, 0), (4, 2, 2))%Q.
Definition ends_tile : binvox Q := Eval vm_compute in tile_region ends_bx 4 4 1 1 (2,0,0).

Lemma ends_voxelized : exists b, Voxelize ends_tile ends_mesh = inr b /\ size (white b) <> 0%nat /\ NX b = 1 /\ NY b = 2 /\ NZ b = 2.
Proof.
  assert (Hb : match Voxelize ends_tile ends_mesh with
               | inr b => negb (size (white b) =? 0)%nat && (NX b =? 1) && (NY b =? 2) && (NZ b =? 2) | inl _ => false end = true) by (vm_compute; reflexivity).
  destruct (Voxelize ends_tile ends_mesh) as [|b]; [discriminate Hb|]. exists b. split; [reflexivity|].
  rewrite !andb_true_iff, !Z.eqb_eq, negb_true_iff, Nat.eqb_neq in Hb. tauto.
Qed.

(** An empty tile may have a file all the same: the voxelizer also returns voxels to the left of the
    region, which the writer leaves out.  Two boxes 1 x 2 x 2 at the ends of a box 4 x 2 x 2, diced in
    four along x: the third tile is empty, its file is there, and holds no voxel. *)
Theorem C42_empty_tile_file : exists bx dim nx ny nz mesh t, good bx dim nx ny nz /\ bounding_box mesh = bx /\ List.NoDup (map taddr mesh) /\
  in_grid nx ny nz t /\
  (forall k, in_grid (kx (tile_dims bx dim nx ny nz)) (ky (tile_dims bx dim nx ny nz)) (kz (tile_dims bx dim nx ny nz)) k ->
     ~ result_voxels (Voxelize (whole bx dim) mesh) (tile_voxel (tile_dims bx dim nx ny nz) t k)) /\
  forall ft, exists bytes out, region_file ft (tile_region bx dim nx ny nz t) mesh = inr (Some bytes) /\
    read ft bytes 0 0 0 0 0 0 = inr out /\ white out = ∅ /\ NX out = 1 /\ NY out = 2 /\ NZ out = 2.
Proof.
  set (mesh := ends_mesh). set (bx := ends_bx). exists bx, 4, 4, 1, 1, mesh, (2,0,0).
  assert (Hg : good bx 4 4 1 1) by (unfold good, sane; vm_compute; repeat split; discriminate || reflexivity).
  assert (Hnd : List.NoDup (map taddr mesh)) by (apply NoDup_ListNoDup; apply (bool_decide_unpack _); vm_compute; exact I).
  assert (Ht : in_grid 4 1 1 (2,0,0)) by (unfold in_grid, in_region; vm_compute; repeat split; discriminate || reflexivity).
  split; [exact Hg|]. split; [vm_compute; reflexivity|]. split; [exact Hnd|]. split; [exact Ht|].
  assert (Hno : forall k, in_grid (kx (tile_dims bx 4 4 1 1)) (ky (tile_dims bx 4 4 1 1)) (kz (tile_dims bx 4 4 1 1)) k ->
     ~ result_voxels (Voxelize (whole bx 4) mesh) (tile_voxel (tile_dims bx 4 4 1 1) (2,0,0) k)).
  { intros k Hk H. change (tile_dims bx 4 4 1 1) with (1, 2, 2) in *.
    assert (Hall : forallb (fun g => negb (kx g =? 2)) (elements (match Voxelize (whole bx 4) mesh with inr b => white b | inl _ => ∅ end)) = true) by (vm_compute; reflexivity).
    rewrite forallb_forall in Hall. specialize (Hall (tile_voxel (1, 2, 2) (2,0,0) k)).
    unfold result_voxels in H. destruct (Voxelize (whole bx 4) mesh) as [|b]; [destruct H|].
    assert (Hin : In (tile_voxel (1, 2, 2) (2,0,0) k) (elements (white b))) by (apply elem_of_list_In, elem_of_elements, H). specialize (Hall Hin).
    unfold tile_voxel in Hall. kproj_in Hall. unfold in_grid, in_region in Hk. kproj_in Hk. destruct (Z.eqb_spec (2 * 1 + kx k) 2); [discriminate|lia]. }
  split; [exact Hno|]. intros ft.
  pose proof (C42_tile_content ft bx 4 4 1 1 mesh (2,0,0) (proj1 Hg)) as HC. destruct Hg as (Hs & G1 & G2 & G3). specialize (HC G1 G2 G3 Hnd Ht).
  assert (Et : tile_region bx 4 4 1 1 (2,0,0) = ends_tile) by (vm_compute; reflexivity). rewrite Et in HC |- *.
  pose proof ends_voxelized as Hsome. fold mesh in Hsome.
  destruct Hsome as (b & Eb & Hsz & B1 & B2 & B3).
  assert (Hrf : region_file ft ends_tile mesh = inr (Some (write_file ft b 0 0 0 0 0 0))) by (unfold region_file; rewrite Eb, decide_False by exact Hsz; reflexivity).
  rewrite Hrf in HC. destruct HC as (out & Hr & Ho). exists (write_file ft b 0 0 0 0 0 0), out. split; [exact Hrf|]. split; [exact Hr|].
  split.
  - apply leibniz_equiv, elem_of_equiv_empty. intros k Hk. apply Ho in Hk as [H1 H2]. exact (Hno k H1 H2).
  - destruct (C02_region_write_exact Q ft b 0 0 0 0 0 0) as (ws & Hr' & _).
    + apply set_choose_L. intros E. apply Hsz. rewrite E. apply size_empty.
    + rewrite B1. vm_compute. split; [reflexivity|discriminate].
    + rewrite B2. vm_compute. split; [reflexivity|discriminate].
    + rewrite B3. vm_compute. split; [reflexivity|discriminate].
    + rewrite Hr in Hr'. injection Hr' as ->. cbn [NX NY NZ]. rewrite B1, B2, B3. auto.
Qed.
Print Assumptions C42_empty_tile_file.

(** ** C43: interrupted and repeated runs *)

(** Everything there is to write: name, suffix and contents of the non-empty tiles of all inputs, in
    order. *)
Definition wanted ft (bx : qpt * qpt) (dim nx ny nz : Z) (args : list (list byte * list tri)) : list (list byte * list byte * list byte) :=
  flat_map (fun '(name, mesh) =>
    omap (fun t => match region_file ft (tile_region bx dim nx ny nz t) mesh with
                   | inr (Some bytes) => Some (out_file (out_prefix name dim nx ny nz) t, suffix_of t, bytes)
                   | _ => None end) (all_tiles nx ny nz)) args.

Definition absent (d : dir) (w : list byte * list byte * list byte) : bool :=
  match d (fst (fst w)) with None => true | Some _ => false end.
Definition as_write (w : list byte * list byte * list byte) : list byte * list byte := (fst (fst w), snd w).
Definition as_suffix (w : list byte * list byte * list byte) : list byte := snd (fst w).

Lemma put_files_other ws : forall d n, ~ In n (map fst ws) -> put_files d ws n = d n.
Proof.
  unfold put_files. induction ws as [|w ws IH]; intros d n H; [reflexivity|]. cbn [fold_left]. rewrite IH by (intros Hin; apply H; right; exact Hin).
  apply put_file_other. intros ->. apply H. left. reflexivity.
Qed.

Lemma put_files_in ws : forall d n bytes, List.NoDup (map fst ws) -> In (n, bytes) ws -> put_files d ws n = Some bytes.
Proof.
  unfold put_files. induction ws as [|w ws IH]; intros d n bytes Hnd Hin; [destruct Hin|]. cbn [fold_left map] in *. inversion_clear Hnd as [|? ? Hni Hnd'].
  destruct Hin as [->|Hin]; [|apply IH; assumption]. fold (put_files (put_file d (n, bytes)) ws). rewrite put_files_other by exact Hni.
  unfold put_file. rewrite decide_True by reflexivity. reflexivity.
Qed.

Lemma out_prefix_inj a a' dim nx ny nz : out_prefix a dim nx ny nz = out_prefix a' dim nx ny nz -> a = a'.
Proof. unfold out_prefix. apply app_inv_tail. Qed.

Lemma wanted_in ft bx dim nx ny nz args w : In w (wanted ft bx dim nx ny nz args) <->
  exists name mesh t, In (name, mesh) args /\ in_grid nx ny nz t /\ fst (fst w) = out_file (out_prefix name dim nx ny nz) t /\ snd (fst w) = suffix_of t /\
    region_file ft (tile_region bx dim nx ny nz t) mesh = inr (Some (snd w)).
Proof.
  unfold wanted. rewrite in_flat_map. split.
  - intros ([name mesh] & Hin & H). apply in_omap in H as (t & Ht & H). apply in_all_tiles in Ht. exists name, mesh, t.
    destruct (region_file ft (tile_region bx dim nx ny nz t) mesh) as [|[bs|]]; try discriminate. injection H as <-. cbn. auto.
  - intros (name & mesh & t & Hin & Ht & H1 & H2 & H3). exists (name, mesh). split; [exact Hin|]. apply in_omap. exists t. split; [apply in_all_tiles, Ht|].
    rewrite H3. f_equal. destruct w as [[a b] c]. cbn in *. subst. reflexivity.
Qed.

Lemma NoDup_map_omap {A B C} (f : A -> option B) (g : B -> C) l : List.NoDup l ->
  (forall a a' b b', In a l -> In a' l -> f a = Some b -> f a' = Some b' -> g b = g b' -> a = a') -> List.NoDup (map g (omap f l)).
Proof.
  induction l as [|a l IH]; intros Hnd Hinj; [constructor|]. inversion_clear Hnd as [|? ? Hni Hnd']. rewrite omap_cons'.
  assert (IH' : List.NoDup (map g (omap f l))).
  { apply IH; [exact Hnd'|]. intros x x' y y' Hx Hx'. apply Hinj; right; assumption. }
  destruct (f a) as [b|] eqn:E; [|exact IH']. cbn [map]. constructor; [|exact IH']. intros Hin. apply in_map_iff in Hin as (b' & Hg & Hin).
  apply in_omap in Hin as (a' & Ha' & E'). apply Hni. rewrite (Hinj a a' b b'); auto; [left; reflexivity|right; exact Ha'].
Qed.

Lemma wanted_nodup ft bx dim nx ny nz args : List.NoDup (map fst args) -> List.NoDup (map (fun w => fst (fst w)) (wanted ft bx dim nx ny nz args)).
Proof.
  intros Hnd. induction args as [|[name mesh] args IH]; [constructor|]. cbn [map] in Hnd. inversion_clear Hnd as [|? ? Hni Hnd'].
  unfold wanted. cbn [flat_map]. fold (wanted ft bx dim nx ny nz args). rewrite map_app.
  assert (G : forall (l1 l2 : list (list byte)), List.NoDup l1 -> List.NoDup l2 -> (forall x, In x l1 -> ~ In x l2) -> List.NoDup (l1 ++ l2)).
  { clear. induction l1 as [|x l1 IH]; intros l2 H1 H2 Hd; [exact H2|]. cbn. inversion_clear H1. constructor.
    - rewrite in_app_iff. intros [H'|H']; [contradiction|]. exact (Hd x (or_introl eq_refl) H').
    - apply IH; [assumption|assumption|]. intros y Hy. apply Hd. right. exact Hy. }
  apply G.
  - apply NoDup_map_omap; [apply all_tiles_nodup|]. intros a a' b b' Ha Ha' E E' Hg. apply in_all_tiles in Ha, Ha'.
    destruct (region_file ft (tile_region bx dim nx ny nz a) mesh) as [|[bs|]]; try discriminate.
    destruct (region_file ft (tile_region bx dim nx ny nz a') mesh) as [|[bs'|]]; try discriminate.
    injection E as <-. injection E' as <-. cbn in Hg. apply (C42_names_distinct _ _ _ _ nx ny nz) in Hg as [_ ->]; auto.
  - apply IH, Hnd'.
  - intros n Hn Hn'. apply in_map_iff in Hn as (w & <- & Hw). apply in_map_iff in Hn' as (w' & Hww & Hw').
    apply in_omap in Hw as (t & Ht & E). apply in_all_tiles in Ht.
    destruct (region_file ft (tile_region bx dim nx ny nz t) mesh) as [|[bs|]]; try discriminate. injection E as <-. cbn in Hww.
    apply wanted_in in Hw' as (name' & mesh' & t' & Hin & Ht' & Hname & _). rewrite Hww in Hname.
    apply (C42_names_distinct _ _ _ _ nx ny nz) in Hname as [Hp _]; [|assumption..]. apply out_prefix_inj in Hp. subst name'.
    apply Hni. apply in_map_iff. exists (name, mesh'). auto.
Qed.

Lemma main_loop_spec ft bx dim nx ny nz args : good bx dim nx ny nz -> List.NoDup (map fst args) ->
  forall d, main_loop ft d (Some bx) dim nx ny nz (map (fun a => (fst a, Some (snd a))) args) =
    (map as_write (List.filter (absent d) (wanted ft bx dim nx ny nz args)),
     Some (map as_suffix (List.filter (absent d) (wanted ft bx dim nx ny nz args)))).
Proof.
  intros Hgood. induction args as [|[name mesh] args IH]; intros Hnd d; [reflexivity|]. cbn [map fst snd] in *. inversion_clear Hnd as [|? ? Hni Hnd'].
  cbn [main_loop]. rewrite diceMesh_spec by exact Hgood. rewrite IH by exact Hnd'.
  set (pfx := out_prefix name dim nx ny nz).
  set (W := omap (fun t => match region_file ft (tile_region bx dim nx ny nz t) mesh with
                   | inr (Some bytes) => Some (out_file pfx t, suffix_of t, bytes) | _ => None end) (all_tiles nx ny nz)).
  assert (E1 : omap (tile_job ft d pfx (tile_region bx dim nx ny nz) mesh) (all_tiles nx ny nz) = map as_write (List.filter (absent d) W)).
  { subst W. induction (all_tiles nx ny nz) as [|t l IHl]; [reflexivity|]. rewrite !omap_cons'. unfold tile_job at 1.
    destruct (region_file ft (tile_region bx dim nx ny nz t) mesh) as [e|[bs|]]; [destruct (d (out_file pfx t)); exact IHl| |destruct (d (out_file pfx t)); exact IHl].
    cbn [List.filter]. unfold absent at 1. cbn [fst]. destruct (d (out_file pfx t)); [exact IHl|]. cbn [map]. rewrite <- IHl. reflexivity. }
  assert (E2 : omap (fun t => match tile_job ft d pfx (tile_region bx dim nx ny nz) mesh t with Some _ => Some (suffix_of t) | None => None end) (all_tiles nx ny nz) = map as_suffix (List.filter (absent d) W)).
  { subst W. clear E1. induction (all_tiles nx ny nz) as [|t l IHl]; [reflexivity|]. rewrite !omap_cons'. unfold tile_job at 1.
    destruct (region_file ft (tile_region bx dim nx ny nz t) mesh) as [e|[bs|]]; [destruct (d (out_file pfx t)); exact IHl| |destruct (d (out_file pfx t)); exact IHl].
    cbn [List.filter]. unfold absent at 1. cbn [fst]. destruct (d (out_file pfx t)); [exact IHl|]. cbn [map]. rewrite <- IHl. reflexivity. }
  rewrite E1, E2. change (wanted ft bx dim nx ny nz ((name, mesh) :: args)) with (W ++ wanted ft bx dim nx ny nz args).
  rewrite List.filter_app, !map_app.
  assert (E3 : List.filter (absent (put_files d (map as_write (List.filter (absent d) W)))) (wanted ft bx dim nx ny nz args) = List.filter (absent d) (wanted ft bx dim nx ny nz args)).
  { apply filter_ext_in. intros w Hw. unfold absent. rewrite put_files_other; [reflexivity|]. intros Hin.
    apply wanted_in in Hw as (name' & mesh' & t' & Hin' & Ht' & Hname & _). rewrite map_map in Hin. apply in_map_iff in Hin as (u & Hu & Hin).
    apply List.filter_In in Hin as [Hin _]. subst W. apply in_omap in Hin as (t & Ht & E). apply in_all_tiles in Ht.
    destruct (region_file ft (tile_region bx dim nx ny nz t) mesh) as [|[bs|]]; try discriminate. injection E as <-. cbn in Hu. rewrite <- Hu in Hname.
    apply (C42_names_distinct _ _ _ _ nx ny nz) in Hname as [Hp _]; [|assumption..]. apply out_prefix_inj in Hp. subst name'.
    apply Hni. apply in_map_iff. exists (name, mesh'). auto. }
  rewrite E3. reflexivity.
Qed.

Definition divides (dim nx ny nz : Z) : Prop := Z.rem dim nx = 0 /\ Z.rem dim ny = 0 /\ Z.rem dim nz = 0.

Lemma stldice_main_spec ft d bx dim nx ny nz args : good bx dim nx ny nz -> divides dim nx ny nz -> List.NoDup (map fst args) ->
  stldice_main ft d (Some bx) dim nx ny nz (map (fun a => (fst a, Some (snd a))) args) =
    (map as_write (List.filter (absent d) (wanted ft bx dim nx ny nz args)),
     Some (map as_suffix (List.filter (absent d) (wanted ft bx dim nx ny nz args)))).
Proof.
  intros Hg (H1 & H2 & H3) Hnd. unfold stldice_main. rewrite H1, H2, H3. cbn [Z.eqb negb orb]. apply main_loop_spec; assumption.
Qed.

(** Without -mbb the first input decides. *)
Lemma stldice_main_default ft d dim nx ny nz name mesh args :
  stldice_main ft d None dim nx ny nz ((name, Some mesh) :: args) = stldice_main ft d (Some (bounding_box mesh)) dim nx ny nz ((name, Some mesh) :: args).
Proof. reflexivity. Qed.

(** The whole program, with or without -mbb: every input is diced in one and the same box (the one
    given, or else that of the first input), and the tiles written under its name hold its voxels. *)
Theorem C42_program ft d box bx dim nx ny nz args ws r :
  match box, args with Some b, _ => b = bx | None, (_, first) :: _ => bounding_box first = bx | None, [] => True end ->
  good bx dim nx ny nz -> divides dim nx ny nz -> List.NoDup (map fst args) ->
  (forall name mesh, In (name, mesh) args -> List.NoDup (map taddr mesh)) ->
  (forall name mesh t, In (name, mesh) args -> in_grid nx ny nz t -> d (out_file (out_prefix name dim nx ny nz) t) = None) ->
  stldice_main ft d box dim nx ny nz (map (fun a => (fst a, Some (snd a))) args) = (ws, r) ->
  let td := tile_dims bx dim nx ny nz in
  r <> None /\
  (forall n bytes, In (n, bytes) ws -> exists name mesh t, In (name, mesh) args /\ in_grid nx ny nz t /\ n = out_file (out_prefix name dim nx ny nz) t) /\
  forall name mesh g, In (name, mesh) args ->
    ((exists t k bytes out, in_grid nx ny nz t /\ In (out_file (out_prefix name dim nx ny nz) t, bytes) ws /\ read ft bytes 0 0 0 0 0 0 = inr out /\ k ∈ white out /\ g = tile_voxel td t k) <->
     in_grid (nx * kx td) (ny * ky td) (nz * kz td) g /\ result_voxels (Voxelize (whole bx dim) mesh) g).
Proof.
  intros Hbox Hgood Hdv Hnd Haddr Hd Hrun td.
  assert (E : stldice_main ft d (Some bx) dim nx ny nz (map (fun a => (fst a, Some (snd a))) args) = (ws, r)).
  { rewrite <- Hrun. destruct box as [b|]; [rewrite Hbox; reflexivity|]. destruct args as [|[n1 m1] args']; [reflexivity|]. rewrite <- Hbox. symmetry. apply (stldice_main_default ft d dim nx ny nz n1 m1). }
  clear Hrun Hbox. rewrite stldice_main_spec in E by assumption. injection E as <- <-. split; [discriminate|].
  assert (Hab : forall w, In w (wanted ft bx dim nx ny nz args) -> absent d w = true).
  { intros w Hw. apply wanted_in in Hw as (name & mesh & t & Hin & Ht & Hn & _). unfold absent. rewrite Hn, (Hd name mesh t Hin Ht). reflexivity. }
  assert (Ef : List.filter (absent d) (wanted ft bx dim nx ny nz args) = wanted ft bx dim nx ny nz args).
  { revert Hab. generalize (wanted ft bx dim nx ny nz args). induction l as [|w l IHl]; intros H; [reflexivity|]. cbn. rewrite (H w (or_introl eq_refl)), IHl; [reflexivity|]. intros w' Hw'. apply H. right. exact Hw'. }
  rewrite Ef. clear Ef Hab. split.
  { intros n bytes Hin. apply in_map_iff in Hin as (w & Ew & Hw). injection Ew as <- _. apply wanted_in in Hw as (name & mesh & t & Hin & Ht & Hn & _). eauto 6. }
  intros name mesh g Harg. pose proof Hgood as (Hs & Hx & Hy & Hz). fold td in Hx, Hy, Hz.
  pose proof (C42_coverage bx dim nx ny nz g Hs) as HC. fold td in HC. destruct HC as [HC _]; [lia..|]. split.
  - intros (t & k & bytes & out & Ht & Hin & Hread & Hk & ->). apply in_map_iff in Hin as (w & Ew & Hw). injection Ew as Hn Hb.
    apply wanted_in in Hw as (name' & mesh' & u & Hin & Hu & Hn' & _ & Ef). rewrite Hn in Hn'.
    apply (C42_names_distinct _ _ _ _ nx ny nz) in Hn' as [Hp <-]; [|assumption..]. apply out_prefix_inj in Hp. subst name'.
    assert (mesh' = mesh) as ->.
    { clear -Hnd Harg Hin. induction args as [|[n1 m1] args IH]; [destruct Hin|]. cbn [map fst] in Hnd. inversion_clear Hnd as [|? ? Hni Hnd'].
      assert (Hno : forall m0, ~ In (n1, m0) args) by (intros m0 H; apply Hni, in_map_iff; exists (n1, m0); auto).
      destruct Harg as [E|Harg], Hin as [E'|Hin]; [congruence|injection E as <- <-; destruct (Hno _ Hin)|injection E' as <- <-; destruct (Hno _ Harg)|exact (IH Hnd' Harg Hin)]. }
    pose proof (C42_tile_content ft bx dim nx ny nz mesh t Hs) as HT. fold td in HT. specialize (HT Hx Hy Hz (Haddr _ _ Harg) Ht). rewrite Ef, Hb in HT.
    destruct HT as (out' & Hr & Ho). rewrite Hread in Hr. injection Hr as <-. apply Ho in Hk as [Hk1 Hk2]. split; [|exact Hk2]. apply HC. eauto.
  - intros [Hg Hres]. apply HC in Hg as (t & k & Ht & Hk & ->).
    pose proof (C42_tile_content ft bx dim nx ny nz mesh t Hs) as HT. fold td in HT. specialize (HT Hx Hy Hz (Haddr _ _ Harg) Ht).
    destruct (region_file ft (tile_region bx dim nx ny nz t) mesh) as [|[bs|]] eqn:Ef; [destruct HT| |exfalso; exact (HT k Hk Hres)].
    destruct HT as (out & Hr & Ho). exists t, k, bs, out. split; [exact Ht|]. split; [|split; [exact Hr|]; split; [apply Ho; auto|reflexivity]].
    apply in_map_iff. exists (out_file (out_prefix name dim nx ny nz) t, suffix_of t, bs). split; [reflexivity|].
    unfold wanted. apply in_flat_map. exists (name, mesh). split; [exact Harg|]. apply in_omap. exists t. split; [apply in_all_tiles, Ht|]. rewrite Ef. reflexivity.
Qed.
Print Assumptions C42_program.

Lemma filter_id {A} (f : A -> bool) l : (forall x, In x l -> f x = true) -> List.filter f l = l.
Proof. induction l as [|x l IH]; intros H; [reflexivity|]. cbn. rewrite H by (left; reflexivity). rewrite IH; [reflexivity|]. intros y Hy. apply H. right. exact Hy. Qed.
Lemma filter_none {A} (f : A -> bool) l : (forall x, In x l -> f x = false) -> List.filter f l = [].
Proof. induction l as [|x l IH]; intros H; [reflexivity|]. cbn. rewrite H by (left; reflexivity). apply IH. intros y Hy. apply H. right. exact Hy. Qed.

Lemma resume_filter l : forall m d, List.NoDup (map (fun w => fst (fst w)) l) ->
  let ws := map as_write (List.filter (absent d) l) in
  List.filter (absent (put_files d (take m ws))) l = drop m (List.filter (absent d) l).
Proof.
  induction l as [|w l IH]; intros m d Hnd; [destruct m; reflexivity|]. cbn [map] in Hnd. inversion_clear Hnd as [|? ? Hni Hnd'].
  specialize (IH). cbn zeta in *. cbn [List.filter].
  assert (Hsub : forall d0 x, In x (map fst (map as_write (List.filter (absent d0) l))) -> In x (map (fun w => fst (fst w)) l)).
  { intros d0 x Hx. rewrite map_map in Hx. apply in_map_iff in Hx as (u & <- & Hu). apply List.filter_In in Hu as [Hu _]. apply in_map_iff. exists u. auto. }
  assert (Htake : forall d0 j x, In x (map fst (take j (map as_write (List.filter (absent d0) l)))) -> In x (map (fun w => fst (fst w)) l)).
  { intros d0 j x Hx. apply (Hsub d0). apply in_map_iff in Hx as (u & <- & Hu). apply in_map. rewrite <- (take_drop j). apply in_or_app. left. exact Hu. }
  destruct (absent d w) eqn:Ew.
  - destruct m as [|m].
    + change (put_files d (take 0 _)) with d. rewrite Ew. reflexivity.
    + cbn [map take drop]. unfold put_files at 1 2. cbn [fold_left]. fold (put_files (put_file d (as_write w)) (take m (map as_write (List.filter (absent d) l)))).
      assert (E0 : List.filter (absent d) l = List.filter (absent (put_file d (as_write w))) l).
      { apply filter_ext_in. intros u Hu. unfold absent. rewrite put_file_other; [reflexivity|]. cbn. intros E. apply Hni. rewrite <- E. apply in_map_iff. exists u. auto. }
      replace (absent (put_files (put_file d (as_write w)) (take m (map as_write (List.filter (absent d) l)))) w) with false.
      * rewrite E0. apply IH, Hnd'.
      * unfold absent. rewrite put_files_other.
        -- unfold put_file. cbn [as_write fst]. rewrite decide_True by reflexivity. reflexivity.
        -- intros Hin. apply Hni. eapply Htake. exact Hin.
  - replace (absent (put_files d (take m (map as_write (List.filter (absent d) l)))) w) with false.
    + apply IH, Hnd'.
    + unfold absent in *. rewrite put_files_other; [symmetry; exact Ew|]. intros Hin. apply Hni. eapply Htake. exact Hin.
Qed.

(** A run interrupted between two files, then run again: it writes the rest, and its commands are
    only those of the rest. *)
Theorem C43_resume ft d bx dim nx ny nz args ws l m :
  good bx dim nx ny nz -> divides dim nx ny nz -> List.NoDup (map fst args) ->
  let margs := map (fun a => (fst a, Some (snd a))) args in
  stldice_main ft d (Some bx) dim nx ny nz margs = (ws, Some l) ->
  stldice_main ft (put_files d (take m ws)) (Some bx) dim nx ny nz margs = (drop m ws, Some (drop m l)).
Proof.
  intros Hg Hd Hnd margs H. unfold margs in *. clear margs. rewrite stldice_main_spec in H by assumption. injection H as <- <-. rewrite stldice_main_spec by assumption.
  rewrite resume_filter by (apply wanted_nodup, Hnd). rewrite !skipn_map. reflexivity.
Qed.
Print Assumptions C43_resume.

Lemma put_files_app d l1 l2 : put_files d (l1 ++ l2) = put_files (put_files d l1) l2.
Proof. unfold put_files. apply fold_left_app. Qed.

(** The files are the same as after an uninterrupted run. *)
Theorem C43_same_files ft d bx dim nx ny nz args ws l m ws' r' :
  good bx dim nx ny nz -> divides dim nx ny nz -> List.NoDup (map fst args) ->
  let margs := map (fun a => (fst a, Some (snd a))) args in
  stldice_main ft d (Some bx) dim nx ny nz margs = (ws, Some l) ->
  stldice_main ft (put_files d (take m ws)) (Some bx) dim nx ny nz margs = (ws', r') ->
  put_files (put_files d (take m ws)) ws' = put_files d ws.
Proof.
  intros Hg Hd Hnd margs H H'. unfold margs in H'. rewrite (C43_resume ft d bx dim nx ny nz args ws l m Hg Hd Hnd H) in H'. injection H' as <- _.
  rewrite <- put_files_app, take_drop. reflexivity.
Qed.
Print Assumptions C43_same_files.

(** A finished run repeated writes nothing and prints no command for any tile. *)
Theorem C43_second_run_prints_nothing ft d bx dim nx ny nz args ws l :
  good bx dim nx ny nz -> divides dim nx ny nz -> List.NoDup (map fst args) ->
  let margs := map (fun a => (fst a, Some (snd a))) args in
  stldice_main ft d (Some bx) dim nx ny nz margs = (ws, Some l) ->
  stldice_main ft (put_files d ws) (Some bx) dim nx ny nz margs = ([], Some []).
Proof.
  intros Hg Hd Hnd margs H. pose proof (C43_resume ft d bx dim nx ny nz args ws l (length ws) Hg Hd Hnd H) as E.
  rewrite firstn_all in E. unfold margs. rewrite E. rewrite drop_all. f_equal. f_equal. apply nil_length_inv.
  unfold margs in H. rewrite stldice_main_spec in H by assumption. injection H as <- <-. rewrite drop_length, !map_length. lia.
Qed.
Print Assumptions C43_second_run_prints_nothing.

(** A run interrupted within a file: the torn file stays, is not listed, and is never completed. *)
Theorem C43_torn_file ft d bx dim nx ny nz args ws l m n bytes j :
  good bx dim nx ny nz -> divides dim nx ny nz -> List.NoDup (map fst args) ->
  let margs := map (fun a => (fst a, Some (snd a))) args in
  stldice_main ft d (Some bx) dim nx ny nz margs = (ws, Some l) ->
  nth_error ws m = Some (n, bytes) ->
  let crash := put_file (put_files d (take m ws)) (n, take j bytes) in
  stldice_main ft crash (Some bx) dim nx ny nz margs = (drop (S m) ws, Some (drop (S m) l)) /\
  put_files crash (drop (S m) ws) n = Some (take j bytes).
Proof.
  intros Hg Hd Hnd margs H Hm crash. pose proof (C43_resume ft d bx dim nx ny nz args ws l (S m) Hg Hd Hnd H) as E. fold margs in E.
  pose proof (wanted_nodup ft bx dim nx ny nz args Hnd) as Hw.
  assert (Hwn : List.NoDup (map fst ws)).
  { unfold margs in H. rewrite stldice_main_spec in H by assumption. injection H as <- _. rewrite map_map. cbn [as_write fst].
    clear -Hw. induction (wanted ft bx dim nx ny nz args) as [|w l IH]; [constructor|]. cbn [map List.filter] in *. inversion_clear Hw as [|? ? Hni Hw'].
    destruct (absent d w); [|apply IH, Hw']. cbn [map]. constructor; [|apply IH, Hw']. intros Hin. apply Hni.
    apply in_map_iff in Hin as (u & <- & Hu). apply List.filter_In in Hu as [Hu _]. apply in_map_iff. exists u. auto. }
  assert (Hsplit : ws = take m ws ++ (n, bytes) :: drop (S m) ws).
  { clear -Hm. revert m Hm. induction ws as [|w ws IH]; intros [|m] Hm; cbn in *; [discriminate|discriminate|injection Hm as ->; reflexivity|]. f_equal. apply IH, Hm. }
  split.
  - assert (Hsame : forall x, crash x = None <-> put_files d (take (S m) ws) x = None).
    { intros x. assert (Et : take (S m) ws = take m ws ++ [(n, bytes)]).
      { clear -Hm. revert m Hm. induction ws as [|w ws IH]; intros [|m] Hm; [discriminate|discriminate|cbn in *; injection Hm as ->; reflexivity|].
        cbn in Hm. change (take (S (S m)) (w :: ws)) with (w :: take (S m) ws). rewrite (IH m Hm). reflexivity. }
      rewrite Et, put_files_app. unfold crash. unfold put_files at 2. cbn [fold_left]. unfold put_file. cbn [fst snd]. case_decide; [|reflexivity]. split; discriminate. }
    unfold margs in *. rewrite stldice_main_spec in E |- * by assumption. rewrite <- E.
    assert (Ef : List.filter (absent crash) (wanted ft bx dim nx ny nz args) = List.filter (absent (put_files d (take (S m) ws))) (wanted ft bx dim nx ny nz args)).
    { apply filter_ext. intros w. unfold absent. pose proof (Hsame (fst (fst w))) as Hs. destruct (crash (fst (fst w))), (put_files d (take (S m) ws) (fst (fst w))); try reflexivity; exfalso; [destruct Hs as [_ Hs]|destruct Hs as [Hs _]]; discriminate (Hs eq_refl). }
    rewrite Ef. reflexivity.
  - rewrite put_files_other.
    + unfold crash, put_file. cbn [fst snd]. rewrite decide_True by reflexivity. reflexivity.
    + rewrite Hsplit, map_app in Hwn. cbn [map fst] in Hwn. apply NoDup_remove_2 in Hwn. intros Hin. apply Hwn. apply in_or_app. right. exact Hin.
Qed.
Print Assumptions C43_torn_file.

(** Non-vacuity: the box diced in 2 x 2 x 1 tiles writes four files; interrupted after one and run
    again, the command for the first is missing. *)
Example C43_ex : good ex_bx 4 2 2 1 /\ divides 4 2 2 1 /\
  exists ws l, stldice_main qtext (fun _ => None) (Some ex_bx) 4 2 2 1 (map (fun a => (fst a, Some (snd a))) [(txt "box", ex_box_mesh)]) = (ws, Some l) /\
    length ws = 4%nat /\ l = [txt "-00-00-00"; txt "-01-00-00"; txt "-00-01-00"; txt "-01-01-00"].
Proof.
  split; [exact ex_good|]. split; [vm_compute; auto|]. eexists. eexists. split; [vm_compute; reflexivity|]. split; vm_compute; reflexivity.
Qed.

(** Two inputs with boxes of their own, no -mbb: the hypotheses of C42_program hold with the first box. *)
Definition ex_second : list tri := box_mesh 1 1 1 3 2 9.
Example C42_program_ex : bounding_box ex_box_mesh = ex_bx /\ bounding_box ex_second <> ex_bx /\ good ex_bx 4 2 2 1 /\ divides 4 2 2 1 /\
  exists ws l, stldice_main qtext (fun _ => None) None 4 2 2 1 (map (fun a => (fst a, Some (snd a))) [(txt "box", ex_box_mesh); (txt "second", ex_second)]) = (ws, Some l) /\
    length ws = 6%nat.
Proof.
  split; [vm_compute; reflexivity|]. split; [intros E; vm_compute in E; discriminate E|]. split; [exact ex_good|]. split; [vm_compute; auto|]. eexists. eexists. split; vm_compute; reflexivity.
Qed.
