(** C65: stldice and then merge-binvox. *)
From Verif Require Import Base BaseLemmas BinvoxSpec BinvoxModel BinvoxProps FloatTextQ Geom VoxelizeModel VoxelizeSpec VoxelizeProps VshellModel VshellSpec VshellBits VshellMerge
  VshellProofs VshellGeom VshellProps VshellCodec VshellCodecSpec VshellCodecProps VoxcutModel StldiceModel StldiceProps CmdMergeModel CmdMergeProps CmdMergeTiles.
From Coq Require Import ZArith QArith List Bool String Init.Byte Lia Lqa.
From stdpp Require Import base list list_numbers gmap sets fin_sets sorting.
Import ListNotations.
Open Scope Z_scope.

(** ** Names of tiles *)

(** The order of the tile numbers: x first, then y, then z. *)
Definition tile_lt (t u : key) : Prop :=
  kx t < kx u \/ (kx t = kx u /\ (ky t < ky u \/ (ky t = ky u /\ kz t < kz u))).

Definition differ (a b : list byte) : Prop := exists c x y r s, a = c ++ x :: r /\ b = c ++ y :: s /\ b2z x < b2z y.

Lemma differ_app_r a b l m : differ a b -> differ (a ++ l) (b ++ m).
Proof. intros (c & x & y & r & s & -> & -> & H). exists c, x, y, (r ++ l), (s ++ m). rewrite <- !app_assoc. auto. Qed.
Lemma differ_app_l p a b : differ a b -> differ (p ++ a) (p ++ b).
Proof. intros (c & x & y & r & s & -> & -> & H). exists (p ++ c), x, y, r, s. rewrite <- !app_assoc. auto. Qed.

Lemma name_lt_differ a b : name_lt a b -> length a = length b -> differ a b.
Proof. intros [(y & r & ->)|H] Hl; [|exact H]. rewrite app_length in Hl. cbn in Hl. lia. Qed.

Lemma pad2_table : forallb (fun a => (length (pad2 a) =? 2)%nat && forallb (fun b => implb (a <? b) (name_leb (pad2 a) (pad2 b) && negb (name_leb (pad2 b) (pad2 a)))) (seqZ 0 100)) (seqZ 0 100) = true.
Proof. vm_compute. reflexivity. Qed.

Lemma pad2_length a : 0 <= a < 100 -> length (pad2 a) = 2%nat.
Proof.
  intros Ha. pose proof pad2_table as H. rewrite forallb_forall in H. specialize (H a). apply andb_true_iff in H as [H _]; [apply Nat.eqb_eq, H|].
  apply elem_of_list_In, elem_of_seqZ. lia.
Qed.

Lemma pad2_differ a b : 0 <= a < 100 -> 0 <= b < 100 -> a < b -> differ (pad2 a) (pad2 b).
Proof.
  intros Ha Hb Hlt. apply name_lt_differ; [|rewrite !pad2_length by assumption; reflexivity].
  pose proof pad2_table as H. rewrite forallb_forall in H. specialize (H a). apply andb_true_iff in H as [_ H]; [|apply elem_of_list_In, elem_of_seqZ; lia].
  rewrite forallb_forall in H. specialize (H b). apply name_lt_leb.
  assert (Hin : In b (seqZ 0 100)) by (apply elem_of_list_In, elem_of_seqZ; lia). specialize (H Hin).
  apply Z.ltb_lt in Hlt. rewrite Hlt in H. cbn [implb] in H. apply andb_true_iff in H as [H1 H2]. apply negb_true_iff in H2. auto.
Qed.

(** With at most 100 tiles along every axis, the names are in the order of the tiles. *)
Lemma out_file_lt prefix t u : in_grid 100 100 100 t -> in_grid 100 100 100 u -> tile_lt t u -> name_lt (out_file prefix t) (out_file prefix u).
Proof.
  unfold in_grid, in_region. intros (T1 & T2 & T3) (U1 & U2 & U3) H. right. fold (differ (out_file prefix t) (out_file prefix u)).
  unfold out_file. apply differ_app_l. apply differ_app_r. unfold suffix_of. apply differ_app_l.
  destruct H as [H|[-> [H|[-> H]]]].
  - apply differ_app_r. apply pad2_differ; lia.
  - apply differ_app_l, differ_app_l. apply differ_app_r. apply pad2_differ; lia.
  - apply differ_app_l, differ_app_l, differ_app_l, differ_app_l. apply pad2_differ; lia.
Qed.

(** With more than 100 they are not. *)
Example C65_name_order_over_100 : name_lt (out_file [] (100, 0, 0)) (out_file [] (20, 0, 0)) /\ tile_lt (20, 0, 0) (100, 0, 0).
Proof. split; [apply name_lt_leb; vm_compute; auto|left; vm_compute; reflexivity]. Qed.

(** The run of one prefix takes up the tiles of another whose name begins with it. *)
Example C65_prefix_of_other_run :
  let p := out_prefix (txt "part") 256 4 4 1 in let q := out_prefix (txt "part") 256 4 4 16 in
  p <> q /\ forall t, exists mid, out_file q t = p ++ mid ++ txt ".binvox".
Proof.
  split; [vm_compute; discriminate|]. intros t. exists (txt "6" ++ suffix_of t). unfold out_file.
  change (out_prefix (txt "part") 256 4 4 16) with (out_prefix (txt "part") 256 4 4 1 ++ txt "6"). rewrite <- !app_assoc. reflexivity.
Qed.

(** ** Specification *)

(** Model voxel [g] is in the covered part of the grid and set in a voxelization of the whole model. *)
Definition model_voxel (bx : qpt * qpt) (dim nx ny nz : Z) (mesh : list tri) (g : key) : Prop :=
  let td := tile_dims bx dim nx ny nz in
  in_grid (nx * kx td) (ny * ky td) (nz * kz td) g /\ result_voxels (Voxelize (whole bx dim) mesh) g.

(** How many voxels tile [t] is from tile [t0]. *)
Definition tile_offset (td : Z * Z * Z) (t0 t : key) : key :=
  ((kx t - kx t0) * kx td, (ky t - ky t0) * ky td, (kz t - kz t0) * kz td).

Definition key_le (t u : key) : Prop := kx t <= kx u /\ ky t <= ky u /\ kz t <= kz u.

(** The tile that voxel [g] of the model is in. *)
Definition tile_of (td : Z * Z * Z) (g : key) : key := (kx g / kx td, ky g / ky td, kz g / kz td).

Definition no_file : binvox Q := BinVOX 0 0 0 0%Q 0%Q 0%Q 0%Q None None.
Definition rd ft (d : dir) (n : list byte) : binvox Q :=
  match d n with
  | Some bytes => match read ft bytes 0 0 0 0 0 0 with inr b => b | inl _ => no_file end
  | None => no_file
  end.

Lemma tile_voxel_move td t0 t k : tile_voxel td t0 (move k (tile_offset td t0 t)) = tile_voxel td t k.
Proof. unfold tile_voxel, tile_offset, move. kproj. apply key_eq; lia. Qed.

Lemma qpt_eq_sym p q : qpt_eq p q -> qpt_eq q p.
Proof. unfold qpt_eq. destruct p as [[? ?] ?], q as [[? ?] ?]. intros (-> & -> & ->). repeat split; reflexivity. Qed.
Lemma qpt_eq_trans p q r : qpt_eq p q -> qpt_eq q r -> qpt_eq p r.
Proof. unfold qpt_eq. destruct p as [[? ?] ?], q as [[? ?] ?], r as [[? ?] ?]. intros (-> & -> & ->) (-> & -> & ->). repeat split; reflexivity. Qed.

(** The files of a run in a directory without such files. *)
Lemma diced_files ft d0 mesh bx dim nx ny nz prefix ws r : good bx dim nx ny nz ->
  (forall t, in_grid nx ny nz t -> d0 (out_file prefix t) = None) ->
  diceMesh ft d0 mesh bx (mbb_scale bx) dim nx ny nz prefix = (ws, r) ->
  (forall t, in_grid nx ny nz t -> put_files d0 ws (out_file prefix t) = match region_file ft (tile_region bx dim nx ny nz t) mesh with inr o => o | inl _ => None end) /\
  (forall n, (forall t, in_grid nx ny nz t -> n <> out_file prefix t) -> put_files d0 ws n = d0 n).
Proof.
  intros Hgood Hd Hrun. rewrite diceMesh_spec in Hrun by exact Hgood. injection Hrun as <- <-.
  set (job := tile_job ft d0 prefix (tile_region bx dim nx ny nz) mesh).
  assert (Hjob : forall t, in_grid nx ny nz t -> job t = match region_file ft (tile_region bx dim nx ny nz t) mesh with inr (Some bytes) => Some (out_file prefix t, bytes) | _ => None end).
  { intros t Ht. subst job. unfold tile_job. rewrite (Hd t Ht). reflexivity. }
  assert (Hfst : forall ts, (forall t, In t ts -> in_grid nx ny nz t) -> List.NoDup ts -> List.NoDup (map fst (omap job ts)) /\
            forall n, In n (map fst (omap job ts)) -> exists t, In t ts /\ n = out_file prefix t).
  { induction ts as [|t ts IH]; intros Hg Hnd; [split; [constructor|intros n []]|]. inversion_clear Hnd as [|? ? Hni Hnd'].
    destruct IH as [IH1 IH2]; [intros; apply Hg; right; assumption|assumption|]. rewrite omap_cons'. rewrite (Hjob t (Hg t (or_introl eq_refl))).
    destruct (region_file ft (tile_region bx dim nx ny nz t) mesh) as [e|[bytes|]].
    1, 3: split; [exact IH1|]; intros n Hn; destruct (IH2 n Hn) as (u & Hu & ->); exists u; split; [right; exact Hu|reflexivity].
    cbn [map fst]. split.
    - constructor; [|exact IH1]. intros Hin. destruct (IH2 _ Hin) as (u & Hu & En).
      apply (C42_names_distinct _ _ _ _ nx ny nz) in En as [_ ->]; [contradiction|apply Hg; left; reflexivity|apply Hg; right; exact Hu].
    - intros n [<-|Hn]; [exists t; split; [left; reflexivity|reflexivity]|]. destruct (IH2 n Hn) as (u & Hu & ->). exists u. split; [right; exact Hu|reflexivity]. }
  destruct (Hfst (all_tiles nx ny nz)) as [Hnd Hin]; [intros t; apply in_all_tiles|apply all_tiles_nodup|].
  split.
  - intros t Ht. destruct (region_file ft (tile_region bx dim nx ny nz t) mesh) as [e|[bytes|]] eqn:Ef.
    + destruct (region_file_ok ft bx dim nx ny nz mesh t Hgood) as (o & Ho). congruence.
    + apply put_files_in; [exact Hnd|]. apply in_omap. exists t. split; [apply in_all_tiles, Ht|]. rewrite Hjob, Ef by exact Ht. reflexivity.
    + rewrite put_files_other; [apply Hd, Ht|]. intros Hn. apply in_map_iff in Hn as ((n & bytes) & En & Hn). cbn [fst] in En. subst n.
      apply in_omap in Hn as (u & Hu & Hj). apply in_all_tiles in Hu. rewrite (Hjob u Hu) in Hj.
      destruct (region_file ft (tile_region bx dim nx ny nz u) mesh) as [|[bs|]] eqn:Eu; [discriminate| |discriminate]. injection Hj as En _.
      apply (C42_names_distinct _ _ _ _ nx ny nz) in En as [_ ->]; [congruence|assumption..].
  - intros n Hn. apply put_files_other. intros H. destruct (Hin n H) as (t & Ht & ->). apply (Hn t); [apply in_all_tiles, Ht|reflexivity].
Qed.

(** What a tile file reads as. *)
Lemma tile_reads ft d bx dim nx ny nz mesh prefix t : good bx dim nx ny nz -> List.NoDup (map taddr mesh) -> in_grid nx ny nz t ->
  d (out_file prefix t) = match region_file ft (tile_region bx dim nx ny nz t) mesh with inr o => o | inl _ => None end ->
  let td := tile_dims bx dim nx ny nz in let b := rd ft d (out_file prefix t) in
  (forall k, in_grid (kx td) (ky td) (kz td) k -> model_voxel bx dim nx ny nz mesh (tile_voxel td t k) -> d (out_file prefix t) <> None) /\
  (d (out_file prefix t) <> None ->
   reads_as ft d (out_file prefix t) b /\ (forall k, k ∈ model_of b <-> in_grid (kx td) (ky td) (kz td) k /\ model_voxel bx dim nx ny nz mesh (tile_voxel td t k)) /\
   model_of b = white b /\ dom (colors b) = ∅ /\ NX b = kx td /\ NY b = ky td /\ NZ b = kz td /\ (0 < vpmm b)%Q /\
   forall k, qpt_eq (world b k) (world (whole bx dim) (tile_voxel td t k))).
Proof.
  intros Hgood Hnd Ht Hd td b. pose proof Hgood as (Hs & Hx & Hy & Hz). fold td in Hx, Hy, Hz.
  pose proof (C42_tile_content ft bx dim nx ny nz mesh t Hs) as HT. fold td in HT. specialize (HT Hx Hy Hz Hnd Ht).
  pose proof (C42_tile_place bx dim nx ny nz t) as HP.
  pose proof (region_dims bx dim nx ny nz t Hs) as Hdims. fold td in Hdims.
  pose proof (tile_moved bx dim nx ny nz t Hs ltac:(fold td; lia) ltac:(fold td; lia) ltac:(fold td; lia)) as (Hv & Ev & _).
  set (reg := tile_region bx dim nx ny nz t) in *.
  assert (E1 : NX reg = kx td) by (rewrite <- Hdims; reflexivity). assert (E2 : NY reg = ky td) by (rewrite <- Hdims; reflexivity). assert (E3 : NZ reg = kz td) by (rewrite <- Hdims; reflexivity).
  clearbody reg.
  assert (Hcov : forall k, in_grid (kx td) (ky td) (kz td) k -> in_grid (nx * kx td) (ny * ky td) (nz * kz td) (tile_voxel td t k)).
  { intros k Hk. pose proof (C42_coverage bx dim nx ny nz (tile_voxel td t k) Hs) as HC. fold td in HC. destruct HC as [HC _]; [lia..|]. apply HC. eauto. }
  destruct (region_file ft reg mesh) as [e|[bytes|]] eqn:Ef; [destruct HT| |].
  2:{ split; [|intros H; rewrite Hd in H; contradiction]. intros k Hk [_ Hm] _. exact (HT k Hk Hm). }
  split; [intros k _ _; rewrite Hd; discriminate|]. intros _. destruct HT as (out & Hr & Ho).
  assert (Eb : b = out) by (subst b; unfold rd; rewrite Hd, Hr; reflexivity). rewrite Eb. clear b Eb.
  (* the header *)
  unfold region_file in Ef. destruct (Voxelize reg mesh) as [|b'] eqn:EV; [discriminate|]. destruct (decide (size (white b') = 0%nat)) as [|Hsz]; [discriminate|].
  injection Ef as <-.
  assert (Hb' : exists vs, b' = with_white reg vs).
  { unfold Voxelize in EV. destruct (zero_dim reg); [discriminate|]. injection EV as <-. eauto. }
  destruct Hb' as (vs & ->).
  destruct (C02_region_write_exact Q ft (with_white reg vs) 0 0 0 0 0 0) as (S & Hr' & _).
  { apply set_choose_L. intros E. apply Hsz. rewrite E. apply size_empty. }
  { cbn [Z.eqb with_white NX]. lia. } { cbn [Z.eqb with_white NY]. lia. } { cbn [Z.eqb with_white NZ]. lia. }
  rewrite Hr in Hr'. injection Hr' as ->. cbn [Z.eqb with_white NX NY NZ TX TY TZ Scale] in *. rewrite E1, E2, E3 in *.
  set (b := BinVOX _ _ _ _ _ _ _ _ _) in *.
  assert (Hmod : model_of b = white b) by (unfold model_of, colors; subst b; cbn [Colors default]; rewrite dom_empty_L, union_empty_r_L; reflexivity).
  assert (Hvp : vpmm b = vpmm reg) by (unfold vpmm, BinvoxModel.dim; subst b; cbn [NX NY NZ Scale]; rewrite E1, E2, E3; reflexivity).
  split; [exists (write_file ft (with_white reg vs) 0 0 0 0 0 0); auto|].
  split; [|split; [exact Hmod|]; split; [unfold colors; subst b; cbn [Colors default]; apply dom_empty_L|]].
  - intros k. rewrite Hmod, Ho. unfold model_voxel. fold td. split; intros [H1 H2]; [auto|destruct H2; auto].
  - subst b. cbn [NX NY NZ]. split; [reflexivity|]. split; [reflexivity|]. split; [reflexivity|]. split; [rewrite Hvp, Ev; exact Hv|].
    intros k. specialize (HP k Hs). fold td in HP. specialize (HP ltac:(lia) ltac:(lia) ltac:(lia)). unfold qpt_eq, world in *. rewrite Hvp. exact HP.
Qed.

(** ** Dicing and merging *)

(** stldice in a directory without files of the pattern, then merge-binvox.  [ts] are the tiles that got
    a file, in order; the first has a voxel, and none lies before it on any axis.  Then the output is
    the shell of the voxelization of the whole model (its covered part), every voxel at its place. *)
Theorem C65_dice_then_merge ft force d0 mesh bx dim nx ny nz prefix ws r names es t0 rest :
  let td := tile_dims bx dim nx ny nz in let d := put_files d0 ws in let ts := t0 :: rest in
  good bx dim nx ny nz -> nx <= 100 -> ny <= 100 -> nz <= 100 -> List.NoDup (map taddr mesh) ->
  (forall mid, d0 (prefix ++ mid ++ txt ".binvox") = None) ->
  diceMesh ft d0 mesh bx (mbb_scale bx) dim nx ny nz prefix = (ws, r) -> listing d names ->
  StronglySorted tile_lt ts -> (forall t, In t ts <-> in_grid nx ny nz t /\ d (out_file prefix t) <> None) ->
  (exists k, in_grid (kx td) (ky td) (kz td) k /\ model_voxel bx dim nx ny nz mesh (tile_voxel td t0 k)) ->
  (forall t, In t rest -> key_le t0 t) ->
  (forall i t S, ts !! i = Some t -> (forall k, k ∈ S <-> in_grid (kx td) (ky td) (kz td) k /\ model_voxel bx dim nx ny nz mesh (tile_voxel td t k)) ->
     iterates (e_white (es i)) S /\ iterates (e_color (es i)) ∅ /\ iterates (e_order (es i)) (displaced S (tile_offset td t0 t))) ->
  exists vs M, merge_binvox ft force prefix d names es = (put_file d (prefix ++ txt ".vsh", swrite_file ft vs 0 0 0 0 0 0), Finished) /\
    (forall k, k ∈ M <-> model_voxel bx dim nx ny nz mesh (tile_voxel td t0 k)) /\ sound_shell M (Voxels vs) /\
    (forall k, qpt_eq (shell_world vs k) (world (whole bx dim) (tile_voxel td t0 k))) /\
    (sNX vs <= max_int -> sNY vs <= max_int -> sNZ vs <= max_int ->
     no_long_run (fun i => mask_at (Voxels vs) (nth_voxel (sNY vs) (sNZ vs) i)) (sNX vs * sNY vs * sNZ vs) ->
     exists vs', sread ft (swrite_file ft vs 0 0 0 0 0 0) 0 0 0 0 0 0 = inr vs' /\
       (forall k, qpt_eq (shell_world vs' k) (world (whole bx dim) (tile_voxel td t0 k))) /\
       (forall k n, (k, n) ∈ Voxels vs' -> k ∈ M /\ sound_mask M k n) /\
       (forall k p, k ∈ M -> ~ enclosed M k -> is_offset p -> move k p ∈ M -> tile_of td (move k p) = tile_of td k ->
          k ∈ map fst (Voxels vs'))).
Proof.
  intros td d ts Hgood N1 N2 N3 Hnd Hno Hrun Hlist Hsort Hts Hfirst Hmin Henv.
  pose proof Hgood as (Hs & Hx & Hy & Hz). fold td in Hx, Hy, Hz.
  destruct (diced_files ft d0 mesh bx dim nx ny nz prefix ws r Hgood) as [Hfile Hother]; [|exact Hrun|].
  { intros t _. unfold out_file. apply Hno. }
  fold d in Hfile, Hother.
  assert (Htile : forall t, in_grid nx ny nz t -> _) by (intros t Ht; exact (tile_reads ft d bx dim nx ny nz mesh prefix t Hgood Hnd Ht (Hfile t Ht))).
  cbv zeta in Htile. fold td in Htile.
  assert (Hread : forall t, In t ts -> _) by (intros t Ht; apply Hts in Ht as [Ht1 Ht2]; exact (proj2 (Htile t Ht1) Ht2)). cbv beta in Hread.
  set (tiles := map (fun t => (rd ft d (out_file prefix t), tile_offset td t0 t)) ts).
  assert (Hmatch : matching d prefix (txt ".binvox") (map (out_file prefix) ts)).
  { split.
    - assert (Hall : forall t, In t ts -> in_grid 100 100 100 t) by (intros t Ht; apply Hts in Ht as [Ht _]; unfold in_grid, in_region in *; lia).
      clear - Hsort Hall. induction Hsort as [|t l Hs IH Hlt]; [constructor|]. cbn [map]. constructor; [apply IH; intros; apply Hall; right; assumption|].
      rewrite List.Forall_forall in *. intros n Hn. apply in_map_iff in Hn as (u & <- & Hu). apply out_file_lt; [apply Hall; left; reflexivity|apply Hall; right; exact Hu|apply Hlt, Hu].
    - intros n. rewrite in_map_iff. split.
      + intros (t & <- & Ht). apply Hts in Ht as [_ Ht]. split; [|exact Ht]. exists (suffix_of t). reflexivity.
      + intros [(mid & ->) Hn].
        destruct (decide (Exists (fun t => prefix ++ mid ++ txt ".binvox" = out_file prefix t) (all_tiles nx ny nz))) as [He|He].
        * apply List.Exists_exists in He as (t & Ht & En). exists t. split; [symmetry; exact En|]. apply in_all_tiles in Ht. apply Hts. split; [exact Ht|]. rewrite <- En. exact Hn.
        * exfalso. apply Hn. rewrite Hother; [apply Hno|]. intros t Ht En. apply He, List.Exists_exists. exists t. split; [apply in_all_tiles, Ht|exact En]. }
  assert (Et0 : tile_offset td t0 t0 = (0, 0, 0)) by (unfold tile_offset; apply key_eq; lia).
  assert (Etiles : tiles = (rd ft d (out_file prefix t0), (0, 0, 0)) :: map (fun t => (rd ft d (out_file prefix t), tile_offset td t0 t)) rest) by (subst tiles ts; cbn [map]; rewrite Et0; reflexivity).
  assert (Hin0 : In t0 ts) by (left; reflexivity).
  destruct (Hread t0 Hin0) as (R0 & M0 & W0 & C0 & D1 & D2 & D3 & V0 & P0).
  assert (Hoff : forall t, In t ts -> key_nonneg (tile_offset td t0 t)).
  { intros t [<-|Ht]; [rewrite Et0; unfold key_nonneg; kproj; lia|]. apply Hmin in Ht. unfold key_le in Ht. unfold key_nonneg, tile_offset. kproj. nia. }
  destruct (C64_merges ft force prefix d names es (map (out_file prefix) ts) (rd ft d (out_file prefix t0)) (map (fun t => (rd ft d (out_file prefix t), tile_offset td t0 t)) rest)) as (vs & M & Hrun' & HM & Hsound & Hworld & Hgrid & Hback).
  - exact Hlist.
  - exact Hmatch.
  - rewrite <- Etiles. subst tiles. clear - Hread. induction ts as [|t ts IH]; [constructor|]. cbn [map]. constructor.
    + cbn [fst]. apply (Hread t (or_introl eq_refl)).
    + apply IH. intros u Hu. apply Hread. right. exact Hu.
  - exact V0.
  - destruct Hfirst as (k & Hk & Hm). exists k. rewrite <- W0. apply M0. auto.
  - rewrite <- Etiles. apply List.Forall_forall. intros [b o] Hin. apply in_map_iff in Hin as (t & E & Ht). injection E as <- <-. cbn [fst snd].
    destruct (Hread t Ht) as (_ & Mt & _ & _ & F1 & F2 & F3 & _ & Pt). split; [|split].
    + cbn [fst]. intros k Hk. rewrite F1, F2, F3. apply Mt, Hk.
    + cbn [fst snd]. intros k. eapply qpt_eq_trans; [apply Pt|]. apply qpt_eq_sym. rewrite <- (tile_voxel_move td t0 t k). apply P0.
    + cbn [snd]. apply Hoff, Ht.
  - rewrite <- Etiles. intros i j u v k l Hi Hj Hk Hl Hm.
    apply list_lookup_fmap_inv in Hi as (t & -> & Hi). apply list_lookup_fmap_inv in Hj as (t' & -> & Hj). cbn [fst snd] in *.
    assert (Ht : In t ts) by (apply elem_of_list_In, (elem_of_list_lookup_2 _ _ _ Hi)). assert (Ht' : In t' ts) by (apply elem_of_list_In, (elem_of_list_lookup_2 _ _ _ Hj)).
    destruct (Hread t Ht) as (_ & Mt & _). destruct (Hread t' Ht') as (_ & Mt' & _). apply Mt in Hk as [Hk _]. apply Mt' in Hl as [Hl _].
    apply (f_equal (tile_voxel td t0)) in Hm. rewrite !tile_voxel_move in Hm.
    pose proof (C42_coverage bx dim nx ny nz (0,0,0) Hs) as HC. fold td in HC. destruct HC as [_ HC]; [lia..|]. destruct (HC t k t' l Hk Hl Hm) as [-> _].
    assert (Hnds : NoDup ts).
    { clear - Hsort. induction Hsort as [|a l Hs IH Hlt]; constructor; [|exact IH]. intros Hin. apply elem_of_list_In in Hin. rewrite List.Forall_forall in Hlt.
      specialize (Hlt a Hin). unfold tile_lt in Hlt. lia. }
    eapply NoDup_lookup; eassumption.
  - rewrite <- Etiles. intros i u Hi. apply list_lookup_fmap_inv in Hi as (t & -> & Hi). assert (Ht : In t ts) by (apply elem_of_list_In, (elem_of_list_lookup_2 _ _ _ Hi)).
    destruct (Hread t Ht) as (_ & Mt & Wt & Ct & _). unfold tile_env. cbn [fst snd]. rewrite <- Wt, Ct. apply (Henv i t (model_of (rd ft d (out_file prefix t))) Hi), Mt.
  - rewrite <- Etiles in *.
    assert (HMv : forall k, k ∈ M <-> model_voxel bx dim nx ny nz mesh (tile_voxel td t0 k)).
    { intros k. rewrite HM. split.
      - intros (b & o & j & Hin & Hj & ->). apply in_map_iff in Hin as (t & E & Ht). injection E as <- <-. rewrite tile_voxel_move. apply (Hread t Ht), Hj.
      - intros Hk. pose proof Hk as [Hcov _]. pose proof (C42_coverage bx dim nx ny nz (tile_voxel td t0 k) Hs) as HC. fold td in HC, Hcov. destruct HC as [HC _]; [lia..|].
        apply HC in Hcov as (t & j & Ht & Hj & E). assert (Hin : In t ts).
        { apply Hts. split; [exact Ht|]. rewrite E in Hk. exact (proj1 (Htile t Ht) j Hj Hk). }
        exists (rd ft d (out_file prefix t)), (tile_offset td t0 t), j. split; [apply in_map_iff; exists t; auto|]. split.
        + apply (Hread t Hin). rewrite E in Hk. auto.
        + rewrite <- (tile_voxel_move td t0 t j) in E. clear - E. set (m := move j (tile_offset td t0 t)) in *. clearbody m. unfold tile_voxel in E. injection E as E1 E2 E3.
          destruct k as [[k1 k2] k3], m as [[j1 j2] j3]. unfold kx, ky, kz in E1, E2, E3. cbn [fst snd] in *. apply key_eq; lia. }
    assert (Hplace : forall k, qpt_eq (shell_world vs k) (world (whole bx dim) (tile_voxel td t0 k))).
    { intros k. specialize (Hworld (rd ft d (out_file prefix t0)) (tile_offset td t0 t0) k). rewrite Et0, move_zero in Hworld. eapply qpt_eq_trans; [apply Hworld|apply P0].
      rewrite Etiles. left. reflexivity. }
    exists vs, M. split; [exact Hrun'|]. split; [exact HMv|]. split; [exact Hsound|]. split; [exact Hplace|].
    intros Q1 Q2 Q3 Q4. destruct (Hback Q1 Q2 Q3 Q4) as (vs' & Hr & Hw' & Hk' & Hmask & Hkept). exists vs'. split; [exact Hr|]. split.
    { intros k. eapply qpt_eq_trans; [apply Hw'|apply Hplace]. }
    split. { intros k n Hkn. split; [apply Hk'; eapply in_keys, Hkn|apply Hmask, Hkn]. }
    intros k p Hk Henc Hp Hkp Hsame. apply HM in Hk as (b & o & j & Hin & Hj & ->). pose proof Hin as Hin'. apply in_map_iff in Hin as (t & E & Ht). injection E as <- <-.
    apply (Hkept _ _ j p Hin' Hj Hp); [|exact Henc]. destruct (Hread t Ht) as (_ & Mt & _). apply Mt in Hj as [Hj _]. apply Mt.
    rewrite move_add in Hkp, Hsame. apply HMv in Hkp. rewrite tile_voxel_move in Hkp. split; [|exact Hkp].
    clear - Hsame Hj Hx Hy Hz. set (m := move j p) in *. clearbody m. destruct m as [[m1 m2] m3], j as [[j1 j2] j3], t as [[a1 a2] a3], t0 as [[c1 c2] c3].
    unfold tile_of, tile_offset, move in Hsame. clearbody td. destruct td as [[s1 s2] s3]. unfold in_grid, in_region, kx, ky, kz in *. cbn [fst snd] in *. injection Hsame as S1 S2 S3.
    assert (G : forall m j a c s, 0 < s -> 0 <= j < 0 + s -> (m + (a - c) * s) / s = (j + (a - c) * s) / s -> 0 <= m < 0 + s).
    { intros m j a c s Hs0 Hj0 E. rewrite !Z.div_add in E by lia. rewrite (Z.div_small j) in E by lia. assert (E0 : m / s = 0) by lia. apply Z.div_small_iff in E0; lia. }
    split; [eapply (G m1 j1 a1 c1); [lia|lia|exact S1]|]. split; [eapply (G m2 j2 a2 c2); [lia|lia|exact S2]|eapply (G m3 j3 a3 c3); [lia|lia|exact S3]].
Qed.
Print Assumptions C65_dice_then_merge.
