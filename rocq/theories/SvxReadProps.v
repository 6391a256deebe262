(** C47: what svx2stl reads, and the way from stl2svx to svx2stl. *)
From Verif Require Import Base BaseLemmas BinvoxModel BinvoxSpec BinvoxLemmas BinvoxProofs BinvoxProps FloatTextQ Geom VoxelizeModel VoxelizeSpec VoxelizeSlice VoxelizeFill VoxelizeProps
  VoxelizeShift VoxcutModel VoxcutProps VoxcutDiceProps StldiceModel StldiceProps SvxModel SvxProps.
From Coq Require Import ZArith QArith Qround List Lia Lqa Bool String Permutation Init.Byte.
From stdpp Require Import base list list_numbers gmap sets fin_sets fin_maps.
Import ListNotations.
Open Scope Z_scope.

(** ** Slice names *)

Lemma strip_app p s : strip p (p ++ s) = Some s.
Proof. induction p as [|a p IH]; [reflexivity|]. cbn [strip app]. rewrite decide_True by reflexivity. exact IH. Qed.

Lemma take_digits_app n d s : forallb is_digit d = true -> length d = n -> take_digits n (d ++ s) = (d, s).
Proof.
  revert d. induction n as [|n IH]; intros d Hd Hl; [destruct d; [destruct s; reflexivity|discriminate]|].
  destruct d as [|b d]; [discriminate|]. cbn [forallb] in Hd. apply andb_prop in Hd as [Hb Hd]. cbn [app take_digits]. rewrite Hb, IH; [reflexivity|exact Hd|].
  cbn in Hl. lia.
Qed.

Lemma undec_bound d : forallb is_digit d = true -> forall a, 0 <= a -> 0 <= undec a d < (a + 1) * 10 ^ Z.of_nat (length d).
Proof.
  induction d as [|b d IH]; intros Hd a Ha; [cbn; lia|]. cbn [forallb] in Hd. apply andb_prop in Hd as [Hb Hd]. unfold is_digit in Hb. unfold undec. cbn [fold_left].
  specialize (IH Hd (a * 10 + (b2z b - 48))). unfold undec in IH. cbn [length]. rewrite Nat2Z.inj_succ, Z.pow_succ_r by lia. pose proof (Z.pow_pos_nonneg 10 (Z.of_nat (length d))). nia.
Qed.

Lemma show_nat_length n : 0 <= n -> (length (show_nat n) <= 4)%nat <-> n < 10000.
Proof.
  intros Hn. split.
  - intros Hl. pose proof (undec_bound (show_nat n) (show_nat_digits n Hn) 0 ltac:(lia)) as H. rewrite show_nat_undec in H by exact Hn.
    assert (10 ^ Z.of_nat (length (show_nat n)) <= 10 ^ 4) by (apply Z.pow_le_mono_r; lia). lia.
  - intros Hlt. assert (G : forallb (fun n => (length (show_nat n) <=? 4)%nat) (seqZ 0 10000) = true) by (vm_compute; reflexivity).
    rewrite forallb_forall in G. apply Nat.leb_le, G. apply elem_of_list_In, elem_of_seqZ. lia.
Qed.

Lemma undec_zeros m d : undec 0 (repeat x30 m ++ d) = undec 0 d.
Proof. induction m as [|m IH]; [reflexivity|]. cbn [repeat app]. unfold undec in *. cbn [fold_left]. change (0 * 10 + (b2z x30 - 48)) with 0. exact IH. Qed.

Lemma pad4_digits n : 0 <= n -> forallb is_digit (pad4 n) = true.
Proof. intros Hn. unfold pad4. rewrite forallb_app, (show_nat_digits n Hn), andb_true_r. generalize (4 - length (show_nat n))%nat. intros m. induction m; auto. Qed.

(** The slice number is read back exactly up to 9999, and not at all beyond. *)
Theorem C47_slice_numbers p n : 0 <= n ->
  sscanf_slice p (txt ".png") (p ++ pad4 n ++ txt ".png") = if n <? 10000 then Some n else None.
Proof.
  intros Hn. unfold sscanf_slice. rewrite strip_app. destruct (Z.ltb_spec n 10000) as [Hlt|Hge].
  - pose proof (proj2 (show_nat_length n Hn) Hlt) as Hl.
    assert (L : length (pad4 n) = 4%nat) by (unfold pad4; rewrite app_length, repeat_length; lia).
    rewrite take_digits_app by (apply pad4_digits, Hn || exact L). destruct (pad4 n) as [|b d] eqn:E; [discriminate L|]. rewrite <- E.
    change (strip (txt ".png") (txt ".png")) with (Some (@nil byte)). cbv iota beta. f_equal. unfold digits_value. change (undec 0 (pad4 n) = n). unfold pad4.
    rewrite undec_zeros. apply show_nat_undec, Hn.
  - assert (Hl : (5 <= length (show_nat n))%nat) by (destruct (le_lt_dec 5 (length (show_nat n))); [assumption|]; exfalso; apply (Z.lt_irrefl n); apply Z.lt_le_trans with 10000; [apply show_nat_length; lia|lia]).
    unfold pad4. replace (4 - length (show_nat n))%nat with 0%nat by lia. cbn [repeat app].
    pose proof (show_nat_digits n Hn) as Hd. destruct (show_nat n) as [|b1 [|b2 [|b3 [|b4 [|b5 l]]]]]; try (cbn in Hl; lia).
    cbn [forallb] in Hd. apply andb_prop in Hd as [H1 Hd]. apply andb_prop in Hd as [H2 Hd]. apply andb_prop in Hd as [H3 Hd]. apply andb_prop in Hd as [H4 Hd]. apply andb_prop in Hd as [H5 Hd].
    cbn [app take_digits]. rewrite H1, H2, H3, H4. cbn [txt]. change (txt ".png") with [x2e; x70; x6e; x67]. cbn [strip].
    rewrite decide_False; [reflexivity|]. intros E. rewrite <- E in H5. discriminate H5.
Qed.
Print Assumptions C47_slice_numbers.

(** ** Pixels *)

Lemma fold_add_spec {A} (f : A -> key) (c : A -> bool) l : forall (w : gset key) k,
  k ∈ fold_left (fun w x => if c x then {[f x]} ∪ w else w) l w <-> k ∈ w \/ exists x, In x l /\ c x = true /\ k = f x.
Proof.
  induction l as [|x l IH]; intros w k; [cbn; split; [auto|intros [H|(x & [] & _)]; exact H]|]. cbn [fold_left]. rewrite IH. split.
  - intros [H|(y & Hy & Hc & ->)]; [|right; exists y; split; [right; exact Hy|auto]]. destruct (c x) eqn:E; [|left; exact H].
    apply elem_of_union in H as [H|H]; [|left; exact H]. apply elem_of_singleton in H. right. exists x. split; [left; reflexivity|auto].
  - intros [H|(y & [->|Hy] & Hc & ->)]; [left; destruct (c x); set_solver|left; rewrite Hc; set_solver|right; eauto].
Qed.

Lemma scanImage_spec img z w k : k ∈ scanImage img z w <->
  k ∈ w \/ kz k = z /\ 0 <= kx k < iw img /\ 0 <= ky k < ih img /\ 128 <= pix img (kx k, ky k).
Proof.
  unfold scanImage.
  assert (G : forall ys w, k ∈ fold_left (fun w y => scan_row img z y w) ys w <-> k ∈ w \/ kz k = z /\ 0 <= kx k < iw img /\ In (ky k) ys /\ 128 <= pix img (kx k, ky k)).
  { induction ys as [|y ys IH]; intros w'; [cbn; tauto|]. cbn [fold_left]. rewrite IH. unfold scan_row.
    rewrite (fold_add_spec (fun x => (x, y, z)) (fun x => 128 <=? pix img (x, y))). cbn [In]. split.
    - intros [[H|(x & Hx & Hc & ->)]|H]; [left; exact H| |tauto]. apply elem_of_list_In, elem_of_seqZ in Hx. right. kproj. split; [reflexivity|]. split; [lia|]. split; [left; reflexivity|lia].
    - intros [H|(Hz & Hx & [Hy|Hy] & Hp)]; [left; left; exact H| |right; tauto]. left. right. exists (kx k). split; [apply elem_of_list_In, elem_of_seqZ; lia|].
      subst y. split; [lia|]. destruct k as [[a b] c]. unfold kx, ky, kz in *. cbn [fst snd] in *. subst. reflexivity. }
  rewrite G. rewrite <- elem_of_list_In, elem_of_seqZ. replace (0 + ih img) with (ih img) by lia. reflexivity.
Qed.

(** ** Reading any archive *)

Definition is_slice (e : entry) : Prop := match e with ESlice _ _ => True | EManifest _ => False end.

(** The voxels of an archive with its manifest first: a pixel of value 128 or more in the slice with
    that number. *)
Definition archive_voxel (m : manifest) (es : list entry) (k : key) : Prop :=
  exists name img, In (ESlice name img) es /\ sscanf_slice (slice_prefix m) (slice_suffix m) name = Some (kz k) /\
    0 <= kx k < iw img /\ 0 <= ky k < ih img /\ 128 <= pix img (kx k, ky k).

Lemma svx_loop_spec m es : forall w, Forall is_slice es ->
  match svx_loop (Some (m, w)) es with
  | inl e => e = EName /\ exists name img, In (ESlice name img) es /\ sscanf_slice (slice_prefix m) (slice_suffix m) name = None
  | inr None => False
  | inr (Some (m', w')) => m' = m /\ (forall name img, In (ESlice name img) es -> sscanf_slice (slice_prefix m) (slice_suffix m) name <> None) /\
      forall k, k ∈ w' <-> k ∈ w \/ archive_voxel m es k
  end.
Proof.
  induction es as [|e es IH]; intros w Hs.
  - cbn [svx_loop]. split; [reflexivity|]. split; [intros ? ? []|]. intros k. split; [auto|]. intros [H|(? & ? & [] & _)]. exact H.
  - inversion_clear Hs as [|? ? He Hs']. destruct e as [|name img]; [destruct He|]. cbn [svx_loop].
    destruct (sscanf_slice (slice_prefix m) (slice_suffix m) name) as [z|] eqn:E.
    + specialize (IH (scanImage img z w) Hs'). destruct (svx_loop (Some (m, scanImage img z w)) es) as [e|[[m' w']|]].
      * destruct IH as (-> & n' & i' & Hin & Hn). split; [reflexivity|]. exists n', i'. split; [right; exact Hin|exact Hn].
      * destruct IH as (-> & Hall & Hk). split; [reflexivity|]. split.
        -- intros n' i' [[= <- <-]|Hin]; [congruence|eapply Hall, Hin].
        -- intros k. rewrite Hk, scanImage_spec. unfold archive_voxel. split.
           ++ intros [[H|(Hz & Hx & Hy & Hp)]|(n' & i' & Hin & H)]; [left; exact H| |right; exists n', i'; split; [right; exact Hin|exact H]].
              right. exists name, img. split; [left; reflexivity|]. subst z. auto.
           ++ intros [H0|(n' & i' & [Ee|Hin] & Hn & H3)]; [left; left; exact H0| |right; exists n', i'; auto]. injection Ee as <- <-.
              left. right. rewrite Hn in E. injection E as <-. tauto.
      * exact IH.
    + split; [reflexivity|]. exists name, img. split; [left; reflexivity|exact E].
Qed.

(** Reading succeeds iff all slice names match the pattern, and then keeps exactly the bright pixels. *)
Theorem C47_read m es : Forall is_slice es ->
  (svx_read (EManifest m :: es) = inl EName <-> exists name img, In (ESlice name img) es /\ sscanf_slice (slice_prefix m) (slice_suffix m) name = None) /\
  (forall r, svx_read (EManifest m :: es) = inr r -> exists b, r = Some b /\
     (NX b, NY b, NZ b) = (gridSizeX m, gridSizeY m, gridSizeZ m) /\ Scale b = (voxelSize m * 1000)%Q /\ forall k, k ∈ white b <-> archive_voxel m es k).
Proof.
  intros Hs. unfold svx_read. cbn [svx_loop]. pose proof (svx_loop_spec m es ∅ Hs) as H. destruct (svx_loop (Some (m, ∅)) es) as [e|[[m' w']|]].
  - destruct H as (-> & n & i & Hin & Hn). split; [split; [intros _; eauto|reflexivity]|intros r; discriminate].
  - destruct H as (-> & Hall & Hk). split.
    + split; [discriminate|]. intros (n & i & Hin & Hn). exfalso. exact (Hall n i Hin Hn).
    + intros r [= <-]. eexists. split; [reflexivity|]. cbn. split; [reflexivity|]. split; [reflexivity|]. intros k. rewrite Hk. set_solver.
  - destruct H.
Qed.
Print Assumptions C47_read.

(** The voxels come out 1/D of the voxelSize of the manifest wide, D being the largest grid size:
    Scale is the size of the whole model elsewhere, but is set to that of one voxel here. *)
Theorem C47_voxel_side m w : (0 < voxelSize m)%Q -> 0 < BinvoxModel.dim (svx_model m w) ->
  (1 / vpmm (svx_model m w) == voxelSize m * 1000 / inject_Z (BinvoxModel.dim (svx_model m w)))%Q.
Proof.
  intros Hv Hd. apply dim_q_pos in Hd. rewrite vpmm_scale; cbn [svx_model Scale]; [|nra]. fold (svx_model m w). field. repeat split; lra.
Qed.
Print Assumptions C47_voxel_side.

(** ** From stl2svx to svx2stl *)

Lemma mbb_scale_max bx : (size_x bx <= mbb_scale bx)%Q /\ (size_y bx <= mbb_scale bx)%Q /\ (size_z bx <= mbb_scale bx)%Q.
Proof.
  unfold mbb_scale, qlt. cbv zeta.
  destruct (Qle_bool (size_y bx) (size_x bx)) eqn:E1; cbn [negb]; [destruct (Qle_bool (size_z bx) (size_x bx)) eqn:E2|destruct (Qle_bool (size_z bx) (size_y bx)) eqn:E2]; cbn [negb];
    try apply Qle_bool_iff in E1; try apply Qle_bool_iff in E2;
    try (apply not_true_iff_false in E1; rewrite Qle_bool_iff in E1; apply Qnot_le_lt in E1);
    try (apply not_true_iff_false in E2; rewrite Qle_bool_iff in E2; apply Qnot_le_lt in E2); lra.
Qed.

Lemma whole_dims_le bx dim nx ny nz : sane bx dim nx ny nz -> NX (whole bx dim) <= dim /\ NY (whole bx dim) <= dim /\ NZ (whole bx dim) <= dim.
Proof.
  intros (Hs & _ & _ & _ & Hd & _). cbn [whole grid_at NX NY NZ]. destruct (mbb_scale_max bx) as (M1 & M2 & M3).
  assert (G : forall e, (e <= mbb_scale bx)%Q -> Qceiling (e * inject_Z dim / mbb_scale bx) <= dim).
  { intros e He. rewrite <- (Qceiling_Z dim) at 2. apply Qceiling_resp_le. apply dim_q_pos in Hd. apply Qle_shift_div_r; [exact Hs|]. nra. }
  auto.
Qed.

Lemma slice_entries_spec dim nx ny nz ord pord meshes zs (img_ok : Z -> image -> Prop) :
  (forall z, In z zs -> exists img, slice_image dim nx ny nz (ord z) (pord z) meshes z = Some img /\ img_ok z img) ->
  exists es, slice_entries dim nx ny nz ord pord meshes zs = Some es /\ Forall is_slice es /\
    (forall e, In e es -> exists z img, In z zs /\ e = ESlice (slice_name dim nx ny nz (z + 1)) img /\ img_ok z img) /\
    (forall z, In z zs -> exists img, In (ESlice (slice_name dim nx ny nz (z + 1)) img) es /\ img_ok z img).
Proof.
  induction zs as [|z zs IH]; intros H; [exists []; split; [reflexivity|]; split; [constructor|]; split; [intros ? []|intros ? []]|].
  destruct (H z (or_introl eq_refl)) as (img & E & Hok). destruct IH as (es & E' & Hs & H1 & H2); [intros z' Hz'; apply H; right; exact Hz'|].
  cbn [slice_entries]. rewrite E, E'. eexists. split; [reflexivity|]. split; [constructor; [exact I|exact Hs]|]. split.
  - intros e [<-|He]; [exists z, img; split; [left; reflexivity|auto]|]. destruct (H1 e He) as (z' & i' & Hz' & Ee & Ho). exists z', i'. split; [right; exact Hz'|auto].
  - intros z' [->|Hz']; [exists img; split; [left; reflexivity|exact Hok]|]. destruct (H2 z' Hz') as (i' & Hi & Ho). exists i'. split; [right; exact Hi|exact Ho].
Qed.

(** What an image of slice z must show. *)
Definition shows (bx : qpt * qpt) (dim nx ny dx dy : Z) (base : list tri) (cuts : list (list tri)) (z : Z) (img : image) : Prop :=
  iw img = dim + 2 /\ ih img = dim + 2 /\ forall px py, 0 <= px < dim + 2 -> 0 <= py < dim + 2 ->
      (pix img (px, py) = 255 \/ pix img (px, py) = 0) /\
      (pix img (px, py) = 255 <-> exists x y, px = x + 1 /\ py = dim - y /\ 0 <= x < nx * dx /\ 0 <= y < ny * dy /\ carved bx dim base cuts (x, y, z)).

(** Reading an archive that has these slices, in any order. *)
Lemma read_slices dim nx ny base cuts es :
  let bx := bounding_box base in good bx dim nx ny 1 ->
  let td := tile_dims bx dim nx ny 1 in let bl := black_image (dim + 2) (dim + 2) in
  let m := make_manifest dim nx ny 1 (txt "out") bx in
  (forall e, In e es -> e = ESlice (slice_name dim nx ny 1 0) bl \/ e = ESlice (slice_name dim nx ny 1 (kz td + 1)) bl \/
     exists z img, 0 <= z < kz td /\ e = ESlice (slice_name dim nx ny 1 (z + 1)) img /\ shows bx dim nx ny (kx td) (ky td) base cuts z img) ->
  In (ESlice (slice_name dim nx ny 1 (kz td + 1)) bl) es ->
  (forall z, 0 <= z < kz td -> exists img, In (ESlice (slice_name dim nx ny 1 (z + 1)) img) es /\ shows bx dim nx ny (kx td) (ky td) base cuts z img) ->
    if kz td + 1 <? 10000
    then exists b, svx_read (EManifest m :: es) = inr (Some b) /\
      NX b = NX (whole bx dim) + 2 /\ NY b = NZ (whole bx dim) + 2 /\ NZ b = NY (whole bx dim) + 2 /\
      forall k, k ∈ white b <-> exists x y z, k = (x + 1, dim - y, z + 1) /\
        0 <= x < nx * kx td /\ 0 <= y < ny * ky td /\ 0 <= z < kz td /\ carved bx dim base cuts (x, y, z)
    else svx_read (EManifest m :: es) = inl EName.
Proof.
  intros bx Hg td bl m Hes Htop Hall. pose proof Hg as (Hs & Hx & Hy & Hz). fold td in Hx, Hy, Hz.
  destruct td as [[dx dy] dz] eqn:Etd. unfold kx, ky, kz in Hx, Hy, Hz. cbn [fst snd] in Hx, Hy, Hz. unfold shows in Hes, Hall. kproj_in Hes. kproj_in Htop. kproj_in Hall. kproj.
  assert (Hname : forall n, 0 <= n -> sscanf_slice (slice_prefix m) (slice_suffix m) (slice_name dim nx ny 1 n) = if n <? 10000 then Some n else None).
  { intros n Hn. apply (C47_slice_numbers (slice_dir dim nx ny 1 (txt "out")) n Hn). }
  assert (Hsl : Forall is_slice es).
  { apply List.Forall_forall. intros e He. destruct (Hes e He) as [->|[->|(z & img & _ & -> & _)]]; exact I. }
  destruct (C47_read m es Hsl) as [R1 R2].
  destruct (Z.ltb_spec (dz + 1) 10000) as [Hlt|Hge].
  - destruct (svx_read (EManifest m :: es)) as [e|r] eqn:Er.
    + exfalso. assert (He : e = EName).
      { revert Er. unfold svx_read. cbn [svx_loop].
        pose proof (svx_loop_spec m es ∅ Hsl) as G. destruct (svx_loop _ _) as [e'|[[m' w']|]]; [|discriminate|destruct G].
        intros [= <-]. apply G. }
      subst e. destruct (proj1 R1 eq_refl) as (n & i & Hin & Hn).
      destruct (Hes _ Hin) as [[= -> ->]|[[= -> ->]|(z & img & Hzr & [= -> ->] & _)]]; rewrite Hname in Hn by lia.
      * discriminate.
      * replace (dz + 1 <? 10000) with true in Hn by lia. discriminate.
      * replace (z + 1 <? 10000) with true in Hn by lia. discriminate.
    + destruct (R2 r eq_refl) as (b & -> & Hdims & _ & Hk). exists b. split; [reflexivity|].
      pose proof Hs as (Hsc & _ & _ & _ & Hd & _).
      pose proof (f_equal (fun p => fst (fst p)) Hdims) as D1. pose proof (f_equal (fun p => snd (fst p)) Hdims) as D2. pose proof (f_equal snd Hdims) as D3. cbn [fst snd] in D1, D2, D3.
      rewrite D1, D2, D3. unfold m. cbn [make_manifest gridSizeX gridSizeY gridSizeZ whole grid_at NX NY NZ]. rewrite !model_dim_ceil by assumption.
      do 3 (split; [reflexivity|]). intros k. rewrite Hk. unfold archive_voxel. split.
      * intros (n & i & Hin & Hn & Hkx & Hky & Hpx). fold m in Hn.
        destruct (Hes _ Hin) as [[= -> ->]|[[= -> ->]|(z & img & Hzr & [= -> ->] & (W & H & Hok))]]; [cbn [bl black_image pix] in Hpx; lia..|].
        rewrite Hname in Hn by lia. replace (z + 1 <? 10000) with true in Hn by lia. injection Hn as Hn. rewrite W in Hkx. rewrite H in Hky.
        destruct (Hok _ _ Hkx Hky) as [[Hv|Hv] Hiff]; [|lia]. apply Hiff in Hv as (x & y & Ex & Ey & Hxr & Hyr & Hc). exists x, y, z.
        split; [destruct k as [[a b'] c]; unfold kx, ky, kz in *; cbn [fst snd] in *; subst; reflexivity|]. split; [exact Hxr|]. split; [exact Hyr|]. split; [lia|exact Hc].
      * intros (x & y & z & -> & Hxr & Hyr & Hzr & Hc). fold m. kproj.
        destruct (Hall z Hzr) as (img & Hin & (W & H & Hok)).
        exists (slice_name dim nx ny 1 (z + 1)), img. split; [exact Hin|]. split; [rewrite Hname by lia; replace (z + 1 <? 10000) with true by lia; reflexivity|].
        rewrite W, H.
        assert (Hb : nx * dx <= dim /\ ny * dy <= dim).
        { pose proof (C42_lost_layers bx dim nx ny 1 Hs) as (L1 & L2 & _ & _). fold td in L1, L2. rewrite Etd in L1, L2. kproj_in L1. kproj_in L2.
          pose proof Hs as (_ & _ & _ & _ & _ & Hnx & Hny & _). pose proof (Z.mod_pos_bound (NX (whole bx dim)) nx Hnx). pose proof (Z.mod_pos_bound (NY (whole bx dim)) ny Hny).
          pose proof (whole_dims_le bx dim nx ny 1 Hs) as (B1 & B2 & _). lia. }
        destruct (Hok (x + 1) (dim - y)) as [_ Hiff]; [lia|lia|]. split; [lia|]. split; [lia|].
        assert (Hv : pix img (x + 1, dim - y) = 255) by (apply Hiff; exists x, y; auto). lia.
  - apply R1. exists (slice_name dim nx ny 1 (dz + 1)), bl. split; [exact Htop|]. rewrite Hname by lia.
    replace (dz + 1 <? 10000) with false by lia. reflexivity.
Qed.

Theorem C47_roundtrip dim nx ny ord pord base cuts :
  let bx := bounding_box base in
  good bx dim nx ny 1 -> (forall m, In m (base :: cuts) -> distinct_pointers m) ->
  (forall z n, some_order (ord z n)) -> (forall z, some_order (pord z)) ->
  let td := tile_dims bx dim nx ny 1 in
  exists es, svx_archive dim nx ny 1 ord pord (base :: cuts) = Some es /\
    if kz td + 1 <? 10000
    then exists b, svx_read es = inr (Some b) /\
      NX b = NX (whole bx dim) + 2 /\ NY b = NZ (whole bx dim) + 2 /\ NZ b = NY (whole bx dim) + 2 /\
      forall k, k ∈ white b <-> exists x y z, k = (x + 1, dim - y, z + 1) /\
        0 <= x < nx * kx td /\ 0 <= y < ny * ky td /\ 0 <= z < kz td /\ carved bx dim base cuts (x, y, z)
    else svx_read es = inl EName.
Proof.
  intros bx Hg Hnd Ho Hp td. pose proof Hg as (Hs & Hx & Hy & Hz). fold td in Hx, Hy, Hz.
  unfold svx_archive. fold bx. rewrite (region_dims3_eq bx dim nx ny 1 Hs). fold td.
  pose proof (fun es => read_slices dim nx ny base cuts es Hg) as R. fold bx td in R.
  destruct td as [[dx dy] dz] eqn:Etd. unfold kx, ky, kz in Hx, Hy, Hz. cbn [fst snd] in Hx, Hy, Hz. cbv zeta in R. kproj. kproj_in R.
  replace ((dx =? 0) || (dy =? 0) || (dz =? 0)) with false by lia.
  destruct (slice_entries_spec dim nx ny 1 ord pord (base :: cuts) (seqZ 0 dz) (shows bx dim nx ny dx dy base cuts)) as (es & E & Hsl & H1 & H2).
  { intros z Hin. apply elem_of_list_In, elem_of_seqZ in Hin.
    pose proof (C45_slice_image dim nx ny (ord z) (pord z) base cuts z Hg Hnd (Ho z) (Hp z)) as G. fold bx td in G. rewrite Etd in G. cbv zeta in G. kproj_in G.
    destruct G as (img & G1 & G2); [lia|]. exists img. split; [exact G1|exact G2]. }
  rewrite E. eexists. split; [reflexivity|]. apply R.
  - intros e [<-|He]; [left; reflexivity|]. right. apply in_app_iff in He as [He|[<-|[]]]; [|left; reflexivity]. right.
    destruct (H1 e He) as (z & img & Hin & -> & Hok). apply elem_of_list_In, elem_of_seqZ in Hin. exists z, img. split; [lia|]. split; [reflexivity|exact Hok].
  - right. apply in_app_iff. right. left. reflexivity.
  - intros z Hzr. destruct (H2 z) as (img & Hin & Hok); [apply elem_of_list_In, elem_of_seqZ; lia|]. exists img. split; [right; apply in_app_iff; left; exact Hin|exact Hok].
Qed.
Print Assumptions C47_roundtrip.

(** The 4 x 3 x 2 box sliced at dim 4 and read back: the grid is declared as 6 x 4 x 5, and the voxel
    (0,0,0) comes out as (1,4,1), outside of it.  Voxels are 1/6 of the voxelSize wide. *)
Definition ex_flat_mesh : list tri := box_mesh 0 0 0 4 3 2.

Example C47_roundtrip_hyps : good (bounding_box ex_flat_mesh) 4 2 1 1 /\ (forall m, In m [ex_flat_mesh] -> distinct_pointers m).
Proof.
  split; [unfold good, sane; vm_compute; repeat split; discriminate || reflexivity|].
  intros m [<-|[]]; apply NoDup_ListNoDup; apply (bool_decide_unpack _); vm_compute; exact I.
Qed.

Example C47_roundtrip_ex :
  match svx_archive 4 2 1 1 (fun _ _ l => l) (fun _ l => l) [ex_flat_mesh] with
  | None => False
  | Some es => match svx_read es with
               | inr (Some b) => (NX b, NY b, NZ b) = (6, 4, 5) /\ (1, 4, 1) ∈ white b /\ (2, 3, 2) ∈ white b /\ (0, 0, 0) ∉ white b
               | _ => False
               end
  end.
Proof.
  assert (G : match svx_archive 4 2 1 1 (fun _ _ l => l) (fun _ l => l) [ex_flat_mesh] with
  | None => false
  | Some es => match svx_read es with
               | inr (Some b) => bool_decide ((NX b, NY b, NZ b) = (6, 4, 5) /\ (1, 4, 1) ∈ white b /\ (2, 3, 2) ∈ white b /\ (0, 0, 0) ∉ white b)
               | _ => false
               end
  end = true) by (vm_compute; reflexivity).
  destruct (svx_archive _ _ _ _ _ _ _); [|discriminate]. destruct (svx_read _) as [|[b|]]; try discriminate. apply (bool_decide_eq_true_1 _ G).
Qed.
