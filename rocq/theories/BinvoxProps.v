(** Property theorems C01-C14: the .binvox codec, voxel store and geometry. *)
From Verif Require Import Base BaseLemmas BinvoxModel BinvoxSpec BinvoxLemmas BinvoxProofs
  Chan BinvoxChan Geom FloatTextQ StoreProofs.
From Coq Require Import ZArith QArith List Lia Lqa Bool String Init.Byte.
From stdpp Require Import base relations list list_numbers gmap sets fin_sets.
Import ListNotations.
Open Scope Z_scope.

(** Reusable example: a 2 x 3 x 2 model with three voxels. *)
Definition ex_model : binvox Q :=
  {| NX := 2; NY := 3; NZ := 2; TX := 1%Q; TY := 2%Q; TZ := (-(1#2))%Q; Scale := (3#2)%Q;
     White := Some {[ (0,0,0); (1,2,1); (0,1,1) ]}; Colors := None |}.

Lemma ex_model_ok :
  (exists k, k ∈ white ex_model) /\
  (forall k, k ∈ white ex_model -> in_grid (NX ex_model) (NY ex_model) (NZ ex_model) k).
Proof.
  split; [exists (0,0,0); set_solver|].
  intros k Hk. unfold white, ex_model in Hk. cbn in Hk.
  repeat rewrite elem_of_union in Hk. rewrite !elem_of_singleton in Hk.
  destruct Hk as [[-> | ->]| ->]; unfold in_grid, in_region, kx, ky, kz; cbn; lia.
Qed.

(** ** C01 *)
Theorem C01_write_read_round_trip : forall (F : Type) (ft : FloatText F) (b : binvox F),
  (exists k, k ∈ white b) ->
  (forall k, k ∈ white b -> in_grid (NX b) (NY b) (NZ b) k) ->
  NX b <= max_int -> NY b <= max_int -> NZ b <= max_int ->
  read ft (write_file ft b 0 0 0 0 0 0) 0 0 0 0 0 0
  = inr {| NX := NX b; NY := NY b; NZ := NZ b; TX := TX b; TY := TY b; TZ := TZ b;
           Scale := Scale b; White := Some (white b); Colors := None |}.
Proof. intros F ft b. exact (round_trip ft b). Qed.
Print Assumptions C01_write_read_round_trip.

Example C01_nonvacuous :
  read qtext (write_file qtext ex_model 0 0 0 0 0 0) 0 0 0 0 0 0 = inr ex_model.
Proof.
  rewrite (C01_write_read_round_trip _ qtext ex_model (proj1 ex_model_ok) (proj2 ex_model_ok));
    [reflexivity|unfold max_int; cbn; lia..].
Qed.

(** ** C02 *)
Theorem C02_region_write_exact :
  forall (F : Type) (ft : FloatText F) (b : binvox F) (sx sy sz nx ny nz : Z),
  (exists k, k ∈ white b) ->
  let nx' := if nx =? 0 then NX b else nx in
  let ny' := if ny =? 0 then NY b else ny in
  let nz' := if nz =? 0 then NZ b else nz in
  0 < nx' <= max_int -> 0 < ny' <= max_int -> 0 < nz' <= max_int ->
  exists vs,
    read ft (write_file ft b sx sy sz nx ny nz) 0 0 0 0 0 0
    = inr {| NX := nx'; NY := ny'; NZ := nz'; TX := TX b; TY := TY b; TZ := TZ b;
             Scale := Scale b; White := Some vs; Colors := None |} /\
    forall k, k ∈ vs <-> in_grid nx' ny' nz' k /\ shift_key sx sy sz k ∈ white b.
Proof. intros F ft b sx sy sz nx ny nz. exact (write_read_region ft b sx sy sz nx ny nz). Qed.
Print Assumptions C02_region_write_exact.

Example C02_nonvacuous :
  (exists k, k ∈ white ex_model) /\ 0 < 1 <= max_int /\ 0 < NY ex_model <= max_int.
Proof. split; [apply ex_model_ok|]. unfold max_int. cbn. lia. Qed.

(** ** C03.  World placement is kept only for windows that start at the origin: in general a voxel
    read back is displaced by the window's start. *)
Theorem C03_region_world_displacement :
  forall (ft : FloatText Q) (b : binvox Q) (sx sy sz nx ny nz : Z) (b' : binvox Q),
  (exists k, k ∈ white b) -> (0 < Scale b)%Q -> 0 < dim b ->
  (let nx' := if nx =? 0 then NX b else nx in
   let ny' := if ny =? 0 then NY b else ny in
   let nz' := if nz =? 0 then NZ b else nz in
   0 < nx' <= max_int /\ 0 < ny' <= max_int /\ 0 < nz' <= max_int) ->
  read ft (write_file ft b sx sy sz nx ny nz) 0 0 0 0 0 0 = inr b' ->
  dim b' = dim b ->
  forall k, k ∈ white b' ->
    shift_key sx sy sz k ∈ white b /\
    qpt_eq (world b (shift_key sx sy sz k))
      (let '(x, y, z) := world b' k in
       (x + inject_Z sx / vpmm b, y + inject_Z sy / vpmm b, z + inject_Z sz / vpmm b)%Q).
Proof.
  intros ft b sx sy sz nx ny nz b' Hne Hs Hd (Hx & Hy & Hz) Hr Hdim k Hk.
  destruct (write_read_region ft b sx sy sz nx ny nz Hne Hx Hy Hz) as (vs & Hr' & Hvs).
  rewrite Hr in Hr'. injection Hr' as ->. split; [apply Hvs, Hk|].
  exact (region_displacement b sx sy sz nx ny nz vs k Hs Hd Hdim).
Qed.
Print Assumptions C03_region_world_displacement.

(** In full generality: a voxel keeps its place exactly if, on each axis, its new index at the new
    resolution is its old index at the old one (the header keeps Scale, so the resolution of the file
    is its own largest dimension over Scale). *)
Theorem C03_placement_iff :
  forall (ft : FloatText Q) (b : binvox Q) (sx sy sz nx ny nz : Z) (b' : binvox Q),
  (exists k, k ∈ white b) -> (0 < Scale b)%Q -> 0 < dim b ->
  (let nx' := if nx =? 0 then NX b else nx in
   let ny' := if ny =? 0 then NY b else ny in
   let nz' := if nz =? 0 then NZ b else nz in
   0 < nx' <= max_int /\ 0 < ny' <= max_int /\ 0 < nz' <= max_int) ->
  read ft (write_file ft b sx sy sz nx ny nz) 0 0 0 0 0 0 = inr b' ->
  forall k, k ∈ white b' ->
    shift_key sx sy sz k ∈ white b /\
    (qpt_eq (world b (shift_key sx sy sz k)) (world b' k) <->
     (kx k + sx) * dim b' = kx k * dim b /\ (ky k + sy) * dim b' = ky k * dim b /\
     (kz k + sz) * dim b' = kz k * dim b).
Proof.
  intros ft b sx sy sz nx ny nz b' Hne Hs Hd (Hx & Hy & Hz) Hr k Hk.
  destruct (write_read_region ft b sx sy sz nx ny nz Hne Hx Hy Hz) as (vs & Hr' & Hvs).
  rewrite Hr in Hr'. injection Hr' as E. split; [subst b'; apply Hvs, Hk|].
  assert (Hd' : 0 < dim b').
  { rewrite dim_max. subst b'. cbn [NX NY NZ mk]. unfold default_dim.
    destruct (nx =? 0), (ny =? 0), (nz =? 0); lia. }
  assert (Hs' : Scale b' = Scale b) by (subst b'; reflexivity).
  assert (Ht : TX b' = TX b /\ TY b' = TY b /\ TZ b' = TZ b) by (subst b'; auto).
  destruct Ht as (Tx & Ty & Tz). clear Hvs Hk Hr Hx Hy Hz E.
  unfold world, qpt_eq, shift_key. rewrite Tx, Ty, Tz. unfold kx, ky, kz. cbn [fst snd].
  assert (Hax : forall (t : Q) (a c : Z),
     (t + inject_Z (a + c) / vpmm b == t + inject_Z a / vpmm b')%Q <-> (a + c) * dim b' = a * dim b).
  { intros t a c. rewrite !vpmm_scale, Hs' by (rewrite ?Hs'; exact Hs).
    assert (P : (0 < inject_Z (dim b))%Q) by (change 0%Q with (inject_Z 0); rewrite <- Zlt_Qlt; exact Hd).
    assert (P' : (0 < inject_Z (dim b'))%Q) by (change 0%Q with (inject_Z 0); rewrite <- Zlt_Qlt; exact Hd').
    assert (Hq : (inject_Z ((a + c) * dim b') == inject_Z (a * dim b))%Q <-> (a + c) * dim b' = a * dim b).
    { unfold inject_Z, Qeq. cbn [Qnum Qden]. lia. }
    rewrite <- Hq. rewrite !inject_Z_mult.
    set (A := inject_Z (a + c)) in *. set (B := inject_Z a) in *.
    set (D := inject_Z (dim b)) in *. set (D' := inject_Z (dim b')) in *.
    set (S := Scale b) in *.
    assert (E1 : (A / (D / S) == A * D' * (S / (D * D')))%Q) by (field; lra).
    assert (E2 : (B / (D' / S) == B * D * (S / (D * D')))%Q) by (field; lra).
    rewrite E1, E2.
    assert (HK : (0 < S / (D * D'))%Q).
    { apply Qlt_shift_div_l; [apply Qmult_lt_0_compat; assumption|]. lra. }
    set (K := (S / (D * D'))%Q) in *. split; intros H.
    - assert (H1 : (A * D' * K == B * D * K)%Q) by lra. apply Qmult_inj_r in H1; [exact H1|lra].
    - rewrite H. reflexivity. }
  rewrite !Hax. reflexivity.
Qed.
Print Assumptions C03_placement_iff.

(** The documented placement fails: writing the voxel (1,2,1) of [ex_model] through the window
    starting at (1,0,0) moves it in world space. *)
Theorem C03_region_world_position_refuted :
  exists (b b' : binvox Q) (sx sy sz nx ny nz : Z) (k : key),
    (exists k, k ∈ white b) /\
    (forall k, k ∈ white b -> in_grid (NX b) (NY b) (NZ b) k) /\
    read qtext (write_file qtext b sx sy sz nx ny nz) 0 0 0 0 0 0 = inr b' /\
    k ∈ white b' /\ shift_key sx sy sz k ∈ white b /\
    ~ qpt_eq (world b (shift_key sx sy sz k)) (world b' k).
Proof.
  exists ex_model.
  destruct (C02_region_write_exact _ qtext ex_model 1 0 0 1 0 0 (proj1 ex_model_ok)) as (vs & Hr & Hvs);
    [unfold max_int; cbn; lia..|].
  eexists _, 1, 0, 0, 1, 0, 0, (0, 2, 1).
  split; [apply ex_model_ok|]. split; [apply ex_model_ok|]. split; [exact Hr|].
  assert (Hin : shift_key 1 0 0 (0, 2, 1) ∈ white ex_model).
  { unfold shift_key, kx, ky, kz. cbn. set_solver. }
  split; [|split; [exact Hin|]].
  - cbn. apply Hvs. split; [|exact Hin]. unfold in_grid, in_region, kx, ky, kz. cbn. lia.
  - vm_compute. intros [H _]. discriminate.
Qed.
Print Assumptions C03_region_world_position_refuted.

(** ** C04 *)
Theorem C04_data_section_canonical :
  forall (F : Type) (ft : FloatText F) (b : binvox F) (sx sy sz nx ny nz : Z),
  (exists k, k ∈ white b) ->
  let nx' := if nx =? 0 then NX b else nx in
  let ny' := if ny =? 0 then NY b else ny in
  let nz' := if nz =? 0 then NZ b else nz in
  0 <= nx' -> 0 <= ny' -> 0 <= nz' ->
  exists data recs,
    write_file ft b sx sy sz nx ny nz
      = header ft nx' ny' nz' (TX b) (TY b) (TZ b) (Scale b) ++ data /\
    data_records data recs /\
    (forall v c, In (v, c) recs -> 1 <= c <= 255) /\
    rec_total recs = nx' * ny' * nz' /\ canonical recs.
Proof.
  intros F ft b sx sy sz nx ny nz Hne nx' ny' nz' Hx Hy Hz.
  destruct (encode_records (white b) sx sy sz nx' ny' nz') as (Hr & Hc & _).
  eexists _, _. split; [exact (write_file_nonempty ft b sx sy sz nx ny nz Hne)|].
  split; [exact Hr|]. split.
  { intros v c Hin. pose proof (data_records_pos _ _ Hr) as Hp. rewrite List.Forall_forall in Hp.
    exact (Hp _ Hin). }
  split; [apply encode_total; assumption|exact Hc].
Qed.
Print Assumptions C04_data_section_canonical.

(** ** C05 *)
Lemma loop_keys_degenerate sx sy sz nx ny nz :
  nx <= 0 \/ ny <= 0 \/ nz <= 0 -> loop_keys sx sy sz nx ny nz = [].
Proof.
  intros H. destruct (loop_keys sx sy sz nx ny nz) as [|k l] eqn:E; [reflexivity|exfalso].
  assert (Hk : k ∈ loop_keys sx sy sz nx ny nz) by (rewrite E; left).
  unfold loop_keys in Hk.
  apply elem_of_list_bind in Hk as (x & Hk & Hx). apply elem_of_list_bind in Hk as (z & Hk & Hz).
  apply elem_of_list_bind in Hk as (y & _ & Hy).
  rewrite elem_of_seqZ in Hx, Hy, Hz. lia.
Qed.

(** For every model (the empty one included) and every window (also one reaching outside the grid,
    or of zero or negative extent). *)
Theorem C05_reported_count_exact :
  forall (F : Type) (ft : FloatText F) (b : binvox F) (sx sy sz nx ny nz : Z),
  let nx' := if nx =? 0 then NX b else nx in
  let ny' := if ny =? 0 then NY b else ny in
  let nz' := if nz =? 0 then NZ b else nz in
  forall R : gset key,
  (forall k, k ∈ R <-> k ∈ white b /\ in_region sx sy sz nx' ny' nz' k) ->
  snd (write ft b sx sy sz nx ny nz) = Z.of_nat (size R).
Proof.
  intros F ft b sx sy sz nx ny nz nx' ny' nz' R HR.
  destruct (decide (white b = ∅)) as [He|Hne].
  - rewrite (write_empty ft b sx sy sz nx ny nz He). cbn [snd].
    assert (R = ∅) as -> by set_solver. reflexivity.
  - apply set_choose_L in Hne.
    destruct (decide (0 < nx' /\ 0 < ny' /\ 0 < nz')) as [(Hx & Hy & Hz)|Hd].
    + exact (numwhite ft b sx sy sz nx ny nz Hne Hx Hy Hz R HR).
    + rewrite (write_nonempty ft b sx sy sz nx ny nz Hne). cbn [snd].
      change (default_dim nx (NX b)) with nx'. change (default_dim ny (NY b)) with ny'.
      change (default_dim nz (NZ b)) with nz'.
      unfold encode_rle. rewrite loop_keys_degenerate by lia.
      assert (R = ∅) as ->; [|reflexivity].
      apply elem_of_equiv_empty_L. intros k Hk. apply HR in Hk as [_ Hr].
      unfold in_region in Hr. lia.
Qed.
Print Assumptions C05_reported_count_exact.

(** It is also the number of voxels a whole-file Read of what was written returns. *)
Theorem C05_read_back_count :
  forall (F : Type) (ft : FloatText F) (b : binvox F) (sx sy sz nx ny nz : Z),
  let nx' := if nx =? 0 then NX b else nx in
  let ny' := if ny =? 0 then NY b else ny in
  let nz' := if nz =? 0 then NZ b else nz in
  0 < nx' <= max_int -> 0 < ny' <= max_int -> 0 < nz' <= max_int ->
  exists b', read ft (write_file ft b sx sy sz nx ny nz) 0 0 0 0 0 0 = inr b' /\
    snd (write ft b sx sy sz nx ny nz) = Z.of_nat (size (white b')).
Proof.
  intros F ft b sx sy sz nx ny nz nx' ny' nz' Hx Hy Hz.
  destruct (decide (white b = ∅)) as [He|Hne].
  - rewrite (empty_round_trip ft b sx sy sz nx ny nz He). eexists. split; [reflexivity|].
    rewrite (write_empty ft b sx sy sz nx ny nz He). reflexivity.
  - apply set_choose_L in Hne.
    destruct (C02_region_write_exact F ft b sx sy sz nx ny nz Hne Hx Hy Hz) as (vs & Hr & Hvs).
    eexists. split; [exact Hr|]. cbn [white White default].
    set (R := (set_map (shift_key sx sy sz) vs : gset key)).
    rewrite (C05_reported_count_exact F ft b sx sy sz nx ny nz R).
    + rewrite <- (size_of_elements R (shift_key sx sy sz <$> elements vs)).
      * rewrite fmap_length. reflexivity.
      * apply NoDup_fmap_2_strong; [|apply NoDup_elements].
        intros [[x y] z] [[x' y'] z'] _ _ E. unfold shift_key, kx, ky, kz in E. cbn [fst snd] in E.
        injection E as E1 E2 E3. f_equal; [f_equal|]; lia.
      * intros k. unfold R. rewrite elem_of_list_fmap, elem_of_map.
        split; intros (y & -> & Hyy); exists y; (split; [reflexivity|]);
          [apply elem_of_elements in Hyy|apply elem_of_elements]; exact Hyy.
    + intros k. unfold R. rewrite elem_of_map. fold nx' ny' nz'. split.
      * intros (k0 & -> & Hk0). apply Hvs in Hk0 as [Hg Hw]. split; [exact Hw|].
        unfold in_grid, in_region, shift_key, kx, ky, kz in *. cbn [fst snd] in *. lia.
      * intros [Hw Hg]. exists (shift_key (-sx) (-sy) (-sz) k).
        assert (E : k = shift_key sx sy sz (shift_key (- sx) (- sy) (- sz) k)).
        { destruct k as [[x y] z]. unfold shift_key, kx, ky, kz. cbn [fst snd]. f_equal; [f_equal|]; lia. }
        split; [exact E|]. apply Hvs. rewrite <- E. split; [|exact Hw].
        unfold in_grid, in_region, shift_key, kx, ky, kz in *. cbn [fst snd] in *. lia.
Qed.
Print Assumptions C05_read_back_count.

Example C05_nonvacuous : snd (write qtext ex_model 0 0 0 0 0 0) = 3.
Proof. vm_compute. reflexivity. Qed.

(** ** C06 *)
Theorem C06_read_voxels_in_range :
  forall (F : Type) (ft : FloatText F) (bytes : list byte) (sx sy sz cx cy cz : Z) (b : binvox F),
  read ft bytes sx sy sz cx cy cz = inr b ->
  0 <= NX b /\ 0 <= NY b /\ 0 <= NZ b /\
  (0 < NY b -> 0 < NZ b -> forall k, k ∈ white b -> in_grid (NX b) (NY b) (NZ b) k).
Proof. intros F ft. exact (read_in_range ft). Qed.
Print Assumptions C06_read_voxels_in_range.

(** With a zero dimension the guarantee fails. *)
Theorem C06_zero_dimension_refuted :
  forall (F : Type) (ft : FloatText F) (t : F),
  exists bytes b, read ft bytes 0 0 0 0 0 0 = inr b /\ NX b = 1 /\ NY b = 0 /\ NZ b = 1 /\
    (0, 0, 0) ∈ white b.
Proof.
  intros F ft t. exists (header ft 1 0 1 t t t t ++ [x01; x01]).
  eexists. split; [|split; [|split; [|split]]].
  - rewrite read_with_header by (unfold max_int; lia). reflexivity.
  - reflexivity.
  - reflexivity.
  - reflexivity.
  - unfold white. cbn. set_solver.
Qed.
Print Assumptions C06_zero_dimension_refuted.

(** ** C07 *)
Theorem C07_read_accepts_iff_well_formed :
  forall (F : Type) (ft : FloatText F) (nx ny nz : Z) (tx ty tz sc : F) (data : list byte)
         (sx sy sz cx cy cz : Z),
  0 <= nx <= max_int -> 0 < ny <= max_int -> 0 < nz <= max_int ->
  0 <= sx <= nx -> 0 <= sy <= ny -> 0 <= sz <= nz -> 0 <= cx -> 0 <= cy -> 0 <= cz ->
  (exists b, read ft (header ft nx ny nz tx ty tz sc ++ data) sx sy sz cx cy cz = inr b) <->
  (exists recs, data_records data recs /\ rec_total recs <= nx * ny * nz).
Proof. intros F ft nx ny nz tx ty tz sc data sx sy sz cx cy cz.
  exact (read_ok_iff ft nx ny nz tx ty tz sc data sx sy sz cx cy cz). Qed.
Print Assumptions C07_read_accepts_iff_well_formed.

Theorem C07_read_rejects_bad_arguments :
  forall (F : Type) (ft : FloatText F) (bytes : list byte) (sx sy sz cx cy cz : Z),
  sx < 0 \/ sy < 0 \/ sz < 0 \/ cx < 0 \/ cy < 0 \/ cz < 0 ->
  read ft bytes sx sy sz cx cy cz = inl EParams.
Proof. intros F ft. exact (read_bad_args ft). Qed.
Print Assumptions C07_read_rejects_bad_arguments.

Theorem C07_read_rejects_bad_start :
  forall (F : Type) (ft : FloatText F) (nx ny nz : Z) (tx ty tz sc : F) (data : list byte)
         (sx sy sz cx cy cz : Z),
  0 <= nx <= max_int -> 0 <= ny <= max_int -> 0 <= nz <= max_int ->
  0 <= sx -> 0 <= sy -> 0 <= sz -> 0 <= cx -> 0 <= cy -> 0 <= cz ->
  nx < sx \/ ny < sy \/ nz < sz ->
  read ft (header ft nx ny nz tx ty tz sc ++ data) sx sy sz cx cy cz = inl EStart.
Proof. intros F ft. exact (read_bad_start ft). Qed.
Print Assumptions C07_read_rejects_bad_start.

Example C07_nonvacuous_accept :
  exists recs, data_records [x01; x02; x00; x04] recs /\ rec_total recs <= 1 * 3 * 2.
Proof.
  exists [(true, b2z x02); (false, b2z x04)].
  split; [|vm_compute; discriminate].
  repeat (constructor; [reflexivity|vm_compute; discriminate|]). constructor.
Qed.

(** ** C08 *)
Theorem C08_truncated_file :
  forall (F : Type) (ft : FloatText F) (b : binvox F) (sx sy sz nx ny nz : Z) (n : nat),
  (exists k, k ∈ white b) ->
  let nx' := if nx =? 0 then NX b else nx in
  let ny' := if ny =? 0 then NY b else ny in
  let nz' := if nz =? 0 then NZ b else nz in
  0 < nx' <= max_int -> 0 < ny' <= max_int -> 0 < nz' <= max_int ->
  (exists e, read ft (take n (write_file ft b sx sy sz nx ny nz)) 0 0 0 0 0 0 = inl e) \/
  exists vs m,
    read ft (take n (write_file ft b sx sy sz nx ny nz)) 0 0 0 0 0 0
    = inr {| NX := nx'; NY := ny'; NZ := nz'; TX := TX b; TY := TY b; TZ := TZ b;
             Scale := Scale b; White := Some vs; Colors := None |} /\
    forall k, k ∈ vs <->
      in_grid nx' ny' nz' k /\ shift_key sx sy sz k ∈ white b /\ voxel_index ny' nz' k < m.
Proof. intros F ft b sx sy sz nx ny nz n. exact (truncated ft b sx sy sz nx ny nz n). Qed.
Print Assumptions C08_truncated_file.

(** A cut can go unnoticed and lose voxels. *)
Theorem C08_truncation_detected_refuted :
  exists (b b' : binvox Q) (n : nat),
    (n < length (write_file qtext b 0 0 0 0 0 0))%nat /\
    read qtext (take n (write_file qtext b 0 0 0 0 0 0)) 0 0 0 0 0 0 = inr b' /\
    (0, 2, 0) ∈ white b /\ white b' = ∅.
Proof.
  set (b := {| NX := 1; NY := 3; NZ := 1; TX := 0%Q; TY := 0%Q; TZ := 0%Q; Scale := 1%Q;
               White := Some {[ (0,2,0) ]}; Colors := None |} : binvox Q).
  exists b. eexists. exists (length (write_file qtext b 0 0 0 0 0 0) - 2)%nat.
  split; [vm_compute; lia|]. split; [vm_compute; reflexivity|].
  split; [unfold white, b; cbn; set_solver|reflexivity].
Qed.
Print Assumptions C08_truncation_detected_refuted.

(** ** C09: the window is inclusive on both ends. *)
Definition clip (c n : Z) : Z := if (c =? 0) || (c >? n) then n else c.

Theorem C09_windowed_read :
  forall (F : Type) (ft : FloatText F) (b : binvox F) (sx sy sz cx cy cz : Z),
  (exists k, k ∈ white b) ->
  (forall k, k ∈ white b -> in_grid (NX b) (NY b) (NZ b) k) ->
  NX b <= max_int -> NY b <= max_int -> NZ b <= max_int ->
  0 <= sx <= NX b -> 0 <= sy <= NY b -> 0 <= sz <= NZ b -> 0 <= cx -> 0 <= cy -> 0 <= cz ->
  exists vs,
    read ft (write_file ft b 0 0 0 0 0 0) sx sy sz cx cy cz
    = inr {| NX := NX b; NY := NY b; NZ := NZ b; TX := TX b; TY := TY b; TZ := TZ b;
             Scale := Scale b; White := Some vs; Colors := None |} /\
    forall k, k ∈ vs <-> k ∈ white b /\
      in_region sx sy sz (clip cx (NX b) + 1) (clip cy (NY b) + 1) (clip cz (NZ b) + 1) k.
Proof.
  intros F ft b sx sy sz cx cy cz Hne Hin Hx Hy Hz. intros.
  assert (Hpos : 0 < NX b /\ 0 < NY b /\ 0 < NZ b).
  { destruct Hne as [k Hk]. apply Hin in Hk. unfold in_grid, in_region in Hk. lia. }
  destruct (write_read_window ft b 0 0 0 0 0 0 sx sy sz cx cy cz Hne) as (vs & Hr & Hvs);
    [unfold default_dim; cbn; lia..|].
  exists vs. split; [exact Hr|]. intros k. rewrite Hvs, shift_key_0.
  change (default_dim 0 ?n) with n. unfold in_windowk, in_region, clip, clip_count. cbn [w_sx w_sy w_sz w_cx w_cy w_cz].
  split.
  - intros (_ & Hk & Hw). split; [exact Hk|]. lia.
  - intros (Hk & Hw). split; [apply Hin, Hk|]. split; [exact Hk|]. lia.
Qed.
Print Assumptions C09_windowed_read.

(** The documented half-open window ("number of voxels to read") is not what is read. *)
Theorem C09_documented_window_refuted :
  exists (b b' : binvox Q) (sx sy sz cx cy cz : Z) (k : key),
    0 < cx /\ 0 < cy /\ 0 < cz /\
    read qtext (write_file qtext b 0 0 0 0 0 0) sx sy sz cx cy cz = inr b' /\
    k ∈ white b' /\ ~ in_region sx sy sz cx cy cz k.
Proof.
  set (b := {| NX := 2; NY := 1; NZ := 1; TX := 0%Q; TY := 0%Q; TZ := 0%Q; Scale := 1%Q;
               White := Some {[ (1,0,0) ]}; Colors := None |} : binvox Q).
  exists b. eexists. exists 0, 0, 0, 1, 1, 1, (1, 0, 0).
  split; [lia|]. split; [lia|]. split; [lia|]. split; [vm_compute; reflexivity|].
  split.
  - apply (bool_decide_unpack _). vm_compute. exact I.
  - unfold in_region, kx. cbn. lia.
Qed.
Print Assumptions C09_documented_window_refuted.

(** ** C10 *)
Theorem C10_writer_schedule_independent :
  forall (F : Type) (ft : FloatText F) (b : binvox F) (sx sy sz nx ny nz : Z) (cap : nat),
  (exists k, k ∈ white b) ->
  forall s, rtc (writer_step b cap) (writer_init b sx sy sz nx ny nz) s ->
  (forall s', ~ writer_step b cap s s') ->
  prod s = None /\ buf s = [] /\
  exists h d n, write ft b sx sy sz nx ny nz = ([h; d], n) /\ cons_ s = Finished (n, d).
Proof. intros F ft b sx sy sz nx ny nz cap Hne s. exact (writer_final ft b sx sy sz nx ny nz cap Hne s). Qed.
Print Assumptions C10_writer_schedule_independent.

Theorem C10_writer_terminates :
  forall (F : Type) (b : binvox F) (sx sy sz nx ny nz : Z) (cap n : nat) s,
  nsteps (writer_step b cap) n (writer_init b sx sy sz nx ny nz) s ->
  (n <= 2 * length (loop_keys sx sy sz (if (nx =? 0)%Z then NX b else nx)
                      (if (ny =? 0)%Z then NY b else ny) (if (nz =? 0)%Z then NZ b else nz)) + 6)%nat.
Proof. intros F b sx sy sz nx ny nz cap n s. exact (writer_bounded b sx sy sz nx ny nz cap n s). Qed.
Print Assumptions C10_writer_terminates.

(** ** C11 *)
Theorem C11_success_means_complete_file :
  forall (F : Type) (ft : FloatText F) (b : binvox F) (sx sy sz nx ny nz : Z)
         (create_ok close_ok : bool) (o2 : outcome) (file : option (list byte)),
  Write ft create_ok WOk o2 close_ok b sx sy sz nx ny nz = (file, true) ->
  file = Some (write_file ft b sx sy sz nx ny nz) /\ create_ok = true /\ close_ok = true.
Proof.
  intros F ft b sx sy sz nx ny nz create_ok close_ok o2 file H. unfold Write in H.
  destruct create_ok; [|discriminate].
  destruct (write_faulty ft WOk o2 b sx sy sz nx ny nz) as [f [n|]] eqn:E; [|discriminate].
  injection H as <- ->. apply faulty_ok in E as [-> _]. auto.
Qed.
Print Assumptions C11_success_means_complete_file.

(** Write reports success exactly if the file could be created and closed and the data write, which is
    made only for a non-empty model, succeeded: the outcome of the header write does not matter. *)
Theorem C11_success_iff :
  forall (F : Type) (ft : FloatText F) (b : binvox F) (sx sy sz nx ny nz : Z)
         (create_ok close_ok : bool) (o1 o2 : outcome),
  snd (Write ft create_ok o1 o2 close_ok b sx sy sz nx ny nz) = true <->
  create_ok = true /\ close_ok = true /\ (white b = ∅ \/ o2 = WOk).
Proof.
  intros F ft b sx sy sz nx ny nz create_ok close_ok o1 o2. unfold Write.
  destruct create_ok; [|cbn; split; [discriminate|intros [H _]; discriminate]].
  unfold write_faulty, write. case_decide as Hs; cbn [fst snd].
  - apply size_empty_inv, leibniz_equiv in Hs. split; [intros ->; auto|]. intros (_ & -> & _). reflexivity.
  - assert (Hne : white b <> ∅) by (intros E; rewrite E, size_empty in Hs; lia).
    destruct o2; cbn [snd]; [split; [intros ->; auto|intros (_ & -> & _); reflexivity]|].
    split; [discriminate|]. intros (_ & _ & [H|H]); [contradiction|discriminate].
Qed.
Print Assumptions C11_success_iff.

(** A failed header write is never reported, and what is left on disk is not a binvox file. *)
Theorem C11_header_error_unreported_refuted :
  forall (F : Type) (ft : FloatText F) (b : binvox F) (sx sy sz nx ny nz : Z),
  exists file,
    Write ft true (WErr 0) WOk true b sx sy sz nx ny nz = (Some file, true) /\
    forall px py pz cx cy cz, exists e, read ft file px py pz cx cy cz = inl e.
Proof.
  intros F ft b sx sy sz nx ny nz.
  assert (Hbad : forall file, match file with [] => True | c :: _ => c <> x23 end ->
     forall px py pz cx cy cz, exists e, read ft file px py pz cx cy cz = inl e).
  { intros file Hf px py pz cx cy cz. unfold read. destruct (_ || _); [eauto|].
    unfold read_header. destruct (read_line file) as [[l r]|] eqn:El; [|eauto].
    case_bool_decide as Hl; [|cbn [negb]; eauto]. exfalso.
    apply read_line_Some in El as (p & _ & _ & Hfile). rewrite Hl in Hfile.
    rewrite Hfile in Hf. apply Hf. reflexivity. }
  unfold Write, write_faulty, write. case_decide as Hs; cbn [fst].
  - eexists. split; [reflexivity|]. apply Hbad. cbn [put]. rewrite take_0. exact I.
  - eexists. split; [reflexivity|]. apply Hbad. cbn [put]. rewrite take_0. cbn [app].
    set (rs := encode_rle _ _ _ _ _ _ _).
    assert (Hr : exists recs, data_records (concat (map run_bytes rs)) recs)
      by (eexists; apply encode_records).
    destruct Hr as [recs Hr]. inversion Hr as [|v c rest [] recs' Hv]; [exact I|..];
      intros ->; discriminate.
Qed.
Print Assumptions C11_header_error_unreported_refuted.

Theorem C11_data_write_failure_is_error :
  forall (F : Type) (ft : FloatText F) (b : binvox F) (sx sy sz nx ny nz : Z) (o1 : outcome) (m : nat),
  (exists k, k ∈ white b) ->
  snd (Write ft true o1 (WErr m) true b sx sy sz nx ny nz) = false.
Proof.
  intros F ft b sx sy sz nx ny nz o1 m Hne. unfold Write.
  pose proof (faulty_data ft m o1 b sx sy sz nx ny nz Hne) as H.
  destruct (write_faulty _ _ _ _ _ _ _ _ _ _) as [f r]. cbn in H. subst r. reflexivity.
Qed.
Print Assumptions C11_data_write_failure_is_error.

(** ** C12 *)
Theorem C12_empty_model_round_trip :
  forall (F : Type) (ft : FloatText F) (b : binvox F) (sx sy sz nx ny nz : Z),
  white b = ∅ ->
  read ft (write_file ft b sx sy sz nx ny nz) 0 0 0 0 0 0
  = inr {| NX := 0; NY := 0; NZ := 0; TX := TX b; TY := TY b; TZ := TZ b;
           Scale := Scale b; White := Some ∅; Colors := None |}.
Proof. intros F ft. exact (empty_round_trip ft). Qed.
Print Assumptions C12_empty_model_round_trip.

(** ** C13 *)
Theorem C13_white_history :
  forall (F : Type) (whiteC : color F) (nx ny nz : Z) (ox oy oz sc : F) (ks : list key),
  exists b', adds (new nx ny nz ox oy oz sc false) ks = Some b' /\
    forall k, get_voxel whiteC b' k = if decide (k ∈ ks) then Some whiteC else None.
Proof.
  intros. destruct (adds_spec whiteC ks (new nx ny nz ox oy oz sc false)) as (b' & Hb & Hg);
    [eexists; reflexivity|]. exists b'. split; [exact Hb|]. intros k. rewrite Hg. reflexivity.
Qed.
Print Assumptions C13_white_history.

Theorem C13_color_history :
  forall (F : Type) (whiteC : color F) (nx ny nz : Z) (ox oy oz sc : F) (kcs : list (key * color F)),
  exists b', add_colors (new nx ny nz ox oy oz sc true) kcs = Some b' /\
    forall k, get_voxel whiteC b' k = last_color k kcs.
Proof.
  intros. destruct (add_colors_spec whiteC kcs (new nx ny nz ox oy oz sc true)) as (b' & Hb & Hg);
    [eexists; reflexivity|reflexivity|]. exists b'. split; [exact Hb|]. intros k. rewrite Hg.
  destruct (last_color k kcs); reflexivity.
Qed.
Print Assumptions C13_color_history.

Theorem C13_add_changes_one_voxel :
  forall (F : Type) (whiteC : color F) (b b' : binvox F) (k : key),
  add b k = Some b' ->
  (forall k', get_voxel whiteC b' k' = if decide (k' = k) then Some whiteC else get_voxel whiteC b k') /\
  (NX b', NY b', NZ b') = (NX b, NY b, NZ b) /\
  (TX b', TY b', TZ b', Scale b') = (TX b, TY b, TZ b, Scale b) /\
  Colors b' = Colors b /\ (exists w, White b' = Some w).
Proof. intros F whiteC b b' k. exact (add_spec whiteC b k b'). Qed.
Print Assumptions C13_add_changes_one_voxel.

Theorem C13_white_has_priority :
  forall (F : Type) (whiteC : color F) (b : binvox F) (k : key),
  k ∈ white b -> get_voxel whiteC b k = Some whiteC.
Proof. intros F whiteC b k Hk. unfold get_voxel. case_decide; [reflexivity|tauto]. Qed.
Print Assumptions C13_white_has_priority.

Theorem C13_wrong_kind_panics :
  forall (F : Type) (nx ny nz : Z) (ox oy oz sc : F) (k : key) (c : color F),
  add (new nx ny nz ox oy oz sc true) k = None /\
  add_color (new nx ny nz ox oy oz sc false) k c = None.
Proof. intros. split; reflexivity. Qed.
Print Assumptions C13_wrong_kind_panics.

(** ** C14 (exact arithmetic) *)
Theorem C14_dim_is_max : forall (F : Type) (b : binvox F),
  dim b = Z.max (NX b) (Z.max (NY b) (NZ b)).
Proof. intros F b. exact (dim_max b). Qed.
Print Assumptions C14_dim_is_max.

Theorem C14_mbb_contains_every_voxel : forall (b : binvox Q) (k : key),
  (0 < Scale b)%Q -> in_grid (NX b) (NY b) (NZ b) k ->
  qpt_le (fst (mbb b)) (world b k) /\ qpt_le (world b (shift_key 1 1 1 k)) (snd (mbb b)).
Proof. exact mbb_contains. Qed.
Print Assumptions C14_mbb_contains_every_voxel.

Theorem C14_mbb_tight : forall b : binvox Q,
  (0 < Scale b)%Q -> 0 < dim b ->
  qpt_eq (fst (mbb b)) (world b (0, 0, 0)) /\ qpt_eq (snd (mbb b)) (world b (NX b, NY b, NZ b)).
Proof. exact mbb_tight. Qed.
Print Assumptions C14_mbb_tight.

Theorem C14_largest_side_is_scale : forall b : binvox Q,
  (0 < Scale b)%Q -> 0 < dim b -> (qmax3 (sides (mbb b)) == Scale b)%Q.
Proof. exact mbb_largest_side. Qed.
Print Assumptions C14_largest_side_is_scale.

Example C14_nonvacuous : (0 < Scale ex_model)%Q /\ 0 < dim ex_model.
Proof. split; reflexivity. Qed.
