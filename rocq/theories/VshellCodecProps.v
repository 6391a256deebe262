(** Properties C23, C24, C25: the .vshell codec. *)
From Verif Require Import Base BaseLemmas BinvoxModel BinvoxSpec BinvoxLemmas BinvoxProofs FloatTextQ Chan
  VshellModel VshellSpec VshellMerge VshellCodec VshellCodecSpec VshellCodecProofs VshellChan VshellProps.
From Coq Require Import ZArith QArith List Lia Bool String Init.Byte.
From stdpp Require Import base relations list list_numbers gmap sets fin_sets.
Import ListNotations.
Open Scope Z_scope.

(** * C23: round trip *)

(** Writing a region and reading the file back gives exactly the non-blank voxels of the region, each
    with its mask, in file order - provided no 65536 consecutive grid positions have equal values. *)
Theorem C23_region_round_trip {F} (ft : FloatText F) (vs : gshell F) sx sy sz nx ny nz :
  Voxels vs <> [] -> NoDup (map fst (Voxels vs)) ->
  (forall k n, (k, n) ∈ Voxels vs -> 0 <= n < 2 ^ 32) ->
  let nx' := if nx =? 0 then sNX vs else nx in
  let ny' := if ny =? 0 then sNY vs else ny in
  let nz' := if nz =? 0 then sNZ vs else nz in
  0 < nx' <= max_int -> 0 < ny' <= max_int -> 0 < nz' <= max_int ->
  no_long_run (fun i => mask_at (Voxels vs) (shift_key sx sy sz (nth_voxel ny' nz' i))) (nx' * ny' * nz') ->
  exists vox,
    sread ft (swrite_file ft vs sx sy sz nx ny nz) 0 0 0 0 0 0
    = inr {| sNX := nx'; sNY := ny'; sNZ := nz'; sTX := sTX vs; sTY := sTY vs; sTZ := sTZ vs;
             sScale := sScale vs; Voxels := vox |} /\
    file_order ny' nz' vox /\
    forall k n, (k, n) ∈ vox <->
      in_grid nx' ny' nz' k /\ (shift_key sx sy sz k, n) ∈ Voxels vs /\ ~ blank n.
Proof.
  intros Hne Hnd Hm nx' ny' nz' Hx Hy Hz Hl.
  set (V := svalues (Voxels vs) sx sy sz nx' ny' nz').
  assert (He : sexpand (sencode (Voxels vs) sx sy sz nx' ny' nz') = V) by (apply sencode_expand; lia || assumption).
  pose proof (svalues_length (Voxels vs) sx sy sz nx' ny' nz' ltac:(lia) ltac:(lia) ltac:(lia)) as HV.
  fold V in HV.
  pose proof (swrite_read ft vs sx sy sz nx ny nz 0 0 0 0 0 0 Hne Hm Hx Hy Hz) as Hr.
  cbn zeta in Hr. fold nx' ny' nz' in Hr.
  change (default_dim nx (sNX vs)) with nx' in Hr. change (default_dim ny (sNY vs)) with ny' in Hr.
  change (default_dim nz (sNZ vs)) with nz' in Hr. rewrite He in Hr.
  eexists. split; [apply Hr; lia|]. clear Hr. split; [apply collect_sorted; lia|].
  intros k n. rewrite collect_elem. split.
  - intros (j & Hj & Hb & -> & _). pose proof (lookup_lt_Some _ _ _ Hj) as Hlt.
    rewrite Z.add_0_l. split; [apply nth_voxel_range; lia|].
    pose proof (svalues_lookup (Voxels vs) sx sy sz nx' ny' nz' (Z.of_nat j)) as Hj'.
    rewrite Nat2Z.id in Hj'. fold V in Hj'. rewrite Hj in Hj'.
    specialize (Hj' ltac:(lia) ltac:(lia) ltac:(lia) Hnd ltac:(lia)). injection Hj' as ->.
    split; [|exact Hb]. apply mask_at_nonzero. unfold blank in Hb. tauto.
  - intros (Hg & Hin & Hb). destruct (nth_voxel_index nx' ny' nz' k Hg) as (Hi & Hrange).
    exists (Z.to_nat (voxel_index ny' nz' k)). rewrite Z2Nat.id, Z.add_0_l by lia.
    unfold V. rewrite svalues_lookup by (lia || assumption). rewrite Hi.
    rewrite (mask_at_elem _ _ _ Hnd Hin). split; [reflexivity|]. split; [exact Hb|]. split; [reflexivity|].
    apply in_windowk_all; (lia || assumption).
Qed.

(** The whole shell. *)
Theorem C23_round_trip {F} (ft : FloatText F) (vs : gshell F) :
  Voxels vs <> [] -> NoDup (map fst (Voxels vs)) ->
  (forall k n, (k, n) ∈ Voxels vs -> in_grid (sNX vs) (sNY vs) (sNZ vs) k /\ 0 <= n < 2 ^ 32) ->
  sNX vs <= max_int -> sNY vs <= max_int -> sNZ vs <= max_int ->
  no_long_run (fun i => mask_at (Voxels vs) (nth_voxel (sNY vs) (sNZ vs) i)) (sNX vs * sNY vs * sNZ vs) ->
  exists vox,
    sread ft (swrite_file ft vs 0 0 0 0 0 0) 0 0 0 0 0 0
    = inr {| sNX := sNX vs; sNY := sNY vs; sNZ := sNZ vs; sTX := sTX vs; sTY := sTY vs; sTZ := sTZ vs;
             sScale := sScale vs; Voxels := vox |} /\
    vox ≡ₚ filter (fun v => ~ blank (snd v)) (Voxels vs).
Proof.
  intros Hne Hnd Hin Hx Hy Hz Hl.
  assert (Hpos : 0 < sNX vs /\ 0 < sNY vs /\ 0 < sNZ vs).
  { destruct (Voxels vs) as [|[k n] l]; [contradiction|]. destruct (Hin k n (elem_of_list_here _ _)) as [Hg _].
    unfold in_grid, in_region in Hg. lia. }
  destruct (C23_region_round_trip ft vs 0 0 0 0 0 0 Hne Hnd) as (vox & Hr & Ho & Hk);
    cbn [Z.eqb]; [intros; eapply Hin; eassumption|lia..| |].
  { intros i Hi Hi2. destruct (Hl i Hi Hi2) as (j & Hj & Hneq). exists j. rewrite !shift_key_0. auto. }
  cbn [Z.eqb] in *. exists vox. split; [exact Hr|].
  apply NoDup_Permutation.
  - apply file_order_NoDup in Ho. eapply NoDup_fmap_1, Ho.
  - apply NoDup_filter. eapply NoDup_fmap_1, Hnd.
  - intros [k n]. rewrite Hk, elem_of_list_filter, shift_key_0. cbn [snd]. split; [tauto|].
    intros [Hb H]. split; [eapply Hin, H|]. tauto.
Qed.

(** In particular the shell comes back complete if no mask is blank. *)
Theorem C23_round_trip_complete {F} (ft : FloatText F) (vs : gshell F) :
  Voxels vs <> [] -> NoDup (map fst (Voxels vs)) ->
  (forall k n, (k, n) ∈ Voxels vs -> in_grid (sNX vs) (sNY vs) (sNZ vs) k /\ 0 < n < 2 ^ 32 - 1) ->
  sNX vs <= max_int -> sNY vs <= max_int -> sNZ vs <= max_int ->
  no_long_run (fun i => mask_at (Voxels vs) (nth_voxel (sNY vs) (sNZ vs) i)) (sNX vs * sNY vs * sNZ vs) ->
  exists vs', sread ft (swrite_file ft vs 0 0 0 0 0 0) 0 0 0 0 0 0 = inr vs' /\
    sNX vs' = sNX vs /\ sNY vs' = sNY vs /\ sNZ vs' = sNZ vs /\
    sTX vs' = sTX vs /\ sTY vs' = sTY vs /\ sTZ vs' = sTZ vs /\ sScale vs' = sScale vs /\
    Voxels vs' ≡ₚ Voxels vs.
Proof.
  intros Hne Hnd Hin Hx Hy Hz Hl.
  destruct (C23_round_trip ft vs Hne Hnd) as (vox & Hr & Hp); try assumption.
  { intros k n H. apply Hin in H as [H1 H2]. split; [exact H1|lia]. }
  eexists. split; [exact Hr|]. cbn. do 7 (split; [reflexivity|]). rewrite Hp.
  assert (E : filter (fun v => ~ blank (snd v)) (Voxels vs) = Voxels vs); [|rewrite E; reflexivity].
  revert Hin. clear. induction (Voxels vs) as [|[k n] l IH]; intros Hin; [reflexivity|].
  rewrite filter_cons_True.
  - f_equal. apply IH. intros k' n' H. apply Hin. right. exact H.
  - cbn [snd]. destruct (Hin k n (elem_of_list_here _ _)) as [_ H]. unfold blank. lia.
Qed.

(** A grid of fewer than 65536 positions has no long run. *)
Theorem C23_small_grid f total : total < 65536 -> no_long_run f total.
Proof. intros H i Hi Hi2. lia. Qed.

(** The count reported by the writer is the number of non-blank voxels in the region. *)
Theorem C23_count {F} (ft : FloatText F) (vs : gshell F) sx sy sz nx ny nz :
  Voxels vs <> [] -> NoDup (map fst (Voxels vs)) ->
  let nx' := if nx =? 0 then sNX vs else nx in
  let ny' := if ny =? 0 then sNY vs else ny in
  let nz' := if nz =? 0 then sNZ vs else nz in
  0 < nx' -> 0 < ny' -> 0 < nz' ->
  no_long_run (fun i => mask_at (Voxels vs) (shift_key sx sy sz (nth_voxel ny' nz' i))) (nx' * ny' * nz') ->
  snd (swrite ft vs sx sy sz nx ny nz) =
  Z.of_nat (length (filter (fun v => sx <= kx (fst v) < sx + nx' /\ sy <= ky (fst v) < sy + ny' /\
                                     sz <= kz (fst v) < sz + nz' /\ ~ blank (snd v)) (Voxels vs))).
Proof.
  intros Hne Hnd nx' ny' nz' Hx Hy Hz Hl.
  assert (He : sexpand (sencode (Voxels vs) sx sy sz nx' ny' nz') = svalues (Voxels vs) sx sy sz nx' ny' nz')
    by (apply sencode_expand; assumption).
  replace (snd (swrite ft vs sx sy sz nx ny nz)) with (scount (sencode (Voxels vs) sx sy sz nx' ny' nz'))
    by (unfold swrite; destruct (Voxels vs); [contradiction|reflexivity]).
  assert (Hc : forall rs a, Forall (fun r => 0 <= snd r) rs ->
     fold_left (fun a r => if special (fst r) then a else a + snd r) rs a
     = a + Z.of_nat (length (filter (fun v => ~ blank v) (sexpand rs)))).
  { clear. intros rs a H. revert a. induction H as [|[v c] rs Hc _ IH]; intros a; [cbn; lia|].
    cbn [fold_left fst snd] in *. rewrite IH. unfold sexpand. cbn [map concat fst snd].
    rewrite filter_app, app_length.
    assert (E : length (filter (fun x => ~ blank x) (repeat v (Z.to_nat c)))
                = if special v then 0%nat else Z.to_nat c).
    { destruct (special v) eqn:Es.
      - apply special_blank in Es. induction (Z.to_nat c) as [|n IHn]; [reflexivity|]. cbn [repeat].
        rewrite filter_cons_False by tauto. exact IHn.
      - apply special_not_blank in Es. induction (Z.to_nat c) as [|n IHn]; [reflexivity|]. cbn [repeat].
        rewrite filter_cons_True by exact Es. cbn [length]. rewrite IHn. reflexivity. }
    rewrite E. fold (sexpand rs). destruct (special v); lia. }
  unfold scount. rewrite Hc.
  2: { unfold sencode. rewrite senc_values. eapply Forall_impl; [apply wrap_runs_wf|]. cbn. lia. }
  rewrite He, svalues_eq, Z.add_0_l by exact Hnd. f_equal.
  rewrite (filter_map_length (mask_at (Voxels vs)) (fun v => ~ blank v)).
  rewrite <- (map_length fst (filter _ (Voxels vs))). apply Permutation_length, NoDup_Permutation.
  - apply NoDup_filter, loop_keys_NoDup; assumption.
  - apply (NoDup_fmap_2_strong fst); [|apply NoDup_filter; eapply NoDup_fmap_1, Hnd].
    intros [k1 n1] [k2 n2] H1 H2 E. cbn in E. subst k2.
    apply elem_of_list_filter in H1 as [_ H1]. apply elem_of_list_filter in H2 as [_ H2].
    rewrite <- (mask_at_elem _ _ _ Hnd H1), <- (mask_at_elem _ _ _ Hnd H2). reflexivity.
  - intros k. rewrite elem_of_list_filter, loop_keys_elem by assumption. unfold in_region.
    split.
    + intros (Hb & Hr). apply elem_of_list_fmap. exists (k, mask_at (Voxels vs) k). split; [reflexivity|].
      apply elem_of_list_filter. cbn [fst snd]. split; [tauto|]. apply mask_at_nonzero. unfold blank in Hb. tauto.
    + intros H. apply elem_of_list_fmap in H as ([k' n] & -> & H). apply elem_of_list_filter in H as [H Hin].
      cbn [fst snd] in *. rewrite (mask_at_elem _ _ _ Hnd Hin). tauto.
Qed.

(** An empty shell comes back empty, but without its dimensions. *)
Theorem C23_empty {F} (ft : FloatText F) (vs : gshell F) sx sy sz nx ny nz :
  Voxels vs = [] ->
  sread ft (swrite_file ft vs sx sy sz nx ny nz) 0 0 0 0 0 0
  = inr {| sNX := 0; sNY := 0; sNZ := 0; sTX := sTX vs; sTY := sTY vs; sTZ := sTZ vs;
           sScale := sScale vs; Voxels := [] |}.
Proof.
  intros H. unfold swrite_file, swrite. rewrite H. cbn [fst concat].
  rewrite sread_with_header by (unfold max_int; lia). reflexivity.
Qed.

(** What is written in general: the counter is 16 bits wide, so a run of [n] equal values is written
    with [n mod 65536] of them. *)
Theorem C23_runs_wrap {F} (ft : FloatText F) (vs : gshell F) sx sy sz nx ny nz runs :
  Voxels vs <> [] -> NoDup (map fst (Voxels vs)) ->
  (forall k n, (k, n) ∈ Voxels vs -> 0 <= n < 2 ^ 32) ->
  let nx' := if nx =? 0 then sNX vs else nx in
  let ny' := if ny =? 0 then sNY vs else ny in
  let nz' := if nz =? 0 then sNZ vs else nz in
  0 < nx' -> 0 < ny' -> 0 < nz' ->
  (* [runs] are the maximal runs of the region's values *)
  (forall r, r ∈ runs -> 0 < snd r) ->
  (forall i r r', runs !! i = Some r -> runs !! S i = Some r' -> fst r <> fst r') ->
  sexpand runs = map (fun i => mask_at (Voxels vs) (shift_key sx sy sz (nth_voxel ny' nz' i)))
                     (seqZ 0 (nx' * ny' * nz')) ->
  exists data recs,
    swrite_file ft vs sx sy sz nx ny nz = sheader ft nx' ny' nz' (sTX vs) (sTY vs) (sTZ vs) (sScale vs) ++ data /\
    srecords data recs /\
    sexpand recs = sexpand (map (fun r => (fst r, snd r mod 65536)) runs).
Proof.
  intros Hne Hnd Hm nx' ny' nz' Hx Hy Hz Hpos Halt Hruns.
  assert (HV : svalues (Voxels vs) sx sy sz nx' ny' nz' = sexpand runs).
  { rewrite Hruns. apply list_eq. intros i. change (map ?f ?l) with (f <$> l). rewrite list_lookup_fmap.
    destruct (decide (Z.of_nat i < nx' * ny' * nz')) as [Hi|Hi].
    - rewrite <- (Nat2Z.id i) at 1. rewrite svalues_lookup by (lia || assumption).
      rewrite lookup_seqZ_lt by lia. reflexivity.
    - rewrite lookup_ge_None_2 by (pose proof (svalues_length (Voxels vs) sx sy sz nx' ny' nz'); lia).
      rewrite lookup_ge_None_2 by (rewrite seqZ_length; lia). reflexivity. }
  assert (Hok : runs_ok runs).
  { clear Hruns HV. induction runs as [|[v n] rest IH]; [exact I|]. cbn [runs_ok].
    split; [apply (Hpos (v, n)); left|]. split.
    - destruct rest as [|[u m] rest]; [exact I|]. intros ->. apply (Halt 0%nat _ _ eq_refl eq_refl). reflexivity.
    - apply IH; [intros r Hr; apply Hpos; right; exact Hr|]. intros i r r' H1 H2. apply (Halt (S i) r r' H1 H2). }
  pose proof (sencode_wf (Voxels vs) sx sy sz nx' ny' nz' Hm) as Hwf.
  eexists _, _. split; [exact (swrite_file_nonempty ft vs sx sy sz nx ny nz Hne)|].
  split; [apply sruns_bytes_records, Hwf|].
  rewrite sruns_records_expand by (eapply Forall_impl; [exact Hwf|cbn; lia]).
  change (sexpand (sencode (Voxels vs) sx sy sz nx' ny' nz') = sexpand (map (fun r => (fst r, snd r mod 65536)) runs)).
  unfold sencode. rewrite HV.
  assert (E : senc_loop (sexpand runs) (Enc 0 0) = wrap_runs runs).
  { destruct runs as [|[u n] rs]; [reflexivity|]. destruct (Z.eqb_spec u 0) as [->|Hu].
    - destruct Hok as (Hn & Hd & Hok). unfold sexpand. cbn [map concat fst snd]. fold (sexpand rs).
      rewrite senc_same by lia. rewrite Z.add_0_l, Z2Nat.id by lia.
      pose proof (Z.mod_pos_bound n 65536 ltac:(lia)).
      rewrite senc_runs; [|lia|exact Hok|exact Hd]. unfold wrap_runs. cbn [map fst snd].
      rewrite filter_cons. cbn [snd]. destruct (Z.ltb_spec 0 (n mod 65536)).
      + rewrite decide_True by lia. reflexivity.
      + rewrite decide_False by lia. reflexivity.
    - rewrite senc_runs; [reflexivity|lia|exact Hok|exact Hu]. }
  rewrite E. unfold wrap_runs. clear. induction runs as [|[v n] rs IH]; [reflexivity|].
  cbn [map fst snd]. rewrite filter_cons. cbn [snd]. case_decide as Hd.
  - unfold sexpand in *. cbn [map concat]. rewrite IH. reflexivity.
  - unfold sexpand in *. cbn [map concat fst snd]. assert (n mod 65536 = 0) as -> by tauto. exact IH.
Qed.

(** Finding: a voxel without neighbours is lost.  vshell.New of a one-voxel model gives it the mask 0,
    which the file cannot tell from an empty position. *)
Theorem C23_isolated_voxel_lost :
  let bv := bvq 1 1 1 0 0 0 1 (Some {[(0,0,0)]}) None in
  let vs := fst (vs_New (fun c => c) [(0,0,0)] [] [(0,0,0)] bv) in
  Voxels vs = [((0,0,0), 0)] /\
  exists vs', sread qtext (swrite_file qtext vs 0 0 0 0 0 0) 0 0 0 0 0 0 = inr vs' /\ Voxels vs' = [].
Proof.
  cbn zeta. split; [reflexivity|]. eexists. split; [vm_compute; reflexivity|reflexivity].
Qed.

(** Finding: after 65536 empty positions a voxel is read back at the wrong place. *)
Theorem C23_long_run_refuted {F} (ft : FloatText F) (tx ty tz sc : F) m :
  ~ blank m -> 0 <= m < 2 ^ 32 ->
  sread ft (swrite_file ft (GShell 1 65537 1 tx ty tz sc [((0, 65536, 0), m)]) 0 0 0 0 0 0) 0 0 0 0 0 0
  = inr (GShell 1 65537 1 tx ty tz sc [((0, 0, 0), m)]).
Proof.
  intros Hb Hm. set (vs := GShell 1 65537 1 tx ty tz sc [((0, 65536, 0), m)]).
  assert (HV : sexpand (sencode (Voxels vs) 0 0 0 1 65537 1) = [m]).
  { unfold sencode.
    assert (E : svalues (Voxels vs) 0 0 0 1 65537 1 = sexpand [(0, 65536); (m, 1)]).
    { unfold sexpand. cbn [map concat fst snd]. change (Z.to_nat 1) with 1%nat. cbn [repeat app].
      apply list_eq. intros i. destruct (decide (Z.of_nat i < 65537)) as [Hi|Hi].
      - rewrite <- (Nat2Z.id i) at 1. rewrite svalues_lookup; [|lia|lia|lia|apply NoDup_singleton|lia].
        rewrite shift_key_0. unfold nth_voxel, mask_at. cbn [Voxels vs list_to_map fst snd].
        change (list_to_map [((0, 65536, 0), m)] : gmap key Z) with ({[(0, 65536, 0) := m]} : gmap key Z).
        destruct (decide (Z.of_nat i < 65536)) as [Hlt|Hge].
        + rewrite lookup_app_l by (rewrite repeat_length; lia). rewrite repeat_lookup by lia.
          rewrite lookup_singleton_ne; [reflexivity|]. rewrite Z.mod_small by lia. intros [= _ H _]. lia.
        + assert (i = Z.to_nat 65536) as -> by lia. rewrite lookup_app_r by (rewrite repeat_length; lia).
          rewrite repeat_length, Nat.sub_diag, Z2Nat.id by lia. reflexivity.
      - rewrite lookup_ge_None_2 by (pose proof (svalues_length (Voxels vs) 0 0 0 1 65537 1); lia).
        rewrite lookup_ge_None_2; [reflexivity|]. rewrite app_length, repeat_length. cbn [length]. lia. }
    rewrite E. unfold sexpand. cbn [map concat fst snd]. rewrite senc_same by lia.
    rewrite Z.add_0_l, Z2Nat.id by lia. change (65536 mod 65536) with 0.
    change (Z.to_nat 1) with 1%nat. cbn [repeat app senc_loop]. unfold senc_step. cbn [e_value e_count].
    destruct (Z.eqb_spec m 0) as [->|_]; [exfalso; apply Hb; left; reflexivity|].
    cbn. reflexivity. }
  pose proof (swrite_read ft vs 0 0 0 0 0 0 0 0 0 0 0 0) as Hr. cbn zeta in Hr.
  cbn [vs sNX sNY sNZ default_dim Z.eqb] in Hr. unfold default_dim in Hr. cbn [Z.eqb] in Hr.
  fold vs in Hr. rewrite HV in Hr. rewrite Hr; try (unfold max_int; cbn; lia).
  - cbn [vs sTX sTY sTZ sScale collect]. rewrite (proj2 (special_not_blank m) Hb). reflexivity.
  - discriminate.
  - intros k n H. apply elem_of_list_singleton in H. injection H as -> ->. lia.
Qed.

Example C23_example :
  let vs := vsq 2 2 1 0 0 0 1 [((0,0,0), 5); ((1,1,0), 7)] in
  sread qtext (swrite_file qtext vs 0 0 0 0 0 0) 0 0 0 0 0 0 = inr vs /\ NoDup (map fst (Voxels vs)).
Proof.
  split; [vm_compute; reflexivity|]. apply (bool_decide_unpack _). vm_compute. exact I.
Qed.

(** * C24: the reader *)

(** Any bytes, any arguments: what is accepted is in range, in the (inclusive) window, in file order -
    hence without duplicates - and has proper masks. *)
Theorem C24_in_range {F} (ft : FloatText F) bytes sx sy sz cx cy cz (vs : gshell F) :
  sread ft bytes sx sy sz cx cy cz = inr vs ->
  0 <= sNX vs /\ 0 <= sNY vs /\ 0 <= sNZ vs /\
  (0 < sNY vs -> 0 < sNZ vs ->
     file_order (sNY vs) (sNZ vs) (Voxels vs) /\ NoDup (map fst (Voxels vs)) /\
     forall k n, (k, n) ∈ Voxels vs ->
       in_grid (sNX vs) (sNY vs) (sNZ vs) k /\ ~ blank n /\ 0 <= n < 2 ^ 32 /\
       sx <= kx k /\ sy <= ky k /\ sz <= kz k).
Proof.
  unfold sread. destruct (_ || _) eqn:Ea; [discriminate|].
  destruct (read_header _ _ _ _ _ _) as [e|[h data]] eqn:Eh; [discriminate|].
  apply read_header_dims in Eh.
  destruct (sread_data _ _ _ _ _ _) as [e|[c vox]] eqn:Ed; [discriminate|].
  intros [= <-]. cbn. split; [lia|]. split; [lia|]. split; [lia|].
  intros Hy Hz. set (w := Win _ _ _ _ _ _) in Ed. assert (Hx : 0 <= h_nx h) by lia.
  pose proof (proj1 (sread_data_iff _ _ _ _ data Hx Hy Hz) (ex_intro _ _ Ed)) as (recs & Hr & Ht).
  destruct (sread_data_ok _ _ _ w data recs Hy Hz Hr Ht) as (c' & Ed').
  rewrite Ed in Ed'. injection Ed' as _ ->.
  pose proof (collect_sorted (h_ny h) (h_nz h) w 0 (sexpand recs) Hy Hz ltac:(lia)) as Ho.
  split; [exact Ho|]. split; [eapply file_order_NoDup, Ho|].
  intros k n Hk. apply collect_elem in Hk as (j & Hj & Hb & -> & Hw).
  pose proof (lookup_lt_Some _ _ _ Hj). pose proof (srecords_total _ _ Hr).
  split; [apply nth_voxel_range; lia|]. split; [exact Hb|].
  split; [eapply sexpand_values; [exact Hr|eapply elem_of_list_lookup_2, Hj]|].
  unfold in_windowk in Hw. cbn [w_sx w_sy w_sz w] in Hw. lia.
Qed.

(** Behind a proper header a data section is accepted exactly if it consists of whole records that do
    not describe more positions than the grid has. *)
Theorem C24_accepts_iff {F} (ft : FloatText F) nx ny nz tx ty tz sc data sx sy sz cx cy cz :
  0 <= nx <= max_int -> 0 < ny <= max_int -> 0 < nz <= max_int ->
  0 <= sx <= nx -> 0 <= sy <= ny -> 0 <= sz <= nz -> 0 <= cx -> 0 <= cy -> 0 <= cz ->
  (exists vs, sread ft (sheader ft nx ny nz tx ty tz sc ++ data) sx sy sz cx cy cz = inr vs) <->
  exists recs, srecords data recs /\ srec_total recs <= nx * ny * nz.
Proof.
  intros. rewrite sread_with_header by lia.
  rewrite <- (sread_data_iff nx ny nz
     (Win sx sy sz (clip_count cx nx) (clip_count cy ny) (clip_count cz nz)) data) by lia.
  destruct (sread_data _ _ _ _ _ _) as [e|[c vox]].
  - split; intros [? ?]; discriminate.
  - split; intros _; eexists; reflexivity.
Qed.

(** ... and then the voxels are those the records describe. *)
Theorem C24_reads_records {F} (ft : FloatText F) nx ny nz tx ty tz sc data recs sx sy sz cx cy cz vs :
  0 <= nx <= max_int -> 0 < ny <= max_int -> 0 < nz <= max_int ->
  0 <= sx <= nx -> 0 <= sy <= ny -> 0 <= sz <= nz -> 0 <= cx -> 0 <= cy -> 0 <= cz ->
  sread ft (sheader ft nx ny nz tx ty tz sc ++ data) sx sy sz cx cy cz = inr vs ->
  srecords data recs ->
  let ex c n := if (c =? 0) || (c >? n) then n else c in
  forall k n, (k, n) ∈ Voxels vs <->
    exists i, sexpand recs !! i = Some n /\ ~ blank n /\ k = nth_voxel ny nz (Z.of_nat i) /\
      sx <= kx k <= sx + ex cx nx /\ sy <= ky k <= sy + ex cy ny /\ sz <= kz k <= sz + ex cz nz.
Proof.
  intros ? ? ? ? ? ? ? ? ? Hr Hrec ex k n. rewrite sread_with_header in Hr by lia.
  set (w := Win _ _ _ _ _ _) in Hr.
  destruct (sread_data nx ny nz w data (Cur 0 0 0, [])) as [e|[c vox]] eqn:Ed; [discriminate|].
  injection Hr as <-. cbn [Voxels].
  pose proof (proj1 (sread_data_iff nx ny nz w data ltac:(lia) ltac:(lia) ltac:(lia)) (ex_intro _ _ Ed)) as (recs' & Hr' & Ht').
  rewrite (sread_data_records _ _ _ _ _ _ _ Hrec), (cur_0 ny nz) in Ed by lia.
  destruct (decide (srec_total recs <= nx * ny * nz)) as [Ht|Ht].
  - rewrite sread_vals_spec in Ed; [|lia|lia|lia|rewrite (srecords_total _ _ Hrec); lia].
    injection Ed as _ <-. rewrite collect_elem. reflexivity.
  - rewrite sread_vals_overrun in Ed; [discriminate|lia|lia|lia|rewrite (srecords_total _ _ Hrec); lia|].
    intros E. pose proof (srecords_total _ _ Hrec) as Hl. rewrite E in Hl. cbn in Hl. nia.
Qed.

(** Bad arguments are rejected. *)
Theorem C24_bad_arguments {F} (ft : FloatText F) bytes sx sy sz cx cy cz :
  sx < 0 \/ sy < 0 \/ sz < 0 \/ cx < 0 \/ cy < 0 \/ cz < 0 ->
  exists e, sread ft bytes sx sy sz cx cy cz = inl e.
Proof.
  intros H. exists EParams. unfold sread.
  destruct ((sx <? 0) || (sy <? 0) || (sz <? 0) || (cx <? 0) || (cy <? 0) || (cz <? 0)) eqn:E; [reflexivity|].
  rewrite !orb_false_iff, !Z.ltb_ge in E. lia.
Qed.

(** Truncation, of any file: if the shortened file is accepted at all, its voxels are the first ones of
    the whole file. *)
Lemma read_line_more p l r s : read_line p = Some (l, r) -> read_line (p ++ s) = Some (l, r ++ s).
Proof.
  revert l r. induction p as [|b p IH]; intros l r H; [discriminate|]. cbn [app read_line] in *.
  destruct (Byte.eqb b x0a); [injection H as <- <-; reflexivity|].
  destruct (read_line p) as [[l0 r0]|]; [|discriminate]. injection H as <- <-.
  rewrite (IH _ _ eq_refl). reflexivity.
Qed.

Lemma read_header_more {F} (ft : FloatText F) magic sx sy sz p h d s :
  read_header ft magic sx sy sz p = inr (h, d) -> read_header ft magic sx sy sz (p ++ s) = inr (h, d ++ s).
Proof.
  unfold read_header. intros H.
  repeat (match type of H with
          | match read_line ?x with _ => _ end = _ =>
              let E := fresh in destruct (read_line x) as [[? ?]|] eqn:E; [|discriminate];
              rewrite (read_line_more _ _ _ s E)
          | match ?x with _ => _ end = _ => destruct x; try discriminate
          | (if ?x then _ else _) = _ => destruct x; try discriminate
          end).
  injection H as <- <-. reflexivity.
Qed.

Lemma sread_run_more nx ny nz w v n st st' : sread_run nx ny nz w v n st = Some st' ->
  snd st `prefix_of` snd st'.
Proof.
  revert st. induction n as [|n IH]; intros [c vs] H; cbn [sread_run] in H; [injection H as <-; reflexivity|].
  destruct (xi c >=? nx); [discriminate|]. apply IH in H. cbn [snd] in *.
  etransitivity; [|exact H]. destruct (_ && _); [apply prefix_app_r; reflexivity|reflexivity].
Qed.

Lemma sread_data_more nx ny nz w n d : (length d <= n)%nat -> forall st st' s,
  sread_data nx ny nz w d st = inr st' -> sread_data nx ny nz w (d ++ s) st = sread_data nx ny nz w s st'.
Proof.
  revert d. induction n as [|n IH]; intros d Hn st st' s H.
  - destruct d; [|cbn in Hn; lia]. cbn in H. injection H as ->. reflexivity.
  - destruct d as [|b0 [|b1 [|b2 [|b3 d]]]]; [cbn in H; injection H as ->; reflexivity|discriminate H..|].
    cbn [app sread_data] in *. destruct (special _).
    + destruct d as [|c0 [|c1 d]]; [discriminate H..|]. cbn [app].
      destruct (sread_run _ _ _ _ _ _ _) as [st1|]; [|discriminate]. apply IH; [cbn in Hn; lia|exact H].
    + destruct d as [|c d]; [discriminate H|]. cbn [app]. destruct (b2z c =? 0); [discriminate|].
      destruct (sread_run _ _ _ _ _ _ _) as [st1|]; [|discriminate]. apply IH; [cbn in Hn; lia|exact H].
Qed.

Lemma sread_data_prefix nx ny nz w n d : (length d <= n)%nat -> forall st st',
  sread_data nx ny nz w d st = inr st' -> snd st `prefix_of` snd st'.
Proof.
  revert d. induction n as [|n IH]; intros d Hn st st' H.
  - destruct d; [|cbn in Hn; lia]. cbn in H. injection H as ->. reflexivity.
  - destruct d as [|b0 [|b1 [|b2 [|b3 d]]]]; [cbn in H; injection H as ->; reflexivity|discriminate H..|].
    cbn [app sread_data] in *. destruct (special _).
    + destruct d as [|c0 [|c1 d]]; [discriminate H..|].
      destruct (sread_run _ _ _ _ _ _ _) as [st1|] eqn:E; [|discriminate]. apply sread_run_more in E.
      etransitivity; [exact E|]. eapply IH; [|exact H]. cbn in Hn; lia.
    + destruct d as [|c d]; [discriminate H|]. destruct (b2z c =? 0); [discriminate|].
      destruct (sread_run _ _ _ _ _ _ _) as [st1|] eqn:E; [|discriminate]. apply sread_run_more in E.
      etransitivity; [exact E|]. eapply IH; [|exact H]. cbn in Hn; lia.
Qed.

Theorem C24_truncation {F} (ft : FloatText F) bytes n sx sy sz cx cy cz (vs1 vs : gshell F) :
  sread ft (take n bytes) sx sy sz cx cy cz = inr vs1 ->
  sread ft bytes sx sy sz cx cy cz = inr vs ->
  Voxels vs1 `prefix_of` Voxels vs /\
  sNX vs1 = sNX vs /\ sNY vs1 = sNY vs /\ sNZ vs1 = sNZ vs /\
  sTX vs1 = sTX vs /\ sTY vs1 = sTY vs /\ sTZ vs1 = sTZ vs /\ sScale vs1 = sScale vs.
Proof.
  rewrite <- (take_drop n bytes) at 2. generalize (drop n bytes) as s. generalize (take n bytes) as p.
  intros p s. unfold sread. destruct (_ || _); [discriminate|].
  destruct (read_header ft _ _ _ _ p) as [e|[h d]] eqn:Eh; [discriminate|].
  rewrite (read_header_more _ _ _ _ _ _ _ _ s Eh).
  destruct (sread_data _ _ _ _ d _) as [e|[c vox]] eqn:Ed; [discriminate|].
  rewrite (sread_data_more _ _ _ _ _ _ (le_n _) _ _ s Ed). intros [= <-].
  destruct (sread_data _ _ _ _ s _) as [e|[c' vox']] eqn:Ed'; [discriminate|]. intros [= <-].
  cbn. split; [|auto 10]. exact (sread_data_prefix _ _ _ _ _ _ (le_n _) _ _ Ed').
Qed.

(** Both outcomes of a truncation occur: a cut inside a record is an error, one between records is not
    noticed. *)
Example C24_truncation_example :
  let vs := vsq 2 1 1 0 0 0 1 [((0,0,0), 5); ((1,0,0), 7)] in
  let file := swrite_file qtext vs 0 0 0 0 0 0 in
  let n := length file in
  (exists e, sread qtext (take (n - 1) file) 0 0 0 0 0 0 = inl e) /\
  (exists vs', sread qtext (take (n - 5) file) 0 0 0 0 0 0 = inr vs' /\ Voxels vs' = [((0,0,0), 5)]).
Proof. vm_compute. split; eexists; try reflexivity. split; reflexivity. Qed.

(** * C25: the concurrent writer *)

(** [swriter_step] is one step of either goroutine.  If no write fails, every schedule that cannot go
    on has written exactly the bytes of the sequential writer, and the encoder goroutine is gone. *)
Theorem C25_any_schedule {F} (ft : FloatText F) (vs : gshell F) sx sy sz nx ny nz cap oracle s :
  Voxels vs <> [] -> (forall i, oracle i = WOk) ->
  rtc (swriter_step cap oracle) (swriter_init vs sx sy sz nx ny nz) s ->
  (forall s', ~ swriter_step cap oracle s s') ->
  prod s = None /\ buf s = [] /\
  exists h ws n, swrite ft vs sx sy sz nx ny nz = (h :: ws, n) /\ cons_ s = Finished (n, length ws, concat ws).
Proof. intros. eapply swriter_final; eassumption. Qed.

(** Every schedule is finite. *)
Theorem C25_terminates {F} (vs : gshell F) sx sy sz nx ny nz cap oracle n s :
  nsteps (swriter_step cap oracle) n (swriter_init vs sx sy sz nx ny nz) s ->
  (n <= 2 * length (loop_keys sx sy sz (if (nx =? 0)%Z then sNX vs else nx) (if (ny =? 0)%Z then sNY vs else ny)
                       (if (nz =? 0)%Z then sNZ vs else nz)) + 6)%nat.
Proof.
  intros H. apply swriter_bounded in H. unfold svalues in H. rewrite map_length in H. exact H.
Qed.

(** If some data write fails, every maximal schedule ends with an error; the encoder goroutine is gone
    exactly if the runs it has left to send fit in the channel. *)
Theorem C25_write_error {F} (ft : FloatText F) (vs : gshell F) sx sy sz nx ny nz cap oracle i m s :
  Voxels vs <> [] ->
  (S i < length (fst (swrite ft vs sx sy sz nx ny nz)))%nat -> oracle i = WErr m ->
  rtc (swriter_step cap oracle) (swriter_init vs sx sy sz nx ny nz) s ->
  (forall s', ~ swriter_step cap oracle s s') ->
  exists c r d ys, cons_ s = Chan.Failed c r /\
    sencode (Voxels vs) sx sy sz (if nx =? 0 then sNX vs else nx) (if ny =? 0 then sNY vs else ny)
      (if nz =? 0 then sNZ vs else nz) = d ++ r :: ys /\
    (prod s = None <-> (length ys <= cap)%nat).
Proof.
  intros H1 H2 H3 H4 H5.
  destruct (swriter_fault ft vs sx sy sz nx ny nz cap oracle s i m H1 H2 H3 H4 H5)
    as (c & r & d & ys & Hc & Hd & _ & _ & Hp).
  exists c, r, d, ys. auto.
Qed.

(** Finding: with the channel capacity of the code (100) a failing disk leaves the encoder goroutine
    blocked for ever.  The shell has 110 voxels in a row with alternating masks. *)
Definition leak_shell : vshell :=
  vsq 1 110 1 0 0 0 1 (map (fun i => ((0, i, 0), 1 + i mod 2)) (seqZ 0 110)).

Theorem C25_goroutine_leak :
  (exists s, rtc (swriter_step 100 (fun _ => WErr 0)) (swriter_init leak_shell 0 0 0 0 0 0) s /\
             forall s', ~ swriter_step 100 (fun _ => WErr 0) s s') /\
  forall s, rtc (swriter_step 100 (fun _ => WErr 0)) (swriter_init leak_shell 0 0 0 0 0 0) s ->
    (forall s', ~ swriter_step 100 (fun _ => WErr 0) s s') -> prod s <> None.
Proof.
  split.
  - (* schedules are bounded and steps are decidable, so a maximal one exists *)
    assert (Hex : forall n s, (measure senc_measure s < n)%nat ->
              exists s', rtc (swriter_step 100 (fun _ => WErr 0)) s s' /\
                         forall s'', ~ swriter_step 100 (fun _ => WErr 0) s' s'').
    { induction n as [|n IH]; intros s Hn; [lia|].
      assert (Hd : (exists s', swriter_step 100 (fun _ => WErr 0) s s') \/
                   forall s', ~ swriter_step 100 (fun _ => WErr 0) s s').
      { destruct s as [[p|] b k].
        - destruct (senc_next p) as [p'|x p'|] eqn:E.
          + left. eexists. apply s_tau, E.
          + destruct (Nat.lt_ge_cases (length b) 100) as [Hl|Hl].
            * left. eexists. apply s_send; [exact E|exact Hl].
            * destruct k as [c|c|c y].
              -- destruct b as [|y b]; [cbn in Hl; lia|]. left. eexists. apply s_recv.
              -- right. intros s' Hs. inversion Hs; subst; (congruence || lia).
              -- right. intros s' Hs. inversion Hs; subst; (congruence || lia).
          + left. eexists. apply s_close, E.
        - destruct k as [c|c|c y].
          + destruct b as [|y b]; left; eexists; [apply s_end|apply s_recv].
          + right. intros s' Hs. inversion Hs.
          + right. intros s' Hs. inversion Hs. }
      destruct Hd as [[s' Hs]|Hd]; [|exists s; split; [reflexivity|exact Hd]].
      destruct (IH s') as (s2 & H2 & H3).
      - apply (step_measure _ _ _ _ senc_measure_tau senc_measure_send) in Hs. lia.
      - exists s2. split; [|exact H3]. eapply rtc_l; eassumption. }
    eapply Hex, Nat.lt_succ_diag_r.
  - intros s Hs Hno Hp.
    destruct (swriter_fault qtext leak_shell 0 0 0 0 0 0 100 (fun _ => WErr 0) s 0 0) as (c & r & d & ys & Hc & Hd & Hi & _ & Hl).
    + discriminate.
    + apply (bool_decide_unpack _). vm_compute. exact I.
    + reflexivity.
    + exact Hs.
    + exact Hno.
    + apply Hl in Hp.
      assert (d = []) as ->.
      { destruct d as [|r0 d]; [reflexivity|]. exfalso. cbn [iter_body] in Hi.
        unfold swrite_body in Hi at 1. destruct (run_writes r0) as [|w ws] eqn:Ew.
        - unfold run_writes in Ew. destruct r0 as [v c0]. destruct (special v); [discriminate|].
          assert (Hpos : 0 < c0).
          { assert (Hin : (v, c0) ∈ sencode (Voxels leak_shell) 0 0 0 1 110 1).
            { unfold default_dim in Hd. cbn [Z.eqb] in Hd. change (sNX leak_shell) with 1 in Hd.
              change (sNY leak_shell) with 110 in Hd. change (sNZ leak_shell) with 1 in Hd. rewrite Hd. left. }
            unfold sencode in Hin. rewrite senc_values in Hin.
            pose proof (wrap_runs_wf (runs_of (svalues (Voxels leak_shell) 0 0 0 1 110 1))) as Hw.
            rewrite Forall_forall in Hw. apply Hw in Hin. cbn in Hin. lia. }
          cbn zeta in Ew. destruct (Z.ltb_spec 0 (c0 / 255)); [discriminate|].
          destruct (Z.ltb_spec 0 (c0 mod 255)); [discriminate|].
          pose proof (Z.div_mod c0 255 ltac:(lia)). pose proof (Z.mod_pos_bound c0 255 ltac:(lia)). lia.
        - cbn [do_writes] in Hi. discriminate. }
      apply (f_equal length) in Hd. cbn [app length] in Hd.
      assert (E : length (sencode (Voxels leak_shell) 0 0 0 (default_dim 0 (sNX leak_shell))
                  (default_dim 0 (sNY leak_shell)) (default_dim 0 (sNZ leak_shell))) = 110%nat)
        by (vm_compute; reflexivity).
      rewrite E in Hd. lia.
Qed.

Print Assumptions C23_region_round_trip.
Print Assumptions C23_round_trip.
Print Assumptions C23_round_trip_complete.
Print Assumptions C23_count.
Print Assumptions C23_runs_wrap.
Print Assumptions C23_isolated_voxel_lost.
Print Assumptions C23_long_run_refuted.
Print Assumptions C24_in_range.
Print Assumptions C24_accepts_iff.
Print Assumptions C24_reads_records.
Print Assumptions C24_truncation.
Print Assumptions C25_any_schedule.
Print Assumptions C25_terminates.
Print Assumptions C25_write_error.
Print Assumptions C25_goroutine_leak.
