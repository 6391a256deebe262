(** C63: the goroutines of the float64 voxelizer (as VoxelizeProps.v does for the exact one, C29). *)
From Coq Require Import ZArith QArith List Lia Bool Permutation.
From stdpp Require Import base list list_numbers gmap sets fin_sets relations.
From Flocq Require Import Core IEEE754.BinarySingleNaN.
From Verif Require Import Base BaseLemmas BinvoxModel BinvoxSpec Geom ForkJoin VoxelizeModel VoxelizeSpec VoxelizeProps.
From Verif Require Import BinvoxDiceModel BinvoxDiceFloat MarchModel FloatMeshModel FloatVoxelModel FloatVoxelFill FloatVoxelProps FloatVoxelCover.
Import ListNotations.
Open Scope Z_scope.

(** The rows of a slice: the keys of its xMinMaxMap (binvox/voxelize.go:262), in some order. *)
Definition f_slice_rows (b : binvox float64) (mesh : list ftri) (zi : Z) : list Z :=
  map fst (map_to_list (snd (f_slice_shell b mesh zi))).

(** The goroutines of Voxelize, as [vox_code] in VoxelizeModel.v: [rows zi] is the order in which slice
    [zi] ranges over its map. *)
Definition f_vox_code (b : binvox float64) (mesh : list ftri) (rows : Z -> list Z) (t : vtid)
  : list (@act vtid key) :=
  match t with
  | TMain =>                                                     (* binvox/voxelize.go:52-73 *)
      flat_map (fun zi => [AAdd TMain; ASpawn (TSlice zi)]) (seqZ 0 (NZ b)) ++ [AWait TMain; ARead]
  | TSlice zi =>                                                 (* binvox/voxelize.go:55-69, 261-304 *)
      flat_map (fun yi => [AAdd t; ASpawn (TRow zi yi)]) (rows zi) ++ [AWait t; ADone TMain]
  | TRow zi yi =>                                                (* binvox/voxelize.go:264-302, 45-49 *)
      flat_map (fun k => [ALock; APut k; AUnlock]) (f_row_voxels b mesh zi yi) ++ [ADone (TSlice zi)]
  end.

Section FGoroutines.
  Context (b : binvox float64) (mesh : list ftri) (rows : Z -> list Z).
  (** [rows zi]: some iteration order of the map of rows of slice [zi]. *)
  Context (Hrows : forall zi, Permutation (rows zi) (f_slice_rows b mesh zi)).

  Definition f_vkids (t : vtid) : list vtid :=
    match t with TMain => map TSlice (seqZ 0 (NZ b)) | TSlice zi => map (TRow zi) (rows zi) | TRow _ _ => [] end.
  Definition f_vleaf (t : vtid) : bool := match t with TRow _ _ => true | _ => false end.
  Definition f_vputs (t : vtid) : list key := match t with TRow zi yi => f_row_voxels b mesh zi yi | _ => [] end.
  Definition f_vparent (t : vtid) : vtid := match t with TRow zi _ => TSlice zi | _ => TMain end.
  Definition f_vrank (t : vtid) : nat := match t with TMain => 2 | TSlice _ => 1 | TRow _ _ => 0 end.
  Definition f_vtids : list vtid := TMain :: flat_map (fun zi => TSlice zi :: map (TRow zi) (rows zi)) (seqZ 0 (NZ b)).

  Lemma f_rows_nodup zi : NoDup (rows zi).
  Proof.
    rewrite (Hrows zi). unfold f_slice_rows. apply (NoDup_fst_map_to_list (snd (f_slice_shell b mesh zi))).
  Qed.

  Lemma f_vtids_in t : In t f_vtids <->
    match t with TMain => True | TSlice zi => 0 <= zi < NZ b | TRow zi yi => 0 <= zi < NZ b /\ In yi (rows zi) end.
  Proof.
    unfold f_vtids. cbn [In]. rewrite in_flat_map. split.
    - intros [<-|(zi & Hz & Ht)]; [exact I|]. apply elem_of_list_In, elem_of_seqZ in Hz.
      destruct Ht as [<-|Ht]; [lia|]. apply in_map_iff in Ht as (yi & <- & Hy). split; [lia|exact Hy].
    - destruct t as [|zi|zi yi]; [auto| |].
      + intros Hz. right. exists zi. split; [apply elem_of_list_In, elem_of_seqZ; lia|left; reflexivity].
      + intros [Hz Hy]. right. exists zi. split; [apply elem_of_list_In, elem_of_seqZ; lia|right; apply in_map, Hy].
  Qed.

  Lemma f_vtids_nodup : NoDup f_vtids.
  Proof.
    unfold f_vtids. constructor.
    - rewrite elem_of_list_In, in_flat_map. intros (zi & _ & [H|H]); [discriminate|].
      apply in_map_iff in H as (yi & H & _). discriminate.
    - pose proof (NoDup_seqZ 0 (NZ b)) as Hs. induction (seqZ 0 (NZ b)) as [|z l IH]; [constructor|].
      inversion Hs as [|? ? Hz Hs']; subst. cbn [flat_map]. apply NoDup_app. split; [|split].
      + constructor.
        * rewrite elem_of_list_In, in_map_iff. intros (y & H & _). discriminate.
        * apply NoDup_map_inj, f_rows_nodup. intros x y [=]. assumption.
      + intros t Ht Ht'. rewrite elem_of_list_In in Ht, Ht'. apply in_flat_map in Ht' as (z' & Hz' & Ht').
        apply Hz. apply elem_of_list_In.
        assert (z = z') as ->; [|exact Hz'].
        destruct Ht as [<-|Ht]; [|apply in_map_iff in Ht as (y & <- & _)].
        * destruct Ht' as [[= ->]|Ht']; [reflexivity|]. apply in_map_iff in Ht' as (y' & [=] & _).
        * destruct Ht' as [[=]|Ht']. apply in_map_iff in Ht' as (y' & [=] & _). congruence.
      + apply IH, Hs'.
  Qed.

  Lemma f_vox_tree : tree (f_vox_code b mesh rows) f_vtids TMain f_vkids f_vleaf f_vputs f_vparent f_vrank.
  Proof.
    constructor.
    - intros [|zi|zi yi] _; unfold f_vox_code, f_vkids, f_vleaf, f_vputs, spawns, lockputs, last_act;
        rewrite ?flat_map_map; cbn [flat_map app]; reflexivity.
    - apply f_vtids_nodup.
    - apply f_vtids_in. exact I.
    - intros [|zi|zi yi] c Ht Hc; unfold f_vkids in Hc; [| |destruct Hc]; apply in_map_iff in Hc as (z & <- & Hz).
      + apply elem_of_list_In, elem_of_seqZ in Hz. split; [apply f_vtids_in; lia|]. split; [reflexivity|]. split; [discriminate|]. cbn; lia.
      + apply f_vtids_in in Ht. split; [apply f_vtids_in; auto|]. split; [reflexivity|]. split; [discriminate|]. cbn; lia.
    - intros [|zi|zi yi] _; unfold f_vkids.
      + apply NoDup_map_inj, NoDup_seqZ. intros x y [=]. assumption.
      + apply NoDup_map_inj, f_rows_nodup. intros x y [=]. assumption.
      + constructor.
    - intros [|zi|zi yi] Hc Hne; [congruence| |]; apply f_vtids_in in Hc; cbn [f_vparent].
      + split; [apply f_vtids_in; exact I|]. cbn [f_vkids]. apply in_map, elem_of_list_In, elem_of_seqZ. lia.
      + split; [apply f_vtids_in; lia|]. cbn [f_vkids]. apply in_map, Hc.
    - intros [|zi|zi yi] _; cbn; congruence.
  Qed.

  Definition f_vstep : @fj vtid key _ _ -> @fj vtid key _ _ -> Prop := fstep.
  Definition f_vinit : @fj vtid key _ _ := finit (f_vox_code b mesh rows) TMain.

  Lemma f_vputs_all k : (exists t, In t f_vtids /\ In k (f_vputs t)) <->
    In k (flat_map (f_slice_voxels b mesh) (seqZ 0 (NZ b))).
  Proof.
    rewrite in_flat_map. unfold f_slice_voxels. setoid_rewrite in_flat_map. split.
    - intros ([|zi|zi yi] & Ht & Hk); cbn in Hk; try (destruct Hk; fail). apply f_vtids_in in Ht as [Hz Hy].
      exists zi. split; [apply elem_of_list_In, elem_of_seqZ; lia|]. exists yi. split; [|exact Hk].
      eapply Permutation_in; [apply Hrows|exact Hy].
    - intros (zi & Hz & yi & Hy & Hk). apply elem_of_list_In, elem_of_seqZ in Hz. exists (TRow zi yi). split; [|exact Hk].
      apply f_vtids_in. split; [lia|]. eapply Permutation_in; [symmetry; apply Hrows|exact Hy].
  Qed.

  (** Whatever the schedule, what f_Voxelize stores is the sequential result. *)
  Theorem C63_any_schedule s V : f_zero_dim b = false -> rtc f_vstep f_vinit s -> result s = Some V ->
    f_Voxelize b mesh = inr V.
  Proof.
    intros Hz Hr HV. unfold f_Voxelize. rewrite Hz. f_equal. apply set_eq. intros k.
    rewrite elem_of_list_to_set, elem_of_list_In, <- f_vputs_all. symmetry.
    apply (fj_result _ _ _ _ _ _ _ _ f_vox_tree s V Hr HV).
  Qed.

  (** No two goroutines touch the voxel map at once, no WaitGroup or mutex misuse panics. *)
  Theorem C63_no_race s : rtc f_vstep f_vinit s -> ~ race s /\ ~ panics s.
  Proof.
    intros Hr. split; [apply (fj_norace _ _ _ _ _ _ _ _ f_vox_tree s Hr)|apply (fj_nopanic _ _ _ _ _ _ _ _ f_vox_tree s Hr)].
  Qed.

  (** No deadlock: when nothing can move, the result is there and all goroutines are gone. *)
  Theorem C63_no_deadlock s : rtc f_vstep f_vinit s -> (forall s', ~ f_vstep s s') ->
    is_Some (result s) /\ forall t, In t f_vtids -> rem s t = [].
  Proof.
    intros Hr Hno. destruct (fj_progress _ _ _ _ _ _ _ _ f_vox_tree s Hr Hno) as (H1 & _ & H2).
    split; [exact H1|]. intros t Ht. apply H2, Ht.
  Qed.

  (** Every schedule ends, within a bound known at the start. *)
  Theorem C63_terminates : exists N, forall n s, nsteps f_vstep n f_vinit s -> (n <= N)%nat.
  Proof. eexists. intros n s Hn. apply (fj_terminates _ _ _ _ _ _ _ _ f_vox_tree s n Hn). Qed.
End FGoroutines.

(** Non-vacuity: the triangle of [C63_example] starts 10 slice goroutines and some row goroutines. *)
Example C63_goroutines : length (f_vtids cover_grid (f_slice_rows cover_grid [cover_tri])) = 31%nat /\
  forall zi, Permutation (f_slice_rows cover_grid [cover_tri] zi) (f_slice_rows cover_grid [cover_tri] zi).
Proof. split; [vm_compute; reflexivity|reflexivity]. Qed.
Print Assumptions C63_any_schedule.
