(** C65: examples of stldice followed by merge-binvox. *)
From Verif Require Import Base BaseLemmas BinvoxSpec BinvoxModel BinvoxProps FloatTextQ Geom VoxelizeModel VoxelizeSpec VoxelizeProps VshellModel VshellSpec VshellBits VshellMerge
  VshellProofs VshellGeom VshellProps VshellCodec VshellCodecSpec VshellCodecProps VoxcutModel StldiceModel StldiceProps CmdMergeModel CmdMergeProps CmdMergeTiles CmdDice.
From Coq Require Import ZArith QArith List Bool String Init.Byte Lia Lqa.
From stdpp Require Import base list list_numbers gmap sets fin_sets sorting.
Import ListNotations.
Open Scope Z_scope.

Definition numbered (m : list tri) : list tri :=
  map (fun it => Tri (Z.of_nat (fst it)) (tv1 (snd it)) (tv2 (snd it)) (tv3 (snd it)) (tnorm (snd it))) (zip (seq 0 (length m)) m).

Definition voxels_of (bx : qpt * qpt) (dim : Z) (mesh : list tri) : gset key :=
  match Voxelize (whole bx dim) mesh with inr b => white b | inl _ => ∅ end.

Lemma voxels_of_spec bx dim mesh g : result_voxels (Voxelize (whole bx dim) mesh) g <-> g ∈ voxels_of bx dim mesh.
Proof. unfold result_voxels, voxels_of. destruct (Voxelize (whole bx dim) mesh); [|reflexivity]. split; [contradiction|]. intros H. exact (not_elem_of_empty _ H). Qed.

Lemma listing_of_run (ws : list (list byte * list byte)) : List.NoDup (map fst ws) -> listing (put_files (fun _ => None) ws) (map fst ws).
Proof.
  intros Hnd. split; [exact Hnd|]. intros n. split.
  - intros Hn. apply in_map_iff in Hn as ((n' & bytes) & <- & Hin). cbn [fst]. rewrite (put_files_in _ _ n' bytes Hnd Hin). discriminate.
  - intros H. destruct (in_dec (List.list_eq_dec Byte.byte_eq_dec) n (map fst ws)) as [Hi|Hi]; [exact Hi|]. exfalso. apply H. apply put_files_other, Hi.
Qed.

(** ** Two boxes 2 x 2 x 2 in opposite corners of a square, diced 2 x 2 *)

Definition mesh2 : list tri := Eval vm_compute in numbered (box_mesh 0 (5#2) 0 (3#2) 4 2 ++ box_mesh (5#2) 0 0 4 (3#2) 2).
Definition bx2 : qpt * qpt := Eval vm_compute in bounding_box mesh2.
Definition ws2 := Eval vm_compute in fst (diceMesh qtext (fun _ => None) mesh2 bx2 (mbb_scale bx2) 4 2 2 1 (txt "p")).
Definition cube2 : list key := Eval vm_compute in boxes 2 2 2.
Definition es2 (i : nat) : env :=
  match i with O => Env (fun c => (2 * c + 1)%nat) 0 cube2 [] cube2
  | 1%nat => Env (fun c => (2 * c + 1)%nat) 8 cube2 [] cube2 | _ => Env (fun c => c) 16 [] [] [] end.
Definition d2 := put_files (fun _ => None) ws2.
Definition out2 := Eval vm_compute in fst (merge_binvox qtext false (txt "p") d2 (map fst ws2) es2) (txt "p.vsh").
Definition bytes2 := Eval vm_compute in match out2 with Some b => b | None => [] end.
Definition shell2 := Eval vm_compute in match sread qtext bytes2 0 0 0 0 0 0 with inr vs => Some vs | inl _ => None end.
Definition white2 : list key := Eval vm_compute in elements (voxels_of bx2 4 mesh2).

Lemma run2 : exists l, diceMesh qtext (fun _ => None) mesh2 bx2 (mbb_scale bx2) 4 2 2 1 (txt "p") = (ws2, Some l).
Proof. eexists. vm_compute. reflexivity. Qed.

Lemma names2 : map fst ws2 = map (out_file (txt "p")) [(1,0,0); (0,1,0); (1,1,0)].
Proof. vm_compute. reflexivity. Qed.

Lemma nodup2 : List.NoDup (map fst ws2).
Proof. rewrite names2. apply NoDup_ListNoDup. apply (bool_decide_unpack _). vm_compute. exact I. Qed.

Lemma fin2 : snd (merge_binvox qtext false (txt "p") d2 (map fst ws2) es2) = Finished.
Proof. vm_compute. reflexivity. Qed.

Lemma wrote2 : fst (merge_binvox qtext false (txt "p") d2 (map fst ws2) es2) (txt "p.vsh") = Some bytes2.
Proof. vm_compute. reflexivity. Qed.

Lemma dims2 : tile_dims bx2 4 2 2 1 = (2, 2, 2).
Proof. vm_compute. reflexivity. Qed.

Lemma cube2_nodup : NoDup cube2.
Proof. apply (bool_decide_unpack _). vm_compute. exact I. Qed.

Lemma cube2_all k : k ∈ cube2 <-> in_grid 2 2 2 k.
Proof.
  split.
  - intros H. unfold cube2 in H. repeat (apply elem_of_cons in H as [-> |H]; [unfold in_grid, in_region; kproj; lia|]). inversion H.
  - intros Hk. unfold in_grid, in_region in Hk. destruct k as [[x y] z]. unfold kx, ky, kz in Hk. cbn [fst snd] in Hk.
    assert (Ex : x = 0 \/ x = 1) by lia. assert (Ey : y = 0 \/ y = 1) by lia. assert (Ez : z = 0 \/ z = 1) by lia.
    destruct Ex as [-> | ->], Ey as [-> | ->], Ez as [-> | ->]; apply (bool_decide_unpack _); vm_compute; exact I.
Qed.

Lemma white2_eq g : g ∈ voxels_of bx2 4 mesh2 <-> g ∈ white2.
Proof.
  assert (E : elements (voxels_of bx2 4 mesh2) = white2) by (vm_compute; reflexivity). rewrite <- E. symmetry. apply elem_of_elements.
Qed.

Lemma model2 g : model_voxel bx2 4 2 2 1 mesh2 g <-> in_grid 4 4 2 g /\ g ∈ white2.
Proof. unfold model_voxel. rewrite dims2, voxels_of_spec, white2_eq. reflexivity. Qed.

Definition full2 (t : key) : bool := bool_decide (t = (0,1,0)) || bool_decide (t = (1,0,0)).

Lemma tile2 t k : In t [(0,1,0); (1,0,0); (1,1,0)] ->
  (in_grid 2 2 2 k /\ model_voxel bx2 4 2 2 1 mesh2 (tile_voxel (2,2,2) t k) <-> k ∈ if full2 t then cube2 else []).
Proof.
  intros Ht. rewrite model2, <- cube2_all.
  assert (Hb : forallb (fun t => forallb (fun k => Bool.eqb (bool_decide (k ∈ if full2 t then cube2 else []))
      (bool_decide (in_grid 4 4 2 (tile_voxel (2,2,2) t k)) && bool_decide (tile_voxel (2,2,2) t k ∈ white2))) cube2) [(0,1,0); (1,0,0); (1,1,0)] = true) by (vm_compute; reflexivity).
  rewrite forallb_forall in Hb. specialize (Hb t Ht). rewrite forallb_forall in Hb.
  destruct (decide (k ∈ cube2)) as [Hk|Hk].
  - specialize (Hb k ltac:(apply elem_of_list_In, Hk)). apply eqb_prop in Hb. split.
    + intros (_ & H1 & H2). apply (bool_decide_eq_true_1 _). rewrite Hb. apply andb_true_iff. split; apply bool_decide_eq_true_2; assumption.
    + intros H. apply (bool_decide_eq_true_2 _) in H. rewrite Hb in H. apply andb_true_iff in H as [H1 H2].
      apply bool_decide_eq_true_1 in H1. apply bool_decide_eq_true_1 in H2. split; [exact Hk|]. split; assumption.
  - split; [intros [H _]; contradiction|]. destruct (full2 t); intros H; [contradiction|inversion H].
Qed.

Definition apart2 (vs : gshell Q) : bool :=
  forallb (fun k => forallb (fun g => negb (let '(x, y, z) := shell_world vs k in let '(x', y', z') := world (whole bx2 4) g in Qeq_bool x x' && Qeq_bool y y' && Qeq_bool z z'))
    white2) (map fst (Voxels vs)).

Lemma read2 : exists vs, sread qtext bytes2 0 0 0 0 0 0 = inr vs /\ length (Voxels vs) = 8%nat /\ apart2 vs = true.
Proof.
  destruct shell2 as [vs|] eqn:E; [|discriminate E].
  assert (H : match sread qtext bytes2 0 0 0 0 0 0 with inr vs => (Nat.eqb (length (Voxels vs)) 8 && apart2 vs) | inl _ => false end = true) by (vm_compute; reflexivity).
  destruct (sread qtext bytes2 0 0 0 0 0 0) as [|vs']; [discriminate H|]. exists vs'. apply andb_true_iff in H as [H1 H2]. apply Nat.eqb_eq in H1. auto.
Qed.

Local Opaque mesh2 bx2 ws2 bytes2 shell2 white2 cube2 merge_binvox diceMesh sread.

(** Finding: if a later tile lies before the first one on some axis, the merge goes wrong without an
    error.  The files are those of the tiles (0,1,0), (1,0,0) and (1,1,0); what is read back has
    voxels, and not one of them is at the place of a voxel of the model. *)
Theorem C65_misplaced_refuted : exists mesh bx, bounding_box mesh = bx /\ good bx 4 2 2 1 /\ List.NoDup (map taddr mesh) /\
  exists ws l names es, diceMesh qtext (fun _ => None) mesh bx (mbb_scale bx) 4 2 2 1 (txt "p") = (ws, Some l) /\
  let d := put_files (fun _ => None) ws in listing d names /\
  let td := tile_dims bx 4 2 2 1 in let ts := [(0,1,0); (1,0,0); (1,1,0)] in
  (forall t, In t ts <-> in_grid 2 2 1 t /\ d (out_file (txt "p") t) <> None) /\
  (forall i t S, ts !! i = Some t -> (forall k, k ∈ S <-> in_grid (kx td) (ky td) (kz td) k /\ model_voxel bx 4 2 2 1 mesh (tile_voxel td t k)) ->
     iterates (e_white (es i)) S /\ iterates (e_color (es i)) ∅ /\ iterates (e_order (es i)) S) /\
  exists d' bytes vs, merge_binvox qtext false (txt "p") d names es = (d', Finished) /\ d' (txt "p.vsh") = Some bytes /\
    sread qtext bytes 0 0 0 0 0 0 = inr vs /\ length (Voxels vs) = 8%nat /\
    forall k g, k ∈ map fst (Voxels vs) -> model_voxel bx 4 2 2 1 mesh g -> ~ qpt_eq (shell_world vs k) (world (whole bx 4) g).
Proof.
  exists mesh2, bx2. split; [vm_compute; reflexivity|]. split; [unfold good, sane; vm_compute; repeat split; discriminate || reflexivity|].
  split; [apply NoDup_ListNoDup; apply (bool_decide_unpack _); vm_compute; exact I|].
  destruct run2 as (l & Hrun). exists ws2, l, (map fst ws2), es2. split; [exact Hrun|]. cbv zeta. clear Hrun l.
  pose proof (listing_of_run ws2 nodup2) as Hl. split; [exact Hl|].
  split.
  { intros t. rewrite <- (proj2 Hl), names2, in_map_iff. split.
    - intros Ht. split; [|exists t; split; [reflexivity|]].
      + destruct Ht as [<-|[<-|[<-|[]]]]; unfold in_grid, in_region; kproj; lia.
      + destruct Ht as [<-|[<-|[<-|[]]]]; cbn; auto.
    - intros (Hg & u & En & Hu). assert (Hug : in_grid 2 2 1 u) by (destruct Hu as [<-|[<-|[<-|[]]]]; unfold in_grid, in_region; kproj; lia).
      apply (C42_names_distinct _ _ _ _ 2 2 1) in En as [_ <-]; [|assumption..]. destruct Hu as [<-|[<-|[<-|[]]]]; cbn; auto. }
  rewrite dims2. split.
  - intros i t S Hi HS. kproj.
    assert (Ht : In t [(0,1,0); (1,0,0); (1,1,0)]) by (apply elem_of_list_In; eapply elem_of_list_lookup_2; exact Hi).
    assert (HS' : forall k, k ∈ S <-> k ∈ if full2 t then cube2 else []) by (intros k; rewrite HS; apply tile2, Ht).
    assert (Hc : (e_white (es2 i) = if full2 t then cube2 else []) /\ e_color (es2 i) = [] /\ (e_order (es2 i) = if full2 t then cube2 else [])).
    { destruct i as [|[|[|i]]]; [..|discriminate Hi]; inversion Hi; subst t; split; try split; reflexivity. }
    destruct Hc as (-> & -> & ->).
    assert (Hn : NoDup (if full2 t then cube2 else [])) by (destruct (full2 t); [exact cube2_nodup|constructor]).
    split; [|split].
    + split; [exact Hn|]. intros k. symmetry. apply HS'.
    + split; [constructor|]. intros k. split; intros H; [inversion H|exfalso; exact (not_elem_of_empty _ H)].
    + split; [exact Hn|]. intros k. symmetry. apply HS'.
  - pose proof fin2 as Hf. pose proof wrote2 as Hw. fold d2. destruct (merge_binvox qtext false (txt "p") d2 (map fst ws2) es2) as [d' e]. cbn [fst snd] in Hf, Hw. subst e.
    destruct read2 as (vs & Er & El & Hall). exists d', bytes2, vs. split; [reflexivity|]. split; [exact Hw|]. split; [exact Er|]. split; [exact El|].
    intros k g Hk Hg Heq. apply model2 in Hg as [_ Hg]. unfold apart2 in Hall. rewrite forallb_forall in Hall. specialize (Hall k ltac:(apply elem_of_list_In, Hk)).
    rewrite forallb_forall in Hall. specialize (Hall g ltac:(apply elem_of_list_In, Hg)). apply negb_true_iff in Hall.
    unfold qpt_eq in Heq. destruct (shell_world vs k) as [[x y] z], (world (whole bx2 4) g) as [[x' y'] z']. destruct Heq as (H1 & H2 & H3).
    apply Qeq_bool_iff in H1, H2, H3. rewrite H1, H2, H3 in Hall. discriminate.
Qed.
Print Assumptions C65_misplaced_refuted.

(** ** The hypotheses of C65_dice_then_merge are met: a box 4 x 2 x 2 diced in two along x *)

Definition mesh1 : list tri := Eval vm_compute in numbered (box_mesh 0 0 0 4 (3#2) (3#2)).
Definition bx1 : qpt * qpt := Eval vm_compute in bounding_box mesh1.
Definition ws1 := Eval vm_compute in fst (diceMesh qtext (fun _ => None) mesh1 bx1 (mbb_scale bx1) 4 2 1 1 (txt "p")).
Definition white1 : list key := Eval vm_compute in elements (voxels_of bx1 4 mesh1).

Definition es1 (i : nat) : env :=
  match i with O => Env (fun c => (2 * c + 1)%nat) 0 cube2 [] cube2
  | _ => Env (fun c => (2 * c + 1)%nat) 8 cube2 [] (map (fun k => move k (2, 0, 0)) cube2) end.

Lemma run1 : exists l, diceMesh qtext (fun _ => None) mesh1 bx1 (mbb_scale bx1) 4 2 1 1 (txt "p") = (ws1, Some l).
Proof. eexists. vm_compute. reflexivity. Qed.

Lemma names1 : map fst ws1 = map (out_file (txt "p")) [(0,0,0); (1,0,0)].
Proof. vm_compute. reflexivity. Qed.

Lemma nodup1 : List.NoDup (map fst ws1).
Proof. rewrite names1. apply NoDup_ListNoDup. apply (bool_decide_unpack _). vm_compute. exact I. Qed.

Lemma dims1 : tile_dims bx1 4 2 1 1 = (2, 2, 2).
Proof. vm_compute. reflexivity. Qed.

Lemma model1 g : model_voxel bx1 4 2 1 1 mesh1 g <-> in_grid 4 2 2 g /\ g ∈ white1.
Proof.
  unfold model_voxel. rewrite dims1, voxels_of_spec.
  assert (E : elements (voxels_of bx1 4 mesh1) = white1) by (vm_compute; reflexivity). rewrite <- E, elem_of_elements. reflexivity.
Qed.

Lemma tile1 t k : In t [(0,0,0); (1,0,0)] ->
  (in_grid 2 2 2 k /\ model_voxel bx1 4 2 1 1 mesh1 (tile_voxel (2,2,2) t k) <-> k ∈ cube2).
Proof.
  intros Ht. rewrite model1, <- cube2_all. split; [tauto|]. intros Hk. split; [exact Hk|].
  assert (Hb : forallb (fun t => forallb (fun k => bool_decide (in_grid 4 2 2 (tile_voxel (2,2,2) t k)) && bool_decide (tile_voxel (2,2,2) t k ∈ white1)) cube2) [(0,0,0); (1,0,0)] = true)
    by (vm_compute; reflexivity).
  rewrite forallb_forall in Hb. specialize (Hb t Ht). rewrite forallb_forall in Hb. specialize (Hb k ltac:(apply elem_of_list_In, Hk)).
  apply andb_true_iff in Hb as [H1 H2]. apply bool_decide_eq_true_1 in H1. apply bool_decide_eq_true_1 in H2. auto.
Qed.

Local Opaque mesh1 bx1 ws1 white1.

Theorem C65_example : let td := tile_dims bx1 4 2 1 1 in let d := put_files (fun _ => None) ws1 in let ts := [(0,0,0); (1,0,0)] in
  good bx1 4 2 1 1 /\ List.NoDup (map taddr mesh1) /\
  (exists l, diceMesh qtext (fun _ => None) mesh1 bx1 (mbb_scale bx1) 4 2 1 1 (txt "p") = (ws1, Some l)) /\ listing d (map fst ws1) /\
  StronglySorted tile_lt ts /\ (forall t, In t ts <-> in_grid 2 1 1 t /\ d (out_file (txt "p") t) <> None) /\
  (exists k, in_grid (kx td) (ky td) (kz td) k /\ model_voxel bx1 4 2 1 1 mesh1 (tile_voxel td (0,0,0) k)) /\
  (forall t, In t [(1,0,0)] -> key_le (0,0,0) t) /\
  (forall i t S, ts !! i = Some t -> (forall k, k ∈ S <-> in_grid (kx td) (ky td) (kz td) k /\ model_voxel bx1 4 2 1 1 mesh1 (tile_voxel td t k)) ->
     iterates (e_white (es1 i)) S /\ iterates (e_color (es1 i)) ∅ /\ iterates (e_order (es1 i)) (displaced S (tile_offset td (0,0,0) t))).
Proof.
  cbv zeta. split; [unfold good, sane; vm_compute; repeat split; discriminate || reflexivity|].
  split; [apply NoDup_ListNoDup; apply (bool_decide_unpack _); vm_compute; exact I|]. split; [exact run1|].
  pose proof (listing_of_run ws1 nodup1) as Hl. split; [exact Hl|].
  split; [repeat constructor; unfold tile_lt; kproj; lia|]. split.
  { intros t. rewrite <- (proj2 Hl), names1, in_map_iff. split.
    - intros Ht. split; [|exists t; split; [reflexivity|exact Ht]]. destruct Ht as [<-|[<-|[]]]; unfold in_grid, in_region; kproj; lia.
    - intros (Hg & u & En & Hu). assert (Hug : in_grid 2 1 1 u) by (destruct Hu as [<-|[<-|[]]]; unfold in_grid, in_region; kproj; lia).
      apply (C42_names_distinct _ _ _ _ 2 1 1) in En as [_ <-]; assumption. }
  rewrite dims1. split; [exists (0,0,0); apply tile1; [left; reflexivity|]; apply cube2_all; unfold in_grid, in_region; kproj; lia|].
  split; [intros t [<-|[]]; unfold key_le; kproj; lia|].
  intros i t S Hi HS. kproj.
  assert (Ht : In t [(0,0,0); (1,0,0)]) by (apply elem_of_list_In; eapply elem_of_list_lookup_2; exact Hi).
  assert (HS' : forall k, k ∈ S <-> k ∈ cube2) by (intros k; rewrite HS; apply tile1, Ht).
  assert (Hc : e_white (es1 i) = cube2 /\ e_color (es1 i) = []) by (destruct i as [|i]; split; reflexivity).
  destruct Hc as (-> & ->). split; [split; [exact cube2_nodup|intros k; symmetry; apply HS']|].
  split; [split; [constructor|]; intros k; split; intros H; [inversion H|exfalso; exact (not_elem_of_empty _ H)]|].
  assert (Ho : e_order (es1 i) = map (fun k => move k (tile_offset (2,2,2) (0,0,0) t)) cube2).
  { destruct i as [|[|i]]; [..|discriminate Hi]; inversion Hi; subst t; [symmetry|]; [|reflexivity]. vm_compute. reflexivity. }
  rewrite Ho. split.
  - apply (NoDup_fmap_2_strong (fun k => move k (tile_offset (2,2,2) (0,0,0) t))); [|exact cube2_nodup].
    intros [[a b] c] [[a' b'] c'] _ _ E. unfold move in E. destruct (tile_offset (2,2,2) (0,0,0) t) as [[u v] w]. unfold add_key, kx, ky, kz in E. cbn [fst snd] in E.
    injection E as E1 E2 E3. f_equal; [f_equal|]; lia.
  - intros k. unfold displaced. rewrite elem_of_map. split.
    + intros H. apply elem_of_list_In, in_map_iff in H as (j & <- & Hj). exists j. split; [reflexivity|]. apply HS', elem_of_list_In, Hj.
    + intros (j & -> & Hj). apply elem_of_list_In, in_map_iff. exists j. split; [reflexivity|]. apply elem_of_list_In, HS', Hj.
Qed.
Print Assumptions C65_example.
