(** C82: two arguments, two tiles. *)
From Verif Require Import Base BaseLemmas BinvoxModel Geom VoxelizeModel MeshSpec FloatTextQ StldiceModel VoxcutModel CmdMergeModel CmdMergeProps CmdStlModel CmdStlClosed ToMesh ToMeshWind StldiceScriptModel StldiceScript
  BinvoxDiceModel BinvoxDiceProps StldiceProps MeshInside MeshNear CmdSvx BinvoxDiceScriptModel BinvoxDiceScript.
From Coq Require Import ZArith QArith List Bool String Init.Byte Lia Permutation.
From stdpp Require Import base list gmap sets fin_sets.
Import ListNotations.
Open Scope Z_scope.

Definition qarith : arith Q := Arith Q inject_Z Qplus Qminus Qmult Qdiv.
Definition binvox_text (data : list byte) : list byte :=
  txt "#binvox 1" ++ [x0a] ++ txt "dim 2 2 2" ++ [x0a] ++ txt "translate 0/1 0/1 0/1" ++ [x0a] ++ txt "scale 1/1" ++ [x0a] ++ txt "data" ++ [x0a] ++ data.
(** For the example, an "STL file" holds the number of voxels that are set in it, and binvox leaves out one more in the box that starts at 0. *)
Definition binvox4 (ws : list (list byte)) (stl : list byte) : option (list byte) :=
  Some (binvox_text (match stl with [x04] => if decide (nth 3 ws [] = txt "0/2") then [x01; x03; x00; x05] else [x01; x04; x00; x04] | _ => [x01; x01; x00; x07] end)).
Definition stl4 (s : list byte) : list byte := if decide (s = txt "a") then [x04] else [x01].
Definition d4 : dir := put_file (put_file (fun _ => None) (txt "a.stl", [x04])) (txt "b.stl", [x01]).


Lemma plain_fmtQ q : plain (fmtQ q).
Proof. apply plain_app; [apply plain_int|]. apply plain_app; [intros [C|[]]; discriminate C|]. apply digits_plain, show_nat_digits. lia. Qed.

Definition box4 (i : Z) := tile_box qarith fmtQ 2 true false false 0%Q 0%Q 0%Q 8%Q 4%Q 4%Q i 0 0.

(** The grid in which binvox put tile [i] of the base. *)
Definition grid4 (i : Z) : option (BinvoxModel.binvox Q) := read_file qtext (binvox4 (box4 i) (stl4 (txt "a"))) 0 0 0 0 0 0.
Definition remain4 : Z -> BinvoxModel.binvox Q -> key -> Prop := fun i => remain qarith fmtQ qtext binvox4 2 true false false 0%Q 0%Q 0%Q 8%Q 4%Q 4%Q [txt "b"] stl4 i 0 0.

Example C82_example : exists lines d2,
  dice_script qarith fmtQ 2 (txt """text""") true false false 0%Q 0%Q 0%Q 8%Q 4%Q 4%Q [txt "a.stl"; txt "b.stl"] = Some lines /\
  run_dice tt CmdStlClosed.ex_load ex_save (fun l m => m = unit_faces l) qtext 1 binvox4 d4 lines d2 /\
  (exists b m, grid4 0 = Some b /\ d2 (txt "out.stl") = Some (ex_save m) /\ surrounds b m (remain4 0 b) /\ remain4 0 b (0, 0, 1) /\ ~ remain4 0 b (0, 1, 1) /\ ~ remain4 0 b (0, 0, 0)) /\
  exists b m, grid4 1 = Some b /\ d2 (txt "out_1.stl") = Some (ex_save m) /\ surrounds b m (remain4 1 b) /\ remain4 1 b (0, 1, 1).
Proof.
  destruct (dice_script qarith fmtQ 2 (txt """text""") true false false 0%Q 0%Q 0%Q 8%Q 4%Q 4%Q [txt "a.stl"; txt "b.stl"]) as [lines|] eqn:Hl; [|vm_compute in Hl; discriminate].
  assert (Hlib : forall l m, List.NoDup l -> m = unit_faces l -> surface_of l m) by (intros l m Hnd ->; apply C71_unit_faces, Hnd).
  assert (Hs : Forall simple [txt "a"; txt "b"]) by (repeat constructor; cbn; discriminate).
  assert (Hsep : separate [txt "a"; txt "b"]).
  { split; [apply NoDup_ListNoDup; apply (bool_decide_unpack _); vm_compute; exact I|]. split.
    - intros s s' n Hin Hin' _ E. apply (f_equal length) in E. rewrite !app_length in E. destruct Hin as [<-|[<-|[]]], Hin' as [<-|[<-|[]]]; cbn in E; lia.
    - intros c _ Hin. assert (E : length (numbered_name (txt "out") c) = 1%nat) by (destruct Hin as [<-|[<-|[]]]; reflexivity).
      unfold numbered_name in E. destruct (c =? 0); [discriminate|]. rewrite app_length in E. cbn in E. lia. }
  assert (Hstl : forall s, In s [txt "a"; txt "b"] -> d4 (arg_file s) = Some (stl4 s)) by (intros s [<-|[<-|[]]]; vm_compute; reflexivity).
  assert (Hfree : forall s c, In s [txt "a"; txt "b"] -> 0 <= c -> d4 (vox_file s c) = None).
  { intros s c _ _. unfold d4. rewrite !put_file_other; [reflexivity|apply (vox_not_stl s c (txt "a"))|apply (vox_not_stl s c (txt "b"))]. }
  assert (Hok : forall s i j k, In s [txt "a"; txt "b"] -> tile_in 2 true false false i j k -> binvox4 (tile_box qarith fmtQ 2 true false false 0%Q 0%Q 0%Q 8%Q 4%Q 4%Q i j k) (stl4 s) <> None) by discriminate.
  destruct (C82_ends qarith fmtQ plain_fmtQ tt CmdStlClosed.ex_load ex_save (fun l m => m = unit_faces l) qtext 1 binvox4 2 (txt """text""") true false false 0%Q 0%Q 0%Q 8%Q 4%Q 4%Q (txt "a") [txt "b"] stl4 d4 lines)
    as (d2 & Hr); [eauto|lia|assumption..|].
  pose proof (C82_surface qarith fmtQ plain_fmtQ tt CmdStlClosed.ex_load ex_save (fun l m => m = unit_faces l) qtext 1 binvox4 2 (txt """text""") true false false 0%Q 0%Q 0%Q 8%Q 4%Q 4%Q (txt "a") [txt "b"] stl4 d4 lines d2
    Hlib ltac:(lia) Hs Hsep Hstl Hfree Hok Hl Hr) as H.
  assert (Hgrid : forall i, i = 0 \/ i = 1 -> exists b, grid4 i = Some b /\ (0 < vpmm b)%Q).
  { intros i [-> | ->]; (destruct (grid4 _) as [b|] eqn:E; [exists b; split; [reflexivity|]|exfalso; vm_compute in E; discriminate]).
    - assert (T : match grid4 0 with Some b => qlt 0 (vpmm b) | None => false end = true) by (vm_compute; reflexivity). rewrite E in T. apply qlt_iff, T.
    - assert (T : match grid4 1 with Some b => qlt 0 (vpmm b) | None => false end = true) by (vm_compute; reflexivity). rewrite E in T. apply qlt_iff, T. }
  set (has := fun (f : option (BinvoxModel.binvox Q)) v => match f with Some b => bool_decide (v ∈ elements (white b)) | None => false end).
  assert (Hhas : forall b v, has (Some b) v = true <-> v ∈ white b) by (intros b v; unfold has; rewrite bool_decide_eq_true; apply elem_of_elements).
  set (cut4 := fun i => read_file qtext (binvox4 (box4 i) (stl4 (txt "b"))) 0 0 0 0 0 0).
  assert (Hrem : forall i b v, grid4 i = Some b -> (remain4 i b v <-> has (grid4 i) v = true /\ has (cut4 i) v = false)).
  { intros i b v Hb. unfold remain4, remain. rewrite Hb, Hhas. split; intros [H1 H2]; (split; [exact H1|]).
    - destruct (has (cut4 i) v) eqn:E; [|reflexivity]. exfalso. destruct (cut4 i) as [c|] eqn:Ec; [|discriminate E]. apply Hhas in E. exact (H2 (txt "b") c (or_introl eq_refl) Ec E).
    - intros s c [<-|[]] Ec C. apply Hhas in C. unfold cut4, box4 in H2. rewrite Ec in H2. congruence. }
  destruct (Hgrid 0 (or_introl eq_refl)) as (b0 & Hb0 & Hv0). destruct (Hgrid 1 (or_intror eq_refl)) as (b1 & Hb1 & Hv1).
  assert (H0 : remain4 0 b0 (0, 0, 1)) by (apply (Hrem _ _ _ Hb0); split; vm_compute; reflexivity).
  assert (H1 : remain4 1 b1 (0, 1, 1)) by (apply (Hrem _ _ _ Hb1); split; vm_compute; reflexivity).
  assert (H0' : ~ remain4 0 b0 (0, 1, 1)) by (rewrite (Hrem _ _ _ Hb0); intros [C _]; vm_compute in C; discriminate).
  assert (H0'' : ~ remain4 0 b0 (0, 0, 0)) by (rewrite (Hrem _ _ _ Hb0); intros [_ C]; vm_compute in C; discriminate).
  destruct (H 0 0 0 b0) as [(m0 & Hm0 & Hs0) _]; [unfold tile_in, parts; lia|exact Hb0|exact Hv0|exists (0, 0, 1); exact H0|].
  destruct (H 1 0 0 b1) as [(m1 & Hm1 & Hs1) _]; [unfold tile_in, parts; lia|exact Hb1|exact Hv1|exists (0, 1, 1); exact H1|].
  exists lines, d2. split; [reflexivity|]. split; [exact Hr|]. split.
  - exists b0, m0. auto 6.
  - exists b1, m1. auto.
Qed.

(** a.stl and a_1.stl: both tiles of a exist, but voxcut takes another file for the second one.  And an older a.binvox. *)
Definition d5 : dir := put_file (put_file (fun _ => None) (txt "a.stl", [x04])) (txt "a_1.stl", [x01]).
Definition stl5 (s : list byte) : list byte := if decide (s = txt "a") then [x04] else [x01].
Definition old5 : list byte := binvox_text [x01; x08].
Definition d6 : dir := put_file d5 (txt "a.binvox", old5).

Lemma d5_finite : finite d5.
Proof. unfold d5. do 2 apply finite_put. exists []. intros n C. contradiction. Qed.

Example C82_collision_example : exists lines d2 wrong right cut_files,
  dice_script qarith fmtQ 2 (txt """text""") true false false 0%Q 0%Q 0%Q 8%Q 4%Q 4%Q (map arg_file [txt "a"; txt "a_1"]) = Some lines /\
  run_dice tt CmdStlClosed.ex_load ex_save (fun l m => m = unit_faces l) qtext 1 binvox4 d5 lines d2 /\
  binvox4 (box4 1) (stl5 (txt "a")) = Some right /\ binvox4 (box4 0) (stl5 (txt "a_1")) = Some wrong /\ wrong <> right /\
  match voxcut_main qtext 0 0 0 0 0 0 (Some wrong) cut_files with
  | Some b => exists m, is_mesh (fun l m => m = unit_faces l) b m /\ d2 (txt "out_1.stl") = Some (ex_save m)
  | None => d2 (txt "out_1.stl") = None
  end.
Proof.
  destruct (dice_script qarith fmtQ 2 (txt """text""") true false false 0%Q 0%Q 0%Q 8%Q 4%Q 4%Q (map arg_file [txt "a"; txt "a_1"])) as [lines|] eqn:Hl; [|vm_compute in Hl; discriminate].
  assert (Hs : Forall simple [txt "a"; txt "a_1"]) by (repeat constructor; cbn; discriminate).
  destruct (C82_always_ends qarith fmtQ plain_fmtQ tt CmdStlClosed.ex_load ex_save (fun l m => m = unit_faces l) qtext 1 binvox4 2 (txt """text""") true false false 0%Q 0%Q 0%Q 8%Q 4%Q 4%Q (txt "a") [txt "a_1"] d5 lines)
    as (d2 & Hr); [eauto|lia|exact Hs|exact d5_finite|exact Hl|].
  destruct (binvox4 (box4 0) (stl5 (txt "a_1"))) as [wrong|] eqn:Hw; [|discriminate]. destruct (binvox4 (box4 1) (stl5 (txt "a"))) as [right|] eqn:Hri; [|discriminate].
  destruct (C82_collision qarith fmtQ plain_fmtQ tt CmdStlClosed.ex_load ex_save (fun l m => m = unit_faces l) qtext 1 binvox4 2 (txt """text""") true false false 0%Q 0%Q 0%Q 8%Q 4%Q 4%Q (txt "a") [txt "a_1"] stl5 d5 lines d2 wrong)
    as (cf & H); [lia|exact Hs|reflexivity|unfold parts; lia| | |discriminate|exact Hw|exact Hl|exact Hr|].
  - intros s [<-|[<-|[]]]; vm_compute; reflexivity.
  - intros s c _ _. unfold d5. rewrite !put_file_other; [reflexivity|apply (vox_not_stl s c (txt "a"))|apply (vox_not_stl s c (txt "a_1"))].
  - exists lines, d2, wrong, right, cf. split; [reflexivity|]. split; [exact Hr|]. split; [reflexivity|]. split; [reflexivity|]. split; [|exact H].
    intros ->. rewrite <- Hri in Hw. vm_compute in Hw. discriminate.
Qed.

Example C82_stale_example : exists lines d2 cut_files,
  dice_script qarith fmtQ 2 (txt """text""") true false false 0%Q 0%Q 0%Q 8%Q 4%Q 4%Q (map arg_file [txt "a"; txt "a_1"]) = Some lines /\
  run_dice tt CmdStlClosed.ex_load ex_save (fun l m => m = unit_faces l) qtext 1 binvox4 d6 lines d2 /\
  binvox4 (box4 0) (stl5 (txt "a")) <> Some old5 /\
  match voxcut_main qtext 0 0 0 0 0 0 (Some old5) cut_files with
  | Some b => exists m, is_mesh (fun l m => m = unit_faces l) b m /\ d2 (txt "out.stl") = Some (ex_save m)
  | None => d2 (txt "out.stl") = None
  end.
Proof.
  destruct (dice_script qarith fmtQ 2 (txt """text""") true false false 0%Q 0%Q 0%Q 8%Q 4%Q 4%Q (map arg_file [txt "a"; txt "a_1"])) as [lines|] eqn:Hl; [|vm_compute in Hl; discriminate].
  assert (Hs : Forall simple [txt "a"; txt "a_1"]) by (repeat constructor; cbn; discriminate).
  destruct (C82_always_ends qarith fmtQ plain_fmtQ tt CmdStlClosed.ex_load ex_save (fun l m => m = unit_faces l) qtext 1 binvox4 2 (txt """text""") true false false 0%Q 0%Q 0%Q 8%Q 4%Q 4%Q (txt "a") [txt "a_1"] d6 lines)
    as (d2 & Hr); [eauto|lia|exact Hs|apply finite_put, d5_finite|exact Hl|].
  destruct (C82_stale qarith fmtQ plain_fmtQ tt CmdStlClosed.ex_load ex_save (fun l m => m = unit_faces l) qtext 1 binvox4 2 (txt """text""") true false false 0%Q 0%Q 0%Q 8%Q 4%Q 4%Q (txt "a") [txt "a_1"] d6 old5 lines d2)
    as (cf & H); [lia|exact Hs|vm_compute; reflexivity|exact Hl|exact Hr|].
  exists lines, d2, cf. split; [reflexivity|]. split; [exact Hr|]. split; [|exact H]. intros C. vm_compute in C. discriminate.
Qed.
