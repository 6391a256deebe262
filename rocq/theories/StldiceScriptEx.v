(** C79: two boxes diced 2 x 2 with the second of them as cut; the script leaves the first. *)
From Verif Require Import Base BaseLemmas BinvoxSpec BinvoxModel Geom VoxelizeModel VoxelizeSpec VoxelizeProps FloatTextQ StldiceModel StldiceProps VoxcutModel
  CmdMergeModel CmdMergeProps CmdDice CmdDiceEx MeshSpec MeshCells CmdStlModel CmdStlClosed ToMesh StldiceScriptModel ToMeshWind StldiceScript.
From Coq Require Import ZArith QArith List Bool String Init.Byte Lia Permutation.
From stdpp Require Import base list gmap sets fin_sets sorting.
Import ListNotations.
Open Scope Z_scope.

Definition cut2 : list tri := Eval vm_compute in numbered (box_mesh (5#2) 0 0 4 (3#2) 2).
Definition res2 := Eval vm_compute in stldice_main qtext (fun _ => None) None 4 2 2 1 [(txt "a", Some mesh2); (txt "b", Some cut2)].
Definition suffixes2 := Eval vm_compute in match snd res2 with Some l => l | None => [] end.
Definition cut_white2 : list key := Eval vm_compute in elements (voxels_of bx2 4 cut2).

Lemma cut_model2 g : model_voxel bx2 4 2 2 1 cut2 g <-> in_grid 4 4 2 g /\ g ∈ cut_white2.
Proof.
  unfold model_voxel. rewrite dims2, voxels_of_spec.
  assert (E : elements (voxels_of bx2 4 cut2) = cut_white2) by (vm_compute; reflexivity). rewrite <- E, elem_of_elements. reflexivity.
Qed.

Lemma left2 g : left_over bx2 4 2 2 1 mesh2 [cut2] g <-> in_grid 4 4 2 g /\ g ∈ white2 /\ g ∉ cut_white2.
Proof.
  unfold left_over. rewrite model2. split.
  - intros [[Hg Hw] Hc]. split; [exact Hg|]. split; [exact Hw|]. intros C. apply (Hc cut2 (or_introl eq_refl)). apply cut_model2. auto.
  - intros (Hg & Hw & Hc). split; [auto|]. intros cut [<-|[]] C. apply cut_model2 in C as [_ C]. contradiction.
Qed.

Example C79_example : exists ws suffixes d2 bytes m,
  stldice_main qtext (fun _ => None) None 4 2 2 1 [(txt "a", Some mesh2); (txt "b", Some cut2)] = (ws, Some suffixes) /\
  run_script tt ex_load ex_save (fun l m => m = unit_faces l) qtext 1 (put_files (fun _ => None) ws) (script [txt "a"; txt "b"] 4 2 2 1 suffixes) d2 /\
  d2 (txt "out-4-2-2-1.stl") = Some bytes /\ ex_load bytes = inr m /\
  surrounds (whole bx2 4) m (left_over bx2 4 2 2 1 mesh2 [cut2]) /\
  left_over bx2 4 2 2 1 mesh2 [cut2] (0, 2, 0) /\ model_voxel bx2 4 2 2 1 mesh2 (2, 0, 0) /\ ~ left_over bx2 4 2 2 1 mesh2 [cut2] (2, 0, 0).
Proof.
  assert (Hrun : stldice_main qtext (fun _ => None) None 4 2 2 1 [(txt "a", Some mesh2); (txt "b", Some cut2)] = (fst res2, Some suffixes2)) by (vm_compute; reflexivity).
  assert (Hfmt : forall m, ex_load (ex_save m) = inr m).
  { intros m. rewrite (proj2 ex_format). f_equal. unfold moved. rewrite <- (map_id m) at 2. apply map_ext. intros [[? ?] ?]. reflexivity. }
  assert (Hlib : forall l m, List.NoDup l -> m = unit_faces l -> surface_of l m) by (intros l m Hnd ->; apply C71_unit_faces, Hnd).
  assert (Hgood : good bx2 4 2 2 1) by (unfold good, sane; vm_compute; repeat split; discriminate || reflexivity).
  assert (Hdv : divides 4 2 2 1) by (repeat split; reflexivity).
  assert (Hnd : List.NoDup [txt "a"; txt "b"]) by (apply NoDup_ListNoDup; apply (bool_decide_unpack _); vm_compute; exact I).
  assert (Hp : Forall proper [txt "a"; txt "b"]) by (repeat constructor; cbn; discriminate).
  assert (Haddr : forall name mesh, In (name, mesh) [(txt "a", mesh2); (txt "b", cut2)] -> List.NoDup (map taddr mesh)).
  { intros name mesh [E|[E|[]]]; injection E as _ <-; apply NoDup_ListNoDup; apply (bool_decide_unpack _); vm_compute; exact I. }
  assert (Hl : listing (fun _ => None) []) by (split; [constructor|]; intros n; split; [intros []|intros C; contradiction]).
  destruct (C79_ends tt ex_load ex_save (fun l m => m = unit_faces l) qtext 1 (fun _ => None) [] None bx2 4 2 2 1 (txt "a") mesh2 [(txt "b", cut2)] (fst res2) suffixes2) as (d2 & Hscr);
    [eauto|lia|exact Hl|reflexivity|exact Hgood|exact Hdv|exact Hnd|exact Hp|exact Haddr|reflexivity|exact Hrun|].
  assert (Hleft : left_over bx2 4 2 2 1 mesh2 [cut2] (0, 2, 0)).
  { apply left2. split; [unfold in_grid, in_region; kproj; lia|]. split; apply (bool_decide_unpack _); vm_compute; exact I. }
  destruct (C79_script tt ex_load ex_save Hfmt _ Hlib qtext 1 (fun _ => None) None bx2 4 2 2 1 (txt "a") mesh2 [(txt "b", cut2)] (fst res2) suffixes2 d2)
    as (n & bytes & m & Hd2 & Hlo & Hsur & Hn & _);
    [reflexivity|exact Hgood|exact Hdv|exact Hnd|exact Hp|exact Haddr|intros n C; destruct (C eq_refl)|reflexivity|reflexivity|exact Hrun|exact Hscr|exists (0, 2, 0); exact Hleft|].
  exists (fst res2), suffixes2, d2, bytes, m. split; [exact Hrun|]. split; [exact Hscr|]. split.
  { rewrite <- Hd2. f_equal. symmetry. apply Hn. destruct suffixes2 as [|v [|v' l]] eqn:E; [discriminate E..|]. exists v, v'. split; [left; reflexivity|]. split; [right; left; reflexivity|].
    injection E as <- <- <-. discriminate. }
  split; [exact Hlo|]. split; [exact Hsur|]. split; [exact Hleft|]. split.
  - apply model2. split; [unfold in_grid, in_region; kproj; lia|]. apply (bool_decide_unpack _). vm_compute. exact I.
  - rewrite left2. intros (_ & _ & C). apply C. apply (bool_decide_unpack _). vm_compute. exact I.
Qed.
