(** C76: manifold-mesh. *)
From Verif Require Import Base BaseLemmas BinvoxSpec BinvoxModel Geom VoxelizeModel VoxelizeSpec FloatTextQ StldiceModel CmdMergeModel
  MeshSpec MeshCells MarchModel MarchProps ManifoldModel ManifoldProofs ManifoldProps MeshInside ManifoldExact MeshWatertight MeshSolid CmdStlModel.
From Coq Require Import ZArith QArith List Bool String Init.Byte Lia Permutation.
From stdpp Require Import base list gmap sets.
Import ListNotations.
Open Scope Z_scope.

Theorem C76_manifold_mesh save ft mesher d infile outfile :
  (forall b, exists m, mesher b = Some m /\ manifold_run b m) ->
  let '(d', e) := mesh_cmd save ft mesher d infile outfile in
  (forall n, n <> outfile -> d' n = d n) /\
  match e with
  | Finished => exists bytes b m, d infile = Some bytes /\ read ft bytes 0 0 0 0 0 0 = inr b /\ manifold_run b m /\ d' outfile = Some (save m) /\
      ((0 < vpmm b)%Q -> (watertight m <-> closing_patterns b) /\
        (watertight m -> encloses b m (filled b)))
  | Fatal => d' = d /\ (d infile = None \/ exists bytes er, d infile = Some bytes /\ read ft bytes 0 0 0 0 0 0 = inl er)
  | Crashed => False
  end.
Proof.
  intros Hmesher. unfold mesh_cmd. destruct (d infile) as [bytes|] eqn:Ed; [|split; [reflexivity|]; auto].
  destruct (read ft bytes 0 0 0 0 0 0) as [er|b] eqn:Er; [split; [reflexivity|]; split; [reflexivity|]; right; eauto|].
  destruct (Hmesher b) as (m & -> & Hr). split; [intros n Hn; unfold put_file; cbn [fst]; apply decide_False, Hn|].
  exists bytes, b, m. split; [reflexivity|]. split; [exact Er|]. split; [exact Hr|]. split; [unfold put_file; cbn [fst snd]; apply decide_True; reflexivity|].
  intros Hv. split; [exact (C36_exact b m Hv Hr)|]. intros Hw. exact (encloses_manifold b m Hv Hr Hw).
Qed.
Print Assumptions C76_manifold_mesh.

(** A mesher, and the staircase of C36_stair written to a file and meshed by the command: watertight although it
    has leaky blocks. *)
Definition plain_mesher (b : binvox Q) : option (list face) :=
  Some (ManifoldMesh b (map_to_list (manifold_cells (elements (white b)) (elements (dom (colors b)))))).

Lemma plain_mesher_ok b : exists m, plain_mesher b = Some m /\ manifold_run b m.
Proof. eexists. split; [reflexivity|]. eexists _, _, _. split; [reflexivity|]. split; [reflexivity|]. split; reflexivity. Qed.

Example C76_stair : let d := put_file (fun _ => None) (txt "a.binvox", write_file qtext stair 0 0 0 0 0 0) in
  exists m, mesh_cmd (fun _ => []) qtext plain_mesher d (txt "a.binvox") (txt "a.stl") = (put_file d (txt "a.stl", []), Finished) /\
  plain_mesher stair = Some m /\ watertight m.
Proof.
  intros d. destruct (plain_mesher_ok stair) as (m & Em & Hr). exists m. split; [|split; [exact Em|apply C36_stair, Hr]].
  assert (Hread : read qtext (write_file qtext stair 0 0 0 0 0 0) 0 0 0 0 0 0 = inr stair).
  { assert (H : match read qtext (write_file qtext stair 0 0 0 0 0 0) 0 0 0 0 0 0 with inl _ => None
       | inr b => Some (NX b, NY b, NZ b, TX b, TY b, TZ b, Scale b, elements <$> White b, (fun c => elements (dom c)) <$> Colors b) end =
       Some (3, 2, 2, 0%Q, 0%Q, 0%Q, 1%Q, Some (elements (white stair)), None)) by (vm_compute; reflexivity).
    destruct (read qtext (write_file qtext stair 0 0 0 0 0 0) 0 0 0 0 0 0) as [|[nx ny nz tx ty tz sc wv co]]; [discriminate H|].
    cbn [NX NY NZ TX TY TZ Scale White Colors] in H. destruct wv as [wv|]; [|discriminate H]. destruct co as [co|]; [discriminate H|].
    cbn [fmap option_fmap option_map] in H. inversion H as [[E1 E2 E3 E4 E5 E6 E7 E8]]. subst. f_equal. unfold stair. f_equal. f_equal.
    rewrite <- (list_to_set_elements_L wv), E8. apply (list_to_set_elements_L (white stair)). }
  unfold mesh_cmd. replace (d (txt "a.binvox")) with (Some (write_file qtext stair 0 0 0 0 0 0)) by (unfold d, put_file; cbn [fst snd]; rewrite decide_True by reflexivity; reflexivity).
  rewrite Hread, Em. reflexivity.
Qed.
