(** C83: the runs exist; two tiles with a voxel in common. *)
From Verif Require Import Base BaseLemmas BinvoxSpec BinvoxModel Geom VoxelizeModel MeshSpec MeshCells MeshInside MeshNear ManifoldModel FloatTextQ VoxcutModel VoxcutProps VoxcutDiceProps StldiceModel StldiceProps
  CmdMergeModel CmdMergeProps CmdStlModel CmdStlProps CmdStlClosed ToMesh ToMeshWind StldiceScriptModel StldiceScript VoxcutDirModel VoxcutDir VoxcutDirMerge.
From Verif Require GlobModel GlobProps.
From Coq Require Import ZArith QArith List Bool String Init.Byte Lia Permutation.
From stdpp Require Import base list gmap sets fin_sets.
Import ListNotations.
Open Scope Z_scope.

Section Ends.
  Context (save : list face -> list byte) (NewVoxelMesh : list key -> list face -> Prop) (Hex : forall l, exists m, NewVoxelMesh l m) (ft : FloatText Q) (manifold : bool).

  Lemma prog_ends d args fl names : parse_voxcut no_flags args = Some (fl, names) -> exists d' e, voxcut_prog save NewVoxelMesh ft manifold d args d' e.
  Proof using Hex.
    intros E. destruct names as [|base cuts]; [exists d, Fatal; eapply vp_usage; [exact E|left; reflexivity]|].
    assert (D : (f_ob fl = [] /\ f_os fl = [] /\ f_ov fl = []) \/ ~ (f_ob fl = [] /\ f_os fl = [] /\ f_ov fl = [])).
    { destruct (decide (f_ob fl = [])), (decide (f_os fl = [])), (decide (f_ov fl = [])); tauto. }
    destruct D as [D|D]; [exists d, Fatal; eapply vp_usage; [exact E|right; exact D]|].
    destruct (voxcut_main ft (f_sx fl) (f_sy fl) (f_sz fl) (f_cx fl) (f_cy fl) (f_cz fl) (d base) (map d cuts)) as [b|] eqn:Em; [|exists d, Fatal; eapply vp_fatal; eassumption].
    assert (Hvox : exists d2, put_vox fl b (put_binvox ft fl b d) d2).
    { unfold put_vox. case_decide; [eexists; reflexivity|]. eexists _, (elements (white b)), (elements (white b)). repeat split; reflexivity. }
    destruct Hvox as (d2 & Hd2).
    assert (Hm : exists m, voxcut_mesh NewVoxelMesh manifold b m).
    { unfold voxcut_mesh. destruct manifold.
      - eexists _, _, _, _. repeat split; reflexivity.
      - destruct (Hex (elements (white b) ++ elements (dom (colors b)))) as (m & Hm). exists (ToMesh (fun _ => m) b (elements (white b)) (elements (dom (colors b)))), (fun _ => m), (elements (white b)), (elements (dom (colors b))). repeat split; [reflexivity|reflexivity|exact Hm]. }
    destruct Hm as (m & Hm).
    assert (Hstl : exists d3, put_stl save NewVoxelMesh manifold fl b d2 d3).
    { unfold put_stl. case_decide; [eexists; reflexivity|]. eexists. exists m. split; [exact Hm|reflexivity]. }
    destruct Hstl as (d3 & Hd3). exists d3, Finished. eapply vp_done; eassumption.
  Qed.

  (** A run of voxcut ends, well or with a fatal error; so does voxcut-dice, and so does the printed script. *)
  Theorem C83_ends nx ny nz size pv pb ps names ts d : named names -> 0 <= size <= max_int -> nx <= max_int -> ny <= max_int -> nz <= max_int ->
    (forall t, In t ts -> in_grid nx ny nz t) ->
    (exists d' e, dice_tiles_run save NewVoxelMesh ft manifold size pv pb ps names d ts d' e /\ e <> Crashed) /\
    (Forall proper names -> forallb ordinary pv = true -> forallb ordinary pb = true -> forallb ordinary ps = true -> exists d', run_dry save NewVoxelMesh ft manifold d (dice_dry size pv pb ps names ts) d').
  Proof using Hex.
    intros Hn Hs Hx Hy Hz Hts. unfold in_grid, in_region in Hts.
    assert (Hp : forall d t, In t ts -> exists d' e, voxcut_prog save NewVoxelMesh ft manifold d (dice_args size pv pb ps names t) d' e).
    { intros d' t Ht. apply Hts in Ht. eapply prog_ends. apply parse_args; [exact Hn|lia..]. }
    split.
    - revert d. induction ts as [|t ts IH]; intros d; [exists d, Finished; split; [constructor|discriminate]|].
      destruct (Hp d t (or_introl eq_refl)) as (d1 & e & H1). destruct e.
      + destruct (IH (fun t' Ht' => Hts t' (or_intror Ht')) (fun d t' Ht' => Hp d t' (or_intror Ht')) d1) as (d' & e & H2 & He). exists d', e. split; [|exact He]. eapply dt_next; eassumption.
      + exists d1, Fatal. split; [apply dt_fatal, H1|discriminate].
      + exfalso. inversion H1.
    - intros Hpn Hpv Hpb Hps. unfold dice_dry. revert d. induction ts as [|t ts IH]; intros d.
      + exists d. apply dry_comment, dry_done.
      + destruct (Hp d t (or_introl eq_refl)) as (d1 & e & H1). destruct (IH (fun t' Ht' => Hts t' (or_intror Ht')) (fun d t' Ht' => Hp d t' (or_intror Ht')) d1) as (d' & H2).
        pose proof (proper_plains _ Hpn) as Gn. pose proof (ord_plain _ Hpv) as Gv. pose proof (ord_plain _ Hpb) as Gb. pose proof (ord_plain _ Hps) as Gs.
        exists d'. apply dry_comment. cbn [map]. eapply dry_voxcut; [|exact H1|inversion H2; subst; [eassumption|]].
        * apply dice_words; [pose proof (Hts t (or_introl eq_refl)); lia|lia|assumption..].
        * match goal with W : words _ = _ |- _ => vm_compute in W; discriminate W end.
  Qed.
End Ends.
Print Assumptions C83_ends.

(** Three voxels in a row cut into tiles of two; nothing remains of the voxel at 1. *)
Definition row3 : binvox Q := BinVOX 3 1 1 0%Q 0%Q 0%Q 3%Q (Some (list_to_set [(0,0,0); (1,0,0); (2,0,0)])) None.
Definition cut3 : binvox Q := BinVOX 3 1 1 0%Q 0%Q 0%Q 3%Q (Some (list_to_set [(1,0,0)])) None.
Definition d83 : dir := put_file (put_file (fun _ => None) (txt "b.binvox", write_file qtext row3 0 0 0 0 0 0)) (txt "c.binvox", write_file qtext cut3 0 0 0 0 0 0).

Example C83_example : exists ts d1 names d2 m,
  dice_corners qtext 3 2 [] [] (txt "t") (d83 (txt "b.binvox")) = Some ts /\ ts = [(0,0,0); (2,0,0)] /\
  run_dry ex_save (fun l m => m = unit_faces l) qtext false d83 (dice_dry 2 [] [] (txt "t") [txt "b.binvox"; txt "c.binvox"] ts) d1 /\
  listing d1 names /\ GlobModel.merge_stl_any tt CmdStlClosed.ex_load ex_save true 1 (txt "t") d1 names d2 Finished /\
  d2 (txt "t.stl") = Some (ex_save m) /\
  winds row3 m (fun w n => (w = (0,0,0) -> n = 1) /\ (w = (1,0,0) -> n = 0) /\ (w = (2,0,0) -> n = 2)).
Proof.
  assert (Hlib : forall l m, List.NoDup l -> m = unit_faces l -> surface_of l m) by (intros l m Hnd ->; apply C71_unit_faces, Hnd).
  assert (Hwf : well_formed row3) by (apply ex_wf; [reflexivity|unfold max_int; lia..]).
  assert (Hwc : well_formed cut3) by (apply ex_wf; [reflexivity|unfold max_int; lia..]).
  assert (Hin : forall l k, k ∈ white (BinVOX 3 1 1 0%Q 0%Q 0%Q 3%Q (Some (list_to_set l)) None) <-> In k l).
  { intros l k. unfold white. cbn [White default]. etransitivity; [apply elem_of_list_to_set|apply elem_of_list_In]. }
  assert (Hne : white row3 <> ∅) by (intros E; assert (C : (0,0,0) ∈ white row3) by (apply Hin; left; reflexivity); rewrite E in C; set_solver).
  assert (Hb : d83 (txt "b.binvox") = file_of qtext (Some row3)) by reflexivity.
  assert (Hc : map d83 [txt "c.binvox"] = map (file_of qtext) [Some cut3]) by reflexivity.
  set (ts := [(0,0,0); (2,0,0)]). set (S := tile_name (txt "t") (txt ".stl") 2).
  assert (Hts : List.NoDup ts /\ forall t, In t ts <-> tile_corner (NX row3) (NY row3) (NZ row3) 2 t).
  { pose proof (C83_corners qtext 3 2 [] [] (txt "t") row3 Hwf Hne ltac:(lia) ltac:(cbn; lia) ltac:(cbn; lia) ltac:(cbn; lia)) as H.
    assert (E : dice_corners qtext 3 2 [] [] (txt "t") (file_of qtext (Some row3)) = Some ts) by (vm_compute; reflexivity). rewrite E in H. apply H. }
  assert (Hpl : forall s, forallb ordinary s = true -> forallb ordinary s = true) by auto.
  assert (Hpn : Forall proper [txt "b.binvox"; txt "c.binvox"]) by (repeat constructor; cbn; discriminate).
  assert (Hsafe : inputs_safe (NX row3) (NY row3) (NZ row3) 2 [] [] (txt "t") [txt "b.binvox"; txt "c.binvox"]).
  { intros t n _ [<-|[<-|[]]]; (split; [intros C; contradiction C; reflexivity|split; [intros _; unfold tile_name; discriminate|intros C; contradiction C; reflexivity]]). }
  assert (Hcuts : Forall (fun c => match c with Some c => well_formed c | None => True end) [Some cut3]) by (constructor; [exact Hwc|constructor]).
  assert (Hv : (0 < vpmm row3)%Q) by reflexivity.
  destruct (C83_ends ex_save (fun l m => m = unit_faces l) ltac:(eauto) qtext false 3 1 1 2 [] [] (txt "t") [txt "b.binvox"; txt "c.binvox"] ts d83) as [_ Hrun];
    [discriminate|split; discriminate|discriminate..|intros t Ht; apply Hts in Ht; apply Ht|].
  destruct (Hrun Hpn (Hpl [] eq_refl) (Hpl [] eq_refl) (Hpl (txt "t") eq_refl)) as (d1 & Hd1). clear Hrun.
  destruct (C83_dry ex_save (fun l m => m = unit_faces l) Hlib qtext false row3 [Some cut3] (txt "b.binvox") [txt "c.binvox"] 2 [] [] (txt "t") Hwf Hne Hv Hcuts ltac:(discriminate) ltac:(unfold max_int; lia) ltac:(intros (_ & _ & C); discriminate C) Hsafe
    ts d83 d1 Hb Hc (proj1 Hts) (fun t Ht => proj1 (proj2 Hts t) Ht) Hpn (Hpl [] eq_refl) (Hpl [] eq_refl) (Hpl (txt "t") eq_refl) Hd1) as [Hother _].
  assert (Hfmt : forall m, CmdStlClosed.ex_load (ex_save m) = inr m).
  { intros m. destruct ex_format as [_ H]. rewrite H. f_equal. unfold moved. rewrite <- (map_id m) at 2. apply map_ext. intros [[? ?] ?]. reflexivity. }
  set (names := List.filter (fun n => match d1 n with Some _ => true | None => false end) [txt "b.binvox"; txt "c.binvox"; S (0,0,0); S (2,0,0)]).
  assert (Hl : listing d1 names).
  { split.
    - apply List.NoDup_filter, NoDup_ListNoDup. apply (bool_decide_unpack _). vm_compute. exact I.
    - intros n. unfold names. rewrite filter_In. split; [intros [_ C] E; rewrite E in C; discriminate|]. intros Hn. split; [|destruct (d1 n); [reflexivity|contradiction]].
      destruct (decide (n = S (0,0,0))) as [->|N0]; [right; right; left; reflexivity|]. destruct (decide (n = S (2,0,0))) as [->|N2]; [right; right; right; left; reflexivity|].
      destruct (decide (n = txt "b.binvox")) as [->|Nb]; [left; reflexivity|]. destruct (decide (n = txt "c.binvox")) as [->|Nc]; [right; left; reflexivity|]. exfalso. apply Hn.
      rewrite Hother; [unfold d83; rewrite !put_file_other by assumption; reflexivity|]. intros t Ht. split; [intros C; contradiction C; reflexivity|]. split; [|intros C; contradiction C; reflexivity].
      intros _. destruct Ht as [<-|[<-|[]]]; assumption. }
  destruct (C67_ends tt CmdStlClosed.ex_load ex_save true 1 (txt "t") d1 names (le_n _)) as (d2 & e & Hm).
  assert (Hdir : GlobProps.in_directory names).
  { intros n Hn C. unfold names in Hn. apply filter_In in Hn as [Hn _]. assert (G : forallb (fun n => forallb (fun c => negb (Byte.eqb c x2f)) n) [txt "b.binvox"; txt "c.binvox"; S (0,0,0); S (2,0,0)] = true) by (vm_compute; reflexivity).
    rewrite forallb_forall in G. apply G in Hn. rewrite forallb_forall in Hn. apply Hn in C. vm_compute in C. discriminate. }
  assert (Hpo : GlobProps.plain (txt "t")) by (intros c [<-|[]]; repeat split; discriminate).
  apply (GlobProps.C86_stl_plain tt CmdStlClosed.ex_load ex_save true 1 (txt "t") d1 names d2 e Hpo Hdir) in Hm.
  assert (Hrem : forall k, remains row3 [Some cut3] k <-> k = (0,0,0) \/ k = (2,0,0)).
  { intros k. unfold remains. unfold row3 at 1. rewrite Hin. split.
    - intros [H1 H2]. destruct H1 as [<-|[<-|[<-|[]]]]; [left; reflexivity| |right; reflexivity]. exfalso. apply (H2 cut3 (or_introl eq_refl)). apply Hin. left. reflexivity.
    - intros H. split; [destruct H as [-> | ->]; cbn; auto|]. intros c [[= <-]|[]] C. apply Hin in C. destruct C as [<-|[]], H as [H|H]; discriminate H. }
  destruct (C83_merge tt CmdStlClosed.ex_load ex_save Hfmt (fun l m => m = unit_faces l) Hlib qtext 1 row3 [Some cut3] (txt "b.binvox") [txt "c.binvox"] 2 [] [] (txt "t") ts names d83 d1 d2 e Hwf Hne Hv Hcuts)
    as (-> & m & Hd2 & Hw); [discriminate|unfold max_int; lia|discriminate|exact Hsafe|exact Hb|exact Hc| |apply Hts|apply Hts| |exists (0,0,0); apply Hrem; left; reflexivity|exact Hl|exact Hdir|exact Hpo|exact Hm|].
  { intros mid. unfold d83. rewrite !put_file_other; [reflexivity|discriminate|discriminate]. }
  { right. split; [exact Hpn|]. split; [apply Hpl; reflexivity|]. split; [apply Hpl; reflexivity|]. split; [apply Hpl; reflexivity|exact Hd1]. }
  exists ts, d1, names, d2, m. split; [vm_compute; reflexivity|]. split; [reflexivity|]. split; [exact Hd1|]. split; [exact Hl|]. split; [exact Hm|]. split; [exact Hd2|].
  intros w c Hcube. destruct (Hw w c Hcube) as [H1 H2]. split; [exact H1|]. intros He. destruct (H2 He) as [H3 H4]. split; [|split]; intros ->.
  - apply H3, Hrem. left. reflexivity.
  - apply H4. rewrite Hrem. intros [C|C]; discriminate C.
  - apply H3, Hrem. right. reflexivity.
Qed.
