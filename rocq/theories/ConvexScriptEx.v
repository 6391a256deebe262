(** C81: a wedge minus a wedge, diced into two tiles. *)
From Verif Require Import Base BaseLemmas BinvoxSpec BinvoxModel Geom VoxelizeModel VoxelizeSpec VoxelizeProps FloatTextQ StldiceModel StldiceProps
  CmdMergeModel CmdMergeProps CmdDice CmdDiceEx MeshSpec MeshCells MeshInside MeshNear MeshSolid CmdStlModel CmdStlClosed ToMesh StldiceScriptModel ToMeshWind StldiceScript Convex ConvexEx ConvexMesh ConvexScript.
From Coq Require Import ZArith QArith Qabs List Bool String Init.Byte Lia Lqa.
From stdpp Require Import base list gmap.
Import ListNotations.
Open Scope Z_scope.

Definition bx3 : qpt * qpt := ((0%Q, 0%Q, 0%Q), (16%Q, 24%Q, 12%Q)).
Definition cut3 : list tri := wedge 5 (7%Q, 12%Q, 0%Q) 4.
Definition res3 := Eval vm_compute in stldice_main qtext (fun _ => None) None 24 2 1 1 [(txt "a", Some wedge_ex); (txt "b", Some cut3)].
Definition suffixes3 := Eval vm_compute in match snd res3 with Some l => l | None => [] end.
Definition off3 : qpt := ((1 # 10)%Q, (- (1 # 5))%Q, (- (1 # 20))%Q).

Lemma vpmm3 : (vpmm (whole bx3 24) == 1)%Q.
Proof. vm_compute. reflexivity. Qed.

Lemma close3 w r : close (whole bx3 24) (near (whole bx3 24) w off3) r ->
  (inject_Z (kx w) + (3 # 5) - (3 # 2) <= px r <= inject_Z (kx w) + (3 # 5) + (3 # 2) /\ inject_Z (ky w) + (3 # 10) - (3 # 2) <= py r <= inject_Z (ky w) + (3 # 10) + (3 # 2) /\
   inject_Z (kz w) + (9 # 20) - (1 # 2) <= pz r <= inject_Z (kz w) + (9 # 20) + (1 # 2))%Q.
Proof.
  intros (Hx & Hy & Hz). apply Qabs_Qle_condition in Hx, Hy, Hz. rewrite vpmm3 in Hx, Hy, Hz.
  assert (E1 : (px (near (whole bx3 24) w off3) == inject_Z (kx w) + (3 # 5))%Q) by (unfold near, px; cbn [fst snd]; rewrite vpmm3; change (TX (whole bx3 24)) with 0%Q; cbn [off3 fst snd]; field).
  assert (E2 : (py (near (whole bx3 24) w off3) == inject_Z (ky w) + (3 # 10))%Q) by (unfold near, py; cbn [fst snd]; rewrite vpmm3; change (TY (whole bx3 24)) with 0%Q; cbn [off3 fst snd]; field).
  assert (E3 : (pz (near (whole bx3 24) w off3) == inject_Z (kz w) + (9 # 20))%Q) by (unfold near, pz; cbn [fst snd]; rewrite vpmm3; change (TZ (whole bx3 24)) with 0%Q; cbn [off3 fst snd]; field).
  rewrite E1 in Hx. rewrite E2 in Hy. rewrite E3 in Hz. lra.
Qed.

Lemma fit3 i o : pz o = 0%Q -> fit (whole bx3 24) (wedge i o 4).
Proof.
  intros Ho. split; [apply wedge_convex; reflexivity|]. split; [intros t Ht; exact (wedge_side _ _ _ _ Ht)|]. intros t zi Ht Hz.
  refine (wedge_sliceable _ _ _ _ _ _ _ Ht); [unfold epsilon; lra|]. rewrite Ho. intros C. unfold slice_z in C. rewrite vpmm3 in C. change (TZ (whole bx3 24)) with 0%Q in C.
  assert (H0 : (0 <= inject_Z zi)%Q) by (change 0%Q with (inject_Z 0); rewrite <- Zle_Qle; lia). assert (E : (0 + ((1 # 2) + inject_Z zi) * (1 / 1) == (1 # 2) + inject_Z zi)%Q) by field. rewrite E in C. lra.
Qed.

Ltac at_point H := apply close3 in H; unfold kx, ky, kz in H; cbn [fst snd] in H; repeat match type of H with context [inject_Z ?z] => change (inject_Z z) with (z # 1)%Q in H end; destruct H as (?Hx & ?Hy & ?Hz).

(** Around (4.6, 11.3, 1.45) is only the base, around (11.6, 11.3, 1.45) the base and the cut. *)
Example C81_example : exists ws suffixes d2 bytes m, let b := whole bx3 24 in
  stldice_main qtext (fun _ => None) None 24 2 1 1 [(txt "a", Some wedge_ex); (txt "b", Some cut3)] = (ws, Some suffixes) /\
  run_script tt ex_load ex_save (fun l m => m = unit_faces l) qtext 1 (put_files (fun _ => None) ws) (script [txt "a"; txt "b"] 24 2 1 1 suffixes) d2 /\
  d2 (txt "out-24-2-1-1.stl") = Some bytes /\ ex_load bytes = inr m /\ encloses_rest b 16 24 12 wedge_ex [cut3] m /\
  deep b wedge_ex (near b (4, 11, 1) off3) /\ clear_of b cut3 (near b (4, 11, 1) off3) /\ deep b wedge_ex (near b (11, 11, 1) off3) /\ deep b cut3 (near b (11, 11, 1) off3).
Proof.
  assert (Hrun : stldice_main qtext (fun _ => None) None 24 2 1 1 [(txt "a", Some wedge_ex); (txt "b", Some cut3)] = (fst res3, Some suffixes3)).
  { vm_compute. reflexivity. }
  assert (Hfmt : forall m, ex_load (ex_save m) = inr m).
  { intros m. rewrite (proj2 ex_format). f_equal. unfold moved. rewrite <- (map_id m) at 2. apply map_ext. intros [[? ?] ?]. reflexivity. }
  assert (Hlib : forall l m, List.NoDup l -> m = unit_faces l -> surface_of l m) by (intros l m Hnd ->; apply C71_unit_faces, Hnd).
  assert (Hgood : good bx3 24 2 1 1) by (unfold good, sane; vm_compute; repeat split; discriminate || reflexivity).
  assert (Hdv : divides 24 2 1 1) by (repeat split; reflexivity).
  assert (Hnd : List.NoDup [txt "a"; txt "b"]) by (apply NoDup_ListNoDup; apply (bool_decide_unpack _); vm_compute; exact I).
  assert (Hp : Forall proper [txt "a"; txt "b"]) by (repeat constructor; cbn; discriminate).
  assert (Haddr : forall name mesh, In (name, mesh) [(txt "a", wedge_ex); (txt "b", cut3)] -> List.NoDup (map taddr mesh) /\ fit (whole bx3 24) mesh).
  { intros name mesh [E|[E|[]]]; injection E as _ <-; (split; [apply NoDup_ListNoDup; apply (bool_decide_unpack _); vm_compute; exact I|apply fit3; reflexivity]). }
  assert (Hl : listing (fun _ => None) []) by (split; [constructor|]; intros n; split; [intros []|intros C; contradiction]).
  assert (Hbb : bounding_box wedge_ex = bx3) by (vm_compute; reflexivity).
  destruct (C79_ends tt ex_load ex_save (fun l m => m = unit_faces l) qtext 1 (fun _ => None) [] None bx3 24 2 1 1 (txt "a") wedge_ex [(txt "b", cut3)] (fst res3) suffixes3) as (d2 & Hscr);
    [eauto|lia|exact Hl|exact Hbb|exact Hgood|exact Hdv|exact Hnd|exact Hp|intros name mesh Hin; apply (Haddr _ _ Hin)|reflexivity|exact Hrun|].
  assert (Hb1 : deep (whole bx3 24) wedge_ex (near (whole bx3 24) (4, 11, 1) off3)).
  { intros r Hr. at_point Hr. apply wedge_behind. unfold in_wedge. unfold px at 2 4 6, py at 2 4, pz at 2 4. cbn [fst snd]. lra. }
  assert (Hb2 : deep (whole bx3 24) wedge_ex (near (whole bx3 24) (11, 11, 1) off3)).
  { intros r Hr. at_point Hr. apply wedge_behind. unfold in_wedge. unfold px at 2 4 6, py at 2 4, pz at 2 4. cbn [fst snd]. lra. }
  assert (Hc1 : clear_of (whole bx3 24) cut3 (near (whole bx3 24) (4, 11, 1) off3)).
  { intros r Hr C. at_point Hr. apply wedge_behind in C as (C1 & C2 & _). unfold px at 2, py at 2 in C1. unfold px at 2, py at 2 in C2. cbn [fst snd] in C1, C2. lra. }
  assert (Hc2 : deep (whole bx3 24) cut3 (near (whole bx3 24) (11, 11, 1) off3)).
  { intros r Hr. at_point Hr. apply wedge_behind. unfold in_wedge. unfold px at 2 4 6, py at 2 4, pz at 2 4. cbn [fst snd]. lra. }
  destruct (C81_script tt ex_load ex_save Hfmt _ Hlib qtext 1 (fun _ => None) None bx3 24 2 1 1 (txt "a") wedge_ex [(txt "b", cut3)] (fst res3) suffixes3 d2)
    as (n & bytes & m & Hd2 & Hlo & Hsur & Hn & _);
    [exact Hbb|exact Hgood|exact Hdv|exact Hnd|exact Hp|exact Haddr|intros n C; destruct (C eq_refl)|reflexivity|reflexivity|exact Hrun|exact Hscr| |].
  { exists (4, 11, 1), off3. split; [vm_compute; repeat split; discriminate || reflexivity|]. split; [repeat split; reflexivity|]. split; [exact Hb1|]. intros cut [<-|[]]. exact Hc1. }
  exists (fst res3), suffixes3, d2, bytes, m. cbv zeta. split; [exact Hrun|]. split; [exact Hscr|]. split.
  { rewrite <- Hd2. f_equal. symmetry. apply Hn. exists (nth 0 suffixes3 []), (nth 1 suffixes3 []). split; [left; reflexivity|]. split; [right; left; reflexivity|discriminate]. }
  split; [exact Hlo|]. split; [exact Hsur|]. auto.
Qed.
