(** C85, continued: whole runs of stldice with -smooth. *)
From Verif Require Import Base BinvoxSpec BinvoxModel Geom VoxelizeModel VoxelizeSpec VoxelizeProps VoxelizeAccuracy StldiceModel Smooth SmoothEx SmoothAny.
From Coq Require Import ZArith QArith List Lia Lqa Bool Init.Byte.
From stdpp Require Import base list gmap.
Import ListNotations.
Open Scope Z_scope.

(** cmd/stldice/stldice.go:61-72: the meshes as they are after loading and smoothing; the rest of the run, [stldice_main] of StldiceModel.v,
    goes on with these. *)
Definition smoothed_args (thr : Q) : list (list byte * option (list tri)) -> list (list byte * option (list tri)) -> Prop :=
  Forall2 (fun a a' => fst a' = fst a /\
    match snd a, snd a' with None, None => True | Some m, Some m' => SmoothNormalsThreshold thr m m' | _, _ => False end).

Section Run.
  Context (ft : FloatText Q).

  Lemma dice_loop_same mesh mesh' prefix reg ts : (forall b, Voxelize b mesh' = Voxelize b mesh) ->
    forall d, dice_loop ft d prefix reg mesh' ts = dice_loop ft d prefix reg mesh ts.
  Proof.
    intros H. induction ts as [|t ts IH]; intros d; [reflexivity|]. cbn [dice_loop]. unfold region_file. rewrite H.
    destruct (d (out_file prefix t)); [apply IH|]. destruct (Voxelize (reg t) mesh); [reflexivity|]. destruct (decide _); [apply IH|]. rewrite IH. reflexivity.
  Qed.

  Lemma bounding_box_same m m' : Forall2 (fun t t' => taddr t' = taddr t /\ tv1 t' = tv1 t /\ tv2 t' = tv2 t /\ tv3 t' = tv3 t) m m' -> bounding_box m' = bounding_box m.
  Proof.
    intros H. unfold bounding_box. inversion H as [|t t' m1 m1' (E1 & E2 & E3 & E4) Hm]; [reflexivity|]. cbn [fold_left]. rewrite E2, E3, E4.
    generalize (box_add (box_add (box_add (tv1 t, tv1 t) (tv1 t)) (tv2 t)) (tv3 t)). clear - Hm.
    induction Hm as [|t t' m m' (E1 & E2 & E3 & E4) Hm IH]; intros bx; [reflexivity|]. cbn [fold_left]. rewrite E2, E3, E4. apply IH.
  Qed.

  (** If every loaded mesh has unit normals and sides along the axes, and any angle up to 90 degrees is given to -smooth, the run is the
      same as without it: the same files with the same contents, in the same order, the same commands printed, the same errors. *)
  Theorem C85_run thr d bx dim nx ny nz args args' : (0 < thr <= 1)%Q -> smoothed_args thr args args' ->
    (forall name m, In (name, Some m) args -> NoDup (map taddr m) /\
       ((length m < Z.to_nat 100000000)%nat /\ (forall t, In t m -> unit_normal t /\ along_axis t) \/
        (forall t, In t m -> unit_normal t /\ (steep_x thr m t \/ flat_x thr m t)))) ->
    stldice_main ft d bx dim nx ny nz args' = stldice_main ft d bx dim nx ny nz args.
  Proof.
    intros Ht Ha Hm. unfold stldice_main. destruct (negb _ || _ || _); [reflexivity|]. revert d bx. induction Ha as [|[n o] [n' o'] args args' [En Ho] Ha IH]; intros d bx; [reflexivity|].
    cbn [fst snd] in En, Ho. subst n'. cbn [main_loop]. destruct o as [m|], o' as [m'|]; try contradiction; [|reflexivity].
    destruct (Hm n m (or_introl eq_refl)) as (Hn & Hs).
    assert (HV : forall b, Voxelize b m' = Voxelize b m).
    { intros b. destruct Hs as [(Hl & Hs)|Hs].
      - apply (C85_axis thr b m m'); [exact Ht|exact Hl|exact Hn|intros t Hi; apply Hs, Hi|intros t Hi; apply Hs, Hi|exact Ho].
      - apply (C85_steep thr b m m'); [exact Ht|exact Hn|intros t Hi; apply Hs, Hi|intros t Hi; apply Hs, Hi|exact Ho]. }
    rewrite (bounding_box_same m m') by (apply (smoothed_shape thr m), Ho). unfold diceMesh.
    destruct (_ || _ || _); [reflexivity|]. rewrite (dice_loop_same m m') by exact HV.
    destruct (dice_loop _ _ _ _ _ _) as [ws [l|]]; [|reflexivity]. rewrite IH; [reflexivity|]. intros name mm Hi. apply (Hm name mm). right. exact Hi.
  Qed.
End Run.
Print Assumptions C85_run.

(** The hypotheses are met: a box and a file that cannot be loaded, 60 degrees. *)
Example C85_run_example : let args := [([x61], Some box_tris); ([x62], None)] in
  smoothed_args (1 # 2) args [([x61], Some (smooth_of (1 # 2) box_tris)); ([x62], None)] /\
  (forall name m, In (name, Some m) args -> NoDup (map taddr m) /\ (length m < Z.to_nat 100000000)%nat /\ (forall t, In t m -> unit_normal t /\ along_axis t)).
Proof.
  destruct C85_axis_example as (_ & H1 & H2 & H3). split.
  - constructor; [split; [reflexivity|exact H3]|]. constructor; [split; [reflexivity|exact I]|constructor].
  - intros name m [H|[H|[]]]; [|discriminate H]. injection H as _ <-. split; [apply (bool_decide_unpack _); vm_compute; exact I|]. split; [|intros t Ht; split; auto].
    apply Nat2Z.inj_lt. rewrite Z2Nat.id by lia. vm_compute. reflexivity.
Qed.
