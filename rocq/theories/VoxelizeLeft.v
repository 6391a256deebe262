(** C28, continued: which triangles put voxels left of the grid. *)
From Verif Require Import Base BaseLemmas BinvoxModel BinvoxSpec Geom VoxelizeModel VoxelizeSpec VoxelizeLine VoxelizeSlice VoxelizeFill VoxelizeProps.
From Coq Require Import ZArith QArith Qround List Lia Lqa Bool.
From stdpp Require Import base list sets.
Import ListNotations.
Open Scope Z_scope.

Definition reaches_left (b : binvox Q) (t : tri) : Prop := (px (tv1 t) < TX b \/ px (tv2 t) < TX b \/ px (tv3 t) < TX b)%Q.

(** A voxel with a negative x is on the outline of a triangle with a vertex left of the grid. *)
Theorem C28_left b mesh k : zero_dim b = false -> NoDup (map taddr mesh) -> (0 < vpmm b)%Q ->
  result_voxels (Voxelize b mesh) k -> kx k < 0 -> exists t, In t mesh /\ reaches_left b t /\ shell b [t] k.
Proof.
  intros Hz Hn Hv Hk Hneg. destruct (C28_range b mesh k Hz Hn Hk) as (_ & _ & _ & [H|(t & Ht & Hin)]); [lia|].
  exists t. split; [exact Ht|]. split; [|exists t; split; [left; reflexivity|exact Hin]].
  unfold outline in Hin. destruct (intersectTriZPlane t (slice_z b (kz k))) as [[[p q] t']|] eqn:E; [|destruct Hin].
  destruct (tri_sound _ _ _ _ _ E) as (_ & _ & _ & Hp & Hq). unfold reaches_left.
  destruct (Qlt_le_dec (px (tv1 t)) (TX b)) as [?|Hx1]; [auto|]. destruct (Qlt_le_dec (px (tv2 t)) (TX b)) as [?|Hx2]; [auto|].
  destruct (Qlt_le_dec (px (tv3 t)) (TX b)) as [?|Hx3]; [auto|]. exfalso.
  assert (Hge : forall r, on_edge t r -> (TX b <= px r)%Q).
  { intros r [Hr|[Hr|Hr]]; eapply on_segment_px_ge; try exact Hr; assumption. }
  pose proof (Hge p Hp) as Gp. pose proof (Hge q Hq) as Gq.
  unfold pair_points in Hin. apply C27_in_box_and_near in Hin as (Hin & _). unfold zbetween in Hin. cbn [fst] in Hin.
  assert (Hg : forall r, (TX b <= r)%Q -> 0 <= gridi (vpmm b) r (TX b)).
  { intros r Hr. unfold gridi. change 0 with (Qfloor 0). apply Qfloor_resp_le. nra. }
  pose proof (Hg _ Gp). pose proof (Hg _ Gq). lia.
Qed.
Print Assumptions C28_left.
