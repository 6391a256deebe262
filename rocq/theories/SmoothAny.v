(** C85, continued: what stldice -smooth leaves alone, whatever the angle. *)
From Verif Require Import Base BinvoxSpec BinvoxModel Geom VoxelizeModel VoxelizeSpec VoxelizeLine VoxelizeSlice VoxelizeFill VoxelizeProps VoxelizeAccuracy Convex Smooth.
From Coq Require Import ZArith QArith Qround Qabs List Lia Lqa Bool.
From stdpp Require Import base list gmap.
Import ListNotations.
Open Scope Z_scope.

Lemma smoothed_shape thr mesh m m' : Forall2 (smoothed thr mesh) m m' ->
  Forall2 (fun t t' => taddr t' = taddr t /\ tv1 t' = tv1 t /\ tv2 t' = tv2 t /\ tv3 t' = tv3 t) m m'.
Proof. induction 1 as [|t t' m m' (H1 & H2 & H3 & H4 & _) Hm IH]; constructor; auto. Qed.

Lemma shape_shell b m m' : Forall2 (fun t t' => taddr t' = taddr t /\ tv1 t' = tv1 t /\ tv2 t' = tv2 t /\ tv3 t' = tv3 t) m m' ->
  forall k, shell b m' k <-> shell b m k.
Proof.
  intros H k. unfold shell. induction H as [|t t' m m' (H1 & H2 & H3 & H4) Hm IH]; [reflexivity|]. split; intros (u & Hu & Ho); destruct Hu as [<-|Hu].
  - exists t. split; [left; reflexivity|]. rewrite <- (outline_same b (kz k) t t') by assumption. exact Ho.
  - destruct (proj1 IH (ex_intro _ u (conj Hu Ho))) as (w & Hw & Hw'). exists w. split; [right; exact Hw|exact Hw'].
  - exists t'. split; [left; reflexivity|]. rewrite (outline_same b (kz k) t t') by assumption. exact Ho.
  - destruct (proj2 IH (ex_intro _ u (conj Hu Ho))) as (w & Hw & Hw'). exists w. split; [right; exact Hw|exact Hw'].
Qed.
Lemma shape_addr m m' : Forall2 (fun t t' => taddr t' = taddr t /\ tv1 t' = tv1 t /\ tv2 t' = tv2 t /\ tv3 t' = tv3 t) m m' -> map taddr m' = map taddr m.
Proof. induction 1 as [|t t' m m' (H1 & _) Hm IH]; [reflexivity|]. cbn [map]. rewrite H1, IH. reflexivity. Qed.

Lemma balance_shell b mesh zi y x : 0 < balance b mesh zi y x -> shell b mesh (x, y, zi).
Proof.
  unfold balance. intros H. set (l := List.filter (fun t => leftmost b zi y t x && facing_in t) mesh) in H.
  destruct l as [|t l'] eqn:E; [cbn [length] in H; lia|]. assert (Ht : In t l) by (rewrite E; left; reflexivity). subst l. apply filter_In in Ht as [Hi Ht].
  apply andb_true_iff in Ht as [Ht _]. unfold leftmost in Ht. apply andb_true_iff in Ht as [Ht _]. apply existsb_exists in Ht as (x' & Hx & Ex). apply Z.eqb_eq in Ex. subst x'.
  unfold row_xs in Hx. apply in_map_iff in Hx as ([x1 y1] & E1 & Hx). cbn in E1. subst x1. apply filter_In in Hx as [Hx Ey]. apply Z.eqb_eq in Ey. cbn in Ey. subst y1.
  exists t. split; [exact Hi|exact Hx].
Qed.

(** Whatever the angle, and whatever the normals were before: the voxels that the surface touches are the same, and all of them that are in
    the grid are set; every other voxel that is set lies, in its row, between two that the surface touches. *)
Theorem C85_surface thr b mesh mesh' : zero_dim b = false -> NoDup (map taddr mesh) -> SmoothNormalsThreshold thr mesh mesh' ->
  (forall k, shell b mesh k -> kx k < NX b /\ 0 <= ky k < NY b -> 0 <= kz k < NZ b -> result_voxels (Voxelize b mesh') k) /\
  (forall k, result_voxels (Voxelize b mesh') k -> shell b mesh k \/
     exists x1 x2, x1 < kx k /\ kx k < x2 /\ shell b mesh (x1, ky k, kz k) /\ shell b mesh (x2, ky k, kz k)).
Proof.
  intros Hz Hn Hs. apply smoothed_shape in Hs. pose proof (shape_shell b mesh mesh' Hs) as Hsh.
  assert (Hn' : NoDup (map taddr mesh')) by (rewrite (shape_addr mesh mesh' Hs); exact Hn). split.
  - intros k Hk [H1 H2] H3. apply Voxelize_in; [exact Hz|exact Hn'|]. split; [exact H3|]. split; [reflexivity|]. split; [exact H2|]. split; [exact H1|]. left. apply Hsh, Hk.
  - intros k Hk. apply Voxelize_in in Hk; [|exact Hz|exact Hn']. destruct Hk as (H3 & _ & H2 & H1 & [H|(H0 & (x' & Hx & Hb & _) & x2 & Hx2 & Hs2)]).
    + left. apply Hsh, H.
    + right. exists x', x2. split; [exact Hx|]. split; [exact Hx2|]. split; apply Hsh; [apply balance_shell, Hb|exact Hs2].
Qed.
Print Assumptions C85_surface.

(** The accuracy of C58 holds with any smoothing: every voxel that is set is within half a voxel of the surface in x and y, at the middle
    of its layer, or lies between two such voxels of its row. *)
Theorem C85_near_surface thr b mesh mesh' k : zero_dim b = false -> NoDup (map taddr mesh) -> (0 < vpmm b)%Q -> SmoothNormalsThreshold thr mesh mesh' ->
  result_voxels (Voxelize b mesh') k ->
  let near k' := exists t r, In t mesh /\ in_triangle t r /\ mid_height b k' r /\ within (1 # 2) b k' r in
  near k \/ exists x1 x2, x1 < kx k < x2 /\ near (x1, ky k, kz k) /\ near (x2, ky k, kz k).
Proof.
  intros Hz Hn Hv Hs Hk. apply smoothed_shape in Hs.
  assert (Hn' : NoDup (map taddr mesh')) by (rewrite (shape_addr mesh mesh' Hs); exact Hn).
  assert (G : forall k', (exists t r, In t mesh' /\ in_triangle t r /\ mid_height b k' r /\ within (1 # 2) b k' r) ->
    exists t r, In t mesh /\ in_triangle t r /\ mid_height b k' r /\ within (1 # 2) b k' r).
  { intros k' (t' & r & Ht & Hr & Hm). assert (H : exists t, In t mesh /\ tv1 t' = tv1 t /\ tv2 t' = tv2 t /\ tv3 t' = tv3 t).
    { clear - Hs Ht. induction Hs as [|t u m m' (H1 & H2 & H3 & H4) Hm IH]; [destruct Ht|]. destruct Ht as [->|Ht]; [exists t; split; [left; reflexivity|auto]|].
      destruct (IH Ht) as (w & Hw & Hw'). exists w. split; [right; exact Hw|exact Hw']. }
    destruct H as (t & Hi & E1 & E2 & E3). exists t, r. split; [exact Hi|]. split; [|exact Hm]. unfold in_triangle in *. rewrite <- E1, <- E2, <- E3. exact Hr. }
  destruct (C58_voxels_near_surface b mesh' k Hz Hn' Hv Hk) as [H|(x1 & x2 & Hx & H1 & H2)]; [left; apply G, H|right].
  exists x1, x2. split; [exact Hx|]. split; apply G; assumption.
Qed.
Print Assumptions C85_near_surface.

(** So a convex solid may become hollow, but never grows: every voxel that is set has a point of the solid at most half a voxel away. *)
Theorem C85_convex thr b mesh mesh' k : zero_dim b = false -> (0 < vpmm b)%Q -> NoDup (map taddr mesh) -> convex_surface mesh -> SmoothNormalsThreshold thr mesh mesh' ->
  result_voxels (Voxelize b mesh') k -> exists r, behind mesh r /\ mid_height b k r /\ within (1 # 2) b k r.
Proof.
  intros Hz Hv Hnd Hconv Hsm Hk. destruct (C85_near_surface thr b mesh mesh' k Hz Hnd Hv Hsm Hk) as [(t & r & Ht & Hr & Hm & Hw)|(x1 & x2 & Hx & (t1 & r1 & Ht1 & Hr1 & Hm1 & Hw1) & (t2 & r2 & Ht2 & Hr2 & Hm2 & Hw2))].
  - exists r. split; [exact (triangle_behind mesh t r Hconv Ht Hr)|]. auto.
  - destruct k as [[x y] z]. unfold within, mid_height, kx, ky, kz in *. cbn [fst snd] in *.
    destruct Hw1 as [A1 A2], Hw2 as [B1 B2]. set (u1 := (vpmm b * (px r1 - TX b))%Q) in *. set (u2 := (vpmm b * (px r2 - TX b))%Q) in *.
    assert (Z1 : (inject_Z x1 + 1 <= inject_Z x)%Q) by (change 1%Q with (inject_Z 1); rewrite <- inject_Z_plus, <- Zle_Qle; lia).
    assert (Z2 : (inject_Z x + 1 <= inject_Z x2)%Q) by (change 1%Q with (inject_Z 1); rewrite <- inject_Z_plus, <- Zle_Qle; lia).
    assert (Hs : exists s, (0 <= s <= 1)%Q /\ (u1 + (u2 - u1) * s == inject_Z x + (1 # 2))%Q).
    { destruct (Qlt_le_dec u1 u2) as [Hlt|Hle].
      - exists ((inject_Z x + (1 # 2) - u1) / (u2 - u1))%Q. split; [split|].
        + apply Qle_shift_div_l; lra.
        + apply Qle_shift_div_r; lra.
        + field. intros C. lra.
      - exists 0%Q. split; [lra|]. lra. }
    destruct Hs as (s & Hs & Es). exists (lerp r1 r2 s). split; [apply behind_lerp; [exact Hs|exact (triangle_behind mesh t1 r1 Hconv Ht1 Hr1)|exact (triangle_behind mesh t2 r2 Hconv Ht2 Hr2)]|].
    unfold lerp. unfold px, py, pz in *. cbn [fst snd]. rewrite !lerp_voxel. fold u1 u2. split; [rewrite Hm1, Hm2; ring|]. split; [rewrite Es; lra|]. split; nra.
Qed.
Print Assumptions C85_convex.
