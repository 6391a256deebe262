(** C84: voxelizing the surface of a voxel model. *)
From Verif Require Import Base BinvoxSpec BinvoxModel Geom VoxelizeModel VoxelizeSpec VoxelizeLine VoxelizeSlice VoxelizeFill VoxelizeProps VoxelizeAccuracy Convex.
From Coq Require Import ZArith QArith Qround Qabs List Lia Lqa Bool.
From stdpp Require Import base list gmap.
Import ListNotations.
Open Scope Z_scope.

(** ** Specification *)

(** The point of the world with the coordinates [x], [y], [z] in voxels of [b]. *)
Definition place (b : binvox Q) (x y z : Q) : qpt := ((TX b + x / vpmm b)%Q, (TY b + y / vpmm b)%Q, (TZ b + z / vpmm b)%Q).

(** The square [X] x [[j, j+1]] x [[k, k+1]] is a face of the model where it ends ([out]) or begins (not [out]) as x grows. *)
Definition x_face (V : gset key) (out : bool) (X j k : Z) : Prop :=
  if out then (X - 1, j, k) ∈ V /\ (X, j, k) ∉ V else (X - 1, j, k) ∉ V /\ (X, j, k) ∈ V.
(** The square [[i, i+1]] x [Y] x [[k, k+1]] is a face of the model. *)
Definition y_face (V : gset key) (i Y k : Z) : Prop := ~ ((i, Y - 1, k) ∈ V <-> (i, Y, k) ∈ V).

Definition in_plane (f : qpt -> Q) (h : Q) (t : tri) : Prop := (f (tv1 t) == h /\ f (tv2 t) == h /\ f (tv3 t) == h)%Q.
Definition x_tri (b : binvox Q) (out : bool) (X : Z) (t : tri) : Prop :=
  in_plane px (TX b + inject_Z X / vpmm b) t /\ (px (tnorm t) == if out then 1 else -1)%Q.
Definition y_tri (b : binvox Q) (Y : Z) (t : tri) : Prop := in_plane py (TY b + inject_Z Y / vpmm b) t /\ (px (tnorm t) == 0)%Q.
Definition z_tri (b : binvox Q) (Z' : Z) (t : tri) : Prop := in_plane pz (TZ b + inject_Z Z' / vpmm b) t.
(** The vertices of [t] are corners of voxels. *)
Definition on_corners (b : binvox Q) (t : tri) : Prop :=
  forall p, p = tv1 t \/ p = tv2 t \/ p = tv3 t -> exists k, qpt_eq p (world b k).

(** [mesh] is the surface of the voxels [V] of the grid of [b], each a cube with sides of 1 / voxels-per-mm: its triangles have their
    vertices in corners of voxels and lie in walls and floors between voxels, they cover exactly the walls between a voxel of [V] and one
    that is not in [V], and in the walls across x their normals are unit vectors that point out of the model.  (Nothing is said about the
    floors, and triangles may join several faces.) *)
Record voxel_surface (b : binvox Q) (V : gset key) (mesh : list tri) : Prop := VoxelSurface {
  vs_kind : forall t, In t mesh -> on_corners b t /\ ((exists out X, x_tri b out X t) \/ (exists Y, y_tri b Y t) \/ (exists Z', z_tri b Z' t));
  vs_x : forall out X y z, (exists t, In t mesh /\ x_tri b out X t /\ in_triangle t (place b (inject_Z X) y z)) <->
    exists j k, x_face V out X j k /\ (inject_Z j <= y <= inject_Z (j + 1))%Q /\ (inject_Z k <= z <= inject_Z (k + 1))%Q;
  vs_y : forall Y x z, (exists t, In t mesh /\ y_tri b Y t /\ in_triangle t (place b x (inject_Z Y) z)) <->
    exists i k, y_face V i Y k /\ (inject_Z i <= x <= inject_Z (i + 1))%Q /\ (inject_Z k <= z <= inject_Z (k + 1))%Q }.

(** [k] is a voxel of [V], or the neighbour at +x, at +y or at +x +y of one. *)
Definition grown (V : gset key) (k : key) : Prop :=
  let '(x, y, z) := k in (x, y, z) ∈ V \/ (x - 1, y, z) ∈ V \/ (x, y - 1, z) ∈ V \/ (x - 1, y - 1, z) ∈ V.

(** ** Digital lines *)
Lemma floor_is a y : (inject_Z y <= a)%Q -> (a < inject_Z (y + 1))%Q -> Qfloor a = y.
Proof.
  intros H1 H2. pose proof (Qfloor_bounds a) as (f & Ef & Hf).
  assert (L1 : (inject_Z (Qfloor a) < inject_Z (y + 1))%Q) by lra.
  assert (L2 : (inject_Z y < inject_Z (Qfloor a + 1))%Q) by (rewrite inject_Z_plus; change (inject_Z 1) with 1%Q; lra).
  rewrite <- Zlt_Qlt in L1, L2. lia.
Qed.
Lemma floor_bounds' a : (inject_Z (Qfloor a) <= a < inject_Z (Qfloor a + 1))%Q.
Proof. split; [apply Qfloor_le|apply Qlt_floor]. Qed.

Lemma floor_hit a b y : zbetween (Qfloor a) (Qfloor b) y -> exists s, (0 <= s <= 1)%Q /\ Qfloor (a + (b - a) * s) = y.
Proof.
  intros H. destruct (Z.eq_dec y (Qfloor a)) as [->|Na].
  { exists 0%Q. split; [lra|]. apply Qfloor_comp. ring. }
  destruct (Z.eq_dec y (Qfloor b)) as [->|Nb].
  { exists 1%Q. split; [lra|]. apply Qfloor_comp. ring. }
  pose proof (floor_bounds' a) as Ha. pose proof (floor_bounds' b) as Hb. unfold zbetween in H.
  assert (Hab : (a < inject_Z y <= b \/ b <= inject_Z y < a)%Q).
  { destruct (Z_lt_le_dec (Qfloor a) (Qfloor b)) as [C|C].
    - left. assert (A1 : (inject_Z (Qfloor a + 1) <= inject_Z y)%Q) by (rewrite <- Zle_Qle; lia). assert (A2 : (inject_Z y <= inject_Z (Qfloor b))%Q) by (rewrite <- Zle_Qle; lia). lra.
    - right. assert (A1 : (inject_Z (Qfloor b + 1) <= inject_Z y)%Q) by (rewrite <- Zle_Qle; lia). assert (A2 : (inject_Z (y + 1) <= inject_Z (Qfloor a))%Q) by (rewrite <- Zle_Qle; lia).
      rewrite inject_Z_plus in A2. change (inject_Z 1) with 1%Q in A2. lra. }
  exists ((inject_Z y - a) / (b - a))%Q. split.
  - destruct Hab as [Hab|Hab].
    + split; [apply Qle_shift_div_l; lra|apply Qle_shift_div_r; lra].
    + assert (E : ((inject_Z y - a) / (b - a) == (a - inject_Z y) / (a - b))%Q) by (field; split; intros C; lra). rewrite E.
      split; [apply Qle_shift_div_l; lra|apply Qle_shift_div_r; lra].
  - apply floor_is.
    + assert (E : (a + (b - a) * ((inject_Z y - a) / (b - a)) == inject_Z y)%Q) by (field; intros C; lra). lra.
    + assert (E : (a + (b - a) * ((inject_Z y - a) / (b - a)) == inject_Z y)%Q) by (field; intros C; lra). rewrite inject_Z_plus. change (inject_Z 1) with 1%Q. lra.
Qed.

Lemma connected_cols l : forall p q x, connected l -> head l = Some p -> last l = Some q -> zbetween (fst p) (fst q) x -> exists y, In (x, y) l.
Proof.
  induction l as [|a l IH]; intros p q x Hc Hh Hl Hx; [discriminate|]. injection Hh as <-. destruct l as [|b l].
  - injection Hl as <-. exists (snd a). left. destruct a as [x' y']. cbn [fst snd] in *. f_equal. unfold zbetween in Hx. lia.
  - destruct Hc as [(_ & Ha & _) Hc]. destruct (Z.eq_dec (fst a) x) as [<-|Hn]; [exists (snd a); left; destruct a; reflexivity|].
    destruct (IH b q x Hc eq_refl) as (y & Hy); [rewrite <- Hl; reflexivity|unfold zbetween in *; lia|]. exists y. right. exact Hy.
Qed.

Lemma outline_col b zi t r : (0 < vpmm b)%Q -> sliceable t (slice_z b zi) -> in_triangle t r -> (pz r == slice_z b zi)%Q ->
  exists y, In (Qfloor (vpmm b * (px r - TX b)), y) (outline b zi t).
Proof.
  intros Hv (Hc & Hco & Hm) Hr Hz. pose proof (C30_exact t (slice_z b zi) Hc Hco Hm) as Ex. unfold outline.
  destruct (intersectTriZPlane t (slice_z b zi)) as [[[p q] t']|]; [|destruct (Ex r Hr Hz)].
  assert (On : on_segment p q r) by (apply Ex; auto). destruct On as (s & Hs & Er). apply qpt_eq_iff in Er as (Er & _ & _). unfold lerp in Er. cbn [px py fst snd] in Er.
  unfold pair_points, gridi. set (y1 := Qfloor (vpmm b * (py p - TY b))). set (y2 := Qfloor (vpmm b * (py q - TY b))).
  set (X1 := (vpmm b * (px p - TX b))%Q). set (X2 := (vpmm b * (px q - TX b))%Q).
  assert (EX : (vpmm b * (px r - TX b) == X1 + (X2 - X1) * s)%Q) by (unfold X1, X2, px in *; cbn [fst snd] in Er; rewrite Er; ring).
  rewrite (Qfloor_comp _ _ EX). destruct (C27_endpoints (Qfloor X1) y1 (Qfloor X2) y2) as (H1 & H2 & _).
  exact (connected_cols _ _ _ _ (C27_connected (Qfloor X1) y1 (Qfloor X2) y2) H1 H2 (floor_between X1 X2 s Hs)).
Qed.

(** ** The outline of a wall *)
Lemma in_triangle_plane (f : qpt -> Q) h t r : f = px \/ f = py \/ f = pz -> in_plane f h t -> in_triangle t r -> (f r == h)%Q.
Proof.
  intros Hf (H1 & H2 & H3) (a & c & d & (_ & _ & _ & Hs) & E). apply qpt_eq_iff in E as (Ex & Ey & Ez).
  destruct Hf as [-> | [-> | ->]]; [rewrite Ex|rewrite Ey|rewrite Ez]; unfold comb3; cbn [px py pz fst snd] in *; unfold px, py, pz in *; cbn [fst snd]; rewrite H1, H2, H3.
  all: transitivity ((a + c + d) * h)%Q; [ring|rewrite Hs; ring].
Qed.

Section Walls.
  Context (b : binvox Q) (Hv : (0 < vpmm b)%Q) (Hfine : (vpmm b <= 1000000000)%Q) (zi : Z).

  Lemma voxel_of o a p : (p == o + a / vpmm b)%Q -> (vpmm b * (p - o) == a)%Q.
  Proof using Hv. intros ->. apply in_voxels, Hv. Qed.
  Lemma of_voxel o p : (p == o + (vpmm b * (p - o)) / vpmm b)%Q.
  Proof using Hv. field. intros C. rewrite C in Hv. discriminate. Qed.

  Lemma slice_voxel r : (pz r == slice_z b zi)%Q <-> (pz r == TZ b + (inject_Z zi + (1 # 2)) / vpmm b)%Q.
  Proof using Hv. unfold slice_z. assert (E : (((1 # 2) + inject_Z zi) * (1 / vpmm b) == (inject_Z zi + (1 # 2)) / vpmm b)%Q) by (field; intros C; rewrite C in Hv; discriminate). rewrite E. reflexivity. Qed.

  Lemma inject_half (n m : Z) : ~ (inject_Z n == inject_Z m + (1 # 2))%Q.
  Proof. unfold Qeq, inject_Z, Qplus. cbn [Qnum Qden]. lia. Qed.

  Lemma corner_steep (p q : qpt) k k' : qpt_eq p (world b k) -> qpt_eq q (world b k') -> clean_edge p q.
  Proof using Hv Hfine.
    intros Ep Eq. apply qpt_eq_iff in Ep as (_ & _ & Ep). apply qpt_eq_iff in Eq as (_ & _ & Eq). change (pz (world b k)) with (TZ b + inject_Z (kz k) / vpmm b)%Q in Ep. change (pz (world b k')) with (TZ b + inject_Z (kz k') / vpmm b)%Q in Eq.
    destruct (Z.eq_dec (kz k) (kz k')) as [E|N]; [left; rewrite Ep, Eq, E; reflexivity|]. right. unfold steep.
    assert (E : (pz q - pz p == inject_Z (kz k' - kz k) / vpmm b)%Q).
    { rewrite Ep, Eq. unfold Z.sub. rewrite inject_Z_plus, inject_Z_opp. field. intros C. rewrite C in Hv. discriminate. }
    rewrite E. assert (Hd : (1 <= Qabs (inject_Z (kz k' - kz k)))%Q).
    { unfold Qabs, inject_Z. unfold Qle. cbn. lia. }
    unfold Qdiv. rewrite Qabs_Qmult. assert (Hi : (0 < / vpmm b)%Q) by (apply Qinv_lt_0_compat, Hv). rewrite (Qabs_pos (/ vpmm b)) by lra.
    assert (He : (epsilon <= / vpmm b)%Q).
    { assert (M : (/ vpmm b * vpmm b == 1)%Q) by (field; intros C; rewrite C in Hv; discriminate). unfold epsilon. nra. }
    nra.
  Qed.

  Lemma corners_sliceable t : on_corners b t -> sliceable t (slice_z b zi).
  Proof using Hv Hfine.
    intros Hc. destruct (Hc (tv1 t) ltac:(auto)) as (k1 & E1). destruct (Hc (tv2 t) ltac:(auto)) as (k2 & E2). destruct (Hc (tv3 t) ltac:(auto)) as (k3 & E3).
    assert (N : forall p k, qpt_eq p (world b k) -> ~ (pz p == slice_z b zi)%Q).
    { intros p k E H. apply slice_voxel in H. apply qpt_eq_iff in E as (_ & _ & E). change (pz (world b k)) with (TZ b + inject_Z (kz k) / vpmm b)%Q in E. apply voxel_of in H, E. rewrite E in H. exact (inject_half _ _ H). }
    split; [|split].
    - repeat split; eauto using corner_steep.
    - intros (H & _). exact (N _ _ E1 H).
    - intros (H & _). exact (N _ _ E2 H).
  Qed.

  Lemma floor_none t Z' x y : z_tri b Z' t -> ~ In (x, y) (outline b zi t).
  Proof using Hv.
    intros Hz Ho. destruct (outline_near b zi t x y Hv Ho) as (r & Hr & Hm & _). apply (slice_mid b zi r Hv) in Hm. apply slice_voxel in Hm.
    pose proof (in_triangle_plane pz _ t r ltac:(auto) Hz Hr) as E. apply voxel_of in Hm, E. rewrite E in Hm. exact (inject_half _ _ Hm).
  Qed.

  Lemma floor_Z n : Qfloor (inject_Z n) = n.
  Proof. apply Qfloor_Z. Qed.

  (** The outline of a wall across x at [X]: the voxels [X] of the rows it meets. *)
  Lemma outline_x t out X x y : x_tri b out X t -> on_corners b t ->
    In (x, y) (outline b zi t) <-> x = X /\ exists r, (inject_Z y <= r < inject_Z (y + 1))%Q /\ in_triangle t (place b (inject_Z X) r (inject_Z zi + (1 # 2))).
  Proof using Hv Hfine.
    intros (Hx & _) Hc. split.
    - intros Ho. unfold outline in Ho. destruct (intersectTriZPlane t (slice_z b zi)) as [[[p q] t']|] eqn:E; [|destruct Ho].
      destruct (tri_sound _ _ _ _ _ E) as (-> & Zp & Zq & Ep & Eq).
      assert (Hs : forall s, (0 <= s <= 1)%Q -> in_triangle t (lerp p q s)) by (intros s Hs; apply (segment_in_triangle t p q); [assumption..|]; exists s; split; [exact Hs|reflexivity]).
      assert (Ip : in_triangle t p) by apply (edge_in_triangle _ _ Ep). assert (Iq : in_triangle t q) by apply (edge_in_triangle _ _ Eq).
      pose proof (in_triangle_plane px _ t p ltac:(auto) Hx Ip) as Xp. pose proof (in_triangle_plane px _ t q ltac:(auto) Hx Iq) as Xq.
      apply C27_in_box_and_near in Ho as (Bx & By & _). cbn [fst snd] in Bx, By. unfold gridi in Bx, By.
      rewrite (Qfloor_comp _ _ (voxel_of _ _ _ Xp)), (Qfloor_comp _ _ (voxel_of _ _ _ Xq)), floor_Z in Bx. split; [unfold zbetween in Bx; lia|].
      apply floor_hit in By as (s & Hs' & Ey). set (w := (vpmm b * (py p - TY b) + (vpmm b * (py q - TY b) - vpmm b * (py p - TY b)) * s)%Q) in *. exists w.
      split; [rewrite <- Ey; apply floor_bounds'|]. apply (in_triangle_ext t (lerp p q s)); [|apply Hs, Hs'].
      apply qpt_eq_iff. unfold lerp, place. unfold px, py, pz in *. cbn [fst snd]. split; [|split].
      + rewrite Xp, Xq. ring.
      + unfold w. field. intros C; rewrite C in Hv; discriminate.
      + rewrite Zp, Zq. unfold slice_z. field. intros C; rewrite C in Hv; discriminate.
    - intros (-> & r & Hr & Hin).
      destruct (outline_row b zi t _ Hv (corners_sliceable t Hc) Hin) as (x & Hx').
      { apply slice_voxel. reflexivity. }
      assert (Ey : Qfloor (vpmm b * (py (place b (inject_Z X) r (inject_Z zi + (1 # 2))) - TY b)) = y).
      { rewrite (Qfloor_comp _ r); [apply floor_is; lra|]. apply voxel_of. reflexivity. }
      rewrite Ey in Hx'. assert (x = X); [|subst; exact Hx']. clear Hin Ey. unfold outline in Hx'. destruct (intersectTriZPlane t (slice_z b zi)) as [[[p q] t']|] eqn:E; [|destruct Hx'].
      destruct (tri_sound _ _ _ _ _ E) as (-> & Zp & Zq & Ep & Eq).
      pose proof (in_triangle_plane px _ t p ltac:(auto) Hx (edge_in_triangle _ _ Ep)) as Xp. pose proof (in_triangle_plane px _ t q ltac:(auto) Hx (edge_in_triangle _ _ Eq)) as Xq.
      apply C27_in_box_and_near in Hx' as (Bx & _ & _). cbn [fst snd] in Bx. unfold gridi in Bx.
      rewrite (Qfloor_comp _ _ (voxel_of _ _ _ Xp)), (Qfloor_comp _ _ (voxel_of _ _ _ Xq)), floor_Z in Bx. unfold zbetween in Bx; lia.
  Qed.

  Lemma outline_y t Y x y : y_tri b Y t -> on_corners b t ->
    In (x, y) (outline b zi t) <-> y = Y /\ exists r, (inject_Z x <= r < inject_Z (x + 1))%Q /\ in_triangle t (place b r (inject_Z Y) (inject_Z zi + (1 # 2))).
  Proof using Hv Hfine.
    intros (Hy & _) Hc. split.
    - intros Ho. unfold outline in Ho. destruct (intersectTriZPlane t (slice_z b zi)) as [[[p q] t']|] eqn:E; [|destruct Ho].
      destruct (tri_sound _ _ _ _ _ E) as (-> & Zp & Zq & Ep & Eq).
      assert (Hs : forall s, (0 <= s <= 1)%Q -> in_triangle t (lerp p q s)) by (intros s Hs; apply (segment_in_triangle t p q); [assumption..|]; exists s; split; [exact Hs|reflexivity]).
      assert (Ip : in_triangle t p) by apply (edge_in_triangle _ _ Ep). assert (Iq : in_triangle t q) by apply (edge_in_triangle _ _ Eq).
      pose proof (in_triangle_plane py _ t p ltac:(auto) Hy Ip) as Yp. pose proof (in_triangle_plane py _ t q ltac:(auto) Hy Iq) as Yq.
      apply C27_in_box_and_near in Ho as (Bx & By & _). cbn [fst snd] in Bx, By. unfold gridi in Bx, By.
      rewrite (Qfloor_comp _ _ (voxel_of _ _ _ Yp)), (Qfloor_comp _ _ (voxel_of _ _ _ Yq)), floor_Z in By. split; [unfold zbetween in By; lia|].
      apply floor_hit in Bx as (s & Hs' & Ex). set (w := (vpmm b * (px p - TX b) + (vpmm b * (px q - TX b) - vpmm b * (px p - TX b)) * s)%Q) in *. exists w.
      split; [rewrite <- Ex; apply floor_bounds'|]. apply (in_triangle_ext t (lerp p q s)); [|apply Hs, Hs'].
      apply qpt_eq_iff. unfold lerp, place. unfold px, py, pz in *. cbn [fst snd]. split; [|split].
      + unfold w. field. intros C; rewrite C in Hv; discriminate.
      + rewrite Yp, Yq. ring.
      + rewrite Zp, Zq. unfold slice_z. field. intros C; rewrite C in Hv; discriminate.
    - intros (-> & r & Hr & Hin).
      destruct (outline_col b zi t _ Hv (corners_sliceable t Hc) Hin) as (y & Hy').
      { apply slice_voxel. reflexivity. }
      assert (Ex : Qfloor (vpmm b * (px (place b r (inject_Z Y) (inject_Z zi + (1 # 2))) - TX b)) = x).
      { rewrite (Qfloor_comp _ r); [apply floor_is; lra|]. apply voxel_of. reflexivity. }
      rewrite Ex in Hy'. assert (y = Y); [|subst; exact Hy']. clear Hin Ex. unfold outline in Hy'. destruct (intersectTriZPlane t (slice_z b zi)) as [[[p q] t']|] eqn:E; [|destruct Hy'].
      destruct (tri_sound _ _ _ _ _ E) as (-> & Zp & Zq & Ep & Eq).
      pose proof (in_triangle_plane py _ t p ltac:(auto) Hy (edge_in_triangle _ _ Ep)) as Yp. pose proof (in_triangle_plane py _ t q ltac:(auto) Hy (edge_in_triangle _ _ Eq)) as Yq.
      apply C27_in_box_and_near in Hy' as (_ & By & _). cbn [fst snd] in By. unfold gridi in By.
      rewrite (Qfloor_comp _ _ (voxel_of _ _ _ Yp)), (Qfloor_comp _ _ (voxel_of _ _ _ Yq)), floor_Z in By. unfold zbetween in By; lia.
  Qed.
End Walls.

(** ** The outline of the surface of a voxel model *)
Lemma mid_layer k k' : (inject_Z k' <= inject_Z k + (1 # 2) <= inject_Z (k' + 1))%Q -> k' = k.
Proof. unfold Qle, inject_Z, Qplus. cbn [Qnum Qden]. lia. Qed.
Lemma mid_layer_in k : (inject_Z k <= inject_Z k + (1 # 2) <= inject_Z (k + 1))%Q.
Proof. unfold Qle, inject_Z, Qplus. cbn [Qnum Qden]. lia. Qed.
Lemma row_face j y r : (inject_Z j <= r <= inject_Z (j + 1))%Q -> (inject_Z y <= r < inject_Z (y + 1))%Q -> j = y - 1 \/ j = y.
Proof.
  intros H1 H2. assert (A : (inject_Z j < inject_Z (y + 1))%Q) by lra. assert (B : (inject_Z y <= inject_Z (j + 1))%Q) by lra. rewrite <- Zlt_Qlt in A. rewrite <- Zle_Qle in B. lia.
Qed.
Lemma row_self y : (inject_Z y <= inject_Z y < inject_Z (y + 1))%Q.
Proof. split; [lra|]. rewrite <- Zlt_Qlt. lia. Qed.
Lemma face_row j y : j = y - 1 \/ j = y -> (inject_Z j <= inject_Z y <= inject_Z (j + 1))%Q.
Proof. intros H. split; rewrite <- Zle_Qle; lia. Qed.

(** The four voxels around the edge of the layer between (x-1, y-1) and (x, y) are alike. *)
Definition alike (V : gset key) (x y k : Z) : Prop :=
  ((x - 1, y - 1, k) ∈ V <-> (x, y, k) ∈ V) /\ ((x, y - 1, k) ∈ V <-> (x, y, k) ∈ V) /\ ((x - 1, y, k) ∈ V <-> (x, y, k) ∈ V).

Section Round.
  Context (b : binvox Q) (V : gset key) (mesh : list tri) (Hs : voxel_surface b V mesh).
  Context (Hv : (0 < vpmm b)%Q) (Hfine : (vpmm b <= 1000000000)%Q) (k : Z).

  Lemma x_hit out X x y : (exists t, In t mesh /\ x_tri b out X t /\ In (x, y) (outline b k t)) <-> x = X /\ (x_face V out X (y - 1) k \/ x_face V out X y k).
  Proof using Hs Hv Hfine.
    split.
    - intros (t & Ht & Hx & Ho). apply (outline_x b Hv Hfine k t out X x y Hx (proj1 (vs_kind _ _ _ Hs t Ht))) in Ho as (-> & r & Hr & Hin). split; [reflexivity|].
      destruct (proj1 (vs_x _ _ _ Hs out X r (inject_Z k + (1 # 2))%Q)) as (j & k' & Hf & Hj & Hk); [eauto|]. apply mid_layer in Hk. subst k'. destruct (row_face _ _ _ Hj Hr) as [-> | ->]; auto.
    - intros (-> & Hf). destruct (proj2 (vs_x _ _ _ Hs out X (inject_Z y) (inject_Z k + (1 # 2))%Q)) as (t & Ht & Hx & Hin).
      + destruct Hf as [Hf|Hf]; [exists (y - 1), k|exists y, k]; split; [exact Hf|split; [apply face_row; auto|apply mid_layer_in]|exact Hf|split; [apply face_row; auto|apply mid_layer_in]].
      + exists t. split; [exact Ht|]. split; [exact Hx|]. apply (outline_x b Hv Hfine k t out X X y Hx (proj1 (vs_kind _ _ _ Hs t Ht))). split; [reflexivity|]. exists (inject_Z y). split; [apply row_self|exact Hin].
  Qed.

  Lemma y_hit Y x y : (exists t, In t mesh /\ y_tri b Y t /\ In (x, y) (outline b k t)) <-> y = Y /\ (y_face V (x - 1) Y k \/ y_face V x Y k).
  Proof using Hs Hv Hfine.
    split.
    - intros (t & Ht & Hy & Ho). apply (outline_y b Hv Hfine k t Y x y Hy (proj1 (vs_kind _ _ _ Hs t Ht))) in Ho as (-> & r & Hr & Hin). split; [reflexivity|].
      destruct (proj1 (vs_y _ _ _ Hs Y r (inject_Z k + (1 # 2))%Q)) as (j & k' & Hf & Hj & Hk); [eauto|]. apply mid_layer in Hk. subst k'. destruct (row_face _ _ _ Hj Hr) as [-> | ->]; auto.
    - intros (-> & Hf). destruct (proj2 (vs_y _ _ _ Hs Y (inject_Z x) (inject_Z k + (1 # 2))%Q)) as (t & Ht & Hy & Hin).
      + destruct Hf as [Hf|Hf]; [exists (x - 1), k|exists x, k]; split; [exact Hf|split; [apply face_row; auto|apply mid_layer_in]|exact Hf|split; [apply face_row; auto|apply mid_layer_in]].
      + exists t. split; [exact Ht|]. split; [exact Hy|]. apply (outline_y b Hv Hfine k t Y x Y Hy (proj1 (vs_kind _ _ _ Hs t Ht))). split; [reflexivity|]. exists (inject_Z x). split; [apply row_self|exact Hin].
  Qed.

  Lemma shell_round x y : shell b mesh (x, y, k) <-> ~ alike V x y k.
  Proof using Hs Hv Hfine.
    unfold shell, kx, ky, kz. cbn [fst snd]. split.
    - intros (t & Ht & Ho) Ha. destruct (vs_kind _ _ _ Hs t Ht) as (_ & [(out & X & Hx)|[(Y & Hy)|(Z' & Hz)]]).
      + destruct (proj1 (x_hit out X x y)) as (<- & Hf); [eauto|]. unfold x_face, alike in *. destruct out; tauto.
      + destruct (proj1 (y_hit Y x y)) as (<- & Hf); [eauto|]. unfold y_face, alike in *. tauto.
      + exact (floor_none b Hv k t Z' x y Hz Ho).
    - intros Ha. unfold alike in Ha.
      assert (C : (exists out, x_face V out x (y - 1) k \/ x_face V out x y k) \/ (y_face V (x - 1) y k \/ y_face V x y k)).
      { unfold x_face, y_face.
        destruct (decide ((x - 1, y - 1, k) ∈ V)) as [A|A], (decide ((x, y - 1, k) ∈ V)) as [B|B], (decide ((x - 1, y, k) ∈ V)) as [C|C], (decide ((x, y, k) ∈ V)) as [D|D];
          first [exfalso; tauto | right; tauto | left; exists true; tauto | left; exists false; tauto]. }
      destruct C as [(out & Hf)|Hf].
      + destruct (proj2 (x_hit out x x y)) as (t & Ht & _ & Ho); [auto|]. eauto.
      + destruct (proj2 (y_hit y x y)) as (t & Ht & _ & Ho); [auto|]. eauto.
  Qed.

  (** ** Inside and outside *)
  Lemma leftmost_in y t x : leftmost b k y t x = true -> In (x, y) (outline b k t).
  Proof using.
    intros H. unfold leftmost in H. apply andb_true_iff in H as [H _]. apply existsb_exists in H as (x' & H & E). apply Z.eqb_eq in E. subst x'. unfold row_xs in H.
    apply in_map_iff in H as ([x' y'] & E & H). cbn [fst] in E. subst x'. apply filter_In in H as [H Ey]. apply Z.eqb_eq in Ey. cbn [snd] in Ey. subst y'. exact H.
  Qed.
  Lemma leftmost_wall out X y t : In t mesh -> x_tri b out X t -> In (X, y) (outline b k t) -> leftmost b k y t X = true.
  Proof using Hs Hv Hfine.
    intros Ht Hx Ho. unfold leftmost. apply andb_true_iff. split.
    - apply existsb_exists. exists X. split; [|apply Z.eqb_refl]. unfold row_xs. apply in_map_iff. exists (X, y). split; [reflexivity|]. apply filter_In. split; [exact Ho|apply Z.eqb_refl].
    - apply forallb_forall. intros x' Hx'. unfold row_xs in Hx'. apply in_map_iff in Hx' as ([x1 y1] & E & H). cbn [fst] in E. subst x1. apply filter_In in H as [H _].
      apply (outline_x b Hv Hfine k t out X x' y1 Hx (proj1 (vs_kind _ _ _ Hs t Ht))) in H as (-> & _). lia.
  Qed.

  Lemma facing_kind (out : bool) t : In t mesh -> (if out then facing_out t else facing_in t) = true -> (exists x y, In (x, y) (outline b k t)) -> exists X, x_tri b out X t.
  Proof using Hs Hv.
    intros Ht Hf (x & y & Ho). destruct (vs_kind _ _ _ Hs t Ht) as (_ & [(out' & X & Hx)|[(Y & Hy)|(Z' & Hz)]]).
    - exists X. replace out with out'; [exact Hx|]. destruct Hx as (_ & Hn). unfold facing_out, facing_in, qlt in Hf.
      destruct out, out'; try reflexivity; apply negb_true_iff in Hf.
      + assert (C : Qle_bool (px (tnorm t)) epsilon = true) by (apply Qle_bool_iff; rewrite Hn; unfold epsilon; lra). congruence.
      + assert (C : Qle_bool (- epsilon) (px (tnorm t)) = true) by (apply Qle_bool_iff; rewrite Hn; unfold epsilon; lra). congruence.
    - exfalso. destruct Hy as (_ & Hn). unfold facing_out, facing_in, qlt in Hf. destruct out; apply negb_true_iff in Hf.
      + assert (C : Qle_bool (px (tnorm t)) epsilon = true) by (apply Qle_bool_iff; rewrite Hn; unfold epsilon; lra). congruence.
      + assert (C : Qle_bool (- epsilon) (px (tnorm t)) = true) by (apply Qle_bool_iff; rewrite Hn; unfold epsilon; lra). congruence.
    - exfalso. exact (floor_none b Hv k t Z' x y Hz Ho).
  Qed.

  Lemma wall_facing (out : bool) X t : x_tri b out X t -> (if out then facing_out t else facing_in t) = true.
  Proof using.
    intros (_ & Hn). unfold facing_out, facing_in, qlt. destruct out; apply negb_true_iff, not_true_is_false; intros C; apply Qle_bool_iff in C; rewrite Hn in C; unfold epsilon in C; lra.
  Qed.

  Lemma count_wall (out : bool) y X : List.filter (fun t => leftmost b k y t X && if out then facing_out t else facing_in t) mesh = [] <-> ~ (x_face V out X (y - 1) k \/ x_face V out X y k).
  Proof using Hs Hv Hfine.
    split.
    - intros E Hf. destruct (proj2 (x_hit out X X y)) as (t & Ht & Hx & Ho); [auto|].
      assert (C : In t (List.filter (fun t => leftmost b k y t X && if out then facing_out t else facing_in t) mesh)).
      { apply filter_In. split; [exact Ht|]. rewrite (leftmost_wall out X y t Ht Hx Ho), (wall_facing out X t Hx). reflexivity. }
      rewrite E in C. destruct C.
    - intros Hn. apply Convex.filter_nil. intros t Ht. apply not_true_is_false. rewrite andb_true_iff. intros [Hl Hf]. apply leftmost_in in Hl.
      destruct (facing_kind out t Ht Hf ltac:(eauto)) as (X' & Hx). destruct (proj1 (x_hit out X' X y)) as (E & H); [eauto|]. subst X'. auto.
  Qed.

  Lemma balance_none' y X : ~ (x_face V false X (y - 1) k \/ x_face V false X y k) -> balance b mesh k y X <= 0.
  Proof using Hs Hv Hfine. intros H. apply (count_wall false) in H. unfold balance. rewrite H. cbn [length]. lia. Qed.
  Lemma balance_nout y X : ~ (x_face V true X (y - 1) k \/ x_face V true X y k) -> 0 <= balance b mesh k y X.
  Proof using Hs Hv Hfine. intros H. apply (count_wall true) in H. unfold balance. rewrite H. cbn [length]. lia. Qed.
  Lemma balance_in y X : (x_face V false X (y - 1) k \/ x_face V false X y k) -> ~ (x_face V true X (y - 1) k \/ x_face V true X y k) -> 0 < balance b mesh k y X.
  Proof using Hs Hv Hfine.
    intros H1 H2. apply (count_wall true) in H2. unfold balance. rewrite H2. cbn [length].
    destruct (List.filter (fun t => leftmost b k y t X && facing_in t) mesh) eqn:E; [|cbn [length]; lia]. apply (count_wall false) in E. contradiction.
  Qed.
  Lemma balance_out y X : (x_face V true X (y - 1) k \/ x_face V true X y k) -> ~ (x_face V false X (y - 1) k \/ x_face V false X y k) -> balance b mesh k y X < 0.
  Proof using Hs Hv Hfine.
    intros H1 H2. apply (count_wall false) in H2. unfold balance. rewrite H2. cbn [length].
    destruct (List.filter (fun t => leftmost b k y t X && facing_out t) mesh) eqn:E; [|cbn [length]; lia]. apply (count_wall true) in E. contradiction.
  Qed.

  Context (Hgrid : forall v, v ∈ V -> in_grid (NX b) (NY b) (NZ b) v).

  Lemma alike_dec x y : {alike V x y k} + {~ alike V x y k}.
  Proof using.
    unfold alike. destruct (decide ((x - 1, y - 1, k) ∈ V)), (decide ((x, y - 1, k) ∈ V)), (decide ((x - 1, y, k) ∈ V)), (decide ((x, y, k) ∈ V)); first [left; tauto | right; tauto].
  Qed.

  Lemma shell_right n : forall x y, NX b - x <= Z.of_nat n -> (x, y, k) ∈ V -> exists x', x < x' /\ ~ alike V x' y k.
  Proof using Hgrid.
    induction n as [|n IH]; intros x y Hn Hx.
    - apply Hgrid in Hx. unfold in_grid, in_region, kx, ky, kz in Hx. cbn [fst snd] in Hx. lia.
    - destruct (alike_dec (x + 1) y) as [A|A]; [|exists (x + 1); split; [lia|exact A]].
      destruct (IH (x + 1) y ltac:(lia)) as (x' & H1 & H2); [|exists x'; split; [lia|exact H2]].
      destruct A as (_ & _ & A). replace (x + 1 - 1) with x in A by lia. apply A, Hx.
  Qed.

  Lemma in_left n : forall x y, x <= Z.of_nat n -> alike V x y k -> (x, y, k) ∈ V -> inside_at b mesh k y x.
  Proof using Hs Hv Hfine Hgrid.
    induction n as [|n IH]; intros x y Hn Ha Hx.
    - destruct Ha as (_ & _ & A). apply A, Hgrid in Hx. unfold in_grid, in_region, kx, ky, kz in Hx. cbn [fst snd] in Hx. lia.
    - pose proof Ha as (A1 & A2 & A3). apply A3 in Hx as L1. apply A1 in Hx as L2. destruct (alike_dec (x - 1) y) as [B|B].
      + destruct (IH (x - 1) y ltac:(lia) B L1) as (x' & H1 & H2 & H3). exists x'. split; [lia|]. split; [exact H2|]. intros x'' G1 G2.
        destruct (Z.eq_dec x'' (x - 1)) as [->|Hne]; [|apply H3; lia]. apply balance_nout. destruct B as (B1 & B2 & B3). unfold x_face. tauto.
      + exists (x - 1). split; [lia|]. split; [|intros; lia]. apply balance_in.
        * unfold x_face, alike in *.
          destruct (decide ((x - 1 - 1, y - 1, k) ∈ V)), (decide ((x - 1 - 1, y, k) ∈ V)); tauto.
        * unfold x_face. tauto.
  Qed.

  Lemma out_left n : forall x x' y, x - x' <= Z.of_nat n -> x' < x -> alike V x y k -> (x, y, k) ∉ V -> 0 < balance b mesh k y x' ->
    (forall x'', x' < x'' -> x'' < x -> 0 <= balance b mesh k y x'') -> False.
  Proof using Hs Hv Hfine.
    induction n as [|n IH]; intros x x' y Hn Hlt Ha Hx Hb Hmid; [lia|].
    pose proof Ha as (A1 & A2 & A3).
    assert (L1 : (x - 1, y, k) ∉ V) by tauto. assert (L2 : (x - 1, y - 1, k) ∉ V) by tauto.
    assert (Nin : balance b mesh k y (x - 1) <= 0) by (apply balance_none'; unfold x_face; tauto).
    destruct (Z.eq_dec x' (x - 1)) as [->|Hne]; [lia|].
    specialize (Hmid (x - 1) ltac:(lia) ltac:(lia)) as Hm.
    destruct (alike_dec (x - 1) y) as [B|B].
    - apply (IH (x - 1) x' y); [lia|lia|exact B|exact L1|exact Hb|]. intros x'' G1 G2. apply Hmid; lia.
    - assert (C : balance b mesh k y (x - 1) < 0); [|lia]. apply balance_out; unfold x_face, alike in *.
      + destruct (decide ((x - 1 - 1, y - 1, k) ∈ V)), (decide ((x - 1 - 1, y, k) ∈ V)); tauto.
      + tauto.
  Qed.

  Lemma solid_round x y : 0 <= y < NY b -> 0 <= x < NX b -> solid b mesh k (x, y, k) <-> grown V (x, y, k).
  Proof using Hs Hv Hfine Hgrid.
    intros Hy Hx. unfold solid, grown. cbn [kz snd]. change (ky (x, y, k)) with y. change (kx (x, y, k)) with x. setoid_rewrite shell_round. split.
    - intros (_ & _ & _ & [Hm|(_ & (x' & H1 & H2 & H3) & _)]).
      + unfold alike in Hm. destruct (decide ((x - 1, y - 1, k) ∈ V)), (decide ((x, y - 1, k) ∈ V)), (decide ((x - 1, y, k) ∈ V)), (decide ((x, y, k) ∈ V)); tauto.
      + destruct (alike_dec x y) as [A|A].
        * destruct (decide ((x, y, k) ∈ V)) as [D|D]; [tauto|]. exfalso. exact (out_left (Z.to_nat (x - x')) x x' y ltac:(lia) H1 A D H2 H3).
        * unfold alike in A. destruct (decide ((x - 1, y - 1, k) ∈ V)), (decide ((x, y - 1, k) ∈ V)), (decide ((x - 1, y, k) ∈ V)), (decide ((x, y, k) ∈ V)); tauto.
    - intros Hg. split; [reflexivity|]. split; [exact Hy|]. split; [lia|]. destruct (alike_dec x y) as [A|A]; [|left; exact A]. right. split; [lia|].
      assert (D : (x, y, k) ∈ V) by (unfold alike in A; tauto). split; [apply (in_left (Z.to_nat x)); [lia|exact A|exact D]|]. apply (shell_right (Z.to_nat (NX b - x))); [lia|exact D].
  Qed.

  Lemma solid_grid x y : 0 <= y < NY b -> solid b mesh k (x, y, k) -> 0 <= x.
  Proof using Hs Hv Hfine Hgrid.
    intros Hy (_ & _ & _ & [Hm|(H & _)]); [|exact H]. apply shell_round in Hm. destruct (Z_lt_le_dec x 0) as [C|C]; [|exact C]. exfalso. apply Hm.
    assert (N : forall a c, a < 0 -> (a, c, k) ∉ V) by (intros a c Ha Hc; apply Hgrid in Hc; unfold in_grid, in_region, kx in Hc; cbn [fst] in Hc; lia).
    pose proof (N x y ltac:(lia)). pose proof (N (x - 1) y ltac:(lia)). pose proof (N x (y - 1) ltac:(lia)). pose proof (N (x - 1) (y - 1) ltac:(lia)). unfold alike. tauto.
  Qed.
End Round.

(** ** The theorem *)

(** Voxelizing the surface of a voxel model sets the voxels of the model and those next to them at +x, at +y and at +x +y, and no others:
    the outcome is the model, one voxel thicker along x and along y. *)
Theorem C84_grows b V mesh k : zero_dim b = false -> (0 < vpmm b <= 1000000000)%Q -> NoDup (map taddr mesh) ->
  (forall v, v ∈ V -> in_grid (NX b) (NY b) (NZ b) v) -> voxel_surface b V mesh ->
  result_voxels (Voxelize b mesh) k <-> in_grid (NX b) (NY b) (NZ b) k /\ grown V k.
Proof.
  intros Hz (Hv & Hf) Hn Hg Hs. rewrite (Voxelize_in b mesh Hz Hn k). destruct k as [[x y] z]. unfold in_grid, in_region, kx, ky, kz. cbn [fst snd]. split.
  - intros (Hz' & H). pose proof H as (_ & Hy & Hx & _). change (ky (x, y, z)) with y in Hy. change (kx (x, y, z)) with x in Hx.
    pose proof (solid_grid b V mesh Hs Hv Hf z Hg x y Hy H) as Hx0. split; [lia|]. apply (solid_round b V mesh Hs Hv Hf z Hg x y Hy ltac:(lia)). exact H.
  - intros (Hin & H). split; [lia|]. apply (solid_round b V mesh Hs Hv Hf z Hg x y ltac:(lia) ltac:(lia)). exact H.
Qed.
Print Assumptions C84_grows.
