(** C84 for the mesh of ToMesh, and repeated. *)
From Verif Require Import Base BaseLemmas BinvoxSpec BinvoxModel Geom VoxelizeModel VoxelizeSpec VoxelizeSlice VoxelizeProps MeshSpec MarchModel ToMesh ToMeshWind VoxelRound.
From Coq Require Import ZArith QArith Qround Qabs List Lia Lqa Bool Permutation.
From stdpp Require Import base list gmap.
Import ListNotations.
Open Scope Z_scope.

(** ** Specification *)

(** The vertices of a triangle. *)
Definition tri_face (t : tri) : face := (tv1 t, tv2 t, tv3 t).
(** The normal of [t] is the unit vector along (V2-V1) x (V3-V1), as fauxgl's NewTriangle sets it. *)
Definition right_hand (t : tri) : Prop :=
  let u := ((px (tv2 t) - px (tv1 t))%Q, (py (tv2 t) - py (tv1 t))%Q, (pz (tv2 t) - pz (tv1 t))%Q) in
  let w := ((px (tv3 t) - px (tv1 t))%Q, (py (tv3 t) - py (tv1 t))%Q, (pz (tv3 t) - pz (tv1 t))%Q) in
  (px (tnorm t) * px (tnorm t) + py (tnorm t) * py (tnorm t) + pz (tnorm t) * pz (tnorm t) == 1)%Q /\
  exists c, (0 < c)%Q /\ (px (tnorm t) == c * (py u * pz w - pz u * py w) /\ py (tnorm t) == c * (pz u * px w - px u * pz w) /\ pz (tnorm t) == c * (px u * py w - py u * px w))%Q.

(** ** The mesh of ToMesh *)
Section Instance.
  Context (b : binvox Q) (Hv : (0 < vpmm b)%Q).

  Lemma Hne : ~ (vpmm b == 0)%Q.
  Proof using Hv. intros C. rewrite C in Hv. discriminate. Qed.

  (** Voxel coordinates. *)
  Definition cx (p : qpt) : Q := (vpmm b * (px p - TX b))%Q.
  Definition cy (p : qpt) : Q := (vpmm b * (py p - TY b))%Q.
  Definition cz (p : qpt) : Q := (vpmm b * (pz p - TZ b))%Q.
  Definition at_corner (v : key) (sx sy sz : Z) : qpt := move_back b (ToMeshWind.corner v sx sy sz).
  Lemma at_corner_world v dx dy dz : qpt_eq (at_corner v (2 * dx - 1) (2 * dy - 1) (2 * dz - 1)) (world b (kx v + dx, ky v + dy, kz v + dz)).
  Proof using Hv.
    pose proof Hne as N. apply qpt_eq_iff. unfold at_corner, move_back, ToMeshWind.corner, world, px, py, pz, kx, ky, kz. cbn [fst snd].
    assert (H : forall n d o, (((inject_Z n + (2 * d - 1 # 2)) + (1 # 2)) * (1 / vpmm b) + o == o + inject_Z (n + d) / vpmm b)%Q).
    { intros n d o. assert (E : ((inject_Z n + (2 * d - 1 # 2)) + (1 # 2) == inject_Z (n + d))%Q) by (unfold Qeq, Qplus, inject_Z; cbn [Qnum Qden]; lia). rewrite E. field. exact N. }
    repeat split; apply H.
  Qed.

  Lemma tri_coords t r a c d A B C : (a + c + d == 1)%Q -> qpt_eq r (comb3 a c d (tv1 t) (tv2 t) (tv3 t)) ->
    qpt_eq (tv1 t) (world b A) -> qpt_eq (tv2 t) (world b B) -> qpt_eq (tv3 t) (world b C) ->
    (cx r == a * inject_Z (kx A) + c * inject_Z (kx B) + d * inject_Z (kx C) /\ cy r == a * inject_Z (ky A) + c * inject_Z (ky B) + d * inject_Z (ky C) /\
     cz r == a * inject_Z (kz A) + c * inject_Z (kz B) + d * inject_Z (kz C))%Q.
  Proof using Hv.
    intros Hs E E1 E2 E3. pose proof Hne as N. apply qpt_eq_iff in E as (Ex & Ey & Ez). apply qpt_eq_iff in E1 as (X1 & Y1 & Z1). apply qpt_eq_iff in E2 as (X2 & Y2 & Z2). apply qpt_eq_iff in E3 as (X3 & Y3 & Z3).
    unfold cx, cy, cz. rewrite Ex, Ey, Ez. unfold comb3. unfold world in *. unfold px, py, pz in *. cbn [fst snd] in *. rewrite X1, Y1, Z1, X2, Y2, Z2, X3, Y3, Z3.
    assert (H : forall o i j k, (vpmm b * (a * (o + i / vpmm b) + c * (o + j / vpmm b) + d * (o + k / vpmm b) - o) == a * i + c * j + d * k)%Q).
    { intros o i j k. transitivity (vpmm b * o * (a + c + d - 1) + (a * i + c * j + d * k))%Q; [field; exact N|rewrite Hs; ring]. }
    repeat split; apply H.
  Qed.

  Lemma place_coords x y z : (cx (place b x y z) == x /\ cy (place b x y z) == y /\ cz (place b x y z) == z)%Q.
  Proof using Hv. pose proof Hne as N. unfold cx, cy, cz, place, px, py, pz. cbn [fst snd]. repeat split; field; exact N. Qed.

  Lemma coords_point p x y z : (cx p == x)%Q -> (cy p == y)%Q -> (cz p == z)%Q -> qpt_eq (place b x y z) p.
  Proof using Hv.
    intros Hx Hy Hz. pose proof Hne as N. apply qpt_eq_iff. unfold place. cbn [px py pz fst snd]. unfold px, py, pz in *. cbn [fst snd].
    rewrite <- Hx, <- Hy, <- Hz. unfold cx, cy, cz, px, py, pz. repeat split; field; exact N.
  Qed.

  (** A triangle with corners [A], [B], [C]. *)
  Definition has_corners (t : tri) (A B C : key) : Prop := qpt_eq (tv1 t) (world b A) /\ qpt_eq (tv2 t) (world b B) /\ qpt_eq (tv3 t) (world b C).

  Lemma corners_on t A B C : has_corners t A B C -> on_corners b t.
  Proof using. intros (H1 & H2 & H3) p [-> | [-> | ->]]; eauto. Qed.

  Lemma corners_x t A B C X : has_corners t A B C -> kx A = X -> kx B = X -> kx C = X -> in_plane px (TX b + inject_Z X / vpmm b) t.
  Proof using.
    intros (H1 & H2 & H3) <- EB EC. apply qpt_eq_iff in H1 as (H1 & _ & _). apply qpt_eq_iff in H2 as (H2 & _ & _). apply qpt_eq_iff in H3 as (H3 & _ & _).
    unfold in_plane. rewrite H1, H2, H3. unfold world, px. cbn [fst]. rewrite EB, EC. repeat split; reflexivity.
  Qed.
  Lemma corners_y t A B C Y : has_corners t A B C -> ky A = Y -> ky B = Y -> ky C = Y -> in_plane py (TY b + inject_Z Y / vpmm b) t.
  Proof using.
    intros (H1 & H2 & H3) <- EB EC. apply qpt_eq_iff in H1 as (_ & H1 & _). apply qpt_eq_iff in H2 as (_ & H2 & _). apply qpt_eq_iff in H3 as (_ & H3 & _).
    unfold in_plane. rewrite H1, H2, H3. unfold world, py. cbn [fst snd]. rewrite EB, EC. repeat split; reflexivity.
  Qed.
  Lemma corners_z t A B C Z' : has_corners t A B C -> kz A = Z' -> kz B = Z' -> kz C = Z' -> in_plane pz (TZ b + inject_Z Z' / vpmm b) t.
  Proof using.
    intros (H1 & H2 & H3) <- EB EC. apply qpt_eq_iff in H1 as (_ & _ & H1). apply qpt_eq_iff in H2 as (_ & _ & H2). apply qpt_eq_iff in H3 as (_ & _ & H3).
    unfold in_plane. rewrite H1, H2, H3. unfold world, pz. cbn [snd]. rewrite EB, EC. repeat split; reflexivity.
  Qed.

  (** The x of the normal: along (dy2 dz3 - dz2 dy3). *)
  Lemma normal_x t A B C : has_corners t A B C -> right_hand t ->
    let g := (ky B - ky A) * (kz C - kz A) - (kz B - kz A) * (ky C - ky A) in
    exists c, (0 < c)%Q /\ (px (tnorm t) == c * inject_Z g)%Q.
  Proof using Hv.
    intros (H1 & H2 & H3) (_ & c & Hc & Hn & _) g. cbn [px py pz fst snd] in Hn. pose proof Hne as N.
    apply qpt_eq_iff in H1 as (_ & Y1 & Z1). apply qpt_eq_iff in H2 as (_ & Y2 & Z2). apply qpt_eq_iff in H3 as (_ & Y3 & Z3). unfold world, py, pz in *. cbn [fst snd] in *.
    rewrite Y1, Y2, Y3, Z1, Z2, Z3 in Hn. exists (c / (vpmm b * vpmm b))%Q. split.
    - apply Qlt_shift_div_l; [nra|lra].
    - rewrite Hn. unfold g, Z.sub. rewrite !inject_Z_plus, !inject_Z_opp, !inject_Z_mult, !inject_Z_plus, !inject_Z_opp. field. exact N.
  Qed.

  Lemma flat_normal t X : in_plane px X t -> right_hand t -> (px (tnorm t) * px (tnorm t) == 1)%Q.
  Proof using.
    intros (H1 & H2 & H3) (Hu & c & _ & _ & Ny & Nz). cbn [px py pz fst snd] in Ny, Nz. unfold px in H1, H2, H3. unfold px, py, pz in *. cbn [fst snd] in *. rewrite H1, H2, H3 in Ny, Nz.
    assert (Ey : (snd (fst (tnorm t)) == 0)%Q) by (rewrite Ny; ring). assert (Ez : (snd (tnorm t) == 0)%Q) by (rewrite Nz; ring). rewrite Ey, Ez in Hu. lra.
  Qed.

  Lemma wall_normal t A B C out X : has_corners t A B C -> right_hand t -> kx A = X -> kx B = X -> kx C = X ->
    (ky B - ky A) * (kz C - kz A) - (kz B - kz A) * (ky C - ky A) = (if out : bool then 1 else -1) -> x_tri b out X t.
  Proof using Hv.
    intros Hc Hr HA HB HC Hg. pose proof (corners_x t A B C X Hc HA HB HC) as Hp. split; [exact Hp|]. pose proof (flat_normal t _ Hp Hr) as Hu.
    destruct (normal_x t A B C Hc Hr) as (c & Hc0 & Hn). rewrite Hg in Hn. destruct out.
    - change (inject_Z 1) with 1%Q in Hn. assert (P : (0 < px (tnorm t))%Q) by lra. assert (G : ((px (tnorm t) - 1) * (px (tnorm t) + 1) == 0)%Q) by lra. apply Qmult_integral in G as [G|G]; lra.
    - change (inject_Z (-1)) with (-(1))%Q in Hn. assert (P : (px (tnorm t) < 0)%Q) by lra. assert (G : ((px (tnorm t) - 1) * (px (tnorm t) + 1) == 0)%Q) by lra. apply Qmult_integral in G as [G|G]; lra.
  Qed.
  Lemma side_normal t A B C : has_corners t A B C -> right_hand t -> (ky B - ky A) * (kz C - kz A) - (kz B - kz A) * (ky C - ky A) = 0 -> (px (tnorm t) == 0)%Q.
  Proof using Hv. intros Hc Hr Hg. destruct (normal_x t A B C Hc Hr) as (c & _ & Hn). rewrite Hg in Hn. change (inject_Z 0) with 0%Q in Hn. rewrite Hn. ring. Qed.
End Instance.

Definition off (v : key) (dx dy dz : Z) : key := (kx v + dx, ky v + dy, kz v + dz).
Lemma off_self v : off v 0 0 0 = v.
Proof. destruct v as [[x y] z]. unfold off, kx, ky, kz. cbn [fst snd]. rewrite !Z.add_0_r. reflexivity. Qed.
Lemma off_xp x y z : off (x, y, z) 1 0 0 = (x + 1, y, z).
Proof. unfold off, kx, ky, kz. cbn [fst snd]. rewrite !Z.add_0_r. reflexivity. Qed.
Lemma off_xm x y z : off (x, y, z) (-1) 0 0 = (x - 1, y, z).
Proof. unfold off, kx, ky, kz. cbn [fst snd]. rewrite !Z.add_0_r. reflexivity. Qed.
Lemma off_yp x y z : off (x, y, z) 0 1 0 = (x, y + 1, z).
Proof. unfold off, kx, ky, kz. cbn [fst snd]. rewrite !Z.add_0_r. reflexivity. Qed.
Lemma off_ym x y z : off (x, y, z) 0 (-1) 0 = (x, y - 1, z).
Proof. unfold off, kx, ky, kz. cbn [fst snd]. rewrite !Z.add_0_r. reflexivity. Qed.

Section Mesh.
  Context (b : binvox Q) (Hv : (0 < vpmm b)%Q) (l : list key) (V : gset key) (HV : forall k, k ∈ V <-> k ∈ l).
  Context (mesh : list tri) (Hmesh : Permutation (map tri_face mesh) (transform (move_back b) (unit_faces l))) (Hright : forall t, In t mesh -> right_hand t).

  (** The two triangles of each face. *)
  Definition two_of (t : tri) (A B C D : key) : Prop := has_corners b t A B C \/ has_corners b t A C D.
  Definition face_xp v t := two_of t (off v 1 0 0) (off v 1 1 0) (off v 1 1 1) (off v 1 0 1).
  Definition face_xm v t := two_of t (off v 0 0 0) (off v 0 0 1) (off v 0 1 1) (off v 0 1 0).
  Definition face_yp v t := two_of t (off v 0 1 0) (off v 0 1 1) (off v 1 1 1) (off v 1 1 0).
  Definition face_ym v t := two_of t (off v 0 0 0) (off v 1 0 0) (off v 1 0 1) (off v 0 0 1).
  Definition face_zp v t := two_of t (off v 0 0 1) (off v 1 0 1) (off v 1 1 1) (off v 0 1 1).
  Definition face_zm v t := two_of t (off v 0 0 0) (off v 0 1 0) (off v 1 1 0) (off v 1 0 0).

  Lemma in_mesh_face t : In t mesh -> exists v, v ∈ V /\ exists f, In f (faces_of l v) /\ tri_face t = (let '(a, c, d) := f in (move_back b a, move_back b c, move_back b d)).
  Proof using Hmesh HV.
    intros Ht. apply (in_map tri_face) in Ht. apply (Permutation_in _ Hmesh) in Ht. unfold transform in Ht. apply in_map_iff in Ht as (f & E & Hf).
    unfold unit_faces in Hf. apply in_flat_map in Hf as (v & Hl & Hf). exists v. split; [apply HV, elem_of_list_In, Hl|]. exists f. split; [exact Hf|]. rewrite <- E. destruct f as [[? ?] ?]. reflexivity.
  Qed.
  Lemma face_in_mesh v f : v ∈ V -> In f (faces_of l v) -> exists t, In t mesh /\ tri_face t = (let '(a, c, d) := f in (move_back b a, move_back b c, move_back b d)).
  Proof using Hmesh HV.
    intros Hl Hf. assert (H : In (let '(a, c, d) := f in (move_back b a, move_back b c, move_back b d)) (map tri_face mesh)).
    { apply (Permutation_in _ (Permutation_sym Hmesh)). unfold transform. apply in_map_iff. exists f. split; [destruct f as [[? ?] ?]; reflexivity|].
      unfold unit_faces. apply in_flat_map. exists v. split; [apply elem_of_list_In, HV, Hl|exact Hf]. }
    apply in_map_iff in H as (t & E & Ht). eauto.
  Qed.

  Lemma has_of t v x1 y1 z1 x2 y2 z2 x3 y3 z3 :
    tri_face t = (at_corner b v (2 * x1 - 1) (2 * y1 - 1) (2 * z1 - 1), at_corner b v (2 * x2 - 1) (2 * y2 - 1) (2 * z2 - 1), at_corner b v (2 * x3 - 1) (2 * y3 - 1) (2 * z3 - 1)) ->
    has_corners b t (off v x1 y1 z1) (off v x2 y2 z2) (off v x3 y3 z3).
  Proof using Hv. intros E. injection E as E1 E2 E3. unfold has_corners. rewrite E1, E2, E3. split; [|split]; apply at_corner_world, Hv. Qed.

  Lemma if_open_iff v m f : In f (if_open l v m) <-> In f m /\ v ∉ V.
  Proof using HV. rewrite HV. unfold if_open, has. case_bool_decide; cbn [In]; tauto. Qed.

  Ltac by_quad H := destruct H as [H|[H|[]]]; subst; [left|right]; apply has_of; assumption.

  Lemma mesh_cases t : In t mesh -> exists v, v ∈ V /\
    (off v 1 0 0 ∉ V /\ face_xp v t \/ off v (-1) 0 0 ∉ V /\ face_xm v t \/ off v 0 1 0 ∉ V /\ face_yp v t \/ off v 0 (-1) 0 ∉ V /\ face_ym v t \/ face_zp v t \/ face_zm v t).
  Proof using Hv Hmesh HV.
    intros Ht. destruct (in_mesh_face t Ht) as (v & Hl & f & Hf & E). exists v. split; [exact Hl|].
    unfold faces_of, walls in Hf. destruct v as [[x y] z]. rewrite off_xp, off_xm, off_yp, off_ym.
    rewrite !in_app_iff, !if_open_iff in Hf. unfold quad, top, bottom in Hf. cbn [In] in Hf.
    destruct Hf as [[[Hf Ho]|[[Hf Ho]|[[Hf Ho]|[Hf Ho]]]]|[[Hf Ho]|[Hf Ho]]].
    - left. split; [exact Ho|]. by_quad Hf.
    - right; left. split; [exact Ho|]. by_quad Hf.
    - do 2 right; left. split; [exact Ho|]. by_quad Hf.
    - do 3 right; left. split; [exact Ho|]. by_quad Hf.
    - do 4 right; left. by_quad Hf.
    - do 5 right. by_quad Hf.
  Qed.

  (** Both triangles of every wall are there. *)
  Definition both (P : key -> tri -> Prop) (v : key) (A B C D : key) : Prop :=
    (exists t, In t mesh /\ P v t /\ has_corners b t A B C) /\ (exists t, In t mesh /\ P v t /\ has_corners b t A C D).
  Ltac get_tri Hl v k1 := 
    match goal with |- exists t, In t mesh /\ _ /\ has_corners b t (off v ?x1 ?y1 ?z1) (off v ?x2 ?y2 ?z2) (off v ?x3 ?y3 ?z3) =>
      destruct (face_in_mesh v (ToMeshWind.corner v (2 * x1 - 1) (2 * y1 - 1) (2 * z1 - 1), ToMeshWind.corner v (2 * x2 - 1) (2 * y2 - 1) (2 * z2 - 1), ToMeshWind.corner v (2 * x3 - 1) (2 * y3 - 1) (2 * z3 - 1)) Hl) as (t & Ht & E);
      [ k1 | apply has_of in E; exists t; split; [exact Ht|]; split; [first [left; exact E|right; exact E]|exact E] ] end.

  Lemma walls_there v : v ∈ V ->
    (off v 1 0 0 ∉ V -> both face_xp v (off v 1 0 0) (off v 1 1 0) (off v 1 1 1) (off v 1 0 1)) /\
    (off v (-1) 0 0 ∉ V -> both face_xm v (off v 0 0 0) (off v 0 0 1) (off v 0 1 1) (off v 0 1 0)) /\
    (off v 0 1 0 ∉ V -> both face_yp v (off v 0 1 0) (off v 0 1 1) (off v 1 1 1) (off v 1 1 0)) /\
    (off v 0 (-1) 0 ∉ V -> both face_ym v (off v 0 0 0) (off v 1 0 0) (off v 1 0 1) (off v 0 0 1)).
  Proof using Hv Hmesh HV.
    intros Hl.
    assert (Hw : forall f, In f (walls l v) -> In f (faces_of l v)) by (intros f Hf; unfold faces_of; rewrite in_app_iff; auto).
    assert (Hx : forall o m, (let '(x, y, z) := v in o = (x + 1, y, z) /\ m = quad (ToMeshWind.corner (x, y, z) 1 (-1) (-1)) (ToMeshWind.corner (x, y, z) 1 1 (-1)) (ToMeshWind.corner (x, y, z) 1 1 1) (ToMeshWind.corner (x, y, z) 1 (-1) 1) \/
       o = (x - 1, y, z) /\ m = quad (ToMeshWind.corner (x, y, z) (-1) (-1) (-1)) (ToMeshWind.corner (x, y, z) (-1) (-1) 1) (ToMeshWind.corner (x, y, z) (-1) 1 1) (ToMeshWind.corner (x, y, z) (-1) 1 (-1)) \/
       o = (x, y + 1, z) /\ m = quad (ToMeshWind.corner (x, y, z) (-1) 1 (-1)) (ToMeshWind.corner (x, y, z) (-1) 1 1) (ToMeshWind.corner (x, y, z) 1 1 1) (ToMeshWind.corner (x, y, z) 1 1 (-1)) \/
       o = (x, y - 1, z) /\ m = quad (ToMeshWind.corner (x, y, z) (-1) (-1) (-1)) (ToMeshWind.corner (x, y, z) 1 (-1) (-1)) (ToMeshWind.corner (x, y, z) 1 (-1) 1) (ToMeshWind.corner (x, y, z) (-1) (-1) 1)) ->
       o ∉ V -> forall f, In f m -> In f (walls l v)).
    { intros o m Ho Hn f Hf. unfold walls. destruct v as [[x y] z]. rewrite !in_app_iff, !if_open_iff.
      destruct Ho as [[-> ->]|[[-> ->]|[[-> ->]|[-> ->]]]]; auto 10. }
    destruct v as [[x y] z]. pose proof (off_xp x y z) as Exp. pose proof (off_xm x y z) as Exm. pose proof (off_yp x y z) as Eyp. pose proof (off_ym x y z) as Eym.
    split; [|split; [|split]]; intros Ho; [rewrite Exp in Ho|rewrite Exm in Ho|rewrite Eyp in Ho|rewrite Eym in Ho]; split; get_tri Hl (x, y, z) ltac:(apply Hw; refine (Hx _ _ _ Ho _ _); [first [left; split; reflexivity|right; left; split; reflexivity|do 2 right; left; split; reflexivity|do 3 right; split; reflexivity]|unfold quad; cbn [In]; auto]).
  Qed.
End Mesh.

Section Squares.
  Context (b : binvox Q) (Hv : (0 < vpmm b)%Q).

  Lemma place_in t A B C a c d x y z : has_corners b t A B C -> (0 <= a)%Q -> (0 <= c)%Q -> (0 <= d)%Q -> (a + c + d == 1)%Q ->
    (a * inject_Z (kx A) + c * inject_Z (kx B) + d * inject_Z (kx C) == x)%Q -> (a * inject_Z (ky A) + c * inject_Z (ky B) + d * inject_Z (ky C) == y)%Q ->
    (a * inject_Z (kz A) + c * inject_Z (kz B) + d * inject_Z (kz C) == z)%Q -> in_triangle t (place b x y z).
  Proof using Hv.
    intros (H1 & H2 & H3) Ha Hc Hd Hs Hx Hy Hz. exists a, c, d. split; [auto|].
    destruct (tri_coords b Hv t (comb3 a c d (tv1 t) (tv2 t) (tv3 t)) a c d A B C Hs ltac:(reflexivity) H1 H2 H3) as (Ex & Ey & Ez).
    apply coords_point; [exact Hv|..]; [rewrite Ex|rewrite Ey|rewrite Ez]; assumption.
  Qed.

  Lemma place_out t A B C x y z : has_corners b t A B C -> in_triangle t (place b x y z) ->
    exists a c d, (0 <= a)%Q /\ (0 <= c)%Q /\ (0 <= d)%Q /\ (a + c + d == 1)%Q /\
    (x == a * inject_Z (kx A) + c * inject_Z (kx B) + d * inject_Z (kx C))%Q /\ (y == a * inject_Z (ky A) + c * inject_Z (ky B) + d * inject_Z (ky C))%Q /\
    (z == a * inject_Z (kz A) + c * inject_Z (kz B) + d * inject_Z (kz C))%Q.
  Proof using Hv.
    intros (H1 & H2 & H3) (a & c & d & (Ha & Hc & Hd & Hs) & E). exists a, c, d.
    destruct (tri_coords b Hv t _ a c d A B C Hs E H1 H2 H3) as (Ex & Ey & Ez). destruct (place_coords b Hv x y z) as (Px & Py & Pz).
    rewrite Px in Ex. rewrite Py in Ey. rewrite Pz in Ez. repeat split; assumption.
  Qed.

  Lemma comb_bounds a c d n i j k : (0 <= a)%Q -> (0 <= c)%Q -> (0 <= d)%Q -> (a + c + d == 1)%Q -> n <= i <= n + 1 -> n <= j <= n + 1 -> n <= k <= n + 1 ->
    (inject_Z n <= a * inject_Z i + c * inject_Z j + d * inject_Z k <= inject_Z (n + 1))%Q.
  Proof using.
    intros Ha Hc Hd Hs Hi Hj Hk. rewrite !Zle_Qle in Hi, Hj, Hk. set (p := inject_Z n) in *. set (q := inject_Z (n + 1)) in *.
    assert (B : forall w i, (0 <= w -> p <= i <= q -> w * p <= w * i <= w * q)%Q) by (intros w i' Hw Hi'; split; nra).
    pose proof (B a _ Ha Hi). pose proof (B c _ Hc Hj). pose proof (B d _ Hd Hk).
    assert (E1 : (p == a * p + c * p + d * p)%Q) by (transitivity ((a + c + d) * p)%Q; [rewrite Hs; ring|ring]). assert (E2 : (q == a * q + c * q + d * q)%Q) by (transitivity ((a + c + d) * q)%Q; [rewrite Hs; ring|ring]).
    split; lra.
  Qed.

  (** A point of a triangle with its corners among those of the voxel [v] lies in its cube. *)
  Lemma near_corners t v x1 y1 z1 x2 y2 z2 x3 y3 z3 x y z : has_corners b t (off v x1 y1 z1) (off v x2 y2 z2) (off v x3 y3 z3) ->
    (0 <= x1 <= 1 /\ 0 <= x2 <= 1 /\ 0 <= x3 <= 1) -> (0 <= y1 <= 1 /\ 0 <= y2 <= 1 /\ 0 <= y3 <= 1) -> (0 <= z1 <= 1 /\ 0 <= z2 <= 1 /\ 0 <= z3 <= 1) ->
    in_triangle t (place b x y z) ->
    (inject_Z (kx v) <= x <= inject_Z (kx v + 1) /\ inject_Z (ky v) <= y <= inject_Z (ky v + 1) /\ inject_Z (kz v) <= z <= inject_Z (kz v + 1))%Q.
  Proof using Hv.
    intros Hc X Y Z' Hin. destruct (place_out _ _ _ _ _ _ _ Hc Hin) as (a & c & d & Ha & Hc' & Hd & Hs & Ex & Ey & Ez). rewrite Ex, Ey, Ez. unfold off, kx, ky, kz. cbn [fst snd].
    split; [|split]; apply comb_bounds; try assumption; lia.
  Qed.

  (** The unit square between the corners (0,0), (1,0), (1,1), (0,1) and its two triangles. *)
  Lemma square_split (u w : Q) : (0 <= u <= 1)%Q -> (0 <= w <= 1)%Q ->
    (0 <= 1 - u /\ 0 <= u - w /\ 0 <= w)%Q \/ (0 <= 1 - w /\ 0 <= u /\ 0 <= w - u)%Q.
  Proof using. intros Hu Hw. destruct (Qlt_le_dec w u); [left|right]; lra. Qed.
  Lemma unit_of n y : (inject_Z n <= y <= inject_Z (n + 1))%Q -> (0 <= y - inject_Z n <= 1)%Q.
  Proof using. rewrite inject_Z_plus. change (inject_Z 1) with 1%Q. intros H. lra. Qed.
End Squares.

Ltac weights := unfold off, kx, ky, kz; cbn [fst snd]; rewrite ?inject_Z_plus; change (inject_Z 1) with 1%Q; change (inject_Z 0) with 0%Q; ring.

Section Surface.
  Context (b : binvox Q) (Hv : (0 < vpmm b)%Q) (l : list key) (V : gset key) (HV : forall k, k ∈ V <-> k ∈ l).
  Context (mesh : list tri) (Hmesh : Permutation (map tri_face mesh) (transform (move_back b) (unit_faces l))) (Hright : forall t, In t mesh -> right_hand t).

  Lemma xp_tri t v : In t mesh -> face_xp b v t -> x_tri b true (kx v + 1) t.
  Proof using All.
    intros Ht [H|H]; (eapply (wall_normal b Hv); [exact H|exact (Hright t Ht)|..]; unfold off, kx, ky, kz; cbn [fst snd]; try reflexivity; lia).
  Qed.
  Lemma xm_tri t v : In t mesh -> face_xm b v t -> x_tri b false (kx v) t.
  Proof using All.
    intros Ht [H|H]; (eapply (wall_normal b Hv); [exact H|exact (Hright t Ht)|..]; unfold off, kx, ky, kz; cbn [fst snd]; try lia).
  Qed.
  Lemma yp_tri t v : In t mesh -> face_yp b v t -> y_tri b (ky v + 1) t.
  Proof using All.
    intros Ht [H|H]; (split; [eapply corners_y; [exact H|..]; unfold off, ky; cbn [fst snd]; reflexivity|eapply (side_normal b Hv); [exact H|exact (Hright t Ht)|]; unfold off, kx, ky, kz; cbn [fst snd]; lia]).
  Qed.
  Lemma ym_tri t v : In t mesh -> face_ym b v t -> y_tri b (ky v) t.
  Proof using All.
    intros Ht [H|H]; (split; [eapply corners_y; [exact H|..]; unfold off, ky; cbn [fst snd]; lia|eapply (side_normal b Hv); [exact H|exact (Hright t Ht)|]; unfold off, kx, ky, kz; cbn [fst snd]; lia]).
  Qed.
  Lemma z_tri_of t v : face_zp b v t \/ face_zm b v t -> exists Z', z_tri b Z' t.
  Proof using All.
    intros [H|H].
    - exists (kz v + 1). destruct H as [H|H]; (eapply corners_z; [exact H|..]; unfold off, kz; cbn [fst snd]; reflexivity).
    - exists (kz v). destruct H as [H|H]; (eapply corners_z; [exact H|..]; unfold off, kz; cbn [fst snd]; lia).
  Qed.
  (** A triangle of a floor has no x in its normal. *)
  Lemma floor_x t v : In t mesh -> face_zp b v t \/ face_zm b v t -> (px (tnorm t) == 0)%Q.
  Proof using All.
    intros Ht [H|H]; destruct H as [H|H]; (eapply (side_normal b Hv); [exact H|exact (Hright t Ht)|]; unfold off, kx, ky, kz; cbn [fst snd]; lia).
  Qed.

  Lemma two_corners t A B C D : two_of b t A B C D -> on_corners b t.
  Proof using All. intros [H|H]; exact (corners_on _ _ _ _ _ H). Qed.

  (** Where a triangle across x is. *)
  Lemma same_plane (X Y : Z) o p : (p == o + inject_Z X / vpmm b)%Q -> (p == o + inject_Z Y / vpmm b)%Q -> X = Y.
  Proof using All. intros H1 H2. apply (voxel_of b Hv) in H1, H2. rewrite H1 in H2. unfold Qeq, inject_Z in H2. cbn in H2. lia. Qed.
  Lemma same_x t out out' X X' : x_tri b out X t -> x_tri b out' X' t -> out = out' /\ X = X'.
  Proof using All.
    intros ((H1 & _) & N1) ((H2 & _) & N2). split; [|exact (same_plane _ _ _ _ H1 H2)]. rewrite N1 in N2. destruct out, out'; try reflexivity; discriminate.
  Qed.

  Lemma minus_face v : off v (-1) 0 0 = (kx v - 1, ky v, kz v).
  Proof using All. unfold off. rewrite !Z.add_0_r. reflexivity. Qed.
  Lemma key_eta v : (kx v, ky v, kz v) = v.
  Proof using All. destruct v as [[x y] z]. reflexivity. Qed.

  Theorem mesh_surface : voxel_surface b V mesh.
  Proof using All.
    constructor.
    - intros t Ht. destruct (mesh_cases b Hv l V HV mesh Hmesh t Ht) as (v & Hl & C).
      destruct C as [[_ C]|[[_ C]|[[_ C]|[[_ C]|[C|C]]]]]; (split; [exact (two_corners _ _ _ _ _ C)|]).
      + left. exists true, (kx v + 1). exact (xp_tri t v Ht C).
      + left. exists false, (kx v). exact (xm_tri t v Ht C).
      + right; left. exists (ky v + 1). exact (yp_tri t v Ht C).
      + right; left. exists (ky v). exact (ym_tri t v Ht C).
      + right; right. apply (z_tri_of t v). auto.
      + right; right. apply (z_tri_of t v). auto.
    - intros out X y z. split.
      + intros (t & Ht & Hx & Hin). destruct (mesh_cases b Hv l V HV mesh Hmesh t Ht) as (v & Hl & C).
        assert (No : (px (tnorm t) == 0)%Q -> False) by (destruct Hx as (_ & N); rewrite N; destruct out; intros E; discriminate E).
        destruct C as [[Ho C]|[[Ho C]|[[_ C]|[[_ C]|C]]]].
        * destruct (same_x _ _ _ _ _ Hx (xp_tri t v Ht C)) as (-> & ->). exists (ky v), (kz v). split.
          -- unfold x_face. replace (kx v + 1 - 1) with (kx v) by lia. rewrite key_eta. split; [exact Hl|]. unfold off in Ho. rewrite !Z.add_0_r in Ho. exact Ho.
          -- destruct C as [C|C]; apply (near_corners b Hv t v _ _ _ _ _ _ _ _ _ _ _ _ C) in Hin; try lia; apply Hin.
        * destruct (same_x _ _ _ _ _ Hx (xm_tri t v Ht C)) as (-> & ->). exists (ky v), (kz v). split.
          -- unfold x_face. rewrite key_eta. split; [|exact Hl]. rewrite minus_face in Ho. exact Ho.
          -- destruct C as [C|C]; apply (near_corners b Hv t v _ _ _ _ _ _ _ _ _ _ _ _ C) in Hin; try lia; apply Hin.
        * exfalso. apply No, (yp_tri t v Ht C).
        * exfalso. apply No, (ym_tri t v Ht C).
        * exfalso. apply No, (floor_x t v Ht C).
      + intros (j & k & Hf & Hy & Hz). apply unit_of in Hy, Hz. set (u := (y - inject_Z j)%Q) in *. set (w := (z - inject_Z k)%Q) in *. destruct out; destruct Hf as (H1 & H2).
        * set (v := (X - 1, j, k) : key). destruct (walls_there b Hv l V HV mesh Hmesh v H1) as (W & _ & _ & _).
          destruct W as ((t1 & T1 & F1 & C1) & (t2 & T2 & F2 & C2)); [unfold off, v, kx, ky, kz; cbn [fst snd]; rewrite !Z.add_0_r; replace (X - 1 + 1) with X by lia; exact H2|].
          assert (K : forall t, In t mesh -> face_xp b v t -> x_tri b true X t) by (intros t Ht Hf; replace X with (kx v + 1) by (unfold v, kx; cbn [fst]; lia); exact (xp_tri t v Ht Hf)).
          assert (EX : (inject_Z X == inject_Z (X - 1) + 1)%Q) by (change 1%Q with (inject_Z 1); rewrite <- inject_Z_plus; replace (X - 1 + 1) with X by lia; reflexivity).
          destruct (square_split u w Hy Hz) as [(P1 & P2 & P3)|(P1 & P2 & P3)].
          -- exists t1. split; [exact T1|]. split; [exact (K t1 T1 F1)|]. apply (place_in b Hv t1 _ _ _ (1 - u) (u - w) w _ _ _ C1); try assumption; [ring|rewrite EX; unfold v; weights|unfold v, u, w; weights|unfold v, u, w; weights].
          -- exists t2. split; [exact T2|]. split; [exact (K t2 T2 F2)|]. apply (place_in b Hv t2 _ _ _ (1 - w) u (w - u) _ _ _ C2); try assumption; [ring|rewrite EX; unfold v; weights|unfold v, u, w; weights|unfold v, u, w; weights].
        * set (v := (X, j, k) : key). destruct (walls_there b Hv l V HV mesh Hmesh v H2) as (_ & W & _ & _).
          destruct W as ((t1 & T1 & F1 & C1) & (t2 & T2 & F2 & C2)); [rewrite minus_face; exact H1|].
          assert (K : forall t, In t mesh -> face_xm b v t -> x_tri b false X t) by (intros t Ht Hf; exact (xm_tri t v Ht Hf)).
          destruct (square_split w u Hz Hy) as [(P1 & P2 & P3)|(P1 & P2 & P3)].
          -- exists t1. split; [exact T1|]. split; [exact (K t1 T1 F1)|]. apply (place_in b Hv t1 _ _ _ (1 - w) (w - u) u _ _ _ C1); try assumption; [ring|unfold v; weights|unfold v, u, w; weights|unfold v, u, w; weights].
          -- exists t2. split; [exact T2|]. split; [exact (K t2 T2 F2)|]. apply (place_in b Hv t2 _ _ _ (1 - u) w (u - w) _ _ _ C2); try assumption; [ring|unfold v; weights|unfold v, u, w; weights|unfold v, u, w; weights].
    - intros Y x z. split.
      + intros (t & Ht & Hy & Hin). destruct (mesh_cases b Hv l V HV mesh Hmesh t Ht) as (v & Hl & C). destruct Hy as ((Hy & Y2 & Y3) & Hn).
        assert (No : forall out X, x_tri b out X t -> False) by (intros out X (_ & N); rewrite Hn in N; destruct out; discriminate N).
        destruct C as [[_ C]|[[_ C]|[[Ho C]|[[Ho C]|C]]]].
        * exfalso. exact (No _ _ (xp_tri t v Ht C)).
        * exfalso. exact (No _ _ (xm_tri t v Ht C)).
        * destruct (yp_tri t v Ht C) as ((Hy' & _) & _). pose proof (same_plane _ _ _ _ Hy Hy') as ->. exists (kx v), (kz v). split.
          -- unfold y_face. replace (ky v + 1 - 1) with (ky v) by lia. rewrite key_eta. unfold off in Ho. rewrite !Z.add_0_r in Ho. tauto.
          -- destruct C as [C|C]; apply (near_corners b Hv t v _ _ _ _ _ _ _ _ _ _ _ _ C) in Hin; try lia; split; apply Hin.
        * destruct (ym_tri t v Ht C) as ((Hy' & _) & _). pose proof (same_plane _ _ _ _ Hy Hy') as ->. exists (kx v), (kz v). split.
          -- unfold y_face. rewrite key_eta. unfold off in Ho. rewrite !Z.add_0_r in Ho. change (ky v + -1) with (ky v - 1) in Ho. tauto.
          -- destruct C as [C|C]; apply (near_corners b Hv t v _ _ _ _ _ _ _ _ _ _ _ _ C) in Hin; try lia; split; apply Hin.
        * exfalso. rename Hy into Y1. assert (K : forall p v', qpt_eq p (world b v') -> (py p == TY b + inject_Z Y / vpmm b)%Q -> ky v' = Y).
          { intros p v' E H. apply qpt_eq_iff in E as (_ & E & _). exact (same_plane _ _ _ _ E H). }
          unfold face_zp, face_zm, two_of, has_corners in C.
          destruct C as [[(E1 & E2 & E3)|(E1 & E2 & E3)]|[(E1 & E2 & E3)|(E1 & E2 & E3)]];
            pose proof (K _ _ E1 Y1) as K1; pose proof (K _ _ E2 Y2) as K2; pose proof (K _ _ E3 Y3) as K3; unfold off, ky in K1, K2, K3; cbn [fst snd] in K1, K2, K3; lia.
      + intros (i & k & Hf & Hx & Hz). apply unit_of in Hx, Hz. set (u := (x - inject_Z i)%Q) in *. set (w := (z - inject_Z k)%Q) in *.
        destruct (decide ((i, Y - 1, k) ∈ V)) as [D|D].
        * assert (H2 : (i, Y, k) ∉ V) by (unfold y_face in Hf; tauto). set (v := (i, Y - 1, k) : key). destruct (walls_there b Hv l V HV mesh Hmesh v D) as (_ & _ & W & _).
          destruct W as ((t1 & T1 & F1 & C1) & (t2 & T2 & F2 & C2)); [unfold off, v, kx, ky, kz; cbn [fst snd]; rewrite !Z.add_0_r; replace (Y - 1 + 1) with Y by lia; exact H2|].
          assert (K : forall t, In t mesh -> face_yp b v t -> y_tri b Y t) by (intros t Ht Hf'; replace Y with (ky v + 1) by (unfold v, ky; cbn [fst snd]; lia); exact (yp_tri t v Ht Hf')).
          assert (EY : (inject_Z Y == inject_Z (Y - 1) + 1)%Q) by (change 1%Q with (inject_Z 1); rewrite <- inject_Z_plus; replace (Y - 1 + 1) with Y by lia; reflexivity).
          destruct (square_split w u Hz Hx) as [(P1 & P2 & P3)|(P1 & P2 & P3)].
          -- exists t1. split; [exact T1|]. split; [exact (K t1 T1 F1)|]. apply (place_in b Hv t1 _ _ _ (1 - w) (w - u) u _ _ _ C1); try assumption; [ring|unfold v, u, w; weights|rewrite EY; unfold v; weights|unfold v, u, w; weights].
          -- exists t2. split; [exact T2|]. split; [exact (K t2 T2 F2)|]. apply (place_in b Hv t2 _ _ _ (1 - u) w (u - w) _ _ _ C2); try assumption; [ring|unfold v, u, w; weights|rewrite EY; unfold v; weights|unfold v, u, w; weights].
        * assert (H2 : (i, Y, k) ∈ V) by (unfold y_face in Hf; destruct (decide ((i, Y, k) ∈ V)); tauto). set (v := (i, Y, k) : key). destruct (walls_there b Hv l V HV mesh Hmesh v H2) as (_ & _ & _ & W).
          destruct W as ((t1 & T1 & F1 & C1) & (t2 & T2 & F2 & C2)); [unfold off, v, kx, ky, kz; cbn [fst snd]; rewrite !Z.add_0_r; exact D|].
          assert (K : forall t, In t mesh -> face_ym b v t -> y_tri b Y t) by (intros t Ht Hf'; exact (ym_tri t v Ht Hf')).
          destruct (square_split u w Hx Hz) as [(P1 & P2 & P3)|(P1 & P2 & P3)].
          -- exists t1. split; [exact T1|]. split; [exact (K t1 T1 F1)|]. apply (place_in b Hv t1 _ _ _ (1 - u) (u - w) w _ _ _ C1); try assumption; [ring|unfold v, u, w; weights|unfold v; weights|unfold v, u, w; weights].
          -- exists t2. split; [exact T2|]. split; [exact (K t2 T2 F2)|]. apply (place_in b Hv t2 _ _ _ (1 - w) u (w - u) _ _ _ C2); try assumption; [ring|unfold v, u, w; weights|unfold v; weights|unfold v, u, w; weights].
  Qed.
End Surface.

(** ** The theorems *)

(** ToMesh and then Voxelize in the same grid: the filled voxels (white and coloured) and those next to them at +x, +y and +x +y. *)
Theorem C84_ToMesh b whites cols mesh k : zero_dim b = false -> (0 < vpmm b <= 1000000000)%Q ->
  Permutation whites (elements (white b)) -> Permutation cols (elements (dom (colors b))) -> (forall v, filled b v -> in_grid (NX b) (NY b) (NZ b) v) ->
  Permutation (map tri_face mesh) (ToMesh unit_faces b whites cols) -> (forall t, In t mesh -> right_hand t) -> NoDup (map taddr mesh) ->
  result_voxels (Voxelize b mesh) k <-> in_grid (NX b) (NY b) (NZ b) k /\ grown (white b ∪ dom (colors b)) k.
Proof.
  intros Hz Hv Hw Hc Hg Hm Hr Hn. apply C84_grows; [assumption..| |].
  - intros v Hin. apply Hg. apply elem_of_union in Hin as [Hin|Hin]; [left; exact Hin|right; apply elem_of_dom; exact Hin].
  - rewrite ToMesh_transform in Hm. apply (mesh_surface b (proj1 Hv) (whites ++ cols)); [|exact Hm|exact Hr].
    intros v. rewrite elem_of_union, elem_of_app, Hw, Hc, !elem_of_elements. reflexivity.
Qed.
Print Assumptions C84_ToMesh.

(** [n] round trips from the voxels [V] to the voxels [W]: each takes the surface of the voxels and voxelizes it in the grid of [b]. *)
Inductive trips (b : binvox Q) : nat -> gset key -> gset key -> Prop :=
| trips_0 V : trips b 0 V V
| trips_S n V W mesh b' : trips b n V W -> voxel_surface b W mesh -> NoDup (map taddr mesh) -> Voxelize b mesh = inr b' -> trips b (S n) V (white b').

(** After [n] round trips the model is [n] voxels thicker along x and along y. *)
Theorem C84_trips b n V W : zero_dim b = false -> (0 < vpmm b <= 1000000000)%Q -> (forall v, v ∈ V -> in_grid (NX b) (NY b) (NZ b) v) -> trips b n V W ->
  forall x y z, (x, y, z) ∈ W <-> in_grid (NX b) (NY b) (NZ b) (x, y, z) /\ exists dx dy, 0 <= dx <= Z.of_nat n /\ 0 <= dy <= Z.of_nat n /\ (x - dx, y - dy, z) ∈ V.
Proof.
  intros Hz Hv Hg H. induction H as [V|n V W mesh b' H IH Hs Hn Hvox]; intros x y z.
  - split.
    + intros Hin. split; [apply Hg, Hin|]. exists 0, 0. rewrite !Z.sub_0_r. repeat split; try lia. exact Hin.
    + intros (_ & dx & dy & Hx & Hy & Hin). replace dx with 0 in Hin by lia. replace dy with 0 in Hin by lia. rewrite !Z.sub_0_r in Hin. exact Hin.
  - specialize (IH Hg). assert (HW : forall v, v ∈ W -> in_grid (NX b) (NY b) (NZ b) v) by (intros [[x' y'] z'] Hin; apply IH in Hin as [Hin _]; exact Hin).
    pose proof (C84_grows b W mesh (x, y, z) Hz Hv Hn HW Hs) as G. unfold result_voxels in G. rewrite Hvox in G. rewrite G. unfold grown.
    unfold in_grid, in_region, kx, ky, kz in *. cbn [fst snd] in *. split.
    + intros (Hin & Hw). split; [exact Hin|]. destruct Hw as [Hw|[Hw|[Hw|Hw]]]; apply IH in Hw as (_ & dx & dy & Hx & Hy & Hw).
      * exists dx, dy. repeat split; try lia. exact Hw.
      * exists (dx + 1), dy. replace (x - (dx + 1)) with (x - 1 - dx) by lia. repeat split; try lia. exact Hw.
      * exists dx, (dy + 1). replace (y - (dy + 1)) with (y - 1 - dy) by lia. repeat split; try lia. exact Hw.
      * exists (dx + 1), (dy + 1). replace (x - (dx + 1)) with (x - 1 - dx) by lia. replace (y - (dy + 1)) with (y - 1 - dy) by lia. repeat split; try lia. exact Hw.
    + intros (Hin & dx & dy & Hx & Hy & Hw). split; [exact Hin|]. pose proof (Hg _ Hw) as HgV. unfold in_grid, in_region, kx, ky, kz in HgV. cbn [fst snd] in HgV.
      assert (K : forall ex ey, 0 <= ex <= 1 -> 0 <= ey <= 1 -> ex <= dx -> ey <= dy -> dx - ex <= Z.of_nat n -> dy - ey <= Z.of_nat n -> (x - ex, y - ey, z) ∈ W).
      { intros ex ey E1 E2 E3 E4 E5 E6. apply IH. cbn [fst snd]. split; [lia|]. exists (dx - ex), (dy - ey). repeat split; try lia.
        replace (x - ex - (dx - ex)) with (x - dx) by lia. replace (y - ey - (dy - ey)) with (y - dy) by lia. exact Hw. }
      destruct (Z_le_gt_dec dx (Z.of_nat n)) as [Cx|Cx], (Z_le_gt_dec dy (Z.of_nat n)) as [Cy|Cy].
      * left. rewrite <- (Z.sub_0_r x), <- (Z.sub_0_r y). apply K; lia.
      * do 2 right; left. rewrite <- (Z.sub_0_r x). apply K; lia.
      * right; left. rewrite <- (Z.sub_0_r y). apply K; lia.
      * do 3 right. apply K; lia.
Qed.

(** ** One voxel *)
Definition cube_voxel : binvox Q := @BinVOX Q 3 3 2 (7 # 2)%Q (-1)%Q (1 # 3)%Q 3%Q (Some {[ (0, 0, 0) : key ]}) None.
Fixpoint numbered (n : Z) (m : list face) : list tri :=
  match m with
  | [] => []
  | (a, c, d) :: m' =>
      let u := ((px c - px a)%Q, (py c - py a)%Q, (pz c - pz a)%Q) in let w := ((px d - px a)%Q, (py d - py a)%Q, (pz d - pz a)%Q) in
      Tri n a c d ((py u * pz w - pz u * py w)%Q, (pz u * px w - px u * pz w)%Q, (px u * py w - py u * px w)%Q) :: numbered (n + 1) m'
  end.
Definition cube_mesh : list tri := numbered 0 (ToMesh unit_faces cube_voxel [(0, 0, 0)] []).

Lemma cube_hyps : zero_dim cube_voxel = false /\ (0 < vpmm cube_voxel <= 1000000000)%Q /\ Permutation [(0, 0, 0)] (elements (white cube_voxel)) /\
  Permutation [] (elements (dom (colors cube_voxel))) /\ (forall v, filled cube_voxel v -> in_grid 3 3 2 v) /\
  Permutation (map tri_face cube_mesh) (ToMesh unit_faces cube_voxel [(0, 0, 0)] []) /\ (forall t, In t cube_mesh -> right_hand t) /\ NoDup (map taddr cube_mesh).
Proof.
  split; [reflexivity|]. split; [split; [reflexivity|vm_compute; discriminate]|]. split.
  { change (white cube_voxel) with ({[ (0, 0, 0) ]} : gset key). rewrite elements_singleton. reflexivity. }
  split; [reflexivity|]. split.
  { intros v [H|[c H]]; [|discriminate H]. change (white cube_voxel) with ({[ (0, 0, 0) ]} : gset key) in H. apply elem_of_singleton in H as ->. unfold in_grid, in_region, kx, ky, kz. cbn [fst snd]. lia. }
  split; [reflexivity|]. split.
  - intros t Ht. unfold right_hand. vm_compute in Ht.
    repeat match goal with H : _ \/ _ |- _ => destruct H as [H|H] end; try contradiction; subst t; (split; [vm_compute; reflexivity|]); (exists 1%Q; split; [reflexivity|]; split; [|split]; vm_compute; reflexivity).
  - apply (bool_decide_unpack _). vm_compute. exact I.
Qed.

(** A model of one voxel comes back as four, and the model of the four as nine. *)
Theorem C84_example k : result_voxels (Voxelize cube_voxel cube_mesh) k <-> k ∈ [(0, 0, 0); (1, 0, 0); (0, 1, 0); (1, 1, 0)].
Proof.
  destruct cube_hyps as (H1 & H2 & H3 & H4 & H5 & H6 & H7 & H8). rewrite (C84_ToMesh cube_voxel _ _ _ k H1 H2 H3 H4 H5 H6 H7 H8). destruct k as [[x y] z].
  unfold grown. assert (E : forall v, v ∈ white cube_voxel ∪ dom (colors cube_voxel) <-> v = (0, 0, 0)).
  { intros v. change (white cube_voxel) with ({[ (0, 0, 0) ]} : gset key). change (colors cube_voxel) with (∅ : gmap key (color Q)). rewrite elem_of_union, elem_of_singleton, dom_empty, elem_of_empty. tauto. }
  rewrite !E, !elem_of_cons, elem_of_nil. unfold in_grid, in_region, kx, ky, kz. cbn [fst snd cube_voxel NX NY NZ]. rewrite !pair_equal_spec. lia.
Qed.
(** The same, run. *)
Example C84_run : match Voxelize cube_voxel cube_mesh with inr b => bool_decide (white b = list_to_set [(0, 0, 0); (1, 0, 0); (0, 1, 0); (1, 1, 0)]) | inl _ => false end = true.
Proof. vm_compute. reflexivity. Qed.
