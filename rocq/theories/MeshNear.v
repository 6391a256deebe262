(** C70 in three dimensions: the meshes keep away from the centres of the voxels, so that what C70 says at the height
    of a centre holds in a solid region around it. *)
From Verif Require Import Base BaseLemmas BinvoxModel Geom VoxelizeModel VoxelizeSpec MeshSpec MeshCells MeshPush MarchTables MarchModel MarchProofs MarchProps
  ManifoldXform ManifoldTables ManifoldModel ManifoldProofs ManifoldSurface ManifoldProps MeshVolume MeshInside ManifoldExact MeshWatertight.
From Coq Require Import ZArith QArith Qabs List Lia Lqa Bool Permutation.
From stdpp Require Import base list gmap sets fin_sets.
Import ListNotations.
Open Scope Z_scope.

(** ** Specification *)

(** The point [d] voxels away from the centre of voxel [w]. *)
Definition near (b : binvox Q) (w : key) (d : qpt) : qpt :=
  let s := (1 / vpmm b)%Q in
  (((inject_Z (kx w) + (1 # 2) + px d) * s + TX b)%Q, ((inject_Z (ky w) + (1 # 2) + py d) * s + TY b)%Q,
   ((inject_Z (kz w) + (1 # 2) + pz d) * s + TZ b)%Q).

(** The open octahedron whose corners are the centres of the faces of the voxel. *)
Definition in_octahedron (d : qpt) : Prop := (Qabs (px d) + Qabs (py d) + Qabs (pz d) < 1 # 2)%Q.
(** The inside of the voxel. *)
Definition in_cube (d : qpt) : Prop := (Qabs (px d) < 1 # 2 /\ Qabs (py d) < 1 # 2 /\ Qabs (pz d) < 1 # 2)%Q.

(** ** The winding number along a vertical segment *)
Lemma in_triangle_weights a b c q : (0 < side a b q -> 0 < side b c q -> 0 < side c a q -> forall z,
  (side b c q + side c a q + side a b q) * z == side b c q * pz a + side c a q * pz b + side a b q * pz c ->
  in_triangle a b c (px q, py q, z))%Q.
Proof.
  intros H1 H2 H3 z Hz. pose proof (bary_x a b c q) as Bx. pose proof (bary_y a b c q) as By.
  set (s1 := side b c q) in *. set (s2 := side c a q) in *. set (s3 := side a b q) in *. clearbody s1 s2 s3.
  assert (P : (0 < s1 + s2 + s3)%Q) by lra.
  assert (N : ~ (s1 + s2 + s3 == 0)%Q) by lra.
  assert (Q0 : forall s, (0 < s -> 0 <= s / (s1 + s2 + s3))%Q) by (intros s Hs; apply Qle_shift_div_l; lra).
  exists (s1 / (s1 + s2 + s3))%Q, (s2 / (s1 + s2 + s3))%Q, (s3 / (s1 + s2 + s3))%Q.
  split; [apply Q0, H2|]. split; [apply Q0, H3|]. split; [apply Q0, H1|]. split; [field; exact N|].
  cbn [px py pz fst snd].
  assert (D : forall x xa xb xc, ((s1 + s2 + s3) * x == s1 * xa + s2 * xb + s3 * xc -> x == s1 / (s1 + s2 + s3) * xa + s2 / (s1 + s2 + s3) * xb + s3 / (s1 + s2 + s3) * xc)%Q).
  { intros x xa xb xc E. transitivity ((s1 * xa + s2 * xb + s3 * xc) / (s1 + s2 + s3))%Q; [rewrite <- E; field; exact N|field; exact N]. }
  split; [apply D; lra|]. split; [apply D; lra|apply D, Hz].
Qed.

Lemma side_same a b q q' : (px q == px q' -> py q == py q' -> side a b q == side a b q')%Q.
Proof. intros E1 E2. unfold side. rewrite E1, E2. reflexivity. Qed.

Definition hbetween (q q' p : qpt) : Prop := (px p == px q /\ py p == py q /\ (pz q <= pz p <= pz q' \/ pz q' <= pz p <= pz q))%Q.

Lemma slide_pos a b c q q' : (px q == px q' -> py q == py q' -> 0 < side a b q -> 0 < side b c q -> 0 < side c a q ->
  faces_along a b c (qsub q a) < 0 -> 0 <= faces_along a b c (qsub q' a) -> exists p, hbetween q q' p /\ in_triangle a b c p)%Q.
Proof.
  intros E1 E2 H1 H2 H3 G1 G2. pose proof (in_triangle_weights a b c q H1 H2 H3) as W.
  rewrite bary_z in G1, G2. rewrite <- (side_same b c q q' E1 E2), <- (side_same c a q q' E1 E2), <- (side_same a b q q' E1 E2) in G2.
  set (s1 := side b c q) in *. set (s2 := side c a q) in *. set (s3 := side a b q) in *. clearbody s1 s2 s3.
  assert (P : (0 < s1 + s2 + s3)%Q) by lra. set (A := (s1 + s2 + s3)%Q) in *.
  set (N := (s1 * pz a + s2 * pz b + s3 * pz c)%Q) in *.
  exists (px q, py q, (N / A)%Q). split; [|apply W; unfold N; field; lra].
  split; [reflexivity|]. split; [reflexivity|]. left. cbn [pz snd].
  assert (L1 : (pz q * A <= N)%Q) by (unfold A, N; lra). assert (L2 : (N <= pz q' * A)%Q) by (unfold A, N; lra).
  split; [apply Qle_shift_div_l; assumption|apply Qle_shift_div_r; assumption].
Qed.

Lemma in_triangle_swap a b c q : in_triangle a c b q -> in_triangle a b c q.
Proof. intros (r1 & r2 & r3 & R1 & R2 & R3 & R & Ex & Ey & Ez). exists r1, r3, r2. repeat split; try assumption; try lra; rewrite ?Ex, ?Ey, ?Ez; ring. Qed.

Lemma faces_along_swap a b c q : (faces_along a c b (qsub q a) == - faces_along a b c (qsub q a))%Q.
Proof.
  rewrite !bary_z. rewrite (side_flip b c q), (side_flip c a q), (side_flip a b q). ring.
Qed.

Lemma slide_neg a b c q q' : (px q == px q' -> py q == py q' -> side a b q < 0 -> side b c q < 0 -> side c a q < 0 ->
  0 < faces_along a b c (qsub q a) -> faces_along a b c (qsub q' a) <= 0 -> exists p, hbetween q q' p /\ in_triangle a b c p)%Q.
Proof.
  intros E1 E2 H1 H2 H3 G1 G2. destruct (slide_pos a c b q q' E1 E2) as (p & Hp & Ht).
  - rewrite side_flip. lra.
  - rewrite side_flip. lra.
  - rewrite side_flip. lra.
  - rewrite faces_along_swap. lra.
  - rewrite faces_along_swap. lra.
  - exists p. split; [exact Hp|apply in_triangle_swap, Ht].
Qed.

Lemma hbetween_sym q q' p : (px q == px q' -> py q == py q' -> hbetween q' q p -> hbetween q q' p)%Q.
Proof. intros E1 E2 (H1 & H2 & H3). split; [rewrite E1; exact H1|]. split; [rewrite E2; exact H2|tauto]. Qed.

Lemma crossing_slide a b c q q' : (px q == px q')%Q -> (py q == py q')%Q ->
  (forall p, hbetween q q' p -> ~ in_triangle a b c p) -> crossing q (a, b, c) = crossing q' (a, b, c).
Proof.
  intros E1 E2 Hoff. unfold crossing.
  assert (F1 : (px q' == px q)%Q) by (symmetry; exact E1). assert (F2 : (py q' == py q)%Q) by (symmetry; exact E2).
  pose proof (side_same a b q q' E1 E2) as S1. pose proof (side_same b c q q' E1 E2) as S2. pose proof (side_same c a q q' E1 E2) as S3.
  assert (L : forall x y, (x == y)%Q -> qlt 0 x = qlt 0 y /\ qlt x 0 = qlt y 0).
  { intros x y E. split; apply qlt_eq; rewrite E; reflexivity. }
  destruct (L _ _ S1) as [A1 A2], (L _ _ S2) as [B1 B2], (L _ _ S3) as [C1 C2]. rewrite <- A1, <- A2, <- B1, <- B2, <- C1, <- C2. clear L A1 A2 B1 B2 C1 C2.
  destruct (qlt 0 (side a b q) && qlt 0 (side b c q) && qlt 0 (side c a q)) eqn:Ep.
  - rewrite !andb_true_iff, !qlt_iff in Ep. destruct Ep as [[P1 P2] P3].
    assert (N : qlt (side a b q) 0 = false) by (apply not_true_iff_false; rewrite qlt_iff; lra). rewrite N. cbn [andb].
    assert (E : qlt (faces_along a b c (qsub q a)) 0 = qlt (faces_along a b c (qsub q' a)) 0); [|rewrite E; reflexivity].
    apply eq_true_iff_eq. rewrite !qlt_iff. split; intros H.
    + destruct (Qlt_le_dec (faces_along a b c (qsub q' a)) 0) as [G|G]; [exact G|]. exfalso.
      destruct (slide_pos a b c q q' E1 E2 P1 P2 P3 H G) as (p & Hp & Ht). exact (Hoff p Hp Ht).
    + destruct (Qlt_le_dec (faces_along a b c (qsub q a)) 0) as [G|G]; [exact G|]. exfalso.
      destruct (slide_pos a b c q' q F1 F2) as (p & Hp & Ht); [lra|lra|lra|exact H|exact G|]. apply (Hoff p); [apply hbetween_sym; assumption|exact Ht].
  - cbn [andb]. destruct (qlt (side a b q) 0 && qlt (side b c q) 0 && qlt (side c a q) 0) eqn:En; [|reflexivity]. cbn [andb].
    rewrite !andb_true_iff, !qlt_iff in En. destruct En as [[P1 P2] P3].
    assert (E : qlt 0 (faces_along a b c (qsub q a)) = qlt 0 (faces_along a b c (qsub q' a))); [|rewrite E; reflexivity].
    apply eq_true_iff_eq. rewrite !qlt_iff. split; intros H.
    + destruct (Qlt_le_dec 0 (faces_along a b c (qsub q' a))) as [G|G]; [exact G|]. exfalso.
      destruct (slide_neg a b c q q' E1 E2 P1 P2 P3 H G) as (p & Hp & Ht). exact (Hoff p Hp Ht).
    + destruct (Qlt_le_dec 0 (faces_along a b c (qsub q a))) as [G|G]; [exact G|]. exfalso.
      destruct (slide_neg a b c q' q F1 F2) as (p & Hp & Ht); [lra|lra|lra|exact H|exact G|]. apply (Hoff p); [apply hbetween_sym; assumption|exact Ht].
Qed.

(** If no point of the vertical segment from [q] to [q'] is on the mesh, the mesh winds as often around both. *)
Lemma winding_slide m q q' : (px q == px q')%Q -> (py q == py q')%Q -> (forall p, hbetween q q' p -> off_mesh m p) -> winding m q = winding m q'.
Proof.
  intros E1 E2 H. unfold winding. apply zsum_ext. intros [[a b] c] Hin. apply crossing_slide; [exact E1|exact E2|].
  intros p Hp. apply (H p Hp a b c Hin).
Qed.

(** ** The tables *)
Definition off_centre (p : key) : bool := MeshInside.in_cell p && (Z.odd (kx p) || Z.odd (ky p) || Z.odd (kz p)).
Definition tri_off (t : zface) : bool := let '(a, b, c) := t in off_centre a && off_centre b && off_centre c.
Definition flat (t : zface) : bool := let '(a, b, c) := t in MeshInside.in_cell a && MeshInside.in_cell b && MeshInside.in_cell c &&
  ((Z.odd (kx a) && Z.odd (kx b) && Z.odd (kx c)) || (Z.odd (ky a) && Z.odd (ky b) && Z.odd (ky c)) || (Z.odd (kz a) && Z.odd (kz b) && Z.odd (kz c))).

Lemma mc_off : forallb (fun n => forallb tri_off (mc_ztris n)) (map Z.of_nat (seq 0 256)) = true.
Proof. vm_compute. reflexivity. Qed.
Lemma mf_off : forallb (fun n => forallb tri_off (mf_tab2 n)) (map Z.of_nat (seq 0 256)) = true.
Proof. vm_compute. reflexivity. Qed.
Lemma mf_flat : forallb (fun n => negb (conn_ok n true && conn_ok n false) || forallb flat (mf_tab2 n)) (map Z.of_nat (seq 0 256)) = true.
Proof. vm_compute. reflexivity. Qed.

(** ** From a point of the mesh to a point of a triangle of the table *)
Definition rel (w k : key) (d : qpt) : qpt :=
  ((inject_Z (2 * (kx w - kx k)) + 2 * px d)%Q, (inject_Z (2 * (ky w - ky k)) + 2 * py d)%Q, (inject_Z (2 * (kz w - kz k)) + 2 * pz d)%Q).

Section Whole3.
  Context (tab : Z -> list zface) (b : binvox Q) (K : list key) (m : list face) (w : key) (d : qpt).
  Context (Hv : (0 < vpmm b)%Q).
  Context (Hm : Forall2 face_eq m (map (push_face (MarchProofs.half_pos b)) (flat_map (fun k => map (shift_face (kdouble k)) (tab (pat (fillb b) k))) K))).
  Let s := ((1 # 2) * (1 / vpmm b))%Q.
  Let faces := flat_map (fun k => map (shift_face (kdouble k)) (tab (pat (fillb b) k))) K.

  Definition far3 : qpt := ((inject_Z (2 * kx w) + 2 * px d)%Q, (inject_Z (2 * ky w) + 2 * py d)%Q, (inject_Z (2 * kz w) + 2 * pz d)%Q).
  Lemma near_far : qpt_eq (near b w d) (qaffine s (off b) far3).
  Proof.
    unfold qpt_eq, near, qaffine, off, far3, s. unfold px, py, pz. cbn [fst snd]. rewrite !inject_Z_mult. change (inject_Z 2) with 2%Q. generalize (1 / vpmm b)%Q. intros r. split; [ring|split; ring].
  Qed.
  Lemma far_rel k : qpt_eq far3 (qadd (kdouble k) (rel w k d)).
  Proof.
    unfold qpt_eq, far3, qadd, rel, kdouble, px, py, pz, kx, ky, kz. cbn [fst snd]. unfold Z.sub. repeat rewrite ?inject_Z_mult, ?inject_Z_plus, ?inject_Z_opp. split; [ring|split; ring].
  Qed.

  Lemma near_off : (forall k x0 y0 z0, In k K -> In (x0, y0, z0) (tab (pat (fillb b) k)) -> ~ in_triangle (qk x0) (qk y0) (qk z0) (rel w k d)) ->
    off_mesh m (near b w d).
  Proof.
    intros Hoff a0 b0 c0 Hin (r1 & r2 & r3 & R1 & R2 & R3 & R & Ex & Ey & Ez).
    apply elem_of_list_In, elem_of_list_lookup in Hin as (n & Hn). destruct (Forall2_lookup_l _ _ _ _ _ (Hm' tab b K m Hm) Hn) as ([[a' b'] c'] & Hn' & Ea & Eb & Ec).
    apply elem_of_list_lookup_2, elem_of_list_In, in_map_iff in Hn' as (t & Et & Ht).
    apply in_flat_map in Ht as (k & Hk & Ht). apply in_map_iff in Ht as (t0 & <- & Ht).
    destruct t0 as [[x0 y0] z0]. unfold push_face, shift_face, map3 in Et. injection Et as <- <- <-.
    apply (Hoff k x0 y0 z0 Hk Ht).
    exists r1, r2, r3. split; [exact R1|]. split; [exact R2|]. split; [exact R3|]. split; [exact R|].
    apply qpt_eq_iff in Ea as (Ax & Ay & Az), Eb as (Bx & By & Bz), Ec as (Cx & Cy & Cz).
    pose proof near_far as Hf. apply qpt_eq_iff in Hf as (Fx & Fy & Fz).
    pose proof (far_rel k) as Hf. apply qpt_eq_iff in Hf as (Gx & Gy & Gz).
    assert (L : forall k0 x1 y1 z1 o f A B C F G, (A == s * inject_Z (k0 + x1) + o -> B == s * inject_Z (k0 + y1) + o -> C == s * inject_Z (k0 + z1) + o ->
      F == r1 * A + r2 * B + r3 * C -> F == s * G + o -> G == inject_Z k0 + f -> f == r1 * inject_Z x1 + r2 * inject_Z y1 + r3 * inject_Z z1)%Q).
    { intros k0 x1 y1 z1 o f A B C F G E1 E2 E3 E4 E5 E6. pose proof (s_pos b Hv) as Hsp. fold s in Hsp. rewrite E1, E2, E3, E5, E6 in E4. rewrite !inject_Z_plus in E4.
      assert (R' : (r1 == 1 - r2 - r3)%Q) by lra. rewrite R' in E4 |- *.
      apply (Qmult_inj_l _ _ s); [lra|]. lra. }
    destruct k as [[k1 k2] k3], x0 as [[x1 x2] x3], y0 as [[y1 y2] y3], z0 as [[z1 z2] z3].
    split; [|split].
    - exact (L _ _ _ _ _ _ _ _ _ _ _ Ax Bx Cx Ex Fx Gx).
    - exact (L _ _ _ _ _ _ _ _ _ _ _ Ay By Cy Ey Fy Gy).
    - exact (L _ _ _ _ _ _ _ _ _ _ _ Az Bz Cz Ez Fz Gz).
  Qed.
End Whole3.

(** ** Triangles of the table and the octahedron, the cube *)

(** A point within 1 of an even number [2 n], between two integers [lo] and [lo + 2] with [lo] even: [n] is one of two. *)
Lemma even_side (e lo x : Q) (n l : Z) : (lo == inject_Z (2 * l))%Q -> (lo <= x <= lo + 2)%Q -> (x == inject_Z (2 * n) + e)%Q -> (-(1) < e < 1)%Q -> n = l \/ n = l + 1.
Proof.
  intros E H Ex He. rewrite Ex, E in H. clear Ex E x lo.
  assert (L1 : (inject_Z (2 * l) < inject_Z (2 * n + 1))%Q) by (rewrite inject_Z_plus; change (inject_Z 1) with 1%Q; lra).
  assert (L2 : (inject_Z (2 * n + -1) < inject_Z (2 * l + 2))%Q) by (rewrite !inject_Z_plus; change (inject_Z (-1)) with (-(1))%Q; change (inject_Z 2) with 2%Q; lra).
  rewrite <- Zlt_Qlt in L1, L2. lia.
Qed.

Lemma Qabs_lt x y : (Qabs x < y)%Q -> (- y < x < y)%Q.
Proof. intros H. apply Qabs_Qlt_condition in H. exact H. Qed.

Lemma convex_ge lo r1 r2 r3 x1 x2 x3 : (0 <= r1 -> 0 <= r2 -> 0 <= r3 -> r1 + r2 + r3 == 1 -> lo <= x1 -> lo <= x2 -> lo <= x3 ->
    lo <= r1 * x1 + r2 * x2 + r3 * x3)%Q.
Proof.
  intros R1 R2 R3 R X1 X2 X3.
  assert (0 <= r1 * (x1 - lo))%Q by (apply Qmult_le_0_compat; lra). assert (0 <= r2 * (x2 - lo))%Q by (apply Qmult_le_0_compat; lra).
  assert (0 <= r3 * (x3 - lo))%Q by (apply Qmult_le_0_compat; lra).
  assert (L : (r1 * lo + r2 * lo + r3 * lo == lo)%Q) by (transitivity ((r1 + r2 + r3) * lo)%Q; [ring|rewrite R; ring]). lra.
Qed.

(** A corner of the cell, an outward direction [(g1,g2,g3)] of signs, and a vertex that is not the corner. *)
Lemma vertex_away (p : key) (c1 c2 c3 g1 g2 g3 : Z) : off_centre p = true ->
  (c1 = 0 /\ g1 = 1 \/ c1 = 2 /\ g1 = -1) -> (c2 = 0 /\ g2 = -1 \/ c2 = -2 /\ g2 = 1) -> (c3 = 0 /\ g3 = 1 \/ c3 = 2 /\ g3 = -1) ->
  1 <= g1 * (kx p - c1) + g2 * (ky p - c2) + g3 * (kz p - c3).
Proof.
  destruct p as [[x y] z]. unfold off_centre, MeshInside.in_cell, kx, ky, kz. cbn [fst snd]. rewrite !andb_true_iff, !orb_true_iff, !Z.leb_le.
  intros H H1 H2 H3. rewrite <- !Z.negb_even, !negb_true_iff in H.
  assert (E : ~ (x = c1 /\ y = c2 /\ z = c3)).
  { intros (-> & -> & ->). destruct H as [_ H]. destruct H1 as [[-> _]|[-> _]], H2 as [[-> _]|[-> _]], H3 as [[-> _]|[-> _]]; cbn in H; intuition discriminate. }
  destruct H1 as [[-> ->]|[-> ->]], H2 as [[-> ->]|[-> ->]], H3 as [[-> ->]|[-> ->]]; lia.
Qed.

Lemma vertex_awayQ p c1 c2 c3 g1 g2 g3 : off_centre p = true ->
  (c1 = 0 /\ g1 = 1 \/ c1 = 2 /\ g1 = -1) -> (c2 = 0 /\ g2 = -1 \/ c2 = -2 /\ g2 = 1) -> (c3 = 0 /\ g3 = 1 \/ c3 = 2 /\ g3 = -1) ->
  (1 <= inject_Z g1 * (px (qk p) - inject_Z c1) + inject_Z g2 * (py (qk p) - inject_Z c2) + inject_Z g3 * (pz (qk p) - inject_Z c3))%Q.
Proof.
  intros H H1 H2 H3. pose proof (vertex_away p c1 c2 c3 g1 g2 g3 H H1 H2 H3) as L. rewrite Zle_Qle in L.
  unfold Z.sub in L. repeat rewrite ?inject_Z_plus, ?inject_Z_mult, ?inject_Z_opp in L. unfold qk, px, py, pz. cbn [fst snd].
  change (inject_Z 1) with 1%Q in L. unfold Qminus. exact L.
Qed.

Lemma signed_le g x : g = 1 \/ g = -1 -> (inject_Z g * x <= Qabs x)%Q.
Proof.
  intros [-> | ->]; [change (inject_Z 1) with 1%Q|change (inject_Z (-1)) with (-(1))%Q].
  - pose proof (Qle_Qabs x). lra.
  - pose proof (Qle_Qabs (- x)) as H. rewrite Qabs_opp in H. lra.
Qed.

Lemma off_in_cell p : off_centre p = true -> (0 <= px (qk p) <= 2)%Q /\ (-(2) <= py (qk p) <= 0)%Q /\ (0 <= pz (qk p) <= 2)%Q.
Proof. intros H. apply in_cell_iff. unfold off_centre in H. apply andb_true_iff in H as [H _]. exact H. Qed.

(** A point near the centre of voxel [w] can only be in the eight cells that have it as a corner. *)
Lemma which_corner w k d a b c : (Qabs (px d) < 1 # 2)%Q -> (Qabs (py d) < 1 # 2)%Q -> (Qabs (pz d) < 1 # 2)%Q ->
  MeshInside.in_cell a = true -> MeshInside.in_cell b = true -> MeshInside.in_cell c = true -> in_triangle (qk a) (qk b) (qk c) (rel w k d) ->
  exists c1 c2 c3 g1 g2 g3, (c1 = 0 /\ g1 = 1 \/ c1 = 2 /\ g1 = -1) /\ (c2 = 0 /\ g2 = -1 \/ c2 = -2 /\ g2 = 1) /\ (c3 = 0 /\ g3 = 1 \/ c3 = 2 /\ g3 = -1) /\
    (px (rel w k d) == inject_Z c1 + 2 * px d)%Q /\ (py (rel w k d) == inject_Z c2 + 2 * py d)%Q /\ (pz (rel w k d) == inject_Z c3 + 2 * pz d)%Q.
Proof.
  intros Dx Dy Dz Ha Hb Hc (r1 & r2 & r3 & R1 & R2 & R3 & R & Ex & Ey & Ez).
  apply in_cell_iff in Ha as (Ax & Ay & Az), Hb as (Bx & By & Bz), Hc as (Cx & Cy & Cz).
  apply Qabs_lt in Dx, Dy, Dz.
  pose proof (convex 0 2 r1 r2 r3 _ _ _ R1 R2 R3 R Ax Bx Cx) as Ix. rewrite <- Ex in Ix.
  pose proof (convex (-(2)) 0 r1 r2 r3 _ _ _ R1 R2 R3 R Ay By Cy) as Iy. rewrite <- Ey in Iy.
  pose proof (convex 0 2 r1 r2 r3 _ _ _ R1 R2 R3 R Az Bz Cz) as Iz. rewrite <- Ez in Iz.
  clear -Dx Dy Dz Ix Iy Iz.
  pose proof (even_side (2 * px d) 0 (px (rel w k d)) (kx w - kx k) 0 ltac:(reflexivity) ltac:(lra) ltac:(reflexivity) ltac:(lra)) as Nx.
  pose proof (even_side (2 * py d) (-(2)) (py (rel w k d)) (ky w - ky k) (-1) ltac:(reflexivity) ltac:(lra) ltac:(reflexivity) ltac:(lra)) as Ny.
  pose proof (even_side (2 * pz d) 0 (pz (rel w k d)) (kz w - kz k) 0 ltac:(reflexivity) ltac:(lra) ltac:(reflexivity) ltac:(lra)) as Nz.
  exists (2 * (kx w - kx k)), (2 * (ky w - ky k)), (2 * (kz w - kz k)), (1 - 2 * (kx w - kx k)), (-1 - 2 * (ky w - ky k)), (1 - 2 * (kz w - kz k)).
  split; [lia|]. split; [lia|]. split; [lia|]. split; [reflexivity|split; reflexivity].
Qed.

Lemma tri_octahedron a b c w k d : tri_off (a, b, c) = true -> in_octahedron d -> ~ in_triangle (qk a) (qk b) (qk c) (rel w k d).
Proof.
  intros Hok Hd Ht. unfold tri_off in Hok. rewrite !andb_true_iff in Hok. destruct Hok as [[Ha Hb] Hc]. unfold in_octahedron in Hd.
  pose proof (Qabs_nonneg (px d)). pose proof (Qabs_nonneg (py d)). pose proof (Qabs_nonneg (pz d)).
  assert (I : forall p, off_centre p = true -> MeshInside.in_cell p = true) by (intros p Hp; unfold off_centre in Hp; apply andb_true_iff in Hp; apply Hp).
  destruct (which_corner w k d a b c ltac:(lra) ltac:(lra) ltac:(lra) (I a Ha) (I b Hb) (I c Hc) Ht) as (c1 & c2 & c3 & g1 & g2 & g3 & G1 & G2 & G3 & E1 & E2 & E3).
  pose proof (vertex_awayQ a c1 c2 c3 g1 g2 g3 Ha G1 G2 G3) as Va. pose proof (vertex_awayQ b c1 c2 c3 g1 g2 g3 Hb G1 G2 G3) as Vb.
  pose proof (vertex_awayQ c c1 c2 c3 g1 g2 g3 Hc G1 G2 G3) as Vc.
  destruct Ht as (r1 & r2 & r3 & R1 & R2 & R3 & R & Ex & Ey & Ez).
  pose proof (convex_ge 1 r1 r2 r3 _ _ _ R1 R2 R3 R Va Vb Vc) as L.
  pose proof (signed_le g1 (px d) ltac:(lia)) as S1. pose proof (signed_le g2 (py d) ltac:(lia)) as S2. pose proof (signed_le g3 (pz d) ltac:(lia)) as S3.
  rewrite Ex in E1. rewrite Ey in E2. rewrite Ez in E3.
  assert (T : (r1 * (inject_Z g1 * (px (qk a) - inject_Z c1) + inject_Z g2 * (py (qk a) - inject_Z c2) + inject_Z g3 * (pz (qk a) - inject_Z c3)) +
     r2 * (inject_Z g1 * (px (qk b) - inject_Z c1) + inject_Z g2 * (py (qk b) - inject_Z c2) + inject_Z g3 * (pz (qk b) - inject_Z c3)) +
     r3 * (inject_Z g1 * (px (qk c) - inject_Z c1) + inject_Z g2 * (py (qk c) - inject_Z c2) + inject_Z g3 * (pz (qk c) - inject_Z c3))
     == 2 * (inject_Z g1 * px d + inject_Z g2 * py d + inject_Z g3 * pz d))%Q).
  { transitivity (inject_Z g1 * (r1 * px (qk a) + r2 * px (qk b) + r3 * px (qk c) - (r1 + r2 + r3) * inject_Z c1) +
      inject_Z g2 * (r1 * py (qk a) + r2 * py (qk b) + r3 * py (qk c) - (r1 + r2 + r3) * inject_Z c2) +
      inject_Z g3 * (r1 * pz (qk a) + r2 * pz (qk b) + r3 * pz (qk c) - (r1 + r2 + r3) * inject_Z c3))%Q; [ring|].
    rewrite E1, E2, E3, R. ring. }
  rewrite T in L. clear -L S1 S2 S3 Hd. lra.
Qed.

(** A flat triangle lies in a plane between voxels. *)
Lemma tri_cube a b c w k d : flat (a, b, c) = true -> in_cube d -> ~ in_triangle (qk a) (qk b) (qk c) (rel w k d).
Proof.
  intros Hok (Dx & Dy & Dz) Ht. unfold flat in Hok. rewrite !andb_true_iff, !orb_true_iff, !andb_true_iff in Hok. destruct Hok as [[[Ha Hb] Hc] Ho].
  destruct (which_corner w k d a b c Dx Dy Dz Ha Hb Hc Ht) as (c1 & c2 & c3 & g1 & g2 & g3 & G1 & G2 & G3 & E1 & E2 & E3).
  apply Qabs_lt in Dx, Dy, Dz. destruct Ht as (r1 & r2 & r3 & R1 & R2 & R3 & R & Ex & Ey & Ez).
  assert (O : forall (p : key -> Z) (lo : Z) (x : key), (lo = 0 \/ lo = -2) -> lo <= p x <= lo + 2 -> Z.odd (p x) = true -> p x = lo + 1).
  { intros p lo x Hlo Hx Hodd. revert Hx Hodd. generalize (p x). intros z Hz Hodd. assert (Hc3 : z = lo \/ z = lo + 1 \/ z = lo + 2) by lia.
    destruct Hc3 as [->|[->| ->]]; [|reflexivity|]; destruct Hlo as [-> | ->]; discriminate. }
  assert (I : forall p, MeshInside.in_cell p = true -> 0 <= kx p <= 2 /\ -2 <= ky p <= 0 /\ 0 <= kz p <= 2).
  { intros p Hp. unfold MeshInside.in_cell in Hp. rewrite !andb_true_iff, !Z.leb_le in Hp. lia. }
  apply I in Ha, Hb, Hc. clear I.
  assert (M : forall n, (r1 * inject_Z n + r2 * inject_Z n + r3 * inject_Z n == inject_Z n)%Q).
  { intros n. transitivity ((r1 + r2 + r3) * inject_Z n)%Q; [ring|rewrite R; ring]. }
  destruct Ho as [[[[O1 O2] O3]|[[O1 O2] O3]]|[[O1 O2] O3]].
  - rewrite Ex in E1. unfold qk, px at 1 2 3 in E1. cbn [fst snd] in E1.
    rewrite (O kx 0 a ltac:(lia) ltac:(lia) O1), (O kx 0 b ltac:(lia) ltac:(lia) O2), (O kx 0 c ltac:(lia) ltac:(lia) O3), M in E1.
    destruct G1 as [[-> _]|[-> _]]; change (inject_Z (0 + 1)) with 1%Q in E1; change (inject_Z 0) with 0%Q in E1; change (inject_Z 2) with 2%Q in E1; lra.
  - rewrite Ey in E2. unfold qk, py at 1 2 3 in E2. cbn [fst snd] in E2.
    rewrite (O ky (-2) a ltac:(lia) ltac:(lia) O1), (O ky (-2) b ltac:(lia) ltac:(lia) O2), (O ky (-2) c ltac:(lia) ltac:(lia) O3), M in E2.
    destruct G2 as [[-> _]|[-> _]]; change (inject_Z (-2 + 1)) with (-(1))%Q in E2; change (inject_Z 0) with 0%Q in E2; change (inject_Z (-2)) with (-(2))%Q in E2; lra.
  - rewrite Ez in E3. unfold qk, pz at 1 2 3 in E3. cbn [fst snd] in E3.
    rewrite (O kz 0 a ltac:(lia) ltac:(lia) O1), (O kz 0 b ltac:(lia) ltac:(lia) O2), (O kz 0 c ltac:(lia) ltac:(lia) O3), M in E3.
    destruct G3 as [[-> _]|[-> _]]; change (inject_Z (0 + 1)) with 1%Q in E3; change (inject_Z 0) with 0%Q in E3; change (inject_Z 2) with 2%Q in E3; lra.
Qed.

(** ** C70: the meshes stay away from the centres *)
#[local] Opaque mc_ztris mf_tab2.

(** No point of the octahedron around the centre of a voxel, in the model or not, is on the mesh of MarchingCubes... *)
Theorem C70_clear_marching_cubes b order m w d : (0 < vpmm b)%Q -> Permutation order (elements (grid_cells b)) -> MarchingCubes b order = Some m ->
  in_octahedron d -> off_mesh m (near b w d).
Proof.
  intros Hv Hp Em Hd. destruct (MarchingCubes_faces b order) as (m' & E & Hf). rewrite Em in E. injection E as <-.
  eapply near_off; [exact Hv|exact Hf|]. intros k x0 y0 z0 _ Ht.
  pose proof (patterns_all _ mc_off (fillb b) k) as H. cbn beta in H. rewrite forallb_forall in H. apply (tri_octahedron _ _ _ w k d (H _ Ht) Hd).
Qed.

(** ... or on one of ManifoldMesh, watertight or not. *)
Theorem C70_clear_manifold b m w d : (0 < vpmm b)%Q -> manifold_run b m -> in_octahedron d -> off_mesh m (near b w d).
Proof.
  intros Hv Hr Hd. destruct (manifold_faces2 b m Hr) as (K & Hnd & Hin & Hf).
  eapply near_off; [exact Hv|exact Hf|]. intros k x0 y0 z0 _ Ht.
  pose proof (patterns_all _ mf_off (fillb b) k) as H. cbn beta in H. rewrite forallb_forall in H. apply (tri_octahedron _ _ _ w k d (H _ Ht) Hd).
Qed.

(** On a well-composed model the mesh of ManifoldMesh runs between the voxels only: no point inside any voxel is on it. *)
Theorem C70_clear_cube b m w d : (0 < vpmm b)%Q -> manifold_run b m -> well_composed b -> in_cube d -> off_mesh m (near b w d).
Proof.
  intros Hv Hr Hc Hd. destruct (manifold_faces2 b m Hr) as (K & Hnd & Hin & Hf).
  eapply near_off; [exact Hv|exact Hf|]. intros k x0 y0 z0 _ Ht.
  pose proof (patterns_all _ mf_flat (fillb b) k) as H. cbn beta in H. destruct (Hc k) as [H1 H2].
  apply (connected_conn_ok (fillb b) true k) in H1; [|intros v; symmetry; apply fillb_iff].
  apply (connected_conn_ok (fillb b) false k) in H2; [|intros v; rewrite <- fillb_iff; apply not_true_iff_false].
  rewrite H1, H2 in H. cbn [andb negb orb] in H. rewrite forallb_forall in H. apply (tri_cube _ _ _ w k d (H _ Ht) Hd).
Qed.

(** ** The winding number at other heights *)
Lemma off_mesh_eq m q q' : qpt_eq q q' -> off_mesh m q -> off_mesh m q'.
Proof.
  intros E H a b c Hin (r1 & r2 & r3 & R1 & R2 & R3 & R & Ex & Ey & Ez). apply qpt_eq_iff in E as (E1 & E2 & E3).
  apply (H a b c Hin). exists r1, r2, r3. rewrite E1, E2, E3. repeat split; assumption.
Qed.

(** The segment from such a point to the level of the centre. *)
Lemma near_between b w u v t p : (0 < vpmm b)%Q -> hbetween (near b w (u, (- v)%Q, t)) (beside b w u v) p ->
  exists t', (Qabs t' <= Qabs t)%Q /\ qpt_eq (near b w (u, (- v)%Q, t')) p.
Proof.
  intros Hv (E1 & E2 & E3). set (n := vpmm b) in *.
  exists ((pz p - TZ b) * n - (inject_Z (kz w) + (1 # 2)))%Q.
  assert (Hs : (0 < 1 / n)%Q) by (apply Qlt_shift_div_l; lra).
  assert (Hn : (1 / n * n == 1)%Q) by (field; lra).
  unfold near, beside in E1, E2, E3. fold n in E1, E2, E3. unfold px, py, pz in *. cbn [fst snd] in *.
  set (sc := (1 / n)%Q) in *. set (c := (inject_Z (kz w) + (1 # 2))%Q) in *. set (o := TZ b) in *. set (z := snd p) in *.
  split.
  - assert (Z1 : forall x y, (x <= y -> x * n <= y * n)%Q) by (intros x y Hxy; apply Qmult_le_compat_r; lra).
    apply Qabs_Qle_condition. destruct (Qlt_le_dec t 0) as [Ht|Ht].
    + rewrite Qabs_neg by lra.
      assert (B : ((c + t) * sc + o <= z <= c * sc + o)%Q).
      { destruct E3 as [E3|E3]; [exact E3|]. assert ((t * sc <= 0)%Q) by nra. lra. }
      destruct B as [B1 B2]. apply Z1 in B1, B2. 
      assert (W : (sc * n == 1)%Q) by exact Hn.
      assert (X1 : (((c + t) * sc + o) * n == (c + t) + o * n)%Q) by (transitivity ((c + t) * (sc * n) + o * n)%Q; [ring|rewrite W; ring]).
      assert (X2 : ((c * sc + o) * n == c + o * n)%Q) by (transitivity (c * (sc * n) + o * n)%Q; [ring|rewrite W; ring]).
      rewrite X1 in B1. rewrite X2 in B2. clear -B1 B2 Ht. lra.
    + rewrite Qabs_pos by lra.
      assert (B : (c * sc + o <= z <= (c + t) * sc + o)%Q).
      { destruct E3 as [E3|E3]; [|exact E3]. assert ((0 <= t * sc)%Q) by nra. lra. }
      destruct B as [B1 B2]. apply Z1 in B1, B2. 
      assert (W : (sc * n == 1)%Q) by exact Hn.
      assert (X1 : (((c + t) * sc + o) * n == (c + t) + o * n)%Q) by (transitivity ((c + t) * (sc * n) + o * n)%Q; [ring|rewrite W; ring]).
      assert (X2 : ((c * sc + o) * n == c + o * n)%Q) by (transitivity (c * (sc * n) + o * n)%Q; [ring|rewrite W; ring]).
      rewrite X1 in B2. rewrite X2 in B1. clear -B1 B2 Ht. lra.
  - apply qpt_eq_iff. unfold near. fold n sc c o. unfold px, py, pz. cbn [fst snd].
    split; [symmetry; exact E1|]. split; [symmetry; exact E2|].
    transitivity ((z - o) * (sc * n) + o)%Q; [ring|]. rewrite Hn. unfold z, pz. ring.
Qed.

Lemma near_level b w u v t : (px (near b w (u, (- v)%Q, t)) == px (beside b w u v))%Q /\ (py (near b w (u, (- v)%Q, t)) == py (beside b w u v))%Q.
Proof. unfold near, beside, px, py. cbn [fst snd]. split; [reflexivity|ring]. Qed.

Lemma no_edge_near b m w u v t : meets_no_edge m (beside b w u v) -> meets_no_edge m (near b w (u, (- v)%Q, t)).
Proof.
  intros H a c p Hin Hs [E1 E2]. destruct (near_level b w u v t) as [L1 L2]. apply (H a c p Hin Hs). rewrite <- L1, <- L2. split; assumption.
Qed.

Lemma winding_near b m w u v t : (0 < vpmm b)%Q -> (forall t', (Qabs t' <= Qabs t)%Q -> off_mesh m (near b w (u, (- v)%Q, t'))) ->
  winding m (near b w (u, (- v)%Q, t)) = winding m (beside b w u v).
Proof.
  intros Hv H. destruct (near_level b w u v t) as [E1 E2]. apply winding_slide; [exact E1|exact E2|].
  intros p Hp. destruct (near_between b w u v t p Hv Hp) as (t' & Ht' & E). exact (off_mesh_eq m _ _ E (H t' Ht')).
Qed.

Print Assumptions C70_clear_marching_cubes.
Print Assumptions C70_clear_manifold.
Print Assumptions C70_clear_cube.
