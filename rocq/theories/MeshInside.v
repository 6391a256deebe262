(** C70: what is inside the meshes. *)
From Verif Require Import Base BaseLemmas BinvoxModel Geom VoxelizeModel VoxelizeSpec MeshSpec MeshCells MeshPush MarchTables MarchModel MarchProofs MarchProps
  ManifoldXform ManifoldTables ManifoldModel ManifoldProofs ManifoldSurface ManifoldProps MeshVolume.
From Coq Require Import ZArith QArith Qabs List Lia Lqa Bool Permutation.
From stdpp Require Import base list gmap sets fin_sets.
Import ListNotations.
Open Scope Z_scope.

(** ** Specification *)

(** Seen from above: positive if [q] is left of the line from [a] to [b]. *)
Definition side (a b q : qpt) : Q := ((px b - px a) * (py q - py a) - (py b - py a) * (px q - px a))%Q.

(** How the upward ray from [q] goes through a triangle: 1 from its back to its front, -1 from front to back,
    0 not at all. *)
Definition crossing (q : qpt) (t : face) : Z :=
  let '(a, b, c) := t in
  let h := faces_along a b c (qsub q a) in
  if qlt 0 (side a b q) && qlt 0 (side b c q) && qlt 0 (side c a q) && qlt h 0 then 1
  else if qlt (side a b q) 0 && qlt (side b c q) 0 && qlt (side c a q) 0 && qlt 0 h then -1
  else 0.

(** How often the mesh winds around [q], provided that the vertical line through [q] meets no edge: the ray
    leaves so many times more than it enters. *)
Definition winding (m : list face) (q : qpt) : Z := zsum (crossing q) m.

Definition meets_no_edge (m : list face) (q : qpt) : Prop :=
  forall a b p, In (a, b) (mesh_edges m) -> on_segment a b p -> ~ (px p == px q /\ py p == py q)%Q.

(** The points of a triangle. *)
Definition in_triangle (a b c q : qpt) : Prop := exists r1 r2 r3, (0 <= r1 /\ 0 <= r2 /\ 0 <= r3 /\ r1 + r2 + r3 == 1 /\
  px q == r1 * px a + r2 * px b + r3 * px c /\ py q == r1 * py a + r2 * py b + r3 * py c /\ pz q == r1 * pz a + r2 * pz b + r3 * pz c)%Q.
Definition off_mesh (m : list face) (q : qpt) : Prop := forall a b c, In (a, b, c) m -> ~ in_triangle a b c q.

(** A point at the height of the centre of voxel [w], moved off it by [u] voxels in x and [v] in -y. *)
Definition beside (b : binvox Q) (w : key) (u v : Q) : qpt :=
  let s := (1 / vpmm b)%Q in
  (((inject_Z (kx w) + (1 # 2) + u) * s + TX b)%Q, ((inject_Z (ky w) + (1 # 2) - v) * s + TY b)%Q,
   ((inject_Z (kz w) + (1 # 2)) * s + TZ b)%Q).

(** ** Scaling and moving *)
Definition qk (d : key) : qpt := (inject_Z (kx d), inject_Z (ky d), inject_Z (kz d)).
Definition qaffine (s : Q) (v q : qpt) : qpt := ((s * px q + px v)%Q, (s * py q + py v)%Q, (s * pz q + pz v)%Q).
Definition qadd (d : key) (q : qpt) : qpt := ((inject_Z (kx d) + px q)%Q, (inject_Z (ky d) + py q)%Q, (inject_Z (kz d) + pz q)%Q).

Lemma qpt_eq_iff p q : qpt_eq p q <-> (px p == px q /\ py p == py q /\ pz p == pz q)%Q.
Proof. destruct p as [[? ?] ?], q as [[? ?] ?]. reflexivity. Qed.

Lemma qlt_iff a b : qlt a b = true <-> (a < b)%Q.
Proof. unfold qlt. rewrite negb_true_iff, <- not_true_iff_false, Qle_bool_iff. split; [apply Qnot_le_lt|apply Qlt_not_le]. Qed.
Lemma qlt_eq a b c d : ((a < b)%Q <-> (c < d)%Q) -> qlt a b = qlt c d.
Proof. intros H. apply eq_true_iff_eq. rewrite !qlt_iff. exact H. Qed.

Lemma scale_lt s x y : (0 < s)%Q -> (y == s * x)%Q -> ((0 < y)%Q <-> (0 < x)%Q) /\ ((y < 0)%Q <-> (x < 0)%Q).
Proof.
  intros Hs E. rewrite E. assert (Z0 : (s * 0 == 0)%Q) by ring. split.
  - rewrite <- Z0 at 1. apply Qmult_lt_l, Hs.
  - rewrite <- Z0 at 1. apply Qmult_lt_l, Hs.
Qed.

(** A crossing only depends on the signs. *)
Lemma crossing_scale s q a b c q' a' b' c' : (0 < s)%Q ->
  (side a' b' q' == s * s * side a b q)%Q -> (side b' c' q' == s * s * side b c q)%Q -> (side c' a' q' == s * s * side c a q)%Q ->
  (faces_along a' b' c' (qsub q' a') == s * s * s * faces_along a b c (qsub q a))%Q ->
  crossing q' (a', b', c') = crossing q (a, b, c).
Proof.
  intros Hs H1 H2 H3 H4. assert (Hs2 : (0 < s * s)%Q) by (apply Qmult_lt_0_compat; assumption).
  assert (Hs3 : (0 < s * s * s)%Q) by (apply Qmult_lt_0_compat; assumption).
  destruct (scale_lt _ _ _ Hs2 H1) as [P1 N1], (scale_lt _ _ _ Hs2 H2) as [P2 N2], (scale_lt _ _ _ Hs2 H3) as [P3 N3], (scale_lt _ _ _ Hs3 H4) as [P4 N4].
  unfold crossing. rewrite (qlt_eq _ _ _ _ P1), (qlt_eq _ _ _ _ P2), (qlt_eq _ _ _ _ P3), (qlt_eq _ _ _ _ P4),
    (qlt_eq _ _ _ _ N1), (qlt_eq _ _ _ _ N2), (qlt_eq _ _ _ _ N3), (qlt_eq _ _ _ _ N4). reflexivity.
Qed.

Lemma crossing_affine s v q q' t : (0 < s)%Q -> qpt_eq q' (qaffine s v q) -> crossing q' (push_face (affine s v) t) = crossing q (push_face qk t).
Proof.
  intros Hs Hq. destruct t as [[a b] c]. unfold push_face. apply qpt_eq_iff in Hq as (E1 & E2 & E3).
  destruct q as [[x y] z], q' as [[x' y'] z'], v as [[v1 v2] v3], a as [[a1 a2] a3], b as [[b1 b2] b3], c as [[c1 c2] c3].
  unfold qaffine, px, py, pz in E1, E2, E3. cbn [fst snd] in E1, E2, E3.
  apply (crossing_scale s); [exact Hs|..]; unfold side, faces_along, qsub, affine, qk, px, py, pz, kx, ky, kz; cbn [fst snd]; rewrite ?E1, ?E2, ?E3; ring.
Qed.

Lemma crossing_eq q s t : face_eq s t -> crossing q s = crossing q t.
Proof.
  destruct s as [[a b] c], t as [[a' b'] c']. unfold face_eq. rewrite !qpt_eq_iff. intros ((A1 & A2 & A3) & (B1 & B2 & B3) & (C1 & C2 & C3)).
  symmetry. apply (crossing_scale 1); [reflexivity|..]; unfold side, faces_along, qsub, px, py, pz in *; cbn [fst snd] in *;
    rewrite ?A1, ?A2, ?A3, ?B1, ?B2, ?B3, ?C1, ?C2, ?C3; ring.
Qed.

Lemma crossing_shift d q q' t : qpt_eq q' (qadd d q) -> crossing q' (push_face qk (shift_face d t)) = crossing q (push_face qk t).
Proof.
  rewrite qpt_eq_iff. intros (E1 & E2 & E3). destruct t as [[a b] c]. unfold push_face, shift_face, map3.
  destruct q as [[x y] z], q' as [[x' y'] z'], d as [[d1 d2] d3], a as [[a1 a2] a3], b as [[b1 b2] b3], c as [[c1 c2] c3].
  unfold qadd, px, py, pz, kx, ky, kz in E1, E2, E3. cbn [fst snd] in E1, E2, E3.
  apply (crossing_scale 1); [reflexivity|..]; unfold side, faces_along, qsub, kadd, qk, px, py, pz, kx, ky, kz; cbn [fst snd]; rewrite ?E1, ?E2, ?E3, !inject_Z_plus; ring.
Qed.

(** ** Barycentric identities *)
Lemma bary_x a b c q : (side b c q * (px q - px a) + side c a q * (px q - px b) + side a b q * (px q - px c) == 0)%Q.
Proof. unfold side. ring. Qed.
Lemma bary_y a b c q : (side b c q * (py q - py a) + side c a q * (py q - py b) + side a b q * (py q - py c) == 0)%Q.
Proof. unfold side. ring. Qed.
Lemma bary_z a b c q : (faces_along a b c (qsub q a) == side b c q * (pz q - pz a) + side c a q * (pz q - pz b) + side a b q * (pz q - pz c))%Q.
Proof. unfold side, faces_along, qsub, px, py, pz. cbn [fst snd]. ring. Qed.

Lemma pos_sum r1 r2 r3 x1 x2 x3 : (0 < r1 -> 0 < r2 -> 0 < r3 -> 0 <= x1 -> 0 <= x2 -> 0 <= x3 ->
  0 <= r1 * x1 + r2 * x2 + r3 * x3 /\ (0 < x1 \/ 0 < x2 \/ 0 < x3 -> 0 < r1 * x1 + r2 * x2 + r3 * x3))%Q.
Proof.
  intros R1 R2 R3 X1 X2 X3.
  assert (P1 : (0 <= r1 * x1)%Q) by (apply Qmult_le_0_compat; lra). assert (P2 : (0 <= r2 * x2)%Q) by (apply Qmult_le_0_compat; lra).
  assert (P3 : (0 <= r3 * x3)%Q) by (apply Qmult_le_0_compat; lra). split; [lra|].
  intros [H|[H|H]]; [assert (0 < r1 * x1)%Q by (apply Qmult_lt_0_compat; lra)|assert (0 < r2 * x2)%Q by (apply Qmult_lt_0_compat; lra)|assert (0 < r3 * x3)%Q by (apply Qmult_lt_0_compat; lra)]; lra.
Qed.

Lemma all_sides_x a b c q lo hi : (lo <= px a <= hi -> lo <= px b <= hi -> lo <= px c <= hi -> (px q < lo \/ hi < px q) ->
  ~ (0 < side a b q /\ 0 < side b c q /\ 0 < side c a q) /\ ~ (side a b q < 0 /\ side b c q < 0 /\ side c a q < 0))%Q.
Proof.
  intros A B C Hq. pose proof (bary_x a b c q) as Hb.
  set (r1 := side b c q) in *. set (r2 := side c a q) in *. set (r3 := side a b q) in *. clearbody r1 r2 r3. split; intros (H1 & H2 & H3).
  - destruct Hq as [Hq|Hq].
    + pose proof (proj2 (pos_sum r1 r2 r3 (px a - px q) (px b - px q) (px c - px q) ltac:(lra) ltac:(lra) ltac:(lra) ltac:(lra) ltac:(lra) ltac:(lra)) ltac:(left; lra)) as G.
      setoid_replace (r1 * (px a - px q) + r2 * (px b - px q) + r3 * (px c - px q))%Q with (- (r1 * (px q - px a) + r2 * (px q - px b) + r3 * (px q - px c)))%Q in G by ring. lra.
    + pose proof (proj2 (pos_sum r1 r2 r3 (px q - px a) (px q - px b) (px q - px c) ltac:(lra) ltac:(lra) ltac:(lra) ltac:(lra) ltac:(lra) ltac:(lra)) ltac:(left; lra)) as G. lra.
  - destruct Hq as [Hq|Hq].
    + pose proof (proj2 (pos_sum (- r1) (- r2) (- r3) (px a - px q) (px b - px q) (px c - px q) ltac:(lra) ltac:(lra) ltac:(lra) ltac:(lra) ltac:(lra) ltac:(lra)) ltac:(left; lra)) as G.
      setoid_replace (- r1 * (px a - px q) + - r2 * (px b - px q) + - r3 * (px c - px q))%Q with (r1 * (px q - px a) + r2 * (px q - px b) + r3 * (px q - px c))%Q in G by ring. lra.
    + pose proof (proj2 (pos_sum (- r1) (- r2) (- r3) (px q - px a) (px q - px b) (px q - px c) ltac:(lra) ltac:(lra) ltac:(lra) ltac:(lra) ltac:(lra) ltac:(lra)) ltac:(left; lra)) as G.
      setoid_replace (- r1 * (px q - px a) + - r2 * (px q - px b) + - r3 * (px q - px c))%Q with (- (r1 * (px q - px a) + r2 * (px q - px b) + r3 * (px q - px c)))%Q in G by ring. lra.
Qed.

Lemma all_sides_y a b c q lo hi : (lo <= py a <= hi -> lo <= py b <= hi -> lo <= py c <= hi -> (py q < lo \/ hi < py q) ->
  ~ (0 < side a b q /\ 0 < side b c q /\ 0 < side c a q) /\ ~ (side a b q < 0 /\ side b c q < 0 /\ side c a q < 0))%Q.
Proof.
  intros A B C Hq. pose proof (bary_y a b c q) as Hb.
  set (r1 := side b c q) in *. set (r2 := side c a q) in *. set (r3 := side a b q) in *. clearbody r1 r2 r3. split; intros (H1 & H2 & H3).
  - destruct Hq as [Hq|Hq].
    + pose proof (proj2 (pos_sum r1 r2 r3 (py a - py q) (py b - py q) (py c - py q) ltac:(lra) ltac:(lra) ltac:(lra) ltac:(lra) ltac:(lra) ltac:(lra)) ltac:(left; lra)) as G.
      setoid_replace (r1 * (py a - py q) + r2 * (py b - py q) + r3 * (py c - py q))%Q with (- (r1 * (py q - py a) + r2 * (py q - py b) + r3 * (py q - py c)))%Q in G by ring. lra.
    + pose proof (proj2 (pos_sum r1 r2 r3 (py q - py a) (py q - py b) (py q - py c) ltac:(lra) ltac:(lra) ltac:(lra) ltac:(lra) ltac:(lra) ltac:(lra)) ltac:(left; lra)) as G. lra.
  - destruct Hq as [Hq|Hq].
    + pose proof (proj2 (pos_sum (- r1) (- r2) (- r3) (py a - py q) (py b - py q) (py c - py q) ltac:(lra) ltac:(lra) ltac:(lra) ltac:(lra) ltac:(lra) ltac:(lra)) ltac:(left; lra)) as G.
      setoid_replace (- r1 * (py a - py q) + - r2 * (py b - py q) + - r3 * (py c - py q))%Q with (r1 * (py q - py a) + r2 * (py q - py b) + r3 * (py q - py c))%Q in G by ring. lra.
    + pose proof (proj2 (pos_sum (- r1) (- r2) (- r3) (py q - py a) (py q - py b) (py q - py c) ltac:(lra) ltac:(lra) ltac:(lra) ltac:(lra) ltac:(lra) ltac:(lra)) ltac:(left; lra)) as G.
      setoid_replace (- r1 * (py q - py a) + - r2 * (py q - py b) + - r3 * (py q - py c))%Q with (- (r1 * (py q - py a) + r2 * (py q - py b) + r3 * (py q - py c)))%Q in G by ring. lra.
Qed.

Lemma crossing_outside q a b c : (~ (0 < side a b q /\ 0 < side b c q /\ 0 < side c a q) /\ ~ (side a b q < 0 /\ side b c q < 0 /\ side c a q < 0))%Q -> crossing q (a, b, c) = 0.
Proof.
  intros [H1 H2]. unfold crossing.
  destruct (qlt 0 (side a b q) && qlt 0 (side b c q) && qlt 0 (side c a q)) eqn:E1.
  { rewrite !andb_true_iff, !qlt_iff in E1. tauto. }
  destruct (qlt (side a b q) 0 && qlt (side b c q) 0 && qlt (side c a q) 0) eqn:E2.
  { rewrite !andb_true_iff, !qlt_iff in E2. tauto. }
  reflexivity.
Qed.

(** All vertices at or below [q]: nothing is crossed. *)
Lemma crossing_below q a b c : (pz a <= pz q -> pz b <= pz q -> pz c <= pz q -> crossing q (a, b, c) = 0%Z)%Q.
Proof.
  intros A B C. unfold crossing.
  destruct (qlt 0 (side a b q) && qlt 0 (side b c q) && qlt 0 (side c a q)) eqn:E1.
  - rewrite !andb_true_iff, !qlt_iff in E1. destruct E1 as [[H3 H1] H2].
    assert (Hh : qlt (faces_along a b c (qsub q a)) 0 = false).
    { apply not_true_is_false. rewrite qlt_iff, bary_z. destruct (pos_sum (side b c q) (side c a q) (side a b q) (pz q - pz a) (pz q - pz b) (pz q - pz c)) as [G _]; lra. }
    rewrite Hh. cbn [andb].
    assert (Hn : qlt (side a b q) 0 = false) by (apply not_true_is_false; rewrite qlt_iff; lra). rewrite Hn. reflexivity.
  - cbn [andb]. destruct (qlt (side a b q) 0 && qlt (side b c q) 0 && qlt (side c a q) 0) eqn:E2; [|reflexivity].
    rewrite !andb_true_iff, !qlt_iff in E2. destruct E2 as [[H3 H1] H2].
    assert (Hh : qlt 0 (faces_along a b c (qsub q a)) = false).
    { apply not_true_is_false. rewrite qlt_iff, bary_z. destruct (pos_sum (- side b c q) (- side c a q) (- side a b q) (pz q - pz a) (pz q - pz b) (pz q - pz c)) as [G _]; lra. }
    rewrite Hh. reflexivity.
Qed.

(** All at or above, one above: crossed if hit. *)
Lemma crossing_above q a b c : (pz q <= pz a -> pz q <= pz b -> pz q <= pz c -> (pz q < pz a \/ pz q < pz b \/ pz q < pz c) ->
  (0 < side a b q /\ 0 < side b c q /\ 0 < side c a q -> crossing q (a, b, c) = 1%Z) /\
  (side a b q < 0 /\ side b c q < 0 /\ side c a q < 0 -> crossing q (a, b, c) = (-1)%Z))%Q.
Proof.
  intros A B C Hx. unfold crossing. split; intros (H3 & H1 & H2).
  - assert (Hh : qlt (faces_along a b c (qsub q a)) 0 = true).
    { rewrite qlt_iff, bary_z. pose proof (proj2 (pos_sum (side b c q) (side c a q) (side a b q) (pz a - pz q) (pz b - pz q) (pz c - pz q) ltac:(lra) ltac:(lra) ltac:(lra) ltac:(lra) ltac:(lra) ltac:(lra)) ltac:(lra)) as G. lra. }
    rewrite Hh, (proj2 (qlt_iff _ _) H1), (proj2 (qlt_iff _ _) H2), (proj2 (qlt_iff _ _) H3). reflexivity.
  - assert (Hh : qlt 0 (faces_along a b c (qsub q a)) = true).
    { rewrite qlt_iff, bary_z. pose proof (proj2 (pos_sum (- side b c q) (- side c a q) (- side a b q) (pz a - pz q) (pz b - pz q) (pz c - pz q) ltac:(lra) ltac:(lra) ltac:(lra) ltac:(lra) ltac:(lra) ltac:(lra)) ltac:(lra)) as G. lra. }
    assert (Hn : qlt 0 (side a b q) = false) by (apply not_true_is_false; rewrite qlt_iff; lra). rewrite Hn. cbn [andb].
    rewrite Hh, (proj2 (qlt_iff _ _) H1), (proj2 (qlt_iff _ _) H2), (proj2 (qlt_iff _ _) H3). reflexivity.
Qed.

(** ** The table *)

(** [side] of an edge at three corners of the region 0 < U, 2 U < V, U + V < 1 left of a cell corner, for the point (U, -V). *)
Definition edge_c0 (a b : key) : Z := - (kx b - kx a) * ky a + (ky b - ky a) * kx a.
Definition edge_c1 (a b : key) : Z := edge_c0 a b - (kx b - kx a).
Definition edge_c2 (a b : key) : Z := 3 * edge_c0 a b - (ky b - ky a) - 2 * (kx b - kx a).
Definition wpos (a b : key) : bool := (0 <=? edge_c0 a b) && (0 <=? edge_c1 a b) && (0 <=? edge_c2 a b) && (0 <? edge_c0 a b + edge_c1 a b + edge_c2 a b).
Definition wvert (a b : key) : bool := (kx a =? kx b) && (ky a =? ky b).

Definition wcover (t : zface) : Z :=
  let '(a, b, c) := t in if wpos a b && wpos b c && wpos c a then 1 else if wpos b a && wpos c b && wpos a c then -1 else 0.

Definition in_cell (p : key) : bool := (0 <=? kx p) && (kx p <=? 2) && (-2 <=? ky p) && (ky p <=? 0) && (0 <=? kz p) && (kz p <=? 2).
Definition raised (t : zface) : bool := let '(a, b, c) := t in (0 <? kz a) || (0 <? kz b) || (0 <? kz c).
Definition lowered (t : zface) : bool := let '(a, b, c) := t in (kz a <? 2) || (kz b <? 2) || (kz c <? 2).
Definition tri_ok (t : zface) : bool :=
  let '(a, b, c) := t in
  in_cell a && in_cell b && in_cell c && forallb (fun e => wpos (fst e) (snd e) || wpos (snd e) (fst e) || wvert (fst e) (snd e)) (zface_edges t) &&
  ((wcover t =? 0) || (raised t && lowered t)).
Definition cell_inside (tab : Z -> list zface) (n : Z) : bool :=
  forallb tri_ok (tab n) && (zsum wcover (tab n) =? b2n (Z.testbit n 0) - b2n (Z.testbit n 4)).

Lemma side_wedge a b u v w : (side (qk a) (qk b) (u, - v, w) ==
  (1 - u - v) * inject_Z (edge_c0 a b) + (v - 2 * u) * inject_Z (edge_c1 a b) + u * inject_Z (edge_c2 a b))%Q.
Proof.
  destruct a as [[a1 a2] a3], b as [[b1 b2] b3]. unfold side, qk, edge_c2, edge_c1, edge_c0, px, py, pz, kx, ky, kz. cbn [fst snd].
  unfold Z.sub. repeat rewrite ?inject_Z_plus, ?inject_Z_opp, ?inject_Z_mult. change (inject_Z 3) with 3%Q. change (inject_Z 2) with 2%Q. ring.
Qed.
Lemma side_flip a b q : (side b a q == - side a b q)%Q.
Proof. unfold side. ring. Qed.

Section Wedge.
  Context (u v : Q) (Hu : (0 < u)%Q) (Huv : (2 * u < v)%Q) (Hs : (u + v < 1)%Q).

  Lemma wpos_side a b w : wpos a b = true -> (0 < side (qk a) (qk b) (u, - v, w))%Q.
  Proof.
    unfold wpos. rewrite !andb_true_iff, !Z.leb_le, Z.ltb_lt. intros [[[H0 H1] H2] Hx]. rewrite side_wedge.
    apply pos_sum; try lra; try (change 0%Q with (inject_Z 0); rewrite <- Zle_Qle; assumption).
    change 0%Q with (inject_Z 0). rewrite <- !Zlt_Qlt. lia.
  Qed.
  Lemma wneg_side a b w : wpos b a = true -> (side (qk a) (qk b) (u, - v, w) < 0)%Q.
  Proof. intros H. apply (wpos_side _ _ w) in H. rewrite side_flip in H. lra. Qed.
  Lemma wvert_side a b w : wvert a b = true -> (side (qk a) (qk b) (u, - v, w) == 0)%Q.
  Proof.
    unfold wvert. rewrite andb_true_iff, !Z.eqb_eq. intros [H1 H2]. unfold side, qk, px, py. cbn [fst snd]. rewrite H1, H2. ring.
  Qed.

  Lemma in_cell_iff p : in_cell p = true <-> (0 <= px (qk p) <= 2)%Q /\ (-(2) <= py (qk p) <= 0)%Q /\ (0 <= pz (qk p) <= 2)%Q.
  Proof.
    unfold in_cell, qk, px, py, pz. cbn [fst snd]. rewrite !andb_true_iff, !Z.leb_le. change (-(2))%Q with (inject_Z (-2)). change 0%Q with (inject_Z 0). change 2%Q with (inject_Z 2).
    rewrite <- !Zle_Qle. tauto.
  Qed.

  (** In its own column a cell above the point contributes what the table says, one below nothing. *)
  Lemma column_crossing t w : tri_ok t = true -> (w <= 0)%Q -> crossing (u, - v, w)%Q (push_face qk t) = wcover t.
  Proof.
    destruct t as [[a b] c]. intros Hok Hw. unfold tri_ok in Hok. rewrite !andb_true_iff in Hok. destruct Hok as [[[[Ha Hb] Hc] He] Hr].
    apply in_cell_iff in Ha as (_ & _ & Ha), Hb as (_ & _ & Hb), Hc as (_ & _ & Hc).
    cbn [zface_edges forallb fst snd] in He. rewrite !andb_true_iff in He. destruct He as (E1 & E2 & E3 & _).
    unfold push_face. unfold wcover in *.
    destruct (wpos a b && wpos b c && wpos c a) eqn:P.
    - rewrite !andb_true_iff in P. destruct P as [[P1 P2] P3]. cbn [Z.eqb orb] in Hr. apply andb_true_iff in Hr as [Hr _].
      apply crossing_above; try (change (pz (u, - v, w)%Q) with w; lra).
      + change (pz (u, - v, w)%Q) with w. unfold raised in Hr. rewrite !orb_true_iff, !Z.ltb_lt, !Zlt_Qlt in Hr. change (inject_Z 0) with 0%Q in Hr.
        unfold pz, qk. cbn [snd fst]. destruct Hr as [[Hr|Hr]|Hr]; [left|right; left|right; right]; lra.
      + auto using wpos_side.
    - destruct (wpos b a && wpos c b && wpos a c) eqn:N.
      + rewrite !andb_true_iff in N. destruct N as [[P1 P2] P3]. cbn [Z.eqb orb] in Hr. apply andb_true_iff in Hr as [Hr _].
        apply crossing_above; try (change (pz (u, - v, w)%Q) with w; lra).
        * change (pz (u, - v, w)%Q) with w. unfold raised in Hr. rewrite !orb_true_iff, !Z.ltb_lt, !Zlt_Qlt in Hr. change (inject_Z 0) with 0%Q in Hr.
          unfold pz, qk. cbn [snd fst]. destruct Hr as [[Hr|Hr]|Hr]; [left|right; left|right; right]; lra.
        * auto using wneg_side.
      + assert (G : forall a b, wpos a b || wpos b a || wvert a b = true ->
           ((0 < side (qk a) (qk b) (u, - v, w))%Q -> wpos a b = true) /\ ((side (qk a) (qk b) (u, - v, w) < 0)%Q -> wpos b a = true)).
        { intros a' b' H. rewrite !orb_true_iff in H. destruct H as [[H|H]|H].
          - apply (wpos_side _ _ w) in H as H'. split; [auto|lra].
          - apply (wneg_side _ _ w) in H as H'. split; [lra|auto].
          - apply (wvert_side _ _ w) in H. split; lra. }
        apply crossing_outside. split; intros (S1 & S2 & S3).
        * apply G in S1, S2, S3; [|assumption..]. rewrite S1, S2, S3 in P. discriminate.
        * apply (proj2 (G _ _ E1)) in S1. apply (proj2 (G _ _ E2)) in S2. apply (proj2 (G _ _ E3)) in S3. rewrite S1, S2, S3 in N. discriminate.
  Qed.
End Wedge.

(** ** A cell seen from the point *)

(** The point relative to cell [k], in half voxels. *)
Definition seen (w k : key) (u v : Q) : qpt := ((inject_Z (2 * (kx w - kx k)) + u)%Q, (inject_Z (2 * (ky w - ky k)) - v)%Q, inject_Z (2 * (kz w - kz k))).

Definition in_column (w k : key) : bool := (kx k =? kx w) && (ky k =? ky w).

Lemma crossing_q_eq q q' t : qpt_eq q q' -> crossing q t = crossing q' t.
Proof.
  intros H. destruct t as [[a b] c]. apply qpt_eq_iff in H as (E1 & E2 & E3).
  apply (crossing_scale 1); [reflexivity|..]; unfold side, faces_along, qsub, px, py, pz in *; cbn [fst snd] in *; rewrite ?E1, ?E2, ?E3; ring.
Qed.

Lemma twice_le n : 1 <= n -> (2 <= inject_Z (2 * n))%Q.
Proof. intros H. change 2%Q with (inject_Z 2). rewrite <- Zle_Qle. lia. Qed.
Lemma twice_ge n : n <= -1 -> (inject_Z (2 * n) <= -(2))%Q.
Proof. intros H. change (-(2))%Q with (inject_Z (-2)). rewrite <- Zle_Qle. lia. Qed.

Section Seen.
  Context (w k : key) (u v : Q) (Hu : (0 < u)%Q) (Huv : (2 * u < v)%Q) (Hs : (u + v < 1)%Q).

  Lemma outside_column : in_column w k = false ->
    (px (seen w k u v) < 0 \/ 2 < px (seen w k u v))%Q \/ (py (seen w k u v) < -(2) \/ 0 < py (seen w k u v))%Q.
  Proof.
    unfold in_column, seen, px, py. cbn [fst snd]. intros H.
    destruct (Z.eqb_spec (kx k) (kx w)) as [Ex|Nx].
    - cbn [andb] in H. apply Z.eqb_neq in H. right. destruct (Z.lt_ge_cases (ky w) (ky k)).
      + left. pose proof (twice_ge (ky w - ky k) ltac:(lia)). lra.
      + right. pose proof (twice_le (ky w - ky k) ltac:(lia)). lra.
    - left. destruct (Z.lt_ge_cases (kx w) (kx k)).
      + left. pose proof (twice_ge (kx w - kx k) ltac:(lia)). lra.
      + right. pose proof (twice_le (kx w - kx k) ltac:(lia)). lra.
  Qed.

  Lemma in_column_seen : in_column w k = true -> qpt_eq (seen w k u v) (u, - v, inject_Z (2 * (kz w - kz k)))%Q.
  Proof.
    unfold in_column. rewrite andb_true_iff, !Z.eqb_eq. intros [Ex Ey]. unfold seen, qpt_eq. rewrite Ex, Ey, !Z.sub_diag.
    change (inject_Z (2 * 0)) with 0%Q. split; [ring|split; ring].
  Qed.

  Lemma cell_crossing t : tri_ok t = true ->
    crossing (seen w k u v) (push_face qk t) = if in_column w k && (kz w <=? kz k) then wcover t else 0.
  Proof.
    intros Hok. destruct (in_column w k) eqn:Hc; cbn [andb].
    - rewrite (crossing_q_eq _ _ _ (in_column_seen Hc)). destruct (Z.leb_spec (kz w) (kz k)).
      + apply column_crossing; try assumption. change 0%Q with (inject_Z 0). rewrite <- Zle_Qle. lia.
      + destruct t as [[a b] c]. unfold tri_ok in Hok. rewrite !andb_true_iff in Hok. destruct Hok as [[[[Ha Hb] Hc'] _] _].
        apply in_cell_iff in Ha as (_ & _ & Ha), Hb as (_ & _ & Hb), Hc' as (_ & _ & Hc').
        pose proof (twice_le (kz w - kz k) ltac:(lia)). unfold push_face. apply crossing_below;
        change (pz (u, - v, inject_Z (2 * (kz w - kz k)))%Q) with (inject_Z (2 * (kz w - kz k))); lra.
    - destruct t as [[a b] c]. unfold tri_ok in Hok. rewrite !andb_true_iff in Hok. destruct Hok as [[[[Ha Hb] Hc'] _] _].
      apply in_cell_iff in Ha as (Ax & Ay & _), Hb as (Bx & By & _), Hc' as (Cx & Cy & _).
      unfold push_face. apply crossing_outside. destruct (outside_column Hc) as [Ho|Ho].
      + apply (all_sides_x _ _ _ _ 0 2); assumption.
      + apply (all_sides_y _ _ _ _ (-(2)) 0); assumption.
  Qed.

  (** No edge of the cell is above or below the point. *)
  Lemma cell_clear t a b r : tri_ok t = true -> In (a, b) (zface_edges t) -> (0 <= r <= 1)%Q ->
    ~ (px (lerp (qk a) (qk b) r) == px (seen w k u v) /\ py (lerp (qk a) (qk b) r) == py (seen w k u v))%Q.
  Proof.
    intros Hok Hin Hr [Ex Ey]. destruct t as [[t1 t2] t3]. unfold tri_ok in Hok. rewrite !andb_true_iff in Hok. destruct Hok as [[[[H1 H2] H3] He] _].
    rewrite forallb_forall in He. specialize (He _ Hin). cbn [fst snd] in He.
    assert (Hab : in_cell a = true /\ in_cell b = true).
    { cbn [zface_edges In] in Hin. destruct Hin as [E|[E|[E|[]]]]; inversion E; subst; auto. }
    destruct Hab as [Ha Hb]. apply in_cell_iff in Ha as (Ax & Ay & _), Hb as (Bx & By & _).
    destruct (in_column w k) eqn:Hc.
    - pose proof (in_column_seen Hc) as Hq. apply qpt_eq_iff in Hq as (Qx & Qy & _). rewrite Qx in Ex. rewrite Qy in Ey. clear Qx Qy.
      set (z := inject_Z (2 * (kz w - kz k))) in *. clearbody z.
      assert (H0 : (side (qk a) (qk b) (u, - v, z) == 0)%Q).
      { unfold side. unfold lerp, px, py in Ex, Ey. cbn [fst snd] in Ex, Ey. unfold px, py. cbn [fst snd]. rewrite <- Ex, <- Ey. ring. }
      rewrite !orb_true_iff in He. destruct He as [[He|He]|He].
      + apply (wpos_side u v Hu Huv Hs _ _ z) in He. lra.
      + apply (wneg_side u v Hu Huv Hs _ _ z) in He. lra.
      + unfold wvert in He. rewrite andb_true_iff, !Z.eqb_eq in He. destruct He as [Vx _]. unfold lerp, qk, px, py in Ex. cbn [fst snd] in Ex. rewrite <- Vx in Ex.
        assert (E : (inject_Z (kx a) == u)%Q) by (rewrite <- Ex; ring).
        assert (0 < kx a) by (rewrite Zlt_Qlt; change (inject_Z 0) with 0%Q; lra). assert (kx a < 1) by (rewrite Zlt_Qlt; change (inject_Z 1) with 1%Q; lra). lia.
    - assert (L : forall x y lo hi, (lo <= x <= hi -> lo <= y <= hi -> lo <= x + (y - x) * r <= hi)%Q).
      { intros x y lo hi Hx Hy. setoid_replace (x + (y - x) * r)%Q with ((1 - r) * x + r * y)%Q by ring.
        assert (0 <= (1 - r) * (x - lo))%Q by (apply Qmult_le_0_compat; lra). assert (0 <= r * (y - lo))%Q by (apply Qmult_le_0_compat; lra).
        assert (0 <= (1 - r) * (hi - x))%Q by (apply Qmult_le_0_compat; lra). assert (0 <= r * (hi - y))%Q by (apply Qmult_le_0_compat; lra). split; lra. }
      destruct (outside_column Hc) as [Ho|Ho].
      + rewrite <- Ex in Ho. pose proof (L _ _ _ _ Ax Bx) as G. change (px (lerp (qk a) (qk b) r)) with (px (qk a) + (px (qk b) - px (qk a)) * r)%Q in Ho. lra.
      + rewrite <- Ey in Ho. pose proof (L _ _ _ _ Ay By) as G. change (py (lerp (qk a) (qk b) r)) with (py (qk a) + (py (qk b) - py (qk a)) * r)%Q in Ho. lra.
  Qed.

  (** Nor is the point on one of its triangles. *)
  Lemma convex lo hi r1 r2 r3 x1 x2 x3 : (0 <= r1 -> 0 <= r2 -> 0 <= r3 -> r1 + r2 + r3 == 1 -> lo <= x1 <= hi -> lo <= x2 <= hi -> lo <= x3 <= hi ->
    lo <= r1 * x1 + r2 * x2 + r3 * x3 <= hi)%Q.
  Proof.
    intros R1 R2 R3 R X1 X2 X3. assert (E3 : (r3 == 1 - r1 - r2)%Q) by lra.
    assert (0 <= r1 * (x1 - lo))%Q by (apply Qmult_le_0_compat; lra). assert (0 <= r2 * (x2 - lo))%Q by (apply Qmult_le_0_compat; lra).
    assert (0 <= r3 * (x3 - lo))%Q by (apply Qmult_le_0_compat; lra). assert (0 <= r1 * (hi - x1))%Q by (apply Qmult_le_0_compat; lra).
    assert (0 <= r2 * (hi - x2))%Q by (apply Qmult_le_0_compat; lra). assert (0 <= r3 * (hi - x3))%Q by (apply Qmult_le_0_compat; lra).
    assert (L : (r1 * lo + r2 * lo + r3 * lo == lo)%Q) by (rewrite E3; ring). assert (Hh : (r1 * hi + r2 * hi + r3 * hi == hi)%Q) by (rewrite E3; ring). split; lra.
  Qed.

  Lemma cell_off a b c : tri_ok (a, b, c) = true -> ~ in_triangle (qk a) (qk b) (qk c) (seen w k u v).
  Proof.
    intros Hok (r1 & r2 & r3 & R1 & R2 & R3 & R & Ex & Ey & Ez). unfold tri_ok in Hok. rewrite !andb_true_iff in Hok. destruct Hok as [[[[Ha Hb] Hc'] He] Hr].
    apply in_cell_iff in Ha as (Ax & Ay & Az), Hb as (Bx & By & Bz), Hc' as (Cx & Cy & Cz).
    destruct (in_column w k) eqn:Hc.
    2:{ destruct (outside_column Hc) as [Ho|Ho].
        - pose proof (convex _ _ r1 r2 r3 _ _ _ R1 R2 R3 R Ax Bx Cx). lra.
        - pose proof (convex _ _ r1 r2 r3 _ _ _ R1 R2 R3 R Ay By Cy). lra. }
    pose proof (in_column_seen Hc) as Hq. apply qpt_eq_iff in Hq as (Qx & Qy & Qz). rewrite Qx in Ex. rewrite Qy in Ey. rewrite Qz in Ez. clear Qx Qy Qz.
    set (q := (u, - v, inject_Z (2 * (kz w - kz k)))%Q) in *.
    set (S := side (qk a) (qk b) (qk c)).
    assert (E1 : (r1 == 1 - r2 - r3)%Q) by lra.
    assert (S3 : (side (qk a) (qk b) q == r3 * S)%Q) by (unfold S, side; rewrite Ex, Ey, E1; ring).
    assert (S1 : (side (qk b) (qk c) q == r1 * S)%Q) by (unfold S, side; rewrite Ex, Ey, E1; ring).
    assert (S2 : (side (qk c) (qk a) q == r2 * S)%Q) by (unfold S, side; rewrite Ex, Ey, E1; ring).
    assert (Hz : (inject_Z (2 * (kz w - kz k)) <= 0 \/ 2 <= inject_Z (2 * (kz w - kz k)))%Q).
    { destruct (Z.leb_spec (kz w) (kz k)); [left; change 0%Q with (inject_Z 0); rewrite <- Zle_Qle; lia|right; change 2%Q with (inject_Z 2); rewrite <- Zle_Qle; lia]. }
    assert (Hthick : (0 < r1 /\ 0 < r2 /\ 0 < r3)%Q -> raised (a, b, c) && lowered (a, b, c) = true -> False).
    { intros (P1 & P2 & P3) Ht. apply andb_true_iff in Ht as [Hra Hlo]. unfold raised in Hra. unfold lowered in Hlo. rewrite !orb_true_iff, !Z.ltb_lt, !Zlt_Qlt in Hra, Hlo.
      change (inject_Z 0) with 0%Q in Hra. change (inject_Z 2) with 2%Q in Hlo. change (pz q) with (inject_Z (2 * (kz w - kz k))) in Ez.
      change (pz (qk a)) with (inject_Z (kz a)) in *. change (pz (qk b)) with (inject_Z (kz b)) in *. change (pz (qk c)) with (inject_Z (kz c)) in *.
      destruct Hz as [Hz|Hz].
      - pose proof (proj2 (pos_sum r1 r2 r3 (inject_Z (kz a)) (inject_Z (kz b)) (inject_Z (kz c)) P1 P2 P3 ltac:(lra) ltac:(lra) ltac:(lra)) ltac:(tauto)). lra.
      - pose proof (proj2 (pos_sum r1 r2 r3 (2 - inject_Z (kz a)) (2 - inject_Z (kz b)) (2 - inject_Z (kz c)) P1 P2 P3 ltac:(lra) ltac:(lra) ltac:(lra)) ltac:(destruct Hlo as [[?|?]|?]; [left|right; left|right; right]; lra)) as G.
        assert (E : (r1 * 2 + r2 * 2 + r3 * 2 == 2)%Q) by (rewrite E1; ring). lra. }
    cbn [zface_edges forallb fst snd] in He. rewrite !andb_true_iff, !orb_true_iff in He. destruct He as (Eab & Ebc & Eca & _).
    assert (Vab : wvert a b = true -> (S == 0)%Q).
    { unfold wvert. rewrite andb_true_iff, !Z.eqb_eq. intros [Vx Vy]. unfold S, side, qk, px, py. cbn [fst snd]. rewrite Vx, Vy. ring. }
    assert (Vbc : wvert b c = true -> (S == 0)%Q).
    { unfold wvert. rewrite andb_true_iff, !Z.eqb_eq. intros [Vx Vy]. unfold S, side, qk, px, py. cbn [fst snd]. rewrite Vx, Vy. ring. }
    assert (Vca : wvert c a = true -> (S == 0)%Q).
    { unfold wvert. rewrite andb_true_iff, !Z.eqb_eq. intros [Vx Vy]. unfold S, side, qk, px, py. cbn [fst snd]. rewrite Vx, Vy. ring. }
    assert (Pab : wpos a b = true -> (0 < r3 * S)%Q) by (intros H; rewrite <- S3; apply wpos_side; assumption).
    assert (Pbc : wpos b c = true -> (0 < r1 * S)%Q) by (intros H; rewrite <- S1; apply wpos_side; assumption).
    assert (Pca : wpos c a = true -> (0 < r2 * S)%Q) by (intros H; rewrite <- S2; apply wpos_side; assumption).
    assert (Nab : wpos b a = true -> (r3 * S < 0)%Q) by (intros H; rewrite <- S3; apply wneg_side; assumption).
    assert (Nbc : wpos c b = true -> (r1 * S < 0)%Q) by (intros H; rewrite <- S1; apply wneg_side; assumption).
    assert (Nca : wpos a c = true -> (r2 * S < 0)%Q) by (intros H; rewrite <- S2; apply wneg_side; assumption).
    clearbody S. clear S1 S2 S3.
    assert (Hmul : forall r, (0 <= r)%Q -> ((0 < S -> ~ r * S < 0) /\ (S < 0 -> ~ 0 < r * S) /\ (0 < S -> 0 < r * S -> 0 < r) /\ (S < 0 -> r * S < 0 -> 0 < r))%Q).
    { intros r Hr0. split; [|split; [|split]]; intros HS.
      - assert (0 <= r * S)%Q by (apply Qmult_le_0_compat; lra). lra.
      - assert (0 <= r * (- S))%Q by (apply Qmult_le_0_compat; lra). lra.
      - intros H. destruct (Qlt_le_dec 0 r); [assumption|]. assert (E : (r == 0)%Q) by lra. rewrite E in H. lra.
      - intros H. destruct (Qlt_le_dec 0 r); [assumption|]. assert (E : (r == 0)%Q) by lra. rewrite E in H. lra. }
    destruct (Hmul r1 R1) as (M1 & N1 & O1 & T1), (Hmul r2 R2) as (M2 & N2 & O2 & T2), (Hmul r3 R3) as (M3 & N3 & O3 & T3). clear Hmul.
    destruct (Q_dec S 0) as [[HS|HS]|HS].
    - assert (Q1 : wpos b a = true) by (destruct Eab as [[?|?]|?]; [exfalso; apply N3; auto|assumption|exfalso; rewrite Vab in HS by assumption; lra]).
      assert (Q2 : wpos c b = true) by (destruct Ebc as [[?|?]|?]; [exfalso; apply N1; auto|assumption|exfalso; rewrite Vbc in HS by assumption; lra]).
      assert (Q3 : wpos a c = true) by (destruct Eca as [[?|?]|?]; [exfalso; apply N2; auto|assumption|exfalso; rewrite Vca in HS by assumption; lra]).
      apply orb_true_iff in Hr as [Hr|Hr].
      + unfold wcover in Hr. rewrite Q1, Q2, Q3 in Hr. destruct (wpos a b && wpos b c && wpos c a); discriminate.
      + apply Hthick; [auto 6|assumption].
    - assert (Q1 : wpos a b = true) by (destruct Eab as [[?|?]|?]; [assumption|exfalso; apply M3; auto|exfalso; rewrite Vab in HS by assumption; lra]).
      assert (Q2 : wpos b c = true) by (destruct Ebc as [[?|?]|?]; [assumption|exfalso; apply M1; auto|exfalso; rewrite Vbc in HS by assumption; lra]).
      assert (Q3 : wpos c a = true) by (destruct Eca as [[?|?]|?]; [assumption|exfalso; apply M2; auto|exfalso; rewrite Vca in HS by assumption; lra]).
      apply orb_true_iff in Hr as [Hr|Hr].
      + unfold wcover in Hr. rewrite Q1, Q2, Q3 in Hr. discriminate.
      + apply Hthick; [auto 6|assumption].
    - assert (Z0 : forall r, (r * S == 0)%Q) by (intros r; rewrite HS; ring).
      assert (V1 : wvert a b = true) by (destruct Eab as [[G|G]|G]; [apply Pab in G; rewrite Z0 in G; destruct (Qlt_irrefl 0 G)|apply Nab in G; rewrite Z0 in G; destruct (Qlt_irrefl 0 G)|assumption]).
      assert (V2 : wvert b c = true) by (destruct Ebc as [[G|G]|G]; [apply Pbc in G; rewrite Z0 in G; destruct (Qlt_irrefl 0 G)|apply Nbc in G; rewrite Z0 in G; destruct (Qlt_irrefl 0 G)|assumption]).
      unfold wvert in V1, V2. rewrite andb_true_iff, !Z.eqb_eq in V1, V2. destruct V1 as [V1 _], V2 as [V2 _].
      change (px q) with u in Ex. change (px (qk a)) with (inject_Z (kx a)) in Ex. change (px (qk b)) with (inject_Z (kx b)) in Ex. change (px (qk c)) with (inject_Z (kx c)) in Ex.
      rewrite <- V2, <- V1 in Ex. assert (E : (inject_Z (kx a) == u)%Q) by (rewrite Ex, E1; ring).
      clear - E Hu Huv Hs. assert (0 < kx a) by (rewrite Zlt_Qlt; change (inject_Z 0) with 0%Q; lra). assert (kx a < 1) by (rewrite Zlt_Qlt; change (inject_Z 1) with 1%Q; lra). lia.
  Qed.
End Seen.

(** ** Summing over the cells *)
Lemma zsum_zero {B} (f : B -> Z) l : (forall x, In x l -> f x = 0) -> zsum f l = 0.
Proof. intros H. induction l as [|a l IH]; [reflexivity|]. cbn [zsum]. rewrite (H a) by (cbn; auto). rewrite IH; [reflexivity|]. intros x Hx. apply H. cbn. auto. Qed.

Lemma zsum_single (f : key -> Z) w l : List.NoDup l -> (forall k, k <> w -> f k = 0) -> (f w <> 0 -> In w l) -> zsum f l = f w.
Proof.
  intros Hnd Hf Hw. induction Hnd as [|a l Ha Hnd IH]; [cbn; destruct (Z.eq_dec (f w) 0) as [->|E]; [reflexivity|destruct (Hw E)]|].
  cbn [zsum]. destruct (key_eqb a w) eqn:E.
  - apply key_eqb_eq in E as ->. rewrite zsum_zero; [lia|]. intros x Hx. apply Hf. intros ->. contradiction.
  - assert (a <> w) by (intros ->; rewrite (proj2 (key_eqb_eq w w) eq_refl) in E; discriminate). rewrite (Hf a) by assumption. cbn. apply IH.
    intros H'. destruct (Hw H'); [congruence|assumption].
Qed.

Lemma column_sum fill K w : List.NoDup K -> (forall k, pat fill k <> 0 -> In k K) ->
  zsum (fun k => if in_column w k && (kz w <=? kz k) then b2n (fill (corner 0 k)) - b2n (fill (corner 4 k)) else 0) K = b2n (fill w).
Proof.
  intros HK Hall.
  assert (Hin : forall i k, (i < 8)%nat -> fill (corner i k) = true -> In k K).
  { intros i k Hi Hf. apply Hall. intros E. rewrite pat_zero in E. rewrite (E i Hi) in Hf. discriminate. }
  set (F := fun k => if in_column w k && (kz w <=? kz k) then b2n (fill k) else 0).
  set (F' := fun k => if in_column w k && (kz w + 1 <=? kz k) then b2n (fill k) else 0).
  rewrite (zsum_ext _ (fun k => F k - F' (ksub k (0, 0, -1)))).
  2:{ intros k _. unfold F, F'. destruct k as [[x y] z].
      replace (corner 0 (x, y, z)) with (x, y, z) by (unfold corner, kadd, kx, ky, kz; cbn; keyeq).
      replace (corner 4 (x, y, z)) with (ksub (x, y, z) (0, 0, -1)) by (unfold corner, ksub, kadd, kx, ky, kz; cbn; keyeq).
      assert (E : in_column w (ksub (x, y, z) (0, 0, -1)) = in_column w (x, y, z)) by (unfold in_column, ksub, kx, ky; cbn [fst snd]; rewrite !Z.sub_0_r; reflexivity).
      rewrite E. assert (E2 : (kz w + 1 <=? kz (ksub (x, y, z) (0, 0, -1))) = (kz w <=? kz (x, y, z))).
      { unfold ksub, kz. cbn [fst snd]. destruct (Z.leb_spec (snd w) z), (Z.leb_spec (snd w + 1) (z - -1)); reflexivity || lia. }
      rewrite E2. destruct (in_column w (x, y, z) && (kz w <=? kz (x, y, z))); reflexivity. }
  rewrite zsum_sub, (zsum_shift F' (0, 0, -1) K HK).
  - rewrite <- zsum_sub. rewrite (zsum_single _ w K HK).
    + unfold F, F', in_column. rewrite !Z.eqb_refl, Z.leb_refl. cbn [andb]. destruct (Z.leb_spec (kz w + 1) (kz w)); lia.
    + intros k Hk. unfold F, F'. destruct (in_column w k) eqn:E; [|reflexivity]. cbn [andb].
      destruct (Z.leb_spec (kz w) (kz k)), (Z.leb_spec (kz w + 1) (kz k)); try lia. exfalso. apply Hk.
      unfold in_column in E. rewrite andb_true_iff, !Z.eqb_eq in E. destruct w as [[? ?] ?], k as [[? ?] ?]. unfold kx, ky, kz in *. cbn [fst snd] in *. keyeq.
    + unfold F, F', in_column. rewrite !Z.eqb_refl, Z.leb_refl. cbn [andb]. destruct (Z.leb_spec (kz w + 1) (kz w)); [lia|]. intros H'.
      apply (Hin 0%nat); [lia|]. replace (corner 0 w) with w by (destruct w as [[? ?] ?]; unfold corner, kadd, kx, ky, kz; cbn; keyeq).
      destruct (fill w); [reflexivity|cbn in H'; lia].
  - intros k Hk. unfold F' in Hk. destruct (in_column w k && (kz w + 1 <=? kz k)); [|lia]. destruct (fill k) eqn:E; [|cbn in Hk; lia]. split.
    + apply (Hin 0%nat); [lia|]. replace (corner 0 k) with k by (destruct k as [[? ?] ?]; unfold corner, kadd, kx, ky, kz; cbn; keyeq). exact E.
    + apply (Hin 4%nat); [lia|]. replace (corner 4 (kadd k (0, 0, -1))) with k by (destruct k as [[? ?] ?]; unfold corner, kadd, kx, ky, kz; cbn; keyeq). exact E.
Qed.

(** ** Meshes made of cells *)
Definition off (b : binvox Q) : qpt := (((1 # 2) * (1 / vpmm b) + TX b)%Q, ((1 # 2) * (1 / vpmm b) + TY b)%Q, ((1 # 2) * (1 / vpmm b) + TZ b)%Q).

Section Whole.
  Context (tab : Z -> list zface) (b : binvox Q) (K : list key) (m : list face) (w : key) (u v : Q).
  Context (Hv : (0 < vpmm b)%Q) (Hu : (0 < u)%Q) (Huv : (2 * u < v)%Q) (Hs : (u + v < 1 # 2)%Q).
  Context (HK : List.NoDup K) (Hall : forall k, pat (fillb b) k <> 0 -> In k K) (Hok : forall k, In k K -> cell_inside tab (pat (fillb b) k) = true).
  Context (Hm : Forall2 face_eq m (map (push_face (half_pos b)) (flat_map (fun k => map (shift_face (kdouble k)) (tab (pat (fillb b) k))) K))).
  Let s := ((1 # 2) * (1 / vpmm b))%Q.

  Lemma s_pos : (0 < s)%Q.
  Proof. unfold s. assert (0 < 1 / vpmm b)%Q by (unfold Qdiv; rewrite Qmult_1_l; apply Qinv_lt_0_compat, Hv). apply Qmult_lt_0_compat; [reflexivity|assumption]. Qed.

  Let faces := flat_map (fun k => map (shift_face (kdouble k)) (tab (pat (fillb b) k))) K.
  Lemma Hm' : Forall2 face_eq m (map (push_face (affine s (off b))) faces).
  Proof. eapply Forall2_face_eq_trans; [exact Hm|]. apply push_face_eq, half_pos_affine. Qed.

  (** The point in half voxels. *)
  Definition far : qpt := ((inject_Z (2 * kx w) + 2 * u)%Q, (inject_Z (2 * ky w) - 2 * v)%Q, inject_Z (2 * kz w)).

  Lemma beside_far : qpt_eq (beside b w u v) (qaffine s (off b) far).
  Proof.
    unfold qpt_eq, beside, qaffine, off, far, s, px, py, pz. cbn [fst snd]. rewrite !inject_Z_mult. change (inject_Z 2) with 2%Q. generalize (1 / vpmm b)%Q. intros r. split; [ring|split; ring].
  Qed.
  Lemma far_seen k : qpt_eq far (qadd (kdouble k) (seen w k (2 * u) (2 * v))).
  Proof.
    unfold qpt_eq, far, qadd, seen, kdouble, px, py, pz, kx, ky, kz. cbn [fst snd]. unfold Z.sub. repeat rewrite ?inject_Z_mult, ?inject_Z_plus, ?inject_Z_opp. split; [ring|split; ring].
  Qed.

  Lemma tri_ok_at k t : In k K -> In t (tab (pat (fillb b) k)) -> tri_ok t = true.
  Proof. intros Hk Ht. specialize (Hok k Hk). unfold cell_inside in Hok. apply andb_true_iff in Hok as [H _]. rewrite forallb_forall in H. apply H, Ht. Qed.

  Lemma whole_winding : winding m (beside b w u v) = b2n (fillb b w).
  Proof.
    unfold winding.
    assert (E : zsum (crossing (beside b w u v)) m = zsum (fun t => crossing far (push_face qk t)) faces).
    { pose proof Hm' as H. revert H. generalize faces. clear Hm faces. intros ts H. 
      remember (map (push_face (affine s (off b))) ts) as m' eqn:Em. revert ts Em. induction H as [|t t' m0 m' Ht _ IH]; intros ts Em.
      - destruct ts; [reflexivity|discriminate].
      - destruct ts as [|t0 ts]; [discriminate|]. cbn [map] in Em. injection Em as -> ->. cbn [zsum]. rewrite (IH ts eq_refl). f_equal.
        rewrite (crossing_eq _ _ _ Ht). apply crossing_affine; [apply s_pos|apply beside_far]. }
    rewrite E. unfold faces.
    assert (E2 : zsum (fun t => crossing far (push_face qk t)) (flat_map (fun k => map (shift_face (kdouble k)) (tab (pat (fillb b) k))) K) =
      zsum (fun k => zsum (fun t => crossing (seen w k (2 * u) (2 * v)) (push_face qk t)) (tab (pat (fillb b) k))) K).
    { clear. induction K as [|k K' IH]; [reflexivity|]. cbn [flat_map zsum]. rewrite zsum_app, zsum_map, IH. f_equal. apply zsum_ext. intros t _.
      apply crossing_shift, far_seen. }
    rewrite E2. rewrite (zsum_ext _ (fun k => if in_column w k && (kz w <=? kz k) then b2n (fillb b (corner 0 k)) - b2n (fillb b (corner 4 k)) else 0)).
    - apply column_sum; assumption.
    - intros k Hk. rewrite (zsum_ext _ (fun t => if in_column w k && (kz w <=? kz k) then wcover t else 0)).
      2:{ intros t Ht. apply cell_crossing; try lra. eapply tri_ok_at; eassumption. }
      destruct (in_column w k && (kz w <=? kz k)); [|apply zsum_zero; reflexivity].
      specialize (Hok k Hk). unfold cell_inside in Hok. apply andb_true_iff in Hok as [_ H]. apply Z.eqb_eq in H. rewrite pat_bit0, pat_bit4 in H. exact H.
  Qed.

  Lemma whole_clear : meets_no_edge m (beside b w u v).
  Proof.
    intros a0 b0 p Hin (r & Hr & Hp) [Ex Ey]. pose proof (mesh_edges_ext _ _ Hm') as He. rewrite mesh_edges_push in He.
    apply elem_of_list_In, elem_of_list_lookup in Hin as (n & Hn). destruct (Forall2_lookup_l _ _ _ _ _ He Hn) as ([a' b'] & Hn' & [Ea Eb]).
    cbn [fst snd] in Ea, Eb. apply elem_of_list_lookup_2, elem_of_list_In, in_map_iff in Hn' as ([x y] & Exy & Hxy). unfold push in Exy. cbn [fst snd] in Exy. injection Exy as <- <-.
    apply in_flat_map in Hxy as (t & Ht & Hxy). unfold faces in Ht. apply in_flat_map in Ht as (k & Hk & Ht). apply in_map_iff in Ht as (t0 & <- & Ht).
    pose proof (tri_ok_at k t0 Hk Ht) as Hok'.
    assert (Hz : exists x0 y0, x = kadd (kdouble k) x0 /\ y = kadd (kdouble k) y0 /\ In (x0, y0) (zface_edges t0)).
    { destruct t0 as [[t1 t2] t3]. cbn [shift_face map3 zface_edges In] in Hxy. cbn [zface_edges In].
      destruct Hxy as [E|[E|[E|[]]]]; inversion E; subst; eexists _, _; (split; [reflexivity|split; [reflexivity|]]); auto. }
    destruct Hz as (x0 & y0 & -> & -> & Hin0).
    apply (cell_clear w k (2 * u) (2 * v) ltac:(lra) ltac:(lra) ltac:(lra) t0 x0 y0 r Hok' Hin0 Hr).
    apply qpt_eq_iff in Hp as (Px & Py & _). rewrite Px in Ex. rewrite Py in Ey. apply qpt_eq_iff in Ea as (Ax & Ay & _), Eb as (Bx & By & _).
    pose proof beside_far as Hf. apply qpt_eq_iff in Hf as (Fx & Fy & _). 
    pose proof (far_seen k) as Hf. apply qpt_eq_iff in Hf as (Gx & Gy & _).
    assert (L : forall k0 x1 y1 o f A B F G, (A == s * inject_Z (k0 + x1) + o -> B == s * inject_Z (k0 + y1) + o -> A + (B - A) * r == F -> F == s * G + o ->
      G == inject_Z k0 + f -> inject_Z x1 + (inject_Z y1 - inject_Z x1) * r == f)%Q).
    { intros k0 x1 y1 o f A B F G E1 E2 E3 E4 E5. pose proof s_pos as Hsp. rewrite E1, E2, E4, E5 in E3. rewrite !inject_Z_plus in E3.
      apply (Qmult_inj_l _ _ s); [lra|]. lra. }
    destruct k as [[k1 k2] k3], x0 as [[x1 x2] x3], y0 as [[y1 y2] y3].
    split.
    - exact (L _ _ _ _ _ _ _ _ _ Ax Bx Ex Fx Gx).
    - exact (L _ _ _ _ _ _ _ _ _ Ay By Ey Fy Gy).
  Qed.

  Lemma whole_off : off_mesh m (beside b w u v).
  Proof.
    intros a0 b0 c0 Hin (r1 & r2 & r3 & R1 & R2 & R3 & R & Ex & Ey & Ez).
    apply elem_of_list_In, elem_of_list_lookup in Hin as (n & Hn). destruct (Forall2_lookup_l _ _ _ _ _ Hm' Hn) as ([[a' b'] c'] & Hn' & Ea & Eb & Ec).
    apply elem_of_list_lookup_2, elem_of_list_In, in_map_iff in Hn' as (t & Et & Ht).
    unfold faces in Ht. apply in_flat_map in Ht as (k & Hk & Ht). apply in_map_iff in Ht as (t0 & <- & Ht).
    pose proof (tri_ok_at k t0 Hk Ht) as Hok'. destruct t0 as [[x0 y0] z0]. unfold push_face, shift_face, map3 in Et. injection Et as <- <- <-.
    apply (cell_off w k (2 * u) (2 * v) ltac:(lra) ltac:(lra) ltac:(lra) x0 y0 z0 Hok').
    exists r1, r2, r3. split; [exact R1|]. split; [exact R2|]. split; [exact R3|]. split; [exact R|].
    apply qpt_eq_iff in Ea as (Ax & Ay & Az), Eb as (Bx & By & Bz), Ec as (Cx & Cy & Cz).
    pose proof beside_far as Hf. apply qpt_eq_iff in Hf as (Fx & Fy & Fz).
    pose proof (far_seen k) as Hf. apply qpt_eq_iff in Hf as (Gx & Gy & Gz).
    assert (L : forall k0 x1 y1 z1 o f A B C F G, (A == s * inject_Z (k0 + x1) + o -> B == s * inject_Z (k0 + y1) + o -> C == s * inject_Z (k0 + z1) + o ->
      F == r1 * A + r2 * B + r3 * C -> F == s * G + o -> G == inject_Z k0 + f -> f == r1 * inject_Z x1 + r2 * inject_Z y1 + r3 * inject_Z z1)%Q).
    { intros k0 x1 y1 z1 o f A B C F G E1 E2 E3 E4 E5 E6. pose proof s_pos as Hsp. rewrite E1, E2, E3, E5, E6 in E4. rewrite !inject_Z_plus in E4.
      assert (R' : (r1 == 1 - r2 - r3)%Q) by lra. rewrite R' in E4 |- *.
      apply (Qmult_inj_l _ _ s); [lra|]. lra. }
    destruct k as [[k1 k2] k3], x0 as [[x1 x2] x3], y0 as [[y1 y2] y3], z0 as [[z1 z2] z3].
    split; [|split].
    - exact (L _ _ _ _ _ _ _ _ _ _ _ Ax Bx Cx Ex Fx Gx).
    - exact (L _ _ _ _ _ _ _ _ _ _ _ Ay By Cy Ey Fy Gy).
    - exact (L _ _ _ _ _ _ _ _ _ _ _ Az Bz Cz Ez Fz Gz).
  Qed.
End Whole.

(** ** The two meshes *)
Lemma mc_inside : forallb (cell_inside mc_ztris) (map Z.of_nat (seq 0 256)) = true.
Proof. vm_compute. reflexivity. Qed.
Lemma mf_inside : forallb (fun n => leakyb n || cell_inside mf_tab2 n) (map Z.of_nat (seq 0 256)) = true.
Proof. vm_compute. reflexivity. Qed.

Lemma winding_filled b w z : z = b2n (fillb b w) -> (filled b w -> z = 1) /\ (~ filled b w -> z = 0).
Proof.
  intros ->. rewrite <- fillb_iff. destruct (fillb b w); split; intros H; try reflexivity; [contradiction H; reflexivity|discriminate].
Qed.

(** The mesh of MarchingCubes winds exactly once around the centre of a voxel of the model - around the points of a
    small triangle beside the centre, at any of its corners - and not at all around that of any other voxel. *)
Theorem C70_marching_cubes b order m w u v : (0 < vpmm b)%Q -> Permutation order (elements (grid_cells b)) -> MarchingCubes b order = Some m ->
  (0 < u)%Q -> (2 * u < v)%Q -> (u + v < 1 # 2)%Q ->
  off_mesh m (beside b w u v) /\ meets_no_edge m (beside b w u v) /\ (filled b w -> winding m (beside b w u v) = 1) /\ (~ filled b w -> winding m (beside b w u v) = 0).
Proof.
  intros Hv Hp Em Hu Huv Hs. destruct (MarchingCubes_faces b order) as (m' & E & Hf). rewrite Em in E. injection E as <-.
  assert (Hnd : List.NoDup order) by (apply NoDup_ListNoDup; rewrite Hp; apply NoDup_elements).
  assert (Hall : forall k, pat (fillb b) k <> 0 -> In k order).
  { intros k Hk. apply elem_of_list_In. rewrite Hp. apply elem_of_elements, grid_cells_pat, Hk. }
  assert (Hok : forall k, In k order -> cell_inside mc_ztris (pat (fillb b) k) = true) by (intros k _; apply (patterns_all _ mc_inside)).
  split; [eapply whole_off; eassumption|]. split; [eapply whole_clear; eassumption|]. apply winding_filled. eapply whole_winding; eassumption.
Qed.

(** So does a mesh of ManifoldMesh without leaks. *)
Theorem C70_manifold b m w u v : (0 < vpmm b)%Q -> manifold_run b m -> (forall k n, block_pattern b k n -> ~ In n leaky_patterns) ->
  (0 < u)%Q -> (2 * u < v)%Q -> (u + v < 1 # 2)%Q ->
  off_mesh m (beside b w u v) /\ meets_no_edge m (beside b w u v) /\ (filled b w -> winding m (beside b w u v) = 1) /\ (~ filled b w -> winding m (beside b w u v) = 0).
Proof.
  intros Hv Hr Hl Hu Huv Hs. destruct (manifold_faces2 b m Hr) as (K & Hnd & Hin & Hf).
  assert (Hall : forall k, pat (fillb b) k <> 0 -> In k K) by (intros k; apply Hin).
  assert (Hok : forall k, In k K -> cell_inside mf_tab2 (pat (fillb b) k) = true).
  { intros k _. pose proof (patterns_all _ mf_inside (fillb b) k) as H. cbn beta in H. rewrite orb_true_iff, leakyb_iff in H.
    destruct H as [H|H]; [|exact H]. exfalso. apply (Hl k _ (proj2 (block_pattern_pat b k _) eq_refl) H). }
  split; [eapply whole_off; eassumption|]. split; [eapply whole_clear; eassumption|]. apply winding_filled. eapply whole_winding; eassumption.
Qed.

(** ** Examples *)
Example C70_octahedron : exists m, MarchingCubes one_voxel (elements (grid_cells one_voxel)) = Some m /\ filled one_voxel (1, 2, 1) /\
  winding m (beside one_voxel (1, 2, 1) (1 # 10) (1 # 4)) = 1 /\ winding m (beside one_voxel (1, 2, 0) (1 # 10) (1 # 4)) = 0 /\
  map (crossing (beside one_voxel (1, 2, 0) (1 # 10) (1 # 4))) m <> repeat 0 (length m).
Proof.
  destruct (MarchingCubes one_voxel (elements (grid_cells one_voxel))) as [m|] eqn:E; [|vm_compute in E; discriminate].
  exists m. vm_compute in E. injection E as <-. split; [reflexivity|]. split; [apply fillb_iff; reflexivity|].
  split; [vm_compute; reflexivity|]. split; [vm_compute; reflexivity|]. vm_compute. discriminate.
Qed.

(** Three voxels in a row satisfy the hypotheses of [C70_manifold]. *)
Example C70_chain : exists m, (0 < vpmm (ManifoldProps.block 7))%Q /\ manifold_run (ManifoldProps.block 7) m /\
  (forall k n, block_pattern (ManifoldProps.block 7) k n -> ~ In n leaky_patterns) /\
  forall w, filled (ManifoldProps.block 7) w -> winding m (beside (ManifoldProps.block 7) w (1 # 10) (1 # 4)) = 1.
Proof.
  destruct (C36_total (ManifoldProps.block 7)) as (m & Hm). exists m. split; [reflexivity|]. split; [exact Hm|].
  assert (Hl : forall k n, block_pattern (ManifoldProps.block 7) k n -> ~ In n leaky_patterns).
  { intros k n Hp Hin. apply leakyb_iff in Hin. apply block_pattern_pat in Hp as ->. rewrite (pat_ext _ _ k (fillb_block 7)) in Hin.
    destruct (Z.eq_dec (pat (blockfill 7) k) 0) as [E|Hne]; [rewrite E in Hin; discriminate|]. apply block_cells in Hne.
    assert (H : forallb (fun k => negb (leakyb (pat (blockfill 7) k))) around = true) by (vm_compute; reflexivity).
    rewrite forallb_forall in H. specialize (H k Hne). rewrite Hin in H. discriminate. }
  split; [exact Hl|]. intros w Hw. apply (C70_manifold (ManifoldProps.block 7) m w (1 # 10) (1 # 4)); [reflexivity|exact Hm|exact Hl|reflexivity|reflexivity|reflexivity|exact Hw].
Qed.
