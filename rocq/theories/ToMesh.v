(** C71: model of ToMesh, binvox/mesh.go, and what its mesh is the surface of.

    [gl.NewVoxelMesh] (fauxgl) is a parameter; what is assumed of it is written down as [cube_surface] below and
    met by the mesh [plain_mesh].  A [gl.Matrix] is the map of points it stands for; float64 is replaced by exact
    rationals; of a [gl.Triangle] the positions are kept; logging is left out. *)
From Verif Require Import Base BaseLemmas BinvoxModel Geom VoxelizeModel VoxelizeSpec MeshSpec MeshCells MeshPush MarchModel MarchProofs MeshInside BinvoxProps.
From Coq Require Import ZArith QArith List Lia Lqa Bool Permutation.
From stdpp Require Import base list gmap sets fin_sets.
Import ListNotations.
Open Scope Z_scope.

(** ** Specification *)
Definition on_mesh (m : list face) (p : qpt) : Prop := exists a b c, In (a, b, c) m /\ in_triangle a b c p.

(** The closed cube of side [s] whose lower corner is [lo]. *)
Definition in_cube (lo : qpt) (s : Q) (p : qpt) : Prop :=
  (px lo <= px p <= px lo + s /\ py lo <= py p <= py lo + s /\ pz lo <= pz p <= pz lo + s)%Q.

Definition direction (v w : key) : qpt := (inject_Z (kx w - kx v), inject_Z (ky w - ky v), inject_Z (kz w - kz v)).

(** [m] is the surface of the union of the cubes of the voxels in [V]: it covers every square between a voxel in
    [V] and one not in [V], and every point of every triangle is on such a square, which the triangle faces
    from the inside out. *)
Definition cube_surface (lo : key -> qpt) (s : Q) (V : key -> Prop) (m : list face) : Prop :=
  (forall p v w, V v -> ~ V w -> axis_neighbour v w -> in_cube (lo v) s p -> in_cube (lo w) s p -> on_mesh m p) /\
  (forall a b c p, In (a, b, c) m -> in_triangle a b c p ->
     exists v w, V v /\ ~ V w /\ axis_neighbour v w /\ in_cube (lo v) s p /\ in_cube (lo w) s p /\ (0 < faces_along a b c (direction v w))%Q).

(** In voxel units a voxel is the unit cube around its whole coordinates; in the world it starts at
    [world b k] (Geom.v, as in C14). *)
Definition unit_lo (k : key) : qpt := ((inject_Z (kx k) - (1 # 2))%Q, (inject_Z (ky k) - (1 # 2))%Q, (inject_Z (kz k) - (1 # 2))%Q).

(** What is assumed of [gl.NewVoxelMesh]. *)
Definition voxel_mesher (f : list key -> list face) : Prop := forall vs, cube_surface unit_lo 1 (fun v => In v vs) (f vs).

(** ** Model *)

(** fauxgl matrix.go: [a.Translate(v)] is [Translate(v).Mul(a)], so [a] acts first. *)
Definition matrix : Type := qpt -> qpt.
Definition Identity : matrix := fun p => p.
Definition Translate (m : matrix) (v : qpt) : matrix := fun p => ((px (m p) + px v)%Q, (py (m p) + py v)%Q, (pz (m p) + pz v)%Q).
Definition ScaleBy (m : matrix) (v : qpt) : matrix := fun p => ((px (m p) * px v)%Q, (py (m p) * py v)%Q, (pz (m p) * pz v)%Q).
(** fauxgl mesh.go Transform. *)
Definition Transform (m : matrix) (t : face) : face := let '(a, b, c) := t in (m a, m b, m c).

(** binvox/mesh.go:11-49 ToMesh; [whites] and [cols] are the two maps in the orders of iteration. *)
Definition ToMesh (NewVoxelMesh : list key -> list face) (b : binvox Q) (whites cols : list key) : list face :=
  let voxels := whites ++ cols in
  let mesh := NewVoxelMesh voxels in
  let t1 := ((1 # 2)%Q, (1 # 2)%Q, (1 # 2)%Q) in
  let mmpv := (1 / vpmm b)%Q in
  let s := (mmpv, mmpv, mmpv) in
  let t2 := (TX b, TY b, TZ b) in
  let m := Translate (ScaleBy (Translate Identity t1) s) t2 in
  map (Transform m) mesh.

(** ** Proofs *)
Section Affine.
  Context (s : Q) (Hs : (0 < s)%Q) (t : qpt).
  Let f (p : qpt) : qpt := (((px p + (1 # 2)) * s + px t)%Q, ((py p + (1 # 2)) * s + py t)%Q, ((pz p + (1 # 2)) * s + pz t)%Q).

  Lemma scale_le x y : ((x * s <= y * s)%Q <-> (x <= y)%Q).
  Proof. apply Qmult_le_r, Hs. Qed.

  Lemma in_triangle_f a b c p q : qpt_eq q (f p) -> in_triangle (f a) (f b) (f c) q <-> in_triangle a b c p.
  Proof.
    rewrite qpt_eq_iff. intros (Qx & Qy & Qz). unfold in_triangle.
    assert (L : forall r1 r2 r3 x x1 x2 x3 y o, (r1 + r2 + r3 == 1 -> y == (x + (1 # 2)) * s + o ->
      (y == r1 * ((x1 + (1 # 2)) * s + o) + r2 * ((x2 + (1 # 2)) * s + o) + r3 * ((x3 + (1 # 2)) * s + o) <-> x == r1 * x1 + r2 * x2 + r3 * x3))%Q).
    { intros r1 r2 r3 x x1 x2 x3 y o HR Hy. assert (E : (r1 == 1 - r2 - r3)%Q) by lra. rewrite Hy, E. split; intros H.
      - apply (Qmult_inj_r _ _ s); [lra|]. lra.
      - rewrite H. ring. }
    split; intros (r1 & r2 & r3 & R1 & R2 & R3 & R & E1 & E2 & E3); exists r1, r2, r3;
      (split; [exact R1|split; [exact R2|split; [exact R3|split; [exact R|]]]]).
    - split; [|split]; [apply (L _ _ _ _ _ _ _ _ _ R Qx), E1|apply (L _ _ _ _ _ _ _ _ _ R Qy), E2|apply (L _ _ _ _ _ _ _ _ _ R Qz), E3].
    - split; [|split]; [apply (L _ _ _ _ _ _ _ _ _ R Qx), E1|apply (L _ _ _ _ _ _ _ _ _ R Qy), E2|apply (L _ _ _ _ _ _ _ _ _ R Qz), E3].
  Qed.

  Lemma in_cube_f lo lo' p q : qpt_eq q (f p) ->
    (px lo' == (px lo + (1 # 2)) * s + px t /\ py lo' == (py lo + (1 # 2)) * s + py t /\ pz lo' == (pz lo + (1 # 2)) * s + pz t)%Q ->
    in_cube lo' s q <-> in_cube lo 1 p.
  Proof.
    rewrite qpt_eq_iff. intros (Qx & Qy & Qz) (Lx & Ly & Lz). unfold in_cube.
    assert (L : forall x y l l' o, (y == (x + (1 # 2)) * s + o -> l' == (l + (1 # 2)) * s + o -> ((l' <= y <= l' + s) <-> (l <= x <= l + 1)))%Q).
    { intros x y l l' o -> ->. pose proof (scale_le l x) as G1. pose proof (scale_le x (l + 1)) as G2. split; intros [H1 H2].
      - split; [apply G1; lra|apply G2; lra].
      - apply G1 in H1. apply G2 in H2. split; lra. }
    rewrite (L _ _ _ _ _ Qx Lx), (L _ _ _ _ _ Qy Ly), (L _ _ _ _ _ Qz Lz). reflexivity.
  Qed.

  Lemma faces_along_f a b c d : (faces_along (f a) (f b) (f c) d == s * s * faces_along a b c d)%Q.
  Proof. unfold faces_along, f, px, py, pz. cbn [fst snd]. ring. Qed.
End Affine.

(** ToMesh moves the cubes to the world positions of the voxels. *)
Theorem C71_surface f b whites cols : (0 < vpmm b)%Q -> voxel_mesher f ->
  Permutation whites (elements (white b)) -> Permutation cols (elements (dom (colors b))) ->
  cube_surface (world b) (1 / vpmm b) (filled b) (ToMesh f b whites cols).
Proof.
  intros Hv Hf Hw Hc. assert (Hs : (0 < 1 / vpmm b)%Q) by (unfold Qdiv; rewrite Qmult_1_l; apply Qinv_lt_0_compat, Hv).
  set (s := (1 / vpmm b)%Q) in *. set (t := (TX b, TY b, TZ b)).
  set (F := fun p : qpt => (((px p + (1 # 2)) * s + px t)%Q, ((py p + (1 # 2)) * s + py t)%Q, ((pz p + (1 # 2)) * s + pz t)%Q)).
  assert (HV : forall v, In v (whites ++ cols) <-> filled b v).
  { intros v. rewrite <- elem_of_list_In, elem_of_app, Hw, Hc, !elem_of_elements, elem_of_dom. reflexivity. }
  assert (Hlo : forall v, (px (world b v) == (px (unit_lo v) + (1 # 2)) * s + px t /\ py (world b v) == (py (unit_lo v) + (1 # 2)) * s + py t /\
    pz (world b v) == (pz (unit_lo v) + (1 # 2)) * s + pz t)%Q).
  { intros v. unfold world, unit_lo, t, s, Qdiv, px, py, pz. cbn [fst snd]. split; [ring|split; ring]. }
  assert (Em : ToMesh f b whites cols = map (fun '(a, b, c) => (F a, F b, F c)) (f (whites ++ cols))).
  { unfold ToMesh. apply map_ext. intros [[p q] r]. reflexivity. }
  destruct (Hf (whites ++ cols)) as [H1 H2]. rewrite Em. clear Em. split.
  - intros p v w Vv Vw Hn Cv Cw. rewrite <- HV in Vv, Vw.
    set (p0 := ((((px p - px t) / s - (1 # 2)))%Q, (((py p - py t) / s - (1 # 2)))%Q, (((pz p - pz t) / s - (1 # 2)))%Q)).
    assert (Hp : qpt_eq p (F p0)).
    { rewrite qpt_eq_iff. unfold F, p0, px, py, pz. cbn [fst snd]. assert (~ s == 0)%Q by lra. split; [|split]; field; assumption. }
    apply (in_cube_f s Hs t (unit_lo v) _ p0 p Hp (Hlo v)) in Cv. apply (in_cube_f s Hs t (unit_lo w) _ p0 p Hp (Hlo w)) in Cw.
    destruct (H1 p0 v w Vv Vw Hn Cv Cw) as (a & b' & c & Hin & Ht). exists (F a), (F b'), (F c). split.
    + apply in_map_iff. exists (a, b', c). split; [reflexivity|exact Hin].
    + apply (in_triangle_f s Hs t a b' c p0 p Hp), Ht.
  - intros a' b' c' p Hin Ht. apply in_map_iff in Hin as ([[a b0] c] & E & Hin). injection E as <- <- <-.
    set (p0 := ((((px p - px t) / s - (1 # 2)))%Q, (((py p - py t) / s - (1 # 2)))%Q, (((pz p - pz t) / s - (1 # 2)))%Q)).
    assert (Hp : qpt_eq p (F p0)).
    { rewrite qpt_eq_iff. unfold F, p0, px, py, pz. cbn [fst snd]. assert (~ s == 0)%Q by lra. split; [|split]; field; assumption. }
    apply (in_triangle_f s Hs t a b0 c p0 p Hp) in Ht. destruct (H2 a b0 c p0 Hin Ht) as (v & w & Vv & Vw & Hn & Cv & Cw & Hd).
    exists v, w. rewrite <- !HV. split; [exact Vv|]. split; [exact Vw|]. split; [exact Hn|].
    split; [apply (in_cube_f s Hs t (unit_lo v) _ p0 p Hp (Hlo v)), Cv|]. split; [apply (in_cube_f s Hs t (unit_lo w) _ p0 p Hp (Hlo w)), Cw|].
    unfold F. rewrite (faces_along_f s t). apply Qmult_lt_0_compat; [apply Qmult_lt_0_compat; exact Hs|exact Hd].
Qed.

(** So the mesh of a model whose voxels are in its grid lies within its bounding box. *)
Theorem C71_within_mbb f b whites cols p : (0 < vpmm b)%Q -> voxel_mesher f ->
  Permutation whites (elements (white b)) -> Permutation cols (elements (dom (colors b))) ->
  (forall v, filled b v -> 0 <= kx v < NX b /\ 0 <= ky v < NY b /\ 0 <= kz v < NZ b) ->
  on_mesh (ToMesh f b whites cols) p -> qpt_le (fst (mbb b)) p /\ qpt_le p (snd (mbb b)).
Proof.
  intros Hv Hf Hw Hc Hg (a & b' & c & Hin & Ht). destruct (C71_surface f b whites cols Hv Hf Hw Hc) as [_ H].
  destruct (H a b' c p Hin Ht) as (v & w & Vv & _ & _ & (Cx & Cy & Cz) & _). apply Hg in Vv as (Gx & Gy & Gz).
  assert (Hs : (0 < 1 / vpmm b)%Q) by (unfold Qdiv; rewrite Qmult_1_l; apply Qinv_lt_0_compat, Hv).
  assert (L : forall k n, 0 <= k < n -> (0 <= inject_Z k / vpmm b /\ inject_Z k / vpmm b + 1 / vpmm b <= 1 / vpmm b * inject_Z n)%Q).
  { intros k n [K1 K2]. set (s := (1 / vpmm b)%Q) in *. setoid_replace (inject_Z k / vpmm b)%Q with (inject_Z k * s)%Q by (unfold s, Qdiv; ring). split.
    - apply Qmult_le_0_compat; [change 0%Q with (inject_Z 0); rewrite <- Zle_Qle; lia|lra].
    - assert (H1 : (inject_Z k + 1 <= inject_Z n)%Q) by (change 1%Q with (inject_Z 1); rewrite <- inject_Z_plus, <- Zle_Qle; lia).
      apply (Qmult_le_compat_r _ _ s) in H1; [|lra]. lra. }
  pose proof (L _ _ Gx) as [X1 X2]. pose proof (L _ _ Gy) as [Y1 Y2]. pose proof (L _ _ Gz) as [Z1 Z2].
  destruct p as [[p1 p2] p3]. unfold world, px, py, pz in Cx, Cy, Cz. cbn [fst snd] in Cx, Cy, Cz. unfold mbb, qpt_le. cbn [fst snd].
  split; (split; [lra|split; lra]).
Qed.

(** ** A mesh that meets the assumption: two triangles for every square between a voxel and an empty place. *)
Definition sides6 : list (key * key * key) :=
  [((1, 0, 0), (0, 1, 0), (0, 0, 1)); ((-1, 0, 0), (0, 0, 1), (0, 1, 0)); ((0, 1, 0), (0, 0, 1), (1, 0, 0));
   ((0, -1, 0), (1, 0, 0), (0, 0, 1)); ((0, 0, 1), (1, 0, 0), (0, 1, 0)); ((0, 0, -1), (0, 1, 0), (1, 0, 0))].
Definition corner_at (v d e1 e2 : key) (s1 s2 : Z) : qpt :=
  ((inject_Z (kx v) + (1 # 2) * inject_Z (kx d + s1 * kx e1 + s2 * kx e2))%Q, (inject_Z (ky v) + (1 # 2) * inject_Z (ky d + s1 * ky e1 + s2 * ky e2))%Q,
   (inject_Z (kz v) + (1 # 2) * inject_Z (kz d + s1 * kz e1 + s2 * kz e2))%Q).
Definition square (v : key) (d : key * key * key) : list face :=
  let '(d, e1, e2) := d in let c := corner_at v d e1 e2 in
  [(c (-1) (-1), c 1 (-1), c 1 1); (c (-1) (-1), c 1 1, c (-1) 1)].
Definition plain_mesh (vs : list key) : list face :=
  flat_map (fun v => flat_map (fun d => if existsb (key_eqb (kadd v (fst (fst d)))) vs then [] else square v d) sides6) vs.

Lemma square_covers v d p : In d sides6 -> in_cube (unit_lo v) 1 p -> in_cube (unit_lo (kadd v (fst (fst d)))) 1 p ->
  exists a b c, In (a, b, c) (square v d) /\ in_triangle a b c p.
Proof.
  intros Hd (Ax & Ay & Az) (Bx & By & Bz). destruct v as [[v1 v2] v3], p as [[p1 p2] p3]. unfold unit_lo, kadd, px, py, pz, kx, ky, kz in *. cbn [fst snd] in *.
  assert (E0 : forall x, x + 0 = x) by (intros; lia).
  unfold sides6 in Hd. cbn [In] in Hd.
  assert (T : forall t1 t2 : Q, (t2 <= t1 \/ t1 <= t2)%Q) by (intros; destruct (Qlt_le_dec t1 t2); [right; apply Qlt_le_weak; assumption|left; assumption]).
  destruct Hd as [<-|[<-|[<-|[<-|[<-|[<-|[]]]]]]]; cbn [fst snd] in *; rewrite ?E0, ?inject_Z_plus in *;
    change (inject_Z 1) with 1%Q in *; change (inject_Z (-1)) with (-1)%Q in *; unfold square, corner_at, kx, ky, kz; cbn [fst snd];
    repeat match goal with |- context [inject_Z ?z] => match z with (_ + _)%Z => let z' := eval vm_compute in z in change z with z' end end;
    change (inject_Z 1) with 1%Q in *; change (inject_Z (-1)) with (-1)%Q in *.
  - destruct (T (p2 - inject_Z v2 + (1 # 2))%Q (p3 - inject_Z v3 + (1 # 2))%Q) as [H|H];
      [eexists _, _, _; split; [left; reflexivity|exists (1 - (p2 - inject_Z v2 + (1 # 2)))%Q, (p2 - inject_Z v2 - (p3 - inject_Z v3))%Q, (p3 - inject_Z v3 + (1 # 2))%Q]
      |eexists _, _, _; split; [right; left; reflexivity|exists (1 - (p3 - inject_Z v3 + (1 # 2)))%Q, (p2 - inject_Z v2 + (1 # 2))%Q, (p3 - inject_Z v3 - (p2 - inject_Z v2))%Q]];
      unfold px, py, pz; cbn [fst snd]; repeat (split; [lra|]); lra.
  - destruct (T (p3 - inject_Z v3 + (1 # 2))%Q (p2 - inject_Z v2 + (1 # 2))%Q) as [H|H];
      [eexists _, _, _; split; [left; reflexivity|exists (1 - (p3 - inject_Z v3 + (1 # 2)))%Q, (p3 - inject_Z v3 - (p2 - inject_Z v2))%Q, (p2 - inject_Z v2 + (1 # 2))%Q]
      |eexists _, _, _; split; [right; left; reflexivity|exists (1 - (p2 - inject_Z v2 + (1 # 2)))%Q, (p3 - inject_Z v3 + (1 # 2))%Q, (p2 - inject_Z v2 - (p3 - inject_Z v3))%Q]];
      unfold px, py, pz; cbn [fst snd]; repeat (split; [lra|]); lra.
  - destruct (T (p3 - inject_Z v3 + (1 # 2))%Q (p1 - inject_Z v1 + (1 # 2))%Q) as [H|H];
      [eexists _, _, _; split; [left; reflexivity|exists (1 - (p3 - inject_Z v3 + (1 # 2)))%Q, (p3 - inject_Z v3 - (p1 - inject_Z v1))%Q, (p1 - inject_Z v1 + (1 # 2))%Q]
      |eexists _, _, _; split; [right; left; reflexivity|exists (1 - (p1 - inject_Z v1 + (1 # 2)))%Q, (p3 - inject_Z v3 + (1 # 2))%Q, (p1 - inject_Z v1 - (p3 - inject_Z v3))%Q]];
      unfold px, py, pz; cbn [fst snd]; repeat (split; [lra|]); lra.
  - destruct (T (p1 - inject_Z v1 + (1 # 2))%Q (p3 - inject_Z v3 + (1 # 2))%Q) as [H|H];
      [eexists _, _, _; split; [left; reflexivity|exists (1 - (p1 - inject_Z v1 + (1 # 2)))%Q, (p1 - inject_Z v1 - (p3 - inject_Z v3))%Q, (p3 - inject_Z v3 + (1 # 2))%Q]
      |eexists _, _, _; split; [right; left; reflexivity|exists (1 - (p3 - inject_Z v3 + (1 # 2)))%Q, (p1 - inject_Z v1 + (1 # 2))%Q, (p3 - inject_Z v3 - (p1 - inject_Z v1))%Q]];
      unfold px, py, pz; cbn [fst snd]; repeat (split; [lra|]); lra.
  - destruct (T (p1 - inject_Z v1 + (1 # 2))%Q (p2 - inject_Z v2 + (1 # 2))%Q) as [H|H];
      [eexists _, _, _; split; [left; reflexivity|exists (1 - (p1 - inject_Z v1 + (1 # 2)))%Q, (p1 - inject_Z v1 - (p2 - inject_Z v2))%Q, (p2 - inject_Z v2 + (1 # 2))%Q]
      |eexists _, _, _; split; [right; left; reflexivity|exists (1 - (p2 - inject_Z v2 + (1 # 2)))%Q, (p1 - inject_Z v1 + (1 # 2))%Q, (p2 - inject_Z v2 - (p1 - inject_Z v1))%Q]];
      unfold px, py, pz; cbn [fst snd]; repeat (split; [lra|]); lra.
  - destruct (T (p2 - inject_Z v2 + (1 # 2))%Q (p1 - inject_Z v1 + (1 # 2))%Q) as [H|H];
      [eexists _, _, _; split; [left; reflexivity|exists (1 - (p2 - inject_Z v2 + (1 # 2)))%Q, (p2 - inject_Z v2 - (p1 - inject_Z v1))%Q, (p1 - inject_Z v1 + (1 # 2))%Q]
      |eexists _, _, _; split; [right; left; reflexivity|exists (1 - (p1 - inject_Z v1 + (1 # 2)))%Q, (p2 - inject_Z v2 + (1 # 2))%Q, (p1 - inject_Z v1 - (p2 - inject_Z v2))%Q]];
      unfold px, py, pz; cbn [fst snd]; repeat (split; [lra|]); lra.
Qed.

Lemma square_corners v d a b c : In d sides6 -> In (a, b, c) (square v d) ->
  (forall q, q = a \/ q = b \/ q = c -> in_cube (unit_lo v) 1 q /\ in_cube (unit_lo (kadd v (fst (fst d)))) 1 q) /\
  (0 < faces_along a b c (direction v (kadd v (fst (fst d)))))%Q.
Proof.
  intros Hd Hin. destruct v as [[v1 v2] v3].
  assert (E0 : forall x, x + 0 = x) by (intros; lia). assert (E1 : forall x y, x + y - x = y) by (intros; lia).
  unfold sides6 in Hd. cbn [In] in Hd.
  destruct Hd as [<-|[<-|[<-|[<-|[<-|[<-|[]]]]]]]; unfold square in Hin; cbn [In] in Hin;
    (destruct Hin as [E|[E|[]]]; injection E as <- <- <-); unfold corner_at, unit_lo, in_cube, kadd, direction, faces_along, px, py, pz, kx, ky, kz; cbn [fst snd];
    rewrite ?E1, ?E0, ?inject_Z_plus;
    repeat match goal with |- context [inject_Z ?z] => match z with (_ * _)%Z => let z' := eval vm_compute in z in change z with z' end end;
    change (inject_Z 1) with 1%Q; change (inject_Z (-1)) with (-1)%Q; change (inject_Z 0) with 0%Q;
    (split; [intros q [->|[->| ->]]; cbn [fst snd]; (split; (split; [lra|split; lra]))|
      match goal with |- (0 < ?e)%Q => setoid_replace e with 1%Q by ring; reflexivity end]).
Qed.

Lemma in_cube_convex lo s a b c p : in_cube lo s a -> in_cube lo s b -> in_cube lo s c -> in_triangle a b c p -> in_cube lo s p.
Proof.
  intros (Ax & Ay & Az) (Bx & By & Bz) (Cx & Cy & Cz) (r1 & r2 & r3 & R1 & R2 & R3 & R & Ex & Ey & Ez). unfold in_cube. rewrite Ex, Ey, Ez.
  split; [|split]; apply convex; assumption.
Qed.

Lemma neighbour_side v w : axis_neighbour v w <-> exists d, In d sides6 /\ w = kadd v (fst (fst d)).
Proof.
  destruct v as [[v1 v2] v3], w as [[w1 w2] w3]. unfold axis_neighbour, kadd, kx, ky, kz. cbn [fst snd]. split.
  - intros H. assert (E : exists d1 d2 d3, w1 = v1 + d1 /\ w2 = v2 + d2 /\ w3 = v3 + d3 /\ Z.abs d1 + Z.abs d2 + Z.abs d3 = 1).
    { exists (w1 - v1), (w2 - v2), (w3 - v3). lia. }
    destruct E as (d1 & d2 & d3 & -> & -> & -> & E). clear H.
    assert (C : (d1 = 1 /\ d2 = 0 /\ d3 = 0) \/ (d1 = -1 /\ d2 = 0 /\ d3 = 0) \/ (d1 = 0 /\ d2 = 1 /\ d3 = 0) \/ (d1 = 0 /\ d2 = -1 /\ d3 = 0) \/
      (d1 = 0 /\ d2 = 0 /\ d3 = 1) \/ (d1 = 0 /\ d2 = 0 /\ d3 = -1)) by lia.
    destruct C as [(-> & -> & ->)|[(-> & -> & ->)|[(-> & -> & ->)|[(-> & -> & ->)|[(-> & -> & ->)|(-> & -> & ->)]]]]];
      [exists (nth 0 sides6 (v1, v2, v3, (v1, v2, v3), (v1, v2, v3)))|exists (nth 1 sides6 (v1, v2, v3, (v1, v2, v3), (v1, v2, v3)))|
       exists (nth 2 sides6 (v1, v2, v3, (v1, v2, v3), (v1, v2, v3)))|exists (nth 3 sides6 (v1, v2, v3, (v1, v2, v3), (v1, v2, v3)))|
       exists (nth 4 sides6 (v1, v2, v3, (v1, v2, v3), (v1, v2, v3)))|exists (nth 5 sides6 (v1, v2, v3, (v1, v2, v3), (v1, v2, v3)))];
      (split; [cbn; tauto|reflexivity]).
  - intros (d & Hd & E). unfold sides6 in Hd. cbn [In] in Hd. destruct Hd as [<-|[<-|[<-|[<-|[<-|[<-|[]]]]]]]; cbn [fst snd] in E; injection E as -> -> ->; lia.
Qed.

Theorem C71_mesher_exists : voxel_mesher plain_mesh.
Proof.
  intros vs. split.
  - intros p v w Vv Vw Hn Cv Cw. apply neighbour_side in Hn as (d & Hd & ->). destruct (square_covers v d p Hd Cv Cw) as (a & b & c & Hin & Ht).
    exists a, b, c. split; [|exact Ht]. apply in_flat_map. exists v. split; [exact Vv|]. apply in_flat_map. exists d. split; [exact Hd|].
    destruct (existsb (key_eqb (kadd v (fst (fst d)))) vs) eqn:E; [|exact Hin]. exfalso. apply Vw. apply existsb_exists in E as (x & Hx & E). apply key_eqb_eq in E as ->. exact Hx.
  - intros a b c p Hin Ht. apply in_flat_map in Hin as (v & Vv & Hin). apply in_flat_map in Hin as (d & Hd & Hin).
    destruct (existsb (key_eqb (kadd v (fst (fst d)))) vs) eqn:E; [destruct Hin|]. destruct (square_corners v d a b c Hd Hin) as [Hc Hf].
    exists v, (kadd v (fst (fst d))). split; [exact Vv|]. split.
    { intros Hw. assert (existsb (key_eqb (kadd v (fst (fst d)))) vs = true); [|congruence]. apply existsb_exists. eexists. split; [exact Hw|apply key_eqb_eq; reflexivity]. }
    split; [apply neighbour_side; exists d; auto|]. split; [|split; [|exact Hf]].
    + apply (in_cube_convex _ _ a b c); try assumption; apply Hc; tauto.
    + apply (in_cube_convex _ _ a b c); try assumption; apply Hc; tauto.
Qed.

(** Two voxels, one of them both white and coloured: twelve triangles for each copy, less the square between them. *)
Definition two_voxels : binvox Q := BinVOX 4 4 4 (1 # 3)%Q 2%Q (-5)%Q 4%Q (Some {[ (1, 2, 1); (2, 2, 1) ]}) (Some {[ (1, 2, 1) := Color 1%Q 0%Q 0%Q 1%Q ]}).
Example C71_ex : (0 < vpmm two_voxels)%Q /\ length (ToMesh plain_mesh two_voxels [(1, 2, 1); (2, 2, 1)] [(1, 2, 1)]) = 30%nat /\
  on_mesh (ToMesh plain_mesh two_voxels [(1, 2, 1); (2, 2, 1)] [(1, 2, 1)]) ((1 # 3) + 1, 2 + (5 # 2), -5 + (3 # 2))%Q /\
  ~ on_mesh (ToMesh plain_mesh two_voxels [(1, 2, 1); (2, 2, 1)] [(1, 2, 1)]) ((1 # 3) + 2, 2 + (5 # 2), -5 + (3 # 2))%Q.
Proof.
  assert (Hw : forall v, filled two_voxels v <-> v = (1, 2, 1) \/ v = (2, 2, 1)).
  { intros v. unfold filled, white, colors, two_voxels. cbn [White Colors default]. split.
    - intros [H|[x H]]; [set_solver|]. unfold id in H. apply lookup_singleton_Some in H as [<- _]. auto.
    - intros [-> | ->]; left; set_solver. }
  assert (Hs : cube_surface (world two_voxels) (1 / vpmm two_voxels) (filled two_voxels) (ToMesh plain_mesh two_voxels [(1, 2, 1); (2, 2, 1)] [(1, 2, 1)])).
  { apply C71_surface; [reflexivity|apply C71_mesher_exists|vm_compute; apply Permutation.perm_swap || reflexivity|reflexivity]. }
  split; [reflexivity|]. split; [reflexivity|]. destruct Hs as [H1 H2]. split.
  - apply (H1 _ (1, 2, 1) (0, 2, 1)); [apply Hw; auto|rewrite Hw; intros [H|H]; discriminate|reflexivity| |];
      unfold in_cube, world; vm_compute; repeat split; discriminate.
  - intros (a & b & c & Hin & Ht). destruct (H2 a b c _ Hin Ht) as (v & w & Vv & Vw & Hn & Cv & Cw & _).
    apply Vw, Hw. destruct w as [[w1 w2] w3], Cw as (Cx & Cy & Cz). unfold world, two_voxels, kx, ky, kz in Cx, Cy, Cz. fold two_voxels in Cx, Cy, Cz.
    cbn [TX TY TZ fst snd px py pz] in Cx, Cy, Cz.
    assert (E : (vpmm two_voxels == 1)%Q) by reflexivity. rewrite E in Cx, Cy, Cz. unfold Qdiv in Cx, Cy, Cz. change (/ 1)%Q with 1%Q in *.
    change (TX two_voxels) with (1 # 3)%Q in Cx. change (TY two_voxels) with 2%Q in Cy. change (TZ two_voxels) with (-5)%Q in Cz.
    assert (Wx : (inject_Z 1 <= inject_Z w1 <= inject_Z 2)%Q) by (change (inject_Z 1) with 1%Q; change (inject_Z 2) with 2%Q; lra).
    assert (Wy : (inject_Z 1 < inject_Z w2 < inject_Z 3)%Q) by (change (inject_Z 1) with 1%Q; change (inject_Z 3) with 3%Q; lra).
    assert (Wz : (inject_Z 0 < inject_Z w3 < inject_Z 2)%Q) by (change (inject_Z 0) with 0%Q; change (inject_Z 2) with 2%Q; lra).
    rewrite <- !Zle_Qle in Wx. rewrite <- !Zlt_Qlt in Wy, Wz. assert (w2 = 2) as -> by lia. assert (w3 = 1) as -> by lia.
    assert (C : w1 = 1 \/ w1 = 2) by lia. destruct C as [-> | ->]; auto.
Qed.

Print Assumptions C71_surface.
Print Assumptions C71_within_mbb.
Print Assumptions C71_mesher_exists.
