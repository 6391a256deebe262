(** C70 at every point in general position: the winding number of the meshes in the octahedron around the centre of a voxel, and
    for ManifoldMesh on well-composed models in the whole voxel. *)
From Verif Require Import Base BaseLemmas BinvoxModel Geom VoxelizeModel VoxelizeSpec MeshSpec MeshCells MeshPush MarchTables MarchModel MarchProofs MarchProps
  ManifoldXform ManifoldTables ManifoldModel ManifoldProofs ManifoldSurface ManifoldProps MeshVolume MeshInside ManifoldExact MeshWatertight MeshNear.
From Coq Require Import ZArith QArith Qabs List Lia Lqa Bool Permutation.
From stdpp Require Import base list gmap sets fin_sets.
Import ListNotations.
Open Scope Z_scope.

(** ** Specification *)

(** The vertical line through the centre and six lines through it, on which a vertical ray may run into an edge. *)
Definition off_axes (d : qpt) : Prop :=
  (~ px d == 0 /\ ~ py d == 0 /\ ~ Qabs (px d) == Qabs (py d) /\ ~ Qabs (px d) == 2 * Qabs (py d) /\ ~ Qabs (py d) == 2 * Qabs (px d))%Q.
(** Lines further out. *)
Definition off_lines (d : qpt) : Prop :=
  (off_axes d /\ ~ Qabs (px d) + Qabs (py d) == 1 # 2 /\ ~ Qabs (px d) + 2 * Qabs (py d) == 1 /\ ~ 2 * Qabs (px d) + Qabs (py d) == 1)%Q.

(** The mesh [m] winds once around the voxels that satisfy [P], and not around the others: at every point in general position of
    the octahedron of a voxel of the grid of [b]. *)
Definition encloses (b : binvox Q) (m : list face) (P : key -> Prop) : Prop :=
  forall w d, in_octahedron d -> off_axes d -> let p := near b w d in
    off_mesh m p /\ meets_no_edge m p /\ (P w -> winding m p = 1) /\ (~ P w -> winding m p = 0).

(** ** Regions of a column of cells seen from above *)
Definition pt2 := (Z * Z)%type.
Definition part := (pt2 * pt2 * pt2)%type.
(** [side] of an edge at a point given in thirtieths of a half voxel. *)
Definition edge_at (a b : key) (v : pt2) : Z := (kx b - kx a) * (snd v - 30 * ky a) - (ky b - ky a) * (fst v - 30 * kx a).
Definition rpos (r : part) (a b : key) : bool :=
  let '(v0, v1, v2) := r in
  (0 <=? edge_at a b v0) && (0 <=? edge_at a b v1) && (0 <=? edge_at a b v2) && (0 <? edge_at a b v0 + edge_at a b v1 + edge_at a b v2).
Definition rcover (r : part) (t : zface) : Z :=
  let '(a, b, c) := t in if rpos r a b && rpos r b c && rpos r c a then 1 else if rpos r b a && rpos r c b && rpos r a c then -1 else 0.
Definition rtri_ok (r : part) (t : zface) : bool :=
  let '(a, b, c) := t in
  MeshInside.in_cell a && MeshInside.in_cell b && MeshInside.in_cell c &&
  forallb (fun e => rpos r (fst e) (snd e) || rpos r (snd e) (fst e) || wvert (fst e) (snd e)) (zface_edges t) &&
  ((rcover r t =? 0) || raised t).
Definition rcell (i : nat) (r : part) (ts : list zface) (n : Z) : bool :=
  forallb (rtri_ok r) ts && (zsum (rcover r) ts =? b2n (Z.testbit n (Z.of_nat i)) - b2n (Z.testbit n (Z.of_nat (i + 4)))).

(** The regions between the lines, for 0 < y < x < 1. *)
Definition octant_near : list part := [((0, 0), (30, 0), (20, 10)); ((0, 0), (20, 10), (15, 15))].
Definition octant_far : list part := [((30, 0), (30, 15), (24, 12)); ((30, 0), (24, 12), (20, 10));
  ((20, 10), (24, 12), (20, 20)); ((20, 10), (20, 20), (15, 15)); ((20, 10), (20, 20), (20, 20)); ((24, 12), (30, 15), (20, 20)); ((30, 15), (30, 30), (20, 20))].
Definition map_region (f : pt2 -> pt2) (r : part) : part := let '(a, b, c) := r in (f a, f b, f c).
Definition swap2 (p : pt2) : pt2 := (snd p, fst p).
(** Distances from corner [i] of a cell, into the cell. *)
Definition place (i : nat) (p : pt2) : pt2 :=
  let o := nth i corner_off (0, 0, 0) in (60 * kx o + (1 - 2 * kx o) * fst p, 60 * ky o + (- (1) - 2 * ky o) * snd p).
Definition regions (o : list part) (i : nat) : list part := map (map_region (place i)) (o ++ map (map_region swap2) o).
Definition rcells (o : list part) (tab : Z -> list zface) (n : Z) : bool :=
  let ts := tab n in forallb (fun i => forallb (fun r => rcell i r ts n) (regions o i)) (seq 0 4).

Lemma mc_regions : forallb (rcells octant_near mc_ztris) (map Z.of_nat (seq 0 256)) = true.
Proof. vm_compute. reflexivity. Qed.
Lemma mf_regions : forallb (fun n => inb torn_patterns n || rcells octant_near mf_tab2 n) (map Z.of_nat (seq 0 256)) = true.
Proof. vm_compute. reflexivity. Qed.
Lemma mf_regions_wc : forallb (fun n => if inb torn_patterns n then true else if conn_ok n true && conn_ok n false then rcells (octant_near ++ octant_far) mf_tab2 n else true) (map Z.of_nat (seq 0 256)) = true.
Proof. vm_compute. reflexivity. Qed.

(** ** Points of a part *)
Definition zq (z : Z) : Q := inject_Z z.
Definition in_part (r : part) (x y : Q) : Prop :=
  let '(v0, v1, v2) := r in
  exists l0 l1 l2, (0 < l0 /\ 0 < l1 /\ 0 < l2 /\ l0 + l1 + l2 == 1 /\
    30 * x == l0 * inject_Z (fst v0) + l1 * inject_Z (fst v1) + l2 * inject_Z (fst v2) /\
    30 * y == l0 * inject_Z (snd v0) + l1 * inject_Z (snd v1) + l2 * inject_Z (snd v2))%Q.

Section Region.
  Context (r : part) (q : qpt) (Hq : in_part r (px q) (py q)).

  Lemma rpos_side a b : rpos r a b = true -> (0 < side (qk a) (qk b) q)%Q.
  Proof.
    unfold rpos. destruct r as [[v0 v1] v2]. destruct Hq as (l0 & l1 & l2 & L0 & L1 & L2 & L & Ex & Ey).
    rewrite !andb_true_iff, !Z.leb_le, Z.ltb_lt. intros [[[H0 H1] H2] Hx].
    assert (E : (30 * side (qk a) (qk b) q == l0 * inject_Z (edge_at a b v0) + l1 * inject_Z (edge_at a b v1) + l2 * inject_Z (edge_at a b v2))%Q).
    { transitivity ((px (qk b) - px (qk a)) * (30 * py q - 30 * py (qk a)) - (py (qk b) - py (qk a)) * (30 * px q - 30 * px (qk a)))%Q; [unfold side; ring|].
      rewrite Ex, Ey. assert (L' : (l0 == 1 - l1 - l2)%Q) by lra. rewrite L'.
      destruct a as [[a1 a2] a3], b as [[b1 b2] b3], v0 as [x0 y0], v1 as [x1 y1], v2 as [x2 y2]. unfold edge_at, qk, px, py, kx, ky, kz. cbn [fst snd].
      unfold Z.sub. repeat rewrite ?inject_Z_plus, ?inject_Z_opp, ?inject_Z_mult. change (inject_Z 30) with 30%Q. ring. }
    assert (P : (0 < 30 * side (qk a) (qk b) q)%Q); [|lra]. rewrite E. clear E.
    apply pos_sum; try assumption; try (change 0%Q with (inject_Z 0); rewrite <- Zle_Qle; assumption).
    change 0%Q with (inject_Z 0). rewrite <- !Zlt_Qlt. lia.
  Qed.
  Lemma rneg_side a b : rpos r b a = true -> (side (qk a) (qk b) q < 0)%Q.
  Proof. intros H. apply rpos_side in H. rewrite side_flip in H. lra. Qed.
  Lemma rvert_side a b : wvert a b = true -> (side (qk a) (qk b) q == 0)%Q.
  Proof.
    unfold wvert. rewrite andb_true_iff, !Z.eqb_eq. intros [H1 H2]. unfold side, qk, px, py. cbn [fst snd]. rewrite H1, H2. ring.
  Qed.

  Lemma rcolumn_crossing t : rtri_ok r t = true -> (pz q <= 0)%Q -> crossing q (push_face qk t) = rcover r t.
  Proof.
    destruct t as [[a b] c]. intros Hok Hw. unfold rtri_ok in Hok. rewrite !andb_true_iff in Hok. destruct Hok as [[[[Ha Hb] Hc] He] Hr].
    apply in_cell_iff in Ha as (_ & _ & Ha), Hb as (_ & _ & Hb), Hc as (_ & _ & Hc).
    cbn [zface_edges forallb fst snd] in He. rewrite !andb_true_iff in He. destruct He as (E1 & E2 & E3 & _).
    unfold push_face. unfold rcover in *.
    destruct (rpos r a b && rpos r b c && rpos r c a) eqn:P.
    - rewrite !andb_true_iff in P. destruct P as [[P1 P2] P3]. cbn [Z.eqb orb] in Hr.
      apply crossing_above; try lra.
      + unfold raised in Hr. rewrite !orb_true_iff, !Z.ltb_lt, !Zlt_Qlt in Hr. change (inject_Z 0) with 0%Q in Hr.
        unfold qk, pz at 2 4 6. cbn [snd fst]. destruct Hr as [[Hr|Hr]|Hr]; [left|right; left|right; right]; lra.
      + auto using rpos_side.
    - destruct (rpos r b a && rpos r c b && rpos r a c) eqn:N.
      + rewrite !andb_true_iff in N. destruct N as [[P1 P2] P3]. cbn [Z.eqb orb] in Hr.
        apply crossing_above; try lra.
        * unfold raised in Hr. rewrite !orb_true_iff, !Z.ltb_lt, !Zlt_Qlt in Hr. change (inject_Z 0) with 0%Q in Hr.
          unfold qk, pz at 2 4 6. cbn [snd fst]. destruct Hr as [[Hr|Hr]|Hr]; [left|right; left|right; right]; lra.
        * auto using rneg_side.
      + assert (G : forall a b, rpos r a b || rpos r b a || wvert a b = true ->
           ((0 < side (qk a) (qk b) q)%Q -> rpos r a b = true) /\ ((side (qk a) (qk b) q < 0)%Q -> rpos r b a = true)).
        { intros a' b' H. rewrite !orb_true_iff in H. destruct H as [[H|H]|H].
          - apply rpos_side in H as H'. split; [auto|lra].
          - apply rneg_side in H as H'. split; [lra|auto].
          - apply rvert_side in H. split; lra. }
        apply crossing_outside. split; intros (S1 & S2 & S3).
        * apply G in S1, S2, S3; [|assumption..]. rewrite S1, S2, S3 in P. discriminate.
        * apply (proj2 (G _ _ E1)) in S1. apply (proj2 (G _ _ E2)) in S2. apply (proj2 (G _ _ E3)) in S3. rewrite S1, S2, S3 in N. discriminate.
  Qed.
End Region.

(** ** A cell seen from the point *)
Definition in_col (i : nat) (w k : key) : bool := (kx (corner i k) =? kx w) && (ky (corner i k) =? ky w).
(** On which side of the centre the point is: the column of cells whose corners [i] are the centres of the column of voxels. *)
Definition quadrant (i : nat) (d : qpt) : Prop :=
  let o := nth i corner_off (0, 0, 0) in
  (kx o = 0 /\ (0 < px d < 1 # 2)%Q \/ kx o = 1 /\ (- (1 # 2) < px d < 0)%Q) /\ (ky o = 0 /\ (- (1 # 2) < py d < 0)%Q \/ ky o = -1 /\ (0 < py d < 1 # 2)%Q).

Section Seen.
  Context (w k : key) (d : qpt) (i : nat) (Hi : (i < 4)%nat) (Hd : quadrant i d) (Hz0 : (pz d == 0)%Q) (r : part).
  Context (Hr : forall k', in_col i w k' = true -> in_part r (px (rel w k' d)) (py (rel w k' d))).

  Lemma rel_z : (pz (rel w k d) == inject_Z (2 * (kz w - kz k)))%Q.
  Proof. unfold rel, pz. cbn [snd]. unfold pz in Hz0. rewrite Hz0. ring. Qed.

  Lemma outside_col : in_col i w k = false -> (px (rel w k d) < 0 \/ 2 < px (rel w k d))%Q \/ (py (rel w k d) < -(2) \/ 0 < py (rel w k d))%Q.
  Proof.
    change (px (rel w k d)) with (inject_Z (2 * (kx w - kx k)) + 2 * px d)%Q. change (py (rel w k d)) with (inject_Z (2 * (ky w - ky k)) + 2 * py d)%Q.
    unfold in_col, corner. unfold quadrant in Hd. set (o := nth i corner_off (0, 0, 0)) in *. clearbody o.
    change (kx (kadd k o)) with (kx k + kx o). change (ky (kadd k o)) with (ky k + ky o).
    destruct Hd as [Dx Dy]. intros H. apply andb_false_iff in H as [H|H]; apply Z.eqb_neq in H.
    - left. destruct Dx as [[E D]|[E D]]; rewrite E in H.
      + destruct (Z.lt_ge_cases (kx w) (kx k)); [left; pose proof (twice_ge (kx w - kx k) ltac:(lia))|right; pose proof (twice_le (kx w - kx k) ltac:(lia))]; lra.
      + destruct (Z.lt_ge_cases (kx w) (kx k + 1)).
        * left. assert (L : (inject_Z (2 * (kx w - kx k)) <= 0)%Q) by (change 0%Q with (inject_Z 0); rewrite <- Zle_Qle; lia). lra.
        * right. assert (L : (4 <= inject_Z (2 * (kx w - kx k)))%Q) by (change 4%Q with (inject_Z 4); rewrite <- Zle_Qle; lia). lra.
    - right. destruct Dy as [[E D]|[E D]]; rewrite E in H.
      + destruct (Z.lt_ge_cases (ky w) (ky k)); [left; pose proof (twice_ge (ky w - ky k) ltac:(lia))|right; pose proof (twice_le (ky w - ky k) ltac:(lia))]; lra.
      + destruct (Z.lt_ge_cases (ky w) (ky k + -1)).
        * left. assert (L : (inject_Z (2 * (ky w - ky k)) <= -(4))%Q) by (change (-(4))%Q with (inject_Z (-4)); rewrite <- Zle_Qle; lia). lra.
        * right. assert (L : (0 <= inject_Z (2 * (ky w - ky k)))%Q) by (change 0%Q with (inject_Z 0); rewrite <- Zle_Qle; lia). lra.
  Qed.

  Lemma rcell_crossing t : rtri_ok r t = true ->
    crossing (rel w k d) (push_face qk t) = if in_col i w k && (kz w <=? kz k) then rcover r t else 0.
  Proof.
    intros Hok. destruct (in_col i w k) eqn:Hc; cbn [andb].
    - destruct (Z.leb_spec (kz w) (kz k)).
      + apply rcolumn_crossing; [apply Hr, Hc|exact Hok|]. rewrite rel_z. change 0%Q with (inject_Z 0). rewrite <- Zle_Qle. lia.
      + destruct t as [[a b] c]. unfold rtri_ok in Hok. rewrite !andb_true_iff in Hok. destruct Hok as [[[[Ha Hb] Hc'] _] _].
        apply in_cell_iff in Ha as (_ & _ & Ha), Hb as (_ & _ & Hb), Hc' as (_ & _ & Hc').
        pose proof (twice_le (kz w - kz k) ltac:(lia)). pose proof rel_z as Z1. unfold push_face. apply crossing_below; lra.
    - destruct t as [[a b] c]. unfold rtri_ok in Hok. rewrite !andb_true_iff in Hok. destruct Hok as [[[[Ha Hb] Hc'] _] _].
      apply in_cell_iff in Ha as (Ax & Ay & _), Hb as (Bx & By & _), Hc' as (Cx & Cy & _).
      unfold push_face. apply crossing_outside. destruct (outside_col Hc) as [Ho|Ho].
      + apply (all_sides_x _ _ _ _ 0 2); assumption.
      + apply (all_sides_y _ _ _ _ (-(2)) 0); assumption.
  Qed.

  Lemma rcell_clear t a b r0 : rtri_ok r t = true -> In (a, b) (zface_edges t) -> (0 <= r0 <= 1)%Q ->
    ~ (px (lerp (qk a) (qk b) r0) == px (rel w k d) /\ py (lerp (qk a) (qk b) r0) == py (rel w k d))%Q.
  Proof.
    intros Hok Hin Hr0 [Ex Ey]. destruct t as [[t1 t2] t3]. unfold rtri_ok in Hok. rewrite !andb_true_iff in Hok. destruct Hok as [[[[H1 H2] H3] He] _].
    rewrite forallb_forall in He. specialize (He _ Hin). cbn [fst snd] in He.
    assert (Hab : MeshInside.in_cell a = true /\ MeshInside.in_cell b = true).
    { cbn [zface_edges In] in Hin. destruct Hin as [E|[E|[E|[]]]]; inversion E; subst; auto. }
    destruct Hab as [Ha Hb]. apply in_cell_iff in Ha as (Ax & Ay & _), Hb as (Bx & By & _).
    destruct (in_col i w k) eqn:Hc.
    - specialize (Hr k Hc).
      assert (H0 : (side (qk a) (qk b) (rel w k d) == 0)%Q).
      { unfold side. rewrite <- Ex, <- Ey. unfold lerp, px, py. cbn [fst snd]. ring. }
      rewrite !orb_true_iff in He. destruct He as [[He|He]|He].
      + apply (rpos_side r _ Hr) in He. lra.
      + apply (rneg_side r _ Hr) in He. lra.
      + unfold wvert in He. rewrite andb_true_iff, !Z.eqb_eq in He. destruct He as [Vx _].
        change (px (lerp (qk a) (qk b) r0)) with (inject_Z (kx a) + (inject_Z (kx b) - inject_Z (kx a)) * r0)%Q in Ex. rewrite <- Vx in Ex.
        change (px (rel w k d)) with (inject_Z (2 * (kx w - kx k)) + 2 * px d)%Q in Ex.
        assert (E : (inject_Z (kx a - 2 * (kx w - kx k)) == 2 * px d)%Q).
        { unfold Z.sub at 1. rewrite inject_Z_plus, inject_Z_opp. transitivity (inject_Z (kx a) - inject_Z (2 * (kx w - kx k)))%Q; [ring|]. lra. }
        generalize dependent (kx a - 2 * (kx w - kx k)). intros n E. destruct Hd as [Dx _].
        assert (L : n < 0 /\ -1 < n \/ 0 < n /\ n < 1); [|lia]. rewrite !Zlt_Qlt. change (inject_Z 0) with 0%Q. change (inject_Z 1) with 1%Q. change (inject_Z (-1)) with (-(1))%Q.
        clear - E Dx. destruct Dx as [[_ D]|[_ D]]; [right|left]; lra.
    - assert (L : forall x y lo hi, (lo <= x <= hi -> lo <= y <= hi -> lo <= x + (y - x) * r0 <= hi)%Q).
      { intros x y lo hi Hx Hy. setoid_replace (x + (y - x) * r0)%Q with ((1 - r0) * x + r0 * y)%Q by ring.
        assert (0 <= (1 - r0) * (x - lo))%Q by (apply Qmult_le_0_compat; lra). assert (0 <= r0 * (y - lo))%Q by (apply Qmult_le_0_compat; lra).
        assert (0 <= (1 - r0) * (hi - x))%Q by (apply Qmult_le_0_compat; lra). assert (0 <= r0 * (hi - y))%Q by (apply Qmult_le_0_compat; lra). split; lra. }
      destruct (outside_col Hc) as [Ho|Ho].
      + rewrite <- Ex in Ho. pose proof (L _ _ _ _ Ax Bx) as G. change (px (lerp (qk a) (qk b) r0)) with (px (qk a) + (px (qk b) - px (qk a)) * r0)%Q in Ho. lra.
      + rewrite <- Ey in Ho. pose proof (L _ _ _ _ Ay By) as G. change (py (lerp (qk a) (qk b) r0)) with (py (qk a) + (py (qk b) - py (qk a)) * r0)%Q in Ho. lra.
  Qed.
End Seen.

(** ** Summing over the cells *)
Lemma col_sum fill K w i : (i < 4)%nat -> List.NoDup K -> (forall k, pat fill k <> 0 -> In k K) ->
  zsum (fun k => if in_col i w k && (kz w <=? kz k) then b2n (fill (corner i k)) - b2n (fill (corner (i + 4) k)) else 0) K = b2n (fill w).
Proof.
  intros Hi HK Hall.
  assert (Hin : forall j k, (j < 8)%nat -> fill (corner j k) = true -> In k K).
  { intros j k Hj Hf. apply Hall. intros E. rewrite pat_zero in E. rewrite (E j Hj) in Hf. discriminate. }
  assert (C : exists o1 o2, forall k, corner i k = kadd k (o1, o2, 0) /\ corner (i + 4) k = corner i (ksub k (0, 0, -1))).
  { destruct i as [|[|[|[|]]]]; [exists 0, 0|exists 1, 0|exists 1, (-1)|exists 0, (-1)|lia]; intros [[x y] z]; unfold corner, ksub, kadd, kx, ky, kz; cbn; split; keyeq. }
  destruct C as (o1 & o2 & C).
  set (F := fun k => if in_col i w k && (kz w <=? kz k) then b2n (fill (corner i k)) else 0).
  set (F' := fun k => if in_col i w k && (kz w + 1 <=? kz k) then b2n (fill (corner i k)) else 0).
  rewrite (zsum_ext _ (fun k => F k - F' (ksub k (0, 0, -1)))).
  2:{ intros k _. unfold F, F'. rewrite (proj2 (C k)).
      assert (E : in_col i w (ksub k (0, 0, -1)) = in_col i w k).
      { unfold in_col. rewrite !(proj1 (C _)). destruct k as [[x y] z]. unfold kadd, ksub, kx, ky. cbn [fst snd]. rewrite !Z.sub_0_r. reflexivity. }
      rewrite E. assert (E2 : (kz w + 1 <=? kz (ksub k (0, 0, -1))) = (kz w <=? kz k)).
      { destruct k as [[x y] z]. unfold ksub, kz. cbn [fst snd]. destruct (Z.leb_spec (snd w) z), (Z.leb_spec (snd w + 1) (z - -1)); reflexivity || lia. }
      rewrite E2. destruct (in_col i w k && (kz w <=? kz k)); reflexivity. }
  set (w' := ksub w (o1, o2, 0)).
  assert (Ew : corner i w' = w) by (unfold w'; rewrite (proj1 (C _)); destruct w as [[x y] z]; unfold kadd, ksub, kx, ky, kz; cbn; keyeq).
  assert (Ez : kz w' = kz w) by (unfold w', ksub, kz; cbn; lia).
  assert (Ec : in_col i w w' = true) by (unfold in_col; rewrite Ew, !Z.eqb_refl; reflexivity).
  rewrite zsum_sub, (zsum_shift F' (0, 0, -1) K HK).
  - rewrite <- zsum_sub. rewrite (zsum_single _ w' K HK).
    + unfold F, F'. rewrite Ec, Ez, Ew, Z.leb_refl. cbn [andb]. destruct (Z.leb_spec (kz w + 1) (kz w)); lia.
    + intros k Hk. unfold F, F'. destruct (in_col i w k) eqn:E; [|reflexivity]. cbn [andb].
      destruct (Z.leb_spec (kz w) (kz k)), (Z.leb_spec (kz w + 1) (kz k)); try lia. exfalso. apply Hk.
      unfold in_col in E. rewrite (proj1 (C _)), andb_true_iff, !Z.eqb_eq in E. unfold w'. destruct w as [[? ?] ?], k as [[? ?] ?]. unfold ksub, kadd, kx, ky, kz in *. cbn [fst snd] in *. keyeq.
    + unfold F, F'. rewrite Ec, Ez, Ew, Z.leb_refl. cbn [andb]. destruct (Z.leb_spec (kz w + 1) (kz w)); [lia|]. intros H'.
      apply (Hin i); [lia|]. rewrite Ew. destruct (fill w); [reflexivity|cbn in H'; lia].
  - intros k Hk. unfold F' in Hk. destruct (in_col i w k && (kz w + 1 <=? kz k)); [|lia]. destruct (fill (corner i k)) eqn:E; [|cbn in Hk; lia]. split.
    + apply (Hin i); [lia|exact E].
    + apply (Hin (i + 4)%nat); [lia|]. rewrite (proj2 (C _)). replace (ksub (kadd k (0, 0, -1)) (0, 0, -1)) with k; [exact E|].
      destruct k as [[? ?] ?]; unfold ksub, kadd, kx, ky, kz; cbn; keyeq.
Qed.

(** ** Which part the point is in *)
Lemma in_region_eq r x y x' y' : (x == x')%Q -> (y == y')%Q -> in_part r x y -> in_part r x' y'.
Proof.
  intros Ex Ey. destruct r as [[v0 v1] v2]. intros (l0 & l1 & l2 & L0 & L1 & L2 & L & Hx & Hy). exists l0, l1, l2. rewrite <- Ex, <- Ey. repeat split; assumption.
Qed.

Lemma swap_region r x y : in_part r x y -> in_part (map_region swap2 r) y x.
Proof. destruct r as [[v0 v1] v2]. intros (l0 & l1 & l2 & L0 & L1 & L2 & L & Hx & Hy). exists l0, l1, l2. repeat split; assumption. Qed.

Lemma place_region i r x y : let o := nth i corner_off (0, 0, 0) in in_part r x y ->
  in_part (map_region (place i) r) (2 * inject_Z (kx o) + (1 - 2 * inject_Z (kx o)) * x) (2 * inject_Z (ky o) + (- (1) - 2 * inject_Z (ky o)) * y).
Proof.
  intros o. destruct r as [[v0 v1] v2]. intros (l0 & l1 & l2 & L0 & L1 & L2 & L & Hx & Hy). exists l0, l1, l2. repeat (split; [assumption|]).
  assert (P : forall v, (inject_Z (fst (place i v)) == 60 * inject_Z (kx o) + (1 - 2 * inject_Z (kx o)) * inject_Z (fst v))%Q /\
    (inject_Z (snd (place i v)) == 60 * inject_Z (ky o) + (- (1) - 2 * inject_Z (ky o)) * inject_Z (snd v))%Q).
  { intros v. unfold place. fold o. cbn [fst snd]. unfold Z.sub. repeat rewrite ?inject_Z_plus, ?inject_Z_opp, ?inject_Z_mult.
    change (inject_Z 60) with 60%Q. change (inject_Z 2) with 2%Q. change (inject_Z 1) with 1%Q. split; ring. }
  destruct (P v0) as [X0 Y0], (P v1) as [X1 Y1], (P v2) as [X2 Y2]. rewrite X0, X1, X2, Y0, Y1, Y2. clear P X0 X1 X2 Y0 Y1 Y2.
  generalize dependent (inject_Z (kx o)). generalize dependent (inject_Z (ky o)). intros oy ox.
  assert (L' : (l0 == 1 - l1 - l2)%Q) by lra. split.
  - transitivity (60 * ox + (1 - 2 * ox) * (30 * x))%Q; [ring|]. rewrite Hx, L'. ring.
  - transitivity (60 * oy + (- (1) - 2 * oy) * (30 * y))%Q; [ring|]. rewrite Hy, L'. ring.
Qed.

Ltac region_at l0 l1 l2 := exists l0, l1, l2; cbn [fst snd]; repeat match goal with |- context [inject_Z ?z] => change (inject_Z z) with (z # 1)%Q end; repeat split; lra.

Lemma octant_near_cover x y : (0 < y -> y < x -> x + y < 1 -> ~ x == 2 * y -> exists r, In r octant_near /\ in_part r x y)%Q.
Proof.
  intros H1 H2 H3 N. destruct (Q_dec x (2 * y)) as [[C|C]|C]; [| |contradiction].
  - exists ((0, 0), (20, 10), (15, 15)). split; [cbn; auto|]. region_at (1 - x - y)%Q (3 * x - 3 * y)%Q (4 * y - 2 * x)%Q.
  - exists ((0, 0), (30, 0), (20, 10)). split; [cbn; auto|]. region_at (1 - x - y)%Q (x - 2 * y)%Q (3 * y)%Q.
Qed.

Lemma octant_far_cover x y : (0 < y -> y < x -> x < 1 -> 1 < x + y -> ~ x == 2 * y -> ~ 2 * x + y == 2 -> ~ x + 2 * y == 2 ->
  exists r, In r octant_far /\ in_part r x y)%Q.
Proof.
  intros H1 H2 H3 H4 N1 N2 N3. destruct (Q_dec x (2 * y)) as [[C|C]|C]; [| |contradiction]; (destruct (Q_dec (2 * x + y) 2) as [[D|D]|D]; [| |contradiction]).
  - destruct (Q_dec x (2 # 3)) as [[G|G]|G].
    + exists ((20, 10), (20, 20), (15, 15)). split; [cbn; auto 9|]. region_at (3 * x - 3 * y)%Q (3 * x + 3 * y - 3)%Q (4 - 6 * x)%Q.
    + exists ((20, 10), (24, 12), (20, 20)). split; [cbn; auto 9|]. region_at (6 - 6 * x - 3 * y)%Q ((15 # 2) * x - 5)%Q (3 * y - (3 # 2) * x)%Q.
    + exists ((20, 10), (20, 20), (20, 20)). split; [cbn; auto 9|]. region_at (2 - 3 * y)%Q ((3 * y - 1) * (1 # 2))%Q ((3 * y - 1) * (1 # 2))%Q.
  - destruct (Q_dec (x + 2 * y) 2) as [[G|G]|G]; [| |contradiction].
    + exists ((24, 12), (30, 15), (20, 20)). split; [cbn; auto 9|]. region_at (5 - (5 # 2) * x - 5 * y)%Q (4 * x + 2 * y - 4)%Q (3 * y - (3 # 2) * x)%Q.
    + exists ((30, 15), (30, 30), (20, 20)). split; [cbn; auto 9|]. region_at (2 * x - 2 * y)%Q (x + 2 * y - 2)%Q (3 - 3 * x)%Q.
  - exists ((30, 0), (24, 12), (20, 10)). split; [cbn; auto 9|]. region_at (x - 2 * y)%Q (5 * x + 5 * y - 5)%Q (6 - 6 * x - 3 * y)%Q.
  - exists ((30, 0), (30, 15), (24, 12)). split; [cbn; auto 9|]. region_at (x - 2 * y)%Q (2 * y + 4 * x - 4)%Q (5 - 5 * x)%Q.
Qed.

Lemma Qabs_cases x : (~ x == 0 -> 0 < x /\ Qabs x == x \/ x < 0 /\ Qabs x == - x)%Q.
Proof. intros H. destruct (Q_dec x 0) as [[C|C]|C]; [right|left|contradiction]; (split; [exact C|]); [apply Qabs_neg|apply Qabs_pos]; lra. Qed.

Lemma quadrant_exists d : in_cube d -> (~ px d == 0)%Q -> (~ py d == 0)%Q -> exists i, (i < 4)%nat /\ quadrant i d /\
  let o := nth i corner_off (0, 0, 0) in (2 * px d == (1 - 2 * inject_Z (kx o)) * (2 * Qabs (px d)))%Q /\ (2 * py d == (- (1) - 2 * inject_Z (ky o)) * (2 * Qabs (py d)))%Q.
Proof.
  intros (Dx & Dy & _) Nx Ny. apply Qabs_lt in Dx, Dy. unfold quadrant.
  destruct (Qabs_cases _ Nx) as [[Px Ex]|[Px Ex]], (Qabs_cases _ Ny) as [[Py Ey]|[Py Ey]]; [exists 3%nat|exists 0%nat|exists 2%nat|exists 1%nat]; (split; [lia|]);
    cbn [nth corner_off kx ky fst snd]; rewrite Ex, Ey; change (inject_Z 0) with 0%Q; change (inject_Z 1) with 1%Q; change (inject_Z (-1)) with (-(1))%Q;
    (split; [split; [first [left; split; [reflexivity|lra]|right; split; [reflexivity|lra]]|first [left; split; [reflexivity|lra]|right; split; [reflexivity|lra]]]|split; ring]).
Qed.

Lemma region_exists o d : in_cube d -> (~ px d == 0)%Q -> (~ py d == 0)%Q ->
  (forall x y, (0 < y < x)%Q -> (x == 2 * Qabs (px d) /\ y == 2 * Qabs (py d) \/ x == 2 * Qabs (py d) /\ y == 2 * Qabs (px d))%Q -> exists r, In r o /\ in_part r x y) ->
  (~ Qabs (px d) == Qabs (py d))%Q ->
  exists i r, (i < 4)%nat /\ quadrant i d /\ In r (regions o i) /\
    forall w k, in_col i w k = true -> in_part r (px (rel w k d)) (py (rel w k d)).
Proof.
  intros Hc Nx Ny Ho Nd. destruct (quadrant_exists d Hc Nx Ny) as (i & Hi & Hq & Ex & Ey). exists i.
  assert (P : forall x, (~ x == 0)%Q -> (0 < Qabs x)%Q) by (intros x H; destruct (Qabs_cases x H) as [[? ->]|[? ->]]; lra).
  pose proof (P _ Nx) as Px. pose proof (P _ Ny) as Py. clear P.
  assert (E : exists r, In r (o ++ map (map_region swap2) o) /\ in_part r (2 * Qabs (px d)) (2 * Qabs (py d))).
  { destruct (Q_dec (Qabs (px d)) (Qabs (py d))) as [[C|C]|C]; [| |contradiction].
    - destruct (Ho (2 * Qabs (py d)) (2 * Qabs (px d)))%Q as (r & Hr & H); [lra|right; split; reflexivity|].
      exists (map_region swap2 r). split; [apply in_or_app; right; apply in_map, Hr|apply swap_region, H].
    - destruct (Ho (2 * Qabs (px d)) (2 * Qabs (py d)))%Q as (r & Hr & H); [lra|left; split; reflexivity|].
      exists r. split; [apply in_or_app; left; exact Hr|exact H]. }
  destruct E as (r & Hr & H). exists (map_region (place i) r). split; [exact Hi|]. split; [exact Hq|]. split; [unfold regions; apply in_map, Hr|].
  intros w k Hk. apply (place_region i) in H. cbn zeta in H. refine (in_region_eq _ _ _ _ _ _ _ H).
  - rewrite <- Ex. change (px (rel w k d)) with (inject_Z (2 * (kx w - kx k)) + 2 * px d)%Q. unfold in_col, corner in Hk. rewrite andb_true_iff, !Z.eqb_eq in Hk. destruct Hk as [Hk _].
    rewrite <- Hk. change (kx (kadd k (nth i corner_off (0, 0, 0)))) with (kx k + kx (nth i corner_off (0, 0, 0))).
    replace (kx k + kx (nth i corner_off (0, 0, 0)) - kx k) with (kx (nth i corner_off (0, 0, 0))) by lia. rewrite inject_Z_mult. reflexivity.
  - rewrite <- Ey. change (py (rel w k d)) with (inject_Z (2 * (ky w - ky k)) + 2 * py d)%Q. unfold in_col, corner in Hk. rewrite andb_true_iff, !Z.eqb_eq in Hk. destruct Hk as [_ Hk].
    rewrite <- Hk. change (ky (kadd k (nth i corner_off (0, 0, 0)))) with (ky k + ky (nth i corner_off (0, 0, 0))).
    replace (ky k + ky (nth i corner_off (0, 0, 0)) - ky k) with (ky (nth i corner_off (0, 0, 0))) by lia. rewrite inject_Z_mult. reflexivity.
Qed.

(** ** Meshes made of cells *)
Section Whole.
  Context (tab : Z -> list zface) (b : binvox Q) (K : list key) (m : list face) (w : key) (d : qpt) (i : nat) (r : part).
  Context (Hv : (0 < vpmm b)%Q) (Hi : (i < 4)%nat) (Hd : quadrant i d) (Hr : forall k, in_col i w k = true -> in_part r (px (rel w k d)) (py (rel w k d))).
  Context (HK : List.NoDup K) (Hall : forall k, pat (fillb b) k <> 0 -> In k K) (Hok : forall k, In k K -> rcell i r (tab (pat (fillb b) k)) (pat (fillb b) k) = true).
  Context (Hm : Forall2 face_eq m (map (push_face (MarchProofs.half_pos b)) (flat_map (fun k => map (shift_face (kdouble k)) (tab (pat (fillb b) k))) K))).
  Let s := ((1 # 2) * (1 / vpmm b))%Q.
  Let faces := flat_map (fun k => map (shift_face (kdouble k)) (tab (pat (fillb b) k))) K.

  Lemma rtri_ok_at k t : In k K -> In t (tab (pat (fillb b) k)) -> rtri_ok r t = true.
  Proof. intros Hk Ht. specialize (Hok k Hk). unfold rcell in Hok. apply andb_true_iff in Hok as [H _]. rewrite forallb_forall in H. apply H, Ht. Qed.

  Lemma rwhole_winding : (pz d == 0)%Q -> winding m (near b w d) = b2n (fillb b w).
  Proof.
    intros Hz. unfold winding.
    assert (E : zsum (crossing (near b w d)) m = zsum (fun t => crossing (far3 w d) (push_face qk t)) faces).
    { pose proof (Hm' tab b K m Hm) as H. fold faces in H. revert H. generalize faces. clear Hm faces. intros ts H.
      remember (map (push_face (affine _ (off b))) ts) as m' eqn:Em. revert ts Em. induction H as [|t t' m0 m' Ht _ IH]; intros ts Em.
      - destruct ts; [reflexivity|discriminate].
      - destruct ts as [|t0 ts]; [discriminate|]. cbn [map] in Em. injection Em as -> ->. cbn [zsum]. rewrite (IH ts eq_refl). f_equal.
        rewrite (crossing_eq _ _ _ Ht). apply crossing_affine; [apply (s_pos b Hv)|apply near_far]. }
    rewrite E. unfold faces.
    assert (E2 : zsum (fun t => crossing (far3 w d) (push_face qk t)) (flat_map (fun k => map (shift_face (kdouble k)) (tab (pat (fillb b) k))) K) =
      zsum (fun k => zsum (fun t => crossing (rel w k d) (push_face qk t)) (tab (pat (fillb b) k))) K).
    { clear. induction K as [|k K' IH]; [reflexivity|]. cbn [flat_map zsum]. rewrite zsum_app, zsum_map, IH. f_equal. apply zsum_ext. intros t _.
      apply crossing_shift, far_rel. }
    rewrite E2. rewrite (zsum_ext _ (fun k => if in_col i w k && (kz w <=? kz k) then b2n (fillb b (corner i k)) - b2n (fillb b (corner (i + 4) k)) else 0)).
    - apply col_sum; assumption.
    - intros k Hk. rewrite (zsum_ext _ (fun t => if in_col i w k && (kz w <=? kz k) then rcover r t else 0)).
      2:{ intros t Ht. apply rcell_crossing; try assumption. eapply rtri_ok_at; eassumption. }
      destruct (in_col i w k && (kz w <=? kz k)); [|apply zsum_zero; reflexivity].
      specialize (Hok k Hk). unfold rcell in Hok. apply andb_true_iff in Hok as [_ H]. apply Z.eqb_eq in H. rewrite !pat_bit in H by lia. exact H.
  Qed.

  Lemma rwhole_clear : meets_no_edge m (near b w d).
  Proof.
    intros a0 b0 p Hin (r0 & Hr0 & Hp) [Ex Ey]. pose proof (mesh_edges_ext _ _ (Hm' tab b K m Hm)) as He. fold faces in He. rewrite mesh_edges_push in He.
    apply elem_of_list_In, elem_of_list_lookup in Hin as (n & Hn). destruct (Forall2_lookup_l _ _ _ _ _ He Hn) as ([a' b'] & Hn' & [Ea Eb]).
    cbn [fst snd] in Ea, Eb. apply elem_of_list_lookup_2, elem_of_list_In, in_map_iff in Hn' as ([x y] & Exy & Hxy). unfold push in Exy. cbn [fst snd] in Exy. injection Exy as <- <-.
    apply in_flat_map in Hxy as (t & Ht & Hxy). unfold faces in Ht. apply in_flat_map in Ht as (k & Hk & Ht). apply in_map_iff in Ht as (t0 & <- & Ht).
    pose proof (rtri_ok_at k t0 Hk Ht) as Hok'.
    assert (Hz : exists x0 y0, x = kadd (kdouble k) x0 /\ y = kadd (kdouble k) y0 /\ In (x0, y0) (zface_edges t0)).
    { destruct t0 as [[t1 t2] t3]. cbn [shift_face map3 zface_edges In] in Hxy. cbn [zface_edges In].
      destruct Hxy as [E|[E|[E|[]]]]; inversion E; subst; eexists _, _; (split; [reflexivity|split; [reflexivity|]]); auto. }
    destruct Hz as (x0 & y0 & -> & -> & Hin0).
    eapply (rcell_clear w k d); try eassumption.
    apply qpt_eq_iff in Hp as (Px & Py & _). rewrite Px in Ex. rewrite Py in Ey. apply qpt_eq_iff in Ea as (Ax & Ay & _), Eb as (Bx & By & _).
    pose proof (near_far b w d) as Hf. apply qpt_eq_iff in Hf as (Fx & Fy & _).
    pose proof (far_rel w d k) as Hf. apply qpt_eq_iff in Hf as (Gx & Gy & _).
    assert (L : forall k0 x1 y1 o f A B F G, (A == s * inject_Z (k0 + x1) + o -> B == s * inject_Z (k0 + y1) + o -> A + (B - A) * r0 == F -> F == s * G + o ->
      G == inject_Z k0 + f -> inject_Z x1 + (inject_Z y1 - inject_Z x1) * r0 == f)%Q).
    { intros k0 x1 y1 o f A B F G E1 E2 E3 E4 E5. pose proof (s_pos b Hv) as Hsp. fold s in Hsp. rewrite E1, E2, E4, E5 in E3. rewrite !inject_Z_plus in E3.
      apply (Qmult_inj_l _ _ s); [lra|]. lra. }
    destruct k as [[k1 k2] k3], x0 as [[x1 x2] x3], y0 as [[y1 y2] y3].
    split.
    - exact (L _ _ _ _ _ _ _ _ _ Ax Bx Ex Fx Gx).
    - exact (L _ _ _ _ _ _ _ _ _ Ay By Ey Fy Gy).
  Qed.
End Whole.

(** ** The meshes *)
Lemma near_eq b w d d' : qpt_eq d d' -> qpt_eq (near b w d) (near b w d').
Proof. rewrite !qpt_eq_iff. intros (E1 & E2 & E3). unfold near, px at 1 3, py at 1 3, pz at 1 3. cbn [fst snd]. rewrite E1, E2, E3. repeat split; reflexivity. Qed.

Lemma qpt_eq_symm p q : qpt_eq p q -> qpt_eq q p.
Proof. rewrite !qpt_eq_iff. intros (E1 & E2 & E3). repeat split; symmetry; assumption. Qed.

Lemma winding_eq m q q' : qpt_eq q q' -> winding m q = winding m q'.
Proof. intros E. unfold winding. apply zsum_ext. intros t _. apply crossing_q_eq, E. Qed.

(** Down to the level of the centre. *)
Definition level (d : qpt) : qpt := (px d, py d, 0%Q).
Lemma winding_level b m w d : (0 < vpmm b)%Q -> (forall t, (Qabs t <= Qabs (pz d))%Q -> off_mesh m (near b w (px d, py d, t))) ->
  winding m (near b w d) = winding m (near b w (level d)).
Proof.
  intros Hv H. set (v := (- py d)%Q).
  assert (T : forall t, qpt_eq (near b w (px d, (- v)%Q, t)) (near b w (px d, py d, t))).
  { intros t. apply near_eq, qpt_eq_iff. unfold v, px, py, pz. cbn [fst snd]. repeat split; ring. }
  transitivity (winding m (near b w (px d, (- v)%Q, pz d))).
  { apply winding_eq. destruct d as [[x y] z]. apply near_eq, qpt_eq_iff. unfold v, px, py, pz. cbn [fst snd]. repeat split; ring. }
  rewrite (winding_near b m w (px d) v (pz d) Hv).
  - rewrite <- (winding_near b m w (px d) v 0 Hv).
    + apply winding_eq, T.
    + intros t' Ht'. eapply off_mesh_eq; [apply qpt_eq_symm, T|]. apply H. pose proof (Qabs_nonneg (pz d)). change (Qabs 0) with 0%Q in Ht'. lra.
  - intros t' Ht'. eapply off_mesh_eq; [apply qpt_eq_symm, T|]. apply H, Ht'.
Qed.

Lemma no_edge_level b m w d : meets_no_edge m (near b w (level d)) -> meets_no_edge m (near b w d).
Proof. intros H a c p Hin Hs E. exact (H a c p Hin Hs E). Qed.

Lemma rcells_at o tab n i r : rcells o tab n = true -> (i < 4)%nat -> In r (regions o i) -> rcell i r (tab n) n = true.
Proof.
  intros H Hi Hr. unfold rcells in H. cbn zeta in H. rewrite forallb_forall in H. specialize (H i ltac:(apply in_seq; lia)). rewrite forallb_forall in H. apply H, Hr.
Qed.

Lemma level_cube d : in_cube d -> in_cube (level d).
Proof. intros (H1 & H2 & _). split; [exact H1|]. split; [exact H2|reflexivity]. Qed.
Lemma octahedron_cube d : in_octahedron d -> in_cube d.
Proof.
  unfold in_octahedron, in_cube. intros H. pose proof (Qabs_nonneg (px d)). pose proof (Qabs_nonneg (py d)). pose proof (Qabs_nonneg (pz d)). repeat split; lra.
Qed.

Lemma near_regions d : in_octahedron d -> off_axes d -> exists i r, (i < 4)%nat /\ quadrant i (level d) /\ In r (regions octant_near i) /\
    forall w k, in_col i w k = true -> in_part r (px (rel w k (level d))) (py (rel w k (level d))).
Proof.
  intros Hd (N1 & N2 & N3 & N4 & N5). pose proof (Qabs_nonneg (pz d)) as Hz. unfold in_octahedron in Hd.
  apply region_exists; [apply level_cube, octahedron_cube, Hd|exact N1|exact N2| |exact N3].
  change (px (level d)) with (px d). change (py (level d)) with (py d).
  intros x y Hxy [[Ex Ey]|[Ex Ey]]; apply octant_near_cover; lra.
Qed.

Lemma all_regions d : in_cube d -> off_lines d -> exists i r, (i < 4)%nat /\ quadrant i (level d) /\ In r (regions (octant_near ++ octant_far) i) /\
    forall w k, in_col i w k = true -> in_part r (px (rel w k (level d))) (py (rel w k (level d))).
Proof.
  intros Hd ((N1 & N2 & N3 & N4 & N5) & M1 & M2 & M3). pose proof Hd as (D1 & D2 & _).
  apply region_exists; [apply level_cube, Hd|exact N1|exact N2| |exact N3].
  change (px (level d)) with (px d). change (py (level d)) with (py d).
  intros x y Hxy He. destruct (Q_dec (x + y) 1) as [[C|C]|C].
  - destruct (octant_near_cover x y) as (r & Hr & H); [lra|lra|lra| |exists r; split; [apply in_or_app; left; exact Hr|exact H]].
    destruct He as [[Ex Ey]|[Ex Ey]]; rewrite Ex, Ey; intros E; [apply N4|apply N5]; lra.
  - destruct (octant_far_cover x y) as (r & Hr & H); [lra|lra| |lra| | | |exists r; split; [apply in_or_app; right; exact Hr|exact H]].
    + destruct He as [[Ex Ey]|[Ex Ey]]; lra.
    + destruct He as [[Ex Ey]|[Ex Ey]]; rewrite Ex, Ey; intros E; [apply N4|apply N5]; lra.
    + destruct He as [[Ex Ey]|[Ex Ey]]; rewrite Ex, Ey; intros E; [apply M3|apply M2]; lra.
    + destruct He as [[Ex Ey]|[Ex Ey]]; rewrite Ex, Ey; intros E; [apply M2|apply M3]; lra.
  - exfalso. apply M1. destruct He as [[Ex Ey]|[Ex Ey]]; rewrite Ex, Ey in C; lra.
Qed.

Lemma octahedron_slide d t : in_octahedron d -> (Qabs t <= Qabs (pz d))%Q -> in_octahedron (px d, py d, t).
Proof. unfold in_octahedron. intros H Ht. change (px (px d, py d, t)) with (px d). change (py (px d, py d, t)) with (py d). change (pz (px d, py d, t)) with t. lra. Qed.
Lemma cube_slide d t : in_cube d -> (Qabs t <= Qabs (pz d))%Q -> in_cube (px d, py d, t).
Proof. intros (H1 & H2 & H3) Ht. split; [exact H1|]. split; [exact H2|]. change (pz (px d, py d, t)) with t. lra. Qed.

#[local] Opaque mc_ztris mf_tab2 regions rcells.

(** The mesh of MarchingCubes winds once around every point of the octahedron of a voxel of the model from which the vertical
    line meets no edge, and around none of that of any other voxel. *)
Theorem C70_inside_marching_cubes b order m w d : (0 < vpmm b)%Q -> Permutation order (elements (grid_cells b)) -> MarchingCubes b order = Some m ->
  in_octahedron d -> off_axes d ->
  off_mesh m (near b w d) /\ meets_no_edge m (near b w d) /\ (filled b w -> winding m (near b w d) = 1) /\ (~ filled b w -> winding m (near b w d) = 0).
Proof.
  intros Hv Hp Em Hd Ha.
  assert (O : forall d', in_octahedron d' -> off_mesh m (near b w d')) by (intros d' Hd'; exact (C70_clear_marching_cubes b order m w d' Hv Hp Em Hd')).
  split; [apply O, Hd|]. destruct (near_regions d Hd Ha) as (i & r & Hi & Hq & Hr & Hin).
  destruct (MarchingCubes_faces b order) as (m' & E & Hf). rewrite Em in E. injection E as <-.
  assert (Hnd : List.NoDup order) by (apply NoDup_ListNoDup; rewrite Hp; apply NoDup_elements).
  assert (Hall : forall k, pat (fillb b) k <> 0 -> In k order).
  { intros k Hk. apply elem_of_list_In. rewrite Hp. apply elem_of_elements, grid_cells_pat, Hk. }
  assert (Hok : forall k, In k order -> rcell i r (mc_ztris (pat (fillb b) k)) (pat (fillb b) k) = true).
  { intros k _. exact (rcells_at _ _ _ i r (patterns_all _ mc_regions (fillb b) k) Hi Hr). }
  split; [apply no_edge_level; eapply rwhole_clear; try eassumption; apply Hin|]. apply winding_filled.
  rewrite (winding_level b m w d Hv); [|intros t Ht; apply O, octahedron_slide; assumption].
  eapply rwhole_winding; try eassumption; [apply Hin|reflexivity].
Qed.

(** So does a watertight mesh of ManifoldMesh... *)
Theorem C70_inside_manifold b m w d : (0 < vpmm b)%Q -> manifold_run b m -> watertight m -> in_octahedron d -> off_axes d ->
  off_mesh m (near b w d) /\ meets_no_edge m (near b w d) /\ (filled b w -> winding m (near b w d) = 1) /\ (~ filled b w -> winding m (near b w d) = 0).
Proof.
  intros Hv Hm Hw Hd Ha. apply (C36_exact b m Hv Hm), closing_matching in Hw as [Htorn _].
  assert (O : forall d', in_octahedron d' -> off_mesh m (near b w d')) by (intros d' Hd'; exact (C70_clear_manifold b m w d' Hv Hm Hd')).
  split; [apply O, Hd|]. destruct (near_regions d Hd Ha) as (i & r & Hi & Hq & Hr & Hin).
  destruct (manifold_faces2 b m Hm) as (K & Hnd & HK & Hf).
  assert (Hall : forall k, pat (fillb b) k <> 0 -> In k K) by (intros k; apply HK).
  assert (Hok : forall k, In k K -> rcell i r (mf_tab2 (pat (fillb b) k)) (pat (fillb b) k) = true).
  { intros k _. pose proof (patterns_all _ mf_regions (fillb b) k) as H. cbn beta in H. rewrite orb_true_iff, inb_iff in H.
    destruct H as [H|H]; [exfalso; apply (Htorn k H)|]. exact (rcells_at _ _ _ i r H Hi Hr). }
  split; [apply no_edge_level; eapply rwhole_clear; try eassumption; apply Hin|]. apply winding_filled.
  rewrite (winding_level b m w d Hv); [|intros t Ht; apply O, octahedron_slide; assumption].
  eapply rwhole_winding; try eassumption; [apply Hin|reflexivity].
Qed.

(** ... and on a well-composed model around every point inside the voxel: the mesh encloses the voxels of the model and nothing else. *)
Theorem C70_inside_cube b m w d : (0 < vpmm b)%Q -> manifold_run b m -> watertight m -> well_composed b -> in_cube d -> off_lines d ->
  off_mesh m (near b w d) /\ meets_no_edge m (near b w d) /\ (filled b w -> winding m (near b w d) = 1) /\ (~ filled b w -> winding m (near b w d) = 0).
Proof.
  intros Hv Hm Hw Hc Hd Ha. apply (C36_exact b m Hv Hm), closing_matching in Hw as [Htorn _].
  assert (O : forall d', in_cube d' -> off_mesh m (near b w d')) by (intros d' Hd'; exact (C70_clear_cube b m w d' Hv Hm Hc Hd')).
  split; [apply O, Hd|]. destruct (all_regions d Hd Ha) as (i & r & Hi & Hq & Hr & Hin).
  destruct (manifold_faces2 b m Hm) as (K & Hnd & HK & Hf).
  assert (Hall : forall k, pat (fillb b) k <> 0 -> In k K) by (intros k; apply HK).
  assert (Hok : forall k, In k K -> rcell i r (mf_tab2 (pat (fillb b) k)) (pat (fillb b) k) = true).
  { intros k _. pose proof (patterns_all _ mf_regions_wc (fillb b) k) as H. cbn beta in H. destruct (Hc k) as [H1 H2].
    apply (connected_conn_ok (fillb b) true k) in H1; [|intros v; symmetry; apply fillb_iff].
    apply (connected_conn_ok (fillb b) false k) in H2; [|intros v; rewrite <- fillb_iff; apply not_true_iff_false].
    rewrite H1, H2 in H. cbn [andb] in H. destruct (inb torn_patterns (pat (fillb b) k)) eqn:Et; [exfalso; apply (Htorn k), inb_iff, Et|].
    exact (rcells_at _ _ _ i r H Hi Hr). }
  split; [apply no_edge_level; eapply rwhole_clear; try eassumption; apply Hin|]. apply winding_filled.
  rewrite (winding_level b m w d Hv); [|intros t Ht; apply O, cube_slide; assumption].
  eapply rwhole_winding; try eassumption; [apply Hin|reflexivity].
Qed.

Corollary encloses_marching_cubes b order m : (0 < vpmm b)%Q -> Permutation order (elements (grid_cells b)) -> MarchingCubes b order = Some m -> encloses b m (filled b).
Proof. intros H1 H2 H3 w d H4 H5. exact (C70_inside_marching_cubes b order m w d H1 H2 H3 H4 H5). Qed.
Corollary encloses_manifold b m : (0 < vpmm b)%Q -> manifold_run b m -> watertight m -> encloses b m (filled b).
Proof. intros H1 H2 H3 w d H4 H5. exact (C70_inside_manifold b m w d H1 H2 H3 H4 H5). Qed.

(** *** Examples: a point near a corner of each voxel of a row of three; a point of the octahedron of a voxel and of its neighbour *)
Example C70_inside_example : exists m, (0 < vpmm (ManifoldProps.block 7))%Q /\ manifold_run (ManifoldProps.block 7) m /\ watertight m /\ well_composed (ManifoldProps.block 7) /\
  let d := ((- (2 # 5))%Q, (9 # 20)%Q, (12 # 25)%Q) in in_cube d /\ off_lines d /\
  forall w, filled (ManifoldProps.block 7) w -> winding m (near (ManifoldProps.block 7) w d) = 1.
Proof.
  destruct (C36_total (ManifoldProps.block 7)) as (m & Hm). exists m. destruct (C36_t_junctions m Hm) as (Hc & _ & Hw & _).
  split; [reflexivity|]. split; [exact Hm|]. split; [exact Hw|]. split; [exact Hc|].
  assert (D1 : in_cube ((- (2 # 5))%Q, (9 # 20)%Q, (12 # 25)%Q)) by (repeat split; reflexivity).
  assert (D2 : off_lines ((- (2 # 5))%Q, (9 # 20)%Q, (12 # 25)%Q)) by (repeat split; intros E; vm_compute in E; discriminate).
  split; [exact D1|]. split; [exact D2|]. intros w Hf.
  apply (C70_inside_cube (ManifoldProps.block 7) m w _); try reflexivity; assumption.
Qed.

Example C70_inside_octahedron : exists m, MarchingCubes one_voxel (elements (grid_cells one_voxel)) = Some m /\ filled one_voxel (1, 2, 1) /\
  let d := ((- (1 # 10))%Q, (1 # 7)%Q, (- (1 # 5))%Q) in in_octahedron d /\ off_axes d /\
  winding m (near one_voxel (1, 2, 1) d) = 1 /\ winding m (near one_voxel (2, 2, 1) d) = 0.
Proof.
  destruct (MarchingCubes one_voxel (elements (grid_cells one_voxel))) as [m|] eqn:E; [|vm_compute in E; discriminate].
  exists m. split; [reflexivity|]. split; [apply fillb_iff; reflexivity|]. vm_compute in E. injection E as <-.
  split; [reflexivity|]. split; [repeat split; intros E; vm_compute in E; discriminate|]. split; vm_compute; reflexivity.
Qed.

Print Assumptions C70_inside_marching_cubes.
Print Assumptions C70_inside_manifold.
Print Assumptions C70_inside_cube.
