(** C59: a box voxelizes to exactly the voxels it meets. *)
From Verif Require Import Base BinvoxModel BinvoxSpec Geom VoxelizeModel VoxelizeSpec VoxelizeLine VoxelizeSlice VoxelizeFill VoxelizeProps VoxelizeAccuracy.
From Coq Require Import ZArith QArith Qround Qabs List Lia Lqa Bool.
From stdpp Require Import base list gmap.
Import ListNotations.
Open Scope Z_scope.

(** ** Specification *)

(** A point of the box. *)
Definition in_cuboid (x0 y0 z0 x1 y1 z1 : Q) (r : qpt) : Prop :=
  (x0 <= px r <= x1 /\ y0 <= py r <= y1 /\ z0 <= pz r <= z1)%Q.

(** [r] is in the middle plane of voxel [k], a half-open square. *)
Definition in_mid_square (b : binvox Q) (k : key) (r : qpt) : Prop :=
  (inject_Z (kx k) <= vpmm b * (px r - TX b) < inject_Z (kx k) + 1)%Q /\
  (inject_Z (ky k) <= vpmm b * (py r - TY b) < inject_Z (ky k) + 1)%Q /\
  (vpmm b * (pz r - TZ b) == inject_Z (kz k) + (1 # 2))%Q.

(** ** Axis-parallel cuts *)
Lemma line_vertical x y1 y2 x' y' : In (x', y') (plotLine x y1 x y2) <-> x' = x /\ zbetween y1 y2 y'.
Proof.
  split.
  - intros H. apply C27_in_box_and_near in H as (H1 & H2 & _). unfold zbetween in *. cbn [fst snd] in *. lia.
  - intros [-> H]. destruct (proj2 (C27_one_per_major_step x y1 x y2) ltac:(lia) y' H) as (c & Hc).
    assert (Hi : In (c, y') (plotLine x y1 x y2)) by (apply Hc; reflexivity).
    pose proof (C27_in_box_and_near _ _ _ _ _ Hi) as (H1 & _). unfold zbetween in H1. cbn [fst] in H1. assert (Ec : c = x) by lia. rewrite Ec in Hi. exact Hi.
Qed.
Lemma line_horizontal x1 x2 y x' y' : In (x', y') (plotLine x1 y x2 y) <-> y' = y /\ zbetween x1 x2 x'.
Proof.
  split.
  - intros H. apply C27_in_box_and_near in H as (H1 & H2 & _). unfold zbetween in *. cbn [fst snd] in *. lia.
  - intros [-> H]. destruct (proj1 (C27_one_per_major_step x1 y x2 y) ltac:(lia) x' H) as (c & Hc).
    assert (Hi : In (x', c) (plotLine x1 y x2 y)) by (apply Hc; reflexivity).
    pose proof (C27_in_box_and_near _ _ _ _ _ Hi) as (_ & H1 & _). unfold zbetween in H1. cbn [snd] in H1. assert (Ec : c = y) by lia. rewrite Ec in Hi. exact Hi.
Qed.

Lemma in_tri_range (f : qpt -> Q) t r lo hi : f = px \/ f = py \/ f = pz ->
  (lo <= f (tv1 t) <= hi -> lo <= f (tv2 t) <= hi -> lo <= f (tv3 t) <= hi -> in_triangle t r -> lo <= f r <= hi)%Q.
Proof.
  intros Hf H1 H2 H3 (a & b & c & (Ha & Hb & Hc & Hs) & E). apply qpt_eq_iff in E as (E1 & E2 & E3).
  assert (Ef : (f r == a * f (tv1 t) + b * f (tv2 t) + c * f (tv3 t))%Q) by (destruct Hf as [-> |[-> | ->]]; assumption).
  rewrite Ef. set (p := f (tv1 t)) in *. set (q := f (tv2 t)) in *. set (w := f (tv3 t)) in *. clearbody p q w.
  assert (El : (lo == a * lo + b * lo + c * lo)%Q) by (transitivity ((a + b + c) * lo)%Q; [rewrite Hs; ring|ring]).
  assert (Eh : (hi == a * hi + b * hi + c * hi)%Q) by (transitivity ((a + b + c) * hi)%Q; [rewrite Hs; ring|ring]).
  split; [rewrite El at 1|rewrite Eh at 1]; nra.
Qed.

Lemma on_segment_range (f : qpt -> Q) p q r : f = px \/ f = py \/ f = pz -> on_segment p q r ->
  (f p <= f r <= f q \/ f q <= f r <= f p)%Q.
Proof.
  intros Hf (s & Hs & E). apply qpt_eq_iff in E as (E1 & E2 & E3).
  assert (Ef : (f r == f p + (f q - f p) * s)%Q) by (destruct Hf as [-> |[-> | ->]]; assumption).
  rewrite Ef. set (a := f p) in *. set (b := f q) in *. clearbody a b. destruct (Qlt_le_dec a b); [left|right]; split; nra.
Qed.

Section Faces.
  Context (b : binvox Q) (zi : Z) (Hv : (0 < vpmm b)%Q).
  Notation z := (slice_z b zi).
  Notation gx c := (gridi (vpmm b) c (TX b)).
  Notation gy c := (gridi (vpmm b) c (TY b)).

  Lemma grid_mono o c d : (c <= d)%Q -> gridi (vpmm b) c o <= gridi (vpmm b) d o.
  Proof using Hv. intros H. unfold gridi. apply Qfloor_resp_le. nra. Qed.
  Lemma grid_eq o c d : (c == d)%Q -> gridi (vpmm b) c o = gridi (vpmm b) d o.
  Proof using Hv. intros H. apply Z.le_antisymm; apply grid_mono; rewrite H; lra. Qed.

  (** Nothing is cut outside the heights of the triangle. *)
  Lemma outline_height t p lo hi : In p (outline b zi t) ->
    (lo <= pz (tv1 t) <= hi -> lo <= pz (tv2 t) <= hi -> lo <= pz (tv3 t) <= hi -> lo <= z <= hi)%Q.
  Proof using.
    intros Hin H1 H2 H3. unfold outline in Hin. destruct (intersectTriZPlane t z) as [[[a c] t']|] eqn:E; [|destruct Hin].
    destruct (tri_sound _ _ _ _ _ E) as (_ & Zp & _ & Ep & _). rewrite <- Zp.
    apply (in_tri_range pz t); [tauto|assumption..|apply edge_in_triangle, Ep].
  Qed.
  Lemma outline_flat t p c : In p (outline b zi t) -> ~ (pz (tv1 t) == c /\ pz (tv2 t) == c /\ pz (tv3 t) == c)%Q.
  Proof using.
    intros Hin (H1 & H2 & H3). pose proof (outline_height t p c c Hin ltac:(lra) ltac:(lra) ltac:(lra)) as Hc.
    unfold outline in Hin. rewrite C30_coplanar in Hin; [destruct Hin|]. unfold coplanar. repeat split; lra.
  Qed.

  (** A side parallel to the y axis. *)
  Section XFace.
    Context (t : tri) (c : Q) (Hc : px (tv1 t) = c /\ px (tv2 t) = c /\ px (tv3 t) = c).
    Lemma xface_point r : in_triangle t r -> (px r == c)%Q.
    Proof using Hc. intros H. destruct Hc as (H1 & H2 & H3). assert (G : (c <= px r <= c)%Q) by (apply (in_tri_range px t r c c); [tauto|rewrite ?H1, ?H2, ?H3; lra..|exact H]). lra. Qed.
    Lemma xface_in x y lo hi : In (x, y) (outline b zi t) ->
      (lo <= py (tv1 t) <= hi -> lo <= py (tv2 t) <= hi -> lo <= py (tv3 t) <= hi -> x = gx c /\ (gy lo <= y <= gy hi)%Z)%Q.
    Proof using Hc Hv.
      intros Hin H1 H2 H3. unfold outline in Hin. destruct (intersectTriZPlane t z) as [[[p q] t']|] eqn:E; [|destruct Hin].
      destruct (tri_sound _ _ _ _ _ E) as (_ & _ & _ & Ep & Eq). apply edge_in_triangle in Ep, Eq. unfold pair_points in Hin.
      pose proof (xface_point p Ep) as Xp. pose proof (xface_point q Eq) as Xq. rewrite (grid_eq _ _ _ Xp), (grid_eq _ _ _ Xq) in Hin. apply line_vertical in Hin as [-> Hy].
      destruct (in_tri_range py t p lo hi) as [P1 P2]; [tauto|assumption..|]. destruct (in_tri_range py t q lo hi) as [Q1 Q2]; [tauto|assumption..|].
      pose proof (grid_mono (TY b) _ _ P1). pose proof (grid_mono (TY b) _ _ P2). pose proof (grid_mono (TY b) _ _ Q1). pose proof (grid_mono (TY b) _ _ Q2). unfold zbetween in Hy. split; [reflexivity|lia].
    Qed.
    Lemma xface_hit y r1 r2 : clean t -> ~ coplanar t z -> ~ middle_on_plane t z ->
      in_triangle t r1 -> in_triangle t r2 -> (pz r1 == z)%Q -> (pz r2 == z)%Q -> gy (py r1) <= y <= gy (py r2) -> In (gx c, y) (outline b zi t).
    Proof using Hc Hv.
      intros H1 H2 H3 T1 T2 Z1 Z2 Hy. pose proof (C30_exact t z H1 H2 H3) as Ex. unfold outline.
      destruct (intersectTriZPlane t z) as [[[p q] t']|] eqn:E; [|destruct (Ex r1 T1 Z1)].
      destruct (tri_sound _ _ _ _ _ E) as (_ & _ & _ & Ep & Eq). apply edge_in_triangle in Ep, Eq. unfold pair_points.
      rewrite (grid_eq _ _ _ (xface_point p Ep)), (grid_eq _ _ _ (xface_point q Eq)). apply line_vertical. split; [reflexivity|].
      assert (S1 : on_segment p q r1) by (apply Ex; auto). assert (S2 : on_segment p q r2) by (apply Ex; auto).
      apply (on_segment_range py) in S1, S2; [|tauto..]. unfold zbetween.
      destruct S1 as [[A B]|[A B]], S2 as [[C D]|[C D]];
        pose proof (grid_mono (TY b) _ _ A); pose proof (grid_mono (TY b) _ _ B); pose proof (grid_mono (TY b) _ _ C); pose proof (grid_mono (TY b) _ _ D); lia.
    Qed.
  End XFace.
  (** A side parallel to the x axis. *)
  Section YFace.
    Context (t : tri) (c : Q) (Hc : py (tv1 t) = c /\ py (tv2 t) = c /\ py (tv3 t) = c).
    Lemma yface_point r : in_triangle t r -> (py r == c)%Q.
    Proof using Hc. intros H. destruct Hc as (H1 & H2 & H3). assert (G : (c <= py r <= c)%Q) by (apply (in_tri_range py t r c c); [tauto|rewrite ?H1, ?H2, ?H3; lra..|exact H]). lra. Qed.
    Lemma yface_in x y lo hi : In (x, y) (outline b zi t) ->
      (lo <= px (tv1 t) <= hi -> lo <= px (tv2 t) <= hi -> lo <= px (tv3 t) <= hi -> y = gy c /\ (gx lo <= x <= gx hi)%Z)%Q.
    Proof using Hc Hv.
      intros Hin H1 H2 H3. unfold outline in Hin. destruct (intersectTriZPlane t z) as [[[p q] t']|] eqn:E; [|destruct Hin].
      destruct (tri_sound _ _ _ _ _ E) as (_ & _ & _ & Ep & Eq). apply edge_in_triangle in Ep, Eq. unfold pair_points in Hin.
      pose proof (yface_point p Ep) as Xp. pose proof (yface_point q Eq) as Xq. rewrite (grid_eq (TY b) _ _ Xp), (grid_eq (TY b) _ _ Xq) in Hin. apply line_horizontal in Hin as [-> Hy].
      destruct (in_tri_range px t p lo hi) as [P1 P2]; [tauto|assumption..|]. destruct (in_tri_range px t q lo hi) as [Q1 Q2]; [tauto|assumption..|].
      pose proof (grid_mono (TX b) _ _ P1). pose proof (grid_mono (TX b) _ _ P2). pose proof (grid_mono (TX b) _ _ Q1). pose proof (grid_mono (TX b) _ _ Q2). unfold zbetween in Hy. split; [reflexivity|lia].
    Qed.
    Lemma yface_hit x r1 r2 : clean t -> ~ coplanar t z -> ~ middle_on_plane t z ->
      in_triangle t r1 -> in_triangle t r2 -> (pz r1 == z)%Q -> (pz r2 == z)%Q -> gx (px r1) <= x <= gx (px r2) -> In (x, gy c) (outline b zi t).
    Proof using Hc Hv.
      intros H1 H2 H3 T1 T2 Z1 Z2 Hy. pose proof (C30_exact t z H1 H2 H3) as Ex. unfold outline.
      destruct (intersectTriZPlane t z) as [[[p q] t']|] eqn:E; [|destruct (Ex r1 T1 Z1)].
      destruct (tri_sound _ _ _ _ _ E) as (_ & _ & _ & Ep & Eq). apply edge_in_triangle in Ep, Eq. unfold pair_points.
      rewrite (grid_eq (TY b) _ _ (yface_point p Ep)), (grid_eq (TY b) _ _ (yface_point q Eq)). apply line_horizontal. split; [reflexivity|].
      assert (S1 : on_segment p q r1) by (apply Ex; auto). assert (S2 : on_segment p q r2) by (apply Ex; auto).
      apply (on_segment_range px) in S1, S2; [|tauto..]. unfold zbetween.
      destruct S1 as [[A B]|[A B]], S2 as [[C D]|[C D]];
        pose proof (grid_mono (TX b) _ _ A); pose proof (grid_mono (TX b) _ _ B); pose proof (grid_mono (TX b) _ _ C); pose proof (grid_mono (TX b) _ _ D); lia.
    Qed.
  End YFace.
End Faces.

(** ** The box *)
Section Cuboid.
  Context (b : binvox Q) (x0 y0 z0 x1 y1 z1 : Q) (Hz : zero_dim b = false) (Hv : (0 < vpmm b)%Q).
  Context (Hx : (x0 <= x1)%Q) (Hy : (y0 <= y1)%Q) (Hzz : (z0 + epsilon <= z1)%Q) (Hx0 : (TX b <= x0)%Q).
  Notation mesh := (box_mesh x0 y0 z0 x1 y1 z1).
  Notation gx c := (gridi (vpmm b) c (TX b)).
  Notation gy c := (gridi (vpmm b) c (TY b)).

  Lemma mesh_nodup : NoDup (map taddr mesh).
  Proof using. cbn. apply NoDup_ListNoDup. repeat (apply List.NoDup_cons; [cbn; intuition discriminate|]). apply List.NoDup_nil. Qed.

  Notation t1 := (Tri 1 (q3 x0 y0 z0) (q3 x0 y0 z1) (q3 x0 y1 z1) (q3 (-1) 0 0)).
  Notation t2 := (Tri 2 (q3 x0 y0 z0) (q3 x0 y1 z1) (q3 x0 y1 z0) (q3 (-1) 0 0)).
  Notation t3 := (Tri 3 (q3 x1 y0 z0) (q3 x1 y1 z1) (q3 x1 y0 z1) (q3 1 0 0)).
  Notation t4 := (Tri 4 (q3 x1 y0 z0) (q3 x1 y1 z0) (q3 x1 y1 z1) (q3 1 0 0)).
  Notation t5 := (Tri 5 (q3 x0 y0 z0) (q3 x1 y0 z0) (q3 x1 y0 z1) (q3 0 (-1) 0)).
  Notation t6 := (Tri 6 (q3 x0 y0 z0) (q3 x1 y0 z1) (q3 x0 y0 z1) (q3 0 (-1) 0)).
  Notation t7 := (Tri 7 (q3 x0 y1 z0) (q3 x1 y1 z1) (q3 x1 y1 z0) (q3 0 1 0)).
  Notation t8 := (Tri 8 (q3 x0 y1 z0) (q3 x0 y1 z1) (q3 x1 y1 z1) (q3 0 1 0)).

  Section Slice.
    Context (zi : Z).
    Notation z := (slice_z b zi).

    Lemma heights_ne : ~ (z0 == z1)%Q.
    Proof using Hzz. intros E. unfold epsilon in Hzz. lra. Qed.

    (** The pixels of each side are on its line. *)
    Lemma in_left t x y : t = t1 \/ t = t2 -> In (x, y) (outline b zi t) -> x = gx x0 /\ gy y0 <= y <= gy y1 /\ (z0 <= z <= z1)%Q.
    Proof using Hv Hy Hzz.
      intros Ht Hin. assert (Hz1 : (z0 <= z1)%Q) by (unfold epsilon in Hzz; lra).
      pose proof (outline_height b zi t (x, y) z0 z1 Hin) as Hh. pose proof (xface_in b zi Hv t x0) as Hf.
      destruct Ht as [-> | ->]; (destruct (Hf ltac:(repeat split) x y y0 y1 Hin) as [H1 H2]; [cbn; lra..|]); (split; [exact H1|split; [exact H2|apply Hh; cbn; lra]]).
    Qed.
    Lemma in_right t x y : t = t3 \/ t = t4 -> In (x, y) (outline b zi t) -> x = gx x1 /\ gy y0 <= y <= gy y1 /\ (z0 <= z <= z1)%Q.
    Proof using Hv Hy Hzz.
      intros Ht Hin. assert (Hz1 : (z0 <= z1)%Q) by (unfold epsilon in Hzz; lra).
      pose proof (outline_height b zi t (x, y) z0 z1 Hin) as Hh. pose proof (xface_in b zi Hv t x1) as Hf.
      destruct Ht as [-> | ->]; (destruct (Hf ltac:(repeat split) x y y0 y1 Hin) as [H1 H2]; [cbn; lra..|]); (split; [exact H1|split; [exact H2|apply Hh; cbn; lra]]).
    Qed.
    Lemma in_front t x y : t = t5 \/ t = t6 -> In (x, y) (outline b zi t) -> y = gy y0 /\ gx x0 <= x <= gx x1 /\ (z0 <= z <= z1)%Q.
    Proof using Hv Hx Hzz.
      intros Ht Hin. assert (Hz1 : (z0 <= z1)%Q) by (unfold epsilon in Hzz; lra).
      pose proof (outline_height b zi t (x, y) z0 z1 Hin) as Hh. pose proof (yface_in b zi Hv t y0) as Hf.
      destruct Ht as [-> | ->]; (destruct (Hf ltac:(repeat split) x y x0 x1 Hin) as [H1 H2]; [cbn; lra..|]); (split; [exact H1|split; [exact H2|apply Hh; cbn; lra]]).
    Qed.
    Lemma in_back t x y : t = t7 \/ t = t8 -> In (x, y) (outline b zi t) -> y = gy y1 /\ gx x0 <= x <= gx x1 /\ (z0 <= z <= z1)%Q.
    Proof using Hv Hx Hzz.
      intros Ht Hin. assert (Hz1 : (z0 <= z1)%Q) by (unfold epsilon in Hzz; lra).
      pose proof (outline_height b zi t (x, y) z0 z1 Hin) as Hh. pose proof (yface_in b zi Hv t y1) as Hf.
      destruct Ht as [-> | ->]; (destruct (Hf ltac:(repeat split) x y x0 x1 Hin) as [H1 H2]; [cbn; lra..|]); (split; [exact H1|split; [exact H2|apply Hh; cbn; lra]]).
    Qed.

    (** Every side triangle is cut exactly. *)
    Definition low_or_high (v : qpt) : Prop := pz v = z0 \/ pz v = z1.
    Lemma side_exact t : low_or_high (tv1 t) -> low_or_high (tv2 t) -> low_or_high (tv3 t) ->
      ~ (pz (tv1 t) = pz (tv2 t) /\ pz (tv2 t) = pz (tv3 t)) -> (z0 <= z <= z1)%Q ->
      clean t /\ ~ coplanar t z /\ ~ middle_on_plane t z.
    Proof using Hzz.
      intros H1 H2 H3 Hne Hh. pose proof heights_ne as He. unfold low_or_high in *.
      assert (Hst : (epsilon <= z1 - z0)%Q) by lra.
      assert (CE : forall v w, low_or_high v -> low_or_high w -> clean_edge v w).
      { intros v w Hv' Hw'. unfold clean_edge, steep, low_or_high in *. destruct Hv' as [-> | ->], Hw' as [-> | ->]; try (left; reflexivity); right; unfold epsilon in *; apply Qabs_case; intros; lra. }
      split; [split; [apply CE; assumption|split; apply CE; assumption]|]. split.
      - intros (E1 & E2 & E3). destruct H1 as [H1|H1], H2 as [H2|H2], H3 as [H3|H3]; rewrite H1, ?H2, ?H3 in *; try (apply Hne; split; reflexivity); apply He; lra.
      - intros (E2 & E13). destruct H1 as [H1|H1], H2 as [H2|H2], H3 as [H3|H3]; rewrite H1, ?H2, ?H3 in *; nra.
    Qed.

    Context (Hh : (z0 <= z <= z1)%Q).
    Notation s := ((z - z0) / (z1 - z0))%Q.
    Lemma s_range : (0 <= s <= 1)%Q.
    Proof using Hh Hzz. unfold epsilon in Hzz. split; [apply Qle_shift_div_l|apply Qle_shift_div_r]; lra. Qed.
    Lemma s_val : (z0 + (z1 - z0) * s == z)%Q.
    Proof using Hzz. field. unfold epsilon in Hzz. lra. Qed.
    Lemma s_val' : (z1 + (z0 - z1) * (1 - s) == z)%Q.
    Proof using Hzz. field. unfold epsilon in Hzz. lra. Qed.

    Notation my := (y0 + (y1 - y0) * s)%Q.
    Notation mx := (x0 + (x1 - x0) * s)%Q.

    (** Points of the edges at the height of the slice. *)
    Lemma seg_up p q c d c' d' : p = q3 c d z0 -> q = q3 c' d' z1 -> on_segment p q (q3 (c + (c' - c) * s) (d + (d' - d) * s) z).
    Proof using Hh Hzz.
      intros -> ->. exists s. split; [apply s_range|]. apply qpt_eq_iff. unfold lerp, q3, px, py, pz. cbn [fst snd]. split; [reflexivity|split; [reflexivity|]]. symmetry. apply s_val.
    Qed.
    Lemma seg_down p q c d c' d' : p = q3 c d z1 -> q = q3 c' d' z0 -> on_segment p q (q3 (c + (c' - c) * (1 - s)) (d + (d' - d) * (1 - s)) z).
    Proof using Hh Hzz.
      intros -> ->. exists (1 - s)%Q. split; [pose proof s_range; lra|]. apply qpt_eq_iff. unfold lerp, q3, px, py, pz. cbn [fst snd]. split; [reflexivity|split; [reflexivity|]]. symmetry. apply s_val'.
    Qed.
    Lemma tri_at t p c d c' d' : on_edge t p -> qpt_eq p (q3 c d z) -> (c == c')%Q -> (d == d')%Q -> in_triangle t (q3 c' d' z).
    Proof using.
      intros Hp E E1 E2. apply (in_triangle_ext t p); [|apply edge_in_triangle, Hp]. rewrite E. apply qpt_eq_iff. unfold q3, px, py, pz. cbn [fst snd]. split; [exact E1|split; [exact E2|reflexivity]].
    Qed.

    Ltac ex := apply side_exact; [left; reflexivity| | | |exact Hh]; try (left; reflexivity); try (right; reflexivity); intros [E1 E2]; cbn in E1, E2; apply heights_ne; rewrite ?E1, ?E2; try reflexivity; try (rewrite <- E1; reflexivity); try (rewrite <- E2; reflexivity).

    (* In each triangle, the two ends of its cut. *)
    Lemma cut1 : in_triangle t1 (q3 x0 y0 z) /\ in_triangle t1 (q3 x0 my z).
    Proof using Hh Hzz. split; [eapply tri_at; [left; eapply (seg_up _ _ x0 y0 x0 y0); reflexivity|reflexivity|ring|ring]|eapply tri_at; [right; right; apply on_segment_sym; eapply (seg_up _ _ x0 y0 x0 y1); reflexivity|reflexivity|ring|ring]]. Qed.
    Lemma cut2 : in_triangle t2 (q3 x0 my z) /\ in_triangle t2 (q3 x0 y1 z).
    Proof using Hh Hzz. split; [eapply tri_at; [left; eapply (seg_up _ _ x0 y0 x0 y1); reflexivity|reflexivity|ring|ring]|eapply tri_at; [right; left; eapply (seg_down _ _ x0 y1 x0 y1); reflexivity|reflexivity|ring|ring]]. Qed.
    Lemma cut3 : in_triangle t3 (q3 x1 y0 z) /\ in_triangle t3 (q3 x1 my z).
    Proof using Hh Hzz. split; [eapply tri_at; [right; right; apply on_segment_sym; eapply (seg_up _ _ x1 y0 x1 y0); reflexivity|reflexivity|ring|ring]|eapply tri_at; [left; eapply (seg_up _ _ x1 y0 x1 y1); reflexivity|reflexivity|ring|ring]]. Qed.
    Lemma cut4 : in_triangle t4 (q3 x1 my z) /\ in_triangle t4 (q3 x1 y1 z).
    Proof using Hh Hzz. split; [eapply tri_at; [right; right; apply on_segment_sym; eapply (seg_up _ _ x1 y0 x1 y1); reflexivity|reflexivity|ring|ring]|eapply tri_at; [right; left; eapply (seg_up _ _ x1 y1 x1 y1); reflexivity|reflexivity|ring|ring]]. Qed.
    Lemma cut5 : in_triangle t5 (q3 mx y0 z) /\ in_triangle t5 (q3 x1 y0 z).
    Proof using Hh Hzz. split; [eapply tri_at; [right; right; apply on_segment_sym; eapply (seg_up _ _ x0 y0 x1 y0); reflexivity|reflexivity|ring|ring]|eapply tri_at; [right; left; eapply (seg_up _ _ x1 y0 x1 y0); reflexivity|reflexivity|ring|ring]]. Qed.
    Lemma cut6 : in_triangle t6 (q3 x0 y0 z) /\ in_triangle t6 (q3 mx y0 z).
    Proof using Hh Hzz. split; [eapply tri_at; [right; right; apply on_segment_sym; eapply (seg_up _ _ x0 y0 x0 y0); reflexivity|reflexivity|ring|ring]|eapply tri_at; [left; eapply (seg_up _ _ x0 y0 x1 y0); reflexivity|reflexivity|ring|ring]]. Qed.
    Lemma cut7 : in_triangle t7 (q3 mx y1 z) /\ in_triangle t7 (q3 x1 y1 z).
    Proof using Hh Hzz. split; [eapply tri_at; [left; eapply (seg_up _ _ x0 y1 x1 y1); reflexivity|reflexivity|ring|ring]|eapply tri_at; [right; left; eapply (seg_down _ _ x1 y1 x1 y1); reflexivity|reflexivity|ring|ring]]. Qed.
    Lemma cut8 : in_triangle t8 (q3 x0 y1 z) /\ in_triangle t8 (q3 mx y1 z).
    Proof using Hh Hzz. split; [eapply tri_at; [left; eapply (seg_up _ _ x0 y1 x0 y1); reflexivity|reflexivity|ring|ring]|eapply tri_at; [right; right; apply on_segment_sym; eapply (seg_up _ _ x0 y1 x1 y1); reflexivity|reflexivity|ring|ring]]. Qed.

    Lemma hit_left y : gy y0 <= y <= gy y1 -> exists t, (t = t1 \/ t = t2) /\ In (gx x0, y) (outline b zi t).
    Proof using Hh Hv Hzz.
      intros Hb. destruct cut1 as [A1 A2]. destruct cut2 as [B1 B2]. destruct (Z_le_dec y (gy my)) as [H|H].
      - exists t1. split; [auto|]. assert (E : clean t1 /\ ~ coplanar t1 z /\ ~ middle_on_plane t1 z) by ex. destruct E as (E1 & E2 & E3).
        apply (xface_hit b zi Hv t1 x0 ltac:(repeat split) y _ _ E1 E2 E3 A1 A2); [reflexivity|reflexivity|unfold q3, px, py; cbn [fst snd]; lia].
      - exists t2. split; [auto|]. assert (E : clean t2 /\ ~ coplanar t2 z /\ ~ middle_on_plane t2 z) by ex. destruct E as (E1 & E2 & E3).
        apply (xface_hit b zi Hv t2 x0 ltac:(repeat split) y _ _ E1 E2 E3 B1 B2); [reflexivity|reflexivity|unfold q3, px, py; cbn [fst snd]; lia].
    Qed.
    Lemma hit_right y : gy y0 <= y <= gy y1 -> exists t, (t = t3 \/ t = t4) /\ In (gx x1, y) (outline b zi t).
    Proof using Hh Hv Hzz.
      intros Hb. destruct cut3 as [A1 A2]. destruct cut4 as [B1 B2]. destruct (Z_le_dec y (gy my)) as [H|H].
      - exists t3. split; [auto|]. assert (E : clean t3 /\ ~ coplanar t3 z /\ ~ middle_on_plane t3 z) by ex. destruct E as (E1 & E2 & E3).
        apply (xface_hit b zi Hv t3 x1 ltac:(repeat split) y _ _ E1 E2 E3 A1 A2); [reflexivity|reflexivity|unfold q3, px, py; cbn [fst snd]; lia].
      - exists t4. split; [auto|]. assert (E : clean t4 /\ ~ coplanar t4 z /\ ~ middle_on_plane t4 z) by ex. destruct E as (E1 & E2 & E3).
        apply (xface_hit b zi Hv t4 x1 ltac:(repeat split) y _ _ E1 E2 E3 B1 B2); [reflexivity|reflexivity|unfold q3, px, py; cbn [fst snd]; lia].
    Qed.
    Lemma hit_front x : gx x0 <= x <= gx x1 -> exists t, (t = t5 \/ t = t6) /\ In (x, gy y0) (outline b zi t).
    Proof using Hh Hv Hzz.
      intros Hb. destruct cut5 as [A1 A2]. destruct cut6 as [B1 B2]. destruct (Z_le_dec x (gx mx)) as [H|H].
      - exists t6. split; [auto|]. assert (E : clean t6 /\ ~ coplanar t6 z /\ ~ middle_on_plane t6 z) by ex. destruct E as (E1 & E2 & E3).
        apply (yface_hit b zi Hv t6 y0 ltac:(repeat split) x _ _ E1 E2 E3 B1 B2); [reflexivity|reflexivity|unfold q3, px, py; cbn [fst snd]; lia].
      - exists t5. split; [auto|]. assert (E : clean t5 /\ ~ coplanar t5 z /\ ~ middle_on_plane t5 z) by ex. destruct E as (E1 & E2 & E3).
        apply (yface_hit b zi Hv t5 y0 ltac:(repeat split) x _ _ E1 E2 E3 A1 A2); [reflexivity|reflexivity|unfold q3, px, py; cbn [fst snd]; lia].
    Qed.
    Lemma hit_back x : gx x0 <= x <= gx x1 -> exists t, (t = t7 \/ t = t8) /\ In (x, gy y1) (outline b zi t).
    Proof using Hh Hv Hzz.
      intros Hb. destruct cut7 as [A1 A2]. destruct cut8 as [B1 B2]. destruct (Z_le_dec x (gx mx)) as [H|H].
      - exists t8. split; [auto|]. assert (E : clean t8 /\ ~ coplanar t8 z /\ ~ middle_on_plane t8 z) by ex. destruct E as (E1 & E2 & E3).
        apply (yface_hit b zi Hv t8 y1 ltac:(repeat split) x _ _ E1 E2 E3 B1 B2); [reflexivity|reflexivity|unfold q3, px, py; cbn [fst snd]; lia].
      - exists t7. split; [auto|]. assert (E : clean t7 /\ ~ coplanar t7 z /\ ~ middle_on_plane t7 z) by ex. destruct E as (E1 & E2 & E3).
        apply (yface_hit b zi Hv t7 y1 ltac:(repeat split) x _ _ E1 E2 E3 A1 A2); [reflexivity|reflexivity|unfold q3, px, py; cbn [fst snd]; lia].
    Qed.

    Notation X0 := (gx x0). Notation X1 := (gx x1). Notation Y0 := (gy y0). Notation Y1 := (gy y1).
    Lemma X01 : X0 <= X1. Proof using Hv Hx. apply grid_mono; assumption. Qed.
    Lemma Y01 : Y0 <= Y1. Proof using Hv Hy. apply grid_mono; assumption. Qed.

    Lemma box_shell x y : shell b mesh (x, y, zi) <->
      (x = X0 \/ x = X1) /\ Y0 <= y <= Y1 \/ (y = Y0 \/ y = Y1) /\ X0 <= x <= X1.
    Proof using Hh Hv Hx Hy Hzz.
      pose proof X01. pose proof Y01. unfold shell, kx, ky, kz. cbn [fst snd]. split.
      - intros (t & Ht & Hin). cbn [box_mesh In] in Ht.
        destruct Ht as [<-|[<-|[<-|[<-|[<-|[<-|[<-|[<-|[<-|[<-|[<-|[<-|[]]]]]]]]]]]]].
        1,2: apply in_left in Hin; [lia|tauto].
        1,2: apply in_right in Hin; [lia|tauto].
        1,2: apply in_front in Hin; [lia|tauto].
        1,2: apply in_back in Hin; [lia|tauto].
        1,2: exfalso; apply (outline_flat b zi _ _ z0 Hin); repeat split; reflexivity.
        1,2: exfalso; apply (outline_flat b zi _ _ z1 Hin); repeat split; reflexivity.
      - intros [[[-> | ->] Hb]|[[-> | ->] Hb]].
        + destruct (hit_left y Hb) as (t & Ht & Hin). exists t. split; [cbn; destruct Ht as [-> | ->]; tauto|exact Hin].
        + destruct (hit_right y Hb) as (t & Ht & Hin). exists t. split; [cbn; destruct Ht as [-> | ->]; tauto|exact Hin].
        + destruct (hit_front x Hb) as (t & Ht & Hin). exists t. split; [cbn; destruct Ht as [-> | ->]; tauto|exact Hin].
        + destruct (hit_back x Hb) as (t & Ht & Hin). exists t. split; [cbn; destruct Ht as [-> | ->]; tauto|exact Hin].
    Qed.

    Lemma filter_both {A} (f g : A -> bool) l : List.filter (fun a => f a && g a) l = List.filter f (List.filter g l).
    Proof using. induction l as [|a l IH]; [reflexivity|]. cbn [List.filter]. rewrite IH. destruct (g a); cbn [List.filter]; destruct (f a); reflexivity. Qed.

    Lemma left_leftmost t y x : t = t1 \/ t = t2 -> leftmost b zi y t x = true <-> x = X0 /\ In (X0, y) (outline b zi t).
    Proof using Hv Hy Hzz.
      intros Ht. rewrite leftmost_iff. cbn beta. rewrite hitp_iff. split.
      - intros [H _]. destruct (in_left t x y Ht H) as [-> _]. auto.
      - intros [-> H]. split; [exact H|]. intros x' H'. apply hitp_iff in H'. destruct (in_left t x' y Ht H') as [-> _]. lia.
    Qed.
    Lemma right_leftmost t y x : t = t3 \/ t = t4 -> leftmost b zi y t x = true <-> x = X1 /\ In (X1, y) (outline b zi t).
    Proof using Hv Hy Hzz.
      intros Ht. rewrite leftmost_iff. cbn beta. rewrite hitp_iff. split.
      - intros [H _]. destruct (in_right t x y Ht H) as [-> _]. auto.
      - intros [-> H]. split; [exact H|]. intros x' H'. apply hitp_iff in H'. destruct (in_right t x' y Ht H') as [-> _]. lia.
    Qed.

    Lemma box_balance y x : X0 < X1 -> Y0 <= y <= Y1 ->
      (0 < balance b mesh zi y x <-> x = X0) /\ (balance b mesh zi y x < 0 <-> x = X1).
    Proof using Hh Hv Hy Hzz.
      intros Hlt Hb. unfold balance. rewrite !filter_both.
      change (List.filter facing_in mesh) with [t1; t2]. change (List.filter facing_out mesh) with [t3; t4].
      assert (L : forall (p q : bool) (u v : tri), Z.of_nat (length (if p then u :: (if q then [v] else []) else (if q then [v] else []))) = Z.b2z p + Z.b2z q) by (intros [] [] u v; reflexivity).
      cbn [List.filter]. rewrite !L. clear L.
      assert (A : leftmost b zi y t1 x = true \/ leftmost b zi y t2 x = true <-> x = X0).
      { rewrite !left_leftmost by tauto. split; [tauto|]. intros ->. destruct (hit_left y Hb) as (t & [-> | ->] & Hin); tauto. }
      assert (B : leftmost b zi y t3 x = true \/ leftmost b zi y t4 x = true <-> x = X1).
      { rewrite !right_leftmost by tauto. split; [tauto|]. intros ->. destruct (hit_right y Hb) as (t & [-> | ->] & Hin); tauto. }
      destruct (leftmost b zi y t1 x), (leftmost b zi y t2 x), (leftmost b zi y t3 x), (leftmost b zi y t4 x); cbn [Z.b2z];
        assert (N1 : false = true <-> False) by (split; [discriminate|tauto]); assert (N2 : true = true <-> True) by tauto; rewrite ?N1, ?N2 in A, B; split; split; intros; try lia; try tauto; try (destruct A, B; lia).
    Qed.

    Lemma box_solid x y : 0 <= y < NY b -> result_voxels (VoxelizeZ b mesh zi) (x, y, zi) <-> x < NX b /\ X0 <= x <= X1 /\ Y0 <= y <= Y1.
    Proof using Hh Hv Hx Hy Hz Hzz Hx0.
      intros Hyn. pose proof X01 as LX. pose proof Y01 as LY.
      assert (P0 : 0 <= X0). { unfold gridi. change 0 with (Qfloor 0). apply Qfloor_resp_le. nra. }
      destruct (Z_le_dec Y0 y) as [Ha|Ha]; [destruct (Z_le_dec y Y1) as [Hb|Hb]|].
      - destruct (Z_lt_le_dec X0 X1) as [Hlt|Hge].
        + rewrite (C31_between_crossings b mesh zi y (X0 - 1) [(X0, X1)] x); [|exact Hz|apply mesh_nodup|exact Hyn|].
          * rewrite box_shell. split.
            -- intros (H1 & [H2|(H2 & e & l & [[= <- <-]|[]] & H3)]); lia.
            -- intros (H1 & H2 & H3). split; [exact H1|]. destruct (Z.eq_dec x X0); [left; lia|]. destruct (Z.eq_dec x X1); [left; lia|]. right. split; [lia|]. exists X0, X1. split; [left; reflexivity|lia].
          * split; [repeat split; lia|]. cbn [map fst snd In]. split; intros x'; destruct (box_balance y x' Hlt ltac:(lia)) as [B1 B2]; [rewrite B1|rewrite B2]; intuition congruence.
        + rewrite C31_slice by (try exact Hz; apply mesh_nodup). unfold solid, kx, ky, kz. cbn [fst snd]. split.
          * intros (_ & _ & H1 & [H2|(_ & (x' & H3 & H4 & _) & x'' & H5 & H6)]).
            -- apply box_shell in H2. lia.
            -- apply box_shell in H6. assert (Hs : shell b mesh (x', y, zi)).
               { apply hit_any_shell. apply (balance_hit b mesh zi y mesh_nodup Hyn x'). lia. }
               apply box_shell in Hs. lia.
          * intros (H1 & H2 & H3). split; [reflexivity|]. split; [exact Hyn|]. split; [exact H1|]. left. apply box_shell. left. lia.
      - split; [|lia]. rewrite C31_slice by (try exact Hz; apply mesh_nodup). unfold solid, kx, ky, kz. cbn [fst snd].
        intros (_ & _ & H1 & [H2|(_ & _ & x'' & H5 & H6)]); [apply box_shell in H2|apply box_shell in H6]; lia.
      - split; [|lia]. rewrite C31_slice by (try exact Hz; apply mesh_nodup). unfold solid, kx, ky, kz. cbn [fst snd].
        intros (_ & _ & H1 & [H2|(_ & _ & x'' & H5 & H6)]); [apply box_shell in H2|apply box_shell in H6]; lia.
    Qed.
  End Slice.

  (** No outline, no voxel. *)
  Lemma shell_height zi x y : shell b mesh (x, y, zi) -> (z0 <= slice_z b zi <= z1)%Q.
  Proof using Hzz.
    intros (t & Ht & Hin). assert (Hz1 : (z0 <= z1)%Q) by (unfold epsilon in Hzz; lra). apply (outline_height b zi t _ z0 z1 Hin);
    cbn [box_mesh In] in Ht; destruct Ht as [<-|[<-|[<-|[<-|[<-|[<-|[<-|[<-|[<-|[<-|[<-|[<-|[]]]]]]]]]]]]]; cbn; lra.
  Qed.

  (** The cells an interval meets. *)
  Lemma cells o c d n : (c <= d)%Q -> (gridi (vpmm b) c o <= n <= gridi (vpmm b) d o <->
    exists r, (c <= r <= d)%Q /\ (inject_Z n <= vpmm b * (r - o) < inject_Z n + 1)%Q).
  Proof using Hv.
    intros Hcd. unfold gridi. destruct (Qfloor_bounds (vpmm b * (c - o))) as (f & Ef & Ff). destruct (Qfloor_bounds (vpmm b * (d - o))) as (g & Eg & Fg).
    set (C := Qfloor (vpmm b * (c - o))) in *. set (D := Qfloor (vpmm b * (d - o))) in *.
    split.
    - intros [H1 H2]. rewrite Zle_Qle in H1, H2. destruct (Qlt_le_dec (vpmm b * (c - o)) (inject_Z n)) as [H|H].
      + exists (o + inject_Z n / vpmm b)%Q. assert (E : (vpmm b * (o + inject_Z n / vpmm b - o) == inject_Z n)%Q) by (field; lra).
        split; [|rewrite E; lra]. set (r := (o + inject_Z n / vpmm b)%Q) in *.
        assert (L : forall p q, (vpmm b * (p - o) <= vpmm b * (q - o))%Q -> (p <= q)%Q) by (intros p q Hpq; apply Qmult_le_l in Hpq; [lra|exact Hv]).
        split; apply L; lra.
      + exists c. split; [lra|]. lra.
    - intros (r & [R1 R2] & H1 & H2).
      assert (G1 : (vpmm b * (c - o) <= vpmm b * (r - o))%Q) by nra. assert (G2 : (vpmm b * (r - o) <= vpmm b * (d - o))%Q) by nra.
      split.
      + assert (H : (inject_Z C < inject_Z (n + 1))%Q) by (rewrite inject_Z_plus; change (inject_Z 1) with 1%Q; lra). rewrite <- Zlt_Qlt in H. lia.
      + assert (H : (inject_Z n < inject_Z (D + 1))%Q) by (rewrite inject_Z_plus; change (inject_Z 1) with 1%Q; lra). rewrite <- Zlt_Qlt in H. lia.
  Qed.

  (** Voxelize sets exactly the voxels of the grid whose middle square has a point of the box. *)
  Theorem C59_box k : result_voxels (Voxelize b mesh) k <->
    in_grid (NX b) (NY b) (NZ b) k /\ exists r, in_cuboid x0 y0 z0 x1 y1 z1 r /\ in_mid_square b k r.
  Proof using Hv Hx Hx0 Hy Hz Hzz.
    destruct k as [[x y] zi]. rewrite (C29_slices b mesh (x, y, zi) Hz mesh_nodup).
    assert (P0 : 0 <= gx x0). { unfold gridi. change 0 with (Qfloor 0). apply Qfloor_resp_le. nra. }
    assert (Sq : forall r, in_cuboid x0 y0 z0 x1 y1 z1 r -> in_mid_square b (x, y, zi) r -> (z0 <= slice_z b zi <= z1)%Q /\ gx x0 <= x <= gx x1 /\ gy y0 <= y <= gy y1).
    { intros r (R1 & R2 & R3) (M1 & M2 & M3). cbn [kz snd] in M3. apply slice_mid in M3; [|exact Hv]. split; [lra|]. split.
      - apply (cells (TX b) x0 x1 x Hx). exists (px r). split; [exact R1|exact M1].
      - apply (cells (TY b) y0 y1 y Hy). exists (py r). split; [exact R2|exact M2]. }
    unfold in_grid, in_region, kx, ky, kz. cbn [fst snd]. split.
    - intros (zi' & Hzi & Hk). assert (S : solid b mesh zi' (x, y, zi)) by (apply C31_slice; [exact Hz|apply mesh_nodup|exact Hk]).
      destruct S as (E & Hyn & Hxn & S). unfold kx, ky, kz in E, Hyn, Hxn, S. cbn [fst snd] in E, Hyn, Hxn, S. subst zi'.
      assert (Hh : (z0 <= slice_z b zi <= z1)%Q) by (destruct S as [S|(_ & _ & x' & _ & S)]; [apply (shell_height zi x y S)|apply (shell_height zi x' y S)]).
      apply (box_solid zi Hh x y Hyn) in Hk as (H1 & H2 & H3). split; [lia|].
      apply (cells (TX b) x0 x1 x Hx) in H2 as (rx & RX1 & RX2). apply (cells (TY b) y0 y1 y Hy) in H3 as (ry & RY1 & RY2).
      exists (q3 rx ry (slice_z b zi)). split; [split; [exact RX1|split; [exact RY1|exact Hh]]|]. split; [exact RX2|split; [exact RY2|]].
      apply slice_mid; [exact Hv|reflexivity].
    - intros (Hg & r & R & M). destruct (Sq r R M) as (Hh & H2 & H3). exists zi. split; [lia|]. apply (box_solid zi Hh x y); [lia|]. lia.
  Qed.
End Cuboid.
Print Assumptions C59_box.

(** Non-vacuity: the box of C28_box_example meets the hypotheses; its 48 voxels. *)
Example C59_example : zero_dim grid5 = false /\ (0 < vpmm grid5)%Q /\ ((1#4) + epsilon <= (17#5))%Q /\ (TX grid5 <= (1#4))%Q /\
  result_voxels (Voxelize grid5 (box_mesh (1#4) (1#4) (1#4) (17#5) (17#5) (17#5))) (3, 0, 2) /\
  ~ result_voxels (Voxelize grid5 (box_mesh (1#4) (1#4) (1#4) (17#5) (17#5) (17#5))) (3, 0, 3).
Proof.
  split; [reflexivity|]. split; [reflexivity|]. split; [discriminate|]. split; [discriminate|]. split.
  - apply C59_box; [reflexivity|reflexivity|discriminate..|]. split; [unfold in_grid, in_region; cbn; lia|].
    exists (q3 3 (1#2) (5#2)). split; [unfold in_cuboid; cbn; lra|]. split; [cbn; split; [discriminate|reflexivity]|]. split; [cbn; split; [discriminate|reflexivity]|reflexivity].
  - intros H. apply C59_box in H; [|reflexivity|reflexivity|discriminate..]. destruct H as (_ & r & (_ & _ & H1) & _ & _ & H2).
    change (vpmm grid5) with (5 / 5)%Q in H2. change (TZ grid5) with 0%Q in H2. change (inject_Z (kz (3, 0, 3))) with 3%Q in H2. assert (E : (pz r == 7#2)%Q) by (transitivity (5 / 5 * (pz r - 0))%Q; [field|rewrite H2; reflexivity]). lra.
Qed.
