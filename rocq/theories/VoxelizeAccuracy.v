(** C58: how far the voxels of Voxelize are from the surface of the mesh. *)
From Verif Require Import Base BinvoxModel Geom VoxelizeModel VoxelizeSpec VoxelizeLine VoxelizeSlice VoxelizeFill VoxelizeProps.
From Coq Require Import ZArith QArith Qround Qabs List Lia Lqa Bool.
From stdpp Require Import base list gmap.
Import ListNotations.
Open Scope Z_scope.

(** ** Specification *)

(** [r] is at most [m] voxels outside the square of voxel [k], along x and along y. *)
Definition within (m : Q) (b : binvox Q) (k : key) (r : qpt) : Prop :=
  (inject_Z (kx k) - m <= vpmm b * (px r - TX b) <= inject_Z (kx k) + 1 + m)%Q /\
  (inject_Z (ky k) - m <= vpmm b * (py r - TY b) <= inject_Z (ky k) + 1 + m)%Q.

(** [r] is at the height of the middle of the layer of voxel [k]. *)
Definition mid_height (b : binvox Q) (k : key) (r : qpt) : Prop :=
  (vpmm b * (pz r - TZ b) == inject_Z (kz k) + (1 # 2))%Q.

(** ** Digital lines between the cells of two points *)
Lemma Qfloor_bounds x : exists f : Q, (x == inject_Z (Qfloor x) + f)%Q /\ (0 <= f < 1)%Q.
Proof.
  exists (x - inject_Z (Qfloor x))%Q. split; [ring|]. pose proof (Qfloor_le x). pose proof (Qlt_floor x) as H2.
  rewrite inject_Z_plus in H2. change (inject_Z 1) with 1%Q in H2. lra.
Qed.

Lemma mix f g s : (0 <= f < 1 -> 0 <= g < 1 -> 0 <= s <= 1 -> 0 <= f * (1 - s) + g * s < 1)%Q.
Proof. intros Hf Hg Hs. split; [nra|]. destruct (Qlt_le_dec f g); nra. Qed.

Lemma inject_ne d : d <> 0 -> ~ (inject_Z d == 0)%Q.
Proof. intros H E. apply H. apply (inject_Z_injective d 0). exact E. Qed.
Lemma ratio a d : d <> 0 -> (0 <= a <= d \/ d <= a <= 0) -> (0 <= inject_Z a / inject_Z d <= 1)%Q.
Proof.
  intros Hd H. assert (Hq : forall a d, 0 < d -> 0 <= a <= d -> (0 <= inject_Z a / inject_Z d <= 1)%Q).
  { clear. intros a d Hd Ha. assert (Hq : (0 < inject_Z d)%Q) by (change 0%Q with (inject_Z 0); rewrite <- Zlt_Qlt; lia). split.
    - apply Qle_shift_div_l; [exact Hq|]. rewrite Qmult_0_l. change 0%Q with (inject_Z 0). rewrite <- Zle_Qle. lia.
    - apply Qle_shift_div_r; [exact Hq|]. rewrite Qmult_1_l. rewrite <- Zle_Qle. lia. }
  destruct H as [H|H]; [apply Hq; lia|].
  assert (E : (inject_Z a / inject_Z d == inject_Z (- a) / inject_Z (- d))%Q).
  { rewrite !inject_Z_opp. field. exact (inject_ne d Hd). }
  rewrite E. apply Hq; lia.
Qed.


(** |n| <= |d| and the quotient. *)
Lemma quot_half n d : d <> 0 -> 2 * Z.abs n <= Z.abs d -> (-(1#2) <= inject_Z n / inject_Z d <= 1#2)%Q.
Proof.
  intros Hd Hn. assert (G : (inject_Z n / inject_Z d == inject_Z (n * Z.sgn d) / inject_Z (Z.abs d))%Q).
  { rewrite <- (Z.abs_sgn d) at 1. rewrite !inject_Z_mult. destruct (Z.lt_trichotomy d 0) as [H|[H|H]]; [|lia|].
    - rewrite (Z.sgn_neg d H). field. apply inject_ne. lia.
    - rewrite (Z.sgn_pos d H). field. apply inject_ne. lia. }
  rewrite G. assert (Hq : (0 < inject_Z (Z.abs d))%Q) by (change 0%Q with (inject_Z 0); rewrite <- Zlt_Qlt; lia).
  assert (Hs : 2 * (n * Z.sgn d) <= Z.abs d /\ - Z.abs d <= 2 * (n * Z.sgn d)) by nia. destruct Hs as [H1 H2].
  rewrite Zle_Qle in H1, H2. rewrite inject_Z_opp in H2. rewrite (inject_Z_mult 2) in H1, H2. change (inject_Z 2) with 2%Q in *. set (N := inject_Z (n * Z.sgn d)) in *. set (D := inject_Z (Z.abs d)) in *. split.
  - apply Qle_shift_div_l; [exact Hq|]. lra.
  - apply Qle_shift_div_r; [exact Hq|]. lra.
Qed.

(** One axis carries the steps ([a]), the other follows ([c]). *)
Lemma on_line A1 A2 C1 C2 a c : let a1 := Qfloor A1 in let a2 := Qfloor A2 in let c1 := Qfloor C1 in let c2 := Qfloor C2 in
  a1 <> a2 -> zbetween a1 a2 a -> 2 * Z.abs ((c - c1) * (a2 - a1) - (a - a1) * (c2 - c1)) <= Z.abs (a2 - a1) ->
  exists s : Q, (0 <= s <= 1)%Q /\ (inject_Z a <= A1 + (A2 - A1) * s <= inject_Z a + 1)%Q /\
    (inject_Z c - (1 # 2) <= C1 + (C2 - C1) * s <= inject_Z c + 1 + (1 # 2))%Q.
Proof.
  intros a1 a2 c1 c2 Hne Hb Hd. assert (Hd0 : a2 - a1 <> 0) by lia. pose proof (inject_ne _ Hd0) as Hq.
  exists (inject_Z (a - a1) / inject_Z (a2 - a1))%Q. set (s := (inject_Z (a - a1) / inject_Z (a2 - a1))%Q).
  assert (Hs : (0 <= s <= 1)%Q) by (apply ratio; [exact Hd0|unfold zbetween in Hb; lia]).
  assert (Es : (s * inject_Z (a2 - a1) == inject_Z (a - a1))%Q) by (unfold s; field; exact Hq).
  assert (Ed : (inject_Z c - inject_Z c1 - s * inject_Z (c2 - c1) == inject_Z ((c - c1) * (a2 - a1) - (a - a1) * (c2 - c1)) / inject_Z (a2 - a1))%Q).
  { unfold s. unfold Z.sub. rewrite !inject_Z_plus, !inject_Z_opp, !inject_Z_mult, !inject_Z_plus, !inject_Z_opp. field.
    unfold Z.sub in Hq. rewrite inject_Z_plus, inject_Z_opp in Hq. exact Hq. }
  pose proof (quot_half _ _ Hd0 Hd) as Hh. rewrite <- Ed in Hh. clear Ed Hd Hq. clearbody s.
  destruct (Qfloor_bounds A1) as (f1 & E1 & F1). destruct (Qfloor_bounds A2) as (f2 & E2 & F2).
  destruct (Qfloor_bounds C1) as (g1 & E3 & G1). destruct (Qfloor_bounds C2) as (g2 & E4 & G2). fold a1 in E1. fold a2 in E2. fold c1 in E3. fold c2 in E4.
  pose proof (mix f1 f2 s F1 F2 Hs) as MA. pose proof (mix g1 g2 s G1 G2 Hs) as MC.
  split; [exact Hs|]. unfold Z.sub in *. rewrite !inject_Z_plus, !inject_Z_opp in *.
  assert (EA : (A1 + (A2 - A1) * s == inject_Z a + (f1 * (1 - s) + f2 * s))%Q).
  { rewrite E1, E2. set (p := inject_Z a1) in *. set (q := inject_Z a2) in *. set (r := inject_Z a) in *.
    transitivity (p + s * (q + - p) + (f1 * (1 - s) + f2 * s))%Q; [ring|]. rewrite Es. ring. }
  assert (EC : (C1 + (C2 - C1) * s == inject_Z c1 + s * (inject_Z c2 + - inject_Z c1) + (g1 * (1 - s) + g2 * s))%Q) by (rewrite E3, E4; ring).
  rewrite EA, EC. clear EA EC. split; split; lra.
Qed.

Lemma half_sym x1 y1 x2 y2 x y : deviation x1 y1 x2 y2 (x, y) = - ((x - x1) * (y2 - y1) - (y - y1) * (x2 - x1)).
Proof. unfold deviation. cbn [fst snd]. ring. Qed.

Lemma pixel_near X1 Y1 X2 Y2 x y : In (x, y) (plotLine (Qfloor X1) (Qfloor Y1) (Qfloor X2) (Qfloor Y2)) ->
  exists s : Q, (0 <= s <= 1)%Q /\
    (inject_Z x - (1 # 2) <= X1 + (X2 - X1) * s <= inject_Z x + 1 + (1 # 2))%Q /\
    (inject_Z y - (1 # 2) <= Y1 + (Y2 - Y1) * s <= inject_Z y + 1 + (1 # 2))%Q.
Proof.
  intros Hin. apply C27_in_box_and_near in Hin as (Hx & Hy & Hh). cbn [fst snd] in *. unfold half_pixel, extent in Hh.
  destruct (Z.eq_dec (Qfloor X1) (Qfloor X2)) as [Ex|Ex], (Z.eq_dec (Qfloor Y1) (Qfloor Y2)) as [Ey|Ey].
  1:{ exists 0%Q. assert (x = Qfloor X1) as -> by (unfold zbetween in Hx; lia). assert (y = Qfloor Y1) as -> by (unfold zbetween in Hy; lia).
      destruct (Qfloor_bounds X1) as (f & E & F). destruct (Qfloor_bounds Y1) as (g & E' & G). split; [lra|]. split; split; lra. }
  all: destruct (Z_le_dec (Z.abs (Qfloor Y2 - Qfloor Y1)) (Z.abs (Qfloor X2 - Qfloor X1))) as [Hm|Hm]; try lia.
  all: try (destruct (on_line X1 X2 Y1 Y2 x y) as (s & H1 & H2 & H3); [lia|exact Hx|unfold deviation in Hh; cbn [fst snd] in Hh; lia|exists s; split; [exact H1|split; [split; lra|split; lra]]]; fail).
  all: destruct (on_line Y1 Y2 X1 X2 y x) as (s & H1 & H2 & H3); [lia|exact Hy|rewrite half_sym in Hh; lia|exists s; split; [exact H1|split; [split; lra|split; lra]]].
Qed.

(** The other way round: a pixel near every point of the segment. *)
Lemma near_line A1 A2 C1 C2 s : let a1 := Qfloor A1 in let a2 := Qfloor A2 in let c1 := Qfloor C1 in let c2 := Qfloor C2 in
  a1 <> a2 -> Z.abs (c2 - c1) <= Z.abs (a2 - a1) -> (0 <= s <= 1)%Q ->
  exists a, zbetween a1 a2 a /\ forall c, 2 * Z.abs ((c - c1) * (a2 - a1) - (a - a1) * (c2 - c1)) <= Z.abs (a2 - a1) ->
    (inject_Z a - 1 <= A1 + (A2 - A1) * s <= inject_Z a + 1 + 1)%Q /\
    (inject_Z c - 1 <= C1 + (C2 - C1) * s <= inject_Z c + 1 + 1)%Q.
Proof.
  intros a1 a2 c1 c2 Hne Hm Hs. assert (Hd0 : a2 - a1 <> 0) by lia. pose proof (inject_ne _ Hd0) as Hq.
  set (t := (inject_Z a1 + s * inject_Z (a2 - a1))%Q). set (a := Qfloor (t + (1 # 2))). exists a.
  assert (Ht : (inject_Z a - (1 # 2) <= t < inject_Z a + (1 # 2))%Q).
  { destruct (Qfloor_bounds (t + (1 # 2))) as (f & E & F). fold a in E. lra. }
  assert (Et : (t == inject_Z a1 * (1 - s) + inject_Z a2 * s)%Q) by (unfold t, Z.sub; rewrite inject_Z_plus, inject_Z_opp; ring).
  assert (Hz : zbetween a1 a2 a).
  { unfold zbetween. assert (forall n m, (inject_Z n < inject_Z m + 1)%Q -> n <= m) as L.
    { intros n m H. assert (H' : (inject_Z n < inject_Z (m + 1))%Q) by (rewrite inject_Z_plus; exact H). rewrite <- Zlt_Qlt in H'. lia. }
    destruct (Z_le_dec a1 a2) as [H|H].
    - rewrite Z.min_l, Z.max_r by lia. rewrite Zle_Qle in H. split; apply L; nra.
    - assert (H' : a2 <= a1) by lia. rewrite Z.min_r, Z.max_l by lia. rewrite Zle_Qle in H'. split; apply L; nra. }
  split; [exact Hz|]. intros c Hc. pose proof (quot_half _ _ Hd0 Hc) as Hh.
  assert (Ed : (inject_Z ((c - c1) * (a2 - a1) - (a - a1) * (c2 - c1)) / inject_Z (a2 - a1) ==
     inject_Z c - inject_Z c1 - s * inject_Z (c2 - c1) - (inject_Z a - t) * (inject_Z (c2 - c1) / inject_Z (a2 - a1)))%Q).
  { unfold t. unfold Z.sub. rewrite !inject_Z_plus, !inject_Z_opp, !inject_Z_mult, !inject_Z_plus, !inject_Z_opp. field.
    unfold Z.sub in Hq. rewrite inject_Z_plus, inject_Z_opp in Hq. exact Hq. }
  rewrite Ed in Hh. clear Ed.
  assert (Hr : (-1 <= inject_Z (c2 - c1) / inject_Z (a2 - a1) <= 1)%Q).
  { assert (G : (-(1#2) <= inject_Z (c2 - c1) / inject_Z (2 * (a2 - a1)) <= 1#2)%Q) by (apply quot_half; lia).
    rewrite inject_Z_mult in G. change (inject_Z 2) with 2%Q in G.
    assert (E : (inject_Z (c2 - c1) / inject_Z (a2 - a1) == 2 * (inject_Z (c2 - c1) / (2 * inject_Z (a2 - a1))))%Q) by (field; exact Hq). rewrite E. lra. }
  set (r := (inject_Z (c2 - c1) / inject_Z (a2 - a1))%Q) in *. clearbody r.
  destruct (Qfloor_bounds A1) as (f1 & E1 & F1). destruct (Qfloor_bounds A2) as (f2 & E2 & F2).
  destruct (Qfloor_bounds C1) as (g1 & E3 & G1). destruct (Qfloor_bounds C2) as (g2 & E4 & G2). fold a1 in E1. fold a2 in E2. fold c1 in E3. fold c2 in E4.
  pose proof (mix f1 f2 s F1 F2 Hs) as MA. pose proof (mix g1 g2 s G1 G2 Hs) as MC.
  assert (EA : (A1 + (A2 - A1) * s == t + (f1 * (1 - s) + f2 * s))%Q) by (rewrite Et, E1, E2; ring).
  assert (EC : (C1 + (C2 - C1) * s == inject_Z c1 + s * inject_Z (c2 - c1) + (g1 * (1 - s) + g2 * s))%Q) by (rewrite E3, E4; unfold Z.sub; rewrite inject_Z_plus, inject_Z_opp; ring).
  rewrite EA, EC. set (w := (inject_Z c1 + s * inject_Z (c2 - c1))%Q) in *.
  assert (Hp : (-(1#2) <= (inject_Z a - t) * r <= 1#2)%Q) by (split; nra).
  assert (Hw : (-1 <= inject_Z c - w <= 1)%Q) by (unfold w; split; lra).
  split; split; lra.
Qed.

Lemma interp A1 A2 a f g s : (A1 == a + f -> A2 == a + g -> A1 + (A2 - A1) * s == a + (f * (1 - s) + g * s))%Q.
Proof. intros -> ->. ring. Qed.

Lemma point_near X1 Y1 X2 Y2 s : (0 <= s <= 1)%Q ->
  exists x y, In (x, y) (plotLine (Qfloor X1) (Qfloor Y1) (Qfloor X2) (Qfloor Y2)) /\
    (inject_Z x - 1 <= X1 + (X2 - X1) * s <= inject_Z x + 1 + 1)%Q /\
    (inject_Z y - 1 <= Y1 + (Y2 - Y1) * s <= inject_Z y + 1 + 1)%Q.
Proof.
  intros Hs. set (l := plotLine _ _ _ _).
  pose proof (fun x y H => C27_in_box_and_near (Qfloor X1) (Qfloor Y1) (Qfloor X2) (Qfloor Y2) (x, y) H) as Hn. unfold half_pixel, extent in Hn. cbn [fst snd] in Hn.
  destruct (Z_le_dec (Z.abs (Qfloor Y2 - Qfloor Y1)) (Z.abs (Qfloor X2 - Qfloor X1))) as [Hm|Hm].
  - destruct (Z.eq_dec (Qfloor X1) (Qfloor X2)) as [Ex|Ex].
    + (* one pixel *) assert (Ey : Qfloor Y1 = Qfloor Y2) by lia. destruct (C27_endpoints (Qfloor X1) (Qfloor Y1) (Qfloor X2) (Qfloor Y2)) as (Hh & _ & _). fold l in Hh.
      exists (Qfloor X1), (Qfloor Y1). split; [destruct l as [|p l']; [discriminate|left; cbn in Hh; congruence]|].
      destruct (Qfloor_bounds X1) as (f1 & E1 & F1). destruct (Qfloor_bounds X2) as (f2 & E2 & F2). destruct (Qfloor_bounds Y1) as (g1 & E3 & G1). destruct (Qfloor_bounds Y2) as (g2 & E4 & G2).
      rewrite <- Ex in E2. rewrite <- Ey in E4. pose proof (mix f1 f2 s F1 F2 Hs). pose proof (mix g1 g2 s G1 G2 Hs).
      assert (X1 + (X2 - X1) * s == inject_Z (Qfloor X1) + (f1 * (1 - s) + f2 * s))%Q as -> by (apply interp; assumption).
      assert (Y1 + (Y2 - Y1) * s == inject_Z (Qfloor Y1) + (g1 * (1 - s) + g2 * s))%Q as -> by (apply interp; assumption).
      split; split; lra.
    + destruct (near_line X1 X2 Y1 Y2 s Ex Hm Hs) as (x & Hb & Hc). destruct (proj1 (C27_one_per_major_step (Qfloor X1) (Qfloor Y1) (Qfloor X2) (Qfloor Y2)) Hm x Hb) as (y & Hy).
      assert (Hi : In (x, y) l) by (apply Hy; reflexivity). exists x, y. split; [exact Hi|]. apply Hc. destruct (Hn _ _ Hi) as (_ & _ & Hh). unfold deviation in Hh. cbn [fst snd] in Hh. lia.
  - assert (Hm' : Z.abs (Qfloor X2 - Qfloor X1) <= Z.abs (Qfloor Y2 - Qfloor Y1)) by lia. assert (Ey : Qfloor Y1 <> Qfloor Y2) by lia.
    destruct (near_line Y1 Y2 X1 X2 s Ey Hm' Hs) as (y & Hb & Hc). destruct (proj2 (C27_one_per_major_step (Qfloor X1) (Qfloor Y1) (Qfloor X2) (Qfloor Y2)) Hm' y Hb) as (x & Hx).
    assert (Hi : In (x, y) l) by (apply Hx; reflexivity). exists x, y. split; [exact Hi|]. destruct (Hn _ _ Hi) as (_ & _ & Hh). rewrite half_sym in Hh.
    destruct (Hc x ltac:(lia)). split; assumption.
Qed.

(** ** C58 *)

Lemma slice_mid b zi r : (0 < vpmm b)%Q -> (pz r == slice_z b zi)%Q <-> (vpmm b * (pz r - TZ b) == inject_Z zi + (1 # 2))%Q.
Proof.
  intros Hv. unfold slice_z. split.
  - intros ->. field. intros E. rewrite E in Hv. discriminate Hv.
  - intros E. assert (G : (pz r - TZ b == (inject_Z zi + (1 # 2)) / vpmm b)%Q) by (rewrite <- E; field; intros E'; rewrite E' in Hv; discriminate Hv).
    assert (G' : (pz r == TZ b + (inject_Z zi + (1 # 2)) / vpmm b)%Q) by (rewrite <- G; ring). rewrite G'. field. intros E'; rewrite E' in Hv; discriminate Hv.
Qed.

Lemma lerp_voxel v o p q s : (v * ((p + (q - p) * s) - o) == v * (p - o) + (v * (q - o) - v * (p - o)) * s)%Q.
Proof. ring. Qed.

(** An outline voxel has a point of the surface, at the middle of its layer, within half a voxel. *)
Lemma outline_near b zi t x y : (0 < vpmm b)%Q -> In (x, y) (outline b zi t) ->
  exists r, in_triangle t r /\ mid_height b (x, y, zi) r /\ within (1 # 2) b (x, y, zi) r.
Proof.
  intros Hv Hin. unfold outline in Hin. destruct (intersectTriZPlane t (slice_z b zi)) as [[[p q] t']|] eqn:E; [|destruct Hin].
  destruct (tri_sound _ _ _ _ _ E) as (-> & Zp & Zq & Ep & Eq). unfold pair_points, gridi in Hin.
  apply pixel_near in Hin as (s & Hs & Hx & Hy). exists (lerp p q s).
  assert (On : on_segment p q (lerp p q s)) by (exists s; split; [exact Hs|reflexivity]).
  split; [apply (segment_in_triangle t p q); assumption|]. split.
  - unfold mid_height. cbn [kz snd]. apply slice_mid; [exact Hv|]. apply (segment_z p q); assumption.
  - unfold within, kx, ky. cbn [fst snd]. unfold lerp at 1 2 3 4. cbn [px py fst snd]. rewrite !lerp_voxel. split; assumption.
Qed.

(** Every voxel Voxelize sets lies within half a voxel of the surface, measured at the middle of its
    layer, or strictly between two such voxels of its row. *)
Theorem C58_voxels_near_surface b mesh k : zero_dim b = false -> NoDup (map taddr mesh) -> (0 < vpmm b)%Q ->
  result_voxels (Voxelize b mesh) k ->
  let near k' := exists t r, In t mesh /\ in_triangle t r /\ mid_height b k' r /\ within (1 # 2) b k' r in
  near k \/ exists x1 x2, x1 < kx k < x2 /\ near (x1, ky k, kz k) /\ near (x2, ky k, kz k).
Proof.
  intros Hz Hn Hv Hk near. apply Voxelize_in in Hk as (Hk0 & _ & Hy & Hx & Hk); [|assumption..].
  assert (S : forall k', shell b mesh k' -> near k').
  { intros [[x y] z] (t & Ht & Hin). destruct (outline_near b z t x y Hv Hin) as (r & H1 & H2 & H3). exists t, r. auto. }
  destruct Hk as [Hk|(H0 & (x1 & Hlt & Hb & _) & x2 & Hlt2 & Hs2)]; [left; apply S, Hk|]. right. exists x1, x2. split; [lia|]. split; [|apply S, Hs2].
  apply S. apply hit_any_shell. apply (balance_hit b mesh (kz k) (ky k) Hn Hy x1). lia.
Qed.

(** The mesh is inside the grid, at a distance from its upper faces. *)
Definition in_box (b : binvox Q) (t : tri) : Prop :=
  forall v, v = tv1 t \/ v = tv2 t \/ v = tv3 t ->
    (0 <= vpmm b * (px v - TX b) < inject_Z (NX b))%Q /\ (0 <= vpmm b * (py v - TY b) < inject_Z (NY b))%Q.

Lemma in_box_tri b t r : in_box b t -> in_triangle t r ->
  (0 <= vpmm b * (px r - TX b) < inject_Z (NX b))%Q /\ (0 <= vpmm b * (py r - TY b) < inject_Z (NY b))%Q.
Proof.
  intros Hb (a1 & a2 & a3 & (H1 & H2 & H3 & H4) & E). destruct (Hb (tv1 t) ltac:(auto)) as [X1 Y1]. destruct (Hb (tv2 t) ltac:(auto)) as [X2 Y2]. destruct (Hb (tv3 t) ltac:(auto)) as [X3 Y3].
  apply qpt_eq_iff in E as (Ex & Ey & _). unfold comb3 in Ex, Ey.
  assert (C : forall v o u1 u2 u3 N, (0 <= v * (u1 - o) < N -> 0 <= v * (u2 - o) < N -> 0 <= v * (u3 - o) < N -> 0 <= v * ((a1 * u1 + a2 * u2 + a3 * u3) - o) < N)%Q).
  { intros v o u1 u2 u3 N [A1 A2] [B1 B2] [C1 C2].
    assert (E : (v * ((a1 * u1 + a2 * u2 + a3 * u3) - o) == a1 * (v * (u1 - o)) + a2 * (v * (u2 - o)) + a3 * (v * (u3 - o)))%Q).
    { transitivity (v * ((a1 * u1 + a2 * u2 + a3 * u3) - (a1 + a2 + a3) * o))%Q; [rewrite H4; ring|ring]. }
    rewrite E. set (p := (v * (u1 - o))%Q) in *. set (q := (v * (u2 - o))%Q) in *. set (w := (v * (u3 - o))%Q) in *. clearbody p q w. split; [nra|].
    assert (P1 : (a1 * p <= a1 * N)%Q) by nra. assert (P2 : (a2 * q <= a2 * N)%Q) by nra. assert (P3 : (a3 * w <= a3 * N)%Q) by nra.
    assert (S : (a1 * N + a2 * N + a3 * N == N)%Q) by (transitivity ((a1 + a2 + a3) * N)%Q; [ring|rewrite H4; ring]).
    destruct (Qlt_le_dec 0 a1) as [L|L]; [assert (a1 * p < a1 * N)%Q by nra; lra|].
    destruct (Qlt_le_dec 0 a2) as [L2|L2]; [assert (a2 * q < a2 * N)%Q by nra; lra|].
    assert (0 < a3)%Q by lra. assert (a3 * w < a3 * N)%Q by nra. lra. }
  cbn [px py fst snd] in Ex, Ey. rewrite Ex, Ey. split; apply C; assumption.
Qed.

(** Every point of the surface at the middle of a layer has a voxel within one voxel, provided the
    mesh is inside the grid, and for triangles the slicer treats exactly (C30). *)
Theorem C58_surface_covered b mesh t r zi : zero_dim b = false -> NoDup (map taddr mesh) -> (0 < vpmm b)%Q ->
  In t mesh -> in_box b t -> clean t -> ~ coplanar t (slice_z b zi) -> ~ middle_on_plane t (slice_z b zi) ->
  0 <= zi < NZ b -> in_triangle t r -> (vpmm b * (pz r - TZ b) == inject_Z zi + (1 # 2))%Q ->
  exists k, result_voxels (Voxelize b mesh) k /\ kz k = zi /\ within 1 b k r.
Proof.
  intros Hz Hn Hv Ht Hb Hc Hco Hm Hzi Hr Hmid. apply (slice_mid b zi r Hv) in Hmid.
  pose proof (C30_exact t (slice_z b zi) Hc Hco Hm) as Ex. destruct (intersectTriZPlane t (slice_z b zi)) as [[[p q] t']|] eqn:E; [|destruct (Ex r Hr Hmid)].
  assert (On : on_segment p q r) by (apply Ex; auto). destruct On as (s & Hs & Er). apply qpt_eq_iff in Er as (Er1 & Er2 & _). unfold lerp in Er1, Er2. cbn [px py fst snd] in Er1, Er2.
  destruct (point_near (vpmm b * (px p - TX b)) (vpmm b * (py p - TY b)) (vpmm b * (px q - TX b)) (vpmm b * (py q - TY b)) s Hs) as (x & y & Hin & Hx & Hy).
  rewrite <- !lerp_voxel in Hx, Hy. change (px p + (px q - px p) * s)%Q with (px p + (px q - px p) * s)%Q in Hx.
  assert (Wi : within 1 b (x, y, zi) r). { unfold within, kx, ky. cbn [fst snd]. rewrite Er1, Er2. split; assumption. }
  exists (x, y, zi). split; [|split; [reflexivity|exact Wi]]. apply Voxelize_in; [assumption..|]. cbn [kz snd]. split; [exact Hzi|].
  destruct (tri_sound _ _ _ _ _ E) as (-> & _ & _ & Ep & Eq).
  destruct (in_box_tri b t p Hb (edge_in_triangle t p Ep)) as [[PX1 PX2] [PY1 PY2]]. destruct (in_box_tri b t q Hb (edge_in_triangle t q Eq)) as [[QX1 QX2] [QY1 QY2]].
  assert (Fl : forall w N, (0 <= w)%Q -> (w < inject_Z N)%Q -> 0 <= Qfloor w < N).
  { intros w N H1 H2. destruct (Qfloor_bounds w) as (f & Ef & Ff). split.
    - assert (H : (inject_Z (-1) < inject_Z (Qfloor w))%Q) by (change (inject_Z (-1)) with (-1)%Q; lra). rewrite <- Zlt_Qlt in H. lia.
    - assert (H : (inject_Z (Qfloor w) < inject_Z N)%Q) by lra. rewrite <- Zlt_Qlt in H. exact H. }
  pose proof (Fl _ _ PX1 PX2). pose proof (Fl _ _ PY1 PY2). pose proof (Fl _ _ QX1 QX2). pose proof (Fl _ _ QY1 QY2).
  pose proof (C27_in_box_and_near _ _ _ _ _ Hin) as (Bx & By & _). unfold zbetween in Bx, By. cbn [fst snd] in Bx, By.
  unfold solid, kx, ky, kz. cbn [fst snd]. split; [reflexivity|]. split; [lia|]. split; [lia|]. left.
  exists t. split; [exact Ht|]. unfold kx, ky, kz. cbn [fst snd]. unfold outline. rewrite E. exact Hin.
Qed.
Print Assumptions C58_voxels_near_surface.
Print Assumptions C58_surface_covered.

(** Non-vacuity: the box of C31's example; the point (1/4, 1, 3/2) of its left side. *)
Example C58_example : let mesh := box_mesh (1#4) (1#4) (1#4) (17#5) (17#5) (17#5) in let t := nth 0 mesh (Tri 0 (q3 0 0 0) (q3 0 0 0) (q3 0 0 0) (q3 0 0 0)) in
  zero_dim grid5 = false /\ NoDup (map taddr mesh) /\ (0 < vpmm grid5)%Q /\ In t mesh /\ in_box grid5 t /\ clean t /\
  ~ coplanar t (slice_z grid5 1) /\ ~ middle_on_plane t (slice_z grid5 1) /\ in_triangle t (q3 (1#4) 1 (3#2)) /\
  (vpmm grid5 * (pz (q3 (1#4) 1 (3#2)) - TZ grid5) == inject_Z 1 + (1 # 2))%Q.
Proof.
  cbn zeta. split; [reflexivity|]. split; [apply NoDup_ListNoDup; repeat constructor; cbn; intuition discriminate|]. split; [reflexivity|]. split; [left; reflexivity|].
  split; [intros v [-> |[-> | ->]]; vm_compute; repeat split; intros; discriminate|].
  assert (Hs : forall v0 v1, Qle_bool epsilon (Qabs.Qabs (pz v1 - pz v0)) = true -> clean_edge v0 v1).
  { intros v0 v1 E. right. unfold steep. apply Qle_bool_iff, E. }
  split; [split; [apply Hs; reflexivity|split; [left; reflexivity|apply Hs; reflexivity]]|].
  split; [intros (E & _); discriminate E|]. split; [intros (E & _); discriminate E|]. split; [|reflexivity].
  (* barycentric: z = 1/4 + (b + c) 63/20 = 3/2 and y = 1/4 + c 63/20 = 1 *)
  exists (38#63), (10#63), (15#63). split; [repeat split; discriminate|]. apply qpt_eq_iff. repeat split; reflexivity.
Qed.

(** ** C30 for a whole mesh *)

(** The slice of a mesh has exactly the cuts of the triangles that are met, one per triangle, in order. *)
Theorem C30_mesh mesh z : map snd (intersectZPlane mesh z) = List.filter (fun t => match intersectTriZPlane t z with Some _ => true | None => false end) mesh /\
  forall p q t, In (p, q, t) (intersectZPlane mesh z) <-> In t mesh /\ intersectTriZPlane t z = Some (p, q, t).
Proof.
  induction mesh as [|u mesh [IH1 IH2]]; [split; [reflexivity|]; intros; cbn; tauto|].
  cbn [intersectZPlane List.filter]. destruct (intersectTriZPlane u z) as [[[p0 q0] u']|] eqn:E.
  - destruct (tri_sound _ _ _ _ _ E) as (-> & _). split; [cbn [map snd]; rewrite IH1; reflexivity|]. intros p q t. cbn [In]. rewrite IH2. split.
    + intros [[= <- <- <-]|[H1 H2]]; auto.
    + intros [[<- | H1] H2]; [left; congruence|auto].
  - split; [exact IH1|]. intros p q t. cbn [In]. rewrite IH2. split; [tauto|]. intros [[<- | H1] H2]; [congruence|auto].
Qed.

(** So the segments of the slice together are exactly the points of the mesh at that height. *)
Theorem C30_mesh_exact mesh z r :
  (forall t, In t mesh -> clean t /\ ~ coplanar t z /\ ~ middle_on_plane t z) ->
  (exists t, In t mesh /\ in_triangle t r) /\ (pz r == z)%Q <-> exists p q t, In (p, q, t) (intersectZPlane mesh z) /\ on_segment p q r.
Proof.
  intros H. split.
  - intros [(t & Ht & Hr) Hz]. destruct (H t Ht) as (H1 & H2 & H3). pose proof (C30_exact t z H1 H2 H3) as Ex.
    destruct (intersectTriZPlane t z) as [[[p q] t']|] eqn:E; [|destruct (Ex r Hr Hz)].
    destruct (tri_sound _ _ _ _ _ E) as (-> & _). exists p, q, t. split; [apply C30_mesh; auto|]. apply Ex. auto.
  - intros (p & q & t & Hin & Hs). apply C30_mesh in Hin as [Ht E]. destruct (H t Ht) as (H1 & H2 & H3). pose proof (C30_exact t z H1 H2 H3) as Ex.
    rewrite E in Ex. apply Ex in Hs as [Hr Hz]. split; [exists t; auto|exact Hz].
Qed.
Print Assumptions C30_mesh_exact.

(** Non-vacuity: the sides of the box at height 3/2. *)
Example C30_mesh_example : (forall t, In t (firstn 8 (box_mesh (1#4) (1#4) (1#4) (17#5) (17#5) (17#5))) -> clean t /\ ~ coplanar t (3#2) /\ ~ middle_on_plane t (3#2)) /\
  length (intersectZPlane (firstn 8 (box_mesh (1#4) (1#4) (1#4) (17#5) (17#5) (17#5))) (3#2)) = 8%nat.
Proof.
  split; [|vm_compute; reflexivity].
  assert (Hs : forall v0 v1, Qle_bool epsilon (Qabs.Qabs (pz v1 - pz v0)) = true -> clean_edge v0 v1).
  { intros v0 v1 E. right. unfold steep. apply Qle_bool_iff, E. }
  intros t Ht. cbn in Ht. repeat (destruct Ht as [<-|Ht]); [..|destruct Ht];
    (split; [split; [|split]; (apply Hs; reflexivity) || (left; reflexivity)|split; intros (E & _); discriminate E]).
Qed.
