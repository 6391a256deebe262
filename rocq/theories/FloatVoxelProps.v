(** C63: the voxelizer in float64: range, nearness to the surface, the left edge of the grid. *)
From Coq Require Import ZArith Reals Qreals QArith Qround Qabs List Lia Lra Bool.
From stdpp Require Import base list gmap sets fin_sets.
From Flocq Require Import Core Relative IEEE754.BinarySingleNaN.
From Verif Require Import Base BaseLemmas BinvoxModel BinvoxSpec Geom VoxelizeModel VoxelizeSpec VoxelizeLine VoxelizeSlice VoxelizeFill VoxelizeProps VoxelizeAccuracy.
From Verif Require Import BinvoxDiceModel BinvoxDiceFloat FloatDice FloatMerge FloatMeshModel FloatMesh FloatMeshError FloatVoxelModel FloatVoxelFill FloatVoxelError.
Import ListNotations.
Open Scope R_scope.
#[local] Instance prec_gty : Prec_gt_0 prec := eq_refl.
#[local] Instance prec_lty : Prec_lt_emax prec emax := eq_refl.
#[local] Instance fexp_validy : Valid_exp fexp64 := fexp_correct prec emax prec_gty.

(** ** Specification *)

(** The point [r] of a triangle of the mesh, at the height of the middle of the layer of voxel [k] and
    at most half a voxel outside its square, up to rounding. *)
Definition near_surface (b : binvox float64) (mesh : list ftri) (L : Q) (k : key) : Prop :=
  exists t r, In t mesh /\ in_triangle (exact_tri t) r /\
    mid_height_within (slack b L) (read_exact b) k r /\ within ((1 # 2) + slack b L) (read_exact b) k r.

Section Scene2.
  Context (b : binvox float64) (mesh : list ftri) (L : Q) (Hs : scene b mesh L).
  Notation LR := (Q2R L).
  Notation V := (IZR (dim b) / B2R (Scale b)).
  Notation uL := (u * LR).

  Lemma slack_R : Q2R (slack b L) = 128 * (u * (LR * V)).
  Proof using Hs.
    unfold slack. rewrite !Q2R_mult, (vpmm_exact b mesh L Hs). replace (Q2R (1 # 2 ^ 46)) with (128 * u); [ring|].
    unfold u. simpl (bpow radix2 (-53)). unfold Q2R. cbn [Qnum Qden]. change (2 ^ 46)%positive with 70368744177664%positive. lra.
  Qed.

  (** A computed point [p] and the point [P] it stands for. *)
  Definition stands (c : R) (p : fvec) (P : qpt) : Prop :=
    is_finite (fx p) = true /\ Rabs (B2R (fx p) - Q2R (px P)) <= c * uL /\
    is_finite (fy p) = true /\ Rabs (B2R (fy p) - Q2R (py P)) <= c * uL /\
    Rabs (Q2R (px P)) <= LR /\ Rabs (Q2R (py P)) <= LR.

  Lemma lerp_bound (a c t : Q) : (0 <= t <= 1)%Q -> Rabs (Q2R a) <= LR -> Rabs (Q2R c) <= LR -> Rabs (Q2R (a + (c - a) * t)) <= LR.
  Proof using.
    intros [T0 T1] Ha Hc. apply Qle_Rle in T0, T1. rewrite Q2R_0 in T0. rewrite Q2R_1 in T1. rewrite Q2R_plus, Q2R_mult, Q2R_minus.
    apply Rabs_le_inv in Ha, Hc. apply Rabs_le. set (A := Q2R a) in *. set (C := Q2R c) in *. set (T := Q2R t) in *.
    replace (A + (C - A) * T) with (A * (1 - T) + C * T) by ring. split; nra.
  Qed.
  Lemma exact_bound p : pt_below L p -> Rabs (Q2R (px (exact_pt p))) <= LR /\ Rabs (Q2R (py (exact_pt p))) <= LR /\ Rabs (Q2R (pz (exact_pt p))) <= LR.
  Proof using.
    intros (X & Y & Z). apply (below_R L) in X as [_ X], Y as [_ Y], Z as [_ Z]. unfold exact_pt. cbn [px py pz fst snd]. rewrite <- !f_exact_val. auto.
  Qed.

  Lemma edge_stands v0 v1 z p : pt_below L v0 -> pt_below L v1 -> fin L 3 z -> f_intersectSegment v0 v1 z = Some p ->
    exists P, on_segment (exact_pt v0) (exact_pt v1) P /\ Rabs (Q2R (pz P) - B2R z) <= 16 * uL /\ stands 13 p P.
  Proof using Hs.
    intros H0 H1 Hz E. destruct (edge_cut b mesh L Hs v0 v1 z p H0 H1 Hz E) as (t & Ht & Ez & Fx & Ex & Fy & Ey). cbv zeta in *.
    exists (VoxelizeSpec.lerp (exact_pt v0) (exact_pt v1) t). split; [exists t; split; [exact Ht|reflexivity]|]. split; [exact Ez|].
    apply exact_bound in H0 as (X0 & Y0 & _), H1 as (X1 & Y1 & _). split; [exact Fx|]. split; [exact Ex|]. split; [exact Fy|]. split; [exact Ey|].
    split; apply lerp_bound; assumption.
  Qed.

  Lemma tri_cut t z p q : In t mesh -> fin L 3 z -> f_intersectTriZPlane t z = Some (p, q) ->
    exists P Q, on_edge (exact_tri t) P /\ on_edge (exact_tri t) Q /\
      Rabs (Q2R (pz P) - B2R z) <= 16 * uL /\ Rabs (Q2R (pz Q) - B2R z) <= 16 * uL /\ stands 13 p P /\ stands 13 q Q.
  Proof using Hs.
    intros Ht Hz E. pose proof Hs as (_ & _ & _ & _ & _ & _ & _ & _ & Hm). destruct (Hm t Ht) as (H1 & H2 & H3). clear Hm. unfold f_intersectTriZPlane in E.
    pose proof (edge_stands (fv1 t) (fv2 t) z) as E1. pose proof (edge_stands (fv2 t) (fv3 t) z) as E2. pose proof (edge_stands (fv3 t) (fv1 t) z) as E3.
    destruct (f_intersectSegment (fv1 t) (fv2 t) z) as [p1|], (f_intersectSegment (fv2 t) (fv3 t) z) as [p2|], (f_intersectSegment (fv3 t) (fv1 t) z) as [p3|];
      try discriminate E; injection E as <- <-.
    all: try (destruct (E1 p1 H1 H2 Hz eq_refl) as (P1 & A1 & B1 & C1)); try (destruct (E2 p2 H2 H3 Hz eq_refl) as (P2 & A2 & B2 & C2)); try (destruct (E3 p3 H3 H1 Hz eq_refl) as (P3 & A3 & B3 & C3)).
    - exists P1, P2. unfold on_edge. cbn [exact_tri tv1 tv2 tv3]. auto 10.
    - exists P1, P2. unfold on_edge. cbn [exact_tri tv1 tv2 tv3]. auto 10.
    - exists P1, P3. unfold on_edge. cbn [exact_tri tv1 tv2 tv3]. auto 10.
    - exists P2, P3. unfold on_edge. cbn [exact_tri tv1 tv2 tv3]. auto 10.
  Qed.

  Lemma grid_below : below L (TX b) /\ below L (TY b) /\ below L (TZ b).
  Proof using Hs. destruct Hs as (_ & _ & _ & _ & _ & H1 & H2 & H3 & _). auto. Qed.

  (** The cells of two computed points, and of the points between those they stand for. *)
  Lemma stands_cell c p P : 0 <= c <= 30 -> stands c p P ->
    exists X Y : Q, f_gridi (f_voxelsPerMM b) (fx p) (TX b) = Qfloor X /\ f_gridi (f_voxelsPerMM b) (fy p) (TY b) = Qfloor Y /\
      Rabs (Q2R X - V * (Q2R (px P) - B2R (TX b))) <= (c + 22) * (u * (LR * V)) /\
      Rabs (Q2R Y - V * (Q2R (py P) - B2R (TY b))) <= (c + 22) * (u * (LR * V)).
  Proof using Hs.
    intros Hc (Fx & Ex & Fy & Ey & Bx & By). destruct grid_below as (GX & GY & _).
    destruct (cell_err b mesh L Hs c (fx p) (TX b) _ Hc Fx Ex Bx GX) as (X & E1 & E2). destruct (cell_err b mesh L Hs c (fy p) (TY b) _ Hc Fy Ey By GY) as (Y & E3 & E4).
    exists X, Y. auto.
  Qed.

  Lemma mix_err (g1 g2 a1 a2 s e : R) : 0 <= s <= 1 -> Rabs (g1 - a1) <= e -> Rabs (g2 - a2) <= e -> Rabs ((g1 + (g2 - g1) * s) - (a1 + (a2 - a1) * s)) <= e.
  Proof using.
    intros Hs' H1 H2. replace (g1 + (g2 - g1) * s - (a1 + (a2 - a1) * s)) with ((g1 - a1) * (1 - s) + (g2 - a2) * s) by ring.
    apply Rabs_le_inv in H1, H2. apply Rabs_le. split; nra.
  Qed.

  (** From a bound in cells to a bound in the exact grid. *)
  Lemma within_R (m : Q) (x : Z) (p o : Q) :
    (inject_Z x - m <= vpmm (read_exact b) * (p - o) <= inject_Z x + 1 + m)%Q <->
    IZR x - Q2R m <= V * (Q2R p - Q2R o) <= IZR x + 1 + Q2R m.
  Proof using Hs.
    pose proof (vpmm_exact b mesh L Hs) as EV. split.
    - intros [A B]. apply Qle_Rle in A, B. rewrite Q2R_minus, Q2R_mult, Q2R_minus, Q2R_Z, EV in A. rewrite Q2R_mult, Q2R_minus, !Q2R_plus, Q2R_Z, Q2R_1, EV in B. auto.
    - intros [A B]. split; apply Rle_Qle.
      + rewrite Q2R_minus, Q2R_mult, Q2R_minus, Q2R_Z, EV. exact A.
      + rewrite Q2R_mult, Q2R_minus, !Q2R_plus, Q2R_Z, Q2R_1, EV. exact B.
  Qed.

  Lemma slack_nonneg : 0 <= u * (LR * V).
  Proof using Hs. pose proof u_small. pose proof (LV_range b mesh L Hs) as [H0 _]. nra. Qed.

  Lemma f_outline_near zi t x y : (0 <= zi < NZ b)%Z -> In t mesh -> In (x, y) (f_outline b zi t) -> near_surface b mesh L (x, y, zi).
  Proof using Hs.
    intros Hzi Ht Hin. unfold f_outline in Hin. destruct (f_intersectTriZPlane t (f_slice_z b zi)) as [[p q]|] eqn:E; [|destruct Hin].
    destruct (slice_height b mesh L Hs zi Hzi) as [Fz Ez].
    destruct (tri_cut t _ p q Ht Fz E) as (P & Q & OP & OQ & ZP & ZQ & SP & SQ). unfold f_pair_points in Hin. cbn [fst snd] in Hin.
    destruct (stands_cell 13 p P ltac:(lra) SP) as (X1 & Y1 & EX1 & EY1 & AX1 & AY1). destruct (stands_cell 13 q Q ltac:(lra) SQ) as (X2 & Y2 & EX2 & EY2 & AX2 & AY2).
    rewrite EX1, EY1, EX2, EY2 in Hin. apply pixel_near in Hin as (s & Hs' & Hx & Hy).
    exists t, (VoxelizeSpec.lerp P Q s). split; [exact Ht|].
    assert (On : on_segment P Q (VoxelizeSpec.lerp P Q s)) by (exists s; split; [exact Hs'|reflexivity]).
    split; [apply (segment_in_triangle _ P Q); assumption|].
    assert (S01 : 0 <= Q2R s <= 1). { destruct Hs' as [A B]. apply Qle_Rle in A, B. rewrite Q2R_0 in A. rewrite Q2R_1 in B. auto. }
    pose proof (vpmm_exact b mesh L Hs) as EV. pose proof slack_R as SR. pose proof slack_nonneg as SN. pose proof (V_posx b mesh L Hs) as VP. split.
    - unfold mid_height_within, VoxelizeSpec.lerp. cbn [pz kz snd].
      assert (M : Rabs (Q2R (vpmm (read_exact b) * (pz P + (pz Q - pz P) * s - TZ (read_exact b))) - (IZR zi + / 2)) <= 52 * (u * (LR * V))).
      { cbn [TZ read_exact]. rewrite Q2R_mult, EV, Q2R_minus, Q2R_plus, Q2R_mult, Q2R_minus, <- f_exact_val.
        pose proof (mix_err _ _ _ _ (Q2R s) _ S01 ZP ZQ) as M. set (W := Q2R (pz P) + (Q2R (pz Q) - Q2R (pz P)) * Q2R s) in *. set (z := B2R (f_slice_z b zi)) in *.
        replace (z + (z - z) * Q2R s) with z in M by ring.
        replace (V * (W - B2R (TZ b)) - (IZR zi + / 2)) with (V * ((W - z) + (z - (B2R (TZ b) + (IZR zi + / 2) / V)))).
        2: { pose proof (scale_posx b mesh L Hs). pose proof (dim_posx b mesh L Hs). field. split; lra. }
        rewrite Rabs_mult, (Rabs_pos_eq V) by lra. replace (52 * (u * (LR * V))) with (V * (52 * uL)) by ring. apply Rmult_le_compat_l; [lra|].
        eapply Rle_trans; [apply Rabs_triang|]. lra. }
      apply Rabs_le_inv in M. split; apply Rle_Qle; rewrite ?Q2R_minus, ?Q2R_plus, Q2R_half, Q2R_Z, SR; unfold Rminus in M; rewrite ?Q2R_plus in *; lra.
    - unfold within, kx, ky, VoxelizeSpec.lerp. cbn [px py fst snd TX TY read_exact]. rewrite !within_R, Q2R_plus, Q2R_half, SR, !Q2R_plus, !Q2R_mult, !Q2R_minus, <- !f_exact_val.
      pose proof (mix_err _ _ _ _ (Q2R s) _ S01 AX1 AX2) as MX. pose proof (mix_err _ _ _ _ (Q2R s) _ S01 AY1 AY2) as MY.
      destruct Hx as [Hx1 Hx2], Hy as [Hy1 Hy2]. apply Qle_Rle in Hx1, Hx2, Hy1, Hy2.
      rewrite Q2R_plus, Q2R_mult, Q2R_minus in Hx1, Hx2, Hy1, Hy2. rewrite !Q2R_minus, Q2R_half, Q2R_Z in Hx1, Hy1. rewrite !Q2R_plus, Q2R_half, Q2R_Z, Q2R_1 in Hx2, Hy2.
      apply Rabs_le_inv in MX, MY.
      replace (V * (Q2R (px P) + (Q2R (px Q) - Q2R (px P)) * Q2R s - B2R (TX b))) with
        (V * (Q2R (px P) - B2R (TX b)) + (V * (Q2R (px Q) - B2R (TX b)) - V * (Q2R (px P) - B2R (TX b))) * Q2R s) by ring.
      replace (V * (Q2R (py P) + (Q2R (py Q) - Q2R (py P)) * Q2R s - B2R (TY b))) with
        (V * (Q2R (py P) - B2R (TY b)) + (V * (Q2R (py Q) - B2R (TY b)) - V * (Q2R (py P) - B2R (TY b))) * Q2R s) by ring.
      split; split; lra.
  Qed.
End Scene2.

(** ** Theorems *)

Lemma zero_dim_iff (b : binvox float64) : f_zero_dim b = true <-> (NX b = 0 \/ NY b = 0 \/ NZ b = 0)%Z.
Proof. unfold f_zero_dim. rewrite !orb_true_iff, !Z.eqb_eq. tauto. Qed.

(** Whatever the numbers are, infinities and NaN included: an error exactly when a dimension is zero,
    and every voxel in the grid but for x below zero. *)
Theorem C63_range b mesh :
  match f_Voxelize b mesh with
  | inl _ => (NX b = 0 \/ NY b = 0 \/ NZ b = 0)%Z
  | inr v => NX b <> 0%Z /\ NY b <> 0%Z /\ NZ b <> 0%Z /\
             (NoDup (map faddr mesh) -> forall k, k ∈ v -> (kx k < NX b /\ 0 <= ky k < NY b /\ 0 <= kz k < NZ b)%Z)
  end.
Proof.
  pose proof (f_Voxelize_in b mesh) as Hin. destruct (f_zero_dim b) eqn:Hz.
  - unfold f_Voxelize. rewrite Hz. apply zero_dim_iff, Hz.
  - assert (Hz' : ~ (NX b = 0 \/ NY b = 0 \/ NZ b = 0)%Z) by (intros C; apply zero_dim_iff in C; congruence).
    destruct (f_Voxelize b mesh) as [e|v] eqn:E; [exfalso; unfold f_Voxelize in E; rewrite Hz in E; discriminate|].
    split; [tauto|]. split; [tauto|]. split; [tauto|]. intros Hn k Hk.
    apply (Hin eq_refl Hn k) in Hk as (H1 & _ & H2 & H3 & _). auto.
Qed.

(** Every voxel is within half a voxel of the surface, measured at the middle of its layer, or strictly
    between two such voxels of its row; up to 2^-46 of the size of the scene. *)
Theorem C63_voxels_near_surface b mesh L k : scene b mesh L -> NoDup (map faddr mesh) ->
  f_result_voxels (f_Voxelize b mesh) k ->
  near_surface b mesh L k \/ exists x1 x2, (x1 < kx k < x2)%Z /\ near_surface b mesh L (x1, ky k, kz k) /\ near_surface b mesh L (x2, ky k, kz k).
Proof.
  intros Hs Hn Hk. destruct (f_zero_dim b) eqn:Hz. { unfold f_Voxelize in Hk. rewrite Hz in Hk. destruct Hk. }
  apply (f_Voxelize_in b mesh Hz Hn) in Hk as (Hk0 & _ & Hy & Hx & Hk).
  assert (S : forall x y, f_shell b mesh (x, y, kz k) -> near_surface b mesh L (x, y, kz k)).
  { intros x y (t & Ht & Hin). apply (f_outline_near b mesh L Hs (kz k) t x y); assumption. }
  destruct Hk as [Hk|(H0 & (x1 & Hlt & Hb & _) & x2 & Hlt2 & Hs2)].
  - left. destruct k as [[x y] z]. apply S, Hk.
  - right. exists x1, x2. split; [lia|]. split; [|apply S, Hs2]. apply S. apply f_balance_shell. lia.
Qed.

Lemma Qmult_le_l_any (a x y : Q) : (0 <= a)%Q -> (x <= y)%Q -> (a * x <= a * y)%Q.
Proof. intros Ha H. rewrite !(Qmult_comm a). apply Qmult_le_compat_r; assumption. Qed.

(** A mesh with no vertex left of the grid gives no voxel left of x = -1 (while the slack is at most a
    voxel) ... *)
Theorem C63_left_edge b mesh L k : scene b mesh L -> (slack b L <= 1)%Q -> NoDup (map faddr mesh) ->
  (forall t v, In t mesh -> v = fv1 t \/ v = fv2 t \/ v = fv3 t -> (f_exact (TX b) <= f_exact (fx v))%Q) ->
  f_result_voxels (f_Voxelize b mesh) k -> (-1 <= kx k)%Z.
Proof.
  intros Hs Hsl Hn Hv Hk. destruct (f_zero_dim b) eqn:Hz. { unfold f_Voxelize in Hk. rewrite Hz in Hk. destruct Hk. }
  apply (f_Voxelize_in b mesh Hz Hn) in Hk as (Hk0 & _ & Hy & Hx & Hk). destruct Hk as [Hk|(H0 & _)]; [|lia].
  destruct Hk as (t & Ht & Hin). unfold f_outline in Hin. destruct (f_intersectTriZPlane t (f_slice_z b (kz k))) as [[p q]|] eqn:E; [|destruct Hin].
  destruct (slice_height b mesh L Hs (kz k) Hk0) as [Fz _]. destruct (tri_cut b mesh L Hs t _ p q Ht Fz E) as (P & Q & OP & OQ & _ & _ & SP & SQ).
  assert (C : forall p P, on_edge (exact_tri t) P -> stands L 13 p P -> (-1 <= f_gridi (f_voxelsPerMM b) (fx p) (TX b))%Z).
  { clear - Hs Hsl Hv Ht. intros p P OP SP. destruct (stands_cell b mesh L Hs 13 p P ltac:(lra) SP) as (X & _ & -> & _ & AX & _).
    assert (HP : B2R (TX b) <= Q2R (px P)).
    { apply edge_in_triangle in OP. destruct OP as (a1 & a2 & a3 & (A1 & A2 & A3 & A4) & EP). apply qpt_eq_iff in EP as (EP & _). cbn [comb3 px fst snd exact_tri tv1 tv2 tv3] in EP.
      pose proof (Hv t _ Ht (or_introl eq_refl)) as V1. pose proof (Hv t _ Ht (or_intror (or_introl eq_refl))) as V2. pose proof (Hv t _ Ht (or_intror (or_intror eq_refl))) as V3.
      unfold exact_pt in EP. cbn [px fst snd] in EP. rewrite !f_exact_val. apply Qle_Rle. rewrite EP.
      set (o := f_exact (TX b)) in *. set (w1 := f_exact (fx (fv1 t))) in *. set (w2 := f_exact (fx (fv2 t))) in *. set (w3 := f_exact (fx (fv3 t))) in *. clearbody o w1 w2 w3. clear - A1 A2 A3 A4 V1 V2 V3.
      assert (S : (o == a1 * o + a2 * o + a3 * o)%Q) by (transitivity ((a1 + a2 + a3) * o)%Q; [rewrite A4; ring|ring]). rewrite S.
      pose proof (Qmult_le_l_any a1 o w1 A1 V1). pose proof (Qmult_le_l_any a2 o w2 A2 V2). pose proof (Qmult_le_l_any a3 o w3 A3 V3).
      repeat apply Qplus_le_compat; assumption. }
    assert (SR : 128 * (u * (Q2R L * (IZR (dim b) / B2R (Scale b)))) <= 1). { rewrite <- (slack_R b mesh L Hs). apply Qle_Rle in Hsl. rewrite Q2R_1 in Hsl. exact Hsl. }
    pose proof (slack_nonneg b mesh L Hs) as SN. pose proof (V_posx b mesh L Hs) as VP. apply Rabs_le_inv in AX.
    assert (XX : -1 <= Q2R X). { assert (0 <= IZR (dim b) / B2R (Scale b) * (Q2R (px P) - B2R (TX b))) by (apply Rmult_le_pos; lra). lra. }
    rewrite Qfloor_Zfloor. apply Zfloor_lub. exact XX. }
  unfold f_pair_points in Hin. apply C27_in_box_and_near in Hin as (Bx & _). unfold zbetween in Bx. cbn [fst snd] in Bx.
  pose proof (C p P OP SP). pose proof (C q Q OQ SQ). lia.
Qed.

(** ... but x = -1 is possible, by rounding alone: the mesh of one triangle with corners (4.7, 1, 0),
    (0.1, 1, 0.5) and (4.7, 1, 1) is inside a grid of 10 x 10 x 10 voxels of 1 mm at (0.1, 0, 0), and
    has the voxel (-1, 1, 0): intersectSegment computes 4.7 + (0.1 - 4.7), which is less than 0.1. *)
Definition left_grid : binvox float64 := BinVOX 10 10 10 (fi 1 /f fi 10) (fi 0) (fi 0) (fi 10) None None.
Definition left_tri : ftri :=
  FTri 0 (fi 47 /f fi 10, fi 1, fi 0) (fi 1 /f fi 10, fi 1, f_half) (fi 47 /f fi 10, fi 1, fi 1) (fi 0, fi 1, fi 0).
Theorem C63_left_edge_refuted :
  (forall v, v = fv1 left_tri \/ v = fv2 left_tri \/ v = fv3 left_tri -> (f_exact (TX left_grid) <= f_exact (fx v))%Q) /\
  f_result_voxels (f_Voxelize left_grid [left_tri]) (-1, 1, 0)%Z.
Proof.
  split.
  - intros v [-> |[-> | ->]]; vm_compute; intros C; discriminate C.
  - vm_compute. reflexivity.
Qed.
Print Assumptions C63_left_edge_refuted.

(** The voxels are those of the fill specification, read off the outlines the slicer computes; and
    VoxelizeZ gives the layer that Voxelize does. *)
Theorem C63_fill b mesh k : f_zero_dim b = false -> NoDup (map faddr mesh) ->
  f_result_voxels (f_Voxelize b mesh) k <-> (0 <= kz k < NZ b)%Z /\ f_solid b mesh (kz k) k.
Proof. intros Hz Hn. apply f_Voxelize_in; assumption. Qed.

Theorem C63_layer b mesh zi k : NoDup (map faddr mesh) -> (0 <= zi < NZ b)%Z ->
  f_result_voxels (f_VoxelizeZ b mesh zi) k <-> f_result_voxels (f_Voxelize b mesh) k /\ kz k = zi.
Proof.
  intros Hn Hzi. destruct (f_zero_dim b) eqn:Hz; [unfold f_VoxelizeZ, f_Voxelize; rewrite Hz; cbn; tauto|].
  rewrite (f_VoxelizeZ_in b mesh zi Hz Hn), (f_Voxelize_in b mesh Hz Hn). split.
  - intros Hk. pose proof Hk as (E & _). rewrite E. auto.
  - intros ((_ & Hk) & <-). exact Hk.
Qed.
(** The fill specification counts a triangle as facing in exactly if the x component of its normal is
    below -epsilon, and as facing out exactly if it is above epsilon: rounding does not enter. *)
Theorem C63_facing t : is_finite (fx (fnorm t)) = true -> is_finite (fy (fnorm t)) = true -> is_finite (fz (fnorm t)) = true ->
  (f_facing_in t = true <-> (f_exact (fx (fnorm t)) < - f_exact f_epsilon)%Q) /\
  (f_facing_out t = true <-> (f_exact f_epsilon < f_exact (fx (fnorm t)))%Q).
Proof.
  intros F1 F2 F3. set (nx := fx (fnorm t)) in *. set (ny := fy (fnorm t)) in *. set (nz := fz (fnorm t)) in *.
  assert (M1 : B2R (fi (-1)) = -1) by (vm_compute; lra). assert (M0 : B2R (fi 0) = 0) by reflexivity.
  assert (Fm1 : is_finite (fi (-1)) = true) by reflexivity. assert (Fm0 : is_finite (fi 0) = true) by reflexivity.
  assert (Z0 : forall x, is_finite x = true -> B2R (x *f fi 0) = 0 /\ is_finite (x *f fi 0) = true).
  { intros x Fx. pose proof (mul_ok x (fi 0) Fx Fm0) as H. rewrite M0, Rmult_0_r, fl_0, Rabs_R0 in H. apply H. apply bpow_gt_0. }
  assert (Hn : fl (B2R nx * -1) = - B2R nx).
  { replace (B2R nx * -1) with (B2R (Bopp nx)) by (rewrite B2R_Bopp; ring). rewrite fl_id. apply B2R_Bopp. }
  assert (Lt : Rabs (- B2R nx) < bpow radix2 1024) by (rewrite Rabs_Ropp; apply abs_B2R_lt_emax).
  assert (A1 : B2R (nx *f fi (-1)) = - B2R nx /\ is_finite (nx *f fi (-1)) = true).
  { pose proof (mul_ok nx (fi (-1)) F1 Fm1) as H. rewrite M1, Hn in H. apply H, Lt. }
  assert (Hid : fl (- B2R nx + 0) = - B2R nx).
  { replace (- B2R nx + 0) with (B2R (Bopp nx)) by (rewrite B2R_Bopp; ring). rewrite fl_id. apply B2R_Bopp. }
  assert (A : forall y z, B2R y = - B2R nx -> is_finite y = true -> B2R z = 0 -> is_finite z = true -> B2R (y +f z) = - B2R nx /\ is_finite (y +f z) = true).
  { intros y z Ey Fy Ez Fz. pose proof (add_ok y z Fy Fz) as H. rewrite Ey, Ez, Hid in H. apply H, Lt. }
  assert (D : B2R (f_facing t) = - B2R nx /\ is_finite (f_facing t) = true).
  { unfold f_facing, v_dot. cbn [fx fy fz fst snd]. destruct A1 as [B1 G1]. destruct (Z0 ny F2) as [B2 G2]. destruct (Z0 nz F3) as [B3 G3].
    destruct (A _ _ B1 G1 B2 G2) as [B4 G4]. exact (A _ _ B4 G4 B3 G3). }
  destruct D as [D FD]. assert (Fe : is_finite f_epsilon = true) by reflexivity.
  unfold f_facing_in, f_facing_out. rewrite !f_lt_iff by (rewrite ?is_finite_Bopp; assumption). rewrite D, B2R_Bopp, !f_exact_val. split; split; intros H.
  - apply Rlt_Qlt. rewrite Q2R_opp. lra.
  - apply Qlt_Rlt in H. rewrite Q2R_opp in H. lra.
  - apply Rlt_Qlt. lra.
  - apply Qlt_Rlt in H. lra.
Qed.

Print Assumptions C63_voxels_near_surface.
