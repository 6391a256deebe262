(** C63: the voxelizer in float64. *)
From Coq Require Import ZArith Reals Qreals QArith Qround Qabs List Lia Lra Bool.
From stdpp Require Import base list gmap sets fin_sets.
From Flocq Require Import Core Relative IEEE754.BinarySingleNaN.
From Verif Require Import Base BaseLemmas BinvoxModel BinvoxSpec Geom VoxelizeModel VoxelizeSpec VoxelizeLine VoxelizeSlice VoxelizeFill VoxelizeProps VoxelizeAccuracy.
From Verif Require Import BinvoxDiceModel BinvoxDiceFloat FloatDice FloatMerge FloatMeshModel FloatMesh FloatMeshError FloatVoxelModel FloatVoxelFill.
Import ListNotations.
Open Scope R_scope.
#[local] Instance prec_gtx : Prec_gt_0 prec := eq_refl.
#[local] Instance prec_ltx : Prec_lt_emax prec emax := eq_refl.
#[local] Instance fexp_validx : Valid_exp fexp64 := fexp_correct prec emax prec_gtx.

(** ** Specification *)

(** The exact triangle that a triangle of float64s is ([f_exact]: the rational that a float64 is). *)
Definition exact_pt (p : fvec) : qpt := (f_exact (fx p), f_exact (fy p), f_exact (fz p)).
Definition exact_tri (t : ftri) : tri :=
  Tri (faddr t) (exact_pt (fv1 t)) (exact_pt (fv2 t)) (exact_pt (fv3 t)) (exact_pt (fnorm t)).

Definition below (L : Q) (x : float64) : Prop := is_finite x = true /\ (Qabs (f_exact x) <= L)%Q.
Definition pt_below (L : Q) (p : fvec) : Prop := below L (fx p) /\ below L (fy p) /\ below L (fz p).

(** A grid and a mesh whose coordinates, in millimetres, are finite and at most [L], a length not less
    than the side of the grid and of at most 2^60 voxels. *)
Definition scene (b : binvox float64) (mesh : list ftri) (L : Q) : Prop :=
  (1 <= dim b <= 2 ^ 50)%Z /\
  is_finite (Scale b) = true /\ bpow radix2 (-300) <= B2R (Scale b) <= bpow radix2 300 /\ (f_exact (Scale b) <= L)%Q /\
  (L * vpmm (read_exact b) <= inject_Z (2 ^ 60))%Q /\
  below L (TX b) /\ below L (TY b) /\ below L (TZ b) /\
  (forall t, In t mesh -> pt_below L (fv1 t) /\ pt_below L (fv2 t) /\ pt_below L (fv3 t)).

(** What rounding can do, in voxels: 2^-46 of the length [L]. *)
Definition slack (b : binvox float64) (L : Q) : Q := ((1 # 2 ^ 46) * (L * vpmm (read_exact b)))%Q.

(** [r] is at the height of the middle of the layer of voxel [k], give or take [m] voxels. *)
Definition mid_height_within (m : Q) (b : binvox Q) (k : key) (r : qpt) : Prop :=
  (inject_Z (kz k) + (1 # 2) - m <= vpmm b * (pz r - TZ b) <= inject_Z (kz k) + (1 # 2) + m)%Q.

(** ** Reals and rationals *)
Lemma Q2R_Z n : Q2R (inject_Z n) = IZR n. Proof. unfold Q2R, inject_Z. cbn. field. Qed.
Lemma Q2R_half : Q2R (1 # 2) = / 2. Proof. unfold Q2R. cbn. field. Qed.
Lemma Q2R_1 : Q2R 1 = 1. Proof. unfold Q2R. cbn. field. Qed.
Lemma Q2R_0 : Q2R 0 = 0. Proof. unfold Q2R. cbn. field. Qed.
Lemma Q2R_abs q : Q2R (Qabs q) = Rabs (Q2R q).
Proof.
  apply Qabs_case; intros H; apply Qle_Rle in H; rewrite Q2R_0 in H.
  - rewrite Rabs_pos_eq; [reflexivity|exact H].
  - rewrite Rabs_left1, Q2R_opp; [reflexivity|exact H].
Qed.
Lemma Qfloor_Zfloor q : Qfloor q = Zfloor (Q2R q).
Proof.
  symmetry. apply Zfloor_imp. pose proof (Qfloor_le q) as H1. pose proof (Qlt_floor q) as H2.
  apply Qle_Rle in H1. apply Qlt_Rlt in H2. rewrite Q2R_Z in H1, H2. split; assumption.
Qed.

Lemma f_floor_correct x : is_finite x = true -> Rabs (B2R x) <= bpow radix2 62 -> f_floor x = Zfloor (B2R x).
Proof.
  intros F B. destruct x as [s|s| |s m e H]; try discriminate F.
  - cbn. symmetry. apply (Zfloor_IZR 0).
  - unfold f_floor. cbv zeta. set (n := if s then Z.neg m else Z.pos m).
    assert (E : (if (0 <=? e)%Z then (n * 2 ^ e)%Z else (n / 2 ^ (- e))%Z) = Zfloor (B2R (B754_finite s m e H))).
    { cbn [B2R]. replace (cond_Zopp s (Z.pos m)) with n by (destruct s; reflexivity). unfold F2R; cbn [Fnum Fexp].
      destruct (Z.leb_spec 0 e) as [He|He].
      - rewrite <- IZR_Zpower by lia. rewrite <- mult_IZR. rewrite Zfloor_IZR. reflexivity.
      - replace e with (- (- e))%Z at 2 by lia. rewrite bpow_opp. rewrite <- IZR_Zpower by lia. change (radix_val radix2) with 2%Z.
        change (IZR n * / IZR (2 ^ - e)) with (IZR n / IZR (2 ^ - e)).
        rewrite Zfloor_div by (pose proof (Z.pow_pos_nonneg 2 (- e)); lia). reflexivity. }
    rewrite E. apply Rabs_le_inv in B. set (y := B2R (B754_finite s m e H)) in *.
    assert (B1 : (- 2 ^ 62 <= Zfloor y)%Z). { apply Zfloor_lub. rewrite opp_IZR. change (IZR (2 ^ 62)) with (bpow radix2 62). lra. }
    assert (B2 : (Zfloor y <= 2 ^ 62)%Z). { rewrite <- (Zfloor_IZR (2 ^ 62)). apply Zfloor_le. change (IZR (2 ^ 62)) with (bpow radix2 62). lra. }
    destruct (Z.leb_spec (- 2 ^ 63) (Zfloor y)); [|lia]. destruct (Z.ltb_spec (Zfloor y) (2 ^ 63)); [reflexivity|lia].
Qed.

Lemma f_lt_iff x y : is_finite x = true -> is_finite y = true -> f_lt x y = true <-> B2R x < B2R y.
Proof.
  intros Fx Fy. unfold f_lt. rewrite Bcompare_correct by assumption.
  destruct (Rcompare_spec (B2R x) (B2R y)); split; intros; try lra; try discriminate; reflexivity.
Qed.
Lemma f_lt_false x y : is_finite x = true -> is_finite y = true -> f_lt x y = false <-> B2R y <= B2R x.
Proof.
  intros Fx Fy. rewrite <- not_true_iff_false, f_lt_iff by assumption. split; lra.
Qed.

(** ** The computed cut of an edge *)
Section Scene.
  Context (b : binvox float64) (mesh : list ftri) (L : Q) (Hs : scene b mesh L).
  Notation LR := (Q2R L).
  Notation V := (IZR (dim b) / B2R (Scale b)).

  Lemma scale_posx : 0 < B2R (Scale b).
  Proof using Hs. destruct Hs as (_ & _ & [H _] & _). pose proof (bpow_gt_0 radix2 (-300)). lra. Qed.
  Lemma dim_posx : 1 <= IZR (dim b). Proof using Hs. destruct Hs as [[H _] _]. apply (IZR_le 1). lia. Qed.
  Lemma V_posx : 0 < V.
  Proof using Hs. pose proof scale_posx. pose proof dim_posx. apply Rdiv_lt_0_compat; lra. Qed.
  Lemma vpmm_exact : Q2R (vpmm (read_exact b)) = V.
  Proof using Hs.
    pose proof scale_posx as P. unfold vpmm. cbn [Scale read_exact].
    assert (Hq : (0 < f_exact (Scale b))%Q) by (apply Rlt_Qlt; rewrite Q2R_0, <- f_exact_val; exact P).
    destruct (Qle_bool (f_exact (Scale b)) 0) eqn:E; [apply Qle_bool_iff in E; exfalso; apply (Qlt_not_le _ _ Hq E)|].
    rewrite Q2R_div by (intros C; rewrite C in Hq; apply (Qlt_irrefl _ Hq)). rewrite Q2R_Z, <- f_exact_val. reflexivity.
  Qed.
  Lemma L_scale : B2R (Scale b) <= LR.
  Proof using Hs. destruct Hs as (_ & _ & _ & H & _). apply Qle_Rle in H. rewrite <- f_exact_val in H. exact H. Qed.
  Lemma LV_range : 1 <= LR * V <= bpow radix2 60.
  Proof using Hs.
    pose proof scale_posx. pose proof dim_posx. pose proof L_scale. pose proof V_posx. split.
    - apply Rle_trans with (B2R (Scale b) * V); [|apply Rmult_le_compat_r; lra]. replace (B2R (Scale b) * V) with (IZR (dim b)) by (field; lra). lra.
    - destruct Hs as (_ & _ & _ & _ & H' & _). apply Qle_Rle in H'. rewrite Q2R_mult, vpmm_exact, Q2R_Z in H'. exact H'.
  Qed.
  Lemma L_lo : bpow radix2 (-300) <= LR.
  Proof using Hs. pose proof L_scale. destruct Hs as (_ & _ & [S _] & _). lra. Qed.
  Lemma L_pos : 0 < LR. Proof using Hs. pose proof L_lo. pose proof (bpow_gt_0 radix2 (-300)). lra. Qed.
  Lemma L_small : bpow radix2 (-1022) <= LR.
  Proof using Hs. apply Rle_trans with (2 := L_lo). apply bpow_le. lia. Qed.
  Lemma L_hi : LR <= bpow radix2 360.
  Proof using Hs.
    pose proof LV_range as [_ H]. pose proof V_posx. pose proof L_pos. pose proof dim_posx. pose proof scale_posx.
    assert (E : LR = (LR * V) * (B2R (Scale b) / IZR (dim b))) by (field; lra). rewrite E. change 360%Z with (60 + 300)%Z. rewrite bpow_plus.
    apply Rmult_le_compat; [nra| |exact H|].
    - apply Rlt_le, Rdiv_lt_0_compat; lra.
    - destruct Hs as (_ & _ & [_ S] & _). apply Rle_trans with (B2R (Scale b)); [|exact S]. unfold Rdiv.
      rewrite <- (Rmult_1_r (B2R (Scale b))) at 2. apply Rmult_le_compat_l; [lra|]. rewrite <- Rinv_1. apply Rinv_le_contravar; lra.
  Qed.

  Lemma below_R x : below L x -> is_finite x = true /\ Rabs (B2R x) <= LR.
  Proof using. intros [F H]. split; [exact F|]. apply Qle_Rle in H. rewrite Q2R_abs, <- f_exact_val in H. exact H. Qed.

  (** Operations on numbers of at most [c] times [L]. *)
  Definition fin (c : R) (x : float64) : Prop := is_finite x = true /\ Rabs (B2R x) <= c * LR.

  Lemma flL x : Rabs (fl x - x) <= u * (Rabs x + LR). Proof using Hs. apply fl_err, L_small. Qed.
  Lemma no_ovf x c : 0 <= c <= 100 -> Rabs x <= c * LR -> Rabs (fl x) < bpow radix2 1024.
  Proof using Hs.
    intros Hc H. apply fl_abs_lt with 370%Z; [lia|]. apply Rle_trans with (1 := H). pose proof L_hi. pose proof L_pos.
    change 370%Z with (360 + 10)%Z. rewrite bpow_plus. simpl (bpow radix2 10). nra.
  Qed.
  Lemma sub_c x y c d : 0 <= c <= 10 -> 0 <= d <= 10 -> fin c x -> fin d y ->
    fin (c + d + 1) (x -f y) /\ Rabs (B2R (x -f y) - (B2R x - B2R y)) <= (c + d + 1) * (u * LR) /\ B2R (x -f y) = fl (B2R x - B2R y).
  Proof using Hs.
    intros Hc Hd [Fx Bx] [Fy By]. pose proof L_pos as P. pose proof u_small as U.
    assert (B : Rabs (B2R x - B2R y) <= (c + d) * LR). { unfold Rminus. eapply Rle_trans; [apply Rabs_triang|]. rewrite Rabs_Ropp. lra. }
    destruct (sub_ok x y Fx Fy) as [E F]. { apply (no_ovf _ (c + d)); [lra|exact B]. }
    pose proof (flL (B2R x - B2R y)) as Er. rewrite <- E in Er.
    assert (Er' : Rabs (B2R (x -f y) - (B2R x - B2R y)) <= (c + d + 1) * (u * LR)) by nra.
    split; [split; [exact F|]|split; [exact Er'|exact E]].
    replace (B2R (x -f y)) with ((B2R x - B2R y) + (B2R (x -f y) - (B2R x - B2R y))) by ring. eapply Rle_trans; [apply Rabs_triang|].
    assert (u * LR * 100 <= LR) by nra. nra.
  Qed.
  Lemma add_c x y c d : 0 <= c <= 10 -> 0 <= d <= 10 -> fin c x -> fin d y ->
    fin (c + d + 1) (x +f y) /\ Rabs (B2R (x +f y) - (B2R x + B2R y)) <= (c + d + 1) * (u * LR) /\ B2R (x +f y) = fl (B2R x + B2R y).
  Proof using Hs.
    intros Hc Hd [Fx Bx] [Fy By]. pose proof L_pos as P. pose proof u_small as U.
    assert (B : Rabs (B2R x + B2R y) <= (c + d) * LR). { eapply Rle_trans; [apply Rabs_triang|]. lra. }
    destruct (add_ok x y Fx Fy) as [E F]. { apply (no_ovf _ (c + d)); [lra|exact B]. }
    pose proof (flL (B2R x + B2R y)) as Er. rewrite <- E in Er.
    assert (Er' : Rabs (B2R (x +f y) - (B2R x + B2R y)) <= (c + d + 1) * (u * LR)) by nra.
    split; [split; [exact F|]|split; [exact Er'|exact E]].
    replace (B2R (x +f y)) with ((B2R x + B2R y) + (B2R (x +f y) - (B2R x + B2R y))) by ring. eapply Rle_trans; [apply Rabs_triang|].
    assert (u * LR * 100 <= LR) by nra. nra.
  Qed.
  (** Multiplication by a number of [0, 1]. *)
  Lemma mul_c x t c : 0 <= c <= 10 -> fin c x -> is_finite t = true -> 0 <= B2R t <= 1 ->
    fin (c + 1) (x *f t) /\ Rabs (B2R (x *f t) - B2R x * B2R t) <= (c + 1) * (u * LR).
  Proof using Hs.
    intros Hc [Fx Bx] Ft Ht. pose proof L_pos as P. pose proof u_small as U.
    assert (B : Rabs (B2R x * B2R t) <= c * LR). { rewrite Rabs_mult, (Rabs_pos_eq (B2R t)) by lra. pose proof (Rabs_pos (B2R x)). nra. }
    destruct (mul_ok x t Fx Ft) as [E F]. { apply (no_ovf _ c); [lra|exact B]. }
    pose proof (flL (B2R x * B2R t)) as Er. rewrite <- E in Er.
    assert (Er' : Rabs (B2R (x *f t) - B2R x * B2R t) <= (c + 1) * (u * LR)) by nra.
    split; [split; [exact F|]|exact Er'].
    replace (B2R (x *f t)) with (B2R x * B2R t + (B2R (x *f t) - B2R x * B2R t)) by ring. eapply Rle_trans; [apply Rabs_triang|].
    assert (u * LR * 100 <= LR) by nra. nra.
  Qed.

  (** The products with (0, 0, 1) and (0, 0, -1). *)
  Lemma mul_0 x : is_finite x = true -> B2R (fi 0 *f x) = 0 /\ is_finite (fi 0 *f x) = true.
  Proof using.
    intros F. destruct (fi_val 0) as [E0 F0]; [lia|]. destruct (mul_ok (fi 0) x F0 F) as [E F'].
    { rewrite E0, Rmult_0_l, round_0 by typeclasses eauto. rewrite Rabs_R0. apply bpow_gt_0. }
    rewrite E0, Rmult_0_l, round_0 in E by typeclasses eauto. auto.
  Qed.
  Lemma dot_z (s : Z) w : s = 1%Z \/ s = (-1)%Z -> is_finite (fx w) = true -> is_finite (fy w) = true -> is_finite (fz w) = true ->
    B2R (v_dot (fi 0, fi 0, fi s) w) = IZR s * B2R (fz w) /\ is_finite (v_dot (fi 0, fi 0, fi s) w) = true.
  Proof using.
    intros Hsgn Fx Fy Fz. unfold v_dot. cbn [fx fy fz fst snd].
    destruct (mul_0 _ Fx) as [E1 F1]. destruct (mul_0 _ Fy) as [E2 F2]. destruct (fi_val s) as [Es Fs]; [lia|].
    destruct (add_ok _ _ F1 F2) as [E3 F3]. { rewrite E1, E2, Rplus_0_l, round_0 by typeclasses eauto. rewrite Rabs_R0. apply bpow_gt_0. }
    rewrite E1, E2, Rplus_0_l, round_0 in E3 by typeclasses eauto.
    assert (G : fl (IZR s * B2R (fz w)) = IZR s * B2R (fz w)).
    { destruct Hsgn as [-> | ->].
      - rewrite Rmult_1_l. apply fl_id.
      - replace (IZR (-1) * B2R (fz w)) with (- B2R (fz w)) by (simpl; ring). rewrite round_NE_opp. rewrite fl_id. reflexivity. }
    assert (Bz : Rabs (IZR s * B2R (fz w)) < bpow radix2 1024).
    { rewrite Rabs_mult. replace (Rabs (IZR s)) with 1 by (destruct Hsgn as [-> | ->]; unfold Rabs; destruct (Rcase_abs _); lra). rewrite Rmult_1_l. apply abs_B2R_lt_emax. }
    destruct (mul_ok (fi s) (fz w) Fs Fz) as [E4 F4]. { rewrite Es, G. exact Bz. } rewrite Es, G in E4.
    destruct (add_ok _ _ F3 F4) as [E5 F5]. { rewrite E3, E4, Rplus_0_l, G. exact Bz. } rewrite E3, E4, Rplus_0_l, G in E5. auto.
  Qed.

  Lemma fin_below x : below L x -> fin 1 x.
  Proof using. intros H. destruct (below_R x H) as [F B]. split; [exact F|lra]. Qed.
  Lemma fin_le c d x : c <= d -> fin c x -> fin d x.
  Proof using Hs. intros H [F B]. pose proof L_pos. split; [exact F|nra]. Qed.

  (** The values intersectSegment tests and divides. *)
  Lemma seg_values v0 v1 z : pt_below L v0 -> pt_below L v1 -> fin 3 z ->
    let d := v_dot (fi 0, fi 0, fi 1) (v_sub v1 v0) in
    let n := v_dot (fi 0, fi 0, fi (-1)) (v_sub v0 (fi 0, fi 0, z)) in
    is_finite d = true /\ B2R d = fl (B2R (fz v1) - B2R (fz v0)) /\
    is_finite n = true /\ B2R n = fl (B2R z - B2R (fz v0)) /\
    fin 3 (fx (v_sub v1 v0)) /\ fin 3 (fy (v_sub v1 v0)).
  Proof using Hs.
    intros (X0 & Y0 & Z0) (X1 & Y1 & Z1) Hz. apply fin_below in X0, Y0, Z0, X1, Y1, Z1. cbv zeta.
    destruct (sub_c _ _ 1 1 ltac:(lra) ltac:(lra) X1 X0) as (SX & _). destruct (sub_c _ _ 1 1 ltac:(lra) ltac:(lra) Y1 Y0) as (SY & _).
    destruct (sub_c _ _ 1 1 ltac:(lra) ltac:(lra) Z1 Z0) as (SZ & _ & EZ).
    assert (F0 : fin 1 (fi 0)). { destruct (fi_val 0) as [E F]; [lia|]. split; [exact F|]. rewrite E, Rabs_R0. pose proof L_pos. lra. }
    destruct (sub_c _ _ 1 1 ltac:(lra) ltac:(lra) X0 F0) as (TX' & _). destruct (sub_c _ _ 1 1 ltac:(lra) ltac:(lra) Y0 F0) as (TY' & _).
    destruct (sub_c _ _ 1 3 ltac:(lra) ltac:(lra) Z0 Hz) as (TZ' & _ & EN).
    destruct (dot_z 1 (v_sub v1 v0) ltac:(auto) (proj1 SX) (proj1 SY) (proj1 SZ)) as [Ed Fd].
    destruct (dot_z (-1) (v_sub v0 (fi 0, fi 0, z)) ltac:(auto) (proj1 TX') (proj1 TY') (proj1 TZ')) as [En Fn].
    split; [exact Fd|]. split; [rewrite Ed, Rmult_1_l; exact EZ|]. split; [exact Fn|]. split.
    - rewrite En. change (B2R (fz (v_sub v0 (fi 0, fi 0, z)))) with (B2R (fz v0 -f z)). rewrite EN.
      replace (B2R z - B2R (fz v0)) with (- (B2R (fz v0) - B2R z)) by ring. rewrite round_NE_opp. simpl (IZR (-1)). ring.
    - replace 3 with (1 + 1 + 1) by ring. split; [exact SX|exact SY].
  Qed.

  Lemma eps_lo : / 2 * bpow radix2 (-30) <= B2R f_epsilon.
  Proof using.
    assert (E : B2SF f_epsilon = SpecFloat.S754_finite false 4835703278458517 (-82)) by (vm_compute; reflexivity).
    destruct f_epsilon as [s|s| |s m e Hb]; try discriminate E. injection E as -> -> ->. cbn [B2R]. unfold F2R. cbn [Fnum Fexp cond_Zopp].
    simpl (bpow radix2 (-30)). simpl (bpow radix2 (-82)). lra.
  Qed.

  (** An edge that is cut: the point computed is that of a point of the edge at about the height z. *)
  Lemma edge_cut v0 v1 z p : pt_below L v0 -> pt_below L v1 -> fin 3 z -> f_intersectSegment v0 v1 z = Some p ->
    exists t : Q, (0 <= t <= 1)%Q /\ let P := VoxelizeSpec.lerp (exact_pt v0) (exact_pt v1) t in
      Rabs (Q2R (pz P) - B2R z) <= 16 * (u * LR) /\
      is_finite (fx p) = true /\ Rabs (B2R (fx p) - Q2R (px P)) <= 13 * (u * LR) /\
      is_finite (fy p) = true /\ Rabs (B2R (fy p) - Q2R (py P)) <= 13 * (u * LR).
  Proof using Hs.
    intros H0 H1 Hz E. unfold f_intersectSegment in E. cbv zeta in E.
    destruct (seg_values v0 v1 z H0 H1 Hz) as (Fd & Ed & Fn & En & SX & SY). cbv zeta in Fd, Ed, Fn, En.
    set (d := v_dot (fi 0, fi 0, fi 1) (v_sub v1 v0)) in *. set (n := v_dot (fi 0, fi 0, fi (-1)) (v_sub v0 (fi 0, fi 0, z))) in *.
    destruct (f_lt (Bopp f_epsilon) d && f_lt d f_epsilon) eqn:Hg; [discriminate E|].
    destruct (f_lt (n /f d) (fi 0) || f_lt (fi 1) (n /f d)) eqn:Ht; [discriminate E|].
    injection E as <-. destruct eps_pos as [Fe Pe]. pose proof eps_lo as Le. pose proof L_pos as LP. pose proof u_small as U.
    (* the gate *)
    assert (Hd : B2R f_epsilon <= Rabs (B2R d)).
    { apply andb_false_iff in Hg as [Hg|Hg].
      - apply f_lt_false in Hg; [|rewrite is_finite_Bopp; exact Fe|exact Fd]. rewrite B2R_Bopp in Hg. rewrite Rabs_left1; lra.
      - apply f_lt_false in Hg; [|exact Fd|exact Fe]. rewrite Rabs_pos_eq; lra. }
    clear Hg. pose proof H0 as (X0 & Y0 & Z0). pose proof H1 as (X1 & Y1 & Z1). apply fin_below in X0, Y0, Z0, X1, Y1, Z1.
    set (z0 := B2R (fz v0)) in *. set (z1 := B2R (fz v1)) in *. set (zz := B2R z) in *.
    assert (BD : Rabs (z1 - z0) <= 2 * LR). { unfold Rminus. eapply Rle_trans; [apply Rabs_triang|]. rewrite Rabs_Ropp. unfold z0, z1. destruct Z0 as [_ Z0], Z1 as [_ Z1]. lra. }
    assert (BN : Rabs (zz - z0) <= 4 * LR). { unfold Rminus. eapply Rle_trans; [apply Rabs_triang|]. rewrite Rabs_Ropp. unfold z0, zz. destruct Z0 as [_ Z0], Hz as [_ Hz]. lra. }
    pose proof (flL (z1 - z0)) as ED. rewrite <- Ed in ED. pose proof (flL (zz - z0)) as EN. rewrite <- En in EN.
    assert (ED' : Rabs (B2R d - (z1 - z0)) <= 3 * (u * LR)) by nra. assert (EN' : Rabs (B2R n - (zz - z0)) <= 5 * (u * LR)) by nra.
    assert (uL : 1000 * (u * LR) <= LR) by nra. assert (uLp : 0 <= u * LR) by nra.
    assert (Bd : Rabs (B2R d) <= 3 * LR). { replace (B2R d) with ((z1 - z0) + (B2R d - (z1 - z0))) by ring. eapply Rle_trans; [apply Rabs_triang|lra]. }
    assert (Bn : Rabs (B2R n) <= 5 * LR). { replace (B2R n) with ((zz - z0) + (B2R n - (zz - z0))) by ring. eapply Rle_trans; [apply Rabs_triang|lra]. }
    assert (Dne : B2R d <> 0). { intros C. rewrite C, Rabs_R0 in Hd. lra. }
    (* the quotient *)
    assert (Bq : Rabs (B2R n / B2R d) <= bpow radix2 400).
    { unfold Rdiv. rewrite Rabs_mult, Rabs_inv. pose proof L_hi as LH.
      assert (I : / Rabs (B2R d) <= bpow radix2 31).
      { change (bpow radix2 31) with (bpow radix2 (- -31)). rewrite bpow_opp. apply Rinv_le_contravar; [apply bpow_gt_0|].
        apply Rle_trans with (2 := Hd). change (-31)%Z with (-1 + -30)%Z. rewrite bpow_plus. simpl (bpow radix2 (-1)). exact Le. }
      change 400%Z with ((360 + 9) + 31)%Z. rewrite bpow_plus. apply Rmult_le_compat; [apply Rabs_pos| |rewrite bpow_plus; simpl (bpow radix2 9); lra|exact I].
      left. apply Rinv_0_lt_compat. lra. }
    destruct (div_ok n d Fn Dne) as [Et Ft]. { apply fl_abs_lt with 400%Z; [lia|exact Bq]. }
    destruct (fi_val 0) as [E0 F0]; [lia|]. destruct (fi_val 1) as [E1 F1]; [lia|].
    apply orb_false_iff in Ht as [Ht0 Ht1]. apply f_lt_false in Ht0; [|exact Ft|exact F0]. apply f_lt_false in Ht1; [|exact F1|exact Ft].
    rewrite E0 in Ht0. rewrite E1 in Ht1. set (t := n /f d) in *.
    pose proof (fl_err (B2R n / B2R d) 1 ltac:(apply (bpow_le radix2 (-1022) 0); lia)) as Er. rewrite <- Et in Er.
    assert (Eq : Rabs (B2R d * B2R t - B2R n) <= 8 * (u * LR)).
    { replace (B2R d * B2R t - B2R n) with (B2R d * (B2R t - B2R n / B2R d)) by (field; exact Dne). rewrite Rabs_mult.
      apply Rle_trans with (Rabs (B2R d) * (u * (Rabs (B2R n / B2R d) + 1))). { apply Rmult_le_compat_l; [apply Rabs_pos|exact Er]. }
      replace (Rabs (B2R d) * (u * (Rabs (B2R n / B2R d) + 1))) with (u * (Rabs (B2R d * (B2R n / B2R d)) + Rabs (B2R d))) by (rewrite Rabs_mult; ring).
      replace (B2R d * (B2R n / B2R d)) with (B2R n) by (field; exact Dne). nra. }
    exists (f_exact t). split.
    { split; apply Rle_Qle; rewrite <- f_exact_val, ?Q2R_0, ?Q2R_1; assumption. }
    assert (EP : forall a c : float64, Q2R (f_exact a + (f_exact c - f_exact a) * f_exact t) = B2R a + (B2R c - B2R a) * B2R t).
    { intros a c. rewrite Q2R_plus, Q2R_mult, Q2R_minus, <- !f_exact_val. reflexivity. }
    cbv zeta. unfold VoxelizeSpec.lerp, exact_pt. cbn [px py pz fst snd]. rewrite !EP. fold z0 z1 zz.
    (* height *)
    split.
    { replace (z0 + (z1 - z0) * B2R t - zz) with (((z1 - z0) - B2R d) * B2R t + (B2R d * B2R t - B2R n) + (B2R n - (zz - z0))) by ring.
      eapply Rle_trans; [apply Rabs_triang|]. eapply Rle_trans; [apply Rplus_le_compat_r, Rabs_triang|].
      assert (Rabs ((z1 - z0 - B2R d) * B2R t) <= 3 * (u * LR)); [|lra].
      rewrite Rabs_mult, (Rabs_pos_eq (B2R t)) by lra. rewrite Rabs_minus_sym. pose proof (Rabs_pos (B2R d - (z1 - z0))). nra. }
    (* the coordinates *)
    assert (CO : forall a c : float64, fin 1 a -> fin 1 c ->
      is_finite (a +f (c -f a) *f t) = true /\ Rabs (B2R (a +f (c -f a) *f t) - (B2R a + (B2R c - B2R a) * B2R t)) <= 13 * (u * LR)).
    { intros a c Ha Hc. destruct (sub_c c a 1 1 ltac:(lra) ltac:(lra) Hc Ha) as (S1 & S2 & _).
      destruct (mul_c (c -f a) t (1 + 1 + 1) ltac:(lra) S1 Ft ltac:(lra)) as (M1 & M2).
      destruct (add_c a ((c -f a) *f t) 1 (1 + 1 + 1 + 1) ltac:(lra) ltac:(lra) Ha M1) as (A1 & A2 & _).
      split; [apply A1|].
      replace (B2R (a +f (c -f a) *f t) - (B2R a + (B2R c - B2R a) * B2R t)) with
        ((B2R (a +f (c -f a) *f t) - (B2R a + B2R ((c -f a) *f t))) + (B2R ((c -f a) *f t) - B2R (c -f a) * B2R t) + (B2R (c -f a) - (B2R c - B2R a)) * B2R t) by ring.
      eapply Rle_trans; [apply Rabs_triang|]. eapply Rle_trans; [apply Rplus_le_compat_r, Rabs_triang|].
      assert (Rabs ((B2R (c -f a) - (B2R c - B2R a)) * B2R t) <= 3 * (u * LR)); [|lra].
      rewrite Rabs_mult, (Rabs_pos_eq (B2R t)) by lra. pose proof (Rabs_pos (B2R (c -f a) - (B2R c - B2R a))). nra. }
    destruct (CO _ _ X0 X1) as [CX1 CX2]. destruct (CO _ _ Y0 Y1) as [CY1 CY2].
    split; [exact CX1|]. split; [exact CX2|]. split; [exact CY1|exact CY2].
  Qed.

  (** ** The cell of a coordinate *)
  Lemma vpmm_val : is_finite (f_voxelsPerMM b) = true /\ Rabs (B2R (f_voxelsPerMM b) - V) <= 4 * u * V.
  Proof using Hs.
    pose proof scale_posx as P. destruct Hs as (Hd & Fs & Hr & _).
    destruct (vpmm_rel (dim b) (Scale b) Hd (conj Fs Hr)) as [F (e & He & E)].
    assert (f_voxelsPerMM b = f_vpmm (dim b) (Scale b)) as ->.
    { unfold f_voxelsPerMM. destruct (fi_val 0) as [E0 F0]; [lia|]. rewrite Bcompare_correct by assumption. rewrite E0, Rcompare_Gt by exact P. reflexivity. }
    split; [exact F|]. rewrite E. replace (V * (1 + e) - V) with (e * V) by ring. rewrite Rabs_mult. pose proof V_posx. rewrite (Rabs_pos_eq V) by lra. nra.
  Qed.

  Lemma cell_err c p o P : 0 <= c <= 30 -> is_finite p = true -> Rabs (B2R p - P) <= c * (u * LR) -> Rabs P <= LR -> below L o ->
    exists G : Q, f_gridi (f_voxelsPerMM b) p o = Qfloor G /\ Rabs (Q2R G - V * (P - B2R o)) <= (c + 22) * (u * (LR * V)).
  Proof using Hs.
    intros Hc Fp Ep BP Ho. apply fin_below in Ho. pose proof L_pos as LP. pose proof u_small as U. pose proof V_posx as VP. pose proof LV_range as [LV1 LV2].
    assert (uL : 1000 * (u * LR) <= LR) by nra. assert (uLp : 0 <= u * LR) by nra.
    assert (Hp : fin 2 p). { split; [exact Fp|]. replace (B2R p) with (P + (B2R p - P)) by ring. eapply Rle_trans; [apply Rabs_triang|]. nra. }
    destruct (sub_c p o 2 1 ltac:(lra) ltac:(lra) Hp Ho) as (S1 & S2 & _). set (q := p -f o) in *.
    destruct vpmm_val as [Fv Ev]. set (v := f_voxelsPerMM b) in *.
    assert (E1 : Rabs (B2R q - (P - B2R o)) <= (c + 4) * (u * LR)).
    { replace (B2R q - (P - B2R o)) with ((B2R q - (B2R p - B2R o)) + (B2R p - P)) by ring. eapply Rle_trans; [apply Rabs_triang|]. lra. }
    assert (Bo : Rabs (P - B2R o) <= 2 * LR). { unfold Rminus. eapply Rle_trans; [apply Rabs_triang|]. rewrite Rabs_Ropp. destruct Ho as [_ Ho]. lra. }
    assert (Bq : Rabs (B2R q) <= 3 * LR). { replace (B2R q) with ((P - B2R o) + (B2R q - (P - B2R o))) by ring. eapply Rle_trans; [apply Rabs_triang|]. nra. }
    assert (Bv : Rabs (B2R v) <= 11 / 10 * V). { replace (B2R v) with (V + (B2R v - V)) by ring. eapply Rle_trans; [apply Rabs_triang|]. rewrite (Rabs_pos_eq V) by lra. nra. }
    assert (E2 : Rabs (B2R v * B2R q - V * (P - B2R o)) <= (c + 16) * (u * (LR * V))).
    { replace (B2R v * B2R q - V * (P - B2R o)) with ((B2R v - V) * B2R q + V * (B2R q - (P - B2R o))) by ring.
      eapply Rle_trans; [apply Rabs_triang|]. rewrite !Rabs_mult, (Rabs_pos_eq V) by lra.
      assert (T1 : Rabs (B2R v - V) * Rabs (B2R q) <= (4 * u * V) * (3 * LR)) by (apply Rmult_le_compat; try apply Rabs_pos; assumption).
      assert (T2 : V * Rabs (B2R q - (P - B2R o)) <= V * ((c + 4) * (u * LR))) by (apply Rmult_le_compat_l; [lra|exact E1]).
      replace ((c + 16) * (u * (LR * V))) with ((4 * u * V) * (3 * LR) + V * ((c + 4) * (u * LR))) by ring. lra. }
    assert (B3 : Rabs (B2R v * B2R q) <= 33 / 10 * (LR * V)).
    { rewrite Rabs_mult. replace (33 / 10 * (LR * V)) with ((11 / 10 * V) * (3 * LR)) by (generalize V; intros; field). apply Rmult_le_compat; try apply Rabs_pos; assumption. }
    assert (B4 : Rabs (B2R v * B2R q) <= bpow radix2 62). { change 62%Z with (60 + 2)%Z. rewrite bpow_plus. simpl (bpow radix2 2). lra. }
    destruct (mul_ok v q Fv (proj1 S1)) as [Em Fm]. { apply fl_abs_lt with 62%Z; [lia|exact B4]. }
    pose proof (fl_err (B2R v * B2R q) (LR * V) ltac:(apply Rle_trans with (2 := LV1); apply (bpow_le radix2 (-1022) 0); lia)) as Er. rewrite <- Em in Er.
    exists (f_exact (v *f q)). split.
    - unfold f_gridi. fold q. rewrite f_floor_correct, Qfloor_Zfloor, <- f_exact_val; [reflexivity|exact Fm|]. rewrite Em. apply fl_abs_le; [lia|exact B4].
    - rewrite <- f_exact_val. replace (B2R (v *f q) - V * (P - B2R o)) with ((B2R (v *f q) - B2R v * B2R q) + (B2R v * B2R q - V * (P - B2R o))) by ring.
      eapply Rle_trans; [apply Rabs_triang|]. assert (0 <= u * (LR * V)) by nra. nra.
  Qed.

  (** ** The height of a slice *)
  Lemma slice_height zi : (0 <= zi < NZ b)%Z ->
    fin 3 (f_slice_z b zi) /\ Rabs (B2R (f_slice_z b zi) - (B2R (TZ b) + (IZR zi + / 2) / V)) <= 36 * (u * LR).
  Proof using Hs.
    intros Hz. assert (HT : below L (TZ b)) by (destruct Hs as (_ & _ & _ & _ & _ & _ & _ & H & _); exact H). apply fin_below in HT as [FT BT].
    pose proof L_pos as LP. pose proof u_small as U. pose proof V_posx as VP. pose proof scale_posx as SP. pose proof dim_posx as DP. pose proof L_scale as LS.
    assert (uL : 1000 * (u * LR) <= LR) by nra.
    assert (Hzd : (zi < dim b)%Z) by (rewrite dim_max; lia). assert (Hd50 : (dim b <= 2 ^ 50)%Z) by (destruct Hs as [[_ H] _]; exact H).
    set (M := / V). assert (EM : M = B2R (Scale b) / IZR (dim b)) by (unfold M; field; lra). assert (MP : 0 < M) by (apply Rinv_0_lt_compat; exact VP).
    assert (MD : IZR (dim b) * M <= LR). { rewrite EM. replace (IZR (dim b) * (B2R (Scale b) / IZR (dim b))) with (B2R (Scale b)) by (field; lra). exact LS. }
    assert (ML : M <= LR) by nra.
    assert (Ms : bpow radix2 (-1022) <= M).
    { rewrite EM. destruct Hs as (_ & _ & [S1 _] & _). apply Rle_trans with (bpow radix2 (-300) * bpow radix2 (-50)).
      - rewrite <- bpow_plus. apply bpow_le. lia.
      - unfold Rdiv. apply Rmult_le_compat; [apply bpow_ge_0..|exact S1|]. change (-50)%Z with (- (50))%Z. rewrite bpow_opp. apply Rinv_le_contravar; [lra|].
        change (bpow radix2 50) with (IZR (2 ^ 50)). apply IZR_le, Hd50. }
    assert (Hmm : is_finite (fi 1 /f f_voxelsPerMM b) = true /\ Rabs (B2R (fi 1 /f f_voxelsPerMM b) - M) <= 8 * u * M).
    { destruct Hs as (Hd & Fs & Hr & _). destruct (mmpv_rel (dim b) (Scale b) Hd (conj Fs Hr)) as [F (e & He & E)].
      assert (f_voxelsPerMM b = f_vpmm (dim b) (Scale b)) as ->.
      { unfold f_voxelsPerMM. destruct (fi_val 0) as [E0 F0]; [lia|]. rewrite Bcompare_correct by assumption. rewrite E0, Rcompare_Gt by exact SP. reflexivity. }
      split; [exact F|]. change (fi 1 /f f_vpmm (dim b) (Scale b)) with (f_mmpv (dim b) (Scale b)). rewrite E. replace (1 / V) with M by (unfold M; field; lra).
      replace (M * (1 + e) - M) with (e * M) by ring. rewrite Rabs_mult, (Rabs_pos_eq M) by lra. nra. }
    destruct Hmm as [Fm Em]. set (m := fi 1 /f f_voxelsPerMM b) in *.
    destruct half_val as [Eh Fh]. destruct (fi_val zi) as [Ez Fz]; [lia|].
    assert (Hzp : 0 <= IZR zi) by (apply (IZR_le 0); lia). assert (Hz1 : IZR zi + 1 <= IZR (dim b)) by (rewrite <- (plus_IZR zi 1); apply IZR_le; lia).
    assert (BX : Rabs (IZR zi + / 2) <= bpow radix2 53).
    { rewrite Rabs_pos_eq by lra. assert (IZR (dim b) <= bpow radix2 50) by (change (bpow radix2 50) with (IZR (2 ^ 50)); apply IZR_le, Hd50).
      change 53%Z with (50 + 3)%Z. rewrite bpow_plus. simpl (bpow radix2 3). lra. }
    assert (EX : fl (/ 2 + IZR zi) = IZR zi + / 2). { rewrite Rplus_comm. apply fl_half_int. lia. }
    destruct (add_ok f_half (fi zi) Fh Fz) as [Ea Fa]. { rewrite Eh, Ez, EX. apply Rle_lt_trans with (1 := BX). apply bpow_lt. lia. }
    rewrite Eh, Ez, EX in Ea.
    assert (Bm : Rabs (B2R m) <= 2 * M). { replace (B2R m) with (M + (B2R m - M)) by ring. eapply Rle_trans; [apply Rabs_triang|]. rewrite (Rabs_pos_eq M) by lra. nra. }
    assert (XM : (IZR zi + / 2) * M <= LR) by nra.
    assert (BP : Rabs ((IZR zi + / 2) * B2R m) <= 2 * LR). { rewrite Rabs_mult, (Rabs_pos_eq (IZR zi + / 2)) by lra. nra. }
    destruct (mul_ok (f_half +f fi zi) m Fa Fm) as [Ep Fp]. { rewrite Ea. apply (no_ovf _ 2); [lra|exact BP]. } rewrite Ea in Ep.
    pose proof (flL ((IZR zi + / 2) * B2R m)) as Er. rewrite <- Ep in Er. set (p := (f_half +f fi zi) *f m) in *.
    assert (Bp : fin 4 p). { split; [exact Fp|]. replace (B2R p) with ((IZR zi + / 2) * B2R m + (B2R p - (IZR zi + / 2) * B2R m)) by ring. eapply Rle_trans; [apply Rabs_triang|]. nra. }
    destruct (add_c (TZ b) p 1 4 ltac:(lra) ltac:(lra) (conj FT BT) Bp) as ([Fs _] & _ & Es).
    pose proof (place_err M (B2R m) (IZR zi + / 2) (B2R (TZ b)) (3 * LR) Ms Em) as PE.
    assert (PE' : Rabs (B2R (f_slice_z b zi) - (B2R (TZ b) + (IZR zi + / 2) / V)) <= 36 * (u * LR)).
    { unfold f_slice_z. cbv zeta. fold m. fold p. rewrite Es, Ep. rewrite (Rplus_comm (B2R (TZ b)) (fl _)).
      replace (B2R (TZ b) + (IZR zi + / 2) / V) with ((IZR zi + / 2) * M + B2R (TZ b)) by (unfold M; field; lra).
      replace (36 * (u * LR)) with (12 * u * (3 * LR)) by ring. apply PE. rewrite (Rabs_pos_eq (IZR zi + / 2)) by lra. lra. }
    split; [|exact PE']. split; [exact Fs|].
    set (mid := B2R (TZ b) + (IZR zi + / 2) / V) in *.
    assert (Rabs mid <= 2 * LR). { unfold mid. eapply Rle_trans; [apply Rabs_triang|]. replace ((IZR zi + / 2) / V) with ((IZR zi + / 2) * M) by (unfold M; field; lra). rewrite (Rabs_pos_eq ((IZR zi + / 2) * M)) by nra. lra. }
    replace (B2R (f_slice_z b zi)) with (mid + (B2R (f_slice_z b zi) - mid)) by ring. eapply Rle_trans; [apply Rabs_triang|]. lra.
  Qed.
End Scene.
