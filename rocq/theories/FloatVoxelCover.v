(** C63: the voxelizer in float64 leaves no hole: the surface is covered. *)
From Coq Require Import ZArith Reals Qreals QArith Qround Qabs List Lia Lra Bool.
From stdpp Require Import base list gmap sets fin_sets.
From Flocq Require Import Core Relative IEEE754.BinarySingleNaN.
From Verif Require Import Base BaseLemmas BinvoxModel BinvoxSpec Geom VoxelizeModel VoxelizeSpec VoxelizeLine VoxelizeSlice VoxelizeFill VoxelizeProps VoxelizeAccuracy.
From Verif Require Import BinvoxDiceModel BinvoxDiceFloat FloatDice FloatMerge FloatMeshModel FloatMesh FloatMeshError FloatVoxelModel FloatVoxelFill FloatVoxelError FloatVoxelProps.
Import ListNotations.
Open Scope R_scope.
#[local] Instance prec_gtw : Prec_gt_0 prec := eq_refl.
#[local] Instance prec_ltw : Prec_lt_emax prec emax := eq_refl.
#[local] Instance fexp_validw : Valid_exp fexp64 := fexp_correct prec emax prec_gtw.

(** ** Specification *)

(** No vertex of the triangle is within the slack of the middle of layer [zi]. *)
Definition off_layer (b : binvox float64) (L : Q) (zi : Z) (t : ftri) : Prop :=
  forall v, v = fv1 t \/ v = fv2 t \/ v = fv3 t ->
    (slack b L <= Qabs (vpmm (read_exact b) * (f_exact (fz v) - f_exact (TZ b)) - (inject_Z zi + (1 # 2))))%Q.

(** The triangle is inside the grid, but for its lower x face, at the distance of the slack. *)
Definition inside_grid (b : binvox float64) (L : Q) (t : ftri) : Prop :=
  forall v, v = fv1 t \/ v = fv2 t \/ v = fv3 t ->
    (vpmm (read_exact b) * (f_exact (fx v) - f_exact (TX b)) <= inject_Z (NX b) - slack b L)%Q /\
    (slack b L <= vpmm (read_exact b) * (f_exact (fy v) - f_exact (TY b)) <= inject_Z (NY b) - slack b L)%Q.

Lemma eps_val : B2R f_epsilon = fl (Q2R epsilon).
Proof.
  assert (E : B2SF f_epsilon = B2SF (fi 1 /f fi 1000000000)) by (vm_compute; reflexivity). apply B2SF_inj in E. rewrite E. clear E.
  destruct (fi_val 1) as [E1 F1]; [lia|]. destruct (fi_val 1000000000) as [E2 F2]; [lia|].
  assert (EQ : Q2R epsilon = 1 / 1000000000) by (unfold Q2R, epsilon; cbn [Qnum Qden]; lra). rewrite EQ.
  destruct (div_ok (fi 1) (fi 1000000000) F1) as [E _].
  - rewrite E2. lra.
  - rewrite E1, E2. apply fl_abs_lt with 0%Z; [lia|]. simpl (bpow radix2 0). rewrite Rabs_pos_eq; lra.
  - rewrite E, E1, E2. reflexivity.
Qed.

Section Scene3.
  Context (b : binvox float64) (mesh : list ftri) (L : Q) (Hs : scene b mesh L).
  Notation LR := (Q2R L).
  Notation V := (IZR (dim b) / B2R (Scale b)).
  Notation uL := (u * LR).

  Lemma lerp_err (a c t : float64) : fin L 1 a -> fin L 1 c -> is_finite t = true -> 0 <= B2R t <= 1 ->
      is_finite (a +f (c -f a) *f t) = true /\ Rabs (B2R (a +f (c -f a) *f t) - (B2R a + (B2R c - B2R a) * B2R t)) <= 13 * uL.
  Proof using Hs.
    intros Ha Hc Ft Ht. destruct (sub_c b mesh L Hs c a 1 1 ltac:(lra) ltac:(lra) Hc Ha) as (S1 & S2 & _).
    destruct (mul_c b mesh L Hs (c -f a) t (1 + 1 + 1) ltac:(lra) S1 Ft ltac:(lra)) as (M1 & M2).
    destruct (add_c b mesh L Hs a ((c -f a) *f t) 1 (1 + 1 + 1 + 1) ltac:(lra) ltac:(lra) Ha M1) as (A1 & A2 & _).
    split; [apply A1|].
    replace (B2R (a +f (c -f a) *f t) - (B2R a + (B2R c - B2R a) * B2R t)) with
      ((B2R (a +f (c -f a) *f t) - (B2R a + B2R ((c -f a) *f t))) + (B2R ((c -f a) *f t) - B2R (c -f a) * B2R t) + (B2R (c -f a) - (B2R c - B2R a)) * B2R t) by ring.
    eapply Rle_trans; [apply Rabs_triang|]. eapply Rle_trans; [apply Rplus_le_compat_r, Rabs_triang|].
    assert (Rabs ((B2R (c -f a) - (B2R c - B2R a)) * B2R t) <= 3 * uL); [|lra].
    rewrite Rabs_mult, (Rabs_pos_eq (B2R t)) by lra. pose proof (Rabs_pos (B2R (c -f a) - (B2R c - B2R a))). nra.
  Qed.

  Lemma rel_opp a x y : rel a x y -> rel a (- x) (- y).
  Proof using. intros (e & He & ->). exists e. split; [exact He|ring]. Qed.

  Lemma fl_rel1 x : bpow radix2 (-1022) <= Rabs x -> rel 1 (fl x) x.
  Proof using.
    intros H. pose proof (fl_rel x H) as E. pose proof (bpow_gt_0 radix2 (-1022)). assert (x <> 0) by (intros ->; rewrite Rabs_R0 in H; lra).
    exists ((fl x - x) / x). split; [|field; assumption]. unfold Rdiv. rewrite Rabs_mult, Rabs_inv. apply Rmult_le_reg_r with (Rabs x); [lra|]. rewrite Rmult_assoc, Rinv_l by lra. lra.
  Qed.

  (** The quotient intersectSegment computes, for an edge that passes the gate. *)
  Lemma quot_rel (n d : float64) (N D : R) : is_finite n = true -> is_finite d = true -> B2R n = fl N -> B2R d = fl D ->
    92 * uL <= Rabs N <= 4 * LR -> bpow radix2 (-40) <= Rabs D <= 2 * LR ->
    is_finite (n /f d) = true /\ exists e, Rabs e <= 6 * u /\ B2R (n /f d) = N / D * (1 + e).
  Proof using Hs.
    intros Fn Fd En Ed [N1 N2] [D1 D2]. pose proof u_small as U. pose proof (L_pos b mesh L Hs) as LP. pose proof (L_lo b mesh L Hs) as LL. pose proof (L_hi b mesh L Hs) as LH.
    pose proof (bpow_gt_0 radix2 (-40)) as P40.
    assert (Dne : D <> 0) by (intros ->; rewrite Rabs_R0 in D1; lra).
    assert (Nne : N <> 0) by (intros ->; rewrite Rabs_R0 in N1; nra).
    assert (RN : rel 1 (fl N) N).
    { apply fl_rel1. apply Rle_trans with (2 := N1). unfold u. change (-1022)%Z with (-53 + -969)%Z. rewrite bpow_plus.
      assert (bpow radix2 (-969) <= LR) by (apply Rle_trans with (2 := LL); apply bpow_le; lia). pose proof (bpow_gt_0 radix2 (-53)). nra. }
    assert (RD : rel 1 (fl D) D). { apply fl_rel1. apply Rle_trans with (2 := D1). apply bpow_le. lia. }
    pose proof (rel_div 1 1 _ _ _ _ ltac:(lra) ltac:(lra) Dne RN RD) as RQ. rewrite <- En, <- Ed in RQ.
    assert (AD : 0 < Rabs D) by lra.
    assert (Q1 : 46 * u <= Rabs (N / D)).
    { unfold Rdiv. rewrite Rabs_mult, Rabs_inv. apply Rmult_le_reg_r with (Rabs D); [exact AD|]. rewrite (Rmult_assoc (Rabs N)), Rinv_l by lra. nra. }
    assert (Q2 : Rabs (N / D) <= bpow radix2 402).
    { unfold Rdiv. rewrite Rabs_mult, Rabs_inv. apply Rmult_le_reg_r with (Rabs D); [exact AD|]. rewrite (Rmult_assoc (Rabs N)), Rinv_l by lra.
      apply Rle_trans with (bpow radix2 402 * bpow radix2 (-40)); [|apply Rmult_le_compat_l; [apply bpow_ge_0|exact D1]].
      rewrite <- bpow_plus. change (402 + -40)%Z with (360 + 2)%Z. rewrite bpow_plus. simpl (bpow radix2 2). lra. }
    assert (Q3 : bpow radix2 (-900) <= 46 * u). { unfold u. pose proof (bpow_gt_0 radix2 (-53)). assert (bpow radix2 (-900) <= bpow radix2 (-53)) by (apply bpow_le; lia). lra. }
    assert (Q4 : bpow radix2 402 <= bpow radix2 900) by (apply bpow_le; lia).
    assert (dne : B2R d <> 0).
    { rewrite Ed. destruct RD as (e & He & ->). apply Rabs_le_inv in He. apply Rmult_integral_contrapositive. split; [exact Dne|lra]. }
    assert (R : rel 6 (fl (B2R n / B2R d)) (N / D) /\ Rabs (fl (B2R n / B2R d)) < bpow radix2 1024).
    { destruct (Rle_or_lt 0 (N / D)) as [C|C].
      - rewrite Rabs_pos_eq in Q1, Q2 by lra. destruct (rel_fl (1 + 1 + 2) _ _ ltac:(lra) (conj (Rle_trans _ _ _ Q3 Q1) (Rle_trans _ _ _ Q2 Q4)) RQ) as [R1 R2].
        split; [apply rel_weaken with (2 := R1); lra|exact R2].
      - rewrite Rabs_left in Q1, Q2 by lra. destruct (rel_fl (1 + 1 + 2) _ _ ltac:(lra) (conj (Rle_trans _ _ _ Q3 Q1) (Rle_trans _ _ _ Q2 Q4)) (rel_opp _ _ _ RQ)) as [R1 R2].
        rewrite round_NE_opp in R1, R2. rewrite Rabs_Ropp in R2. split; [|exact R2]. apply rel_opp in R1. rewrite !Ropp_involutive in R1. apply rel_weaken with (2 := R1). lra. }
    destruct R as [(e & He & R) R2]. destruct (div_ok n d Fn dne R2) as [Et Ft]. split; [exact Ft|]. exists e. split; [exact He|]. rewrite Et. exact R.
  Qed.

  (** Which side of the plane, with a margin. *)
  Definition clear_of (v : fvec) (z : float64) : Prop := 92 * uL <= Rabs (B2R (fz v) - B2R z).

  Lemma heights v0 v1 z : pt_below L v0 -> pt_below L v1 -> fin L 3 z -> Rabs (B2R (fz v1) - B2R (fz v0)) <= 2 * LR /\ Rabs (B2R z - B2R (fz v0)) <= 4 * LR.
  Proof using.
    intros (_ & _ & Z0) (_ & _ & Z1) [_ Hz]. apply (below_R L) in Z0 as [_ Z0], Z1 as [_ Z1]. split; unfold Rminus; (eapply Rle_trans; [apply Rabs_triang|]); rewrite Rabs_Ropp; lra.
  Qed.

  (** An edge with both ends on the same side is passed over. *)
  Lemma edge_miss v0 v1 z : pt_below L v0 -> pt_below L v1 -> fin L 3 z -> clear_of v0 z -> clear_of v1 z ->
    0 < (B2R (fz v0) - B2R z) * (B2R (fz v1) - B2R z) -> f_intersectSegment v0 v1 z = None.
  Proof using Hs.
    intros H0 H1 Hz C0 C1 Hside. unfold f_intersectSegment. cbv zeta.
    destruct (seg_values b mesh L Hs v0 v1 z H0 H1 Hz) as (Fd & Ed & Fn & En & _). cbv zeta in Fd, Ed, Fn, En.
    set (d := v_dot (fi 0, fi 0, fi 1) (v_sub v1 v0)) in *. set (n := v_dot (fi 0, fi 0, fi (-1)) (v_sub v0 (fi 0, fi 0, z))) in *.
    destruct (f_lt (Bopp f_epsilon) d && f_lt d f_epsilon) eqn:Hg; [reflexivity|].
    destruct eps_pos as [Fe Pe]. pose proof eps_lo as Le.
    assert (Hd : B2R f_epsilon <= Rabs (B2R d)).
    { apply andb_false_iff in Hg as [Hg|Hg].
      - apply f_lt_false in Hg; [|rewrite is_finite_Bopp; exact Fe|exact Fd]. rewrite B2R_Bopp in Hg. rewrite Rabs_left1; lra.
      - apply f_lt_false in Hg; [|exact Fd|exact Fe]. rewrite Rabs_pos_eq; lra. }
    clear Hg. destruct (heights v0 v1 z H0 H1 Hz) as [BD BN]. unfold clear_of in *. clearbody d n.
    set (z0 := B2R (fz v0)) in *. set (z1 := B2R (fz v1)) in *. set (zz := B2R z) in *. clearbody z0 z1 zz.
    assert (BD' : bpow radix2 (-40) <= Rabs (z1 - z0)).
    { destruct (Rle_or_lt (bpow radix2 (-40)) (Rabs (z1 - z0))) as [C|C]; [exact C|]. exfalso.
      assert (Rabs (B2R d) <= bpow radix2 (-40)). { rewrite Ed. apply fl_abs_le; [lia|lra]. }
      simpl (bpow radix2 (-40)) in *. simpl (bpow radix2 (-30)) in *. lra. }
    pose proof u_small as U. pose proof (L_pos b mesh L Hs) as LP. pose proof (bpow_gt_0 radix2 (-40)) as P40.
    destruct (quot_rel n d (zz - z0) (z1 - z0) Fn Fd En Ed) as (Ft & e & He & Et); [split; [rewrite Rabs_minus_sym|]; lra|lra|].
    destruct (fi_val 0) as [E0 F0]; [lia|]. destruct (fi_val 1) as [E1 F1]; [lia|]. set (t := n /f d) in *. clearbody t.
    assert (f_lt t (fi 0) = true \/ f_lt (fi 1) t = true) as [-> | ->]; [|reflexivity|rewrite orb_true_r; reflexivity].
    rewrite !f_lt_iff by assumption. rewrite E0, E1, Et. clear Ed En BN. apply Rabs_le_inv in He.
    assert (Dne : z1 - z0 <> 0) by (intros C; rewrite C, Rabs_R0 in BD'; lra).
    destruct (Rle_or_lt 0 ((zz - z0) / (z1 - z0))) as [C|C]; [right|left; nra].
    assert (T : 1 + 46 * u <= (zz - z0) / (z1 - z0)); [|nra].
    assert (T' : 46 * u <= (zz - z1) / (z1 - z0)); [|replace ((zz - z0) / (z1 - z0)) with ((zz - z1) / (z1 - z0) + 1) by (field; exact Dne); lra].
    replace ((zz - z1) / (z1 - z0)) with (Rabs (zz - z1) / Rabs (z1 - z0)).
    - apply Rmult_le_reg_r with (Rabs (z1 - z0)); [lra|]. unfold Rdiv. rewrite (Rmult_assoc (Rabs (zz - z1))), Rinv_l by lra. rewrite (Rabs_minus_sym zz z1). nra.
    - (* same sign *)
      unfold Rdiv. rewrite <- Rabs_inv, <- Rabs_mult. apply Rabs_pos_eq.
      assert (C' : 0 <= (zz - z0) * (z1 - z0)).
      { replace ((zz - z0) * (z1 - z0)) with ((zz - z0) / (z1 - z0) * ((z1 - z0) * (z1 - z0))) by (field; exact Dne). apply Rmult_le_pos; nra. }
      assert (C2 : 0 <= (zz - z1) * (z1 - z0)).
      { destruct (Rle_or_lt 0 (zz - z0)); destruct (Rle_or_lt 0 (zz - z1)); nra. }
      replace ((zz - z1) * / (z1 - z0)) with ((zz - z1) * (z1 - z0) * (/ (z1 - z0) * / (z1 - z0))) by (field; exact Dne).
      apply Rmult_le_pos; [exact C2|]. set (i := / (z1 - z0)). nra.
  Qed.

  (** An edge that crosses the plane is cut, about where it should be. *)
  Lemma edge_cross v0 v1 z : pt_below L v0 -> pt_below L v1 -> fin L 3 z -> clear_of v0 z -> clear_of v1 z ->
    (B2R (fz v0) - B2R z) * (B2R (fz v1) - B2R z) < 0 -> Q2R epsilon <= Rabs (B2R (fz v1) - B2R (fz v0)) ->
    exists p, f_intersectSegment v0 v1 z = Some p /\ forall P, qpt_eq P (cutpt (exact_pt v0) (exact_pt v1) (f_exact z)) -> stands L 25 p P.
  Proof using Hs.
    intros H0 H1 Hz C0 C1 Hside Hst. unfold f_intersectSegment. cbv zeta.
    destruct (seg_values b mesh L Hs v0 v1 z H0 H1 Hz) as (Fd & Ed & Fn & En & _). cbv zeta in Fd, Ed, Fn, En.
    set (d := v_dot (fi 0, fi 0, fi 1) (v_sub v1 v0)) in *. set (n := v_dot (fi 0, fi 0, fi (-1)) (v_sub v0 (fi 0, fi 0, z))) in *.
    destruct eps_pos as [Fe Pe]. pose proof eps_lo as Le. pose proof eps_val as Ee.
    assert (Hd : B2R f_epsilon <= Rabs (B2R d)).
    { rewrite Ee, Ed, <- (round_NE_abs radix2 fexp64). apply fl_le, Hst. }
    assert (Hg : f_lt (Bopp f_epsilon) d && f_lt d f_epsilon = false).
    { apply andb_false_iff. destruct (Rle_or_lt 0 (B2R d)) as [C|C].
      - right. apply f_lt_false; [exact Fd|exact Fe|]. rewrite Rabs_pos_eq in Hd; lra.
      - left. apply f_lt_false; [rewrite is_finite_Bopp; exact Fe|exact Fd|]. rewrite B2R_Bopp. rewrite Rabs_left in Hd; lra. }
    rewrite Hg. clear Hg. destruct (heights v0 v1 z H0 H1 Hz) as [BD BN]. unfold clear_of in *. clearbody d n.
    pose proof u_small as U. pose proof (L_pos b mesh L Hs) as LP. pose proof (bpow_gt_0 radix2 (-40)) as P40.
    assert (EQ : Q2R epsilon = 1 / 1000000000) by (unfold Q2R, epsilon; cbn [Qnum Qden]; lra).
    assert (BD' : bpow radix2 (-40) <= Rabs (B2R (fz v1) - B2R (fz v0))). { apply Rle_trans with (2 := Hst). rewrite EQ. simpl (bpow radix2 (-40)). lra. }
    destruct (quot_rel n d (B2R z - B2R (fz v0)) (B2R (fz v1) - B2R (fz v0)) Fn Fd En Ed) as (Ft & e & He & Et); [split; [rewrite Rabs_minus_sym|]; lra|lra|].
    destruct (fi_val 0) as [E0 F0]; [lia|]. destruct (fi_val 1) as [E1 F1]; [lia|]. set (t := n /f d) in *. clearbody t.
    set (tau := (B2R z - B2R (fz v0)) / (B2R (fz v1) - B2R (fz v0))) in *. apply Rabs_le_inv in He.
    assert (Dne : B2R (fz v1) - B2R (fz v0) <> 0) by (intros C; rewrite C, Rabs_R0 in BD'; lra).
    assert (T : 0 < tau <= 1 - 46 * u).
    { unfold tau. clear - Dne BD BD' P40 C1 Hside U LP. set (z0 := B2R (fz v0)) in *. set (z1 := B2R (fz v1)) in *. set (zz := B2R z) in *. clearbody z0 z1 zz.
      assert (I : 0 < (/ (z1 - z0) * / (z1 - z0))). { pose proof (Rinv_neq_0_compat _ Dne). set (i := / (z1 - z0)) in *. clearbody i. nra. }
      split.
      - replace ((zz - z0) / (z1 - z0)) with ((zz - z0) * (z1 - z0) * (/ (z1 - z0) * / (z1 - z0))) by (field; exact Dne).
        apply Rmult_lt_0_compat; [pose proof (Rle_0_sqr (z0 - zz)) as Q0; unfold Rsqr in Q0; lra|exact I].
      - assert (T' : 46 * u <= (z1 - zz) / (z1 - z0)); [|replace ((zz - z0) / (z1 - z0)) with (1 - (z1 - zz) / (z1 - z0)) by (field; exact Dne); lra].
        replace ((z1 - zz) / (z1 - z0)) with (Rabs (z1 - zz) / Rabs (z1 - z0)).
        + apply Rmult_le_reg_r with (Rabs (z1 - z0)); [lra|]. unfold Rdiv. rewrite (Rmult_assoc (Rabs (z1 - zz))), Rinv_l by lra. nra.
        + unfold Rdiv. rewrite <- Rabs_inv, <- Rabs_mult. apply Rabs_pos_eq.
          replace ((z1 - zz) * / (z1 - z0)) with ((z1 - zz) * (z1 - z0) * (/ (z1 - z0) * / (z1 - z0))) by (field; exact Dne).
          apply Rmult_le_pos; [pose proof (Rle_0_sqr (z1 - zz)) as Q0; unfold Rsqr in Q0; lra|lra]. }
    assert (T01 : 0 <= B2R t <= 1). { rewrite Et. split; nra. }
    assert (Dt : Rabs (B2R t - tau) <= 6 * u). { rewrite Et. replace (tau * (1 + e) - tau) with (tau * e) by ring. rewrite Rabs_mult, (Rabs_pos_eq tau) by lra. pose proof (Rabs_pos e). assert (Rabs e <= 6 * u) by (apply Rabs_le; exact He). nra. }
    assert (f_lt t (fi 0) = false) as -> by (apply f_lt_false; [assumption..|]; rewrite E0; lra).
    assert (f_lt (fi 1) t = false) as -> by (apply f_lt_false; [assumption..|]; rewrite E1; lra).
    cbn [orb]. eexists. split; [reflexivity|]. intros P EP. apply qpt_eq_iff in EP as (EX & EY & _). unfold cutpt, VoxelizeSpec.lerp in EX, EY. cbn [px py fst snd exact_pt] in EX, EY.
    assert (Etau : Q2R ((pz (exact_pt v0) - f_exact z) / (pz (exact_pt v0) - pz (exact_pt v1))) = tau).
    { unfold exact_pt. cbn [pz snd]. rewrite Q2R_div, !Q2R_minus, <- !f_exact_val.
      - unfold tau. field. split; lra.
      - intros C. apply Qeq_eqR in C. rewrite Q2R_minus, Q2R_0, <- !f_exact_val in C. lra. }
    set (T2 := ((pz (exact_pt v0) - f_exact z) / (pz (exact_pt v0) - pz (exact_pt v1)))%Q) in *. clearbody T2.
    apply Qeq_eqR in EX, EY. rewrite Q2R_plus, Q2R_mult, Q2R_minus, Etau, <- !f_exact_val in EX, EY.
    pose proof H0 as (X0 & Y0 & _). pose proof H1 as (X1 & Y1 & _). apply (fin_below L) in X0, Y0, X1, Y1.
    assert (CO : forall a c : float64, fin L 1 a -> fin L 1 c -> Rabs (B2R (a +f (c -f a) *f t) - (B2R a + (B2R c - B2R a) * tau)) <= 25 * uL /\ Rabs (B2R a + (B2R c - B2R a) * tau) <= LR).
    { intros a c Ha Hc. destruct (lerp_err a c t Ha Hc Ft T01) as [_ ER]. destruct Ha as [_ Ha], Hc as [_ Hc]. rewrite Rmult_1_l in Ha, Hc. split.
      - replace (B2R (a +f (c -f a) *f t) - (B2R a + (B2R c - B2R a) * tau)) with ((B2R (a +f (c -f a) *f t) - (B2R a + (B2R c - B2R a) * B2R t)) + (B2R c - B2R a) * (B2R t - tau)) by ring.
        eapply Rle_trans; [apply Rabs_triang|]. rewrite (Rabs_mult (B2R c - B2R a)).
        assert (Rabs (B2R c - B2R a) <= 2 * LR). { unfold Rminus. eapply Rle_trans; [apply Rabs_triang|]. rewrite Rabs_Ropp. lra. }
        assert (Rabs (B2R c - B2R a) * Rabs (B2R t - tau) <= (2 * LR) * (6 * u)) by (apply Rmult_le_compat; try apply Rabs_pos; assumption). nra.
      - apply Rabs_le_inv in Ha, Hc. apply Rabs_le. replace (B2R a + (B2R c - B2R a) * tau) with (B2R a * (1 - tau) + B2R c * tau) by ring. split; nra. }
    destruct (CO _ _ X0 X1) as [CX1 CX2]. destruct (CO _ _ Y0 Y1) as [CY1 CY2]. destruct (lerp_err _ _ t X0 X1 Ft T01) as [FX _]. destruct (lerp_err _ _ t Y0 Y1 Ft T01) as [FY _].
    unfold stands. rewrite EX, EY. split; [exact FX|]. split; [exact CX1|]. split; [exact FY|]. split; [exact CY1|]. split; [exact CX2|exact CY2].
  Qed.

  (** The float64 slicer decides as the exact one does. *)
  Lemma edge_agree v0 v1 z : pt_below L v0 -> pt_below L v1 -> fin L 3 z -> clear_of v0 z -> clear_of v1 z -> clean_edge (exact_pt v0) (exact_pt v1) ->
    match intersectSegment (exact_pt v0) (exact_pt v1) (f_exact z) with
    | Some P => exists p, f_intersectSegment v0 v1 z = Some p /\ stands L 25 p P
    | None => f_intersectSegment v0 v1 z = None
    end.
  Proof using Hs.
    intros H0 H1 Hz C0 C1 Hc. pose proof u_small as U. pose proof (L_pos b mesh L Hs) as LP. assert (M : 0 < 92 * uL) by nra.
    assert (N0 : B2R (fz v0) - B2R z <> 0) by (intros C; unfold clear_of in C0; rewrite C, Rabs_R0 in C0; lra).
    assert (N1 : B2R (fz v1) - B2R z <> 0) by (intros C; unfold clear_of in C1; rewrite C, Rabs_R0 in C1; lra).
    assert (EQ : Q2R ((pz (exact_pt v0) - f_exact z) * (pz (exact_pt v1) - f_exact z)) = (B2R (fz v0) - B2R z) * (B2R (fz v1) - B2R z)).
    { unfold exact_pt. cbn [pz snd]. rewrite Q2R_mult, !Q2R_minus, <- !f_exact_val. reflexivity. }
    destruct (seg_cases (exact_pt v0) (exact_pt v1) (f_exact z) Hc) as [(P & E & EP & Hle & Hne)|(E & Hgt)]; rewrite E.
    - apply Qle_Rle in Hle. rewrite EQ, Q2R_0 in Hle.
      assert (Hlt : (B2R (fz v0) - B2R z) * (B2R (fz v1) - B2R z) < 0). { destruct Hle as [Hle|Hle]; [exact Hle|]. apply Rmult_integral in Hle. tauto. }
      assert (Hst : steep (exact_pt v0) (exact_pt v1)). { destruct Hc as [Hc|Hc]; [|exact Hc]. exfalso. apply Hne. rewrite Hc. unfold Qminus. apply Qplus_opp_r. }
      unfold steep in Hst. apply Qle_Rle in Hst. rewrite Q2R_abs, Q2R_minus in Hst. unfold exact_pt in Hst. cbn [pz snd] in Hst. rewrite <- !f_exact_val in Hst.
      destruct (edge_cross v0 v1 z H0 H1 Hz C0 C1 Hlt Hst) as (p & Ep & Hp). exists p. split; [exact Ep|]. apply Hp, EP.
    - apply edge_miss; try assumption. destruct Hgt as [Hgt|[Hgt _]].
      + apply Qlt_Rlt in Hgt. rewrite EQ, Q2R_0 in Hgt. exact Hgt.
      + exfalso. apply N0. apply Qeq_eqR in Hgt. rewrite Q2R_minus, Q2R_0 in Hgt. unfold exact_pt in Hgt. cbn [pz snd] in Hgt. rewrite <- !f_exact_val in Hgt. exact Hgt.
  Qed.

  Lemma tri_cover t z r : In t mesh -> fin L 3 z -> clean (exact_tri t) -> clear_of (fv1 t) z -> clear_of (fv2 t) z -> clear_of (fv3 t) z ->
    in_triangle (exact_tri t) r -> (pz r == f_exact z)%Q ->
    exists p q P Q, f_intersectTriZPlane t z = Some (p, q) /\ stands L 25 p P /\ stands L 25 q Q /\ on_edge (exact_tri t) P /\ on_edge (exact_tri t) Q /\ on_segment P Q r.
  Proof using Hs.
    intros Ht Hz Hc C1 C2 C3 Hr Hrz. pose proof Hs as (_ & _ & _ & _ & _ & _ & _ & _ & Hm). destruct (Hm t Ht) as (H1 & H2 & H3). clear Hm.
    assert (NE : forall v, clear_of v z -> ~ (pz (exact_pt v) - f_exact z == 0)%Q).
    { intros v Cv C. apply Qeq_eqR in C. rewrite Q2R_minus, Q2R_0 in C. unfold exact_pt in C. cbn [pz snd] in C. rewrite <- !f_exact_val in C. unfold clear_of in Cv. rewrite C, Rabs_R0 in Cv.
      pose proof u_small. pose proof (L_pos b mesh L Hs). nra. }
    pose proof Hc as (K1 & K2 & K3). cbn [exact_tri tv1 tv2 tv3] in K1, K2, K3.
    pose proof (edge_agree (fv1 t) (fv2 t) z H1 H2 Hz C1 C2 K1) as A1. pose proof (edge_agree (fv2 t) (fv3 t) z H2 H3 Hz C2 C3 K2) as A2. pose proof (edge_agree (fv3 t) (fv1 t) z H3 H1 Hz C3 C1 K3) as A3.
    assert (EX : match intersectTriZPlane (exact_tri t) (f_exact z) with Some (p, q, _) => on_segment p q r | None => False end).
    { pose proof (tri_exact (exact_tri t) (f_exact z) Hc) as X.
      destruct (intersectTriZPlane (exact_tri t) (f_exact z)) as [[[P Q] t']|]; (lapply X; [clear X; intros X|intros (D1 & _); apply (NE _ C1); unfold exact_tri in D1; cbn [tv1] in D1; rewrite D1; apply Qplus_opp_r]).
      all: (lapply X; [clear X; intros X|unfold middle_on_plane; cbn [exact_tri tv1 tv2 tv3]; intros D; (assert (D2 : (pz (exact_pt (fv1 t)) == f_exact z \/ pz (exact_pt (fv2 t)) == f_exact z \/ pz (exact_pt (fv3 t)) == f_exact z)%Q) by (clear - D; tauto));
        destruct D2 as [D2|[D2|D2]]; [apply (NE _ C1)|apply (NE _ C2)|apply (NE _ C3)]; rewrite D2; apply Qplus_opp_r]).
      - apply X. auto.
      - exact (X r Hr Hrz). }
    pose proof (tri_sound (exact_tri t) (f_exact z)) as TS.
    unfold intersectTriZPlane in EX, TS. cbn [exact_tri tv1 tv2 tv3] in EX, TS. unfold f_intersectTriZPlane.
    destruct (intersectSegment (exact_pt (fv1 t)) (exact_pt (fv2 t)) (f_exact z)) as [P1|], (intersectSegment (exact_pt (fv2 t)) (exact_pt (fv3 t)) (f_exact z)) as [P2|], (intersectSegment (exact_pt (fv3 t)) (exact_pt (fv1 t)) (f_exact z)) as [P3|]; try (exfalso; exact EX).
    all: try (destruct A1 as (p1 & A1 & S1)); try (destruct A2 as (p2 & A2 & S2)); try (destruct A3 as (p3 & A3 & S3)); rewrite ?A1, ?A2, ?A3;
      destruct (TS _ _ _ eq_refl) as (_ & _ & _ & T4 & T5).
    - exists p1, p2, P1, P2. auto 10.
    - exists p1, p2, P1, P2. auto 10.
    - exists p1, p3, P1, P3. auto 10.
    - exists p2, p3, P2, P3. auto 10.
  Qed.
End Scene3.

Lemma comb_le (a1 a2 a3 w1 w2 w3 v o M : Q) : (0 <= a1 -> 0 <= a2 -> 0 <= a3 -> a1 + a2 + a3 == 1 ->
  v * (w1 - o) <= M -> v * (w2 - o) <= M -> v * (w3 - o) <= M -> v * ((a1 * w1 + a2 * w2 + a3 * w3) - o) <= M)%Q.
Proof.
  intros A1 A2 A3 A4 H1 H2 H3.
  assert (E : (v * ((a1 * w1 + a2 * w2 + a3 * w3) - o) == a1 * (v * (w1 - o)) + a2 * (v * (w2 - o)) + a3 * (v * (w3 - o)))%Q).
  { transitivity (v * ((a1 * w1 + a2 * w2 + a3 * w3) - (a1 + a2 + a3) * o))%Q; [rewrite A4; ring|ring]. }
  assert (S : (M == a1 * M + a2 * M + a3 * M)%Q) by (transitivity ((a1 + a2 + a3) * M)%Q; [rewrite A4; ring|ring]).
  rewrite E, S. repeat apply Qplus_le_compat; apply Qmult_le_l_any; assumption.
Qed.
Lemma comb_ge (a1 a2 a3 w1 w2 w3 v o M : Q) : (0 <= a1 -> 0 <= a2 -> 0 <= a3 -> a1 + a2 + a3 == 1 ->
  M <= v * (w1 - o) -> M <= v * (w2 - o) -> M <= v * (w3 - o) -> M <= v * ((a1 * w1 + a2 * w2 + a3 * w3) - o))%Q.
Proof.
  intros A1 A2 A3 A4 H1 H2 H3.
  assert (E : (v * ((a1 * w1 + a2 * w2 + a3 * w3) - o) == a1 * (v * (w1 - o)) + a2 * (v * (w2 - o)) + a3 * (v * (w3 - o)))%Q).
  { transitivity (v * ((a1 * w1 + a2 * w2 + a3 * w3) - (a1 + a2 + a3) * o))%Q; [rewrite A4; ring|ring]. }
  assert (S : (M == a1 * M + a2 * M + a3 * M)%Q) by (transitivity ((a1 + a2 + a3) * M)%Q; [rewrite A4; ring|ring]).
  rewrite E, S. repeat apply Qplus_le_compat; apply Qmult_le_l_any; assumption.
Qed.

Lemma inside_grid_tri b L t P : inside_grid b L t -> on_edge (exact_tri t) P ->
  (vpmm (read_exact b) * (px P - f_exact (TX b)) <= inject_Z (NX b) - slack b L)%Q /\
  (slack b L <= vpmm (read_exact b) * (py P - f_exact (TY b)) <= inject_Z (NY b) - slack b L)%Q.
Proof.
  intros Hi OP. apply edge_in_triangle in OP as (a1 & a2 & a3 & (A1 & A2 & A3 & A4) & EP). apply qpt_eq_iff in EP as (EX & EY & _).
  cbn [comb3 px py fst snd exact_tri tv1 tv2 tv3 exact_pt] in EX, EY. rewrite EX, EY.
  destruct (Hi _ (or_introl eq_refl)) as (X1 & Y1 & Z1). destruct (Hi _ (or_intror (or_introl eq_refl))) as (X2 & Y2 & Z2). destruct (Hi _ (or_intror (or_intror eq_refl))) as (X3 & Y3 & Z3).
  split; [apply comb_le; assumption|]. split; [apply comb_ge; assumption|apply comb_le; assumption].
Qed.

(** The height at which a layer is cut is that of its middle. *)
Theorem C63_slice_height b mesh L zi : scene b mesh L -> (0 <= zi < NZ b)%Z ->
  (Qabs (vpmm (read_exact b) * (f_exact (f_slice_z b zi) - f_exact (TZ b)) - (inject_Z zi + (1 # 2))) <= slack b L)%Q.
Proof.
  intros Hs Hzi. destruct (slice_height b mesh L Hs zi Hzi) as [_ Ez]. apply Rle_Qle. pose proof (vpmm_exact b mesh L Hs) as EV. pose proof (slack_nonneg b mesh L Hs) as SN.
  rewrite Q2R_abs, Q2R_minus, Q2R_mult, Q2R_minus, Q2R_plus, Q2R_Z, Q2R_half, EV, (slack_R b mesh L Hs), <- !f_exact_val.
  pose proof (scale_posx b mesh L Hs). pose proof (dim_posx b mesh L Hs). pose proof (V_posx b mesh L Hs) as VP.
  set (v := IZR (dim b) / B2R (Scale b)) in *. set (z := B2R (f_slice_z b zi)) in *. set (o := B2R (TZ b)) in *.
  replace (v * (z - o) - (IZR zi + / 2)) with (v * (z - (o + (IZR zi + / 2) / v))) by (clearbody v; field; lra).
  rewrite Rabs_mult, (Rabs_pos_eq v) by lra. assert (v * Rabs (z - (o + (IZR zi + / 2) / v)) <= v * (36 * (u * Q2R L))) by (apply Rmult_le_compat_l; [lra|exact Ez]). nra.
Qed.

(** Every point of the surface at the height at which a layer is cut has a voxel of that layer within
    one voxel, up to rounding: for triangles whose edges are flat or rise by 1e-9 mm, with no vertex
    within the slack of the middle of the layer, inside the grid (but for its lower x face). *)
Theorem C63_surface_covered b mesh L t r zi : scene b mesh L -> f_zero_dim b = false -> NoDup (map faddr mesh) ->
  In t mesh -> inside_grid b L t -> clean (exact_tri t) -> off_layer b L zi t -> (0 <= zi < NZ b)%Z ->
  in_triangle (exact_tri t) r -> (pz r == f_exact (f_slice_z b zi))%Q ->
  exists k, f_result_voxels (f_Voxelize b mesh) k /\ kz k = zi /\ within (1 + slack b L) (read_exact b) k r.
Proof.
  intros Hs Hz Hn Ht Hi Hc Ho Hzi Hr Hrz. destruct (slice_height b mesh L Hs zi Hzi) as [Fz Ez].
  pose proof (slack_R b mesh L Hs) as SR. pose proof (slack_nonneg b mesh L Hs) as SN. pose proof (V_posx b mesh L Hs) as VP. pose proof (vpmm_exact b mesh L Hs) as EV.
  assert (SP : 0 < u * (Q2R L * (IZR (dim b) / B2R (Scale b)))). { pose proof u_small. pose proof (LV_range b mesh L Hs) as [Hlo _]. nra. }
  assert (Cl : forall v, v = fv1 t \/ v = fv2 t \/ v = fv3 t -> clear_of L v (f_slice_z b zi)).
  { intros v Hv. pose proof (Ho v Hv) as Hq. clear Ho. apply Qle_Rle in Hq. rewrite SR, Q2R_abs, Q2R_minus, Q2R_mult, Q2R_minus, Q2R_plus, Q2R_Z, Q2R_half, EV, <- !f_exact_val in Hq.
    unfold clear_of. clear SR EV. set (w := IZR (dim b) / B2R (Scale b)) in *. set (z := B2R (f_slice_z b zi)) in *. set (o := B2R (TZ b)) in *. set (y := B2R (fz v)) in *. clearbody w z o y.
    replace (w * (y - o) - (IZR zi + / 2)) with (w * (y - (o + (IZR zi + / 2) / w))) in Hq by (field; lra).
    rewrite Rabs_mult, (Rabs_pos_eq w) in Hq by lra. replace (128 * (u * (Q2R L * w))) with (w * (128 * (u * Q2R L))) in Hq by ring. apply Rmult_le_reg_l in Hq; [|exact VP].
    set (m := o + (IZR zi + / 2) / w) in *. replace (y - m) with ((y - z) + (z - m)) in Hq by ring.
    pose proof (Rabs_triang (y - z) (z - m)). lra. }
  destruct (tri_cover b mesh L Hs t (f_slice_z b zi) r Ht Fz Hc (Cl _ (or_introl eq_refl)) (Cl _ (or_intror (or_introl eq_refl))) (Cl _ (or_intror (or_intror eq_refl))) Hr Hrz)
    as (p & q & P & Q & E & SP1 & SQ1 & OP & OQ & (s & Hs' & Er)).
  destruct (stands_cell b mesh L Hs 25 p P ltac:(lra) SP1) as (X1 & Y1 & EX1 & EY1 & AX1 & AY1). destruct (stands_cell b mesh L Hs 25 q Q ltac:(lra) SQ1) as (X2 & Y2 & EX2 & EY2 & AX2 & AY2).
  destruct (point_near X1 Y1 X2 Y2 s Hs') as (x & y & Hin & Hx & Hy).
  assert (S01 : 0 <= Q2R s <= 1). { destruct Hs' as [A B]. apply Qle_Rle in A, B. rewrite Q2R_0 in A. rewrite Q2R_1 in B. auto. }
  exists (x, y, zi). split; [|split; [reflexivity|]].
  - apply (f_Voxelize_in b mesh Hz Hn). cbn [kz snd]. split; [exact Hzi|].
    assert (Fl : forall (W : QArith_base.Q) (A : R) (N : Z), Rabs (Q2R W - A) <= (25 + 22) * (u * (Q2R L * (IZR (dim b) / B2R (Scale b)))) -> A <= IZR N - Q2R (slack b L) -> (Qfloor W < N)%Z).
    { intros W A N H1 H2. apply lt_IZR. rewrite Qfloor_Zfloor. apply Rle_lt_trans with (Q2R W); [apply Zfloor_lb|]. apply Rabs_le_inv in H1. lra. }
    assert (Fg : forall (W : QArith_base.Q) (A : R), Rabs (Q2R W - A) <= (25 + 22) * (u * (Q2R L * (IZR (dim b) / B2R (Scale b)))) -> Q2R (slack b L) <= A -> (0 <= Qfloor W)%Z).
    { intros W A H1 H2. rewrite Qfloor_Zfloor. apply Zfloor_lub. apply Rabs_le_inv in H1. simpl (IZR 0). lra. }
    assert (TR : forall P, on_edge (exact_tri t) P -> IZR (dim b) / B2R (Scale b) * (Q2R (px P) - B2R (TX b)) <= IZR (NX b) - Q2R (slack b L) /\
      Q2R (slack b L) <= IZR (dim b) / B2R (Scale b) * (Q2R (py P) - B2R (TY b)) <= IZR (NY b) - Q2R (slack b L)).
    { intros P' OP'. destruct (inside_grid_tri b L t P' Hi OP') as (B1 & B2 & B3). apply Qle_Rle in B1, B2, B3. rewrite Q2R_mult, Q2R_minus, EV, <- !f_exact_val in B1, B2, B3.
      rewrite Q2R_minus, Q2R_Z in B1, B3. auto. }
    destruct (TR P OP) as (B1 & B2 & B3). destruct (TR Q OQ) as (D1 & D2 & D3).
    pose proof (Fl _ _ _ AX1 B1). pose proof (Fl _ _ _ AX2 D1). pose proof (Fl _ _ _ AY1 B3). pose proof (Fl _ _ _ AY2 D3). pose proof (Fg _ _ AY1 B2). pose proof (Fg _ _ AY2 D2).
    pose proof (C27_in_box_and_near _ _ _ _ _ Hin) as (Bx & By & _). unfold zbetween in Bx, By. cbn [fst snd] in Bx, By.
    unfold f_solid, kx, ky, kz. cbn [fst snd]. split; [reflexivity|]. split; [lia|]. split; [lia|]. left.
    exists t. split; [exact Ht|]. unfold kx, ky, kz. cbn [fst snd]. unfold f_outline. rewrite E. unfold f_pair_points. cbn [fst snd]. rewrite EX1, EY1, EX2, EY2. exact Hin.
  - apply qpt_eq_iff in Er as (Er1 & Er2 & _). unfold VoxelizeSpec.lerp in Er1, Er2. cbn [px py fst snd] in Er1, Er2.
    unfold within, kx, ky. cbn [fst snd TX TY read_exact]. rewrite Er1, Er2.
    rewrite !(within_R b mesh L Hs), Q2R_plus, Q2R_1, SR, !Q2R_plus, !Q2R_mult, !Q2R_minus, <- !f_exact_val.
    pose proof (mix_err _ _ _ _ (Q2R s) _ S01 AX1 AX2) as MX. pose proof (mix_err _ _ _ _ (Q2R s) _ S01 AY1 AY2) as MY.
    destruct Hx as [Hx1 Hx2], Hy as [Hy1 Hy2]. apply Qle_Rle in Hx1, Hx2, Hy1, Hy2.
    rewrite Q2R_plus, Q2R_mult, Q2R_minus in Hx1, Hx2, Hy1, Hy2. rewrite !Q2R_minus, Q2R_Z, Q2R_1 in Hx1, Hy1. rewrite !Q2R_plus, Q2R_Z, Q2R_1 in Hx2, Hy2.
    apply Rabs_le_inv in MX, MY. set (v := IZR (dim b) / B2R (Scale b)) in *.
    replace (v * (Q2R (px P) + (Q2R (px Q) - Q2R (px P)) * Q2R s - B2R (TX b))) with
      (v * (Q2R (px P) - B2R (TX b)) + (v * (Q2R (px Q) - B2R (TX b)) - v * (Q2R (px P) - B2R (TX b))) * Q2R s) by ring.
    replace (v * (Q2R (py P) + (Q2R (py Q) - Q2R (py P)) * Q2R s - B2R (TY b))) with
      (v * (Q2R (py P) - B2R (TY b)) + (v * (Q2R (py Q) - B2R (TY b)) - v * (Q2R (py P) - B2R (TY b))) * Q2R s) by ring.
    split; split; lra.
Qed.

(** Non-vacuity: a triangle in a grid of 10 x 10 x 10 voxels of 1 mm, and a point of it in layer 1; the
    slack is 2^-46 of 10 voxels.  And the mesh of [C63_left_edge_refuted] is a scene. *)
Definition cover_grid : binvox float64 := BinVOX 10 10 10 (fi 0) (fi 0) (fi 0) (fi 10) None None.
Definition cover_tri : ftri := FTri 0 (fi 1, fi 1, fi 0) (fi 9, fi 1, fi 4) (fi 1, fi 9, fi 4) (fi 0, fi 0, fi 1).

Lemma scale_ten : is_finite (fi 10) = true /\ bpow radix2 (-300) <= B2R (fi 10) <= bpow radix2 300.
Proof.
  destruct (fi_val 10) as [E F]; [lia|]. split; [exact F|]. rewrite E. split.
  - apply Rle_trans with (bpow radix2 0); [apply bpow_le; lia|]. simpl (bpow radix2 0). lra.
  - apply Rle_trans with (bpow radix2 4); [simpl (bpow radix2 4); lra|apply bpow_le; lia].
Qed.
Lemma below_dec L x : is_finite x = true -> Qle_bool (Qabs (f_exact x)) L = true -> below L x.
Proof. intros F H. split; [exact F|apply Qle_bool_iff, H]. Qed.

Example C63_example :
  scene cover_grid [cover_tri] 10 /\ f_zero_dim cover_grid = false /\ NoDup (map faddr [cover_tri]) /\ inside_grid cover_grid 10 cover_tri /\
  clean (exact_tri cover_tri) /\ off_layer cover_grid 10 1 cover_tri /\ in_triangle (exact_tri cover_tri) (q3 4 1 (3 # 2)) /\
  (pz (q3 4 1 (3 # 2)) == f_exact (f_slice_z cover_grid 1))%Q /\ (slack cover_grid 10 <= 1)%Q /\
  elements (match f_Voxelize cover_grid [cover_tri] with inl _ => ∅ | inr v => v end) <> [].
Proof.
  split.
  { destruct scale_ten as [F S]. unfold scene. split; [vm_compute; split; intros C; discriminate C|]. split; [exact F|]. split; [exact S|].
    split; [vm_compute; intros C; discriminate C|]. split; [vm_compute; intros C; discriminate C|].
    split; [apply below_dec; vm_compute; reflexivity|]. split; [apply below_dec; vm_compute; reflexivity|]. split; [apply below_dec; vm_compute; reflexivity|].
    intros t [<-|[]]. unfold pt_below. repeat split; try (vm_compute; reflexivity); vm_compute; intros C; discriminate C. }
  split; [reflexivity|]. split; [apply NoDup_ListNoDup; repeat constructor; cbn; intuition discriminate|].
  split; [intros v [-> |[-> | ->]]; vm_compute; repeat split; intros C; discriminate C|].
  split.
  { split; [right|split; [left|right]].
    - unfold steep. apply Qle_bool_iff. vm_compute. reflexivity.
    - vm_compute. reflexivity.
    - unfold steep. apply Qle_bool_iff. vm_compute. reflexivity. }
  split; [intros v [-> |[-> | ->]]; apply Qle_bool_iff; vm_compute; reflexivity|].
  split. { exists (5 # 8)%Q, (3 # 8)%Q, 0%Q. split; [repeat split; vm_compute; intros C; discriminate C|]. apply qpt_eq_iff. repeat split; vm_compute; reflexivity. }
  split; [vm_compute; reflexivity|]. split; [vm_compute; intros C; discriminate C|]. vm_compute. intros C. discriminate C.
Qed.

Example C63_left_example : scene left_grid [left_tri] 12 /\ (slack left_grid 12 <= 1)%Q /\ NoDup (map faddr [left_tri]).
Proof.
  split; [|split; [vm_compute; intros C; discriminate C|apply NoDup_ListNoDup; repeat constructor; cbn; intuition discriminate]].
  destruct scale_ten as [F S]. unfold scene. split; [vm_compute; split; intros C; discriminate C|]. split; [exact F|]. split; [exact S|].
  split; [vm_compute; intros C; discriminate C|]. split; [vm_compute; intros C; discriminate C|].
  split; [apply below_dec; vm_compute; reflexivity|]. split; [apply below_dec; vm_compute; reflexivity|]. split; [apply below_dec; vm_compute; reflexivity|].
  intros t [<-|[]]. unfold pt_below. repeat split; try (vm_compute; reflexivity); vm_compute; intros C; discriminate C.
Qed.
Print Assumptions C63_surface_covered.
