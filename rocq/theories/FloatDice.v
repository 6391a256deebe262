(** C55 and C56: rounding in the grid arithmetic of stldice and of vshell, in IEEE 754 binary64
    (Flocq).  The other theorems about these programs use exact rationals; here is what float64 makes
    of the three places where a rounded number is turned into an integer. *)
From Coq Require Import ZArith Reals Lra Lia List Bool.
From Flocq Require Import Core Relative IEEE754.BinarySingleNaN.
From Verif Require Import BinvoxDiceModel BinvoxDiceFloat.
Import ListNotations.
#[local] Instance prec_gt' : Prec_gt_0 prec := eq_refl.
#[local] Instance prec_lt' : Prec_lt_emax prec emax := eq_refl.
#[local] Instance fexp_valid' : Valid_exp fexp64 := fexp_correct prec emax prec_gt'.

(** ** Go's conversions to int *)

(** int(x): truncation toward zero (NaN and infinities, whose conversion Go leaves open, give 0). *)
Definition f_trunc (x : float64) : Z :=
  match x with
  | B754_finite s m e _ => let n := if s then Z.neg m else Z.pos m in
      if (0 <=? e)%Z then (n * 2 ^ e)%Z else Z.quot n (2 ^ (- e))
  | _ => 0%Z
  end.
(** int(math.Ceil(x)). *)
Definition f_ceil (x : float64) : Z :=
  match x with
  | B754_finite s m e _ => let n := if s then Z.neg m else Z.pos m in
      if (0 <=? e)%Z then (n * 2 ^ e)%Z else (- ((- n) / 2 ^ (- e)))%Z
  | _ => 0%Z
  end.

(** ** The code *)

(** cmd/stldice/stldice.go:126 vpmm, binvox/binvox.go:135-141 and vshell/vshell.go:93-99 VoxelsPerMM for
    a positive scale. *)
Definition f_vpmm (d : Z) (scale : float64) : float64 := f_div go_float64 (f_int go_float64 d) scale.
(** cmd/stldice/stldice.go:127. *)
Definition f_mmpv (d : Z) (scale : float64) : float64 := f_div go_float64 (f_int go_float64 1) (f_vpmm d scale).
(** cmd/stldice/stldice.go:131-133 (the same in stl2svx and stldice-mr): voxels along an axis. *)
Definition f_count (dim : Z) (scale extent : float64) : Z := f_ceil (f_mul go_float64 extent (f_vpmm dim scale)).
(** cmd/stldice/stldice.go:156-166: the translation of tile i along an axis; 144-152: its Scale. *)
Definition f_tile_t (mn : float64) (dim : Z) (scale : float64) (i d : Z) : float64 :=
  f_add go_float64 mn (f_mul go_float64 (f_int go_float64 (i * d)) (f_mmpv dim scale)).
Definition f_tile_scale (dim : Z) (scale : float64) (maxDim : Z) : float64 :=
  f_mul go_float64 (f_int go_float64 maxDim) (f_mmpv dim scale).
(** vshell/merge.go:130-137: the offset, in voxels, of a part with translation [t] from a shell with
    translation [t0]. *)
Definition f_offset (t t0 v : float64) : Z := f_trunc (f_mul go_float64 (f_sub go_float64 t t0) v).
(** vshell/merge.go:131: whether Add takes the part. *)
Definition f_same_resolution (v v' : float64) : bool := (f_trunc v =? f_trunc v')%Z.
(** vshell/merge.go:52,76-80: the Scale of a shell whose largest dimension grows from [d] to [d']. *)
Definition f_rescale (d d' : Z) (scale : float64) : float64 :=
  let before := f_vpmm d scale in
  let after := f_vpmm d' scale in
  match Bcompare before after with
  | Some Eq => scale
  | _ => f_mul go_float64 scale (f_div go_float64 after before)
  end.

(** ** Their values *)
Open Scope R_scope.

Lemma f_trunc_correct x : f_trunc x = Ztrunc (B2R x).
Proof.
  destruct x as [s|s| |s m e H]; cbn [f_trunc B2R]; try (symmetry; apply (Ztrunc_IZR 0)).
  set (n := if s then Z.neg m else Z.pos m). replace (cond_Zopp s (Z.pos m)) with n by (destruct s; reflexivity). unfold F2R; cbn [Fnum Fexp].
  destruct (Z.leb_spec 0 e) as [He|He].
  - rewrite <- IZR_Zpower by lia. rewrite <- mult_IZR. rewrite Ztrunc_IZR. reflexivity.
  - replace e with (- (- e))%Z at 2 by lia. rewrite bpow_opp. rewrite <- IZR_Zpower by lia. change (radix_val radix2) with 2%Z.
    pose proof (Z.pow_pos_nonneg 2 (- e) ltac:(lia) ltac:(lia)) as Hp.
    change (IZR n * / IZR (2 ^ - e)) with (IZR n / IZR (2 ^ - e)).
    destruct (Z.le_gt_cases 0 n) as [Hn|Hn].
    + rewrite Ztrunc_floor; [|apply Rmult_le_pos; [apply IZR_le, Hn|left; apply Rinv_0_lt_compat, IZR_lt, Hp]].
      rewrite Zfloor_div by lia. apply Z.quot_div_nonneg; lia.
    + rewrite Ztrunc_ceil.
      * unfold Zceil. replace (- (IZR n / IZR (2 ^ - e))) with (IZR (- n) / IZR (2 ^ - e)) by (rewrite opp_IZR; field; apply IZR_neq; lia).
        rewrite Zfloor_div by lia. replace n with (- (- n))%Z at 1 by lia. rewrite Z.quot_opp_l by lia. rewrite Z.quot_div_nonneg by lia. reflexivity.
      * assert (0 <= IZR (- n) / IZR (2 ^ - e)). { apply Rmult_le_pos; [apply IZR_le; lia|left; apply Rinv_0_lt_compat, IZR_lt, Hp]. }
        rewrite opp_IZR in H0. unfold Rdiv in *. lra.
Qed.

Lemma f_ceil_correct x : f_ceil x = Zceil (B2R x).
Proof.
  destruct x as [s|s| |s m e H]; cbn [f_ceil B2R]; try (symmetry; apply (Zceil_IZR 0)).
  set (n := if s then Z.neg m else Z.pos m). replace (cond_Zopp s (Z.pos m)) with n by (destruct s; reflexivity). unfold F2R; cbn [Fnum Fexp].
  destruct (Z.leb_spec 0 e) as [He|He].
  - rewrite <- IZR_Zpower by lia. rewrite <- mult_IZR. rewrite Zceil_IZR. reflexivity.
  - replace e with (- (- e))%Z at 2 by lia. rewrite bpow_opp. rewrite <- IZR_Zpower by lia. change (radix_val radix2) with 2%Z.
    pose proof (Z.pow_pos_nonneg 2 (- e) ltac:(lia) ltac:(lia)) as Hp.
    unfold Zceil. replace (- (IZR n * / IZR (2 ^ - e))) with (IZR (- n) / IZR (2 ^ - e)) by (rewrite opp_IZR; field; apply IZR_neq; lia).
    rewrite Zfloor_div by lia. reflexivity.
Qed.

(** ** Relative errors *)

Definition u : R := bpow radix2 (-53).
Lemma u_val : u = / 9007199254740992. Proof. unfold u. simpl. lra. Qed.
Lemma fl_rel x : bpow radix2 (-1022) <= Rabs x -> Rabs (fl x - x) <= u * Rabs x.
Proof.
  intros H. pose proof (relative_error_N_FLT radix2 (-1074) 53 ltac:(lia) (fun n => negb (Z.even n)) x) as E.
  replace u with (/ 2 * bpow radix2 (-53 + 1)). { apply E. exact H. }
  unfold u. change (-53 + 1)%Z with (-53 + 1)%Z. rewrite bpow_plus. simpl (bpow radix2 1). lra.
Qed.
Lemma fl_int n : (Z.abs n <= 2 ^ 53)%Z -> fl (IZR n) = IZR n.
Proof.
  intros H. apply round_generic; [typeclasses eauto|]. apply generic_format_FLT.
  destruct (Z.eq_dec (Z.abs n) (2 ^ 53)) as [E|E].
  - assert (Hn : n = (2 ^ 53)%Z \/ n = (- 2 ^ 53)%Z) by lia.
    destruct Hn as [-> | ->].
    + exists (Float radix2 1 53); [unfold F2R; simpl; lra|reflexivity|discriminate].
    + exists (Float radix2 (-1) 53); [unfold F2R; cbn [Fnum Fexp]; rewrite <- IZR_Zpower by lia; rewrite <- mult_IZR; reflexivity|reflexivity|discriminate].
  - exists (Float radix2 n 0); [unfold F2R; simpl; lra| |discriminate].
    change (radix2 ^ 53)%Z with (2 ^ 53)%Z. cbn [Fnum]. lia.
Qed.

(** ** C55: the number of voxels *)

(** Sizes in millimetres between 2^-500 and 2^500. *)
Definition usual (x : float64) : Prop := is_finite x = true /\ bpow radix2 (-500) <= B2R x <= bpow radix2 500.

Lemma usual_pos x : usual x -> 0 < B2R x.
Proof. intros [_ [H _]]. pose proof (bpow_gt_0 radix2 (-500)). lra. Qed.

Lemma fl_abs_lt x e : (-1074 <= e < 1024)%Z -> Rabs x <= bpow radix2 e -> Rabs (fl x) < bpow radix2 1024.
Proof. intros He H. apply Rle_lt_trans with (bpow radix2 e); [apply fl_abs_le; [lia|exact H]|apply bpow_lt; lia]. Qed.

(** vpmm = dim/scale, rounded once. *)
Lemma vpmm_value d scale : (1 <= d <= 2 ^ 53)%Z -> usual scale ->
  is_finite (f_vpmm d scale) = true /\ B2R (f_vpmm d scale) = fl (IZR d / B2R scale) /\
  bpow radix2 (-500) <= IZR d / B2R scale <= bpow radix2 553.
Proof.
  intros Hd Hs. pose proof (usual_pos _ Hs) as Hp. destruct Hs as [Fs [S1 S2]].
  destruct (int_ok d) as [Ed Fd]; [lia|]. rewrite fl_int in Ed by lia.
  assert (B : bpow radix2 (-500) <= IZR d / B2R scale <= bpow radix2 553).
  { assert (H1 : 1 <= IZR d) by (apply (IZR_le 1); lia). assert (H2 : IZR d <= bpow radix2 53) by (change (bpow radix2 53) with (IZR (2 ^ 53)); apply IZR_le; lia).
    assert (H3 : / bpow radix2 500 <= / B2R scale) by (apply Rinv_le_contravar; lra).
    assert (H4 : / B2R scale <= / bpow radix2 (-500)) by (apply Rinv_le_contravar; [apply bpow_gt_0|lra]).
    rewrite <- !bpow_opp in H3, H4. change (- -500)%Z with 500%Z in H4. change (-(500))%Z with (-500)%Z in H3.
    pose proof (bpow_gt_0 radix2 (-500)). split; unfold Rdiv.
    - apply Rle_trans with (1 * / B2R scale); [lra|]. apply Rmult_le_compat_r; lra.
    - change 553%Z with (53 + 500)%Z. rewrite bpow_plus. apply Rmult_le_compat; lra. }
  unfold f_vpmm. destruct (div_ok (f_int go_float64 d) scale) as [E F]; [exact Fd|lra| |].
  - rewrite Ed. apply fl_abs_lt with 553%Z; [lia|]. rewrite Rabs_pos_eq; [tauto|]. pose proof (bpow_gt_0 radix2 (-500)); lra.
  - rewrite Ed in E. split; [exact F|]. split; [exact E|exact B].
Qed.

Lemma fl_err x : Rabs (fl x - x) <= u * Rabs x + bpow radix2 (-1075).
Proof.
  destruct (error_N_FLT radix2 (-1074) 53 ltac:(lia) (fun n => negb (Z.even n)) x) as (eps & eta & H1 & H2 & _ & H4).
  change (round radix2 (FLT_exp (-1074) 53) (Znearest (fun n => negb (Z.even n))) x) with (fl x) in H4.
  rewrite H4. replace (x * (1 + eps) + eta - x) with (eps * x + eta) by ring.
  eapply Rle_trans; [apply Rabs_triang|]. rewrite Rabs_mult. apply Rplus_le_compat.
  - apply Rmult_le_compat_r; [apply Rabs_pos|]. apply Rle_trans with (1 := H1). unfold u_ro, u. apply Req_le.
    change (-53 + 1)%Z with (-52)%Z. simpl. lra.
  - apply Rle_trans with (1 := H2). apply Req_le. change (-1075)%Z with (-1074 + -1)%Z. rewrite bpow_plus. simpl (bpow radix2 (-1)). lra.
Qed.

(** The rational number that the program means to round up. *)
Notation exact_count d scale extent := (B2R extent * (IZR d / B2R scale)).

Lemma tiny_small : 0 < bpow radix2 (-1075) <= u * u.
Proof. split; [apply bpow_gt_0|]. unfold u. rewrite <- bpow_plus. apply bpow_le. lia. Qed.

Lemma product_error d scale extent : (1 <= d <= 2 ^ 50)%Z -> usual scale -> is_finite extent = true -> 0 <= B2R extent <= B2R scale ->
  f_count d scale extent = Zceil (fl (B2R extent * fl (IZR d / B2R scale))) /\
  0 <= exact_count d scale extent <= IZR d /\
  Rabs (B2R extent * fl (IZR d / B2R scale) - exact_count d scale extent) <= u * IZR d /\
  Rabs (fl (B2R extent * fl (IZR d / B2R scale)) - exact_count d scale extent) <= 4 * u * IZR d.
Proof.
  intros Hd Hs Fe He. destruct (vpmm_value d scale ltac:(lia) Hs) as (Fv & Ev & B). pose proof (usual_pos _ Hs) as Hp.
  pose proof (bpow_gt_0 radix2 (-500)) as B0. set (v := IZR d / B2R scale) in *. set (e := B2R extent) in *.
  assert (Hv : Rabs (fl v - v) <= u * v).
  { pose proof (fl_rel v) as H. rewrite (Rabs_pos_eq v) in H by lra. apply H. apply Rle_trans with (bpow radix2 (-500)); [apply bpow_le; lia|lra]. }
  assert (Hr : 0 <= e * v <= IZR d).
  { split; [apply Rmult_le_pos; lra|]. apply Rle_trans with (B2R scale * v); [apply Rmult_le_compat_r; lra|]. unfold v. apply Req_le. field. lra. }
  assert (Hd1 : 1 <= IZR d) by (apply (IZR_le 1); lia). assert (Hd2 : IZR d <= bpow radix2 50) by (change (bpow radix2 50) with (IZR (2 ^ 50)); apply IZR_le; lia).
  pose proof u_val as Hu. assert (U0 : 0 < u < 1 / 1000) by (rewrite Hu; lra). clear Hu.
  assert (Hx : Rabs (e * fl v - e * v) <= u * IZR d).
  { replace (e * fl v - e * v) with (e * (fl v - v)) by ring. rewrite Rabs_mult, (Rabs_pos_eq e) by lra.
    apply Rle_trans with (e * (u * v)); [apply Rmult_le_compat_l; lra|]. replace (e * (u * v)) with (u * (e * v)) by ring. apply Rmult_le_compat_l; lra. }
  assert (Hx0 : 0 <= e * fl v). { apply Rmult_le_pos; [lra|]. rewrite <- fl_0. apply fl_le. lra. }
  assert (Hx2 : e * fl v <= 2 * IZR d). { apply Rabs_def2_le in Hx || idtac. assert (e * fl v - e * v <= u * IZR d) by (eapply Rle_trans; [apply Rle_abs|exact Hx]). assert (u * IZR d <= IZR d) by nra. lra. }
  split; [|split; [exact Hr|split; [exact Hx|]]].
  - unfold f_count. rewrite f_ceil_correct. destruct (mul_ok extent (f_vpmm d scale)) as [E _]; [exact Fe|exact Fv| |rewrite E, Ev; reflexivity].
    rewrite Ev. apply fl_abs_lt with 51%Z; [lia|]. rewrite Rabs_pos_eq by exact Hx0. apply Rle_trans with (1 := Hx2).
    change 51%Z with (1 + 50)%Z. rewrite bpow_plus. simpl (bpow radix2 1). lra.
  - replace (fl (e * fl v) - e * v) with ((fl (e * fl v) - e * fl v) + (e * fl v - e * v)) by ring.
    eapply Rle_trans; [apply Rabs_triang|]. pose proof (fl_err (e * fl v)) as Hf. rewrite (Rabs_pos_eq (e * fl v)) in Hf by exact Hx0.
    pose proof tiny_small as [_ Ht]. assert (u * (e * fl v) <= u * (2 * IZR d)) by (apply Rmult_le_compat_l; lra). nra.
Qed.

Lemma ceil_ge x n : IZR n - 1 < x -> (n <= Zceil x)%Z.
Proof. intros H. pose proof (Zceil_ub x) as Hc. assert (G : IZR (n - 1) < IZR (Zceil x)) by (rewrite minus_IZR; lra). apply lt_IZR in G. lia. Qed.
Lemma ceil_le x n : x <= IZR n -> (Zceil x <= n)%Z.
Proof. intros H. apply Zceil_glb, H. Qed.
Lemma small_error d : (1 <= d <= 2 ^ 50)%Z -> 0 < 4 * u * IZR d <= 1 / 2.
Proof.
  intros Hd. assert (Hd1 : 1 <= IZR d) by (apply (IZR_le 1); lia). assert (Hd2 : IZR d <= IZR (2 ^ 50)) by (apply IZR_le; lia).
  change (2 ^ 50)%Z with 1125899906842624%Z in Hd2. rewrite u_val. lra.
Qed.

(** The longest axis, whose extent is the scale itself: the -dim voxels asked for, or one more. *)
Theorem C55_longest_axis dim scale : (1 <= dim <= 2 ^ 50)%Z -> usual scale ->
  f_count dim scale scale = dim \/ f_count dim scale scale = (dim + 1)%Z.
Proof.
  intros Hd Hs. pose proof (usual_pos _ Hs) as Hp. destruct (product_error dim scale scale Hd Hs (proj1 Hs) ltac:(lra)) as (-> & _ & _ & H).
  pose proof (small_error dim Hd) as Hu. replace (exact_count dim scale scale) with (IZR dim) in H by (field; lra).
  apply Rabs_le_inv in H. set (x := fl _) in *.
  assert (dim <= Zceil x)%Z by (apply ceil_ge; lra). assert (Zceil x <= dim + 1)%Z by (apply ceil_le; rewrite plus_IZR; lra). lia.
Qed.

(** Half way between a power of two and the next float64, the power of two is taken. *)
Lemma fl_tie k : (0 <= k <= 50)%Z -> fl (bpow radix2 k * (1 + u)) = bpow radix2 k.
Proof.
  intros Hk. set (x := bpow radix2 k * (1 + u)). pose proof (bpow_gt_0 radix2 k) as B0. assert (U0 : 0 < u < 1 / 1000) by (rewrite u_val; lra).
  assert (M : mag_val radix2 x (mag radix2 x) = (k + 1)%Z).
  { apply mag_unique. replace (k + 1 - 1)%Z with k by lia. unfold x. rewrite Rabs_pos_eq by nra. rewrite bpow_plus. simpl (bpow radix2 1). nra. }
  unfold round, scaled_mantissa, cexp. rewrite M. unfold SpecFloat.fexp, SpecFloat.emin. rewrite Z.max_l by lia.
  replace (x * bpow radix2 (- (k + 1 - prec))) with (IZR (2 ^ 52) + / 2).
  2:{ unfold x. replace (bpow radix2 k * (1 + u) * bpow radix2 (- (k + 1 - 53))) with (bpow radix2 k * bpow radix2 (- (k + 1 - 53)) * (1 + u)) by ring.
      rewrite <- bpow_plus. replace (k + - (k + 1 - 53))%Z with 52%Z by lia. rewrite u_val. simpl (bpow radix2 52). lra. }
  assert (F : Zfloor (IZR (2 ^ 52) + / 2) = (2 ^ 52)%Z). { apply Zfloor_imp. rewrite plus_IZR. lra. }
  assert (R : ZnearestE (IZR (2 ^ 52) + / 2) = (2 ^ 52)%Z).
  { unfold Znearest. rewrite F. replace (IZR (2 ^ 52) + / 2 - IZR (2 ^ 52)) with (/ 2) by ring. rewrite Rcompare_Eq by reflexivity. reflexivity. }
  rewrite R. unfold F2R; cbn [Fnum Fexp]. change (IZR (2 ^ 52)) with (bpow radix2 52). rewrite <- bpow_plus. f_equal. lia.
Qed.

(** With a power of two for -dim, exactly the voxels asked for, whatever the scale. *)
Theorem C55_power_of_two k scale : (0 <= k <= 50)%Z -> usual scale -> f_count (2 ^ k) scale scale = (2 ^ k)%Z.
Proof.
  intros Hk Hs. assert (Hd : (1 <= 2 ^ k <= 2 ^ 50)%Z).
  { split; [|apply Z.pow_le_mono_r; lia]. pose proof (Z.pow_pos_nonneg 2 k ltac:(lia) ltac:(lia)). lia. }
  pose proof (usual_pos _ Hs) as Hp.
  destruct (C55_longest_axis (2 ^ k) scale Hd Hs) as [E|E]; [exact E|exfalso].
  destruct (product_error (2 ^ k) scale scale Hd Hs (proj1 Hs) ltac:(lra)) as (C & _ & H & _). rewrite C in E.
  replace (exact_count (2 ^ k) scale scale) with (IZR (2 ^ k)) in H by (field; lra).
  assert (L : fl (B2R scale * fl (IZR (2 ^ k) / B2R scale)) <= IZR (2 ^ k)).
  { assert (P : IZR (2 ^ k) = bpow radix2 k) by (apply (IZR_Zpower radix2 k); lia). rewrite P in *.
    rewrite <- (fl_tie k Hk) at 2. apply fl_le. apply Rabs_le_inv in H. lra. }
  apply ceil_le in L. lia.
Qed.

(** Any axis: one voxel more or fewer than the exact count at most. *)
Theorem C55_axis dim scale extent : (1 <= dim <= 2 ^ 50)%Z -> usual scale -> is_finite extent = true -> 0 <= B2R extent <= B2R scale ->
  (Z.abs (f_count dim scale extent - Zceil (exact_count dim scale extent)) <= 1)%Z.
Proof.
  intros Hd Hs Fe He. destruct (product_error dim scale extent Hd Hs Fe He) as (-> & _ & _ & H).
  pose proof (small_error dim Hd) as Hu. apply Rabs_le_inv in H. set (x := fl (B2R extent * fl (IZR dim / B2R scale))) in *. set (y := exact_count dim scale extent) in *.
  pose proof (Zceil_ub x). pose proof (Zceil_ub y).
  assert (Zceil y <= Zceil x + 1)%Z by (apply ceil_le; rewrite plus_IZR; lra). assert (Zceil x <= Zceil y + 1)%Z by (apply ceil_le; rewrite plus_IZR; lra). lia.
Qed.

(** ...and exactly the exact count unless the extent is within 2^-51 dim voxels of a whole number
    of voxels. *)
Theorem C55_axis_exact dim scale extent : (1 <= dim <= 2 ^ 50)%Z -> usual scale -> is_finite extent = true -> 0 <= B2R extent <= B2R scale ->
  (forall n : Z, bpow radix2 (-51) * IZR dim < Rabs (exact_count dim scale extent - IZR n)) ->
  f_count dim scale extent = Zceil (exact_count dim scale extent).
Proof.
  intros Hd Hs Fe He Far. destruct (product_error dim scale extent Hd Hs Fe He) as (-> & _ & _ & H).
  replace (bpow radix2 (-51)) with (4 * u) in Far by (rewrite u_val; simpl (bpow radix2 (-51)); lra).
  apply Rabs_le_inv in H. set (x := fl (B2R extent * fl (IZR dim / B2R scale))) in *. set (y := exact_count dim scale extent) in *.
  pose proof (Zceil_ub y) as U. pose proof (Far (Zceil y)) as F1. pose proof (Far (Zceil y - 1)%Z) as F2. rewrite minus_IZR in F2.
  rewrite Rabs_left1 in F1 by lra. assert (Hl : IZR (Zceil y) - 1 < y). { pose proof (Zceil_lb y). lra. }
  rewrite Rabs_pos_eq in F2 by lra. apply Z.le_antisymm; [apply ceil_le; lra|apply ceil_ge; lra].
Qed.
Print Assumptions C55_longest_axis.
Print Assumptions C55_power_of_two.
Print Assumptions C55_axis.
Print Assumptions C55_axis_exact.

(** The extra layer happens: -dim 1000 on a 1.9 mm model gives 1001 voxels, -dim 100 on a 0.3 mm
    model gives 101. *)
Theorem C55_extra_layer : f_count 1000 (dec 19 10) (dec 19 10) = 1001%Z /\ f_count 100 (dec 3 10) (dec 3 10) = 101%Z.
Proof. split; vm_compute; reflexivity. Qed.
Print Assumptions C55_extra_layer.
