(** C44, in IEEE 754 binary64 arithmetic (Flocq): what the boundaries are. *)
From Coq Require Import ZArith Reals Lra Lia List Bool QArith.
From Flocq Require Import Core IEEE754.BinarySingleNaN.
From Verif Require Import BinvoxDiceModel.
Import ListNotations.

(** Go's float64 with round to nearest even. *)
Notation prec := 53%Z.
Notation emax := 1024%Z.
Notation float64 := (binary_float prec emax).
#[local] Instance prec_gt : Prec_gt_0 prec := eq_refl.
#[local] Instance prec_lt : Prec_lt_emax prec emax := eq_refl.
Definition go_float64 : arith float64 :=
  Arith _ (fun n => binary_normalize prec emax prec_gt prec_lt mode_NE n 0 false)
    (Bplus mode_NE) (Bminus mode_NE) (Bmult mode_NE) (Bdiv mode_NE).

Open Scope R_scope.
Notation fexp64 := (SpecFloat.fexp prec emax).
Notation fl := (round radix2 fexp64 ZnearestE).

Lemma round_mode_NE : round_mode mode_NE = ZnearestE. Proof. reflexivity. Qed.
#[local] Instance fexp_valid : Valid_exp fexp64 := fexp_correct prec emax prec_gt.

Lemma fl_le x y : x <= y -> fl x <= fl y. Proof. apply round_le; typeclasses eauto. Qed.
Lemma fl_id (x : float64) : fl (B2R x) = B2R x. Proof. apply round_generic; [typeclasses eauto|]. apply generic_format_B2R. Qed.
Lemma fl_format x : generic_format radix2 fexp64 (fl x). Proof. apply generic_format_round; typeclasses eauto. Qed.
Lemma fl_idem x : fl (fl x) = fl x. Proof. apply round_generic; [typeclasses eauto|]. apply fl_format. Qed.
Lemma fl_0 : fl 0 = 0. Proof. apply round_0. typeclasses eauto. Qed.

Lemma format_bpow e : (-1074 <= e)%Z -> generic_format radix2 fexp64 (bpow radix2 e).
Proof. intros He. apply generic_format_bpow. unfold SpecFloat.fexp, SpecFloat.emin. lia. Qed.
Lemma fl_bpow e : (-1074 <= e)%Z -> fl (bpow radix2 e) = bpow radix2 e.
Proof. intros He. apply round_generic; [typeclasses eauto|]. apply format_bpow, He. Qed.
Lemma fl_abs_le x e : (-1074 <= e)%Z -> Rabs x <= bpow radix2 e -> Rabs (fl x) <= bpow radix2 e.
Proof. intros He H. rewrite <- (round_NE_abs radix2 fexp64). rewrite <- (fl_bpow e He). apply fl_le, H. Qed.
Lemma fl_1 : fl 1 = 1. Proof. change 1 with (bpow radix2 0) at 1 2. apply fl_bpow. lia. Qed.

(** The operations, when there is no overflow. *)
Lemma add_ok x y : is_finite x = true -> is_finite y = true -> Rabs (fl (B2R x + B2R y)) < bpow radix2 1024 ->
  B2R (f_add go_float64 x y) = fl (B2R x + B2R y) /\ is_finite (f_add go_float64 x y) = true.
Proof. intros Hx Hy Hb. pose proof (Bplus_correct prec emax prec_gt prec_lt mode_NE x y Hx Hy) as H. rewrite round_mode_NE, Rlt_bool_true in H by exact Hb. tauto. Qed.
Lemma sub_ok x y : is_finite x = true -> is_finite y = true -> Rabs (fl (B2R x - B2R y)) < bpow radix2 1024 ->
  B2R (f_sub go_float64 x y) = fl (B2R x - B2R y) /\ is_finite (f_sub go_float64 x y) = true.
Proof. intros Hx Hy Hb. pose proof (Bminus_correct prec emax prec_gt prec_lt mode_NE x y Hx Hy) as H. rewrite round_mode_NE, Rlt_bool_true in H by exact Hb. tauto. Qed.
Lemma mul_ok x y : is_finite x = true -> is_finite y = true -> Rabs (fl (B2R x * B2R y)) < bpow radix2 1024 ->
  B2R (f_mul go_float64 x y) = fl (B2R x * B2R y) /\ is_finite (f_mul go_float64 x y) = true.
Proof. intros Hx Hy Hb. pose proof (Bmult_correct prec emax prec_gt prec_lt mode_NE x y) as H. rewrite round_mode_NE, Rlt_bool_true in H by exact Hb. rewrite Hx, Hy in H. tauto. Qed.
Lemma div_ok x y : is_finite x = true -> B2R y <> 0 -> Rabs (fl (B2R x / B2R y)) < bpow radix2 1024 ->
  B2R (f_div go_float64 x y) = fl (B2R x / B2R y) /\ is_finite (f_div go_float64 x y) = true.
Proof. intros Hx Hy Hb. pose proof (Bdiv_correct prec emax prec_gt prec_lt mode_NE x y Hy) as H. rewrite round_mode_NE, Rlt_bool_true in H by exact Hb. rewrite Hx in H. tauto. Qed.
Lemma int_ok n : (Z.abs n <= 2 ^ 63)%Z -> B2R (f_int go_float64 n) = fl (IZR n) /\ is_finite (f_int go_float64 n) = true.
Proof.
  intros Hn. pose proof (binary_normalize_correct prec emax prec_gt prec_lt mode_NE n 0 false) as H. cbv zeta in H. rewrite round_mode_NE in H.
  assert (E : F2R (Float radix2 n 0) = IZR n) by (unfold F2R; cbn; ring). rewrite E in H. rewrite Rlt_bool_true in H; [tauto|].
  apply Rle_lt_trans with (bpow radix2 63); [|apply bpow_lt; lia]. apply fl_abs_le; [lia|]. rewrite <- abs_IZR. change (bpow radix2 63) with (IZR (2 ^ 63)). apply IZR_le, Hn.
Qed.

(** The range assumed: |ll|, |ur| at most 2^1022 (about 4e307), at most 2^63 cuts. *)
Definition ordinary (x : float64) : Prop := is_finite x = true /\ Rabs (B2R x) <= bpow radix2 1022.

Section Bounds.
  Context (ll ur : float64) (n : Z) (Hll : ordinary ll) (Hur : ordinary ur) (Hn : (0 < n <= 2 ^ 63)%Z).
  Notation b := (boundary go_float64 ll ur n).
  (** The computed extent. *)
  Notation d := (fl (B2R ur - B2R ll)).
  Notation frac i := (fl (fl (IZR i) / fl (IZR n))).

  Lemma n_pos : 0 < fl (IZR n).
  Proof using Hn. apply Rlt_le_trans with (fl 1); [rewrite fl_1; lra|]. apply fl_le. apply IZR_le. lia. Qed.

  Lemma frac_bounds i : (0 <= i <= n)%Z -> 0 <= frac i <= 1.
  Proof using Hn.
    intros Hi. pose proof n_pos. assert (0 <= fl (IZR i)) by (rewrite <- fl_0; apply fl_le, IZR_le; lia).
    assert (fl (IZR i) <= fl (IZR n)) by (apply fl_le, IZR_le; lia). split.
    - rewrite <- fl_0 at 1. apply fl_le. apply Rmult_le_pos; [assumption|]. left. apply Rinv_0_lt_compat. assumption.
    - rewrite <- fl_1. apply fl_le. apply (Rmult_le_reg_r (fl (IZR n))); [assumption|]. unfold Rdiv. rewrite Rmult_assoc, Rinv_l by lra. lra.
  Qed.

  Lemma frac_le i j : (0 <= i <= j)%Z -> frac i <= frac j.
  Proof using Hn.
    intros Hi. pose proof n_pos. apply fl_le. apply Rmult_le_compat_r; [left; apply Rinv_0_lt_compat; assumption|]. apply fl_le, IZR_le. lia.
  Qed.
  Lemma frac_0 : frac 0 = 0. Proof using. rewrite fl_0. unfold Rdiv. rewrite Rmult_0_l. apply fl_0. Qed.
  Lemma frac_n : frac n = 1. Proof using Hn. pose proof n_pos. unfold Rdiv. rewrite Rinv_r by lra. apply fl_1. Qed.

  Lemma d_bound : Rabs d <= bpow radix2 1023.
  Proof using Hll Hur.
    destruct Hll as [_ H1], Hur as [_ H2]. apply fl_abs_le; [lia|]. replace (bpow radix2 1023) with (bpow radix2 1022 + bpow radix2 1022) by (change 1023%Z with (1022 + 1)%Z; rewrite bpow_plus; cbn [bpow]; simpl (IZR _); lra).
    eapply Rle_trans; [apply Rabs_triang|]. rewrite Rabs_Ropp. lra.
  Qed.

  Lemma boundary_value i : (0 <= i <= n)%Z -> is_finite (b i) = true /\ B2R (b i) = fl (B2R ll + fl (d * frac i)).
  Proof using Hll Hur Hn.
    intros Hi. destruct Hll as [Hl1 Hl2], Hur as [Hu1 Hu2]. pose proof d_bound as Hd. pose proof (frac_bounds i Hi) as Hf. pose proof n_pos as Hnp.
    assert (H1022 : bpow radix2 1023 = bpow radix2 1022 + bpow radix2 1022) by (change 1023%Z with (1022 + 1)%Z; rewrite bpow_plus; cbn [bpow]; simpl (IZR _); lra).
    assert (H1023 : bpow radix2 1024 = bpow radix2 1023 + bpow radix2 1023) by (change 1024%Z with (1023 + 1)%Z; rewrite bpow_plus; cbn [bpow]; simpl (IZR _); lra).
    pose proof (bpow_gt_0 radix2 1022) as Hp.
    unfold boundary, lerp.
    destruct (int_ok i) as [Ei Fi]; [lia|]. destruct (int_ok n) as [En Fn]; [lia|].
    destruct (div_ok (f_int go_float64 i) (f_int go_float64 n)) as [Et Ft]; [exact Fi|rewrite En; lra| |].
    { rewrite Ei, En. rewrite Rabs_pos_eq by lra. apply Rle_lt_trans with (bpow radix2 0); [change (bpow radix2 0) with 1; lra|apply bpow_lt; lia]. }
    rewrite Ei, En in Et.
    destruct (sub_ok ur ll) as [Ed Fd]; [assumption..|lra|].
    assert (Hm : Rabs (fl (d * frac i)) <= bpow radix2 1023).
    { apply fl_abs_le; [lia|]. rewrite Rabs_mult. rewrite (Rabs_pos_eq (frac i)) by lra. pose proof (Rabs_pos d). nra. }
    destruct (mul_ok (f_sub go_float64 ur ll) (f_div go_float64 (f_int go_float64 i) (f_int go_float64 n))) as [Em Fm]; [assumption..| |].
    { rewrite Ed, Et. lra. }
    rewrite Ed, Et in Em.
    destruct (add_ok ll (f_mul go_float64 (f_sub go_float64 ur ll) (f_div go_float64 (f_int go_float64 i) (f_int go_float64 n)))) as [Ea Fa]; [assumption..| |].
    - rewrite Em. (* |ll + m| <= 3/4 2^1024, representable *)
      set (M := bpow radix2 1022 + bpow radix2 1023).
      assert (FM : generic_format radix2 fexp64 M).
      { replace M with (F2R (Float radix2 3 1022)).
        - apply generic_format_F2R. intros _. unfold cexp. rewrite mag_F2R_Zdigits by lia. change (Zdigits radix2 3) with 2%Z. unfold SpecFloat.fexp, SpecFloat.emin. lia.
        - unfold F2R, M. rewrite H1022. cbn [Fnum Fexp]. ring. }
      apply Rle_lt_trans with M; [|unfold M; lra]. rewrite <- (round_NE_abs radix2 fexp64).
      replace M with (fl M) by (apply round_generic; [typeclasses eauto|exact FM]). apply fl_le. eapply Rle_trans; [apply Rabs_triang|]. unfold M. lra.
    - rewrite Em in Ea. split; [exact Fa|exact Ea].
  Qed.

  (** The first boundary is the lower corner, exactly. *)
  Theorem C44_first_boundary : is_finite (b 0) = true /\ B2R (b 0) = B2R ll.
  Proof using Hll Hur Hn.
    destruct (boundary_value 0) as [H1 H2]; [lia|]. split; [exact H1|]. rewrite H2, frac_0, Rmult_0_r, fl_0, Rplus_0_r. apply fl_id.
  Qed.

  (** The last boundary is the lower corner plus the extent, each rounded. *)
  Theorem C44_last_boundary : is_finite (b n) = true /\ B2R (b n) = fl (B2R ll + fl (B2R ur - B2R ll)) /\
    Rabs (B2R (b n) - B2R ur) <= / 2 * ulp radix2 fexp64 (B2R ur - B2R ll) + / 2 * ulp radix2 fexp64 (B2R ll + fl (B2R ur - B2R ll)).
  Proof using Hll Hur Hn.
    destruct (boundary_value n) as [H1 H2]; [lia|]. rewrite frac_n, Rmult_1_r, fl_idem in H2. split; [exact H1|]. split; [exact H2|].
    rewrite H2. replace (fl (B2R ll + d) - B2R ur) with ((fl (B2R ll + d) - (B2R ll + d)) + (d - (B2R ur - B2R ll))) by ring.
    eapply Rle_trans; [apply Rabs_triang|]. rewrite Rplus_comm. apply Rplus_le_compat; apply error_le_half_ulp; typeclasses eauto.
  Qed.

  (** It is the upper corner when the extent is a float64, as for boxes given in whole millimetres. *)
  Theorem C44_last_boundary_exact : fl (B2R ur - B2R ll) = B2R ur - B2R ll -> B2R (b n) = B2R ur.
  Proof using Hll Hur Hn.
    intros E. destruct C44_last_boundary as (_ & -> & _). rewrite E. replace (B2R ll + (B2R ur - B2R ll)) with (B2R ur) by ring. apply fl_id.
  Qed.

  (** The boundaries never step backwards. *)
  Theorem C44_monotone i j : B2R ll <= B2R ur -> (0 <= i <= j)%Z -> (j <= n)%Z -> B2R (b i) <= B2R (b j).
  Proof using Hll Hur Hn.
    intros Hle Hij Hj. destruct (boundary_value i) as [_ ->]; [lia|]. destruct (boundary_value j) as [_ ->]; [lia|].
    apply fl_le, Rplus_le_compat_l, fl_le, Rmult_le_compat_l; [|apply frac_le; lia]. rewrite <- fl_0. apply fl_le. lra.
  Qed.

  (** The slabs between consecutive boundaries fill the range from the first to the last boundary
      and overlap in no more than their faces. *)
  Theorem C44_slabs_cover x : B2R ll <= B2R ur -> B2R ll <= x <= B2R (b n) ->
    exists i, (0 <= i < n)%Z /\ B2R (b i) <= x <= B2R (b (i + 1)).
  Proof using Hll Hur Hn.
    intros Hle [H1 H2].
    assert (G : forall m : nat, (Z.of_nat m <= n)%Z -> x <= B2R (b (Z.of_nat m)) -> (0 < m)%nat -> exists i, (0 <= i < n)%Z /\ B2R (b i) <= x <= B2R (b (i + 1))).
    { induction m as [|m IH]; intros Hm Hxm Hpos; [lia|]. destruct (Rle_lt_dec x (B2R (b (Z.of_nat m)))) as [Hx|Hx].
      - destruct m as [|m].
        + exists 0%Z. split; [lia|]. split; [rewrite (proj2 C44_first_boundary); exact H1|exact Hxm].
        + apply IH; [lia|exact Hx|lia].
      - exists (Z.of_nat m). split; [lia|]. split; [lra|]. replace (Z.of_nat m + 1)%Z with (Z.of_nat (S m)) by lia. exact Hxm. }
    apply (G (Z.to_nat n)); [lia| |lia]. rewrite Z2Nat.id by lia. exact H2.
  Qed.
  Theorem C44_slabs_disjoint x i j : B2R ll <= B2R ur -> (0 <= i < n)%Z -> (0 <= j < n)%Z ->
    B2R (b i) < x < B2R (b (i + 1)) -> B2R (b j) < x < B2R (b (j + 1)) -> i = j.
  Proof using Hll Hur Hn.
    intros Hle Hi Hj H1 H2. destruct (Z.lt_trichotomy i j) as [H|[H|H]]; [|exact H|]; exfalso.
    - pose proof (C44_monotone (i + 1) j Hle). lra || (assert (B2R (b (i + 1)) <= B2R (b j)) by (apply C44_monotone; [assumption|lia|lia]); lra).
    - assert (B2R (b (j + 1)) <= B2R (b i)) by (apply C44_monotone; [assumption|lia|lia]). lra.
  Qed.
End Bounds.
Print Assumptions C44_first_boundary.
Print Assumptions C44_last_boundary.
Print Assumptions C44_last_boundary_exact.
Print Assumptions C44_monotone.
Print Assumptions C44_slabs_cover.
Print Assumptions C44_slabs_disjoint.

(** A decimal constant, as strconv.ParseFloat rounds it (num and den below 2^53). *)
Definition dec (num den : Z) : float64 := f_div go_float64 (f_int go_float64 num) (f_int go_float64 den).

(** ...but in general the last boundary misses the upper corner: along an axis from -0.1 to 4 the
    last tile ends below 4, so that a layer of the box lies in no tile; and for the example of the
    usage message, from -2.6 to 0.6, it ends above. *)
Theorem C44_last_boundary_misses :
  Bcompare (boundary go_float64 (dec (-1) 10) (dec 4 1) 8 8) (dec 4 1) = Some Lt /\
  Bcompare (boundary go_float64 (dec (-26) 10) (dec 6 10) 8 8) (dec 6 10) = Some Gt.
Proof. split; vm_compute; reflexivity. Qed.
Print Assumptions C44_last_boundary_misses.

(** Non-vacuity: the usage example's X axis, from -80 to 80 in 8 parts. *)
Lemma dec_ordinary num : (Z.abs num < 2 ^ 53)%Z -> ordinary (dec num 1).
Proof.
  intros Hn. assert (Hi : (Z.abs num <= 2 ^ 63)%Z) by lia. destruct (int_ok num Hi) as [E1 F1]. destruct (int_ok 1) as [E2 F2]; [lia|].
  assert (Hb : Rabs (fl (IZR num)) <= bpow radix2 53).
  { apply fl_abs_le; [lia|]. rewrite <- abs_IZR. change (bpow radix2 53) with (IZR (2 ^ 53)). apply IZR_le. lia. }
  assert (H1 : fl (IZR 1) = 1) by apply fl_1. rewrite H1 in E2.
  unfold dec. destruct (div_ok (f_int go_float64 num) (f_int go_float64 1)) as [E F]; [exact F1|rewrite E2; lra| |].
  - rewrite E1, E2. unfold Rdiv. rewrite Rinv_1, Rmult_1_r, fl_idem. apply Rle_lt_trans with (1 := Hb). apply bpow_lt. lia.
  - split; [exact F|]. rewrite E, E1, E2. unfold Rdiv. rewrite Rinv_1, Rmult_1_r, fl_idem. apply Rle_trans with (1 := Hb). apply bpow_le. lia.
Qed.
Example C44_float_ex : ordinary (dec (-80) 1) /\ ordinary (dec 80 1) /\
  map (fun i => B2SF (boundary go_float64 (dec (-80) 1) (dec 80 1) 8 i)) [0; 1; 4; 8]%Z =
  map (fun m => B2SF (dec m 1)) [-80; -60; 0; 80]%Z.
Proof. split; [apply (dec_ordinary (-80)); lia|]. split; [apply (dec_ordinary 80); lia|]. vm_compute. reflexivity. Qed.
