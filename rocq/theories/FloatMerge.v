(** C56 and C57: what float64 arithmetic does when stldice's tiles are put together again by
    vshell.Merge: the offset at which a tile lands, and whether it is accepted. *)
From Coq Require Import ZArith Reals Lra Lia List Bool.
From Flocq Require Import Core Relative IEEE754.BinarySingleNaN.
From Verif Require Import BinvoxDiceModel BinvoxDiceFloat FloatDice.
Import ListNotations.
#[local] Instance prec_gt' : Prec_gt_0 prec := eq_refl.
#[local] Instance prec_lt' : Prec_lt_emax prec emax := eq_refl.
#[local] Instance fexp_valid' : Valid_exp fexp64 := fexp_correct prec emax prec_gt'.
Open Scope R_scope.

(** ** Relative errors in units of u = 2^-53 *)
Definition rel (c x y : R) : Prop := exists e, Rabs e <= c * u /\ x = y * (1 + e).

Lemma INR_le_IZR n m : (Z.of_nat n <= m)%Z -> INR n <= IZR m.
Proof. intros H. rewrite INR_IZR_INZ. apply IZR_le, H. Qed.
Lemma u_small : 0 < u < 1 / 2 ^ 52.
Proof. rewrite u_val. lra. Qed.

Lemma rel_refl c x : 0 <= c -> rel c x x.
Proof. intros H. exists 0. pose proof u_small. split; [rewrite Rabs_R0; nra|ring]. Qed.
Lemma rel_weaken a b x y : a <= b -> rel a x y -> rel b x y.
Proof. intros H (e & He & E). exists e. split; [|exact E]. pose proof u_small. nra. Qed.
Lemma rel_trans a b x y z : 0 <= a <= 2 ^ 20 -> 0 <= b <= 2 ^ 20 -> rel a x y -> rel b y z -> rel (a + b + 1) x z.
Proof.
  intros Ha Hb (e & He & ->) (f & Hf & ->). exists (e + f + e * f). split; [|ring].
  pose proof u_small as U. eapply Rle_trans; [apply Rabs_triang|]. rewrite Rabs_mult.
  assert (Rabs (e + f) <= a * u + b * u) by (eapply Rle_trans; [apply Rabs_triang|lra]).
  assert (Rabs e * Rabs f <= (2 ^ 20 * u) * (2 ^ 20 * u)). { apply Rmult_le_compat; try apply Rabs_pos; nra. }
  assert (2 ^ 20 * u * (2 ^ 20 * u) <= u) by nra. lra.
Qed.
Lemma rel_mul a b x y x' y' : 0 <= a <= 2 ^ 20 -> 0 <= b <= 2 ^ 20 -> rel a x y -> rel b x' y' -> rel (a + b + 1) (x * x') (y * y').
Proof.
  intros Ha Hb (e & He & ->) (f & Hf & ->). apply (rel_trans a b _ (y * (y' * (1 + f)))); [assumption..| |].
  - exists e. split; [exact He|ring].
  - exists f. split; [exact Hf|ring].
Qed.
Lemma rel_inv a x y : 0 <= a <= 2 ^ 20 -> y <> 0 -> rel a x y -> rel (a + 1) (/ x) (/ y).
Proof.
  intros Ha Hy (e & He & ->). pose proof u_small as U. apply Rabs_le_inv in He.
  assert (A : a * u <= 2 ^ 20 * u) by nra. assert (P : 1 / 2 < 1 + e) by nra.
  exists (- e / (1 + e)). split; [|field; split; lra].
  unfold Rdiv. rewrite Rabs_mult, Rabs_Ropp, (Rabs_pos_eq (/ (1 + e))) by (left; apply Rinv_0_lt_compat; lra).
  apply (Rmult_le_reg_r (1 + e)); [lra|]. rewrite Rmult_assoc, Rinv_l, Rmult_1_r by lra.
  assert (Rabs e <= a * u) by (apply Rabs_le; lra). nra.
Qed.
Lemma rel_div a b x y x' y' : 0 <= a <= 2 ^ 19 -> 0 <= b <= 2 ^ 19 -> y' <> 0 -> rel a x y -> rel b x' y' -> rel (a + b + 2) (x / x') (y / y').
Proof. intros Ha Hb Hy H1 H2. unfold Rdiv. replace (a + b + 2) with (a + (b + 1) + 1) by ring. apply rel_mul; [lra|lra|exact H1|]. apply rel_inv; [lra|exact Hy|exact H2]. Qed.

(** A range of magnitudes in which nothing over- or underflows. *)
Definition mid (x : R) : Prop := bpow radix2 (-900) <= x <= bpow radix2 900.
Lemma rel_bpow a x y e1 e2 : 0 <= a <= 2 ^ 20 -> bpow radix2 e1 <= y <= bpow radix2 e2 -> rel a x y -> bpow radix2 (e1 - 1) <= x <= bpow radix2 (e2 + 1).
Proof.
  intros Ha [Y1 Y2] (e & He & ->). pose proof u_small as U. apply Rabs_le_inv in He. assert (A : a * u <= 2 ^ 20 * u) by nra.
  pose proof (bpow_gt_0 radix2 e1). change (e1 - 1)%Z with (e1 + -1)%Z. rewrite !bpow_plus.
  simpl (bpow radix2 (-1)). simpl (bpow radix2 1). split; nra.
Qed.
Lemma rel_bounds a x y : 0 <= a <= 2 ^ 20 -> mid y -> rel a x y -> bpow radix2 (-901) <= x <= bpow radix2 901.
Proof. intros Ha Hy H. exact (rel_bpow a x y (-900) 900 Ha Hy H). Qed.
Lemma rel_sym a x y : 0 <= a <= 2 ^ 20 -> rel a x y -> rel (a + 1) y x.
Proof.
  intros Ha H. destruct (Req_dec y 0) as [-> |Hy].
  - destruct H as (e & _ & ->). rewrite Rmult_0_l. apply rel_refl. lra.
  - destruct H as (e & He & ->). pose proof u_small as U. pose proof He as He'. apply Rabs_le_inv in He'. assert (A : a * u <= 2 ^ 20 * u) by nra.
    destruct (rel_inv a (1 * (1 + e)) 1) as (f & Hf & E); [exact Ha|lra|exists e; split; [exact He|ring]|].
    exists f. split; [exact Hf|]. replace (y * (1 + e) * (1 + f)) with (y * ((1 * (1 + e)) * (/ 1 * (1 + f)))) by (field; lra). rewrite <- E. field. nra.
Qed.
Lemma rel_fl a x y : 0 <= a <= 2 ^ 20 -> mid y -> rel a x y -> rel (a + 2) (fl x) y /\ Rabs (fl x) < bpow radix2 1024.
Proof.
  intros Ha Hy H. destruct (rel_bounds _ _ _ Ha Hy H) as [X1 X2]. pose proof (bpow_gt_0 radix2 (-901)).
  split.
  - replace (a + 2) with (1 + a + 1) by ring. apply rel_trans with x; [lra|lra| |exact H].
    exists ((fl x - x) / x). split; [|field; lra].
    pose proof (fl_rel x) as E. rewrite (Rabs_pos_eq x) in E by lra.
    unfold Rdiv. rewrite Rabs_mult, (Rabs_pos_eq (/ x)) by (left; apply Rinv_0_lt_compat; lra).
    apply (Rmult_le_reg_r x); [lra|]. rewrite Rmult_assoc, Rinv_l, !Rmult_1_r, Rmult_1_l by lra. apply E.
    apply Rle_trans with (bpow radix2 (-901)); [apply bpow_le; lia|exact X1].
  - apply fl_abs_lt with 901%Z; [lia|]. rewrite Rabs_pos_eq; lra.
Qed.

(** A float64 [x] with value within [c] u of [y]. *)
Definition frel (c : R) (x : float64) (y : R) : Prop := is_finite x = true /\ rel c (B2R x) y.

Lemma f_int_rel n : (1 <= n <= 2 ^ 53)%Z -> frel 0 (f_int go_float64 n) (IZR n).
Proof. intros H. destruct (int_ok n) as [E F]; [lia|]. split; [exact F|]. rewrite E, fl_int by lia. apply rel_refl. lra. Qed.
Lemma f_mul_rel a b x y X Y : 0 <= a <= 2 ^ 18 -> 0 <= b <= 2 ^ 18 -> mid (X * Y) -> frel a x X -> frel b y Y ->
  frel (a + b + 3) (f_mul go_float64 x y) (X * Y).
Proof.
  intros Ha Hb M [Fx Hx] [Fy Hy]. destruct (rel_fl (a + b + 1) (B2R x * B2R y) (X * Y)) as [R B]; [lra|exact M|apply rel_mul; [lra..|exact Hx|exact Hy]|].
  destruct (mul_ok x y Fx Fy B) as [E F]. split; [exact F|]. rewrite E. replace (a + b + 3) with (a + b + 1 + 2) by ring. exact R.
Qed.
Lemma f_div_rel a b x y X Y : 0 <= a <= 2 ^ 18 -> 0 <= b <= 2 ^ 18 -> mid (X / Y) -> mid Y -> frel a x X -> frel b y Y ->
  frel (a + b + 4) (f_div go_float64 x y) (X / Y).
Proof.
  intros Ha Hb M MY [Fx Hx] [Fy Hy]. pose proof (bpow_gt_0 radix2 (-900)). pose proof (bpow_gt_0 radix2 (-901)).
  destruct (rel_fl (a + b + 2) (B2R x / B2R y) (X / Y)) as [R B]; [lra|exact M|apply rel_div; [lra|lra|destruct MY; lra|exact Hx|exact Hy]|].
  destruct (div_ok x y Fx) as [E F]; [destruct (rel_bounds b (B2R y) Y) as [Q _]; [lra|exact MY|exact Hy|lra]|exact B|].
  split; [exact F|]. rewrite E. replace (a + b + 4) with (a + b + 2 + 2) by ring. exact R.
Qed.

(** ** The sizes of a dice *)

(** -dim voxels along the longest side, [scale] millimetres long. *)
Section Dice.
  Context (dim : Z) (scale : float64) (Hd : (1 <= dim <= 2 ^ 50)%Z) (Hs : is_finite scale = true /\ bpow radix2 (-300) <= B2R scale <= bpow radix2 300).
  (** The resolution meant, in voxels per millimetre. *)
  Notation V := (IZR dim / B2R scale).

  Lemma int_range n : (1 <= n <= 2 ^ 50)%Z -> 1 <= IZR n <= bpow radix2 50.
  Proof using. intros H. split; [apply (IZR_le 1); lia|]. change (bpow radix2 50) with (IZR (2 ^ 50)). apply IZR_le. lia. Qed.
  Lemma bpow_inv_le e x : bpow radix2 e <= x -> / x <= bpow radix2 (- e).
  Proof using. intros H. rewrite bpow_opp. apply Rinv_le_contravar; [apply bpow_gt_0|exact H]. Qed.
  Lemma bpow_inv_ge e x : 0 < x -> x <= bpow radix2 e -> bpow radix2 (- e) <= / x.
  Proof using. intros P H. rewrite bpow_opp. apply Rinv_le_contravar; assumption. Qed.

  Lemma V_range : bpow radix2 (-300) <= V <= bpow radix2 350.
  Proof using Hd Hs.
    destruct Hs as [_ [S1 S2]]. pose proof (int_range dim Hd) as [D1 D2]. pose proof (bpow_gt_0 radix2 (-300)).
    pose proof (bpow_inv_le _ _ S1) as I1. pose proof (bpow_inv_ge _ (B2R scale) ltac:(lra) S2) as I2.
    change (- -300)%Z with 300%Z in I1. change (- (300))%Z with (-300)%Z in I2. unfold Rdiv. split.
    - apply Rle_trans with (1 * / B2R scale); [lra|]. apply Rmult_le_compat_r; lra.
    - change 350%Z with (50 + 300)%Z. rewrite bpow_plus. apply Rmult_le_compat; lra.
  Qed.
  Lemma V_pos : 0 < V. Proof using Hd Hs. pose proof V_range. pose proof (bpow_gt_0 radix2 (-300)). lra. Qed.

  Lemma mid_of e1 e2 x : (-900 <= e1)%Z -> (e2 <= 900)%Z -> bpow radix2 e1 <= x <= bpow radix2 e2 -> mid x.
  Proof using. intros H1 H2 [X1 X2]. split; [apply Rle_trans with (2 := X1); apply bpow_le; lia|apply Rle_trans with (1 := X2); apply bpow_le; lia]. Qed.
  Lemma mid_V : mid V. Proof using Hd Hs. apply (mid_of (-300) 350); [lia|lia|apply V_range]. Qed.
  Lemma mid_scale : mid (B2R scale). Proof using Hs. apply (mid_of (-300) 300); [lia|lia|exact (proj2 Hs)]. Qed.
  Lemma invV_range : bpow radix2 (-350) <= 1 / V <= bpow radix2 300.
  Proof using Hd Hs.
    pose proof V_range as [V1 V2]. pose proof V_pos. unfold Rdiv at 1 3. rewrite !Rmult_1_l. split.
    - apply (bpow_inv_ge 350); lra.
    - apply (bpow_inv_le (-300)). exact V1.
  Qed.
  Lemma mm_range n : (1 <= n <= 2 ^ 50)%Z -> bpow radix2 (-350) <= IZR n * (1 / V) <= bpow radix2 350.
  Proof using Hd Hs.
    intros Hn. pose proof (int_range n Hn). pose proof invV_range. pose proof (bpow_gt_0 radix2 (-350)). split; [nra|].
    change 350%Z with (50 + 300)%Z. rewrite bpow_plus. apply Rmult_le_compat; lra.
  Qed.

  Lemma scale_rel : frel 0 scale (B2R scale). Proof using Hs. split; [exact (proj1 Hs)|]. apply rel_refl. lra. Qed.
  Lemma vpmm_rel : frel 4 (f_vpmm dim scale) V.
  Proof using Hd Hs. unfold f_vpmm. pose proof (f_div_rel 0 0 _ _ (IZR dim) (B2R scale) ltac:(lra) ltac:(lra) mid_V mid_scale (f_int_rel dim ltac:(lia)) scale_rel) as H. destruct H as [F H]. split; [exact F|]. apply rel_weaken with (2 := H). lra. Qed.
  Lemma mmpv_rel : frel 8 (f_mmpv dim scale) (1 / V).
  Proof using Hd Hs.
    unfold f_mmpv. destruct (f_div_rel 0 4 _ _ 1 V ltac:(lra) ltac:(lra) (mid_of (-350) 300 _ ltac:(lia) ltac:(lia) invV_range) mid_V (f_int_rel 1 ltac:(lia)) vpmm_rel) as [F H].
    split; [exact F|]. apply rel_weaken with (2 := H). lra.
  Qed.
  Lemma tile_scale_rel M : (1 <= M <= 2 ^ 50)%Z -> frel 11 (f_tile_scale dim scale M) (IZR M * (1 / V)).
  Proof using Hd Hs.
    intros HM. unfold f_tile_scale. destruct (f_mul_rel 0 8 _ _ (IZR M) (1 / V) ltac:(lra) ltac:(lra) (mid_of (-350) 350 _ ltac:(lia) ltac:(lia) (mm_range M HM)) (f_int_rel M ltac:(lia)) mmpv_rel) as [F H].
    split; [exact F|]. apply rel_weaken with (2 := H). lra.
  Qed.

  (** A shell (or part) of largest dimension [d] whose Scale is about d/V has resolution about V. *)
  Lemma shell_vpmm_rel c d s : 0 <= c <= 2 ^ 17 -> (1 <= d <= 2 ^ 50)%Z -> frel c s (IZR d * (1 / V)) -> frel (c + 4) (f_vpmm d s) V.
  Proof using Hd Hs.
    intros Hc Hd' H. pose proof V_pos. pose proof (int_range d Hd') as [D1 _]. unfold f_vpmm.
    assert (E : IZR d / (IZR d * (1 / V)) = V) by (field; split; [|split]; [destruct Hs; pose proof (bpow_gt_0 radix2 (-300)); lra|pose proof (int_range dim Hd); lra|lra]).
    assert (G : frel (0 + c + 4) (f_div go_float64 (f_int go_float64 d) s) (IZR d / (IZR d * (1 / V)))).
    { apply f_div_rel; [lra|lra|rewrite E; apply mid_V|apply (mid_of (-350) 350); [lia|lia|apply mm_range, Hd']|apply f_int_rel; lia|exact H]. }
    rewrite E in G. destruct G as [F G]. split; [exact F|]. apply rel_weaken with (2 := G). lra.
  Qed.

  (** Add's adjustment of Scale when the largest dimension grows from [d] to [d']. *)
  Lemma rescale_rel c d d' s : 0 <= c <= 2 ^ 16 -> (1 <= d <= 2 ^ 50)%Z -> (1 <= d' <= 2 ^ 50)%Z -> frel c s (IZR d * (1 / V)) ->
    frel (c + 16) (f_rescale d d' s) (IZR d' * (1 / V)).
  Proof using Hd Hs.
    intros Hc H1 H2 [Fs Rs]. pose proof (int_range d H1) as D1. pose proof (int_range d' H2) as D2. pose proof V_pos as VP.
    assert (IP : 0 < 1 / V) by (pose proof invV_range; pose proof (bpow_gt_0 radix2 (-350)); lra).
    pose proof (rel_bpow c _ _ (-350) 350 ltac:(lra) (mm_range d H1) Rs) as SB. change (-350 - 1)%Z with (-351)%Z in SB. change (350 + 1)%Z with 351%Z in SB.
    pose proof (bpow_gt_0 radix2 (-351)) as B0. set (S := B2R s) in *.
    assert (MS : mid S) by (apply (mid_of (-351) 351); [lia|lia|exact SB]). assert (SR : frel 0 s S) by (split; [exact Fs|apply rel_refl; lra]).
    assert (Q : forall n, (1 <= n <= 2 ^ 50)%Z -> bpow radix2 (-351) <= IZR n / S <= bpow radix2 401).
    { intros n Hn. pose proof (int_range n Hn) as N. destruct SB as [S1 S2]. pose proof (bpow_inv_le _ _ S1) as I1. pose proof (bpow_inv_ge _ S ltac:(lra) S2) as I2.
      change (- -351)%Z with 351%Z in I1. change (- (351))%Z with (-351)%Z in I2. unfold Rdiv. split.
      - apply Rle_trans with (1 * / S); [lra|]. apply Rmult_le_compat_r; lra.
      - change 401%Z with (50 + 351)%Z. rewrite bpow_plus. apply Rmult_le_compat; lra. }
    assert (MQ : forall n, (1 <= n <= 2 ^ 50)%Z -> mid (IZR n / S)) by (intros n Hn; apply (mid_of (-351) 401); [lia|lia|apply Q, Hn]).
    assert (VR : forall n, (1 <= n <= 2 ^ 50)%Z -> frel (0 + 0 + 4) (f_vpmm n s) (IZR n / S)).
    { intros n Hn. unfold f_vpmm. apply f_div_rel; [lra|lra|apply MQ, Hn|exact MS|apply f_int_rel; lia|exact SR]. }
    destruct (VR d H1) as [Fb Rb]. destruct (VR d' H2) as [Fa Ra]. unfold f_rescale. rewrite Bcompare_correct by assumption.
    assert (Mul : frel (c + 16) (f_mul go_float64 s (f_div go_float64 (f_vpmm d' s) (f_vpmm d s))) (IZR d' * (1 / V))).
    { assert (E : IZR d' / S / (IZR d / S) = IZR d' / IZR d) by (field; split; lra).
      assert (RR : bpow radix2 (-50) <= IZR d' / IZR d <= bpow radix2 50).
      { unfold Rdiv. pose proof (bpow_inv_ge 50 (IZR d) ltac:(lra) ltac:(lra)) as I2. pose proof (bpow_inv_le 0 (IZR d) ltac:(simpl; lra)) as I1. simpl (bpow radix2 (- 0)) in I1.
        assert (0 < / IZR d) by (apply Rinv_0_lt_compat; lra). change (- (50))%Z with (-50)%Z in I2. split; [nra|]. apply Rle_trans with (IZR d' * 1); [apply Rmult_le_compat_l; lra|lra]. }
      assert (G : frel (4 + 4 + 4) (f_div go_float64 (f_vpmm d' s) (f_vpmm d s)) (IZR d' / IZR d)).
      { rewrite <- E. apply f_div_rel; [lra|lra|rewrite E; apply (mid_of (-50) 50); [lia|lia|exact RR]|apply MQ, H1| |].
        - destruct (VR d' H2) as [F R]. split; [exact F|apply rel_weaken with (2 := R); lra].
        - destruct (VR d H1) as [F R]. split; [exact F|apply rel_weaken with (2 := R); lra]. }
      assert (E2 : IZR d * (1 / V) * (IZR d' / IZR d) = IZR d' * (1 / V)) by (field; split; [destruct Hs as [_ [? _]]; pose proof (bpow_gt_0 radix2 (-300)); lra|split; [pose proof (int_range dim Hd); lra|lra]]).
      assert (G2 : frel (c + (4 + 4 + 4) + 3) (f_mul go_float64 s (f_div go_float64 (f_vpmm d' s) (f_vpmm d s))) (IZR d' * (1 / V))).
      { rewrite <- E2. apply f_mul_rel; [lra|lra|rewrite E2; apply (mid_of (-350) 350); [lia|lia|apply mm_range, H2]|split; assumption|exact G]. }
      destruct G2 as [F R]. split; [exact F|]. apply rel_weaken with (2 := R). lra. }
    destruct (Rcompare_spec (B2R (f_vpmm d s)) (B2R (f_vpmm d' s))) as [L|E|G]; [exact Mul| |exact Mul].
    split; [exact Fs|]. replace (c + 16) with (c + 15 + 1) by ring.
    assert (R1 : rel 10 (IZR d) (IZR d')).
    { assert (R0 : rel (5 + 4 + 1) (IZR d / S) (IZR d' / S)).
      { apply rel_trans with (B2R (f_vpmm d s)); [lra|lra| |rewrite E; apply rel_weaken with (2 := Ra); lra].
        replace 5 with (0 + 0 + 4 + 1) by ring. apply rel_sym; [lra|exact Rb]. }
      destruct R0 as (e & He & R0). exists e. split; [lra|]. apply (Rmult_eq_reg_r (/ S)); [|apply Rinv_neq_0_compat; lra]. unfold Rdiv in R0. rewrite R0. ring. }
    apply rel_trans with (1 := ltac:(lra) : 0 <= c <= 2 ^ 20) (b := 15) (y := IZR d * (1 / V)); [lra|exact Rs|].
    replace 15 with (10 + 4 + 1) by ring. apply rel_mul; [lra|lra|exact R1|apply rel_refl; lra].
  Qed.

  (** ** C57: the resolution of a growing shell *)

  (** The shell starts as the tile New is given ([M] voxels along its longest side, with the Scale
      stldice writes) and is grown by Add to largest dimensions [ds], one after the other (Add may
      take two such steps: vshell/merge.go:76-81 and 172-177).  The result is its dimension and Scale. *)
  Definition grown (M : Z) (ds : list Z) : Z * float64 :=
    fold_left (fun '(d, s) d' => (d', f_rescale d d' s)) ds (M, f_tile_scale dim scale M).

  Lemma grown_rel ds : forall M, (1 <= M <= 2 ^ 50)%Z -> Forall (fun d => (1 <= d <= 2 ^ 50)%Z) ds -> (length ds <= 4000)%nat ->
    (1 <= fst (grown M ds) <= 2 ^ 50)%Z /\ frel (11 + 16 * INR (length ds)) (snd (grown M ds)) (IZR (fst (grown M ds)) * (1 / V)).
  Proof using Hd Hs.
    induction ds as [|d ds IH] using rev_ind; intros M HM HF HL.
    - cbn [grown fold_left fst snd length INR]. split; [exact HM|]. destruct (tile_scale_rel M HM) as [F R]. split; [exact F|]. apply rel_weaken with (2 := R). lra.
    - apply Forall_app in HF as [HF H1]. inversion H1 as [|? ? Hdd _]; subst. rewrite app_length in *. cbn [length] in *.
      destruct (IH M HM HF ltac:(lia)) as [B R]. unfold grown in *. rewrite fold_left_app. cbn [fold_left].
      destruct (fold_left _ ds _) as [d0 s0]. cbn [fst snd] in *. split; [exact Hdd|].
      rewrite plus_INR. simpl (INR 1). replace (11 + 16 * (INR (length ds) + 1)) with (11 + 16 * INR (length ds) + 16) by ring.
      apply rescale_rel with (d := d0); [|exact B|exact Hdd|exact R].
      pose proof (pos_INR (length ds)). pose proof (INR_le_IZR (length ds) 4000 ltac:(lia)). lra.
  Qed.

  Theorem C57_drift M ds : (1 <= M <= 2 ^ 50)%Z -> Forall (fun d => (1 <= d <= 2 ^ 50)%Z) ds -> (length ds <= 4000)%nat ->
    let '(d, s) := grown M ds in
    is_finite (f_vpmm d s) = true /\ Rabs (B2R (f_vpmm d s) - V) <= (15 + 16 * INR (length ds)) * bpow radix2 (-53) * V.
  Proof using Hd Hs.
    intros HM HF HL. destruct (grown_rel ds M HM HF HL) as [B R]. destruct (grown M ds) as [d s]. cbn [fst snd] in *.
    pose proof (pos_INR (length ds)). pose proof (INR_le_IZR (length ds) 4000 ltac:(lia)) as L.
    destruct (shell_vpmm_rel (11 + 16 * INR (length ds)) d s ltac:(lra) B R) as [F (e & He & E)]. split; [exact F|]. rewrite E.
    replace (V * (1 + e) - V) with (e * V) by ring. pose proof V_pos. rewrite Rabs_mult, (Rabs_pos_eq V) by lra. apply Rmult_le_compat_r; [lra|].
    change (bpow radix2 (-53)) with u. lra.
  Qed.

  (** Up to 500 growth steps the resolution stays within 2^-40 of the one meant. *)
  Theorem C57_stays_near M ds : (1 <= M <= 2 ^ 50)%Z -> Forall (fun d => (1 <= d <= 2 ^ 50)%Z) ds -> (length ds <= 500)%nat ->
    let '(d, s) := grown M ds in
    is_finite (f_vpmm d s) = true /\ Rabs (B2R (f_vpmm d s) - V) <= bpow radix2 (-40) * V.
  Proof using Hd Hs.
    intros HM HF HL. pose proof (C57_drift M ds HM HF ltac:(lia)) as D. destruct (grown M ds) as [d s]. destruct D as [F D]. split; [exact F|].
    eapply Rle_trans; [exact D|]. pose proof V_pos. apply Rmult_le_compat_r; [lra|]. change (bpow radix2 (-40)) with (bpow radix2 (13 + -53)). rewrite bpow_plus.
    apply Rmult_le_compat_r; [apply bpow_ge_0|]. pose proof (INR_le_IZR (length ds) 500 ltac:(lia)) as L. simpl (bpow radix2 13). lra.
  Qed.

  (** Two resolutions near the one meant have the same whole part, so that Add takes the part, if
      the resolution meant is not itself near a whole number of voxels per millimetre. *)
  Theorem C57_accepted v w : Rabs (B2R v - V) <= bpow radix2 (-40) * V -> Rabs (B2R w - V) <= bpow radix2 (-40) * V ->
    (forall n : Z, bpow radix2 (-40) * V < Rabs (V - IZR n)) -> f_same_resolution v w = true.
  Proof using Hd Hs.
    intros Hv Hw Far. assert (K : forall x : float64, Rabs (B2R x - V) <= bpow radix2 (-40) * V -> f_trunc x = Zfloor V).
    { intros x Hx. apply Rabs_le_inv in Hx. pose proof V_pos as VP. rewrite f_trunc_correct.
      assert (T : bpow radix2 (-40) * V < V). { apply Rlt_le_trans with (1 * V); [|lra]. apply Rmult_lt_compat_r; [lra|]. simpl. lra. }
      rewrite Ztrunc_floor by lra. apply Zfloor_imp. pose proof (Zfloor_lb V) as FL. pose proof (Zfloor_ub V) as FU. rewrite plus_IZR.
      pose proof (Far (Zfloor V)) as F1. pose proof (Far (Zfloor V + 1)%Z) as F2. rewrite plus_IZR in F2.
      rewrite Rabs_pos_eq in F1 by lra. rewrite Rabs_left in F2 by lra. lra. }
    unfold f_same_resolution. rewrite (K v Hv), (K w Hw). apply Z.eqb_refl.
  Qed.

  (** ** C56: where a tile lands *)

  (** The mesh lies within 2^38 voxels of the origin, and so does the tile of the corner. *)
  Context (mn : float64) (Hmn : is_finite mn = true /\ Rabs (B2R mn) * V <= bpow radix2 38).

  Lemma bpow40 : bpow radix2 (-40) = / 2 ^ 40. Proof using. simpl. lra. Qed.
  Lemma bpow38 : bpow radix2 38 = 2 ^ 38. Proof using. simpl. lra. Qed.
  Lemma tinyV : 0 < bpow radix2 (-1075) * V <= u.
  Proof using Hd Hs.
    pose proof V_pos. pose proof V_range as [_ V2]. pose proof (bpow_gt_0 radix2 (-1075)). split; [apply Rmult_lt_0_compat; lra|].
    apply Rle_trans with (bpow radix2 (-1075) * bpow radix2 350); [apply Rmult_le_compat_l; lra|]. rewrite <- bpow_plus. unfold u. apply bpow_le. lia.
  Qed.

  Lemma tile_position i d : (0 <= i * d <= 2 ^ 38)%Z ->
    is_finite (f_tile_t mn dim scale i d) = true /\
    Rabs ((B2R (f_tile_t mn dim scale i d) - B2R mn) * V - IZR (i * d)) <= / 2 ^ 10.
  Proof using Hd Hs Hmn.
    intros Hk. destruct Hmn as [Fm Bm]. pose proof V_pos as VP. pose proof tinyV as TV. rewrite bpow38 in Bm. unfold f_tile_t. set (k := (i * d)%Z) in *. clearbody k.
    set (K := f_mul go_float64 (f_int go_float64 k) (f_mmpv dim scale)).
    assert (KB : is_finite K = true /\ exists e, Rabs e <= 11 * u /\ B2R K * V = IZR k * (1 + e)).
    { destruct (Z.eq_dec k 0) as [-> |Hk0].
      - destruct (int_ok 0) as [E F]; [lia|]. rewrite fl_0 in E. destruct mmpv_rel as [Fp _]. subst K.
        destruct (mul_ok (f_int go_float64 0) (f_mmpv dim scale)) as [E' F']; [exact F|exact Fp|rewrite E, Rmult_0_l, fl_0, Rabs_R0; apply bpow_gt_0|].
        split; [exact F'|]. exists 0. rewrite E', E, !Rmult_0_l, fl_0, Rabs_R0. pose proof u_small. split; [lra|lra].
      - destruct (tile_scale_rel k ltac:(lia)) as [F (e & He & E)]. split; [exact F|]. exists e. split; [exact He|]. unfold f_tile_scale in E. fold K in E. rewrite E.
        field. split; [destruct Hs as [_ [? _]]; pose proof (bpow_gt_0 radix2 (-300)); lra|pose proof (int_range dim Hd); lra]. }
    destruct KB as [FK (e & He & EK)]. assert (K38 : 0 <= IZR k <= 2 ^ 38). { replace (2 ^ 38) with (IZR (2 ^ 38)) by (simpl; lra). split; [apply (IZR_le 0)|apply IZR_le]; lia. }
    pose proof u_small as U. apply Rabs_le_inv in He.
    assert (KV : 0 <= B2R K * V <= 2 * 2 ^ 38) by (rewrite EK; split; nra).
    assert (SV : Rabs (B2R mn + B2R K) * V <= 3 * 2 ^ 38).
    { apply Rle_trans with ((Rabs (B2R mn) + Rabs (B2R K)) * V); [apply Rmult_le_compat_r; [lra|apply Rabs_triang]|]. rewrite Rmult_plus_distr_r.
      assert (Rabs (B2R K) * V <= 2 * 2 ^ 38). { rewrite <- (Rabs_pos_eq V) by lra. rewrite <- Rabs_mult. rewrite Rabs_pos_eq by lra. lra. } lra. }
    destruct (add_ok mn K Fm FK) as [E F].
    { apply fl_abs_lt with 400%Z; [lia|]. apply (Rmult_le_reg_r V); [exact VP|]. apply Rle_trans with (1 := SV). pose proof V_range as [V1 _].
      apply Rle_trans with (bpow radix2 400 * bpow radix2 (-300)); [rewrite <- bpow_plus; apply Rle_trans with (bpow radix2 60); [simpl; lra|apply bpow_le; lia]|apply Rmult_le_compat_l; [apply bpow_ge_0|exact V1]]. }
    split; [exact F|]. rewrite E. pose proof (fl_err (B2R mn + B2R K)) as FE.
    replace ((fl (B2R mn + B2R K) - B2R mn) * V - IZR k) with ((fl (B2R mn + B2R K) - (B2R mn + B2R K)) * V + IZR k * e) by (replace (IZR k * e) with (B2R K * V - IZR k) by (rewrite EK; ring); ring).
    eapply Rle_trans; [apply Rabs_triang|]. rewrite !Rabs_mult, (Rabs_pos_eq V), (Rabs_pos_eq (IZR k)) by lra.
    assert (A1 : Rabs (fl (B2R mn + B2R K) - (B2R mn + B2R K)) * V <= u * (3 * 2 ^ 38) + u).
    { apply Rle_trans with ((u * Rabs (B2R mn + B2R K) + bpow radix2 (-1075)) * V); [apply Rmult_le_compat_r; lra|]. rewrite Rmult_plus_distr_r, Rmult_assoc. nra. }
    assert (A2 : IZR k * Rabs e <= 2 ^ 38 * (11 * u)). { apply Rmult_le_compat; [lra|apply Rabs_pos|lra|apply Rabs_le; lra]. }
    rewrite u_val in A1, A2. lra.
  Qed.

  (** A tile [n] voxels further up lands n or n - 1 voxels up; a tile further down n or n + 1 voxels
      (n < 0) down; and tiles in line stay in line. *)
  Theorem C56_offset v i j d : is_finite v = true -> Rabs (B2R v - V) <= bpow radix2 (-40) * V ->
    (0 <= i * d <= 2 ^ 38)%Z -> (0 <= j * d <= 2 ^ 38)%Z ->
    let n := (i * d - j * d)%Z in
    let o := f_offset (f_tile_t mn dim scale i d) (f_tile_t mn dim scale j d) v in
    (n = 0 -> o = 0)%Z /\ (0 < n -> o = n \/ o = n - 1)%Z /\ (n < 0 -> o = n \/ o = n + 1)%Z.
  Proof using Hd Hs Hmn.
    intros Fv Hv Hi Hj n o. destruct (tile_position i d Hi) as [Fi Pi]. destruct (tile_position j d Hj) as [Fj Pj].
    set (ti := f_tile_t mn dim scale i d) in *. set (tj := f_tile_t mn dim scale j d) in *.
    pose proof V_pos as VP. pose proof tinyV as TV. pose proof u_small as U. rewrite bpow40 in Hv. pose proof V_range as [V1 V2].
    assert (N : - 2 ^ 38 <= IZR n <= 2 ^ 38). { replace (2 ^ 38) with (IZR (2 ^ 38)) by (simpl; lra). rewrite <- opp_IZR. split; apply IZR_le; lia. }
    assert (N' : IZR n = IZR (i * d) - IZR (j * d)) by (unfold n; rewrite minus_IZR; reflexivity).
    assert (P : Rabs ((B2R ti - B2R tj) * V - IZR n) <= / 2 ^ 9).
    { replace ((B2R ti - B2R tj) * V - IZR n) with (((B2R ti - B2R mn) * V - IZR (i * d)) - ((B2R tj - B2R mn) * V - IZR (j * d))) by (rewrite N'; ring).
      eapply Rle_trans; [apply Rabs_triang|]. rewrite Rabs_Ropp. lra. }
    set (D := f_sub go_float64 ti tj).
    assert (DV : Rabs (B2R ti - B2R tj) * V <= 2 ^ 39). { rewrite <- (Rabs_pos_eq V) at 1 by lra. rewrite <- Rabs_mult. apply Rabs_le_inv in P. apply Rabs_le. lra. }
    assert (Big : forall x, Rabs x * V <= 2 ^ 45 -> Rabs x <= bpow radix2 400).
    { intros x Hx. apply (Rmult_le_reg_r V); [exact VP|]. apply Rle_trans with (1 := Hx).
      apply Rle_trans with (bpow radix2 400 * bpow radix2 (-300)); [rewrite <- bpow_plus; apply Rle_trans with (bpow radix2 60); [simpl; lra|apply bpow_le; lia]|apply Rmult_le_compat_l; [apply bpow_ge_0|exact V1]]. }
    destruct (sub_ok ti tj Fi Fj) as [ED FD]. { apply fl_abs_lt with 400%Z; [lia|]. apply Big. lra. }
    fold D in ED, FD. pose proof (fl_err (B2R ti - B2R tj)) as DE.
    assert (PD : Rabs (B2R D * V - IZR n) <= / 2 ^ 8).
    { rewrite ED. replace (fl (B2R ti - B2R tj) * V - IZR n) with ((fl (B2R ti - B2R tj) - (B2R ti - B2R tj)) * V + ((B2R ti - B2R tj) * V - IZR n)) by ring.
      eapply Rle_trans; [apply Rabs_triang|]. rewrite Rabs_mult, (Rabs_pos_eq V) by lra.
      assert (Rabs (fl (B2R ti - B2R tj) - (B2R ti - B2R tj)) * V <= u * 2 ^ 39 + u).
      { apply Rle_trans with ((u * Rabs (B2R ti - B2R tj) + bpow radix2 (-1075)) * V); [apply Rmult_le_compat_r; lra|]. rewrite Rmult_plus_distr_r, Rmult_assoc. nra. }
      rewrite u_val in H. lra. }
    assert (DV' : Rabs (B2R D) * V <= 2 ^ 38 + 1). { rewrite <- (Rabs_pos_eq V) at 1 by lra. rewrite <- Rabs_mult. apply Rabs_le_inv in PD. apply Rabs_le. lra. }
    assert (PM : Rabs (B2R D * B2R v - IZR n) <= 1 / 3).
    { replace (B2R D * B2R v - IZR n) with (B2R D * (B2R v - V) + (B2R D * V - IZR n)) by ring. eapply Rle_trans; [apply Rabs_triang|]. rewrite Rabs_mult.
      assert (Rabs (B2R D) * Rabs (B2R v - V) <= Rabs (B2R D) * (/ 2 ^ 40 * V)) by (apply Rmult_le_compat_l; [apply Rabs_pos|exact Hv]).
      replace (Rabs (B2R D) * (/ 2 ^ 40 * V)) with (/ 2 ^ 40 * (Rabs (B2R D) * V)) in H by ring.
      assert (/ 2 ^ 40 * (Rabs (B2R D) * V) <= / 2 ^ 40 * (2 ^ 38 + 1)) by (apply Rmult_le_compat_l; [lra|exact DV']). lra. }
    assert (M39 : Rabs (B2R D * B2R v) <= 2 ^ 39) by (apply Rabs_le_inv in PM; apply Rabs_le; lra).
    destruct (mul_ok D v FD Fv) as [EM _]. { apply fl_abs_lt with 40%Z; [lia|]. apply Rle_trans with (1 := M39). simpl. lra. }
    assert (PF : Rabs (B2R (f_mul go_float64 D v) - IZR n) <= 5 / 12).
    { rewrite EM. pose proof (fl_err (B2R D * B2R v)) as ME. pose proof tiny_small as [_ TS].
      replace (fl (B2R D * B2R v) - IZR n) with ((fl (B2R D * B2R v) - B2R D * B2R v) + (B2R D * B2R v - IZR n)) by ring.
      eapply Rle_trans; [apply Rabs_triang|]. assert (u * Rabs (B2R D * B2R v) <= u * 2 ^ 39) by (apply Rmult_le_compat_l; lra). rewrite u_val in *. lra. }
    assert (EO : o = Ztrunc (B2R (f_mul go_float64 D v))) by (unfold o, f_offset; rewrite f_trunc_correct; reflexivity).
    set (p := B2R (f_mul go_float64 D v)) in *. clearbody p. apply Rabs_le_inv in PF. split; [|split]; intros Hn.
    - rewrite Hn in PF. rewrite EO. destruct (Rle_lt_dec 0 p) as [G|G].
      + rewrite Ztrunc_floor by exact G. apply Zfloor_imp. rewrite plus_IZR. lra.
      + rewrite Ztrunc_ceil by lra. apply Zceil_imp. rewrite minus_IZR. lra.
    - assert (1 <= IZR n) by (apply (IZR_le 1); lia). rewrite EO, Ztrunc_floor by lra. destruct (Rle_lt_dec (IZR n) p) as [G|G].
      + left. apply Zfloor_imp. rewrite plus_IZR. lra.
      + right. apply Zfloor_imp. rewrite plus_IZR, minus_IZR. lra.
    - assert (IZR n <= -1) by (apply (IZR_le n (-1)); lia). rewrite EO, Ztrunc_ceil by lra. destruct (Rle_lt_dec p (IZR n)) as [G|G].
      + left. apply Zceil_imp. rewrite minus_IZR. lra.
      + right. apply Zceil_imp. rewrite minus_IZR, plus_IZR. lra.
  Qed.
End Dice.
Print Assumptions C56_offset.
Print Assumptions C57_drift.
Print Assumptions C57_stays_near.
Print Assumptions C57_accepted.

(** Tiles of 32 voxels of a 6.7 mm model at -dim 64 with -nx 2: the second one lands one voxel too
    low, on the last layer of the first. *)
Theorem C56_misaligned :
  let scale := dec 67 10 in let mn := dec 0 1 in
  f_count 64 scale scale = 64%Z /\
  f_offset (f_tile_t mn 64 scale 1 32) (f_tile_t mn 64 scale 0 32) (f_vpmm 32 (f_tile_scale 64 scale 32)) = 31%Z.
Proof. split; vm_compute; reflexivity. Qed.
Print Assumptions C56_misaligned.

(** The four tiles of a 6.4 mm model at -dim 64 with -nx 4 (16 voxels each): after the second and the
    third tile the shell's resolution has drifted below 10 voxels per millimetre, and the fourth
    tile is refused. *)
Theorem C57_refused :
  let scale := dec 64 10 in let part := f_vpmm 16 (f_tile_scale 64 scale 16) in
  let resolution ds := let '(d, s) := grown 64 scale 16 ds in f_vpmm d s in
  f_same_resolution (resolution []) part = true /\ f_same_resolution (resolution [32]%Z) part = true /\
  f_same_resolution (resolution [32; 48]%Z) part = false.
Proof. repeat split; vm_compute; reflexivity. Qed.
Print Assumptions C57_refused.

(** ** Where everything is exact *)

Lemma fl_dyadic m e : (Z.abs m <= 2 ^ 53)%Z -> (-1000 <= e)%Z -> fl (IZR m * bpow radix2 e) = IZR m * bpow radix2 e.
Proof.
  intros H He. apply round_generic; [typeclasses eauto|]. apply generic_format_FLT.
  destruct (Z.eq_dec (Z.abs m) (2 ^ 53)) as [E|E].
  - assert (Hm : m = (2 ^ 53)%Z \/ m = (- 2 ^ 53)%Z) by lia. assert (B53 : IZR (2 ^ 53) = bpow radix2 53) by reflexivity.
    destruct Hm as [-> | ->]; [exists (Float radix2 1 (53 + e))|exists (Float radix2 (-1) (53 + e))]; try reflexivity; try (change (-1074 <= 53 + e)%Z; lia).
    + unfold F2R. cbn [Fnum Fexp]. rewrite bpow_plus, B53. ring.
    + unfold F2R. cbn [Fnum Fexp]. rewrite bpow_plus, opp_IZR, B53. ring.
  - exists (Float radix2 m e); [reflexivity| |change (-1074 <= e)%Z; lia]. change (radix2 ^ 53)%Z with (2 ^ 53)%Z. cbn [Fnum]. lia.
Qed.

(** If a voxel is 2^e millimetres and the corner of the mesh is a multiple of 2^(e - q) millimetres
    (and everything lies within 2^(53 - q) voxels), the tiles land where they belong. *)
Theorem C56_exact dim scale mn M i j d e q m :
  (1 <= dim <= 2 ^ 50)%Z -> (1 <= M <= 2 ^ 50)%Z -> (-400 <= e <= 400)%Z -> (0 <= q <= 53)%Z ->
  is_finite scale = true -> B2R scale = IZR dim * bpow radix2 e ->
  is_finite mn = true -> B2R mn = IZR m * bpow radix2 (e - q) ->
  (0 <= i * d)%Z -> (0 <= j * d)%Z -> (Z.abs m + i * d * 2 ^ q <= 2 ^ 53)%Z -> (Z.abs m + j * d * 2 ^ q <= 2 ^ 53)%Z ->
  f_offset (f_tile_t mn dim scale i d) (f_tile_t mn dim scale j d) (f_vpmm M (f_tile_scale dim scale M)) = (i * d - j * d)%Z.
Proof.
  intros Hd HM He Hq Fs Es Fm Em Hi Hj Bi Bj.
  assert (D0 : 1 <= IZR dim) by (apply (IZR_le 1); lia). pose proof (bpow_gt_0 radix2 e) as P0. assert (M0 : 1 <= IZR M) by (apply (IZR_le 1); lia).
  assert (small : forall x k, (-1074 <= k < 1024)%Z -> Rabs x <= bpow radix2 k -> Rabs (fl x) < bpow radix2 1024) by (intros x k H1 H2; apply fl_abs_lt with k; assumption).
  assert (ab : forall n k, (Z.abs n <= 2 ^ 53)%Z -> Rabs (IZR n * bpow radix2 k) <= bpow radix2 (53 + k)).
  { intros n k Hn. rewrite Rabs_mult, (Rabs_pos_eq (bpow radix2 k)) by apply bpow_ge_0. rewrite bpow_plus. apply Rmult_le_compat_r; [apply bpow_ge_0|]. rewrite <- abs_IZR. change (bpow radix2 53) with (IZR (2 ^ 53)). apply IZR_le, Hn. }
  assert (int : forall n, (Z.abs n <= 2 ^ 53)%Z -> B2R (f_int go_float64 n) = IZR n /\ is_finite (f_int go_float64 n) = true).
  { intros n Hn. destruct (int_ok n) as [E F]; [lia|]. rewrite fl_int in E by exact Hn. tauto. }
  (* resolution of the model *)
  assert (EV : B2R (f_vpmm dim scale) = bpow radix2 (- e) /\ is_finite (f_vpmm dim scale) = true).
  { unfold f_vpmm. destruct (int dim ltac:(lia)) as [E1 F1]. assert (Q : IZR dim / B2R scale = bpow radix2 (- e)) by (rewrite Es, bpow_opp; field; split; lra).
    destruct (div_ok (f_int go_float64 dim) scale) as [E F]; [exact F1|rewrite Es; apply Rgt_not_eq; nra| |].
    - rewrite E1, Q. apply small with (- e)%Z; [lia|]. rewrite Rabs_pos_eq by apply bpow_ge_0. lra.
    - rewrite E1, Q, fl_bpow in E by lia. tauto. }
  destruct EV as [EV FV].
  assert (EP : B2R (f_mmpv dim scale) = bpow radix2 e /\ is_finite (f_mmpv dim scale) = true).
  { unfold f_mmpv. destruct (int 1%Z ltac:(lia)) as [E1 F1]. assert (Q : IZR 1 / bpow radix2 (- e) = bpow radix2 e) by (rewrite bpow_opp; field; lra).
    destruct (div_ok (f_int go_float64 1) (f_vpmm dim scale)) as [E F]; [exact F1|rewrite EV; apply Rgt_not_eq, bpow_gt_0| |].
    - rewrite E1, EV, Q. apply small with e; [lia|]. rewrite Rabs_pos_eq by apply bpow_ge_0. lra.
    - rewrite E1, EV, Q, fl_bpow in E by lia. tauto. }
  destruct EP as [EP FP].
  assert (ES : forall n, (Z.abs n <= 2 ^ 53)%Z -> B2R (f_mul go_float64 (f_int go_float64 n) (f_mmpv dim scale)) = IZR n * bpow radix2 e /\ is_finite (f_mul go_float64 (f_int go_float64 n) (f_mmpv dim scale)) = true).
  { intros n Hn. destruct (int n Hn) as [E1 F1]. destruct (mul_ok (f_int go_float64 n) (f_mmpv dim scale) F1 FP) as [E F].
    - rewrite E1, EP. apply small with (53 + e)%Z; [lia|apply ab, Hn].
    - rewrite E1, EP, fl_dyadic in E by lia. tauto. }
  (* resolution of the tile *)
  assert (EW : B2R (f_vpmm M (f_tile_scale dim scale M)) = bpow radix2 (- e) /\ is_finite (f_vpmm M (f_tile_scale dim scale M)) = true).
  { destruct (ES M ltac:(lia)) as [E2 F2]. unfold f_vpmm, f_tile_scale. destruct (int M ltac:(lia)) as [E1 F1].
    assert (Q : IZR M / (IZR M * bpow radix2 e) = bpow radix2 (- e)) by (rewrite bpow_opp; field; split; lra).
    destruct (div_ok (f_int go_float64 M) (f_mul go_float64 (f_int go_float64 M) (f_mmpv dim scale))) as [E F]; [exact F1|rewrite E2; apply Rgt_not_eq; nra| |].
    - rewrite E1, E2, Q. apply small with (- e)%Z; [lia|]. rewrite Rabs_pos_eq by apply bpow_ge_0. lra.
    - rewrite E1, E2, Q, fl_bpow in E by lia. tauto. }
  destruct EW as [EW FW].
  (* translations *)
  pose proof (Z.pow_pos_nonneg 2 q ltac:(lia) ltac:(lia)) as Q0.
  assert (BQ : bpow radix2 e = IZR (2 ^ q) * bpow radix2 (e - q)). { assert (B2q : IZR (2 ^ q) = bpow radix2 q) by (apply (IZR_Zpower radix2 q); lia). rewrite B2q, <- bpow_plus. f_equal. lia. }
  assert (ET : forall a, (0 <= a * d)%Z -> (Z.abs m + a * d * 2 ^ q <= 2 ^ 53)%Z ->
    B2R (f_tile_t mn dim scale a d) = IZR (m + a * d * 2 ^ q) * bpow radix2 (e - q) /\ is_finite (f_tile_t mn dim scale a d) = true).
  { intros a Ha Hb. unfold f_tile_t. assert (A : (Z.abs (a * d) <= 2 ^ 53)%Z) by nia. destruct (ES (a * d)%Z A) as [E1 F1].
    assert (Q : B2R mn + IZR (a * d) * bpow radix2 e = IZR (m + a * d * 2 ^ q) * bpow radix2 (e - q)) by (rewrite Em, BQ, plus_IZR, (mult_IZR (a * d)); ring).
    assert (A2 : (Z.abs (m + a * d * 2 ^ q) <= 2 ^ 53)%Z) by nia.
    destruct (add_ok mn (f_mul go_float64 (f_int go_float64 (a * d)) (f_mmpv dim scale)) Fm F1) as [E F].
    - rewrite E1, Q. apply small with (53 + (e - q))%Z; [lia|apply ab, A2].
    - rewrite E1, Q, fl_dyadic in E by lia. tauto. }
  destruct (ET i Hi Bi) as [E1 F1]. destruct (ET j Hj Bj) as [E2 F2].
  (* the offset *)
  unfold f_offset. rewrite f_trunc_correct. set (n := (i * d - j * d)%Z). assert (N : (Z.abs n <= 2 ^ 53)%Z) by nia.
  assert (ED : B2R (f_sub go_float64 (f_tile_t mn dim scale i d) (f_tile_t mn dim scale j d)) = IZR n * bpow radix2 e /\ is_finite (f_sub go_float64 (f_tile_t mn dim scale i d) (f_tile_t mn dim scale j d)) = true).
  { assert (Q : B2R (f_tile_t mn dim scale i d) - B2R (f_tile_t mn dim scale j d) = IZR n * bpow radix2 e) by (rewrite E1, E2, BQ; unfold n; rewrite minus_IZR, !plus_IZR, !(mult_IZR _ (2 ^ q)); ring).
    destruct (sub_ok _ _ F1 F2) as [E F].
    - rewrite Q. apply small with (53 + e)%Z; [lia|apply ab, N].
    - rewrite Q, fl_dyadic in E by lia. tauto. }
  destruct ED as [ED FD].
  assert (Q : IZR n * bpow radix2 e * bpow radix2 (- e) = IZR n) by (rewrite bpow_opp; field; lra).
  destruct (mul_ok _ _ FD FW) as [E _].
  - rewrite ED, EW, Q. apply small with 53%Z; [lia|]. rewrite <- (Rmult_1_r (IZR n)). apply (ab n 0%Z N).
  - rewrite E, ED, EW, Q, fl_int by exact N. apply Ztrunc_IZR.
Qed.
Print Assumptions C56_exact.

(** Non-vacuity: a 4 mm model at -dim 64, with its corner at -1.5 mm. *)
Lemma dec_whole n : (Z.abs n <= 2 ^ 53)%Z -> is_finite (dec n 1) = true /\ B2R (dec n 1) = IZR n.
Proof.
  intros Hn. destruct (int_ok n) as [E1 F1]; [lia|]. destruct (int_ok 1) as [E2 F2]; [lia|]. rewrite fl_int in E1, E2 by lia.
  assert (Q : B2R (f_int go_float64 n) / B2R (f_int go_float64 1) = IZR n) by (rewrite E1, E2; field).
  unfold dec. destruct (div_ok (f_int go_float64 n) (f_int go_float64 1) F1) as [E F]; [rewrite E2; lra| |].
  - rewrite Q, fl_int by exact Hn. rewrite <- abs_IZR. apply Rle_lt_trans with (IZR (2 ^ 53)); [apply IZR_le, Hn|]. change (IZR (2 ^ 53)) with (bpow radix2 53). apply bpow_lt. lia.
  - rewrite Q, fl_int in E by exact Hn. tauto.
Qed.
Lemma dec_usual n : (1 <= n <= 2 ^ 53)%Z -> usual (dec n 1) /\ bpow radix2 (-300) <= B2R (dec n 1) <= bpow radix2 300.
Proof.
  intros Hn. destruct (dec_whole n ltac:(lia)) as [F E]. unfold usual. rewrite E. assert (L : 1 <= IZR n) by (apply (IZR_le 1); lia).
  assert (H : IZR n <= bpow radix2 53) by (change (bpow radix2 53) with (IZR (2 ^ 53)); apply IZR_le; lia).
  assert (B1 : forall k, (k <= 0)%Z -> bpow radix2 k <= 1) by (intros k Hk; apply (bpow_le radix2 k 0 Hk)).
  assert (B2 : forall k, (53 <= k)%Z -> bpow radix2 53 <= bpow radix2 k) by (intros k Hk; apply bpow_le, Hk).
  pose proof (B1 (-500)%Z ltac:(lia)). pose proof (B1 (-300)%Z ltac:(lia)). pose proof (B2 500%Z ltac:(lia)). pose proof (B2 300%Z ltac:(lia)). repeat split; try exact F; lra.
Qed.
Example C55_ex : usual (dec 4 1) /\ f_count 10 (dec 4 1) (dec 1 1) = 3%Z /\ f_count 10 (dec 4 1) (dec 4 1) = 10%Z.
Proof. split; [apply dec_usual; lia|split; vm_compute; reflexivity]. Qed.
Example C56_ex : let v := f_vpmm 21 (f_tile_scale 63 (dec 4 1) 21) in
  (is_finite (dec 4 1) = true /\ bpow radix2 (-300) <= B2R (dec 4 1) <= bpow radix2 300) /\
  (is_finite (dec (-3) 1) = true /\ Rabs (B2R (dec (-3) 1)) * (IZR 63 / B2R (dec 4 1)) <= bpow radix2 38) /\
  is_finite v = true /\ Rabs (B2R v - IZR 63 / B2R (dec 4 1)) <= bpow radix2 (-40) * (IZR 63 / B2R (dec 4 1)) /\
  f_offset (f_tile_t (dec (-3) 1) 63 (dec 4 1) 2 21) (f_tile_t (dec (-3) 1) 63 (dec 4 1) 0 21) v = 42%Z.
Proof.
  assert (H4 : is_finite (dec 4 1) = true /\ bpow radix2 (-300) <= B2R (dec 4 1) <= bpow radix2 300).
  { destruct (dec_usual 4) as [[F _] B]; [lia|]. tauto. }
  intros v. split; [exact H4|]. split; [|split; [|split]].
  - destruct (dec_whole (-3)) as [F E]; [lia|]. destruct (dec_whole 4) as [F4 E4]; [lia|]. split; [exact F|]. rewrite E, E4, <- abs_IZR, bpow38. change (Z.abs (-3)) with 3%Z. lra.
  - apply (C57_stays_near 63 (dec 4 1) ltac:(lia) H4 21 [] ltac:(lia) ltac:(constructor) ltac:(cbn; lia)).
  - apply (C57_stays_near 63 (dec 4 1) ltac:(lia) H4 21 [] ltac:(lia) ltac:(constructor) ltac:(cbn; lia)).
  - vm_compute. reflexivity.
Qed.
Example C57_ex : let V := IZR 63 / B2R (dec 4 1) in forall n : Z, bpow radix2 (-40) * V < Rabs (V - IZR n).
Proof.
  destruct (dec_whole 4) as [_ E]; [lia|]. rewrite E. intros V n. assert (HV : V = 15.75) by (unfold V; lra). rewrite HV. simpl (bpow radix2 (-40)).
  destruct (Z.le_gt_cases n 15) as [H|H].
  - apply IZR_le in H. rewrite Rabs_pos_eq by lra. lra.
  - assert (H' : (16 <= n)%Z) by lia. apply IZR_le in H'. rewrite Rabs_left by lra. lra.
Qed.
