(** C62: the meshes computed in float64 are those of exact arithmetic, up to rounding: the same
    triangles in the same order, every vertex displaced by less than 2^-47 of its distances. *)
From Coq Require Import ZArith QArith Reals Qreals List Lia Lra Bool Permutation.
From stdpp Require Import base list gmap sets fin_sets.
From Flocq Require Import Core Relative IEEE754.BinarySingleNaN.
From Verif Require Import Base BaseLemmas BinvoxModel Geom VoxelizeModel VoxelizeSpec MeshSpec MeshCells MeshPush MarchTables MarchModel MarchProofs
  ManifoldXform ManifoldTables ManifoldModel ManifoldProofs ManifoldSurface ManifoldProps.
From Verif Require Import BinvoxDiceModel BinvoxDiceFloat FloatDice FloatMerge FloatMeshModel FloatMesh FloatMeshGap FloatManifold.
Import ListNotations.
Open Scope R_scope.
#[local] Instance prec_gte : Prec_gt_0 prec := eq_refl.
#[local] Instance prec_lte : Prec_lt_emax prec emax := eq_refl.
#[local] Instance fexp_valide : Valid_exp fexp64 := fexp_correct prec emax prec_gte.

(** ** Specification *)

(** [q] is the model [b] read as exact numbers. *)
Definition exactly (b : binvox float64) (q : binvox Q) : Prop :=
  NX q = NX b /\ NY q = NY b /\ NZ q = NZ b /\
  white q = white b /\ dom (colors q) = dom (colors b) /\
  B2R (TX b) = Q2R (TX q) /\ B2R (TY b) = Q2R (TY q) /\ B2R (TZ b) = Q2R (TZ q) /\ B2R (Scale b) = Q2R (Scale q).

(** Sizes within which nothing over- or underflows. *)
Definition ordinary (b : binvox float64) : Prop :=
  (1 <= dim b <= 2 ^ 50)%Z /\
  is_finite (Scale b) = true /\ bpow radix2 (-300) <= B2R (Scale b) <= bpow radix2 300 /\
  (forall t, In t [TX b; TY b; TZ b] -> is_finite t = true /\ Rabs (B2R t) <= bpow radix2 300) /\
  (forall v, f_filled b v -> small_key (2 ^ 50) v).

(** The length of a voxel's side. *)
Definition side (b : binvox float64) : R := B2R (Scale b) / IZR (dim b).

(** The computed coordinate [x] is finite and within 2^-47 of the exact one [y], relative to the sum of
    its distance from the translation [t], of [t] itself and of a voxel's side. *)
Definition near (s : R) (t x : float64) (y : Q) : Prop :=
  is_finite x = true /\ Rabs (B2R x - Q2R y) <= bpow radix2 (-47) * (Rabs (Q2R y - B2R t) + Rabs (B2R t) + s).
Definition vec_near (b : binvox float64) (p : fvec) (q : qpt) : Prop :=
  near (side b) (TX b) (fx p) (px q) /\ near (side b) (TY b) (fy p) (py q) /\ near (side b) (TZ b) (fz p) (pz q).
Definition face_near (b : binvox float64) (f : fface) (g : face) : Prop :=
  let '(p1, p2, p3) := f in let '(q1, q2, q3) := g in vec_near b p1 q1 /\ vec_near b p2 q2 /\ vec_near b p3 q3.

(** ** Rounding *)
Lemma fl_err x w : bpow radix2 (-1022) <= w -> Rabs (fl x - x) <= u * (Rabs x + w).
Proof.
  intros Hw. pose proof u_small as U. pose proof (Rabs_pos x). pose proof (bpow_gt_0 radix2 (-1022)).
  destruct (Rle_or_lt (bpow radix2 (-1022)) (Rabs x)) as [H1|H1].
  - pose proof (fl_rel x H1). nra.
  - pose proof (error_le_half_ulp radix2 fexp64 (fun n => negb (Z.even n)) x) as E.
    apply Rle_trans with (1 := E).
    replace (ulp radix2 fexp64 x) with (bpow radix2 (-1074)).
    2: { symmetry. apply (ulp_FLT_small radix2 (-1074) 53). apply Rlt_trans with (1 := H1). apply bpow_lt. lia. }
    apply Rle_trans with (u * bpow radix2 (-1022)); [|nra].
    unfold u. rewrite <- bpow_plus. change (-53 + -1022)%Z with (-1075)%Z. change (-1074)%Z with (-1075 + 1)%Z. rewrite bpow_plus. simpl (bpow radix2 1). lra.
Qed.

(** A coordinate: X voxels from the translation t, with a voxel of side M taken to be m. *)
Lemma place_err M m X t B : bpow radix2 (-1022) <= M -> Rabs (m - M) <= 8 * u * M -> Rabs X * M + Rabs t + M <= B ->
  Rabs (fl (fl (X * m) + t) - (X * M + t)) <= 12 * u * B.
Proof.
  intros HM Hm HB. pose proof u_small as U. pose proof (bpow_gt_0 radix2 (-1022)) as P0. pose proof (Rabs_pos X) as PX. pose proof (Rabs_pos t) as Pt.
  assert (E1 : Rabs (X * m - X * M) <= 8 * u * (Rabs X * M)).
  { replace (X * m - X * M) with (X * (m - M)) by ring. rewrite Rabs_mult. nra. }
  assert (A1 : Rabs (X * m) <= (1 + 8 * u) * (Rabs X * M)).
  { replace (X * m) with (X * M + (X * m - X * M)) by ring. eapply Rle_trans; [apply Rabs_triang|]. rewrite (Rabs_mult X M), (Rabs_pos_eq M) by lra. lra. }
  pose proof (fl_err (X * m) M HM) as E2. set (p := fl (X * m)) in *.
  assert (E3 : Rabs (p - X * M) <= 10 * u * B).
  { replace (p - X * M) with ((p - X * m) + (X * m - X * M)) by ring. eapply Rle_trans; [apply Rabs_triang|].
    assert (0 <= Rabs X * M) by nra. assert (u * (Rabs (X * m) + M) <= u * (2 * B)) by (apply Rmult_le_compat_l; nra). nra. }
  assert (A3 : Rabs (p + t) <= B - M + 10 * u * B).
  { replace (p + t) with ((p - X * M) + X * M + t) by ring. eapply Rle_trans; [apply Rabs_triang|].
    eapply Rle_trans; [apply Rplus_le_compat_r, Rabs_triang|]. rewrite (Rabs_mult X M), (Rabs_pos_eq M) by lra. lra. }
  pose proof (fl_err (p + t) M HM) as E4.
  replace (fl (p + t) - (X * M + t)) with ((fl (p + t) - (p + t)) + (p - X * M)) by ring. eapply Rle_trans; [apply Rabs_triang|].
  assert (B0 : 0 <= B) by nra. assert (u * (Rabs (p + t) + M) <= u * (2 * B)); [|lra].
  apply Rmult_le_compat_l; [lra|]. nra.
Qed.

(** Half way between two computed places at most one voxel apart. *)
Lemma halfway_err M c c' C C' B : bpow radix2 (-1022) <= M -> Rabs (c - C) <= 12 * u * B -> Rabs (c' - C') <= 12 * u * B ->
  Rabs (C' - C) <= M -> Rabs ((C + C') / 2) + 3 / 2 * M <= B ->
  Rabs (fl (c + fl (/ 2 * fl (c' - c))) - (C + C') / 2) <= 32 * u * B.
Proof.
  intros HM Hc Hc' Hd HB. pose proof u_small as U. pose proof (bpow_gt_0 radix2 (-1022)) as P0. pose proof (Rabs_pos ((C + C') / 2)) as PX.
  pose proof (fl_err (c' - c) M HM) as E1. set (d := fl (c' - c)) in *.
  pose proof (fl_err (/ 2 * d) M HM) as E2. set (h := fl (/ 2 * d)) in *.
  pose proof (fl_err (c + h) M HM) as E3. set (r := fl (c + h)) in *.
  apply Rabs_le_inv in Hc. apply Rabs_le_inv in Hc'. apply Rabs_le_inv in Hd.
  set (e := u * B) in *. assert (Ee : 12 * u * B = 12 * e) by (unfold e; ring). rewrite Ee in *. assert (B0 : 0 <= B) by lra. assert (e0 : 0 <= e) by (unfold e; nra). assert (e1 : 1000 * e <= B) by (unfold e; nra).
  assert (uM : u * M <= 2 / 3 * e) by (unfold e; nra).
  assert (ue : u * e <= e / 1000) by (unfold e; nra).
  assert (D1 : Rabs (c' - c) <= M + 24 * e) by (apply Rabs_le; lra).
  assert (u * (Rabs (c' - c) + M) <= 2 * e) by nra.
  assert (D2 : Rabs (d - (c' - c)) <= 2 * e) by lra. apply Rabs_le_inv in D2.
  assert (D3 : Rabs (/ 2 * d) <= M / 2 + 13 * e) by (apply Rabs_le; lra).
  assert (u * (Rabs (/ 2 * d) + M) <= 2 * e) by nra.
  assert (D4 : Rabs (h - / 2 * d) <= 2 * e) by lra. apply Rabs_le_inv in D4.
  assert (D5 : Rabs (c + h - (C + C') / 2) <= 28 * e) by (apply Rabs_le; lra).
  assert (D6 : Rabs (c + h) <= Rabs ((C + C') / 2) + 28 * e). { replace (c + h) with ((C + C') / 2 + (c + h - (C + C') / 2)) by ring. eapply Rle_trans; [apply Rabs_triang|lra]. }
  assert (u * (Rabs (c + h) + M) <= 2 * e) by (unfold e in *; nra).
  replace (r - (C + C') / 2) with ((r - (c + h)) + (c + h - (C + C') / 2)) by ring. eapply Rle_trans; [apply Rabs_triang|].
  replace (32 * u * B) with (32 * e) by (unfold e; ring). lra.
Qed.

(** ** The side of a voxel *)
Section Model.
  Context (b : binvox float64) (q : binvox Q) (He : exactly b q) (Ho : ordinary b).
  Notation M := (side b).

  Lemma scale_pos : 0 < B2R (Scale b). Proof using Ho. destruct Ho as (_ & _ & [H _] & _). pose proof (bpow_gt_0 radix2 (-300)). lra. Qed.
  Lemma dim_pos : 1 <= IZR (dim b). Proof using Ho. destruct Ho as [[H _] _]. apply (IZR_le 1). lia. Qed.
  Lemma side_inv : 1 / (IZR (dim b) / B2R (Scale b)) = M.
  Proof using Ho. unfold side. pose proof scale_pos. pose proof dim_pos. field. lra. Qed.

  Lemma f_mm_is : f_mm b = f_mmpv (dim b) (Scale b).
  Proof using Ho.
    unfold f_mm, f_voxelsPerMM. destruct (fi_val 0) as [E0 F0]; [lia|]. destruct Ho as (_ & Fs & _).
    rewrite Bcompare_correct by assumption. rewrite E0, Rcompare_Gt by apply scale_pos. reflexivity.
  Qed.

  Lemma mm_close : is_finite (f_mm b) = true /\ Rabs (B2R (f_mm b) - M) <= 8 * u * M.
  Proof using Ho.
    rewrite f_mm_is. destruct Ho as (Hd & Fs & Hs & _). destruct (mmpv_rel (dim b) (Scale b) Hd (conj Fs Hs)) as [F (e & Be & E)].
    split; [exact F|]. rewrite E, side_inv. replace (M * (1 + e) - M) with (e * M) by ring. rewrite Rabs_mult.
    assert (0 < M) by (unfold side; apply Rdiv_lt_0_compat; [apply scale_pos|pose proof dim_pos; lra]). rewrite (Rabs_pos_eq M) by lra. nra.
  Qed.

  Lemma side_range : bpow radix2 (-350) <= M <= bpow radix2 300.
  Proof using Ho. rewrite <- side_inv. destruct Ho as (Hd & Fs & Hs & _). apply invV_range; [exact Hd|split; assumption]. Qed.

  Lemma side_small : bpow radix2 (-1022) <= M.
  Proof using Ho. destruct side_range as [H _]. apply Rle_trans with (2 := H). apply bpow_le. lia. Qed.
  Lemma mm_bound : Rabs (B2R (f_mm b)) <= bpow radix2 301.
  Proof using Ho.
    destruct mm_close as [_ H]. destruct side_range as [H1 H2]. pose proof (bpow_gt_0 radix2 (-350)). pose proof u_small.
    replace (B2R (f_mm b)) with (M + (B2R (f_mm b) - M)) by ring. eapply Rle_trans; [apply Rabs_triang|]. rewrite (Rabs_pos_eq M) by lra.
    change 301%Z with (300 + 1)%Z. rewrite bpow_plus. simpl (bpow radix2 1). nra.
  Qed.

  Lemma exact_side : Q2R (1 / vpmm q)%Q = M.
  Proof using He Ho.
    destruct He as (E1 & E2 & E3 & _ & _ & _ & _ & _ & Es). pose proof scale_pos as P. pose proof dim_pos as Pd. rewrite Es in P.
    assert (Hq : (0 < Scale q)%Q) by (apply Rlt_Qlt; change (Q2R 0) with (0 * / 1); lra).
    unfold vpmm. destruct (Qle_bool (Scale q) 0) eqn:E; [apply Qle_bool_iff in E; exfalso; apply (Qlt_not_le _ _ Hq E)|].
    assert (Ed : dim q = dim b) by (unfold dim; rewrite E1, E2, E3; reflexivity). rewrite Ed.
    assert (Q2R (inject_Z (dim b)) = IZR (dim b)) by (unfold Q2R, inject_Z; cbn; field).
    assert (Hd : ~ (inject_Z (dim b) == 0)%Q). { intros C. apply Qeq_eqR in C. rewrite H in C. change (Q2R 0) with (0 * / 1) in C. lra. }
    rewrite !Q2R_div.
    - rewrite H, <- Es. change (Q2R 1) with (1 * / 1). unfold side. rewrite <- Es in P. field. lra.
    - intros C. rewrite C in Hq. apply (Qlt_irrefl _ Hq).
    - intros C. apply Hd. rewrite <- (Qmult_div_r (inject_Z (dim b)) (Scale q)); [rewrite C; ring|]. intros C'. rewrite C' in Hq. apply (Qlt_irrefl _ Hq).
  Qed.

  Context (t : float64) (tq : Q) (Ht : In t [TX b; TY b; TZ b]) (Htq : B2R t = Q2R tq).

  Lemma t_ok : is_finite t = true /\ Rabs (B2R t) <= bpow radix2 300.
  Proof using Ho Ht. destruct Ho as (_ & _ & _ & H & _). apply H, Ht. Qed.

  (** A place computed as ManifoldMesh and MarchingCubes do: [x] voxels (a float64 of value X). *)
  Lemma place_val x X : is_finite x = true -> B2R x = X -> Rabs X <= bpow radix2 53 ->
    let p := f_add go_float64 (f_mul go_float64 x (f_mm b)) t in
    is_finite p = true /\ B2R p = fl (fl (X * B2R (f_mm b)) + B2R t) /\ Rabs (B2R p) <= bpow radix2 355.
  Proof using Ho Ht.
    intros Fx Ex HX. cbv zeta. destruct mm_close as [Fm _]. pose proof mm_bound as Bm. destruct t_ok as [Ft Bt].
    assert (BP : Rabs (X * B2R (f_mm b)) <= bpow radix2 354).
    { rewrite Rabs_mult. change 354%Z with (53 + 301)%Z. rewrite bpow_plus. apply Rmult_le_compat; try apply Rabs_pos; assumption. }
    destruct (mul_ok x (f_mm b) Fx Fm) as [Ep Fp]. { rewrite Ex. apply fl_abs_lt with 354%Z; [lia|exact BP]. } rewrite Ex in Ep.
    assert (BA : Rabs (fl (X * B2R (f_mm b)) + B2R t) <= bpow radix2 355).
    { eapply Rle_trans; [apply Rabs_triang|]. pose proof (fl_abs_le _ 354 ltac:(lia) BP). assert (bpow radix2 300 <= bpow radix2 354) by (apply bpow_le; lia).
      change 355%Z with (354 + 1)%Z. rewrite bpow_plus. simpl (bpow radix2 1). lra. }
    destruct (add_ok (f_mul go_float64 x (f_mm b)) t Fp Ft) as [Ea Fa]. { rewrite Ep. apply fl_abs_lt with 355%Z; [lia|exact BA]. }
    rewrite Ep in Ea. split; [exact Fa|]. split; [exact Ea|]. rewrite Ea. apply fl_abs_le; [lia|exact BA].
  Qed.

  Lemma half_bound n : (Z.abs n <= 2 ^ 51)%Z -> Rabs (IZR n + / 2) <= bpow radix2 53.
  Proof using.
    intros H. eapply Rle_trans; [apply Rabs_triang|]. pose proof (abs_IZR_bound n 51 H ltac:(lia)). rewrite (Rabs_pos_eq (/ 2)) by lra.
    assert (1 <= bpow radix2 51) by (apply (bpow_le radix2 0 51); lia). change 53%Z with (51 + 2)%Z. rewrite bpow_plus. simpl (bpow radix2 2). lra.
  Qed.

  Lemma exact_half D : Q2R ((inject_Z D + 1) * (1 # 2) * (1 / vpmm q) + tq)%Q = (IZR D + 1) / 2 * M + B2R t.
  Proof using He Ho Htq.
    rewrite Q2R_plus, Q2R_mult, exact_side, Q2R_mult, Q2R_plus, Htq.
    replace (Q2R (inject_Z D)) with (IZR D) by (unfold Q2R, inject_Z; cbn; field).
    replace (Q2R 1) with 1 by (unfold Q2R; cbn; field). replace (Q2R (1 # 2)) with (/ 2) by (unfold Q2R; cbn; field). field.
  Qed.
  Lemma exact_dd D : Q2R (inject_Z D * (1 # 2) * (1 / vpmm q) + tq)%Q = IZR D / 2 * M + B2R t.
  Proof using He Ho Htq.
    rewrite Q2R_plus, Q2R_mult, exact_side, Q2R_mult, Htq.
    replace (Q2R (inject_Z D)) with (IZR D) by (unfold Q2R, inject_Z; cbn; field).
    replace (Q2R (1 # 2)) with (/ 2) by (unfold Q2R; cbn; field). field.
  Qed.

  Lemma mc_coord n m y : (Z.abs n <= 2 ^ 51)%Z -> (Z.abs m <= 2 ^ 51)%Z -> (Z.abs (n - m) <= 1)%Z ->
    (y == (inject_Z (n + m) + 1) * (1 # 2) * (1 / vpmm q) + tq)%Q ->
    near M t (f_halfway (f_centre (f_mm b) t n) (f_centre (f_mm b) t m)) y.
  Proof using He Ho Ht Htq.
    intros Hn Hm Hnm Hy. apply Qeq_eqR in Hy. rewrite exact_half in Hy.
    pose proof side_small as MS. pose proof (bpow_gt_0 radix2 (-1022)) as P0. destruct mm_close as [_ Mc]. destruct side_range as [MR1 MR2].
    destruct (half_plus n Hn) as [En Fn]. destruct (half_plus m Hm) as [Em Fm].
    destruct (place_val _ _ Fn En (half_bound n Hn)) as (Fc & Ec & Bc). destruct (place_val _ _ Fm Em (half_bound m Hm)) as (Fd & Ed & Bd).
    fold (f_centre (f_mm b) t n) in Fc, Ec, Bc. fold (f_centre (f_mm b) t m) in Fd, Ed, Bd.
    set (c := f_centre (f_mm b) t n) in *. set (d := f_centre (f_mm b) t m) in *. clearbody c d.
    set (X := (IZR (n + m) + 1) / 2) in *. set (B := Rabs (X * M) + Rabs (B2R t) + 3 / 2 * M).
    assert (Hnm' : IZR n - IZR m <= 1 /\ -1 <= IZR n - IZR m). { rewrite <- minus_IZR. split; [apply (IZR_le _ 1); lia|apply (IZR_le (-1)); lia]. }
    assert (Xn : Rabs (IZR n + / 2) <= Rabs X + / 2). { unfold X. rewrite plus_IZR. unfold Rabs. destruct (Rcase_abs _), (Rcase_abs _); lra. }
    assert (Xm : Rabs (IZR m + / 2) <= Rabs X + / 2). { unfold X. rewrite plus_IZR. unfold Rabs. destruct (Rcase_abs _), (Rcase_abs _); lra. }
    assert (AX : Rabs (X * M) = Rabs X * M) by (rewrite Rabs_mult, (Rabs_pos_eq M) by lra; reflexivity).
    pose proof (place_err M (B2R (f_mm b)) (IZR n + / 2) (B2R t) B MS Mc ltac:(unfold B; nra)) as E1.
    pose proof (place_err M (B2R (f_mm b)) (IZR m + / 2) (B2R t) B MS Mc ltac:(unfold B; nra)) as E2.
    rewrite <- Ec in E1. rewrite <- Ed in E2.
    assert (Emid : ((IZR n + / 2) * M + B2R t + ((IZR m + / 2) * M + B2R t)) / 2 = X * M + B2R t) by (unfold X; rewrite plus_IZR; field).
    pose proof (halfway_err M (B2R c) (B2R d) _ _ B MS E1 E2) as E3. rewrite Emid in E3.
    assert (E4 : Rabs (fl (B2R c + fl (/ 2 * fl (B2R d - B2R c))) - (X * M + B2R t)) <= 32 * u * B).
    { apply E3.
      - replace ((IZR m + / 2) * M + B2R t - ((IZR n + / 2) * M + B2R t)) with ((IZR m - IZR n) * M) by ring. rewrite Rabs_mult, (Rabs_pos_eq M) by lra.
        assert (Rabs (IZR m - IZR n) <= 1) by (apply Rabs_le; lra). nra.
      - unfold B. pose proof (Rabs_triang (X * M) (B2R t)). lra. }
    clear E1 E2 E3. destruct half_val as [Eh Fh].
    assert (B1 : Rabs (B2R d - B2R c) <= bpow radix2 356).
    { eapply Rle_trans; [apply Rabs_triang|]. rewrite Rabs_Ropp. change 356%Z with (355 + 1)%Z. rewrite bpow_plus. simpl (bpow radix2 1). lra. }
    destruct (sub_ok d c Fd Fc) as [Es Fs]. { apply fl_abs_lt with 356%Z; [lia|exact B1]. }
    apply (fl_abs_le _ 356 ltac:(lia)) in B1.
    assert (B2 : Rabs (/ 2 * fl (B2R d - B2R c)) <= bpow radix2 356) by (rewrite Rabs_mult, (Rabs_pos_eq (/ 2)) by lra; pose proof (Rabs_pos (fl (B2R d - B2R c))); lra).
    destruct (mul_ok f_half (f_sub go_float64 d c) Fh Fs) as [Ep Fp]. { rewrite Eh, Es. apply fl_abs_lt with 356%Z; [lia|exact B2]. }
    rewrite Eh, Es in Ep. apply (fl_abs_le _ 356 ltac:(lia)) in B2.
    destruct (add_ok c (f_mul go_float64 f_half (f_sub go_float64 d c)) Fc Fp) as [Ea Fa].
    { rewrite Ep. apply fl_abs_lt with 357%Z; [lia|]. eapply Rle_trans; [apply Rabs_triang|]. assert (bpow radix2 355 <= bpow radix2 356) by (apply bpow_le; lia).
      change 357%Z with (356 + 1)%Z. rewrite bpow_plus. simpl (bpow radix2 1). lra. }
    rewrite Ep in Ea. split; [exact Fa|]. unfold f_halfway. rewrite Ea, Hy. apply Rle_trans with (1 := E4).
    replace (X * M + B2R t - B2R t) with (X * M) by ring. unfold B.
    replace (bpow radix2 (-47)) with (64 * u) by (unfold u; change (-47)%Z with (6 + -53)%Z; rewrite bpow_plus; simpl (bpow radix2 6); reflexivity).
    pose proof u_small. pose proof (Rabs_pos (X * M)). pose proof (Rabs_pos (B2R t)). nra.
  Qed.

  Lemma mf_coord D y : (Z.abs D <= 2 ^ 52)%Z -> (y == inject_Z D * (1 # 2) * (1 / vpmm q) + tq)%Q -> near M t (f_coord (f_mm b) t D) y.
  Proof using He Ho Ht Htq.
    intros HD Hy. apply Qeq_eqR in Hy. rewrite exact_dd in Hy.
    pose proof side_small as MS. pose proof (bpow_gt_0 radix2 (-1022)) as P0. destruct mm_close as [_ Mc].
    destruct (dd_val D HD) as [Ed Fd].
    destruct (place_val _ _ Fd Ed) as (Fc & Ec & _).
    { pose proof (abs_IZR_bound D 53 ltac:(lia) ltac:(lia)). unfold Rdiv. rewrite Rabs_mult, (Rabs_pos_eq (/ 2)) by lra. pose proof (Rabs_pos (IZR D)). lra. }
    fold (f_coord (f_mm b) t D) in Fc, Ec. split; [exact Fc|]. rewrite Ec, Hy.
    set (X := IZR D / 2) in *. replace (X * M + B2R t - B2R t) with (X * M) by ring.
    assert (AX : Rabs (X * M) = Rabs X * M) by (rewrite Rabs_mult, (Rabs_pos_eq M) by lra; reflexivity).
    pose proof (place_err M (B2R (f_mm b)) X (B2R t) (Rabs (X * M) + Rabs (B2R t) + M) MS Mc ltac:(lra)) as E1.
    apply Rle_trans with (1 := E1).
    replace (bpow radix2 (-47)) with (64 * u) by (unfold u; change (-47)%Z with (6 + -53)%Z; rewrite bpow_plus; simpl (bpow radix2 6); reflexivity).
    pose proof u_small. pose proof (Rabs_pos (X * M)). pose proof (Rabs_pos (B2R t)). nra.
  Qed.
End Model.

(** ** The meshes *)
Section Meshes.
  Context (b : binvox float64) (q : binvox Q) (He : exactly b q) (Ho : ordinary b).

  Lemma fill_same k : fillb (shape b) k = fillb q k.
  Proof using He.
    destruct He as (_ & _ & _ & Ew & Ec & _). unfold fillb. rewrite Ew, Ec. apply bool_decide_ext.
    assert (Hd : dom (colors (shape b)) = dom (colors b)). { unfold colors, shape. cbn. destruct (Colors b) as [m|]; cbn; [apply dom_fmap_L|rewrite !dom_empty_L; reflexivity]. }
    rewrite Hd. reflexivity.
  Qed.
  Lemma pat_same k : pat (fillb (shape b)) k = pat (fillb q) k.
  Proof using He. unfold pat. rewrite !fill_same. reflexivity. Qed.
  Lemma voxels_small v : f_filled b v -> small_key (2 ^ 50) v.
  Proof using Ho. destruct Ho as (_ & _ & _ & _ & H). apply H. Qed.

  Lemma v2v1_near mm t k d : (Z.abs k <= 2 ^ 50 + 1)%Z -> (Z.abs d <= 1)%Z -> f_v2v1 mm t k d = f_centre mm t (k + d).
  Proof using. intros Hk Hd. apply f_v2v1_centre; lia. Qed.

  Lemma mc_vertex_near k i : small_key (2 ^ 50 + 1) k -> (i < 12)%nat -> marked (mc_index (pat (fillb q) k)) i = true ->
    vec_near b (nth i (f_vertlist (f_cell (f_lookup b) (f_v2v b) k)) fvec0) (nth i (vertlist (mc_cell (voxel_lookup q) (mc_v2v q) k)) qpt0).
  Proof using He Ho.
    intros Hk Hi Hm. pose proof (vertlist_spec q k i Hi Hm) as Hq. rewrite <- pat_same in Hm.
    destruct (f_vertlist_spec b k i Hi Hm) as (p1 & p2 & E1 & E2 & ->).
    destruct (edge_corner_facts i Hi) as (Hn & Hz & Ez & Ha1 & Ha2 & Ha3 & Hc1 & Hc2 & Hc3). rewrite Ez in Hq.
    set (a := nth (fst (nth i edge_corners (0,0)%nat)) corner_off (0,0,0)%Z) in *.
    set (c := nth (snd (nth i edge_corners (0,0)%nat)) corner_off (0,0,0)%Z) in *. clearbody a c.
    set (v := nth i (vertlist (mc_cell (voxel_lookup q) (mc_v2v q) k)) qpt0) in *. clearbody v.
    destruct a as [[ax ay] az], c as [[ex ey] ez]. unfold axis_neighbour in Hn. unfold kx, ky, kz in Ha1, Ha2, Ha3, Hc1, Hc2, Hc3, Hz, Hn. cbn [fst snd] in *.
    destruct k as [[x y] z]. destruct Hk as (Hk1 & Hk2 & Hk3). unfold kx, ky, kz in Hk1, Hk2, Hk3. cbn [fst snd] in *.
    subst p1 p2. destruct He as (_ & _ & _ & _ & _ & Tx & Ty & Tz & _).
    unfold f_v2v, fx, fy, fz, kx, ky, kz. cbn [fst snd]. rewrite !v2v1_near by assumption.
    destruct v as [[vx vy] vz]. destruct Hq as (Q1 & Q2 & Q3). unfold half_pos, kadd, kdouble, kx, ky, kz, px, py, pz in Q1, Q2, Q3. cbn [fst snd] in Q1, Q2, Q3.
    unfold vec_near, px, py, pz, fx, fy, fz. cbn [fst snd].
    split; [apply (mc_coord b q He Ho (TX b) (TX q) ltac:(cbn; auto) Tx)|split; [apply (mc_coord b q He Ho (TY b) (TY q) ltac:(cbn; auto) Ty)|apply (mc_coord b q He Ho (TZ b) (TZ q) ltac:(cbn; auto) Tz)]]; try (clear - Hk1 Hk2 Hk3 Ha1 Ha2 Ha3 Hc1 Hc2 Hc3; lia); try (clear - Hn; lia).
    - rewrite Q1. replace (2 * x + (ax + ex))%Z with (x + ax + (x + ex))%Z by lia. reflexivity.
    - rewrite Q2. replace (2 * y + (ay + ey))%Z with (y + ay + (y + ey))%Z by lia. reflexivity.
    - rewrite Q3. replace (2 * z + (az + ez))%Z with (z + az + (z + ez))%Z by lia. reflexivity.
  Qed.

  Lemma mc_cell_near k : k ∈ grid_cells (shape b) -> exists f g,
    f_polygonize (f_cell (f_lookup b) (f_v2v b) k) = Some f /\ polygonize (mc_cell (voxel_lookup q) (mc_v2v q) k) = Some g /\ Forall2 (face_near b) f g.
  Proof using He Ho.
    intros Hk. apply (cell_small b voxels_small) in Hk. destruct (f_polygonize_spec b k) as (ts & E & Ef). destruct (polygonize_spec q k) as (ts' & E' & Eq).
    rewrite pat_same, E' in E. injection E as ->. eexists _, _. split; [exact Ef|]. split; [exact Eq|].
    assert (Hall : forallb (all3 (fun i => (i <? 12)%nat && marked (mc_index (pat (fillb q) k)) i)) ts = true).
    { pose proof (table_ok_at (fillb q) k) as H. unfold table_ok in H. apply andb_true_iff in H as [_ H]. rewrite E' in H.
      apply andb_true_iff in H as [H _]. exact H. }
    clear E' Ef Eq. induction ts as [|[[p s] r] ts IH]; [constructor|].
    cbn [forallb all3] in Hall. apply andb_true_iff in Hall as [Ht Hall]. cbn [map]. constructor; [|apply IH, Hall].
    rewrite !andb_true_iff, !Nat.ltb_lt in Ht. destruct Ht as [[[? ?] [? ?]] [? ?]].
    unfold face_near, map3. split; [|split]; apply mc_vertex_near; assumption.
  Qed.
End Meshes.

(** MarchingCubes in float64 and over exact numbers, on the same model and with the same order of the
    cells: the same triangles, up to rounding. *)
Theorem C62_marching b q order : exactly b q -> ordinary b -> Permutation order (elements (grid_cells q)) ->
  exists f g, f_MarchingCubes b order = Some f /\ MarchingCubes q order = Some g /\ Forall2 (face_near b) f g.
Proof.
  intros He Ho Hp. assert (Hin : forall k, In k order -> k ∈ grid_cells (shape b)).
  { intros k Hk. rewrite <- elem_of_list_In, Hp, elem_of_elements in Hk. apply grid_cells_pat in Hk. apply grid_cells_pat. rewrite (pat_same b q He). exact Hk. }
  clear Hp. induction order as [|k order IH]; [exists [], []; repeat split; constructor|].
  destruct IH as (f & g & Ef & Eg & Hfg); [intros k' Hk'; apply Hin; right; exact Hk'|].
  destruct (mc_cell_near b q He Ho k) as (f1 & g1 & Ef1 & Eg1 & H1); [apply Hin; left; reflexivity|].
  exists (f1 ++ f), (g1 ++ g). unfold f_MarchingCubes, MarchingCubes in *. cbn [map concat_opt]. rewrite Ef1, Eg1, Ef, Eg.
  repeat split. apply Forall2_app; assumption.
Qed.

(** Every run of ManifoldMesh in float64 is, up to rounding, a run over exact numbers. *)
Theorem C62_manifold b q f : exactly b q -> ordinary b -> f_manifold_run b f ->
  exists g, manifold_run q g /\ Forall2 (face_near b) f g.
Proof.
  intros He Ho (whites & cols & order & Hw & Hc & Hor & ->).
  assert (Hq : Permutation whites (elements (white q)) /\ Permutation cols (elements (dom (colors q)))).
  { destruct He as (_ & _ & _ & -> & -> & _). split; assumption. }
  exists (ManifoldMesh q order). split; [exists whites, cols, order; tauto|].
  destruct (manifold_order q whites cols order (proj1 Hq) (proj2 Hq) Hor) as (Eo & _ & Hin).
  assert (Hk : forall k, In k (map fst order) -> small_key (2 ^ 50 + 1) k).
  { intros k Hk. apply Hin in Hk. rewrite <- (pat_same b q He) in Hk. apply (pat_small b (voxels_small b Ho)), Hk. }
  set (K := map fst order) in *. clearbody K. subst order. clear Hw Hc Hor Hin Hq.
  induction K as [|k K IH]; [constructor|]. unfold f_ManifoldMesh, ManifoldMesh in *. cbn [map flat_map].
  apply Forall2_app; [|apply IH; intros k' Hk'; apply Hk; right; exact Hk'].
  specialize (Hk k (or_introl eq_refl)). rewrite !grid2tris_nat.
  pose proof offsets_small as Hof. rewrite forallb_forall in Hof. specialize (Hof _ (pat_range (fillb q) k)).
  induction (mf_ztris (pat (fillb q) k)) as [|[[p s] r] ts IHt]; [constructor|]. cbn [forallb all3] in Hof. rewrite !andb_true_iff in Hof. destruct Hof as [[[H1 H2] H3] Hof].
  cbn [map]. constructor; [|apply IHt, Hof]. clear IHt IH Hof.
  assert (V : forall d, small_off d = true -> vec_near b (f_mf_v2v b k (kx d) (ky d) (kz d)) (mf_v2v q k (kx d) (ky d) (kz d))).
  { clear H1 H2 H3. intros d Hd. pose proof (mf_v2v_pos q k d) as Eq.
    set (w := mf_v2v q k (kx d) (ky d) (kz d)) in *. clearbody w.
    destruct w as [[w1 w2] w3], k as [[x y] z], d as [[dx dy] dz].
    unfold mf_pos, kadd, kdouble, kx, ky, kz in Eq. cbn [fst snd] in Eq. destruct Eq as (Q1 & Q2 & Q3).
    unfold small_off, small_key, kx, ky, kz in Hd, Hk. cbn [fst snd] in Hd, Hk. rewrite !andb_true_iff, !Z.leb_le in Hd. destruct Hd as [[D1 D2] D3], Hk as (K1 & K2 & K3).
    pose proof He as (_ & _ & _ & _ & _ & Tx & Ty & Tz & _).
    unfold f_mf_v2v, vec_near, px, py, pz, fx, fy, fz, kx, ky, kz. cbn [fst snd]. rewrite !v2v_x, v2v_y by assumption.
    replace (2 * x + 2 + dx)%Z with (2 * x + dx + 2)%Z by lia. replace (2 * z + 2 + dz)%Z with (2 * z + dz + 2)%Z by lia.
    split; [apply (mf_coord b q He Ho (TX b) (TX q) ltac:(cbn; auto) Tx); [|exact Q1]|split; [apply (mf_coord b q He Ho (TY b) (TY q) ltac:(cbn; auto) Ty); [|exact Q2]|apply (mf_coord b q He Ho (TZ b) (TZ q) ltac:(cbn; auto) Tz); [|exact Q3]]].
    - clear - D1 K1. lia.
    - clear - D2 K2. lia.
    - clear - D3 K3. lia. }
  unfold face_near, map3. split; [|split]; apply V; assumption.
Qed.

(** In the STL file a coordinate that is near the exact one in float64 is within 2^-23 of it, in the same
    sense (or within 2^-149, the least positive float32). *)
#[local] Instance valid32 : Valid_exp (FLT_exp (-149) 24) := fexp_correct 24 128 prec32_gt.
Theorem C62_stl s t x y : 0 <= s -> near s t x y ->
  let w := Rabs (Q2R y - B2R t) + Rabs (B2R t) + s in w <= bpow radix2 125 ->
  Rabs (stl_number x - Q2R y) <= bpow radix2 (-23) * w + bpow radix2 (-149).
Proof.
  intros Hs [Fx Hx] w Hw. fold w in Hx.
  pose proof (Rabs_pos (Q2R y - B2R t)). pose proof (Rabs_pos (B2R t)). assert (W0 : 0 <= w) by (unfold w; lra).
  assert (Y : Rabs (Q2R y) <= w). { replace (Q2R y) with (Q2R y - B2R t + B2R t) by ring. eapply Rle_trans; [apply Rabs_triang|]. unfold w. lra. }
  set (e := bpow radix2 (-47)) in *. assert (E0 : e = / 140737488355328) by (unfold e; simpl; lra). clearbody e w.
  assert (X : Rabs (B2R x) <= (1 + e) * w). { replace (B2R x) with (Q2R y + (B2R x - Q2R y)) by ring. eapply Rle_trans; [apply Rabs_triang|]. lra. }
  rewrite float32_value; [|exact Fx|]. 2: { change 126%Z with (125 + 1)%Z. rewrite bpow_plus. simpl (bpow radix2 1). rewrite E0 in X. lra. }
  set (r := round radix2 (FLT_exp (-149) 24) ZnearestE (B2R x)).
  assert (R : Rabs (r - B2R x) <= bpow radix2 (-24) * Rabs (B2R x) + bpow radix2 (-149)).
  { destruct (Rle_or_lt (bpow radix2 (-149 + 24 - 1)) (Rabs (B2R x))) as [L|L].
    - pose proof (relative_error_N_FLT radix2 (-149) 24 ltac:(lia) (fun n => negb (Z.even n)) (B2R x) L) as E. fold r in E.
      replace (/ 2 * bpow radix2 (- (24) + 1)) with (bpow radix2 (-24)) in E by (simpl; lra). pose proof (bpow_ge_0 radix2 (-149)). lra.
    - pose proof (error_le_half_ulp radix2 (FLT_exp (-149) 24) (fun n => negb (Z.even n)) (B2R x)) as E. fold r in E.
      pose proof (eq_refl : Prec_gt_0 24). rewrite (ulp_FLT_small radix2 (-149) 24) in E by (apply Rlt_trans with (1 := L); apply bpow_lt; lia).
      pose proof (bpow_ge_0 radix2 (-149)). pose proof (bpow_ge_0 radix2 (-24)). pose proof (Rabs_pos (B2R x)). nra. }
  replace (r - Q2R y) with ((r - B2R x) + (B2R x - Q2R y)) by ring. eapply Rle_trans; [apply Rabs_triang|].
  replace (bpow radix2 (-24)) with (/ 16777216) in R by (simpl; lra). replace (bpow radix2 (-23)) with (/ 8388608) by (simpl; lra). rewrite E0 in *. lra.
Qed.
Print Assumptions C62_stl.

(** ** Every model can be read so *)

(** The rational that a float64 is. *)
Definition f_exact (x : float64) : Q :=
  match x with
  | B754_finite s m e _ => let n := cond_Zopp s (Z.pos m) in
      if (0 <=? e)%Z then inject_Z (n * 2 ^ e) else Qmake n (Z.to_pos (2 ^ (- e)))
  | _ => 0%Q
  end.
Lemma f_exact_val x : B2R x = Q2R (f_exact x).
Proof.
  destruct x as [s|s| |s m e H]; cbn [f_exact B2R]; try (unfold Q2R; cbn; field; fail).
  set (n := cond_Zopp s (Z.pos m)). unfold F2R. cbn [Fnum Fexp]. destruct (Z.leb_spec 0 e) as [He|He].
  - rewrite <- IZR_Zpower by lia. rewrite <- mult_IZR. unfold Q2R, inject_Z. cbn [Qnum Qden]. change (radix_val radix2) with 2%Z. field.
  - replace e with (- (- e))%Z at 1 by lia. rewrite bpow_opp, <- IZR_Zpower by lia. change (radix_val radix2) with 2%Z.
    unfold Q2R. cbn [Qnum Qden]. rewrite Z2Pos.id; [reflexivity|]. apply Z.pow_pos_nonneg; lia.
Qed.
Definition read_exact (b : binvox float64) : binvox Q :=
  BinVOX (NX b) (NY b) (NZ b) (f_exact (TX b)) (f_exact (TY b)) (f_exact (TZ b)) (f_exact (Scale b)) (White b) (Colors (shape b)).
Lemma C62_readable b : exactly b (read_exact b).
Proof.
  unfold exactly, read_exact. cbn. repeat split; try apply f_exact_val.
  unfold colors. cbn. destruct (Colors b) as [m|]; cbn; [apply dom_fmap_L|rewrite !dom_empty_L; reflexivity].
Qed.

(** The hypotheses hold of one voxel of 0.3 mm at the origin. *)
Example C62_example : let b := one_voxel (fi 0) (fi 0) (fi 0) (f_dec 3 10) in
  ordinary b /\
  (exists f g, f_MarchingCubes b (elements (grid_cells (read_exact b))) = Some f /\ MarchingCubes (read_exact b) (elements (grid_cells (read_exact b))) = Some g /\ length f = 8%nat /\ Forall2 (face_near b) f g) /\
  (exists f g, f_manifold_run b f /\ manifold_run (read_exact b) g /\ length f = 48%nat /\ Forall2 (face_near b) f g).
Proof.
  intros b.
  assert (Hs : B2R (f_dec 3 10) = (5404319552844595 * / 18014398509481984)%R).
  { replace (f_dec 3 10) with (B754_finite (prec:=prec) (emax:=emax) false 5404319552844595 (-54) eq_refl) by (apply B2SF_inj; vm_compute; reflexivity).
    unfold B2R, F2R. cbn [Fnum Fexp cond_Zopp]. f_equal. }
  destruct (fi_val 0) as [E0 F0]; [lia|].
  assert (Ho : ordinary b).
  { split; [cbn; lia|]. split; [vm_compute; reflexivity|]. split; [|split].
    - cbn [Scale b one_voxel]. rewrite Hs. split.
      + apply Rle_trans with (bpow radix2 (-2)); [apply bpow_le; lia|]. simpl. lra.
      + apply Rle_trans with (bpow radix2 0); [|apply bpow_le; lia]. simpl. lra.
    - intros t Hin. assert (t = fi 0) as -> by (destruct Hin as [<-|[<-|[<-|[]]]]; reflexivity). split; [exact F0|]. rewrite E0, Rabs_R0. apply bpow_ge_0.
    - intros v [Hv|[c Hv]]; [cbn in Hv; apply elem_of_singleton in Hv as ->; unfold small_key; cbn; lia|]. cbn in Hv. rewrite lookup_empty in Hv. discriminate. }
  split; [exact Ho|]. split.
  - destruct (C62_marching b (read_exact b) _ (C62_readable b) Ho (Permutation_refl _)) as (f & g & Ef & Eg & H). exists f, g. split; [exact Ef|]. split; [exact Eg|]. split; [|exact H].
    assert (G : option_map (@length _) (f_MarchingCubes b (elements (grid_cells (read_exact b)))) = Some 8%nat) by (vm_compute; reflexivity).
    rewrite Ef in G. injection G as ->. reflexivity.
  - destruct C61_example_run as (f & Hf & Hl). destruct (C62_manifold b (read_exact b) f (C62_readable b) Ho Hf) as (g & Hg & H). exists f, g. auto.
Qed.
Print Assumptions C62_marching.
Print Assumptions C62_manifold.
