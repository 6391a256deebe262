(** C60: models on which the mesh of MarchingCubes has gaps, in float64 and in an STL file; and
    models on which it has none. *)
From Coq Require Import ZArith QArith Reals List Lia Lra Bool Permutation.
From stdpp Require Import base list gmap sets fin_sets.
From Flocq Require Import Core IEEE754.BinarySingleNaN.
From Verif Require Import Base BinvoxModel MeshSpec MarchModel.
From Verif Require Import BinvoxDiceModel BinvoxDiceFloat FloatDice FloatMeshModel FloatMesh.
Import ListNotations.
Open Scope Z_scope.
#[local] Instance prec_gto : Prec_gt_0 prec := eq_refl.
#[local] Instance prec_lto : Prec_lt_emax prec emax := eq_refl.
#[local] Instance prec32_gt : Prec_gt_0 24 := eq_refl.
#[local] Instance prec32_lt : Prec_lt_emax 24 128 := eq_refl.
#[local] Instance fexp_valido : Valid_exp fexp64 := fexp_correct prec emax prec_gto.

(** Go's float32(x): round to nearest even.  fauxgl's SaveSTL (not in /repo) writes vertices so. *)
Definition float32 (x : float64) : binary_float 24 128 :=
  match x with
  | B754_zero s => B754_zero s
  | B754_infinity s => B754_infinity s
  | B754_nan => B754_nan
  | B754_finite s m e _ => binary_normalize 24 128 prec32_gt prec32_lt mode_NE (cond_Zopp s (Zpos m)) e s
  end.

(** The number an STL file gives for a coordinate. *)
Definition stl_number (x : float64) : R := B2R (float32 x).

Lemma stl_number_same x y : same_number x y -> stl_number x = stl_number y.
Proof.
  intros (Fx & Fy & E). destruct (Req_dec (B2R x) 0) as [H|H].
  - assert (Z0 : forall z : float64, is_finite z = true -> B2R z = 0%R -> stl_number z = 0%R).
    { intros [s|s| |s m e He] Fz Hz; try discriminate Fz; [reflexivity|]. exfalso.
      cbn in Hz. apply Float_prop.eq_0_F2R in Hz. destruct s; discriminate Hz. }
    rewrite !Z0; try assumption; [reflexivity|]. rewrite <- E. exact H.
  - f_equal. apply B2R_inj; [apply is_finite_strict_B2R, H|apply is_finite_strict_B2R; rewrite <- E; exact H|exact E].
Qed.

(** ** Searching a mesh for an edge without partner *)
Section Gap.
  Context {p e : Z} (conv : float64 -> binary_float p e).
  Definition num_eqb (x y : binary_float p e) : bool := match Bcompare x y with Some Eq => true | _ => false end.
  Definition vec_eqb (a b : fvec) : bool := num_eqb (conv (fx a)) (conv (fx b)) && num_eqb (conv (fy a)) (conv (fy b)) && num_eqb (conv (fz a)) (conv (fz b)).
  Definition vec_fin (a : fvec) : bool := is_finite (conv (fx a)) && is_finite (conv (fy a)) && is_finite (conv (fz a)).
  Definition gap (m : list fface) : bool :=
    let es := flat_map tri_edges m in
    forallb (fun '(a, b) => vec_fin a && vec_fin b) es &&
    existsb (fun '(a, b) => forallb (fun '(c, d) => negb (vec_eqb b c && vec_eqb a d)) es) es.

  Lemma num_eqb_true x y : is_finite x = true -> is_finite y = true -> B2R x = B2R y -> num_eqb x y = true.
  Proof using. intros Fx Fy E. unfold num_eqb. rewrite Bcompare_correct by assumption. rewrite Rcompare_Eq by exact E. reflexivity. Qed.

  Lemma vec_eqb_true a b : vec_fin a = true -> vec_fin b = true -> read_vec (fun x => B2R (conv x)) a = read_vec (fun x => B2R (conv x)) b -> vec_eqb a b = true.
  Proof using.
    unfold vec_fin, vec_eqb, read_vec. rewrite !andb_true_iff. intros [[? ?] ?] [[? ?] ?] E.
    apply pair_equal_spec in E as [E E3]. apply pair_equal_spec in E as [E1 E2].
    split; [split|]; apply num_eqb_true; assumption.
  Qed.

  Lemma gap_not_paired m m' : gap m = true -> Permutation m m' -> ~ paired (read_mesh (fun x => B2R (conv x)) m').
  Proof using.
    intros Hg Hp Hc. unfold gap in Hg. apply andb_true_iff in Hg as [Hfin Hg]. rewrite forallb_forall in Hfin.
    apply existsb_exists in Hg as ((a & c) & Hin & Hg). rewrite forallb_forall in Hg.
    set (rv := read_vec (fun x => B2R (conv x))).
    assert (Ee : flat_map tri_edges (read_mesh (fun x => B2R (conv x)) m') = map (fun e => (rv (fst e), rv (snd e))) (flat_map tri_edges m')).
    { clear. induction m' as [|[[x y] z] m' IH]; [reflexivity|]. cbn [flat_map read_mesh map]. rewrite map_app, <- IH. reflexivity. }
    assert (Hes : forall e, In e (flat_map tri_edges m') <-> In e (flat_map tri_edges m)).
    { intros e0. rewrite !in_flat_map. split; intros (t & Ht & He); exists t; (split; [|exact He]); [eapply Permutation_in; [symmetry; exact Hp|exact Ht]|eapply Permutation_in; [exact Hp|exact Ht]]. }
    unfold paired in Hc. rewrite Ee in Hc.
    assert (Hi : In (rv a, rv c) (map reversed (map (fun e => (rv (fst e), rv (snd e))) (flat_map tri_edges m')))).
    { eapply Permutation_in; [exact Hc|]. apply in_map_iff. exists (a, c). split; [reflexivity|]. apply Hes, Hin. }
    rewrite map_map in Hi. apply in_map_iff in Hi as ((a' & c') & E & Hi). apply Hes in Hi.
    unfold reversed in E. cbn [fst snd] in E. apply pair_equal_spec in E as [E1 E2].
    pose proof (Hfin _ Hin) as F1. pose proof (Hfin _ Hi) as F2. cbn in F1, F2. apply andb_true_iff in F1 as [F1 F1'], F2 as [F2 F2'].
    specialize (Hg _ Hi). cbn in Hg. rewrite !vec_eqb_true in Hg by (assumption || (symmetry; assumption)). discriminate Hg.
  Qed.
End Gap.

Lemma concat_opt_perm {A} (l l' : list (option (list A))) x : Permutation l l' -> concat_opt l = Some x -> exists y, concat_opt l' = Some y /\ Permutation x y.
Proof.
  intros Hp. revert x. induction Hp as [|o l l' Hp IH|o1 o2 l|l l' l'' _ IH1 _ IH2]; intros x Hx.
  - eauto.
  - cbn in *. destruct o as [xs|]; [|discriminate]. destruct (concat_opt l) as [ys|] eqn:E; [|discriminate]. injection Hx as <-.
    destruct (IH ys eq_refl) as (y & -> & Hy). exists (xs ++ y). split; [reflexivity|]. apply Permutation_app_head, Hy.
  - cbn in *. destruct o2 as [xs|]; [|discriminate]. destruct o1 as [ys|]; [|discriminate]. destruct (concat_opt l) as [zs|]; [|discriminate].
    injection Hx as <-. eexists. split; [reflexivity|]. rewrite !app_assoc. apply Permutation_app_tail, Permutation_app_comm.
  - destruct (IH1 x Hx) as (y & Hy & Hxy). destruct (IH2 y Hy) as (z & Hz & Hyz). exists z. split; [exact Hz|]. etransitivity; eassumption.
Qed.

Lemma gap_every_order {p e} (conv : float64 -> binary_float p e) b :
  match f_MarchingCubes b (elements (grid_cells (shape b))) with Some m => gap conv m | None => false end = true ->
  forall order, Permutation order (elements (grid_cells (shape b))) ->
  exists m, f_MarchingCubes b order = Some m /\ ~ paired (read_mesh (fun x => B2R (conv x)) m).
Proof.
  intros H order Hp. destruct (f_MarchingCubes b (elements (grid_cells (shape b)))) as [m0|] eqn:E; [|discriminate].
  unfold f_MarchingCubes in E. eapply concat_opt_perm in E as (m & Em & Hm); [|apply Permutation_map; symmetry; exact Hp].
  exists m. split; [exact Em|]. eapply gap_not_paired; eassumption.
Qed.

(** ** Models with gaps *)

(** One voxel. *)
Definition one_voxel (tx ty tz scale : float64) : binvox float64 := BinVOX 1 1 1 tx ty tz scale (Some {[(0, 0, 0)]}) None.
Definition f_dec (n d : Z) : float64 := f_div go_float64 (fi n) (fi d).

(** One voxel of 0.3 mm at the origin: the mesh is not closed, in whatever order the cells are visited. *)
Theorem C60_gap_float64 : forall order, let b := one_voxel (fi 0) (fi 0) (fi 0) (f_dec 3 10) in
  Permutation order (elements (grid_cells (shape b))) ->
  exists m, f_MarchingCubes b order = Some m /\ ~ paired (read_mesh B2R m).
Proof.
  intros order b. change B2R with (fun x : float64 => B2R ((fun y => y) x)). apply (gap_every_order (fun y => y)). vm_compute. reflexivity.
Qed.

(** One voxel of 19.425 mm with TX = -9.615328121185303: not closed in the STL file either. *)
Definition gap_tx : float64 := binary_normalize prec emax prec_gto prec_lto mode_NE (-5412948517951898) (-49) false.

Theorem C60_gap_stl : forall order, let b := one_voxel gap_tx (fi 0) (fi 0) (f_dec 19425 1000) in
  Permutation order (elements (grid_cells (shape b))) ->
  exists m, f_MarchingCubes b order = Some m /\ ~ paired (read_mesh stl_number m).
Proof.
  intros order b. apply (gap_every_order float32). vm_compute. reflexivity.
Qed.

(** ** Models without gaps *)
Section Dyadic.
Open Scope R_scope.

Lemma dyadic_format k e : (Z.abs k < 2 ^ 53)%Z -> (-1074 <= e)%Z -> generic_format radix2 fexp64 (IZR k * bpow radix2 e).
Proof.
  intros Hk He. apply generic_format_FLT. exists (Float radix2 k e); [reflexivity| |].
  - cbn [Fnum]. change (radix2 ^ prec)%Z with (2 ^ 53)%Z. exact Hk.
  - cbn [Fexp]. unfold SpecFloat.emin. lia.
Qed.
Lemma dyadic_bound k e : (Z.abs k < 2 ^ 53)%Z -> (e <= 410)%Z -> Rabs (IZR k * bpow radix2 e) <= bpow radix2 463.
Proof.
  intros Hk He. rewrite Rabs_mult, (Rabs_pos_eq (bpow _ _)) by apply bpow_ge_0. apply Rle_trans with (bpow radix2 53 * bpow radix2 410); [|rewrite <- bpow_plus; apply bpow_le; lia].
  apply Rmult_le_compat; [apply Rabs_pos|apply bpow_ge_0| |apply bpow_le; exact He]. apply abs_IZR_bound; lia.
Qed.

Lemma centre_exact mm t e j n : is_finite mm = true -> is_finite t = true -> (-400 <= e <= 400)%Z -> B2R mm = bpow radix2 e -> B2R t = IZR j * bpow radix2 (e - 1) ->
  (Z.abs j <= 2 ^ 50)%Z -> (Z.abs n <= 2 ^ 50 + 1)%Z ->
  is_finite (f_centre mm t n) = true /\ B2R (f_centre mm t n) = IZR (2 * n + 1 + j) * bpow radix2 (e - 1).
Proof.
  intros Fm Ft He Em Et Hj Hn. destruct (half_plus n) as [Eh Fh]; [lia|].
  assert (Eb : bpow radix2 e = 2 * bpow radix2 (e - 1)). { replace e with (e - 1 + 1)%Z at 1 by lia. rewrite bpow_plus. simpl (bpow radix2 1). lra. }
  assert (Ep0 : (IZR n + / 2) * B2R mm = IZR (2 * n + 1) * bpow radix2 (e - 1)). { rewrite Em, Eb, plus_IZR, mult_IZR. field. }
  assert (Ex : forall k, (Z.abs k < 2 ^ 53)%Z -> fl (IZR k * bpow radix2 (e - 1)) = IZR k * bpow radix2 (e - 1)).
  { intros k Hk. apply round_generic; [typeclasses eauto|]. apply dyadic_format; lia. }
  assert (Bd : forall k, (Z.abs k < 2 ^ 53)%Z -> Rabs (fl (IZR k * bpow radix2 (e - 1))) < bpow radix2 1024).
  { intros k Hk. apply fl_abs_lt with 463%Z; [lia|]. apply dyadic_bound; lia. }
  destruct (mul_ok (f_add go_float64 (fi n) f_half) mm Fh Fm) as [Ep Fp]. { rewrite Eh, Ep0. apply Bd. lia. }
  rewrite Eh, Ep0, Ex in Ep by lia.
  assert (Es : IZR (2 * n + 1) * bpow radix2 (e - 1) + B2R t = IZR (2 * n + 1 + j) * bpow radix2 (e - 1)). { rewrite Et, (plus_IZR (2 * n + 1) j). ring. }
  destruct (add_ok _ t Fp Ft) as [Ea Fa]. { rewrite Ep, Es. apply Bd. lia. }
  rewrite Ep, Es, Ex in Ea by lia. unfold f_centre. split; assumption.
Qed.

(** The voxel size is a power of two and the origin a multiple of half a voxel: no rounding, no gap. *)
Theorem C60_closed_exact b order {A} (r : float64 -> A) e jx jy :
  (forall x y, same_number x y -> r x = r y) ->
  is_finite (f_mm b) = true -> is_finite (TX b) = true -> is_finite (TY b) = true -> (-400 <= e <= 400)%Z -> B2R (f_mm b) = bpow radix2 e ->
  B2R (TX b) = IZR jx * bpow radix2 (e - 1) -> B2R (TY b) = IZR jy * bpow radix2 (e - 1) -> (Z.abs jx <= 2 ^ 50)%Z -> (Z.abs jy <= 2 ^ 50)%Z ->
  (forall v, f_filled b v -> small_key (2 ^ 50) v) ->
  Permutation order (elements (grid_cells (shape b))) ->
  exists m, f_MarchingCubes b order = Some m /\ paired (read_mesh r m).
Proof.
  intros Hr Fm FX FY He Em EX EY HX HY Hv Hp. apply C60_closed_if_symmetric; [exact Hv| |exact Hp].
  assert (G : forall t j n m, is_finite t = true -> B2R t = IZR j * bpow radix2 (e - 1) -> (Z.abs j <= 2 ^ 50)%Z -> (Z.abs n <= 2 ^ 50)%Z -> (Z.abs (n - m) <= 1)%Z ->
     r (f_halfway (f_centre (f_mm b) t n) (f_centre (f_mm b) t m)) = r (f_halfway (f_centre (f_mm b) t m) (f_centre (f_mm b) t n))).
  { intros t j n m Ft Et Hj Hn Hm. destruct (Z.eq_dec m n) as [->|Hne]; [reflexivity|]. apply Hr.
    destruct (centre_exact (f_mm b) t e j n) as [F0 E0]; try assumption; [lia|]. destruct (centre_exact (f_mm b) t e j m) as [F1 E1]; try assumption; [lia|].
    assert (Ed : B2R (f_centre (f_mm b) t m) - B2R (f_centre (f_mm b) t n) = IZR (2 * (m - n)) * bpow radix2 (e - 1)).
    { rewrite E0, E1. rewrite <- Rmult_minus_distr_r, <- minus_IZR. do 2 f_equal. lia. }
    apply halfway_sym_exact; try assumption.
    - rewrite E0. apply Rle_trans with (bpow radix2 463); [apply dyadic_bound; lia|apply bpow_le; lia].
    - rewrite E1. apply Rle_trans with (bpow radix2 463); [apply dyadic_bound; lia|apply bpow_le; lia].
    - rewrite Ed. apply dyadic_format; lia.
    - rewrite Ed, Rabs_mult, (Rabs_pos_eq (bpow _ _)) by apply bpow_ge_0. rewrite <- abs_IZR.
      apply Rle_trans with (1 * bpow radix2 (e - 1)); [rewrite Rmult_1_l; apply bpow_le; lia|]. apply Rmult_le_compat_r; [apply bpow_ge_0|]. apply IZR_le. lia. }
  intros v w (Hf & _ & Hn). destruct (Hv v Hf) as (H1 & H2 & H3). unfold axis_neighbour in Hn.
  split; [apply (G _ jx)|apply (G _ jy)]; try assumption; lia.
Qed.
End Dyadic.

(** The same voxel of 0.3 mm is closed if it is moved to (1, 1, 0); a voxel of 0.25 mm is closed at the origin. *)
Example C60_example_away : forall order, let b := one_voxel (fi 1) (fi 1) (fi 0) (f_dec 3 10) in
  Permutation order (elements (grid_cells (shape b))) ->
  exists m, f_MarchingCubes b order = Some m /\ paired (read_mesh stl_number m).
Proof.
  intros order b. assert (Hm : B2R (f_mm b) = (5404319552844595 * / 18014398509481984)%R).
  { replace (f_mm b) with (B754_finite (prec:=prec) (emax:=emax) false 5404319552844595 (-54) eq_refl) by (apply B2SF_inj; vm_compute; reflexivity).
    unfold B2R, F2R. cbn [Fnum Fexp cond_Zopp]. f_equal. }
  assert (Hs : B2R (f_dec 3 10) = (5404319552844595 * / 18014398509481984)%R).
  { replace (f_dec 3 10) with (B754_finite (prec:=prec) (emax:=emax) false 5404319552844595 (-54) eq_refl) by (apply B2SF_inj; vm_compute; reflexivity).
    unfold B2R, F2R. cbn [Fnum Fexp cond_Zopp]. f_equal. }
  assert (H40 : bpow radix2 40 = 1099511627776%R) by (simpl; lra).
  destruct (fi_val 1) as [E1 F1]; [lia|].
  apply C60_closed_away.
  - exact stl_number_same.
  - cbn. lia.
  - split; [vm_compute; reflexivity|]. cbn [Scale b one_voxel]. rewrite Hs. split.
    + apply Rle_trans with (bpow radix2 (-2)); [apply bpow_le; lia|]. simpl. lra.
    + apply Rle_trans with (bpow radix2 0); [|apply bpow_le; lia]. simpl. lra.
  - exact F1.
  - exact F1.
  - cbn [TX b one_voxel]. rewrite Hm, H40, E1, Rabs_pos_eq by lra. lra.
  - cbn [TY b one_voxel]. rewrite Hm, H40, E1, Rabs_pos_eq by lra. lra.
  - intros v [Hv|[c Hv]].
    + cbn in Hv. apply elem_of_singleton in Hv as ->. split; [unfold small_key; cbn; lia|]. unfold away. rewrite Hm. cbn [TX TY b one_voxel]. rewrite E1.
      unfold kx, ky. cbn [fst snd]. split; left; lra.
    + cbn in Hv. rewrite lookup_empty in Hv. discriminate.
Qed.

Example C60_example_exact : forall order, let b := one_voxel (fi 0) (fi 0) (fi 0) (f_dec 1 4) in
  Permutation order (elements (grid_cells (shape b))) ->
  exists m, f_MarchingCubes b order = Some m /\ paired (read_mesh B2R m).
Proof.
  intros order b. assert (Hm : B2R (f_mm b) = bpow radix2 (-2)).
  { replace (f_mm b) with (B754_finite (prec:=prec) (emax:=emax) false 4503599627370496 (-54) eq_refl) by (apply B2SF_inj; vm_compute; reflexivity).
    unfold B2R, F2R. cbn [Fnum Fexp cond_Zopp]. simpl. lra. }
  destruct (fi_val 0) as [E0 F0]; [lia|].
  apply (C60_closed_exact b order B2R (-2) 0 0).
  - intros x y (_ & _ & E). exact E.
  - vm_compute. reflexivity.
  - exact F0.
  - exact F0.
  - lia.
  - exact Hm.
  - cbn [TX b one_voxel]. rewrite E0. ring.
  - cbn [TY b one_voxel]. rewrite E0. ring.
  - lia.
  - lia.
  - intros v [Hv|[c Hv]].
    + cbn in Hv. apply elem_of_singleton in Hv as ->. unfold small_key; cbn; lia.
    + cbn in Hv. rewrite lookup_empty in Hv. discriminate.
Qed.
