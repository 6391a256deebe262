(** C61: ManifoldMesh computed in float64 is as watertight as over exact numbers, wherever the model
    lies and whatever its scale. *)
From Coq Require Import ZArith QArith Reals List Lia Lra Bool Permutation.
From stdpp Require Import base list gmap sets fin_sets.
From Flocq Require Import Core IEEE754.BinarySingleNaN.
From Verif Require Import Base BaseLemmas BinvoxModel MeshSpec MeshCells MeshPush MarchModel MarchProofs
  ManifoldXform ManifoldTables ManifoldModel ManifoldProofs ManifoldSurface ManifoldProps ManifoldExact.
From Verif Require Import BinvoxDiceModel BinvoxDiceFloat FloatDice FloatMeshModel FloatMesh FloatMeshGap.
Import ListNotations.
Open Scope Z_scope.
#[local] Instance prec_gtq : Prec_gt_0 prec := eq_refl.
#[local] Instance prec_ltq : Prec_lt_emax prec emax := eq_refl.
#[local] Instance fexp_validq : Valid_exp fexp64 := fexp_correct prec emax prec_gtq.

(** ** Model *)

(** The offset of d halves (dd = 0.5, binvox/face-templates.go).  The code may negate 0.0; adding -0.0
    instead of 0.0 to a coordinate makes no difference here, because no coordinate is -0.0. *)
Definition f_dd (d : Z) : float64 := f_div go_float64 (fi d) (fi 2).

(** binvox/manifold.go:50-61 voxelToVector. *)
Definition f_mf_v2v (b : binvox float64) (k : key) (dx dy dz : Z) : fvec :=
  let mmpv := f_mm b in
  let x := f_add go_float64 (fi (kx k)) (fi 1) in
  let y := fi (ky k) in
  let z := f_add go_float64 (fi (kz k)) (fi 1) in
  (f_add go_float64 (f_mul go_float64 (f_add go_float64 x (f_dd dx)) mmpv) (TX b),
   f_add go_float64 (f_mul go_float64 (f_add go_float64 y (f_dd dy)) mmpv) (TY b),
   f_add go_float64 (f_mul go_float64 (f_add go_float64 z (f_dd dz)) mmpv) (TZ b)).

(** binvox/manifold.go:30-68 ManifoldMesh. *)
Definition f_ManifoldMesh (b : binvox float64) (order : list (key * Z)) : list fface :=
  flat_map (fun '(k, n) => grid2tris k n (f_mf_v2v b)) order.

(** An execution of ManifoldMesh: some order of the three map iterations. *)
Definition f_manifold_run (b : binvox float64) (m : list fface) : Prop :=
  exists whites cols order,
    Permutation whites (elements (white b)) /\ Permutation cols (elements (dom (colors b))) /\
    Permutation order (map_to_list (manifold_cells whites cols)) /\
    m = f_ManifoldMesh b order.

(** ** Specification *)
Notation rpt := (R * R * R)%type.
Definition rx (p : rpt) : R := fst (fst p).
Definition ry (p : rpt) : R := snd (fst p).
Definition rz (p : rpt) : R := snd p.

Definition on_segment_r (a b m : rpt) : Prop :=
  exists t, (0 <= t <= 1 /\ rx m = rx a + t * (rx b - rx a) /\ ry m = ry a + t * (ry b - ry a) /\ rz m = rz a + t * (rz b - rz a))%R.

(** An edge is kept, or cut in two at a point on it. *)
Inductive cut_edge_r : rpt * rpt -> list (rpt * rpt) -> Prop :=
| cut_keep_r a b : cut_edge_r (a, b) [(a, b)]
| cut_at_r a b m : on_segment_r a b m -> cut_edge_r (a, b) [(a, m); (m, b)].

(** After cutting some edges at points on them, the pieces pair up with their reverses. *)
Definition watertight_r (m : list (rpt * rpt * rpt)) : Prop :=
  exists pieces, Forall2 cut_edge_r (flat_map tri_edges m) pieces /\
    Permutation (concat pieces) (map reversed (concat pieces)).

(** ** Coordinates *)
Section Coords.
Open Scope R_scope.

(** The coordinate D half voxels from the origin of the axis. *)
Definition f_coord (mm t : float64) (D : Z) : float64 := f_add go_float64 (f_mul go_float64 (f_dd D) mm) t.

Lemma two_val : B2R (fi 2) = 2 /\ is_finite (fi 2) = true.
Proof. apply (fi_val 2). lia. Qed.

Lemma half_format D : (Z.abs D <= 2 ^ 52)%Z -> generic_format radix2 fexp64 (IZR D / 2).
Proof. intros H. replace (IZR D / 2) with (IZR D * bpow radix2 (-1)) by (change (bpow radix2 (-1)) with (/ 2); field). apply dyadic_format; lia. Qed.

Lemma dd_val D : (Z.abs D <= 2 ^ 52)%Z -> B2R (f_dd D) = IZR D / 2 /\ is_finite (f_dd D) = true.
Proof.
  intros H. destruct (fi_val D) as [E F]; [lia|]. destruct two_val as [E2 F2]. unfold f_dd.
  assert (Ex : fl (IZR D / 2) = IZR D / 2) by (apply round_generic; [typeclasses eauto|apply half_format, H]).
  destruct (div_ok (fi D) (fi 2) F) as [Ed Fd]; [lra| |].
  - rewrite E, E2. apply fl_abs_lt with 53%Z; [lia|]. pose proof (abs_IZR_bound D 53 ltac:(lia) ltac:(lia)). unfold Rdiv. rewrite Rabs_mult, (Rabs_pos_eq (/ 2)) by lra. pose proof (Rabs_pos (IZR D)). lra.
  - rewrite E, E2, Ex in Ed. split; assumption.
Qed.

Lemma dd_zero : B2SF (f_add go_float64 (f_add go_float64 (fi (-1)) (fi 1)) (f_dd 0)) = B2SF (f_dd 0). Proof. vm_compute. reflexivity. Qed.
Lemma dd_zero' : B2SF (f_add go_float64 (fi 0) (f_dd 0)) = B2SF (f_dd 0). Proof. vm_compute. reflexivity. Qed.

Lemma half_steps base n d : is_finite base = true -> B2R base = IZR n -> (Z.abs n <= 2 ^ 50 + 2)%Z -> (Z.abs d <= 1)%Z -> (2 * n + d <> 0)%Z ->
  f_add go_float64 base (f_dd d) = f_dd (2 * n + d).
Proof.
  intros Fb Eb Hn Hd Hne. destruct (dd_val d) as [Ed Fd]; [lia|]. destruct (dd_val (2 * n + d)) as [Es Fs]; [lia|].
  assert (E : B2R base + B2R (f_dd d) = IZR (2 * n + d) / 2). { rewrite Eb, Ed, plus_IZR, mult_IZR. field. }
  destruct (add_ok base (f_dd d) Fb Fd) as [Ea Fa]. { rewrite E, <- Es, fl_id. apply abs_B2R_lt_emax. }
  rewrite E, <- Es, fl_id in Ea. assert (IZR (2 * n + d) <> 0) by (intros C; apply eq_IZR in C; contradiction).
  apply B2R_inj; [apply is_finite_strict_B2R; rewrite Ea, Es; lra|apply is_finite_strict_B2R; rewrite Es; lra|exact Ea].
Qed.

Lemma plus_one n : (Z.abs n <= 2 ^ 51)%Z -> B2R (f_add go_float64 (fi n) (fi 1)) = IZR (n + 1) /\ is_finite (f_add go_float64 (fi n) (fi 1)) = true.
Proof.
  intros H. destruct (fi_val n) as [E F]; [lia|]. destruct (fi_val 1) as [E1 F1]; [lia|]. destruct (fi_val (n + 1)) as [E2 F2]; [lia|].
  assert (Ee : B2R (fi n) + B2R (fi 1) = IZR (n + 1)) by (rewrite E, E1, plus_IZR; reflexivity).
  destruct (add_ok (fi n) (fi 1) F F1) as [Ea Fa]. { rewrite Ee, <- E2, fl_id. apply abs_B2R_lt_emax. }
  rewrite Ee, fl_int in Ea by lia. split; assumption.
Qed.

Lemma v2v_x n d : (Z.abs n <= 2 ^ 50 + 1)%Z -> (Z.abs d <= 1)%Z -> f_add go_float64 (f_add go_float64 (fi n) (fi 1)) (f_dd d) = f_dd (2 * n + 2 + d).
Proof.
  intros Hn Hd. destruct (Z.eq_dec (2 * n + 2 + d)%Z 0%Z) as [E|E].
  - assert (n = -1 /\ d = 0)%Z as [-> ->] by lia. apply B2SF_inj. exact dd_zero.
  - destruct (plus_one n) as [Eb Fb]; [lia|]. rewrite (half_steps _ (n + 1) d Fb Eb) by lia. f_equal. lia.
Qed.
Lemma v2v_y n d : (Z.abs n <= 2 ^ 50 + 1)%Z -> (Z.abs d <= 1)%Z -> f_add go_float64 (fi n) (f_dd d) = f_dd (2 * n + d).
Proof.
  intros Hn Hd. destruct (Z.eq_dec (2 * n + d)%Z 0%Z) as [E|E].
  - assert (n = 0 /\ d = 0)%Z as [-> ->] by lia. apply B2SF_inj. exact dd_zero'.
  - destruct (fi_val n) as [Eb Fb]; [lia|]. apply half_steps; try assumption; lia.
Qed.

Lemma coord_value mm t D : is_finite mm = true -> 0 <= B2R mm <= bpow radix2 560 -> is_finite t = true -> Rabs (B2R t) <= bpow radix2 1000 -> (Z.abs D <= 2 ^ 52)%Z ->
  is_finite (f_coord mm t D) = true /\ B2R (f_coord mm t D) = fl (fl (IZR D / 2 * B2R mm) + B2R t).
Proof.
  intros Fm Bm Ft Bt HD. destruct (dd_val D HD) as [Ed Fd].
  assert (BP : Rabs (IZR D / 2 * B2R mm) <= bpow radix2 613).
  { rewrite Rabs_mult, (Rabs_pos_eq (B2R mm)) by lra. apply Rle_trans with (bpow radix2 53 * bpow radix2 560); [|rewrite <- bpow_plus; apply bpow_le; lia].
    apply Rmult_le_compat; [apply Rabs_pos|lra| |lra]. pose proof (abs_IZR_bound D 53 ltac:(lia) ltac:(lia)). unfold Rdiv. rewrite Rabs_mult, (Rabs_pos_eq (/ 2)) by lra. pose proof (Rabs_pos (IZR D)). lra. }
  destruct (mul_ok (f_dd D) mm Fd Fm) as [Ep Fp]. { rewrite Ed. apply fl_abs_lt with 613%Z; [lia|exact BP]. } rewrite Ed in Ep.
  destruct (add_ok (f_mul go_float64 (f_dd D) mm) t Fp Ft) as [Ea Fa].
  { rewrite Ep. apply fl_abs_lt with 1001%Z; [lia|]. eapply Rle_trans; [apply Rabs_triang|].
    assert (Rabs (fl (IZR D / 2 * B2R mm)) <= bpow radix2 1000) by (apply fl_abs_le; [lia|]; apply Rle_trans with (1 := BP); apply bpow_le; lia).
    change 1001%Z with (1000 + 1)%Z. rewrite bpow_plus. simpl (bpow radix2 1). lra. }
  rewrite Ep in Ea. unfold f_coord. split; assumption.
Qed.

Lemma coord_mono mm t D D' : is_finite mm = true -> 0 <= B2R mm <= bpow radix2 560 -> is_finite t = true -> Rabs (B2R t) <= bpow radix2 1000 ->
  (Z.abs D <= 2 ^ 52)%Z -> (Z.abs D' <= 2 ^ 52)%Z -> (D <= D')%Z -> B2R (f_coord mm t D) <= B2R (f_coord mm t D').
Proof.
  intros Fm Bm Ft Bt HD HD' Hle. destruct (coord_value mm t D Fm Bm Ft Bt HD) as [_ ->]. destruct (coord_value mm t D' Fm Bm Ft Bt HD') as [_ ->].
  apply fl_le, Rplus_le_compat_r, fl_le. apply Rmult_le_compat_r; [lra|]. apply IZR_le in Hle. lra.
Qed.
End Coords.

(** ** Cutting at T-junctions, only along the axes *)
Definition axis_edge (e : zedge) : bool :=
  let d := ksub (snd e) (fst e) in (((kx d =? 0) && (ky d =? 0)) || ((kx d =? 0) && (kz d =? 0)) || ((ky d =? 0) && (kz d =? 0))).
Definition cut_axis (e : zedge) : list zedge := if axis_edge e then cut_zedge e else [e].
Definition mf_axis_tab (n : Z) : list zedge := flat_map cut_axis (mf_edges n).

Lemma axis_cells_ok : forallb (fun n => cell_ok' mf_axis_tab mf_Gx mf_Hx mf_Fy mf_Fz n || inb torn_patterns n) (map Z.of_nat (seq 0 256)) = true.
Proof. vm_compute. reflexivity. Qed.

Lemma cut_axis_shift d e : cut_axis (shift_edge (kdouble d) e) = map (shift_edge (kdouble d)) (cut_axis e).
Proof.
  unfold cut_axis. rewrite cut_shift. replace (axis_edge (shift_edge (kdouble d) e)) with (axis_edge e); [destruct (axis_edge e); reflexivity|].
  destruct e as [[[a1 a2] a3] [[b1 b2] b3]], d as [[x y] z]. unfold axis_edge, shift_edge, ksub, kadd, kdouble, kx, ky, kz. cbn [fst snd].
  replace (2 * x + b1 - (2 * x + a1)) with (b1 - a1) by lia. replace (2 * y + b2 - (2 * y + a2)) with (b2 - a2) by lia.
  replace (2 * z + b3 - (2 * z + a3)) with (b3 - a3) by lia. reflexivity.
Qed.

Lemma mf_axis_flat fill K :
  flat_map cut_axis (flat_map (fun k => map (shift_edge (kdouble k)) (mf_edges (pat fill k))) K) =
  flat_map (fun k => map (shift_edge (kdouble k)) (mf_axis_tab (pat fill k))) K.
Proof.
  induction K as [|k K IH]; [reflexivity|]. cbn [flat_map]. rewrite flat_map_app, IH. f_equal. unfold mf_axis_tab.
  induction (mf_edges (pat fill k)) as [|e es IHe]; [reflexivity|]. cbn [map flat_map]. rewrite IHe, cut_axis_shift, map_app. reflexivity.
Qed.

(** All offsets in the triangles are at most one (half a voxel). *)
Definition small_off (d : key) : bool := (Z.abs (kx d) <=? 1) && (Z.abs (ky d) <=? 1) && (Z.abs (kz d) <=? 1).
Lemma offsets_small : forallb (fun n => forallb (all3 small_off) (mf_ztris n)) (map Z.of_nat (seq 0 256)) = true.
Proof. vm_compute. reflexivity. Qed.

Section Water.
  Context (b : binvox float64) (r : float64 -> R).
  Context (Hsmall : forall v, f_filled b v -> small_key (2 ^ 50) v).
  (** Reading the coordinates of the grid points keeps their order. *)
  Context (Hmono : forall t, In t [TX b; TY b; TZ b] -> forall D D', Z.abs D <= 2 ^ 52 -> Z.abs D' <= 2 ^ 52 -> D <= D' ->
    (r (f_coord (f_mm b) t D) <= r (f_coord (f_mm b) t D'))%R).

  (** Where the point d half voxels from grid vertex (0,0,0) of ManifoldMesh is put. *)
  Definition mfr (d : key) : rpt :=
    (r (f_coord (f_mm b) (TX b) (kx d + 2)), r (f_coord (f_mm b) (TY b) (ky d)), r (f_coord (f_mm b) (TZ b) (kz d + 2))).

  Lemma v2v_mfr k d : small_key (2 ^ 50 + 1) k -> small_off d = true ->
    read_vec r (f_mf_v2v b k (kx d) (ky d) (kz d)) = mfr (kadd (kdouble k) d).
  Proof using.
    clear Hmono Hsmall. destruct k as [[x y] z], d as [[dx dy] dz]. unfold small_key, small_off, kx, ky, kz. cbn [fst snd].
    rewrite !andb_true_iff, !Z.leb_le. intros (H1 & H2 & H3) [[G1 G2] G3].
    unfold read_vec, mfr, f_mf_v2v, kadd, kdouble, fx, fy, fz, kx, ky, kz. cbn [fst snd].
    rewrite !v2v_x, !v2v_y by assumption. unfold f_coord.
    replace (2 * x + dx + 2) with (2 * x + 2 + dx) by lia. replace (2 * z + dz + 2) with (2 * z + 2 + dz) by lia. reflexivity.
  Qed.

  Lemma mfr_cut e : small_key (2 ^ 51 + 3) (fst e) -> small_key (2 ^ 51 + 3) (snd e) -> axis_edge e = true -> even_edge e = true ->
    on_segment_r (mfr (fst e)) (mfr (snd e)) (mfr (kmid (fst e) (snd e))).
  Proof using Hmono.
    clear Hsmall. destruct e as [[[a1 a2] a3] [[b1 b2] b3]].
    unfold small_key, even_edge, axis_edge, kmid, ksub, kx, ky, kz. cbn [fst snd].
    rewrite !andb_true_iff, !orb_true_iff, !andb_true_iff, !Z.eqb_eq.
    intros (A1 & A2 & A3) (B1 & B2 & B3) Hax [[H1 H2] H3]. apply even_sub in H1, H2, H3.
    set (m1 := (a1 + b1) / 2) in *. set (m2 := (a2 + b2) / 2) in *. set (m3 := (a3 + b3) / 2) in *. clearbody m1 m2 m3.
    assert (Hb : forall x y z : R, ((x <= y <= z \/ z <= y <= x) -> exists t, 0 <= t <= 1 /\ y = x + t * (z - x))%R).
    { intros x y z H. destruct (Req_dec x z) as [->|Hne]; [exists 0%R; lra|]. exists ((y - x) / (z - x))%R. split; [|field; lra].
      destruct H as [H|H].
      - split; [apply Rmult_le_pos; [lra|left; apply Rinv_0_lt_compat; lra]|]. apply (Rmult_le_reg_r (z - x)); [lra|]. unfold Rdiv. rewrite Rmult_assoc, Rinv_l by lra. lra.
      - replace ((y - x) / (z - x))%R with ((x - y) / (x - z))%R by (field; lra).
        split; [apply Rmult_le_pos; [lra|left; apply Rinv_0_lt_compat; lra]|]. apply (Rmult_le_reg_r (x - z)); [lra|]. unfold Rdiv. rewrite Rmult_assoc, Rinv_l by lra. lra. }
    assert (Hc : forall t o a c m, In t [TX b; TY b; TZ b] -> (o = 0 \/ o = 2) -> Z.abs a <= 2 ^ 51 + 3 -> Z.abs c <= 2 ^ 51 + 3 -> 2 * m = a + c ->
      exists s, (0 <= s <= 1 /\ r (f_coord (f_mm b) t (m + o)) = r (f_coord (f_mm b) t (a + o)) + s * (r (f_coord (f_mm b) t (c + o)) - r (f_coord (f_mm b) t (a + o))))%R).
    { intros t o a c m Ht Ho Ha Hcc Hm. apply Hb. destruct (Z_le_gt_dec a c); [left|right]; split; apply Hmono; try exact Ht; lia. }
    unfold on_segment_r, mfr, rx, ry, rz, kx, ky, kz. cbn [fst snd].
    destruct Hax as [[[E1 E2]|[E1 E2]]|[E1 E2]].
    - assert (b1 = a1) by lia. assert (b2 = a2) by lia. assert (m1 = a1) by lia. assert (m2 = a2) by lia. subst.
      destruct (Hc (TZ b) 2 a3 b3 m3) as (s & Hs & E); try assumption; [cbn; auto|auto|]. exists s. split; [exact Hs|]. split; [ring|]. split; [ring|exact E].
    - assert (b1 = a1) by lia. assert (b3 = a3) by lia. assert (m1 = a1) by lia. assert (m3 = a3) by lia. subst.
      destruct (Hc (TY b) 0 a2 b2 m2) as (s & Hs & E); try assumption; [cbn; auto|auto|]. rewrite !Z.add_0_r in E. exists s. split; [exact Hs|]. split; [ring|]. split; [exact E|ring].
    - assert (b2 = a2) by lia. assert (b3 = a3) by lia. assert (m2 = a2) by lia. assert (m3 = a3) by lia. subst.
      destruct (Hc (TX b) 2 a1 b1 m1) as (s & Hs & E); try assumption; [cbn; auto|auto|]. exists s. split; [exact Hs|]. split; [exact E|]. split; ring.
  Qed.

  Definition push_r (e : zedge) : rpt * rpt := (mfr (fst e), mfr (snd e)).

  Lemma cut_pieces_r zs : Forall (fun e => small_key (2 ^ 51 + 3) (fst e) /\ small_key (2 ^ 51 + 3) (snd e)) zs ->
    exists pieces, Forall2 cut_edge_r (map push_r zs) pieces /\ concat pieces = map push_r (flat_map cut_axis zs).
  Proof using Hmono.
    clear Hsmall. induction 1 as [|e zs [H1 H2] _ (pieces & Hc & Hp)]; [exists []; split; [constructor|reflexivity]|].
    exists (map push_r (cut_axis e) :: pieces). cbn [map concat flat_map]. rewrite map_app, Hp. split; [|reflexivity].
    constructor; [|exact Hc]. unfold cut_axis, cut_zedge. destruct (axis_edge e) eqn:Ea; [|apply (cut_keep_r (mfr (fst e)) (mfr (snd e)))].
    destruct (even_edge e) eqn:Ee; [|apply (cut_keep_r (mfr (fst e)) (mfr (snd e)))].
    apply (cut_at_r (mfr (fst e)) (mfr (snd e)) (mfr (kmid (fst e) (snd e)))). apply mfr_cut; assumption.
  Qed.

  (** The cells visited are near voxels. *)
  Lemma pat_small k : pat (ffill b) k <> 0 -> small_key (2 ^ 50 + 1) k.
  Proof using Hsmall. intros H. apply cell_small with (b := b); [exact Hsmall|]. apply grid_cells_pat, H. Qed.

  Lemma shape_orders whites cols : Permutation whites (elements (white b)) -> Permutation cols (elements (dom (colors b))) ->
    Permutation whites (elements (white (shape b))) /\ Permutation cols (elements (dom (colors (shape b)))).
  Proof using.
    intros Hw Hc. split; [exact Hw|]. rewrite Hc. unfold colors, shape. cbn. destruct (Colors b) as [m|]; cbn; [|reflexivity].
    rewrite dom_fmap_L. reflexivity.
  Qed.

  Lemma f_mesh_faces K : (forall k, In k K -> pat (ffill b) k <> 0) ->
    read_mesh r (f_ManifoldMesh b (map (fun k => (k, pat (ffill b) k)) K)) = map (map3 mfr) (mf_faces (map (fun k => (k, pat (ffill b) k)) K)).
  Proof using Hsmall.
    induction K as [|k K IH]; intros HK; [reflexivity|]. unfold f_ManifoldMesh, mf_faces in *. cbn [map flat_map]. unfold read_mesh in *.
    rewrite !map_app, IH by (intros k' Hk'; apply HK; right; exact Hk'). f_equal.
    assert (Hk : small_key (2 ^ 50 + 1) k) by (apply pat_small, HK; left; reflexivity).
    rewrite grid2tris_nat, !map_map.
    pose proof offsets_small as Ho. rewrite forallb_forall in Ho. specialize (Ho _ (pat_range (ffill b) k)).
    induction (mf_ztris (pat (ffill b) k)) as [|[[p q] s] ts IHt]; [reflexivity|]. cbn [forallb all3] in Ho. rewrite !andb_true_iff in Ho. destruct Ho as [[[H1 H2] H3] Ho].
    cbn [map]. rewrite (IHt Ho). f_equal. unfold map3, shift_face, map3. rewrite !v2v_mfr by assumption. reflexivity.
  Qed.

  Lemma f_manifold_watertight m : f_manifold_run b m -> matching (fillb (shape b)) ->
    watertight_r (read_mesh r m).
  Proof using Hmono Hsmall.
    intros (whites & cols & order & Hw & Hc & Ho & ->) [Htorn Hm]. destruct (shape_orders whites cols Hw Hc) as [Hw' Hc'].
    destruct (manifold_order (shape b) whites cols order Hw' Hc' Ho) as (Eo & Hnd & Hin).
    set (K := map fst order) in *. clearbody K. subst order.
    rewrite f_mesh_faces by (intros k Hk; apply Hin, Hk).
    assert (Ee : forall ts, flat_map tri_edges (map (map3 mfr) ts) = map push_r (flat_map zface_edges ts)).
    { induction ts as [|[[p q] s] ts IH]; [reflexivity|]. cbn [map flat_map]. rewrite map_app, IH. reflexivity. }
    unfold watertight_r. rewrite Ee, mf_edges_flat.
    destruct (cut_pieces_r (flat_map (fun k => map (shift_edge (kdouble k)) (mf_edges (pat (ffill b) k))) K)) as (pieces & Hcut & Epc).
    { apply List.Forall_forall. intros e He. apply in_flat_map in He as (k & Hk & He). apply Hin, pat_small in Hk.
      apply in_map_iff in He as ((p & q) & <- & He). unfold mf_edges in He. apply in_flat_map in He as (t & Ht & He).
      pose proof offsets_small as Hof. rewrite forallb_forall in Hof. specialize (Hof _ (pat_range (ffill b) k)). rewrite forallb_forall in Hof. specialize (Hof t Ht).
      destruct t as [[t1 t2] t3]. cbn [all3] in Hof. rewrite !andb_true_iff in Hof. destruct Hof as [[G1 G2] G3].
      assert (Hpq : small_off p = true /\ small_off q = true). { cbn in He. destruct He as [E|[E|[E|[]]]]; injection E as <- <-; auto. }
      destruct Hpq as [Gp Gq]. clear - Hk Gp Gq. destruct k as [[x y] z], p as [[p1 p2] p3], q as [[q1 q2] q3].
      unfold small_off, small_key, shift_edge, kadd, kdouble, kx, ky, kz in *. cbn [fst snd] in *. rewrite !andb_true_iff, !Z.leb_le in Gp, Gq. destruct Gp as [[P1 P2] P3], Gq as [[Q1 Q2] Q3], Hk as (K1 & K2 & K3). clear -P1 P2 P3 Q1 Q2 Q3 K1 K2 K3. change (2 ^ 51 + 3) with 2251799813685251. change (2 ^ 50 + 1) with 1125899906842625 in *. repeat split; lia. }
    exists pieces. split; [exact Hcut|]. rewrite Epc, mf_axis_flat.
    assert (Hnet : Permutation (flat_map (fun k => map (shift_edge (kdouble k)) (mf_axis_tab (pat (ffill b) k))) K)
       (map swap_edge (flat_map (fun k => map (shift_edge (kdouble k)) (mf_axis_tab (pat (ffill b) k))) K))).
    { apply net_permutation. apply (cells_closed' mf_axis_tab mf_Gx mf_Hx mf_Fy mf_Fz eq_refl eq_refl eq_refl eq_refl); [|exact Hnd|intros k; apply Hin|].
      { intros k. unfold mf_Hx, mf_Gx. rewrite face_x. specialize (Hm k). rewrite <- !inb_iff in Hm. apply eq_true_iff_eq in Hm. rewrite Hm. reflexivity. }
      intros k _. pose proof axis_cells_ok as G. rewrite forallb_forall in G. specialize (G _ (pat_range (ffill b) k)).
      apply orb_true_iff in G as [G|G]; [exact G|]. apply inb_iff in G. exfalso. apply (Htorn k), G. }
    revert Hnet. generalize (flat_map (fun k => map (shift_edge (kdouble k)) (mf_axis_tab (pat (ffill b) k))) K). intros l Hl.
    transitivity (map push_r (map swap_edge l)); [apply Permutation_map, Hl|]. rewrite !map_map. reflexivity.
  Qed.
End Water.

Section Theorems.
Open Scope R_scope.

(** ManifoldMesh in float64: if the mesh of exact arithmetic is watertight (C36_exact), so is this one. *)
Theorem C61_watertight b m :
  (1 <= dim b <= 2 ^ 53)%Z -> usual (Scale b) ->
  (forall t, In t [TX b; TY b; TZ b] -> is_finite t = true /\ Rabs (B2R t) <= bpow radix2 1000) ->
  (forall v, f_filled b v -> small_key (2 ^ 50) v) ->
  closing_patterns (shape b) -> f_manifold_run b m -> watertight_r (read_mesh B2R m).
Proof.
  intros Hd Hs Ht Hv Hp Hr. destruct (f_mm_range b Hd Hs) as [Fm M]. pose proof (bpow_gt_0 radix2 (-560)).
  apply (f_manifold_watertight b B2R Hv); [|exact Hr|apply closing_matching, Hp].
  intros t Hin D D' HD HD' Hle. destruct (Ht t Hin). apply coord_mono; try assumption. lra.
Qed.

(** *** In the STL file *)
#[local] Instance valid32 : Valid_exp (FLT_exp (-149) 24) := fexp_correct 24 128 prec32_gt.
Notation fl32 := (round radix2 (FLT_exp (-149) 24) ZnearestE).

Lemma float32_value x : is_finite x = true -> Rabs (B2R x) <= bpow radix2 126 -> stl_number x = fl32 (B2R x).
Proof.
  intros Fx Hx. unfold stl_number, float32. destruct x as [s|s| |s m e He]; try discriminate Fx.
  - cbn. rewrite round_0; [reflexivity|typeclasses eauto].
  - pose proof (binary_normalize_correct 24 128 prec32_gt prec32_lt mode_NE (cond_Zopp s (Zpos m)) e s) as G.
    change (F2R {| Fnum := cond_Zopp s (Zpos m); Fexp := e |}) with (B2R (B754_finite (prec:=prec) (emax:=emax) s m e He)) in G.
    unfold SpecFloat.fexp in G. change (SpecFloat.emin 24 128) with (-149)%Z in G.
    replace (round radix2 (fun e0 : Z => Z.max (e0 - 24) (-149)) (round_mode mode_NE) (B2R (B754_finite (prec:=prec) (emax:=emax) s m e He))) with (fl32 (B2R (B754_finite (prec:=prec) (emax:=emax) s m e He))) in G by reflexivity.
    rewrite Rlt_bool_true in G; [exact (proj1 G)|].
    apply Rle_lt_trans with (bpow radix2 126); [|apply bpow_lt; lia].
    rewrite <- (round_NE_abs radix2 (FLT_exp (-149) 24)).
    replace (bpow radix2 126) with (fl32 (bpow radix2 126)); [apply round_le; [typeclasses eauto..|exact Hx]|].
    apply round_generic; [typeclasses eauto|]. apply generic_format_bpow. unfold FLT_exp. lia.
Qed.

Lemma f_mm_small b : (1 <= dim b <= 2 ^ 53)%Z -> usual (Scale b) -> B2R (Scale b) <= bpow radix2 60 -> B2R (f_mm b) <= bpow radix2 60.
Proof.
  intros Hd Hs H60. pose proof (usual_pos _ Hs) as Hp. unfold f_mm, f_voxelsPerMM.
  destruct (fi_val 0) as [E0 F0]; [lia|]. rewrite Bcompare_correct by (exact (proj1 Hs) || exact F0).
  rewrite E0, Rcompare_Gt by lra. destruct (vpmm_value (dim b) (Scale b) Hd Hs) as (Fv & Ev & V1 & V2). unfold f_vpmm in *.
  change (f_div go_float64 (fi (dim b)) (Scale b)) with (f_div go_float64 (f_int go_float64 (dim b)) (Scale b)).
  set (v := f_div go_float64 (f_int go_float64 (dim b)) (Scale b)) in *.
  assert (B : bpow radix2 (-60) <= B2R v).
  { rewrite Ev. rewrite <- (fl_bpow (-60)) by lia. apply fl_le. replace (-60)%Z with (- (60))%Z by lia. rewrite bpow_opp.
    apply Rle_trans with (/ B2R (Scale b)); [apply Rinv_le; lra|]. assert (1 <= IZR (dim b)) by (apply (IZR_le 1); lia).
    unfold Rdiv. rewrite <- (Rmult_1_l (/ B2R (Scale b))) at 1. apply Rmult_le_compat_r; [|lra]. left. apply Rinv_0_lt_compat, Hp. }
  pose proof (bpow_gt_0 radix2 (-60)) as P60. destruct (fi_val 1) as [E1 F1]; [lia|].
  assert (BI : 0 < 1 / B2R v <= bpow radix2 60).
  { unfold Rdiv. rewrite Rmult_1_l. split; [apply Rinv_0_lt_compat; lra|]. replace 60%Z with (- (-60))%Z by lia. rewrite bpow_opp. apply Rinv_le; lra. }
  destruct (div_ok (fi 1) v F1) as [Er Fr]; [lra| |].
  - rewrite E1. apply fl_abs_lt with 60%Z; [lia|]. rewrite Rabs_pos_eq; lra.
  - rewrite E1 in Er. rewrite Er. rewrite <- (fl_bpow 60) by lia. apply fl_le. tauto.
Qed.

Lemma coord_range mm t D : is_finite mm = true -> 0 <= B2R mm <= bpow radix2 60 -> is_finite t = true -> Rabs (B2R t) <= bpow radix2 120 -> (Z.abs D <= 2 ^ 52)%Z ->
  is_finite (f_coord mm t D) = true /\ Rabs (B2R (f_coord mm t D)) <= bpow radix2 126.
Proof.
  intros Fm Bm Ft Bt HD. destruct (coord_value mm t D) as [F E]; try assumption.
  { assert (bpow radix2 60 <= bpow radix2 560) by (apply bpow_le; lia). lra. }
  { apply Rle_trans with (1 := Bt). apply bpow_le. lia. }
  split; [exact F|]. rewrite E. apply fl_abs_le; [lia|]. eapply Rle_trans; [apply Rabs_triang|].
  assert (Rabs (fl (IZR D / 2 * B2R mm)) <= bpow radix2 120).
  { apply fl_abs_le; [lia|]. rewrite Rabs_mult, (Rabs_pos_eq (B2R mm)) by lra. apply Rle_trans with (bpow radix2 53 * bpow radix2 60); [|rewrite <- bpow_plus; apply bpow_le; lia].
    apply Rmult_le_compat; [apply Rabs_pos|lra| |lra]. pose proof (abs_IZR_bound D 53 ltac:(lia) ltac:(lia)). unfold Rdiv. rewrite Rabs_mult, (Rabs_pos_eq (/ 2)) by lra. pose proof (Rabs_pos (IZR D)). lra. }
  apply Rle_trans with (bpow radix2 121); [|apply bpow_le; lia]. change 121%Z with (120 + 1)%Z. rewrite bpow_plus. simpl (bpow radix2 1). lra.
Qed.

Theorem C61_watertight_stl b m :
  (1 <= dim b <= 2 ^ 53)%Z -> usual (Scale b) -> B2R (Scale b) <= bpow radix2 60 ->
  (forall t, In t [TX b; TY b; TZ b] -> is_finite t = true /\ Rabs (B2R t) <= bpow radix2 120) ->
  (forall v, f_filled b v -> small_key (2 ^ 50) v) ->
  closing_patterns (shape b) -> f_manifold_run b m -> watertight_r (read_mesh stl_number m).
Proof.
  intros Hd Hs H60 Ht Hv Hp Hr. destruct (f_mm_range b Hd Hs) as [Fm M]. pose proof (bpow_gt_0 radix2 (-560)). pose proof (f_mm_small b Hd Hs H60).
  apply (f_manifold_watertight b stl_number Hv); [|exact Hr|apply closing_matching, Hp].
  intros t Hin D D' HD HD' Hle. destruct (Ht t Hin) as [Ft Bt].
  destruct (coord_range (f_mm b) t D) as [F1 B1]; try assumption; [lra|]. destruct (coord_range (f_mm b) t D') as [F2 B2]; try assumption; [lra|].
  rewrite !float32_value by assumption. apply round_le; [typeclasses eauto..|]. apply coord_mono; try assumption; [lra|].
  apply Rle_trans with (1 := Bt). apply bpow_le. lia.
Qed.
End Theorems.
Print Assumptions C61_watertight.
Print Assumptions C61_watertight_stl.

(** The hypotheses hold of the voxel of 0.3 mm at the origin, whose mesh by MarchingCubes is not closed
    (C60_gap_float64): by ManifoldMesh it is, whatever the order. *)
Example C61_example m : let b := one_voxel (fi 0) (fi 0) (fi 0) (f_dec 3 10) in
  f_manifold_run b m -> watertight_r (read_mesh B2R m) /\ watertight_r (read_mesh stl_number m).
Proof.
  intros b Hr.
  assert (Hs : B2R (f_dec 3 10) = (5404319552844595 * / 18014398509481984)%R).
  { replace (f_dec 3 10) with (B754_finite (prec:=prec) (emax:=emax) false 5404319552844595 (-54) eq_refl) by (apply B2SF_inj; vm_compute; reflexivity).
    unfold B2R, F2R. cbn [Fnum Fexp cond_Zopp]. f_equal. }
  assert (Hu : usual (Scale b)).
  { split; [vm_compute; reflexivity|]. cbn [Scale b one_voxel]. rewrite Hs. split.
    + apply Rle_trans with (bpow radix2 (-2)); [apply bpow_le; lia|]. simpl. lra.
    + apply Rle_trans with (bpow radix2 0); [|apply bpow_le; lia]. simpl. lra. }
  assert (H60 : (B2R (Scale b) <= bpow radix2 60)%R).
  { cbn [Scale b one_voxel]. rewrite Hs. apply Rle_trans with (bpow radix2 0); [|apply bpow_le; lia]. simpl. lra. }
  destruct (fi_val 0) as [E0 F0]; [lia|].
  assert (Ht : forall e t, (0 <= e)%Z -> In t [TX b; TY b; TZ b] -> is_finite t = true /\ (Rabs (B2R t) <= bpow radix2 e)%R).
  { intros e t _ Hin. assert (t = fi 0) as -> by (destruct Hin as [<-|[<-|[<-|[]]]]; reflexivity). split; [exact F0|]. rewrite E0, Rabs_R0. apply bpow_ge_0. }
  assert (Hv : forall v, f_filled b v -> small_key (2 ^ 50) v).
  { intros v [Hv|[c Hv]]; [cbn in Hv; apply elem_of_singleton in Hv as ->; unfold small_key; cbn; lia|]. cbn in Hv. rewrite lookup_empty in Hv. discriminate. }
  assert (Hp : forall k n, block_pattern (shape b) k n -> ~ In n leaky_patterns).
  { intros k n Hn. apply block_pattern_pat in Hn as ->. rewrite <- leakyb_iff. destruct (Z.eq_dec (pat (fillb (shape b)) k) 0) as [E|E]; [rewrite E; discriminate|].
    apply grid_cells_pat in E. apply elem_of_elements in E. assert (G : forallb (fun k => negb (leakyb (pat (fillb (shape b)) k))) (elements (grid_cells (shape b))) = true) by (vm_compute; reflexivity).
    rewrite forallb_forall in G. apply elem_of_list_In, G in E. destruct (leakyb _); discriminate. }
  apply no_leaky_closing in Hp.
  split; [apply (C61_watertight b)|apply (C61_watertight_stl b)]; try assumption; try (intros t; apply Ht; lia); cbn; lia.
Qed.
Example C61_example_run : exists m, f_manifold_run (one_voxel (fi 0) (fi 0) (fi 0) (f_dec 3 10)) m /\ length m = 48%nat.
Proof.
  set (b := one_voxel (fi 0) (fi 0) (fi 0) (f_dec 3 10)).
  set (order := map_to_list (manifold_cells (elements (white b)) (elements (dom (colors b))))).
  exists (f_ManifoldMesh b order). split; [exists (elements (white b)), (elements (dom (colors b))), order; repeat split; reflexivity|].
  unfold order. vm_compute. reflexivity.
Qed.
