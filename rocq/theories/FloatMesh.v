(** C60: is the surface of MarchingCubes closed when its vertices are computed in float64?

    Over exact numbers it always is (C33).  In float64 the vertex on a voxel edge is
    p1 + 0.5*(p2 - p1), and cells that share the edge may walk it in opposite directions. *)
From Coq Require Import ZArith QArith Reals List Lia Lra Bool Permutation.
From stdpp Require Import base list gmap sets fin_sets.
From Flocq Require Import Core Relative Sterbenz Mult_error IEEE754.BinarySingleNaN.
From Verif Require Import Base BaseLemmas BinvoxModel MeshSpec MeshCells MeshPush MarchTables MarchModel MarchProofs.
From Verif Require Import BinvoxDiceModel BinvoxDiceFloat FloatDice FloatMeshModel.
Import ListNotations.
Open Scope Z_scope.
#[local] Instance prec_gtn : Prec_gt_0 prec := eq_refl.
#[local] Instance prec_ltn : Prec_lt_emax prec emax := eq_refl.
#[local] Instance fexp_validn : Valid_exp fexp64 := fexp_correct prec emax prec_gtn.

(** ** Specification *)

(** A mesh of triangles over any kind of vertices is closed if its directed edges can be paired with
    their reverses. *)
Definition tri_edges {V} (t : V * V * V) : list (V * V) := let '(a, b, c) := t in [(a, b); (b, c); (c, a)].
Definition reversed {V} (e : V * V) : V * V := (snd e, fst e).
Definition paired {V} (m : list (V * V * V)) : Prop :=
  Permutation (flat_map tri_edges m) (map reversed (flat_map tri_edges m)).

(** Reading the coordinates of a mesh with [r], e.g. as numbers, or rounded to the float32 of an STL file. *)
Definition read_vec {A} (r : float64 -> A) (p : fvec) : A * A * A := (r (fx p), r (fy p), r (fz p)).
Definition read_mesh {A} (r : float64 -> A) (m : list fface) : list ((A * A * A) * (A * A * A) * (A * A * A)) :=
  map (fun t => let '(a, b, c) := t in (read_vec r a, read_vec r b, read_vec r c)) m.

Definition f_filled (b : binvox float64) (k : key) : Prop := k ∈ white b \/ is_Some (colors b !! k).

(** The computed coordinate of the centre of voxel n along an axis with translation t, and the
    computed point half way from a to c. *)
Definition f_centre (mm t : float64) (n : Z) : float64 := f_add go_float64 (f_mul go_float64 (f_add go_float64 (fi n) f_half) mm) t.
Definition f_halfway (a c : float64) : float64 := f_add go_float64 a (f_mul go_float64 f_half (f_sub go_float64 c a)).

(** A voxel and an empty place next to it. *)
Definition exposed (b : binvox float64) (v w : key) : Prop := f_filled b v /\ ~ f_filled b w /\ axis_neighbour v w.

(** ** The voxels *)

Lemma shape_filled b k : filled (shape b) k <-> f_filled b k.
Proof.
  unfold filled, f_filled, white, colors, shape. cbn. destruct (Colors b) as [m|]; cbn.
  - rewrite lookup_fmap, fmap_is_Some. reflexivity.
  - rewrite !lookup_empty. split; intros [H|[? H]]; auto; discriminate.
Qed.

Notation ffill b := (fillb (shape b)).

Lemma ffill_iff b k : ffill b k = true <-> f_filled b k.
Proof. rewrite fillb_iff. apply shape_filled. Qed.
Lemma ffill_false b k : ffill b k = false <-> ~ f_filled b k.
Proof. rewrite <- ffill_iff. destruct (ffill b k); split; congruence. Qed.

Lemma f_lookup_spec b k : f_lookup b !! k = if ffill b k then Some (fi 1) else None.
Proof.
  unfold f_lookup.
  assert (H : forall l (m : gmap key float64), foldl (fun m v => <[v := fi 1]> m) m l !! k =
            if existsb (key_eqb k) l then Some (fi 1) else m !! k).
  { induction l as [|v l IH]; intros m; [reflexivity|]. cbn [foldl existsb]. rewrite IH.
    destruct (key_eqb k v) eqn:E; cbn [orb].
    - apply key_eqb_eq in E as ->. rewrite lookup_insert. destruct (existsb _ _); reflexivity.
    - rewrite lookup_insert_ne; [reflexivity|]. intros ->.
      rewrite (proj2 (key_eqb_eq k k) eq_refl) in E. discriminate. }
  rewrite H, lookup_empty.
  destruct (ffill b k) eqn:E.
  - apply visited_iff in E. rewrite (proj2 (existsb_exists _ _)); [reflexivity|].
    exists k. split; [exact E|apply key_eqb_eq; reflexivity].
  - destruct (existsb (key_eqb k) (visited (shape b))) eqn:E2; [|reflexivity].
    apply existsb_exists in E2 as (k' & Hk & Ek). apply key_eqb_eq in Ek as <-.
    apply visited_iff in Hk. congruence.
Qed.

(** ** A cell *)

(** The constants, computed. *)
Lemma half_test1 : f_lt (Babs (f_sub go_float64 f_half (fi 0))) f_epsilon = false. Proof. vm_compute. reflexivity. Qed.
Lemma half_test2 : f_lt (Babs (f_sub go_float64 f_half (fi 1))) f_epsilon = false. Proof. vm_compute. reflexivity. Qed.
Lemma half_test3 : f_lt (Babs (f_sub go_float64 (fi 0) (fi 1))) f_epsilon = false. Proof. vm_compute. reflexivity. Qed.
Lemma half_test4 : f_lt (Babs (f_sub go_float64 (fi 1) (fi 0))) f_epsilon = false. Proof. vm_compute. reflexivity. Qed.
Lemma mu_01 : f_div go_float64 (f_sub go_float64 f_half (fi 0)) (f_sub go_float64 (fi 1) (fi 0)) = f_half. Proof. apply B2SF_inj. vm_compute. reflexivity. Qed.
Lemma mu_10 : f_div go_float64 (f_sub go_float64 f_half (fi 1)) (f_sub go_float64 (fi 0) (fi 1)) = f_half. Proof. apply B2SF_inj. vm_compute. reflexivity. Qed.
Lemma below_0 : f_lt (fi 0) f_half = true. Proof. vm_compute. reflexivity. Qed.
Lemma below_1 : f_lt (fi 1) f_half = false. Proof. vm_compute. reflexivity. Qed.

Definition f_val (f : bool) : float64 := if f then fi 1 else fi 0.

Lemma f_interp_mid p1 p2 f1 f2 : xorb f1 f2 = true ->
  f_vertexInterp f_half p1 p2 (f_val f1) (f_val f2) =
  (f_halfway (fx p1) (fx p2), f_halfway (fy p1) (fy p2), f_halfway (fz p1) (fz p2)).
Proof.
  intros H. unfold f_vertexInterp, f_halfway. destruct f1, f2; try discriminate H; unfold f_val.
  - rewrite half_test2, half_test1, half_test4, mu_10. reflexivity.
  - rewrite half_test1, half_test2, half_test3, mu_01. reflexivity.
Qed.

Section Cell.
  Context (b : binvox float64) (k : key).
  Notation g := (f_cell (f_lookup b) (f_v2v b) k).

  Lemma f_cell_val i : (i < 8)%nat -> nth i (fgval g) (fi 0) = f_val (ffill b (corner i k)).
  Proof using.
    intros Hi. destruct k as [[x y] z].
    assert (H : forall k', default (fi 0) (f_lookup b !! k') = f_val (ffill b k')).
    { intros k'. rewrite f_lookup_spec. destruct (ffill b k'); reflexivity. }
    do 8 (destruct i as [|i]; [cbn [f_cell fgval nth]; rewrite H; unfold corner, kadd, kx, ky, kz; cbn [nth corner_off fst snd];
      match goal with |- f_val (fillb _ ?a) = f_val (fillb _ ?c) => replace c with a by (apply key_eq; lia) end; reflexivity|]). lia.
  Qed.

  Lemma f_cell_p i : (i < 8)%nat -> nth i (fgp g) fvec0 =
    (let '(dx, dy, dz) := nth i corner_off (0,0,0) in f_v2v b k dx dy dz).
  Proof using.
    intros Hi. destruct k as [[x y] z]. do 8 (destruct i as [|i]; [reflexivity|]). lia.
  Qed.

  Lemma f_cubeIndex_pat : f_cubeIndex g = mc_index (pat (ffill b) k).
  Proof using.
    unfold f_cubeIndex, pat. cbn [seq map foldl]. rewrite !f_cell_val by lia.
    assert (E : forall f, f_lt (f_val f) f_half = negb f) by (intros [|]; [exact below_1|exact below_0]). rewrite !E.
    destruct (ffill b (corner 0 k)), (ffill b (corner 1 k)), (ffill b (corner 2 k)), (ffill b (corner 3 k)),
      (ffill b (corner 4 k)), (ffill b (corner 5 k)), (ffill b (corner 6 k)), (ffill b (corner 7 k)); reflexivity.
  Qed.

  Lemma f_vertlist_spec i : (i < 12)%nat -> marked (mc_index (pat (ffill b) k)) i = true ->
    exists p1 p2, p1 = (let '(dx, dy, dz) := nth (fst (nth i edge_corners (0,0)%nat)) corner_off (0,0,0) in f_v2v b k dx dy dz) /\
      p2 = (let '(dx, dy, dz) := nth (snd (nth i edge_corners (0,0)%nat)) corner_off (0,0,0) in f_v2v b k dx dy dz) /\
      nth i (f_vertlist g) fvec0 = (f_halfway (fx p1) (fx p2), f_halfway (fy p1) (fy p2), f_halfway (fz p1) (fz p2)).
  Proof using.
    intros Hi Hm.
    pose proof Hm as Hx. rewrite marked_bits in Hx by exact Hi.
    assert (Hv : nth i (f_vertlist g) fvec0 =
      f_vertexInterp f_half (nth (fst (nth i edge_corners (0,0)%nat)) (fgp g) fvec0) (nth (snd (nth i edge_corners (0,0)%nat)) (fgp g) fvec0)
        (nth (fst (nth i edge_corners (0,0)%nat)) (fgval g) (fi 0)) (nth (snd (nth i edge_corners (0,0)%nat)) (fgval g) (fi 0))).
    { unfold f_vertlist. rewrite f_cubeIndex_pat. unfold marked in Hm.
      set (e := nth (Z.to_nat (mc_index (pat (ffill b) k))) edgeTable 0) in *. clearbody e. set (g0 := g). clearbody g0. clear Hx.
      do 12 (destruct i as [|i]; [cbn [edge_corners imap nth fst snd compose]; rewrite Hm; reflexivity|]). lia. }
    assert (H8 : (fst (nth i edge_corners (0,0)%nat) < 8)%nat /\ (snd (nth i edge_corners (0,0)%nat) < 8)%nat).
    { clear -Hi. do 12 (destruct i as [|i]; [cbn; lia|]). lia. }
    destruct H8 as [H8a H8b].
    eexists _, _. split; [reflexivity|]. split; [reflexivity|].
    rewrite Hv, !f_cell_val, !f_cell_p by assumption. apply f_interp_mid, Hx.
  Qed.

  Lemma f_polygonize_spec : exists ts,
    idx_tris (mc_index (pat (ffill b) k)) = Some ts /\
    f_polygonize g = Some (map (map3 (fun i => nth i (f_vertlist g) fvec0)) ts).
  Proof using.
    pose proof (table_ok_at (ffill b) k) as H. unfold table_ok in H. apply andb_true_iff in H as [_ H].
    destruct (idx_tris (mc_index (pat (ffill b) k))) as [ts|] eqn:E; [|discriminate]. exists ts. split; [reflexivity|].
    unfold f_polygonize. rewrite f_cubeIndex_pat. unfold idx_tris in E.
    destruct (nth (Z.to_nat (mc_index (pat (ffill b) k))) edgeTable 0 =? 0).
    - injection E as <-. reflexivity.
    - rewrite (nth12 (f_vertlist g) fvec0) at 1 by (unfold f_vertlist; rewrite imap_length; reflexivity).
      rewrite tri_loop_map, E. reflexivity.
  Qed.
End Cell.

(** ** Half-integers are exact *)
Section Exact.
Open Scope R_scope.

Lemma fl_half_int n : (Z.abs n <= 2 ^ 51)%Z -> fl (IZR n + / 2) = IZR n + / 2.
Proof.
  intros H. apply round_generic; [typeclasses eauto|]. apply generic_format_FLT.
  exists (Float radix2 (2 * n + 1) (-1)).
  - unfold F2R. cbn [Fnum Fexp bpow]. rewrite plus_IZR, mult_IZR. simpl (Z.pow_pos radix2 1). lra.
  - cbn [Fnum]. change (radix2 ^ prec)%Z with (2 ^ 53)%Z. lia.
  - cbn [Fexp]. unfold SpecFloat.emin. lia.
Qed.

Lemma half_val : B2R f_half = / 2 /\ is_finite f_half = true.
Proof. split; [|vm_compute; reflexivity]. replace f_half with (B754_finite (prec:=prec) (emax:=emax) false 4503599627370496 (-53) eq_refl) by (apply B2SF_inj; vm_compute; reflexivity). unfold B2R, F2R. cbn [Fnum Fexp cond_Zopp]. change (bpow radix2 (-53)) with (/ IZR (2 ^ 53)). simpl. lra. Qed.

Lemma fi_val n : (Z.abs n <= 2 ^ 53)%Z -> B2R (fi n) = IZR n /\ is_finite (fi n) = true.
Proof. intros H. destruct (int_ok n) as [E F]; [lia|]. rewrite fl_int in E by lia. split; assumption. Qed.

Lemma small_bound x e : (-1074 <= e < 1024)%Z -> Rabs x <= bpow radix2 e -> fl x = x -> Rabs (fl x) < bpow radix2 1024.
Proof. intros He H _. apply fl_abs_lt with e; assumption. Qed.

Lemma abs_IZR_bound n m : (Z.abs n <= 2 ^ m)%Z -> (0 <= m)%Z -> Rabs (IZR n) <= bpow radix2 m.
Proof. intros H Hm. rewrite <- abs_IZR. rewrite <- IZR_Zpower by lia. apply IZR_le. exact H. Qed.

Lemma half_plus n : (Z.abs n <= 2 ^ 51)%Z -> B2R (f_add go_float64 (fi n) f_half) = IZR n + / 2 /\ is_finite (f_add go_float64 (fi n) f_half) = true.
Proof.
  intros H. destruct (fi_val n) as [E F]; [lia|]. destruct half_val as [Eh Fh].
  destruct (add_ok (fi n) f_half F Fh) as [Ea Fa].
  - rewrite E, Eh. apply fl_abs_lt with 52%Z; [lia|]. eapply Rle_trans; [apply Rabs_triang|]. pose proof (abs_IZR_bound n 51 H ltac:(lia)).
    rewrite (Rabs_pos_eq (/ 2)) by lra. change 52%Z with (51 + 1)%Z. rewrite bpow_plus. simpl (bpow radix2 1).
    assert (1 <= bpow radix2 51) by (apply (bpow_le radix2 0 51); lia). lra.
  - rewrite E, Eh, fl_half_int in Ea by exact H. split; assumption.
Qed.

(** voxelToVector gives the same numbers for the same grid point, whichever cell asks. *)
Lemma f_v2v1_centre mm t k d : (Z.abs k <= 2 ^ 51)%Z -> (Z.abs d <= 1)%Z -> (Z.abs (k + d) <= 2 ^ 51)%Z -> f_v2v1 mm t k d = f_centre mm t (k + d).
Proof.
  intros Hk Hd Hkd. unfold f_v2v1, f_centre. f_equal. f_equal.
  destruct (half_plus k Hk) as [E1 F1]. destruct (half_plus (k + d) Hkd) as [E2 F2]. destruct (fi_val d) as [Ed Fd]; [lia|].
  assert (Er : B2R (f_add go_float64 (fi k) f_half) + B2R (fi d) = IZR (k + d) + / 2) by (rewrite E1, Ed, plus_IZR; ring).
  destruct (add_ok (f_add go_float64 (fi k) f_half) (fi d) F1 Fd) as [Ea Fa].
  - rewrite Er. rewrite <- E2. rewrite fl_id. apply abs_B2R_lt_emax.
  - rewrite Er, fl_half_int in Ea by exact Hkd.
    assert (Hnz : IZR (k + d) + / 2 <> 0). { intros C. assert (C2 : IZR (2 * (k + d) + 1) = 0) by (rewrite plus_IZR, mult_IZR; lra). apply eq_IZR in C2. lia. }
    apply B2R_inj; [apply is_finite_strict_B2R; rewrite Ea; exact Hnz|apply is_finite_strict_B2R; rewrite E2; exact Hnz|congruence].
Qed.
End Exact.

(** ** The mesh *)

(** The coordinate at a grid point given in half voxels, reached from the lower side. *)
Definition f_grid (mm t : float64) (D : Z) : float64 :=
  if Z.even D then f_halfway (f_centre mm t (D / 2)) (f_centre mm t (D / 2))
  else f_halfway (f_centre mm t (D / 2)) (f_centre mm t (D / 2 + 1)).

Lemma f_grid_even mm t n : f_grid mm t (n + n) = f_halfway (f_centre mm t n) (f_centre mm t n).
Proof. unfold f_grid. replace (n + n) with (2 * n) by lia. rewrite Z.even_mul. cbn [Z.even orb]. rewrite Z.mul_comm, Z.div_mul by lia. reflexivity. Qed.
Lemma f_grid_odd mm t n : f_grid mm t (n + (n + 1)) = f_halfway (f_centre mm t n) (f_centre mm t (n + 1)).
Proof.
  unfold f_grid. replace (n + (n + 1)) with (1 + 2 * n) by lia. rewrite Z.even_add, Z.even_mul. cbn [Z.even orb Bool.eqb].
  rewrite Z.mul_comm, Z.div_add by lia. change (1 / 2) with 0. rewrite Z.add_0_l. reflexivity.
Qed.

Lemma coord_grid {A} (r : float64 -> A) mm t n m :
  n = m \/ m = n + 1 \/ m = n - 1 /\ r (f_halfway (f_centre mm t n) (f_centre mm t m)) = r (f_halfway (f_centre mm t m) (f_centre mm t n)) ->
  r (f_halfway (f_centre mm t n) (f_centre mm t m)) = r (f_grid mm t (n + m)).
Proof.
  intros [-> | [-> | [-> E]]].
  - rewrite f_grid_even. reflexivity.
  - rewrite f_grid_odd. reflexivity.
  - rewrite E. replace (n + (n - 1)) with ((n - 1) + ((n - 1) + 1)) by lia. rewrite f_grid_odd. replace (n - 1 + 1) with n by lia. reflexivity.
Qed.

Lemma edge_corner_facts i : (i < 12)%nat ->
  let a := nth (fst (nth i edge_corners (0,0)%nat)) corner_off (0,0,0) in
  let c := nth (snd (nth i edge_corners (0,0)%nat)) corner_off (0,0,0) in
  axis_neighbour a c /\ (kz a = kz c \/ kz c = kz a + 1) /\ zmid i = kadd a c /\
  Z.abs (kx a) <= 1 /\ Z.abs (ky a) <= 1 /\ Z.abs (kz a) <= 1 /\ Z.abs (kx c) <= 1 /\ Z.abs (ky c) <= 1 /\ Z.abs (kz c) <= 1.
Proof.
  intros Hi. do 12 (destruct i as [|i]; [cbv zeta; cbn [nth fst snd edge_corners corner_off]; unfold axis_neighbour, kx, ky, kz; cbn [fst snd];
    split; [reflexivity|split; [lia|split; [reflexivity|lia]]]|]). lia.
Qed.

Definition small_key (B : Z) (k : key) : Prop := Z.abs (kx k) <= B /\ Z.abs (ky k) <= B /\ Z.abs (kz k) <= B.

Section Closed.
  Context (b : binvox float64) {A : Type} (r : float64 -> A).
  Context (Hsmall : forall v, f_filled b v -> small_key (2 ^ 50) v).
  Notation cX v := (f_centre (f_mm b) (TX b) (kx v)).
  Notation cY v := (f_centre (f_mm b) (TY b) (ky v)).
  Context (Hsym : forall v w, exposed b v w ->
    r (f_halfway (cX v) (cX w)) = r (f_halfway (cX w) (cX v)) /\ r (f_halfway (cY v) (cY w)) = r (f_halfway (cY w) (cY v))).

  Definition f_pos (D : key) : A * A * A :=
    (r (f_grid (f_mm b) (TX b) (kx D)), r (f_grid (f_mm b) (TY b) (ky D)), r (f_grid (f_mm b) (TZ b) (kz D))).

  Lemma sym_at v w : xorb (ffill b v) (ffill b w) = true -> axis_neighbour v w ->
    r (f_halfway (cX v) (cX w)) = r (f_halfway (cX w) (cX v)) /\ r (f_halfway (cY v) (cY w)) = r (f_halfway (cY w) (cY v)).
  Proof using Hsym Hsmall.
    intros Hx Hn. destruct (ffill b v) eqn:Ev, (ffill b w) eqn:Ew; try discriminate Hx.
    - apply ffill_iff in Ev. apply ffill_false in Ew. apply Hsym. split; [exact Ev|split; [exact Ew|exact Hn]].
    - apply ffill_iff in Ew. apply ffill_false in Ev. destruct (Hsym w v) as [H1 H2]; [|split; symmetry; assumption].
      split; [exact Ew|split; [exact Ev|]]. unfold axis_neighbour in *. lia.
  Qed.

  Lemma vertex_pos k i : small_key (2 ^ 50 + 1) k -> (i < 12)%nat -> marked (mc_index (pat (ffill b) k)) i = true ->
    read_vec r (nth i (f_vertlist (f_cell (f_lookup b) (f_v2v b) k)) fvec0) = f_pos (kadd (kdouble k) (zmid i)).
  Proof using Hsym Hsmall.
    intros Hk Hi Hm. destruct (f_vertlist_spec b k i Hi Hm) as (p1 & p2 & E1 & E2 & ->).
    rewrite marked_bits in Hm by exact Hi.
    destruct (edge_corner_facts i Hi) as (Hn & Hz & -> & Ha1 & Ha2 & Ha3 & Hc1 & Hc2 & Hc3).
    unfold corner in Hm.
    set (a := nth (fst (nth i edge_corners (0,0)%nat)) corner_off (0,0,0)) in *.
    set (c := nth (snd (nth i edge_corners (0,0)%nat)) corner_off (0,0,0)) in *. clearbody a c.
    destruct a as [[ax ay] az], c as [[ex ey] ez]. unfold kx, ky, kz in Ha1, Ha2, Ha3, Hc1, Hc2, Hc3, Hz. cbn [fst snd] in *.
    destruct k as [[x y] z]. destruct Hk as (Hk1 & Hk2 & Hk3). unfold kx, ky, kz in Hk1, Hk2, Hk3. cbn [fst snd] in *.
    assert (Hn' : axis_neighbour (x + ax, y + ay, z + az) (x + ex, y + ey, z + ez)).
    { unfold axis_neighbour, kx, ky, kz in *. cbn [fst snd] in *. lia. }
    unfold kadd, kx, ky, kz in Hm. cbn [fst snd] in Hm.
    destruct (sym_at _ _ Hm Hn') as [Sx Sy]. unfold axis_neighbour in Hn'. unfold kx, ky, kz in Sx, Sy, Hn'. cbn [fst snd] in Sx, Sy, Hn'.
    subst p1 p2. unfold read_vec, f_pos, f_v2v, kadd, kdouble, fx, fy, fz, kx, ky, kz. cbn [fst snd].
    rewrite !f_v2v1_centre by lia.
    replace (2 * x + (ax + ex)) with ((x + ax) + (x + ex)) by lia. replace (2 * y + (ay + ey)) with ((y + ay) + (y + ey)) by lia.
    replace (2 * z + (az + ez)) with ((z + az) + (z + ez)) by lia.
    f_equal; [f_equal|]; apply coord_grid; [| |lia].
    - destruct (Z.eq_dec (x + ex) (x + ax - 1)); [right; right; split; assumption|lia].
    - destruct (Z.eq_dec (y + ey) (y + ay - 1)); [right; right; split; assumption|lia].
  Qed.

  Lemma cell_small k : k ∈ grid_cells (shape b) -> small_key (2 ^ 50 + 1) k.
  Proof using Hsmall.
    intros H. apply grid_cells_iff in H as (v & Hv & Hk). apply shape_filled, Hsmall in Hv as (H1 & H2 & H3).
    apply voxel_cells_corner in Hk as (i & Hi & <-). destruct k as [[x y] z]. unfold small_key, corner, kadd, kx, ky, kz in *. cbn [fst snd] in *.
    do 8 (destruct i as [|i]; [cbn [nth corner_off fst snd] in *; lia|]). lia.
  Qed.

  Definition map_face (t : key * key * key) : (A * A * A) * (A * A * A) * (A * A * A) := map3 f_pos t.

  Lemma polygonize_pos k : k ∈ grid_cells (shape b) -> exists m, f_polygonize (f_cell (f_lookup b) (f_v2v b) k) = Some m /\
    read_mesh r m = map map_face (map (shift_face (kdouble k)) (mc_ztris (pat (ffill b) k))).
  Proof using Hsym Hsmall.
    intros Hk. apply cell_small in Hk. destruct (f_polygonize_spec b k) as (ts & E & Ep). eexists. split; [exact Ep|].
    unfold mc_ztris. rewrite E. unfold read_mesh. rewrite !map_map.
    assert (Hall : forallb (all3 (fun i => (i <? 12)%nat && marked (mc_index (pat (ffill b) k)) i)) ts = true).
    { pose proof (table_ok_at (ffill b) k) as H. unfold table_ok in H. apply andb_true_iff in H as [_ H]. rewrite E in H.
      apply andb_true_iff in H as [H _]. exact H. }
    clear E Ep. induction ts as [|[[p q] s] ts IH]; [reflexivity|].
    cbn [forallb all3] in Hall. apply andb_true_iff in Hall as [Ht Hall]. cbn [map]. f_equal; [|apply IH, Hall].
    rewrite !andb_true_iff, !Nat.ltb_lt in Ht. destruct Ht as [[[? ?] [? ?]] [? ?]].
    unfold map_face, shift_face, map3. rewrite !vertex_pos by assumption. reflexivity.
  Qed.

  Lemma mesh_pos order : (forall k, In k order -> k ∈ grid_cells (shape b)) -> exists m, f_MarchingCubes b order = Some m /\
    read_mesh r m = map map_face (flat_map (fun k => map (shift_face (kdouble k)) (mc_ztris (pat (ffill b) k))) order).
  Proof using Hsym Hsmall.
    induction order as [|k order IH]; intros Ho.
    - exists []. split; reflexivity.
    - destruct IH as (m & E & Hm); [intros k' Hk'; apply Ho; right; exact Hk'|]. destruct (polygonize_pos k) as (mk & Ek & Hk); [apply Ho; left; reflexivity|].
      exists (mk ++ m). unfold f_MarchingCubes in *. cbn [map concat_opt]. rewrite Ek, E. split; [reflexivity|].
      cbn [flat_map]. unfold read_mesh in *. rewrite !map_app, Hk, Hm. reflexivity.
  Qed.

  (** If on every exposed voxel face the two ways of computing the point half way between the two
      voxel centres give the same result, the mesh is closed. *)
  Theorem C60_closed_if_symmetric order : Permutation order (elements (grid_cells (shape b))) ->
    exists m, f_MarchingCubes b order = Some m /\ paired (read_mesh r m).
  Proof using Hsym Hsmall.
    intros Hp. destruct (mesh_pos order) as (m & E & Hm).
    { intros k Hk. rewrite <- elem_of_list_In, Hp, elem_of_elements in Hk. exact Hk. }
    exists m. split; [exact E|]. rewrite Hm. unfold paired.
    assert (Ee : forall ts, flat_map tri_edges (map map_face ts) = map (fun e => (f_pos (fst e), f_pos (snd e))) (flat_map zface_edges ts)).
    { induction ts as [|[[p q] s] ts IH]; [reflexivity|]. cbn [map flat_map]. rewrite map_app, IH. reflexivity. }
    rewrite Ee.
    assert (Hnet : Permutation (flat_map zface_edges (flat_map (fun k => map (shift_face (kdouble k)) (mc_ztris (pat (ffill b) k))) order))
                     (map swap_edge (flat_map zface_edges (flat_map (fun k => map (shift_face (kdouble k)) (mc_ztris (pat (ffill b) k))) order)))).
    { apply net_permutation. rewrite edges_flat.
      apply (cells_closed mc_edges mc_Fx mc_Fy mc_Fz eq_refl eq_refl eq_refl).
      - apply NoDup_ListNoDup. rewrite Hp. apply NoDup_elements.
      - intros k Hk. apply grid_cells_pat in Hk. rewrite <- elem_of_list_In, Hp, elem_of_elements. exact Hk.
      - intros k _. pose proof mc_cells_ok as H. rewrite forallb_forall in H. apply H, pat_range. }
    revert Hnet. generalize (flat_map zface_edges (flat_map (fun k => map (shift_face (kdouble k)) (mc_ztris (pat (ffill b) k))) order)). intros l Hl.
    transitivity (map (fun e => (f_pos (fst e), f_pos (snd e))) (map swap_edge l)); [apply Permutation_map; exact Hl|].
    rewrite !map_map. reflexivity.
  Qed.
End Closed.

(** ** When the two ways agree *)
Section Agree.
Open Scope R_scope.

Lemma fl_abs_bound x e : (-1074 <= e < 1024)%Z -> Rabs x <= bpow radix2 e -> Rabs (fl x) <= bpow radix2 e.
Proof. intros He. apply fl_abs_le. lia. Qed.

(** Two floats are the same number (+0 and -0 are). *)
Definition same_number (x y : float64) : Prop := is_finite x = true /\ is_finite y = true /\ B2R x = B2R y.

(** Half way, if the difference is exact. *)
Lemma halfway_exact a c : is_finite a = true -> is_finite c = true -> Rabs (B2R a) <= bpow radix2 1000 -> Rabs (B2R c) <= bpow radix2 1000 ->
  generic_format radix2 fexp64 (B2R c - B2R a) -> bpow radix2 (-900) <= Rabs (B2R c - B2R a) ->
  is_finite (f_halfway a c) = true /\ B2R (f_halfway a c) = fl ((B2R a + B2R c) / 2).
Proof.
  intros Fa Fc Ba Bc Hd Hb. set (d := B2R c - B2R a) in *.
  assert (H1001 : bpow radix2 1001 = bpow radix2 1000 + bpow radix2 1000) by (change 1001%Z with (1000 + 1)%Z; rewrite bpow_plus; simpl (bpow radix2 1); lra).
  assert (H1002 : bpow radix2 1002 = bpow radix2 1001 + bpow radix2 1001) by (change 1002%Z with (1001 + 1)%Z; rewrite bpow_plus; simpl (bpow radix2 1); lra).
  pose proof (bpow_gt_0 radix2 1000) as H1000.
  assert (Bd : Rabs d <= bpow radix2 1001). { unfold d. eapply Rle_trans; [apply Rabs_triang|]. rewrite Rabs_Ropp. lra. }
  assert (Ed : fl d = d) by (apply round_generic; [typeclasses eauto|exact Hd]).
  destruct (sub_ok c a Fc Fa) as [Es Fs]. { fold d. apply fl_abs_lt with 1001%Z; [lia|exact Bd]. } fold d in Es. rewrite Ed in Es.
  destruct half_val as [Eh Fh].
  assert (Em : fl (/ 2 * d) = / 2 * d).
  { apply round_generic; [typeclasses eauto|]. replace (/ 2 * d) with (d * bpow radix2 (-1)) by (change (bpow radix2 (-1)) with (/ 2); ring).
    apply (Mult_error.mult_bpow_exact_FLT radix2 (-1074) 53); [exact Hd|].
    assert (Hm : (-900 < mag radix2 d)%Z). { apply mag_gt_bpow. exact Hb. } lia. }
  assert (Bm : Rabs (/ 2 * d) <= bpow radix2 1001). { rewrite Rabs_mult, (Rabs_pos_eq (/ 2)) by lra. pose proof (Rabs_pos d). lra. }
  destruct (mul_ok f_half (f_sub go_float64 c a) Fh Fs) as [Ep Fp]. { rewrite Eh, Es. apply fl_abs_lt with 1001%Z; [lia|exact Bm]. }
  rewrite Eh, Es, Em in Ep.
  destruct (add_ok a (f_mul go_float64 f_half (f_sub go_float64 c a)) Fa Fp) as [Er Fr].
  { rewrite Ep. apply fl_abs_lt with 1002%Z; [lia|]. eapply Rle_trans; [apply Rabs_triang|]. lra. }
  rewrite Ep in Er. unfold f_halfway. split; [exact Fr|]. rewrite Er. f_equal. unfold d. field.
Qed.

Lemma halfway_sym_exact a c : is_finite a = true -> is_finite c = true -> Rabs (B2R a) <= bpow radix2 1000 -> Rabs (B2R c) <= bpow radix2 1000 ->
  generic_format radix2 fexp64 (B2R c - B2R a) -> bpow radix2 (-900) <= Rabs (B2R c - B2R a) ->
  same_number (f_halfway a c) (f_halfway c a).
Proof.
  intros Fa Fc Ba Bc Hd Hb. destruct (halfway_exact a c) as [F1 E1]; try assumption. destruct (halfway_exact c a) as [F2 E2]; try assumption.
  - replace (B2R a - B2R c) with (- (B2R c - B2R a)) by ring. apply generic_format_opp, Hd.
  - rewrite Rabs_minus_sym. exact Hb.
  - split; [exact F1|split; [exact F2|]]. rewrite E1, E2. f_equal. field.
Qed.

Lemma halfway_sym_sterbenz a c : is_finite a = true -> is_finite c = true -> Rabs (B2R a) <= bpow radix2 1000 -> Rabs (B2R c) <= bpow radix2 1000 ->
  B2R a / 2 <= B2R c <= 2 * B2R a \/ - B2R c / 2 <= - B2R a <= 2 * - B2R c -> bpow radix2 (-900) <= Rabs (B2R c - B2R a) ->
  same_number (f_halfway a c) (f_halfway c a).
Proof.
  intros Fa Fc Ba Bc Hs Hb. apply halfway_sym_exact; try assumption. destruct Hs as [Hs|Hs].
  - apply sterbenz; [typeclasses eauto|apply (FLT_exp_monotone (-1074) 53)|apply generic_format_B2R|apply generic_format_B2R|exact Hs].
  - replace (B2R c - B2R a) with (- B2R a - - B2R c) by ring.
    apply sterbenz; [typeclasses eauto|apply (FLT_exp_monotone (-1074) 53)|apply generic_format_opp, generic_format_B2R|apply generic_format_opp, generic_format_B2R|exact Hs].
Qed.

(** The centre of a voxel, to within a thousandth of a voxel. *)
Lemma centre_value mm t n : is_finite mm = true -> bpow radix2 (-560) <= B2R mm <= bpow radix2 560 -> is_finite t = true ->
  Rabs (B2R t) <= bpow radix2 40 * B2R mm -> (Z.abs n <= 2 ^ 40)%Z ->
  is_finite (f_centre mm t n) = true /\ Rabs (B2R (f_centre mm t n) - ((IZR n + / 2) * B2R mm + B2R t)) <= B2R mm / 1000.
Proof.
  intros Fm [M1 M2] Ft Bt Hn. set (m := B2R mm) in *. set (T := B2R t) in *. pose proof (bpow_gt_0 radix2 (-560)) as P560. assert (Pm : 0 < m) by lra.
  destruct (half_plus n) as [Eh Fh]; [lia|].
  set (P := (IZR n + / 2) * m).
  assert (Bn : Rabs (IZR n + / 2) <= bpow radix2 41).
  { eapply Rle_trans; [apply Rabs_triang|]. pose proof (abs_IZR_bound n 40 Hn ltac:(lia)). rewrite (Rabs_pos_eq (/ 2)) by lra.
    change 41%Z with (40 + 1)%Z. rewrite bpow_plus. simpl (bpow radix2 1). assert (1 <= bpow radix2 40) by (apply (bpow_le radix2 0 40); lia). lra. }
  assert (BP : Rabs P <= bpow radix2 41 * m). { unfold P. rewrite Rabs_mult, (Rabs_pos_eq m) by lra. apply Rmult_le_compat_r; lra. }
  assert (BP' : Rabs P <= bpow radix2 700). { apply Rle_trans with (1 := BP). apply Rle_trans with (bpow radix2 41 * bpow radix2 560); [apply Rmult_le_compat_l; [apply bpow_ge_0|exact M2]|]. rewrite <- bpow_plus. apply bpow_le. lia. }
  destruct (mul_ok (f_add go_float64 (fi n) f_half) mm Fh Fm) as [Ep Fp]. { rewrite Eh. fold m. fold P. apply fl_abs_lt with 700%Z; [lia|exact BP']. }
  rewrite Eh in Ep. fold m in Ep. fold P in Ep.
  assert (U : u = / 9007199254740992) by exact u_val.
  assert (Etiny : bpow radix2 (-1075) <= m / 1000000).
  { apply Rle_trans with (bpow radix2 (-560) * bpow radix2 (-20)).
    - rewrite <- bpow_plus. apply bpow_le. lia.
    - replace (bpow radix2 (-20)) with (/ 1048576) by (simpl; lra). lra. }
  pose proof (fl_err P) as EP.
  assert (E1 : bpow radix2 41 = 2199023255552) by (simpl; lra). assert (E0 : bpow radix2 40 = 1099511627776) by (simpl; lra).
  rewrite E1 in BP. rewrite E0 in Bt.
  assert (EP' : Rabs (fl P - P) <= m / 3000). { eapply Rle_trans; [exact EP|]. rewrite U. lra. }
  assert (BS : Rabs (fl P + T) <= 4000000000000 * m).
  { replace (fl P + T) with ((fl P - P) + (P + T)) by ring. eapply Rle_trans; [apply Rabs_triang|]. pose proof (Rabs_triang P T). lra. }
  pose proof (fl_err (fl P + T)) as ES.
  assert (ES' : Rabs (fl (fl P + T) - (fl P + T)) <= m / 2000). { eapply Rle_trans; [exact ES|]. rewrite U. lra. }
  destruct (add_ok (f_mul go_float64 (f_add go_float64 (fi n) f_half) mm) t Fp Ft) as [Er Fr].
  { rewrite Ep. fold T. apply fl_abs_lt with 700%Z; [lia|]. apply Rle_trans with (1 := BS). apply Rle_trans with (bpow radix2 42 * bpow radix2 560).
    - apply Rmult_le_compat; try lra. simpl. lra.
    - rewrite <- bpow_plus. apply bpow_le. lia. }
  rewrite Ep in Er. fold T in Er. unfold f_centre. split; [exact Fr|]. rewrite Er.
  replace (fl (fl P + T) - (P + T)) with ((fl (fl P + T) - (fl P + T)) + (fl P - P)) by ring.
  eapply Rle_trans; [apply Rabs_triang|]. lra.
Qed.

(** Voxel face n+1 at least two voxels away from the origin of its axis. *)
Lemma away_sym mm t n : is_finite mm = true -> bpow radix2 (-560) <= B2R mm <= bpow radix2 560 -> is_finite t = true ->
  Rabs (B2R t) <= bpow radix2 40 * B2R mm -> (Z.abs n <= 2 ^ 40)%Z -> (Z.abs (n + 1) <= 2 ^ 40)%Z ->
  2 * B2R mm <= Rabs (IZR (n + 1) * B2R mm + B2R t) ->
  same_number (f_halfway (f_centre mm t n) (f_centre mm t (n + 1))) (f_halfway (f_centre mm t (n + 1)) (f_centre mm t n)).
Proof.
  intros Fm M Ft Bt Hn Hn1 Haway.
  destruct (centre_value mm t n Fm M Ft Bt Hn) as [F0 E0]. destruct (centre_value mm t (n + 1) Fm M Ft Bt Hn1) as [F1 E1].
  rewrite plus_IZR in E1, Haway. set (m := B2R mm) in *. set (T := B2R t) in *.
  set (a := B2R (f_centre mm t n)) in *. set (c := B2R (f_centre mm t (n + 1))) in *.
  pose proof (bpow_gt_0 radix2 (-560)) as P560. destruct M as [M1 M2].
  apply Rabs_le_inv in E0, E1. apply Rabs_le_inv in Bt.
  assert (Bn : Rabs (IZR n) <= bpow radix2 40) by (apply abs_IZR_bound; lia). apply Rabs_le_inv in Bn.
  assert (X0 : bpow radix2 40 = 1099511627776) by (simpl; lra). rewrite X0 in *.
  assert (Bnm : - (1099511627776 * m) <= IZR n * m <= 1099511627776 * m) by nra.
  assert (Hbig : forall x, - (4398046511104 * m) <= x <= 4398046511104 * m -> Rabs x <= bpow radix2 1000).
  { intros x Hx. apply Rle_trans with (bpow radix2 42 * bpow radix2 560).
    - replace (bpow radix2 42) with 4398046511104 by (simpl; lra). apply Rabs_le. nra.
    - rewrite <- bpow_plus. apply bpow_le. lia. }
  assert (Ba : Rabs a <= bpow radix2 1000) by (apply Hbig; lra).
  assert (Bc : Rabs c <= bpow radix2 1000) by (apply Hbig; lra).
  assert (Hd : m / 2 <= c - a) by lra.
  assert (Bd : bpow radix2 (-900) <= Rabs (c - a)).
  { rewrite Rabs_pos_eq by lra. apply Rle_trans with (2 := Hd). apply Rle_trans with (bpow radix2 (-560) * bpow radix2 (-1)); [rewrite <- bpow_plus; apply bpow_le; lia|]. change (bpow radix2 (-1)) with (/ 2). lra. }
  destruct (Rle_lt_dec 0 ((IZR n + 1) * m + T)) as [Hpos|Hneg].
  - rewrite Rabs_pos_eq in Haway by exact Hpos. apply halfway_sym_sterbenz; try assumption. fold a c. left. split; lra.
  - rewrite Rabs_left in Haway by exact Hneg. apply halfway_sym_sterbenz; try assumption. fold a c. right. split; lra.
Qed.

Lemma f_mm_range b : (1 <= dim b <= 2 ^ 53)%Z -> usual (Scale b) ->
  is_finite (f_mm b) = true /\ bpow radix2 (-560) <= B2R (f_mm b) <= bpow radix2 560.
Proof.
  intros Hd Hs. pose proof (usual_pos _ Hs) as Hp. unfold f_mm, f_voxelsPerMM.
  destruct (fi_val 0) as [E0 F0]; [lia|]. rewrite Bcompare_correct by (exact (proj1 Hs) || exact F0).
  rewrite E0, Rcompare_Gt by lra. destruct (vpmm_value (dim b) (Scale b) Hd Hs) as (Fv & Ev & V1 & V2). unfold f_vpmm in *.
  change (f_div go_float64 (fi (dim b)) (Scale b)) with (f_div go_float64 (f_int go_float64 (dim b)) (Scale b)).
  set (v := f_div go_float64 (f_int go_float64 (dim b)) (Scale b)) in *.
  assert (B : bpow radix2 (-500) <= B2R v <= bpow radix2 553).
  { rewrite Ev. rewrite <- (fl_bpow (-500)) by lia. rewrite <- (fl_bpow 553) by lia. split; apply fl_le; assumption. }
  pose proof (bpow_gt_0 radix2 (-500)) as P500. destruct (fi_val 1) as [E1 F1]; [lia|].
  assert (BI : bpow radix2 (-553) <= 1 / B2R v <= bpow radix2 500).
  { unfold Rdiv. rewrite Rmult_1_l. split.
    - replace (-553)%Z with (- (553))%Z by lia. rewrite bpow_opp. apply Rinv_le; lra.
    - replace 500%Z with (- (-500))%Z by lia. rewrite bpow_opp. apply Rinv_le; lra. }
  destruct (div_ok (fi 1) v F1) as [Er Fr]; [lra| |].
  - rewrite E1. apply fl_abs_lt with 500%Z; [lia|]. rewrite Rabs_pos_eq; [tauto|]. pose proof (bpow_gt_0 radix2 (-553)); lra.
  - rewrite E1 in Er. split; [exact Fr|]. rewrite Er. split.
    + apply Rle_trans with (bpow radix2 (-553)); [apply bpow_le; lia|]. rewrite <- (fl_bpow (-553)) by lia. apply fl_le. tauto.
    + apply Rle_trans with (bpow radix2 500); [|apply bpow_le; lia]. rewrite <- (fl_bpow 500) by lia. apply fl_le. tauto.
Qed.

(** Layer n of an axis with translation t, at least two voxel widths away from the origin. *)
Definition away (mm t : float64) (n : Z) : Prop :=
  2 * B2R mm <= IZR n * B2R mm + B2R t \/ IZR (n + 1) * B2R mm + B2R t <= - (2 * B2R mm).

Lemma away_neighbour {A} (r : float64 -> A) (Hr : forall x y, same_number x y -> r x = r y) mm t n m :
  is_finite mm = true -> bpow radix2 (-560) <= B2R mm <= bpow radix2 560 -> is_finite t = true -> Rabs (B2R t) <= bpow radix2 40 * B2R mm ->
  (Z.abs n < 2 ^ 40)%Z -> (Z.abs (n - m) <= 1)%Z -> away mm t n ->
  r (f_halfway (f_centre mm t n) (f_centre mm t m)) = r (f_halfway (f_centre mm t m) (f_centre mm t n)).
Proof.
  intros Fm M Ft Bt Hn Hm Haway. pose proof (bpow_gt_0 radix2 (-560)).
  assert (H1 : 2 * B2R mm <= Rabs (IZR n * B2R mm + B2R t)).
  { destruct Haway as [H1|H1]; [apply Rle_trans with (1 := H1); apply Rle_abs|]. rewrite plus_IZR in H1. rewrite Rabs_left1 by lra. lra. }
  assert (H2 : 2 * B2R mm <= Rabs (IZR (n + 1) * B2R mm + B2R t)).
  { destruct Haway as [H2|H2]; rewrite plus_IZR in *; [rewrite Rabs_pos_eq by lra; lra|]. rewrite Rabs_left1 by lra. lra. }
  assert (C : m = n \/ m = (n + 1)%Z \/ m = (n - 1)%Z) by lia. destruct C as [-> | [-> | ->]]; [reflexivity| |].
  - apply Hr. apply away_sym; try assumption; lia.
  - symmetry. apply Hr. replace n with (n - 1 + 1)%Z at 2 3 by lia. apply away_sym; try assumption; try lia. replace (n - 1 + 1)%Z with n by lia. exact H1.
Qed.

(** The mesh is closed if the voxels keep two voxel widths away from the planes x = 0 and y = 0:
    as numbers, and in any format to which the coordinates are converted afterwards. *)
Theorem C60_closed_away b order {A} (r : float64 -> A) :
  (forall x y, same_number x y -> r x = r y) ->
  (1 <= dim b <= 2 ^ 53)%Z -> usual (Scale b) -> is_finite (TX b) = true -> is_finite (TY b) = true ->
  Rabs (B2R (TX b)) <= bpow radix2 40 * B2R (f_mm b) -> Rabs (B2R (TY b)) <= bpow radix2 40 * B2R (f_mm b) ->
  (forall v, f_filled b v -> small_key (2 ^ 40 - 1) v /\ away (f_mm b) (TX b) (kx v) /\ away (f_mm b) (TY b) (ky v)) ->
  Permutation order (elements (grid_cells (shape b))) ->
  exists m, f_MarchingCubes b order = Some m /\ paired (read_mesh r m).
Proof.
  intros Hr Hd Hs FX FY BX BY Hv Hp. destruct (f_mm_range b Hd Hs) as [Fm M].
  apply C60_closed_if_symmetric; [| |exact Hp].
  - intros v Hf. destruct (Hv v Hf) as [(H1 & H2 & H3) _]. unfold small_key. lia.
  - intros v w (Hf & _ & Hn). destruct (Hv v Hf) as [(H1 & H2 & H3) [AX AY]]. unfold axis_neighbour in Hn.
    split; apply away_neighbour; try assumption; lia.
Qed.
End Agree.
