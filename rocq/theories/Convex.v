(** C80: voxelizing a convex solid. *)
From Verif Require Import Base BinvoxSpec BinvoxModel Geom VoxelizeModel VoxelizeSpec VoxelizeLine VoxelizeSlice VoxelizeFill VoxelizeProps VoxelizeAccuracy.
From Coq Require Import ZArith QArith Qround List Lia Lqa Bool.
From stdpp Require Import base list gmap.
Import ListNotations.
Open Scope Z_scope.

(** ** Specification *)

(** How far [q] is in front of the plane through [p] with normal [n] (times the length of [n]). *)
Definition height (n p q : qpt) : Q := (px n * (px q - px p) + py n * (py q - py p) + pz n * (pz q - pz p))%Q.

(** The points that are not in front of any triangle: a convex polyhedron. *)
Definition behind (mesh : list tri) (q : qpt) : Prop := forall t, In t mesh -> (height (tnorm t) (tv1 t) q <= 0)%Q.

(** [mesh] is the surface of that polyhedron, with normals that point outwards. *)
Record convex_surface (mesh : list tri) : Prop := ConvexSurface {
  cs_flat t : In t mesh -> (height (tnorm t) (tv1 t) (tv2 t) == 0 /\ height (tnorm t) (tv1 t) (tv3 t) == 0)%Q;
  cs_normal t : In t mesh -> ~ qpt_eq (tnorm t) (0%Q, 0%Q, 0%Q);
  cs_vertices t : In t mesh -> behind mesh (tv1 t) /\ behind mesh (tv2 t) /\ behind mesh (tv3 t);
  cs_covers t q : In t mesh -> behind mesh q -> (height (tnorm t) (tv1 t) q == 0)%Q -> exists t', In t' mesh /\ in_triangle t' q;
  cs_bounded : exists B : Q, forall q, behind mesh q -> (- B <= px q <= B)%Q
}.

(** What the slicer and the filler can handle (C30, C31): no almost flat edges, no triangle in the plane, no V2 alone on the plane
    between V1 and V3, no normal whose x is tiny without being 0. *)
Definition sliceable (t : tri) (z : Q) : Prop := clean t /\ ~ coplanar t z /\ ~ middle_on_plane t z.
Definition side_clear (t : tri) : Prop := (px (tnorm t) == 0 \/ epsilon < px (tnorm t) \/ px (tnorm t) < - epsilon)%Q.

(** ** Convexity *)
Lemma height_eq n p q q' : qpt_eq q q' -> (height n p q == height n p q')%Q.
Proof. intros H. apply qpt_eq_iff in H as (H1 & H2 & H3). unfold height. rewrite H1, H2, H3. reflexivity. Qed.

Lemma behind_eq mesh q q' : qpt_eq q q' -> behind mesh q -> behind mesh q'.
Proof. intros E H t Ht. rewrite <- (height_eq _ _ _ _ E). apply H, Ht. Qed.

Lemma behind_lerp mesh p q s : (0 <= s <= 1)%Q -> behind mesh p -> behind mesh q -> behind mesh (lerp p q s).
Proof.
  intros Hs Hp Hq t Ht. specialize (Hp t Ht). specialize (Hq t Ht).
  assert (E : (height (tnorm t) (tv1 t) (lerp p q s) == (1 - s) * height (tnorm t) (tv1 t) p + s * height (tnorm t) (tv1 t) q)%Q) by (unfold height, lerp, px, py, pz; cbn [fst snd]; ring).
  rewrite E. nra.
Qed.

Lemma comb_height n p a b c u v w : (a + b + c == 1)%Q -> (height n p (comb3 a b c u v w) == a * height n p u + b * height n p v + c * height n p w)%Q.
Proof. intros E. assert (Ea : (a == 1 - b - c)%Q) by lra. unfold height, comb3, px, py, pz. cbn [fst snd]. rewrite Ea. ring. Qed.

Lemma triangle_behind mesh t r : convex_surface mesh -> In t mesh -> in_triangle t r -> behind mesh r.
Proof.
  intros H Ht (a & b & c & (Ha & Hb & Hc & E) & Er) t' Ht'. destruct (cs_vertices _ H t Ht) as (H1 & H2 & H3). specialize (H1 t' Ht'). specialize (H2 t' Ht'). specialize (H3 t' Ht').
  rewrite (height_eq _ _ _ _ Er), comb_height by exact E. nra.
Qed.

Lemma triangle_flat mesh t r : convex_surface mesh -> In t mesh -> in_triangle t r -> (height (tnorm t) (tv1 t) r == 0)%Q.
Proof.
  intros H Ht (a & b & c & (Ha & Hb & Hc & E) & Er). destruct (cs_flat _ H t Ht) as (H2 & H3).
  rewrite (height_eq _ _ _ _ Er), comb_height, H2, H3 by exact E. assert (H1 : (height (tnorm t) (tv1 t) (tv1 t) == 0)%Q) by (unfold height; ring). rewrite H1. ring.
Qed.

(** The plane of a triangle supports the solid at each of its points. *)
Lemma supports mesh t r q : convex_surface mesh -> In t mesh -> in_triangle t r -> behind mesh q -> (height (tnorm t) r q <= 0)%Q.
Proof.
  intros H Ht Hr Hq. pose proof (triangle_flat _ _ _ H Ht Hr) as Hf. specialize (Hq t Ht).
  assert (E : (height (tnorm t) r q == height (tnorm t) (tv1 t) q - height (tnorm t) (tv1 t) r)%Q) by (unfold height; ring). rewrite E, Hf. lra.
Qed.

(** ** The way out of the solid along x *)
Lemma least (f : tri -> Q) l : l <> [] -> exists t, In t l /\ forall t', In t' l -> (f t <= f t')%Q.
Proof.
  induction l as [|t l IH]; [congruence|]. intros _. destruct l as [|u l]; [exists t; split; [left; reflexivity|intros t' [<-|[]]; lra]|].
  destruct IH as (m & Hm & Hl); [discriminate|]. destruct (Qlt_le_dec (f t) (f m)) as [Hlt|Hle].
  - exists t. split; [left; reflexivity|]. intros t' [<-|H]; [lra|]. specialize (Hl t' H). lra.
  - exists m. split; [right; exact Hm|]. intros t' [<-|H]; [exact Hle|exact (Hl t' H)].
Qed.

Definition shift_x (q : qpt) (d : Q) : qpt := ((px q + d)%Q, py q, pz q).
Lemma shift_height n p q d : (height n p (shift_x q d) == height n p q + d * px n)%Q.
Proof. unfold height, shift_x, px, py, pz. cbn [fst snd]. ring. Qed.

Lemma Qmult_div_l' a c : ~ (c == 0)%Q -> (a / c * c == a)%Q.
Proof. intros H. field. exact H. Qed.

Lemma way_out mesh q g : convex_surface mesh -> (g == 1 \/ g == -(1))%Q -> behind mesh q ->
  exists s t, (0 <= s)%Q /\ In t mesh /\ in_triangle t (shift_x q (g * s)).
Proof.
  intros H Hg Hq. set (l := List.filter (fun t => qlt 0 (g * px (tnorm t))) mesh).
  assert (Hl : forall t, In t l <-> In t mesh /\ (0 < g * px (tnorm t))%Q).
  { intros t. unfold l. rewrite filter_In. unfold qlt. rewrite negb_true_iff. split; intros [H1 H2]; (split; [exact H1|]).
    - destruct (Qlt_le_dec 0 (g * px (tnorm t))) as [?|C]; [assumption|]. apply Qle_bool_iff in C. congruence.
    - destruct (Qle_bool (g * px (tnorm t)) 0) eqn:E; [|reflexivity]. apply Qle_bool_iff in E. lra. }
  assert (Hne : l <> []).
  { intros C. destruct (cs_bounded _ H) as (B & HB). pose proof (HB q Hq) as Hb.
    assert (Hs : behind mesh (shift_x q (g * (2 * B + 1)))).
    { intros t Ht. rewrite shift_height. specialize (Hq t Ht). assert (Hn : ~ (0 < g * px (tnorm t))%Q) by (intros C'; assert (Hi : In t l) by (apply Hl; auto); rewrite C in Hi; destruct Hi). assert (B0 : (0 <= B)%Q) by lra. nra. }
    apply HB in Hs. unfold shift_x in Hs. cbn [px fst snd] in Hs. unfold px in *. cbn [fst] in Hs. destruct Hg as [E|E]; rewrite E in Hs; lra. }
  destruct (least (fun t => (- height (tnorm t) (tv1 t) q / (g * px (tnorm t)))%Q) l Hne) as (t & Ht & Hmin). apply Hl in Ht as [Ht Hp].
  set (s := (- height (tnorm t) (tv1 t) q / (g * px (tnorm t)))%Q) in *.
  assert (Hs0 : (0 <= s)%Q) by (unfold s; apply Qle_shift_div_l; [exact Hp|]; specialize (Hq t Ht); lra).
  assert (Hb : behind mesh (shift_x q (g * s))).
  { intros t' Ht'. rewrite shift_height. pose proof (Hq t' Ht') as Hq'. destruct (Qlt_le_dec 0 (g * px (tnorm t'))) as [Hp'|Hn]; [|nra].
    assert (Hi : In t' l) by (apply Hl; auto). specialize (Hmin t' Hi). cbv beta in Hmin. fold s in Hmin.
    assert (Hm : (s * (g * px (tnorm t')) <= - height (tnorm t') (tv1 t') q)%Q).
    { assert (E : (- height (tnorm t') (tv1 t') q == (- height (tnorm t') (tv1 t') q / (g * px (tnorm t'))) * (g * px (tnorm t')))%Q) by (symmetry; apply Qmult_div_l'; intros C; rewrite C in Hp'; discriminate).
      rewrite E. apply Qmult_le_compat_r; [exact Hmin|lra]. }
    assert (E : (g * s * px (tnorm t') == s * (g * px (tnorm t')))%Q) by ring. rewrite E. lra. }
  destruct (cs_covers _ H t (shift_x q (g * s)) Ht Hb) as (t' & Ht' & Hin).
  { rewrite shift_height. assert (E : (g * s * px (tnorm t) == - height (tnorm t) (tv1 t) q)%Q) by (unfold s; rewrite <- (Qmult_div_l' (- height (tnorm t) (tv1 t) q) (g * px (tnorm t))) at 2; [ring|intros C; rewrite C in Hp; discriminate]). rewrite E. ring. }
  exists s, t'. auto.
Qed.

(** ** Digital lines meet every row between their ends *)
Lemma connected_rows l : forall p q y, connected l -> head l = Some p -> last l = Some q -> zbetween (snd p) (snd q) y -> exists x, In (x, y) l.
Proof.
  induction l as [|a l IH]; intros p q y Hc Hh Hl Hy; [discriminate|]. injection Hh as <-. destruct l as [|b l].
  - injection Hl as <-. exists (fst a). left. destruct a as [x y']. cbn [fst snd] in *. f_equal. unfold zbetween in Hy. lia.
  - destruct Hc as [(_ & _ & Ha) Hc]. destruct (Z.eq_dec (snd a) y) as [<-|Hn]; [exists (fst a); left; destruct a; reflexivity|].
    destruct (IH b q y Hc eq_refl) as (x & Hx); [rewrite <- Hl; reflexivity|unfold zbetween in *; lia|]. exists x. right. exact Hx.
Qed.

Lemma floor_between a b s : (0 <= s <= 1)%Q -> zbetween (Qfloor a) (Qfloor b) (Qfloor (a + (b - a) * s)).
Proof.
  intros Hs. unfold zbetween. destruct (Qlt_le_dec a b) as [H|H].
  - assert (H1 : (a <= a + (b - a) * s <= b)%Q) by nra. pose proof (Qfloor_resp_le _ _ (proj1 H1)). pose proof (Qfloor_resp_le _ _ (proj2 H1)). lia.
  - assert (H1 : (b <= a + (b - a) * s <= a)%Q) by nra. pose proof (Qfloor_resp_le _ _ (proj1 H1)). pose proof (Qfloor_resp_le _ _ (proj2 H1)). lia.
Qed.

(** A triangle that meets the slice has outline voxels in the row of each such point. *)
Lemma outline_row b zi t r : (0 < vpmm b)%Q -> sliceable t (slice_z b zi) -> in_triangle t r -> (pz r == slice_z b zi)%Q ->
  exists x, In (x, Qfloor (vpmm b * (py r - TY b))) (outline b zi t).
Proof.
  intros Hv (Hc & Hco & Hm) Hr Hz. pose proof (C30_exact t (slice_z b zi) Hc Hco Hm) as Ex. unfold outline.
  destruct (intersectTriZPlane t (slice_z b zi)) as [[[p q] t']|]; [|destruct (Ex r Hr Hz)].
  assert (On : on_segment p q r) by (apply Ex; auto). destruct On as (s & Hs & Er). apply qpt_eq_iff in Er as (_ & Er & _). unfold lerp in Er. cbn [px py fst snd] in Er.
  unfold pair_points, gridi. set (x1 := Qfloor (vpmm b * (px p - TX b))). set (x2 := Qfloor (vpmm b * (px q - TX b))).
  set (Y1 := (vpmm b * (py p - TY b))%Q). set (Y2 := (vpmm b * (py q - TY b))%Q).
  assert (EY : (vpmm b * (py r - TY b) == Y1 + (Y2 - Y1) * s)%Q) by (unfold Y1, Y2, py in *; cbn [fst snd] in Er; rewrite Er; ring).
  rewrite (Qfloor_comp _ _ EY). destruct (C27_endpoints x1 (Qfloor Y1) x2 (Qfloor Y2)) as (H1 & H2 & _).
  exact (connected_rows _ _ _ _ (C27_connected x1 (Qfloor Y1) x2 (Qfloor Y2)) H1 H2 (floor_between Y1 Y2 s Hs)).
Qed.

(** ** The theorems *)

(** The middle of a voxel. *)
Definition middle (b : binvox Q) (k : key) : qpt :=
  ((TX b + (inject_Z (kx k) + (1 # 2)) / vpmm b)%Q, (TY b + (inject_Z (ky k) + (1 # 2)) / vpmm b)%Q, (TZ b + (inject_Z (kz k) + (1 # 2)) / vpmm b)%Q).

Lemma in_voxels v o a : (0 < v)%Q -> (v * (o + a / v - o) == a)%Q.
Proof. intros Hv. field. intros C. rewrite C in Hv. discriminate. Qed.

(** A point of the layer by its place in voxels. *)
Definition at_voxels (b : binvox Q) (zi : Z) (u w : Q) : qpt := ((TX b + u / vpmm b)%Q, (TY b + w / vpmm b)%Q, slice_z b zi).

Section Inside.
  Context (b : binvox Q) (mesh : list tri) (Hconv : convex_surface mesh) (Hv : (0 < vpmm b)%Q) (k : key).
  Context (Hslice : forall t, In t mesh -> sliceable t (slice_z b (kz k))).
  Context (Hin : forall r, mid_height b k r -> within (1 # 2) b k r -> behind mesh r).
  Let X := inject_Z (kx k). Let Y := inject_Z (ky k).

  Lemma square_in u w : (X - (1 # 2) <= u <= X + (3 # 2))%Q -> (Y - (1 # 2) <= w <= Y + (3 # 2))%Q -> behind mesh (at_voxels b (kz k) u w).
  Proof using Hv Hin.
    intros Hu Hw. apply Hin.
    - unfold mid_height. apply slice_mid; [exact Hv|reflexivity].
    - unfold within, at_voxels. cbn [px py fst snd]. unfold px, py. cbn [fst snd]. rewrite !in_voxels by exact Hv. fold X Y. lra.
  Qed.

  (** A triangle that faces right and comes near the row of [k] is to the right of [k]. *)
  Lemma out_right t r : In t mesh -> in_triangle t r -> (pz r == slice_z b (kz k))%Q ->
    (Y - (1 # 2) <= vpmm b * (py r - TY b) <= Y + (3 # 2))%Q -> (0 < px (tnorm t))%Q -> (X + (3 # 2) <= vpmm b * (px r - TX b))%Q.
  Proof using Hv Hin Hconv.
    intros Ht Hr Hz Hy Hn. pose proof (square_in (X + (3 # 2)) (vpmm b * (py r - TY b)) ltac:(lra) Hy) as Hb.
    pose proof (supports _ _ _ _ Hconv Ht Hr Hb) as Hs. unfold height, at_voxels in Hs. cbn [px py pz fst snd] in Hs.
    assert (Ey : (TY b + vpmm b * (py r - TY b) / vpmm b == py r)%Q) by (field; intros C; rewrite C in Hv; discriminate).
    unfold px, py, pz in *. cbn [fst snd] in Hs. rewrite Ey, Hz in Hs.
    assert (Hx : (TX b + (X + (3 # 2)) / vpmm b <= fst (fst r))%Q) by nra.
    assert (E : (X + (3 # 2) == vpmm b * (TX b + (X + (3 # 2)) / vpmm b - TX b))%Q) by (symmetry; apply in_voxels, Hv). rewrite E. nra.
  Qed.

  Lemma in_left t r : In t mesh -> in_triangle t r -> (pz r == slice_z b (kz k))%Q ->
    (Y - (1 # 2) <= vpmm b * (py r - TY b) <= Y + (3 # 2))%Q -> (px (tnorm t) < 0)%Q -> (vpmm b * (px r - TX b) <= X - (1 # 2))%Q.
  Proof using Hv Hin Hconv.
    intros Ht Hr Hz Hy Hn. pose proof (square_in (X - (1 # 2)) (vpmm b * (py r - TY b)) ltac:(lra) Hy) as Hb.
    pose proof (supports _ _ _ _ Hconv Ht Hr Hb) as Hs. unfold height, at_voxels in Hs. cbn [px py pz fst snd] in Hs.
    assert (Ey : (TY b + vpmm b * (py r - TY b) / vpmm b == py r)%Q) by (field; intros C; rewrite C in Hv; discriminate).
    unfold px, py, pz in *. cbn [fst snd] in Hs. rewrite Ey, Hz in Hs.
    assert (Hx : (fst (fst r) <= TX b + (X - (1 # 2)) / vpmm b)%Q) by nra.
    assert (E : (X - (1 # 2) == vpmm b * (TX b + (X - (1 # 2)) / vpmm b - TX b))%Q) by (symmetry; apply in_voxels, Hv). rewrite E. nra.
  Qed.

  (** Outline voxels in the row of [k]. *)
  Lemma outline_sides t x : In t mesh -> In (x, ky k) (outline b (kz k) t) ->
    ((0 < px (tnorm t))%Q -> kx k <= x) /\ ((px (tnorm t) < 0)%Q -> x <= kx k).
  Proof using Hv Hin Hconv.
    intros Ht Ho. destruct (outline_near b (kz k) t x (ky k) Hv Ho) as (r & Hr & Hm & Hx & Hy).
    change (kx (x, ky k, kz k)) with x in Hx. change (ky (x, ky k, kz k)) with (ky k) in Hy.
    apply (slice_mid b (kz k) r Hv) in Hm. fold Y in Hy.
    split; intros Hn.
    - pose proof (out_right t r Ht Hr Hm ltac:(lra) Hn) as H. rewrite Zle_Qle. fold X. lra.
    - pose proof (in_left t r Ht Hr Hm ltac:(lra) Hn) as H. rewrite Zle_Qle. fold X. lra.
  Qed.

  (** The triangle where the row through the middle of [k] leaves the solid. *)
  Lemma row_end g : (g == 1 \/ g == -(1))%Q -> exists t, In t mesh /\ (0 < g * px (tnorm t))%Q /\ exists x, In (x, ky k) (outline b (kz k) t).
  Proof using Hv Hin Hconv Hslice.
    intros Hg. set (q := at_voxels b (kz k) (X + (1 # 2)) (Y + (1 # 2))).
    assert (Hq : behind mesh q) by (apply square_in; lra).
    destruct (way_out mesh q g Hconv Hg Hq) as (s & t & Hs & Ht & Hr). exists t. split; [exact Ht|].
    set (r := shift_x q (g * s)) in *.
    assert (Hz : (pz r == slice_z b (kz k))%Q) by reflexivity.
    assert (Hyr : (py r == TY b + (Y + (1 # 2)) / vpmm b)%Q) by reflexivity.
    assert (Hxr : (px r == TX b + (X + (1 # 2)) / vpmm b + g * s)%Q) by reflexivity.
    assert (Hi : (0 < 1 / vpmm b)%Q) by (apply Qlt_shift_div_l; [exact Hv|lra]).
    split.
    - (* its normal *)
      pose proof (supports _ _ _ _ Hconv Ht Hr (square_in (X + (1 # 2) - g * (1 # 2)) (Y + (1 # 2)) ltac:(destruct Hg; lra) ltac:(lra))) as H1.
      pose proof (supports _ _ _ _ Hconv Ht Hr (square_in (X + (1 # 2)) (Y + 1) ltac:(lra) ltac:(lra))) as H2.
      pose proof (supports _ _ _ _ Hconv Ht Hr (square_in (X + (1 # 2)) Y ltac:(lra) ltac:(lra))) as H3.
      unfold height, at_voxels in H1, H2, H3. unfold px, py, pz in *. cbn [fst snd] in *. rewrite Hxr, Hyr, Hz in H1, H2, H3.
      set (d := (1 / vpmm b)%Q) in *. set (n := tnorm t) in *.
      assert (E1 : (TX b + (X + (1 # 2) - g * (1 # 2)) / vpmm b - (TX b + (X + (1 # 2)) / vpmm b + g * s) == - g * ((1 # 2) * d + s))%Q) by (unfold d; field; intros C; rewrite C in Hv; discriminate).
      assert (E2 : (TX b + (X + (1 # 2)) / vpmm b - (TX b + (X + (1 # 2)) / vpmm b + g * s) == - g * s)%Q) by ring.
      assert (E3 : (TY b + (Y + 1) / vpmm b - (TY b + (Y + (1 # 2)) / vpmm b) == (1 # 2) * d)%Q) by (unfold d; field; intros C; rewrite C in Hv; discriminate).
      assert (E4 : (TY b + Y / vpmm b - (TY b + (Y + (1 # 2)) / vpmm b) == - ((1 # 2) * d))%Q) by (unfold d; field; intros C; rewrite C in Hv; discriminate).
      rewrite E1 in H1. rewrite E2, E3 in H2. rewrite E2, E4 in H3.
      set (m := (g * fst (fst n))%Q) in *.
      assert (F1 : (- m * ((1 # 2) * d + s) <= 0)%Q) by (unfold m; lra). assert (F2 : (- m * s + snd (fst n) * ((1 # 2) * d) <= 0)%Q) by (unfold m; lra). assert (F3 : (- m * s - snd (fst n) * ((1 # 2) * d) <= 0)%Q) by (unfold m; lra).
      destruct (Qlt_le_dec 0 m) as [?|Hm]; [assumption|exfalso].
      destruct (Qlt_le_dec m 0) as [Hm'|Hm']; [nra|]. assert (M0 : (m == 0)%Q) by lra. rewrite M0 in F2, F3.
      assert (Ny : (snd (fst n) == 0)%Q) by nra.
      assert (Nx : (fst (fst n) == 0)%Q) by (unfold m in M0; destruct Hg as [E|E]; rewrite E in M0; lra).
      assert (Nz : ~ (snd n == 0)%Q) by (intros Nz; apply (cs_normal _ Hconv t Ht), qpt_eq_iff; auto).
      destruct (cs_flat _ Hconv t Ht) as (V2 & V3). pose proof (triangle_flat _ _ _ Hconv Ht Hr) as Vr. unfold height, px, py, pz in V2, V3, Vr. fold n in V2, V3, Vr. rewrite Nx, Ny in V2, V3, Vr.
      assert (G : forall a c, (0 * a + 0 * c == 0)%Q) by (intros; ring).
      assert (K : forall w, (snd n * w == 0 -> w == 0)%Q) by (intros w Hw; apply Qmult_integral in Hw as [C|C]; [contradiction|exact C]).
      assert (K2 : (snd (tv2 t) - snd (tv1 t) == 0)%Q) by (apply K; lra). assert (K3 : (snd (tv3 t) - snd (tv1 t) == 0)%Q) by (apply K; lra). assert (Kr : (snd r - snd (tv1 t) == 0)%Q) by (apply K; lra).
      destruct (Hslice t Ht) as (_ & Hco & _). apply Hco. unfold coplanar, pz. repeat split; lra.
    - assert (Hfl : Qfloor (vpmm b * (py r - TY b)) = ky k).
      { rewrite Hyr, (Qfloor_comp _ _ (in_voxels (vpmm b) (TY b) (Y + (1 # 2)) Hv)). pose proof (Qfloor_bounds (Y + (1 # 2))) as (f & Ef & Hf). unfold Y in *.
        assert (L1 : (inject_Z (Qfloor (inject_Z (ky k) + (1 # 2))) < inject_Z (ky k + 1))%Q) by (rewrite inject_Z_plus; change (inject_Z 1) with 1%Q; lra).
        assert (L2 : (inject_Z (ky k) < inject_Z (Qfloor (inject_Z (ky k) + (1 # 2)) + 1))%Q) by (rewrite inject_Z_plus; change (inject_Z 1) with 1%Q; lra).
        rewrite <- Zlt_Qlt in L1, L2. lia. }
      rewrite <- Hfl. apply outline_row; [exact Hv|apply Hslice, Ht|exact Hr|exact Hz].
  Qed.
End Inside.

Lemma low_of (l : list Z) : l <> [] -> exists x, In x l /\ forall x', In x' l -> x <= x'.
Proof.
  induction l as [|x l IH]; [congruence|]. intros _. destruct l as [|y l]; [exists x; split; [left; reflexivity|intros x' [<-|[]]; lia]|].
  destruct IH as (m & Hm & Hl); [discriminate|]. destruct (Z_lt_le_dec x m) as [Hlt|Hle].
  - exists x. split; [left; reflexivity|]. intros x' [<-|H]; [lia|]. specialize (Hl x' H). lia.
  - exists m. split; [right; exact Hm|]. intros x' [<-|H]; [exact Hle|exact (Hl x' H)].
Qed.

Lemma filter_nil {A} (P : A -> bool) l : (forall x, In x l -> P x = false) -> List.filter P l = [].
Proof. induction l as [|x l IH]; intros H; [reflexivity|]. cbn. rewrite (H x (or_introl eq_refl)). apply IH. intros y Hy. apply H. right. exact Hy. Qed.

(** Different solids of the list have no two points at the height [z] that are at most two voxels apart along x and along y. *)
Definition apart_at (b : binvox Q) (z : Q) (solids : list (list tri)) : Prop :=
  forall i j A B, solids !! i = Some A -> solids !! j = Some B -> i <> j -> forall p q, behind A p -> behind B q -> (pz p == z)%Q -> (pz q == z)%Q ->
    ~ ((- (2) <= vpmm b * (px p - px q) <= 2)%Q /\ (- (2) <= vpmm b * (py p - py q) <= 2)%Q).

(** Several convex solids, apart from each other: every voxel of the grid whose square at the middle of its layer, made larger by half a
    voxel on each side, lies in one of them is set. *)
Theorem C80_apart b solids i mesh k : zero_dim b = false -> (0 < vpmm b)%Q -> NoDup (map taddr (concat solids)) ->
  (forall A, In A solids -> convex_surface A) -> apart_at b (slice_z b (kz k)) solids -> solids !! i = Some mesh ->
  (forall t, In t mesh -> side_clear t) -> (forall t, In t mesh -> sliceable t (slice_z b (kz k))) ->
  in_grid (NX b) (NY b) (NZ b) k -> (forall r, mid_height b k r -> within (1 # 2) b k r -> behind mesh r) ->
  result_voxels (Voxelize b (concat solids)) k.
Proof.
  intros Hz Hv Hnd Hall Hap Hi Hside Hslice Hg Hin. set (all := concat solids) in *.
  assert (Hmesh : In mesh solids) by (apply elem_of_list_In; exact (elem_of_list_lookup_2 _ _ _ Hi)). pose proof (Hall mesh Hmesh) as Hconv.
  assert (Hsub : forall t, In t mesh -> In t all) by (intros t Ht; apply in_concat; eauto).
  unfold in_grid, in_region in Hg. apply Voxelize_in; [assumption..|]. split; [lia|]. split; [reflexivity|]. split; [lia|]. split; [lia|].
  destruct (row_end b mesh Hconv Hv k Hslice Hin (-(1))%Q ltac:(right; reflexivity)) as (ti & Hti & Hni & xi & Hxi).
  destruct (row_end b mesh Hconv Hv k Hslice Hin 1%Q ltac:(left; reflexivity)) as (to & Hto & Hno & xo & Hxo).
  pose proof (fun t x => outline_sides b mesh Hconv Hv k Hin t x) as Hsides.
  destruct (existsb (fun t => existsb (fun p => bool_decide (p = (kx k, ky k))) (outline b (kz k) t)) all) eqn:Esh.
  { left. apply existsb_exists in Esh as (t & Ht & Hp). apply existsb_exists in Hp as (p & Hp & E). apply bool_decide_eq_true in E. subst p. exists t. auto. }
  assert (Hno_k : forall t x, In t all -> In (x, ky k) (outline b (kz k) t) -> x <> kx k).
  { intros t x Ht Ho ->. assert (C : existsb (fun t => existsb (fun p => bool_decide (p = (kx k, ky k))) (outline b (kz k) t)) all = true); [|congruence].
    apply existsb_exists. exists t. split; [exact Ht|]. apply existsb_exists. exists (kx k, ky k). split; [exact Ho|]. apply bool_decide_eq_true. reflexivity. }
  clear Esh. right. split; [lia|]. split.
  - (* the first voxel of ti in the row *)
    assert (Hlow : exists x0, leftmost b (kz k) (ky k) ti x0 = true).
    { assert (Hri : In xi (row_xs b (kz k) (ky k) ti)) by (unfold row_xs; apply in_map_iff; exists (xi, ky k); split; [reflexivity|]; apply filter_In; split; [exact Hxi|apply Z.eqb_refl]).
      destruct (low_of (row_xs b (kz k) (ky k) ti)) as (x0 & H0 & H1); [intros C; rewrite C in Hri; destruct Hri|]. exists x0. unfold leftmost. apply andb_true_iff. split.
      - apply existsb_exists. exists x0. split; [exact H0|apply Z.eqb_refl].
      - apply forallb_forall. intros x' Hx'. apply Z.leb_le, H1, Hx'. }
    destruct Hlow as (x0 & Hx0).
    assert (Hrow : forall t x, leftmost b (kz k) (ky k) t x = true -> In (x, ky k) (outline b (kz k) t)).
    { intros t x H. unfold leftmost in H. apply andb_true_iff in H as [H _]. apply existsb_exists in H as (x' & H & E). apply Z.eqb_eq in E. subst x'. unfold row_xs in H.
      apply in_map_iff in H as ([x' y'] & E & H). cbn [fst] in E. subst x'. apply filter_In in H as [H Ey]. apply Z.eqb_eq in Ey. cbn [snd] in Ey. subst y'. exact H. }
    assert (Hlt : x0 < kx k) by (pose proof (proj2 (Hsides ti x0 Hti (Hrow _ _ Hx0)) ltac:(lra)); pose proof (Hno_k ti x0 (Hsub _ Hti) (Hrow _ _ Hx0)); lia).
    (* triangles of the other solids *)
    assert (Hother : forall j B t x, solids !! j = Some B -> j <> i -> In t B -> In (x, ky k) (outline b (kz k) t) -> x < x0 \/ kx k < x).
    { intros j B t x Hj Hji Ht Ho. pose proof (Hall B ltac:(apply elem_of_list_In; exact (elem_of_list_lookup_2 _ _ _ Hj))) as HB.
      destruct (outline_near b (kz k) t x (ky k) Hv Ho) as (r & Hr & Hm & Hrx & Hry). change (kx (x, ky k, kz k)) with x in Hrx. change (ky (x, ky k, kz k)) with (ky k) in Hry.
      apply (slice_mid b (kz k) r Hv) in Hm. pose proof (triangle_behind B t r HB Ht Hr) as Hbr.
      destruct (outline_near b (kz k) ti x0 (ky k) Hv (Hrow _ _ Hx0)) as (s & Hs & Hsm & Hsx & Hsy). change (kx (x0, ky k, kz k)) with x0 in Hsx. change (ky (x0, ky k, kz k)) with (ky k) in Hsy.
      apply (slice_mid b (kz k) s Hv) in Hsm. pose proof (triangle_behind mesh ti s Hconv Hti Hs) as Hbs.
      set (ur := (vpmm b * (px r - TX b))%Q) in *. set (wr := (vpmm b * (py r - TY b))%Q) in *. set (us := (vpmm b * (px s - TX b))%Q) in *. set (ws := (vpmm b * (py s - TY b))%Q) in *.
      (* a point of the solid beside the voxel, on the line from s *)
      set (e := at_voxels b (kz k) (inject_Z (kx k) + (3 # 2)) ws).
      assert (Hbe : behind mesh e) by (apply (square_in b mesh Hv k Hin); [lra|unfold ws in *; lra]).
      assert (Eex : (vpmm b * (px e - TX b) == inject_Z (kx k) + (3 # 2))%Q) by (unfold e, at_voxels, px; cbn [fst]; apply in_voxels, Hv).
      assert (Eey : (vpmm b * (py e - TY b) == ws)%Q) by (unfold e, at_voxels, py; cbn [fst snd]; apply in_voxels, Hv).
      pose proof (Hap i j mesh B Hi Hj ltac:(congruence)) as Hfar.
      assert (Hpt : forall c, (0 <= c <= 1)%Q -> (us + ((inject_Z (kx k) + (3 # 2)) - us) * c - ur < - (2) \/ 2 < us + ((inject_Z (kx k) + (3 # 2)) - us) * c - ur)%Q).
      { intros c Hc. set (p := lerp s e c). assert (Hbp : behind mesh p) by (apply behind_lerp; assumption).
        assert (Hzp : (pz p == slice_z b (kz k))%Q) by (unfold p, lerp, pz; cbn [snd]; unfold pz in Hsm; rewrite Hsm; change (snd e) with (slice_z b (kz k)); ring).
        pose proof (Hfar p r Hbp Hbr Hzp Hm) as Hn.
        assert (Ex : (vpmm b * (px p - px r) == us + ((inject_Z (kx k) + (3 # 2)) - us) * c - ur)%Q).
        { rewrite <- Eex. unfold us, ur, p, lerp, px. cbn [fst]. ring. }
        assert (Ey : (vpmm b * (py p - py r) == ws - wr)%Q).
        { transitivity (ws + (vpmm b * (py e - TY b) - ws) * c - wr)%Q; [unfold ws, wr, p, lerp, py; cbn [fst snd]; ring|rewrite Eey; ring]. }
        rewrite Ex, Ey in Hn. set (v := (us + (inject_Z (kx k) + (3 # 2) - us) * c - ur)%Q) in *. destruct (Qlt_le_dec v (- (2))) as [?|H1]; [left; assumption|]. destruct (Qlt_le_dec 2 v) as [?|H2]; [right; assumption|].
        exfalso. apply Hn. split; [lra|]. lra. }
      destruct (Qlt_le_dec ur us) as [Hl|Hl].
      { left. destruct (Hpt 0%Q ltac:(lra)) as [C|C]; [lra|]. rewrite Zlt_Qlt. lra. }
      destruct (Qlt_le_dec (inject_Z (kx k) + (3 # 2)) ur) as [Hh|Hh].
      { right. rewrite Zlt_Qlt. lra. }
      exfalso. destruct (Qlt_le_dec us (inject_Z (kx k) + (3 # 2))) as [Hd|Hd].
      - destruct (Hpt ((ur - us) / (inject_Z (kx k) + (3 # 2) - us))%Q) as [C|C].
        + split; [apply Qle_shift_div_l; lra|apply Qle_shift_div_r; lra].
        + assert (E : ((inject_Z (kx k) + (3 # 2) - us) * ((ur - us) / (inject_Z (kx k) + (3 # 2) - us)) == ur - us)%Q) by (field; intros E; lra). lra.
        + assert (E : ((inject_Z (kx k) + (3 # 2) - us) * ((ur - us) / (inject_Z (kx k) + (3 # 2) - us)) == ur - us)%Q) by (field; intros E; lra). lra.
      - destruct (Hpt 0%Q ltac:(lra)) as [C|C]; lra. }
    assert (Hout : forall x, x0 <= x -> x < kx k -> List.filter (fun t => leftmost b (kz k) (ky k) t x && facing_out t) all = []).
    { intros x Hx0' Hx. apply filter_nil. intros t Ht. apply not_true_is_false. rewrite andb_true_iff. intros [Hl Hf]. apply Hrow in Hl.
      assert (Hp : (0 < px (tnorm t))%Q). { unfold facing_out, qlt in Hf. apply negb_true_iff in Hf. destruct (Qlt_le_dec 0 (px (tnorm t))) as [?|C]; [assumption|]. assert (C' : Qle_bool (px (tnorm t)) epsilon = true) by (apply Qle_bool_iff; unfold epsilon; lra). congruence. }
      apply in_concat in Ht as (B & HB & Ht). apply elem_of_list_In, elem_of_list_lookup_1 in HB as (j & Hj). destruct (decide (j = i)) as [->|Hji].
      - rewrite Hi in Hj. injection Hj as <-. pose proof (proj1 (Hsides t x Ht Hl) Hp). lia.
      - destruct (Hother j B t x Hj Hji Ht Hl); lia. }
    exists x0. split; [exact Hlt|]. split.
    + unfold balance. rewrite (Hout x0 ltac:(lia) Hlt). cbn [length]. assert (Hii : In ti (List.filter (fun t => leftmost b (kz k) (ky k) t x0 && facing_in t) all)).
      { apply filter_In. split; [exact (Hsub _ Hti)|]. rewrite Hx0. cbn [andb]. unfold facing_in, qlt. apply negb_true_iff. destruct (Qle_bool (- epsilon) (px (tnorm ti))) eqn:E; [|reflexivity].
        exfalso. apply Qle_bool_iff in E. destruct (Hside ti Hti) as [C|[C|C]]; unfold epsilon in *; lra. }
      destruct (List.filter _ all); [destruct Hii|]. cbn [length]. lia.
    + intros x Hx1 Hx2. unfold balance. rewrite (Hout x ltac:(lia) Hx2). cbn [length]. lia.
  - exists xo. split; [|exists to; split; [exact (Hsub _ Hto)|exact Hxo]]. pose proof (proj1 (Hsides to xo Hto Hxo) ltac:(lra)). pose proof (Hno_k to xo (Hsub _ Hto) Hxo). lia.
Qed.

(** One convex solid. *)
Theorem C80_inside b mesh k : zero_dim b = false -> (0 < vpmm b)%Q -> NoDup (map taddr mesh) -> convex_surface mesh ->
  (forall t, In t mesh -> side_clear t) -> (forall t, In t mesh -> sliceable t (slice_z b (kz k))) ->
  in_grid (NX b) (NY b) (NZ b) k -> (forall r, mid_height b k r -> within (1 # 2) b k r -> behind mesh r) ->
  result_voxels (Voxelize b mesh) k.
Proof.
  intros Hz Hv Hnd Hconv Hside Hslice Hg Hin. assert (E : concat [mesh] = mesh) by (cbn; apply app_nil_r). rewrite <- E. rewrite <- E in Hnd.
  apply (C80_apart b [mesh] 0 mesh k Hz Hv Hnd); [intros A [<-|[]]; exact Hconv| |reflexivity|assumption..].
  intros i j A B Hi Hj Hij. destruct i as [|[|]], j as [|[|]]; try discriminate. congruence.
Qed.

(** Every voxel that is set has, at the middle of its layer, a point of the solid at most half a voxel away. *)
Theorem C80_near b mesh k : zero_dim b = false -> (0 < vpmm b)%Q -> NoDup (map taddr mesh) -> convex_surface mesh ->
  result_voxels (Voxelize b mesh) k -> exists r, behind mesh r /\ mid_height b k r /\ within (1 # 2) b k r.
Proof.
  intros Hz Hv Hnd Hconv Hk. destruct (C58_voxels_near_surface b mesh k Hz Hnd Hv Hk) as [(t & r & Ht & Hr & Hm & Hw)|(x1 & x2 & Hx & (t1 & r1 & Ht1 & Hr1 & Hm1 & Hw1) & (t2 & r2 & Ht2 & Hr2 & Hm2 & Hw2))].
  - exists r. split; [exact (triangle_behind mesh t r Hconv Ht Hr)|]. auto.
  - destruct k as [[x y] z]. unfold within, mid_height, kx, ky, kz in *. cbn [fst snd] in *.
    destruct Hw1 as [A1 A2], Hw2 as [B1 B2]. set (u1 := (vpmm b * (px r1 - TX b))%Q) in *. set (u2 := (vpmm b * (px r2 - TX b))%Q) in *.
    assert (Z1 : (inject_Z x1 + 1 <= inject_Z x)%Q) by (change 1%Q with (inject_Z 1); rewrite <- inject_Z_plus, <- Zle_Qle; lia).
    assert (Z2 : (inject_Z x + 1 <= inject_Z x2)%Q) by (change 1%Q with (inject_Z 1); rewrite <- inject_Z_plus, <- Zle_Qle; lia).
    assert (Hs : exists s, (0 <= s <= 1)%Q /\ (u1 + (u2 - u1) * s == inject_Z x + (1 # 2))%Q).
    { destruct (Qlt_le_dec u1 u2) as [Hlt|Hle].
      - exists ((inject_Z x + (1 # 2) - u1) / (u2 - u1))%Q. split; [split|].
        + apply Qle_shift_div_l; lra.
        + apply Qle_shift_div_r; lra.
        + field. intros C. lra.
      - exists 0%Q. split; [lra|]. lra. }
    destruct Hs as (s & Hs & Es). exists (lerp r1 r2 s). split; [apply behind_lerp; [exact Hs|exact (triangle_behind mesh t1 r1 Hconv Ht1 Hr1)|exact (triangle_behind mesh t2 r2 Hconv Ht2 Hr2)]|].
    unfold lerp. unfold px, py, pz in *. cbn [fst snd]. rewrite !lerp_voxel. fold u1 u2. split; [rewrite Hm1, Hm2; ring|]. split; [rewrite Es; lra|]. split; nra.
Qed.
