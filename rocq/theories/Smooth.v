(** C85: stldice -smooth. *)
From Verif Require Import Base BinvoxSpec BinvoxModel Geom VoxelizeModel VoxelizeSpec VoxelizeLine VoxelizeSlice VoxelizeFill VoxelizeProps VoxelizeAccuracy.
From Coq Require Import ZArith QArith Qround Qabs List Lia Lqa Bool.
From stdpp Require Import base list gmap.
Import ListNotations.
Open Scope Z_scope.

(** ** Model *)

Definition dotp (p q : qpt) : Q := (px p * px q + py p * py q + pz p * pz q)%Q.
Definition addp (p q : qpt) : qpt := ((px p + px q)%Q, (py p + py q)%Q, (pz p + pz q)%Q).
Definition scalep (c : Q) (p : qpt) : qpt := ((c * px p)%Q, (c * py p)%Q, (c * pz p)%Q).
Definition sump (l : list qpt) : qpt := fold_right addp (0%Q, 0%Q, 0%Q) l.
Definition same_place (p q : qpt) : bool := Qeq_bool (px p) (px q) && Qeq_bool (py p) (py q) && Qeq_bool (pz p) (pz q).

(** The normals of all vertices at [p] (a mesh that LoadSTL made has the same normal in the three vertices of a triangle). *)
Definition normals_at (mesh : list tri) (p : qpt) : list qpt :=
  flat_map (fun t => map (fun _ => tnorm t) (List.filter (same_place p) [tv1 t; tv2 t; tv3 t])) mesh.
(** Those whose angle with [n] has a cosine of at least [thr]. *)
Definition close_to (thr : Q) (n : qpt) (l : list qpt) : list qpt := List.filter (fun x => Qle_bool thr (dotp x n)) l.

(** cmd/stldice/stldice.go:68-72 (and cmd/voxcut/voxcut.go:111-115): [mesh.SmoothNormalsThreshold(gl.Radians(d))] of fauxgl, by its contract:
    the normal of a vertex becomes the sum of the normals at its place that form an angle of at most [d] degrees with it, scaled to unit
    length; nothing else changes.  [thr] is the cosine of [d] degrees.  The voxelizer reads only V1.Normal, so [tri] has only this one.
    Simplification: the square of the new length may be anything from 1/2 to 2 (unit lengths are not rational in general). *)
Definition smoothed (thr : Q) (mesh : list tri) (t t' : tri) : Prop :=
  taddr t' = taddr t /\ tv1 t' = tv1 t /\ tv2 t' = tv2 t /\ tv3 t' = tv3 t /\
  exists c, (0 < c)%Q /\ qpt_eq (tnorm t') (scalep c (sump (close_to thr (tnorm t) (normals_at mesh (tv1 t))))) /\ (1 # 2 <= dotp (tnorm t') (tnorm t') <= 2)%Q.
Definition SmoothNormalsThreshold (thr : Q) (mesh mesh' : list tri) : Prop := Forall2 (smoothed thr mesh) mesh mesh'.

(** ** Specification *)
Definition unit_normal (t : tri) : Prop := (dotp (tnorm t) (tnorm t) == 1)%Q.
(** The normal is along one of the axes. *)
Definition along_axis (t : tri) : Prop :=
  (py (tnorm t) == 0 /\ pz (tnorm t) == 0)%Q \/ (px (tnorm t) == 0 /\ pz (tnorm t) == 0)%Q \/ (px (tnorm t) == 0 /\ py (tnorm t) == 0)%Q.
(** The normal is farther from the plane across x than the smoothing reaches ... *)
Definition steep_x (thr : Q) (mesh : list tri) (t : tri) : Prop :=
  (1 - thr * thr < px (tnorm t) * px (tnorm t))%Q /\ (inject_Z (9 * Z.of_nat (length mesh)) * epsilon < Qabs (px (tnorm t)))%Q.
(** ... or in it, like all the normals that are smoothed with it. *)
Definition flat_x (thr : Q) (mesh : list tri) (t : tri) : Prop :=
  (px (tnorm t) == 0)%Q /\ forall t', In t' mesh -> (thr <= dotp (tnorm t') (tnorm t))%Q -> (px (tnorm t') == 0)%Q.

(** ** What Voxelize reads of the normals *)
Definition same_facing (t t' : tri) : Prop :=
  taddr t' = taddr t /\ tv1 t' = tv1 t /\ tv2 t' = tv2 t /\ tv3 t' = tv3 t /\ facing_in t' = facing_in t /\ facing_out t' = facing_out t.

Lemma outline_same b zi t t' : tv1 t' = tv1 t -> tv2 t' = tv2 t -> tv3 t' = tv3 t -> outline b zi t' = outline b zi t.
Proof.
  intros E1 E2 E3. unfold outline, intersectTriZPlane. rewrite E1, E2, E3.
  destruct (intersectSegment (tv1 t) (tv2 t) (slice_z b zi)), (intersectSegment (tv2 t) (tv3 t) (slice_z b zi)), (intersectSegment (tv3 t) (tv1 t) (slice_z b zi)); reflexivity.
Qed.

Lemma same_in m m' : Forall2 same_facing m m' -> forall t, In t m -> exists t', In t' m' /\ same_facing t t'.
Proof.
  induction 1 as [|t t' m m' H Hm IH]; intros u [].
  - subst u. exists t'. split; [left; reflexivity|exact H].
  - destruct (IH u) as (u' & Hu & Hs); [assumption|]. exists u'. split; [right; exact Hu|exact Hs].
Qed.
Lemma same_sym m m' : Forall2 same_facing m m' -> Forall2 same_facing m' m.
Proof. induction 1 as [|t t' m m' H Hm IH]; constructor; [|exact IH]. destruct H as (? & ? & ? & ? & ? & ?). unfold same_facing. repeat split; congruence. Qed.

Lemma same_shell b m m' k : Forall2 same_facing m m' -> shell b m k -> shell b m' k.
Proof.
  intros H (t & Ht & Ho). destruct (same_in m m' H t Ht) as (t' & Ht' & (_ & E1 & E2 & E3 & _)). exists t'. split; [exact Ht'|]. rewrite (outline_same b (kz k) t t' E1 E2 E3). exact Ho.
Qed.
Lemma same_balance b m m' zi y x : Forall2 same_facing m m' -> balance b m' zi y x = balance b m zi y x.
Proof.
  intros H. unfold balance. f_equal; f_equal.
  - induction H as [|t t' m m' (_ & E1 & E2 & E3 & Ei & _) Hm IH]; [reflexivity|]. cbn [List.filter]. unfold leftmost, row_xs. rewrite (outline_same b zi t t' E1 E2 E3), Ei.
    destruct (existsb _ _ && forallb _ _ && facing_in t); cbn [length]; [f_equal|]; exact IH.
  - induction H as [|t t' m m' (_ & E1 & E2 & E3 & _ & Eo) Hm IH]; [reflexivity|]. cbn [List.filter]. unfold leftmost, row_xs. rewrite (outline_same b zi t t' E1 E2 E3), Eo.
    destruct (existsb _ _ && forallb _ _ && facing_out t); cbn [length]; [f_equal|]; exact IH.
Qed.
Lemma same_solid b m m' zi k : Forall2 same_facing m m' -> solid b m zi k -> solid b m' zi k.
Proof.
  intros H (H1 & H2 & H3 & H4). split; [exact H1|]. split; [exact H2|]. split; [exact H3|]. destruct H4 as [H4|(H4 & (x' & Hx & Hb & Hm) & (x2 & Hx2 & Hs))].
  - left. exact (same_shell b m m' k H H4).
  - right. split; [exact H4|]. split.
    + exists x'. split; [exact Hx|]. split; [rewrite (same_balance b m m' _ _ _ H); exact Hb|]. intros x'' A B. rewrite (same_balance b m m' _ _ _ H). exact (Hm x'' A B).
    + exists x2. split; [exact Hx2|]. exact (same_shell b m m' _ H Hs).
Qed.
Lemma same_addr m m' : Forall2 same_facing m m' -> map taddr m' = map taddr m.
Proof. induction 1 as [|t t' m m' (E & _) Hm IH]; [reflexivity|]. cbn [map]. rewrite E, IH. reflexivity. Qed.

(** Of the normals, Voxelize reads only on which side of 10^-9 and -10^-9 their x is. *)
Theorem C85_same b m m' : NoDup (map taddr m) -> Forall2 same_facing m m' -> Voxelize b m' = Voxelize b m.
Proof.
  intros Hn H. unfold Voxelize. destruct (zero_dim b); [reflexivity|]. f_equal. unfold with_white. f_equal. f_equal. apply set_eq. intros k.
  assert (G : forall m, NoDup (map taddr m) -> k ∈ (list_to_set (flat_map (slice_voxels b m) (seqZ 0 (NZ b))) : gset key) <-> 0 <= kz k < NZ b /\ solid b m (kz k) k).
  { clear. intros m Hn. rewrite elem_of_list_to_set, elem_of_list_In, in_flat_map. split.
    - intros (zi & Hi & Hk). apply elem_of_list_In, elem_of_seqZ in Hi. apply slice_spec in Hk; [|exact Hn]. pose proof Hk as (E & _). rewrite E. split; [lia|exact Hk].
    - intros (Hi & Hk). exists (kz k). split; [apply elem_of_list_In, elem_of_seqZ; lia|]. apply slice_spec; assumption. }
  rewrite (G m Hn), (G m') by (rewrite (same_addr m m' H); exact Hn). split; intros (Hz & Hs); (split; [exact Hz|]).
  - exact (same_solid b m' m _ _ (same_sym _ _ H) Hs).
  - exact (same_solid b m m' _ _ H Hs).
Qed.
Print Assumptions C85_same.

(** ** Sums of normals *)
Lemma sum_px l : (px (sump l) == fold_right Qplus 0 (map px l))%Q.
Proof. induction l as [|x l IH]; [reflexivity|]. cbn. unfold px in *. rewrite <- IH. reflexivity. Qed.

Lemma sum_bound (f : qpt -> Q) l : (f = px \/ f = py \/ f = pz) -> (forall x, In x l -> (- (1) <= f x <= 1)%Q) -> (- inject_Z (Z.of_nat (length l)) <= f (sump l) <= inject_Z (Z.of_nat (length l)))%Q.
Proof.
  intros Hf. induction l as [|x l IH]; intros H.
  - destruct Hf as [-> | [-> | ->]]; (split; vm_compute; discriminate).
  - pose proof (H x (or_introl eq_refl)) as Hx. assert (Hl : forall y, In y l -> (- (1) <= f y <= 1)%Q) by (intros y Hy; apply H; right; exact Hy). specialize (IH Hl).
    assert (E : f (sump (x :: l)) = (f x + f (sump l))%Q) by (destruct Hf as [-> | [-> | ->]]; reflexivity). rewrite E. cbn [length]. rewrite Nat2Z.inj_succ, <- Z.add_1_r, inject_Z_plus. change (inject_Z 1) with 1%Q. lra.
Qed.

Lemma unit_bound x : (dotp x x == 1)%Q -> (- (1) <= px x <= 1)%Q /\ (- (1) <= py x <= 1)%Q /\ (- (1) <= pz x <= 1)%Q.
Proof.
  assert (G : forall a b c, (a * a + b * b + c * c == 1 -> - (1) <= a <= 1)%Q).
  { intros a c d H. assert (Hc : (0 <= c * c)%Q) by nra. assert (Hd : (0 <= d * d)%Q) by nra. assert (Ha : (a * a <= 1)%Q) by lra. split; nra. }
  unfold dotp. intros H. split; [|split].
  - exact (G _ _ _ H).
  - apply (G (py x) (px x) (pz x)). lra.
  - apply (G (pz x) (px x) (py x)). lra.
Qed.

Lemma sum_sign g l n : (g == 1 \/ g == -(1))%Q -> In n l -> (forall x, In x l -> (0 <= g * px x)%Q) -> (g * px n <= g * px (sump l))%Q.
Proof.
  intros Hg. induction l as [|x l IH]; intros Hn H; [destruct Hn|].
  assert (E : px (sump (x :: l)) = (px x + px (sump l))%Q) by reflexivity. rewrite E. pose proof (H x (or_introl eq_refl)) as Hx.
  assert (Hl : forall y, In y l -> (0 <= g * px y)%Q) by (intros y Hy; apply H; right; exact Hy).
  assert (Hs : (0 <= g * px (sump l))%Q).
  { clear - Hl. induction l as [|y l IH]; [cbn; lra|]. assert (E : px (sump (y :: l)) = (px y + px (sump l))%Q) by reflexivity. rewrite E. pose proof (Hl y (or_introl eq_refl)). assert (0 <= g * px (sump l))%Q by (apply IH; intros z Hz; apply Hl; right; exact Hz). lra. }
  destruct Hn as [<-|Hn]; [lra|]. specialize (IH Hn Hl). lra.
Qed.

Lemma sum_zero l : (forall x, In x l -> (px x == 0)%Q) -> (px (sump l) == 0)%Q.
Proof. induction l as [|x l IH]; intros H; [reflexivity|]. assert (E : px (sump (x :: l)) = (px x + px (sump l))%Q) by reflexivity. rewrite E, (H x (or_introl eq_refl)), IH; [lra|]. intros y Hy. apply H. right. exact Hy. Qed.

Lemma normals_in mesh p x : In x (normals_at mesh p) -> exists t, In t mesh /\ x = tnorm t.
Proof. intros H. unfold normals_at in H. apply in_flat_map in H as (t & Ht & H). apply in_map_iff in H as (_ & E & _). eauto. Qed.
Lemma normals_own mesh t : In t mesh -> In (tnorm t) (normals_at mesh (tv1 t)).
Proof.
  intros Ht. unfold normals_at. apply in_flat_map. exists t. split; [exact Ht|]. apply in_map_iff. exists (tv1 t). split; [reflexivity|]. apply filter_In. split; [left; reflexivity|].
  unfold same_place. rewrite !andb_true_iff, !Qeq_bool_iff. repeat split; reflexivity.
Qed.
Lemma normals_many mesh p : (length (normals_at mesh p) <= 3 * length mesh)%nat.
Proof.
  unfold normals_at. induction mesh as [|t m IH]; [cbn; lia|]. cbn [flat_map]. rewrite app_length, map_length. cbn [length].
  assert (H : forall l, (length (List.filter (same_place p) l) <= length l)%nat) by (clear; induction l as [|x l IH]; [cbn; lia|cbn [List.filter]; destruct (same_place p x); cbn [length]; lia]).
  specialize (H [tv1 t; tv2 t; tv3 t]). cbn [length] in H. lia.
Qed.
Lemma filter_len {A} (P : A -> bool) l : (length (List.filter P l) <= length l)%nat.
Proof. induction l as [|x l IH]; [cbn; lia|]. cbn [List.filter]. destruct (P x); cbn [length]; lia. Qed.

Lemma sq_nonneg (z : Q) : (0 <= z * z)%Q.
Proof. destruct (Qlt_le_dec z 0); nra. Qed.

(** Two unit vectors within the angle, one of them far from the plane across x: the same side. *)
Lemma same_side thr n x : (0 < thr)%Q -> (dotp n n == 1)%Q -> (dotp x x == 1)%Q -> (thr <= dotp x n)%Q -> (1 - thr * thr < px n * px n)%Q -> (0 < px x * px n)%Q.
Proof.
  intros Ht Hn Hx Hd Hs. unfold dotp in *. set (a := px n) in *. set (b := py n) in *. set (c := pz n) in *. set (u := px x) in *. set (v := py x) in *. set (w := pz x) in *.
  destruct (Qlt_le_dec 0 (u * a)) as [?|C]; [assumption|exfalso]. set (e := (v * b + w * c)%Q).
  assert (He : (thr <= e)%Q) by (unfold e; lra).
  assert (H1 : (thr * thr <= e * e)%Q) by nra.
  assert (H2 : (e * e <= (v * v + w * w) * (b * b + c * c))%Q).
  { assert (E : ((v * v + w * w) * (b * b + c * c) - e * e == (v * c - w * b) * (v * c - w * b))%Q) by (unfold e; ring). pose proof (sq_nonneg (v * c - w * b)). lra. }
  assert (H3 : (b * b + c * c == 1 - a * a)%Q) by lra. assert (H4 : (v * v + w * w <= 1)%Q) by (pose proof (sq_nonneg u); lra). assert (H5 : (0 <= b * b + c * c)%Q) by (pose proof (sq_nonneg b); pose proof (sq_nonneg c); lra).
  assert (H6 : ((v * v + w * w) * (b * b + c * c) <= b * b + c * c)%Q) by nra. lra.
Qed.

Section Thr.
  Context (thr : Q) (Hthr : (0 < thr <= 1)%Q) (mesh : list tri) (Hunit : forall t, In t mesh -> unit_normal t).

  Lemma close_in t x : In x (close_to thr (tnorm t) (normals_at mesh (tv1 t))) -> exists t', In t' mesh /\ x = tnorm t' /\ (thr <= dotp (tnorm t') (tnorm t))%Q.
  Proof using. intros H. unfold close_to in H. apply filter_In in H as (H & Hd). apply normals_in in H as (t' & Ht & ->). apply Qle_bool_iff in Hd. eauto. Qed.

  Lemma close_own t : In t mesh -> In (tnorm t) (close_to thr (tnorm t) (normals_at mesh (tv1 t))).
  Proof using Hthr Hunit. intros Ht. unfold close_to. apply filter_In. split; [exact (normals_own mesh t Ht)|]. apply Qle_bool_iff. pose proof (Hunit t Ht) as H. unfold unit_normal in H. rewrite H. apply Hthr. Qed.

  Lemma steep_facing t t' g : (g == 1 \/ g == -(1))%Q -> In t mesh -> smoothed thr mesh t t' -> steep_x thr mesh t -> (0 < g * px (tnorm t))%Q -> (epsilon < g * px (tnorm t'))%Q.
  Proof using Hthr Hunit.
    intros Hg Ht (_ & _ & _ & _ & c & Hc & En & (Hlo & _)) (Hs & Hbig) Hpos. set (n := tnorm t) in *. set (l := close_to thr n (normals_at mesh (tv1 t))) in *.
    assert (Hall : forall x, In x l -> (0 <= g * px x)%Q /\ (dotp x x == 1)%Q).
    { intros x Hx. apply close_in in Hx as (u & Hu & -> & Hd). split; [|exact (Hunit u Hu)].
      pose proof (same_side thr (tnorm t) (tnorm u) (proj1 Hthr) (Hunit t Ht) (Hunit u Hu) Hd Hs) as S. fold n in S. destruct Hg as [E|E]; rewrite E in *; nra. }
    pose proof (sum_sign g l n Hg (close_own t Ht) (fun x Hx => proj1 (Hall x Hx))) as Hsum.
    set (k := inject_Z (Z.of_nat (length l))).
    assert (Hk : (k <= inject_Z (3 * Z.of_nat (length mesh)))%Q).
    { unfold k. rewrite <- Zle_Qle. pose proof (normals_many mesh (tv1 t)). pose proof (filter_len (fun x => Qle_bool thr (dotp x n)) (normals_at mesh (tv1 t))) as F. unfold l, close_to. lia. }
    assert (Hk1 : (1 <= k)%Q).
    { unfold k. change 1%Q with (inject_Z 1). rewrite <- Zle_Qle. pose proof (close_own t Ht) as Ho. fold n in Ho. fold l in Ho. destruct l; [destruct Ho|]. cbn [length]. lia. }
    assert (Bx : (- k <= px (sump l) <= k)%Q) by (apply sum_bound; [auto|intros x Hx; apply unit_bound, (Hall x Hx)]).
    assert (By : (- k <= py (sump l) <= k)%Q) by (apply sum_bound; [auto|intros x Hx; apply unit_bound, (Hall x Hx)]).
    assert (Bz : (- k <= pz (sump l) <= k)%Q) by (apply sum_bound; [auto|intros x Hx; apply unit_bound, (Hall x Hx)]).
    set (S := sump l) in *. apply qpt_eq_iff in En as (Ex & Ey & Ez). unfold scalep in Ex, Ey, Ez. cbn [px py pz fst snd] in Ex, Ey, Ez.
    unfold dotp in Hlo. unfold px, py, pz in *. cbn [fst snd] in *. rewrite Ex, Ey, Ez in Hlo.
    assert (Hck : (1 # 3 <= c * k)%Q).
    { destruct (Qlt_le_dec (c * k) (1 # 3)) as [C|C]; [exfalso|exact C].
      assert (K : forall s, (- k <= s <= k -> (c * s) * (c * s) <= (c * k) * (c * k))%Q) by (intros s Hs'; assert (A : (- (c * k) <= c * s <= c * k)%Q) by (split; nra); nra).
      pose proof (K _ Bx). pose proof (K _ By). pose proof (K _ Bz). assert (0 <= c * k)%Q by nra. assert ((c * k) * (c * k) <= (1 # 3) * (1 # 3))%Q by nra. lra. }
    assert (Ea : (Qabs (fst (fst n)) == g * fst (fst n))%Q).
    { destruct Hg as [E|E]; rewrite E in *; [rewrite Qabs_pos by lra; ring|rewrite Qabs_neg by lra; ring]. }
    assert (Hbig' : (3 * k * epsilon < g * fst (fst n))%Q).
    { rewrite <- Ea. eapply Qle_lt_trans; [|exact Hbig]. replace (9 * Z.of_nat (length mesh))%Z with (3 * (3 * Z.of_nat (length mesh)))%Z by lia. rewrite (inject_Z_mult 3). change (inject_Z 3) with 3%Q.
      unfold epsilon. lra. }
    rewrite Ex. assert (Eg : (g * (c * fst (fst S)) == c * (g * fst (fst S)))%Q) by ring. rewrite Eg.
    assert (M1 : (c * (3 * k * epsilon) < c * (g * fst (fst S)))%Q) by nra. unfold epsilon in *. lra.
  Qed.

  Lemma flat_facing t t' : In t mesh -> smoothed thr mesh t t' -> flat_x thr mesh t -> (px (tnorm t') == 0)%Q.
  Proof using.
    intros Ht (_ & _ & _ & _ & c & Hc & En & _) (H0 & Hall). apply qpt_eq_iff in En as (Ex & _ & _). assert (S0 : (px (sump (close_to thr (tnorm t) (normals_at mesh (tv1 t)))) == 0)%Q); [|transitivity (c * px (sump (close_to thr (tnorm t) (normals_at mesh (tv1 t)))))%Q; [exact Ex|rewrite S0; ring]].
    apply sum_zero. intros x Hx. apply close_in in Hx as (u & Hu & -> & Hd). exact (Hall u Hu Hd).
  Qed.

  Lemma facing_in_iff t : facing_in t = true <-> (px (tnorm t) < - epsilon)%Q.
  Proof using. unfold facing_in, qlt. rewrite negb_true_iff. rewrite <- not_true_iff_false, Qle_bool_iff. split; intros H; lra. Qed.
  Lemma facing_out_iff t : facing_out t = true <-> (epsilon < px (tnorm t))%Q.
  Proof using. unfold facing_out, qlt. rewrite negb_true_iff. rewrite <- not_true_iff_false, Qle_bool_iff. split; intros H; lra. Qed.

  Lemma smoothed_facing t t' : In t mesh -> smoothed thr mesh t t' -> steep_x thr mesh t \/ flat_x thr mesh t -> same_facing t t'.
  Proof using Hthr Hunit.
    intros Ht Hsm Hk. pose proof Hsm as (E0 & E1 & E2 & E3 & _). unfold same_facing. repeat (split; [assumption|]).
    destruct Hk as [Hk|Hk].
    - pose proof (steep_facing t t' 1%Q ltac:(left; reflexivity) Ht Hsm Hk) as P. pose proof (steep_facing t t' (-(1))%Q ltac:(right; reflexivity) Ht Hsm Hk) as N.
      assert (Hb : (epsilon < Qabs (px (tnorm t)))%Q).
      { destruct Hk as (_ & Hb). eapply Qle_lt_trans; [|exact Hb]. assert (L : (inject_Z 1 <= inject_Z (9 * Z.of_nat (length mesh)))%Q) by (rewrite <- Zle_Qle; destruct mesh; [destruct Ht|cbn [length]; lia]). change (inject_Z 1) with 1%Q in L. unfold epsilon. lra. }
      destruct (Qlt_le_dec 0 (px (tnorm t))) as [C|C].
      + specialize (P ltac:(lra)). rewrite Qabs_pos in Hb by lra. split; apply eq_true_iff_eq; rewrite ?facing_in_iff, ?facing_out_iff; unfold epsilon in *; split; lra.
      + assert (C' : (px (tnorm t) < 0)%Q). { destruct (Qlt_le_dec (px (tnorm t)) 0) as [?|D]; [assumption|exfalso]. rewrite Qabs_pos in Hb by lra. unfold epsilon in Hb. lra. }
        specialize (N ltac:(lra)). rewrite Qabs_neg in Hb by lra. split; apply eq_true_iff_eq; rewrite ?facing_in_iff, ?facing_out_iff; unfold epsilon in *; split; lra.
    - pose proof (flat_facing t t' Ht Hsm Hk) as Z'. destruct Hk as (H0 & _). split; apply eq_true_iff_eq; rewrite ?facing_in_iff, ?facing_out_iff; unfold epsilon in *; split; lra.
  Qed.
End Thr.

(** ** The theorems *)

(** Smoothing changes no voxel if each triangle's normal is farther from the plane across x than the angle of the smoothing, or lies in
    that plane together with all the normals that are smoothed with it. *)
Theorem C85_steep thr b mesh mesh' : (0 < thr <= 1)%Q -> NoDup (map taddr mesh) -> (forall t, In t mesh -> unit_normal t) ->
  (forall t, In t mesh -> steep_x thr mesh t \/ flat_x thr mesh t) -> SmoothNormalsThreshold thr mesh mesh' -> Voxelize b mesh' = Voxelize b mesh.
Proof.
  intros Ht Hn Hu Hk Hs. apply C85_same; [exact Hn|]. unfold SmoothNormalsThreshold in Hs.
  assert (G : forall m m', Forall2 (smoothed thr mesh) m m' -> (forall t, In t m -> In t mesh) -> Forall2 same_facing m m').
  { intros m m' H. induction H as [|t t' m m' H Hm IH]; intros Hin; constructor.
    - apply (smoothed_facing thr Ht mesh Hu); [apply Hin; left; reflexivity|exact H|apply Hk, Hin; left; reflexivity].
    - apply IH. intros u Hu'. apply Hin. right. exact Hu'. }
  apply G; auto.
Qed.
Print Assumptions C85_steep.

(** Less than 90 degrees do not change what a box, or any other solid with sides along the axes, gives. *)
Theorem C85_axis thr b mesh mesh' : (0 < thr <= 1)%Q -> (length mesh < Z.to_nat 100000000)%nat -> NoDup (map taddr mesh) ->
  (forall t, In t mesh -> unit_normal t) -> (forall t, In t mesh -> along_axis t) ->
  SmoothNormalsThreshold thr mesh mesh' -> Voxelize b mesh' = Voxelize b mesh.
Proof.
  intros Ht Hlen Hn Hu Ha. apply C85_steep; [exact Ht|exact Hn|exact Hu|]. intros t Hin. pose proof (Hu t Hin) as U. unfold unit_normal, dotp in U.
  destruct (Ha t Hin) as [(Y & Z')|A].
  - left. rewrite Y, Z' in U. assert (X2 : (px (tnorm t) * px (tnorm t) == 1)%Q) by lra. split; [rewrite X2; nra|].
    assert (L : (inject_Z (9 * Z.of_nat (length mesh)) <= inject_Z 900000000)%Q) by (rewrite <- Zle_Qle; lia). change (inject_Z 900000000) with (900000000 # 1)%Q in L.
    assert (D : (px (tnorm t) == 1 \/ px (tnorm t) == -(1))%Q). { assert (G : ((px (tnorm t) - 1) * (px (tnorm t) + 1) == 0)%Q) by lra. apply Qmult_integral in G as [G|G]; [left|right]; lra. }
    assert (Ab : (Qabs (px (tnorm t)) == 1)%Q) by (destruct D as [D|D]; rewrite D; reflexivity). rewrite Ab. unfold epsilon. lra.
  - right. assert (X0 : (px (tnorm t) == 0)%Q) by (destruct A as [(A & _)|(A & _)]; exact A). split; [exact X0|]. intros u Hu' Hd.
    destruct (Ha u Hu') as [(Y & Z')|[(X' & _)|(X' & _)]]; [|exact X'|exact X']. exfalso. unfold dotp in Hd. rewrite X0, Y, Z' in Hd. lra.
Qed.
