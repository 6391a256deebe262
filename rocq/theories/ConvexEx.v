(** C80: a convex solid that meets the hypotheses, and what happens to solids in one another and to solids smaller than a voxel. *)
From Verif Require Import Base BinvoxSpec BinvoxModel Geom VoxelizeModel VoxelizeSpec VoxelizeLine VoxelizeSlice VoxelizeFill VoxelizeProps VoxelizeAccuracy Convex.
From Coq Require Import ZArith QArith Qround List Lia Lqa Bool.
From stdpp Require Import base list gmap.
Import ListNotations.
Open Scope Z_scope.

(** A wedge: the tetrahedron with the corners o, o + w (0, 0, 3), o + w (4, 3, 0) and o + w (4, -3, 0); triangles with the pointers
    i, i + 1, i + 2 and i + 3, and unit normals. *)
Definition wedge (i : Z) (o : qpt) (w : Q) : list tri :=
  let O := o in
  let T := (px o, py o, (pz o + 3 * w)%Q) in
  let P := ((px o + 4 * w)%Q, (py o + 3 * w)%Q, pz o) in
  let M := ((px o + 4 * w)%Q, (py o - 3 * w)%Q, pz o) in
  [Tri i O T M ((-(3 # 5))%Q, (-(4 # 5))%Q, 0%Q); Tri (i + 1) O P T ((-(3 # 5))%Q, (4 # 5)%Q, 0%Q);
   Tri (i + 2) T P M ((3 # 5)%Q, 0%Q, (4 # 5)%Q); Tri (i + 3) O M P (0%Q, 0%Q, (-(1))%Q)].

(** Its inside. *)
Definition in_wedge (o : qpt) (w : Q) (q : qpt) : Prop :=
  let x := (px q - px o)%Q in let y := (py q - py o)%Q in let z := (pz q - pz o)%Q in
  (0 <= 3 * x + 4 * y /\ 0 <= 3 * x - 4 * y /\ 3 * x + 4 * z <= 12 * w /\ 0 <= z)%Q.

Ltac coords := unfold height, px, py, pz in *; cbn [fst snd tv1 tv2 tv3 tnorm] in *.

Lemma wedge_behind i o w q : behind (wedge i o w) q <-> in_wedge o w q.
Proof.
  unfold behind, in_wedge. split.
  - intros H. pose proof (H _ (or_introl eq_refl)) as H1. pose proof (H _ (or_intror (or_introl eq_refl))) as H2.
    pose proof (H _ (or_intror (or_intror (or_introl eq_refl)))) as H3. pose proof (H _ (or_intror (or_intror (or_intror (or_introl eq_refl))))) as H4.
    clear H. coords. repeat split; lra.
  - intros (H1 & H2 & H3 & H4) t [<-|[<-|[<-|[<-|[]]]]]; coords; lra.
Qed.

Lemma wedge_convex i o w : (0 < w)%Q -> convex_surface (wedge i o w).
Proof.
  intros Hw. constructor.
  - intros t [<-|[<-|[<-|[<-|[]]]]]; coords; split; ring.
  - intros t [<-|[<-|[<-|[<-|[]]]]] E; apply qpt_eq_iff in E as (E1 & E2 & E3); coords; lra.
  - intros t Ht. rewrite !wedge_behind. unfold in_wedge. destruct Ht as [<-|[<-|[<-|[<-|[]]]]]; coords; repeat split; lra.
  - intros t q Ht Hb Hf. apply wedge_behind in Hb. destruct Hb as (B1 & B2 & B3 & B4).
    set (l := fun a : Q => (a / (24 * w))%Q).
    assert (Hl : forall a, (0 <= a)%Q -> (0 <= l a)%Q) by (intros a Ha; apply Qle_shift_div_l; lra).
    assert (Hw0 : ~ (w == 0)%Q) by (intros C; lra).
    destruct o as [[ox oy] oz], q as [[x y] z]. unfold px, py, pz in *. cbn [fst snd] in *.
    set (p := (3 * (x - ox) + 4 * (y - oy))%Q) in *. set (m := (3 * (x - ox) - 4 * (y - oy))%Q) in *.
    assert (Hr : (0 <= 24 * w - 6 * (x - ox) - 8 * (z - oz))%Q) by lra. assert (Hz8 : (0 <= 8 * (z - oz))%Q) by lra.
    destruct Ht as [<-|[<-|[<-|[<-|[]]]]]; coords.
    + exists (Tri i (ox, oy, oz) (ox, oy, (oz + 3 * w)%Q) ((ox + 4 * w)%Q, (oy - 3 * w)%Q, oz) ((-(3 # 5))%Q, (-(4 # 5))%Q, 0%Q)). split; [left; reflexivity|].
      assert (E : (p == 0)%Q) by (unfold p; lra).
      exists (l (24 * w - 6 * (x - ox) - 8 * (z - oz))%Q), (l (8 * (z - oz))%Q), (l m). split; [repeat split; try (apply Hl; assumption)|].
      * assert (Em : (m == 6 * (x - ox))%Q) by (unfold m, p in *; lra). unfold l. rewrite Em. field. exact Hw0.
      * assert (Ey : (y - oy == - (3 # 4) * (x - ox))%Q) by (unfold p in E; lra).
        apply qpt_eq_iff. unfold comb3, l, m. coords. rewrite Ey. repeat split; [field; exact Hw0| |field; exact Hw0].
        assert (Ey' : (y == oy - (3 # 4) * (x - ox))%Q) by lra. rewrite Ey'. field. exact Hw0.
    + exists (Tri (i + 1) (ox, oy, oz) ((ox + 4 * w)%Q, (oy + 3 * w)%Q, oz) (ox, oy, (oz + 3 * w)%Q) ((-(3 # 5))%Q, (4 # 5)%Q, 0%Q)). split; [right; left; reflexivity|].
      assert (E : (m == 0)%Q) by (unfold m; lra).
      exists (l (24 * w - 6 * (x - ox) - 8 * (z - oz))%Q), (l p), (l (8 * (z - oz))%Q). split; [repeat split; try (apply Hl; assumption)|].
      * assert (Em : (p == 6 * (x - ox))%Q) by (unfold m, p in *; lra). unfold l. rewrite Em. field. exact Hw0.
      * assert (Ey : (y - oy == (3 # 4) * (x - ox))%Q) by (unfold m in E; lra).
        apply qpt_eq_iff. unfold comb3, l, p. coords. rewrite Ey. repeat split; [field; exact Hw0| |field; exact Hw0].
        assert (Ey' : (y == oy + (3 # 4) * (x - ox))%Q) by lra. rewrite Ey'. field. exact Hw0.
    + exists (Tri (i + 2) (ox, oy, (oz + 3 * w)%Q) ((ox + 4 * w)%Q, (oy + 3 * w)%Q, oz) ((ox + 4 * w)%Q, (oy - 3 * w)%Q, oz) ((3 # 5)%Q, 0%Q, (4 # 5)%Q)). split; [right; right; left; reflexivity|].
      assert (E : (3 * (x - ox) + 4 * (z - oz) == 12 * w)%Q) by lra.
      assert (Ex : (x == ox + 4 * w - (4 # 3) * (z - oz))%Q) by lra.
      exists (l (8 * (z - oz))%Q), (l p), (l m). split; [repeat split; try (apply Hl; assumption)|].
      * unfold l, p, m. rewrite Ex. field. exact Hw0.
      * apply qpt_eq_iff. unfold comb3, l, p, m. coords. rewrite Ex. repeat split; field; exact Hw0.
    + exists (Tri (i + 3) (ox, oy, oz) ((ox + 4 * w)%Q, (oy - 3 * w)%Q, oz) ((ox + 4 * w)%Q, (oy + 3 * w)%Q, oz) (0%Q, 0%Q, (-(1))%Q)). split; [right; right; right; left; reflexivity|].
      assert (Ez : (z == oz)%Q) by lra.
      exists (l (24 * w - 6 * (x - ox) - 8 * (z - oz))%Q), (l m), (l p). split; [repeat split; try (apply Hl; assumption)|].
      * unfold l, p, m. rewrite Ez. field. exact Hw0.
      * apply qpt_eq_iff. unfold comb3, l, p, m. coords. rewrite Ez. repeat split; field; exact Hw0.
  - exists (Qabs.Qabs (px o) + 4 * w)%Q. intros q Hq. apply wedge_behind in Hq. destruct Hq as (H1 & H2 & H3 & H4).
    pose proof (Qabs.Qle_Qabs (px o)) as A1. pose proof (Qabs.Qle_Qabs (- px o)) as A2. rewrite Qabs.Qabs_opp in A2. lra.
Qed.

Lemma wedge_side i o w t : In t (wedge i o w) -> side_clear t.
Proof. intros [<-|[<-|[<-|[<-|[]]]]]; unfold side_clear, epsilon; coords; [right; right|right; right|right; left|left]; lra. Qed.

Lemma abs_big a e : (e <= a \/ e <= - a)%Q -> (e <= Qabs.Qabs a)%Q.
Proof. intros [H|H]; [pose proof (Qabs.Qle_Qabs a); lra|]. rewrite <- Qabs.Qabs_opp. pose proof (Qabs.Qle_Qabs (- a)). lra. Qed.

Lemma wedge_sliceable i o w z t : (epsilon <= w)%Q -> ~ (pz o == z)%Q -> In t (wedge i o w) -> sliceable t z.
Proof.
  intros Hw Hz Ht. assert (He : (0 < epsilon)%Q) by reflexivity. unfold sliceable, clean, clean_edge, steep, coplanar, middle_on_plane.
  destruct Ht as [<-|[<-|[<-|[<-|[]]]]]; coords; (split; [repeat split; first [left; lra|right; apply abs_big; lra]|split; [intros (C1 & C2 & C3); lra|intros (C1 & C2); nra]]).
Qed.

(** ** One solid *)
Definition grid_ex : binvox Q := BinVOX 16 24 12 0%Q 0%Q 0%Q 24%Q None None.
Definition wedge_ex : list tri := wedge 1 (0%Q, 12%Q, 0%Q) 4.

Lemma grid_vpmm : (vpmm grid_ex == 1)%Q.
Proof. reflexivity. Qed.

Lemma ex_place k r : mid_height grid_ex k r <-> (pz r == inject_Z (kz k) + (1 # 2))%Q.
Proof. unfold mid_height. rewrite grid_vpmm. change (TZ grid_ex) with 0%Q. split; intros H; lra. Qed.

Lemma ex_within m k r : within m grid_ex k r -> (inject_Z (kx k) - m <= px r <= inject_Z (kx k) + 1 + m)%Q /\ (inject_Z (ky k) - m <= py r <= inject_Z (ky k) + 1 + m)%Q.
Proof. unfold within. rewrite grid_vpmm. change (TX grid_ex) with 0%Q. change (TY grid_ex) with 0%Q. lra. Qed.

(** The voxel (6, 11, 2) is well inside, so it is set; (15, 20, 11) has no point of the wedge nearby, so it is not. *)
Example C80_example : convex_surface wedge_ex /\
  (forall r, mid_height grid_ex (6, 11, 2) r -> within (1 # 2) grid_ex (6, 11, 2) r -> behind wedge_ex r) /\ result_voxels (Voxelize grid_ex wedge_ex) (6, 11, 2) /\
  ~ result_voxels (Voxelize grid_ex wedge_ex) (15, 20, 11).
Proof.
  assert (Hc : convex_surface wedge_ex) by (apply wedge_convex; reflexivity). assert (Hnd : NoDup (map taddr wedge_ex)) by (apply (bool_decide_unpack _); vm_compute; exact I).
  assert (Hin : forall r, mid_height grid_ex (6, 11, 2) r -> within (1 # 2) grid_ex (6, 11, 2) r -> behind wedge_ex r).
  { intros r Hm Hw. apply ex_place in Hm. apply ex_within in Hw. unfold kx, ky, kz in Hm, Hw. cbn [fst snd] in Hm, Hw. apply wedge_behind. unfold in_wedge. change (inject_Z 6) with 6%Q in Hw. change (inject_Z 11) with 11%Q in Hw. change (inject_Z 2) with 2%Q in Hm.
    unfold px at 2 4 6, py at 2 4, pz at 2 4. cbn [fst snd]. repeat split; lra. }
  split; [exact Hc|]. split; [exact Hin|]. split.
  - apply C80_inside; [reflexivity|reflexivity|exact Hnd|exact Hc|intros t Ht; exact (wedge_side _ _ _ _ Ht)| |unfold in_grid, in_region, kx, ky, kz; cbn; lia|exact Hin].
    intros t Ht. refine (wedge_sliceable _ _ _ _ _ _ _ Ht); [unfold epsilon; lra|intros C; vm_compute in C; discriminate C].
  - intros C. apply C80_near in C as (r & Hb & Hm & Hw); [|reflexivity|reflexivity|exact Hnd|exact Hc]. apply wedge_behind in Hb. apply ex_place in Hm. apply ex_within in Hw. unfold kx, ky, kz in Hm, Hw. cbn [fst snd] in Hm, Hw.
    change (inject_Z 15) with 15%Q in Hw. change (inject_Z 11) with 11%Q in Hm. destruct Hb as (_ & _ & Hb & _). unfold px at 2, pz at 2 in Hb. cbn [fst snd] in Hb. lra.
Qed.

(** ** Findings *)
Definition inner_ex : list tri := wedge 5 (3%Q, 12%Q, 0%Q) (1 # 2).

(** A solid inside another: right of the inner one the row is no longer filled, so a voxel well inside the outer one is not set. *)
Theorem C80_nested_refuted : exists b A B k, zero_dim b = false /\ (0 < vpmm b)%Q /\ NoDup (map taddr (A ++ B)) /\ convex_surface A /\ convex_surface B /\
  (forall t, In t (A ++ B) -> side_clear t /\ sliceable t (slice_z b (kz k))) /\
  in_grid (NX b) (NY b) (NZ b) k /\ (forall r, mid_height b k r -> within (1 # 2) b k r -> behind A r) /\ ~ result_voxels (Voxelize b (A ++ B)) k.
Proof.
  exists grid_ex, wedge_ex, inner_ex, (6, 12, 0).
  split; [reflexivity|]. split; [reflexivity|]. split; [apply (bool_decide_unpack _); vm_compute; exact I|]. split; [apply wedge_convex; reflexivity|]. split; [apply wedge_convex; reflexivity|].
  split; [|split; [unfold in_grid, in_region, kx, ky, kz; cbn; lia|split]].
  - intros t Ht. apply in_app_iff in Ht as [Ht|Ht]; (split; [exact (wedge_side _ _ _ _ Ht)|]); (refine (wedge_sliceable _ _ _ _ _ _ _ Ht); [unfold epsilon; lra|intros C; vm_compute in C; discriminate C]).
  - intros r Hm Hw. apply ex_place in Hm. apply ex_within in Hw. unfold kx, ky, kz in Hm, Hw. cbn [fst snd] in Hm, Hw. apply wedge_behind. unfold in_wedge. change (inject_Z 6) with 6%Q in Hw. change (inject_Z 12) with 12%Q in Hw. change (inject_Z 0) with 0%Q in Hm.
    unfold px at 2 4 6, py at 2 4, pz at 2 4. cbn [fst snd]. repeat split; lra.
  - unfold result_voxels. intros C. apply (bool_decide_eq_true_2 _) in C. vm_compute in C. discriminate C.
Qed.

Definition crumb_ex : list tri := wedge 1 ((6 # 5)%Q, (25 # 2)%Q, (2 # 5)%Q) (1 # 20).
Definition other_ex : list tri := wedge 5 (8%Q, 12%Q, 0%Q) 2.

(** A solid smaller than a voxel left of another one: the row between them is filled, voxels away from both. *)
Theorem C80_leak_refuted : exists b A B k, zero_dim b = false /\ (0 < vpmm b)%Q /\ NoDup (map taddr (A ++ B)) /\ convex_surface A /\ convex_surface B /\
  (forall t, In t (A ++ B) -> side_clear t /\ sliceable t (slice_z b (kz k))) /\ apart_at b (slice_z b (kz k)) [A; B] /\
  result_voxels (Voxelize b (A ++ B)) k /\ forall r, mid_height b k r -> within (3 # 2) b k r -> ~ behind A r /\ ~ behind B r.
Proof.
  exists grid_ex, crumb_ex, other_ex, (5, 12, 0).
  assert (HA : forall r, behind crumb_ex r -> (px r <= 7 # 5)%Q).
  { intros r H. apply wedge_behind in H as (_ & _ & H1 & H2). unfold px at 2, pz at 2 in H1. unfold pz at 2 in H2. cbn [fst snd] in H1, H2. lra. }
  assert (HB : forall r, behind other_ex r -> (8 <= px r)%Q).
  { intros r H. apply wedge_behind in H as (H1 & H2 & _). unfold px at 2, py at 2 in H1. unfold px at 2, py at 2 in H2. cbn [fst snd] in H1, H2. lra. }
  split; [reflexivity|]. split; [reflexivity|]. split; [apply (bool_decide_unpack _); vm_compute; exact I|]. split; [apply wedge_convex; reflexivity|]. split; [apply wedge_convex; reflexivity|].
  split; [|split; [|split]].
  - intros t Ht. apply in_app_iff in Ht as [Ht|Ht]; (split; [exact (wedge_side _ _ _ _ Ht)|]); (refine (wedge_sliceable _ _ _ _ _ _ _ Ht); [unfold epsilon; lra|intros C; vm_compute in C; discriminate C]).
  - intros i j P Q Hi Hj Hij p q Hp Hq _ _ [C _]. rewrite grid_vpmm in C. destruct i as [|[|]], j as [|[|]]; try discriminate; try congruence; injection Hi as <-; injection Hj as <-.
    + apply HA in Hp. apply HB in Hq. lra.
    + apply HB in Hp. apply HA in Hq. lra.
  - unfold result_voxels. apply (bool_decide_unpack _). vm_compute. exact I.
  - intros r _ Hw. apply ex_within in Hw as [Hw _]. unfold kx in Hw. cbn [fst snd] in Hw. change (inject_Z 5) with 5%Q in Hw. split; intros C; [apply HA in C|apply HB in C]; lra.
Qed.
