(** C85: a solid that -smooth makes hollow, and a solid that it leaves alone. *)
From Verif Require Import Base BinvoxSpec BinvoxModel Geom VoxelizeModel VoxelizeSpec VoxelizeProps VoxelizeAccuracy Convex Smooth.
From Coq Require Import ZArith QArith Qround Qabs List Lia Lqa Bool.
From stdpp Require Import base list gmap.
Import ListNotations.
Open Scope Z_scope.

(** A prism along z over the triangle (0,42), (144,0), (200,42). *)
Definition pA (z : Q) : qpt := (0%Q, 42%Q, z).
Definition pB (z : Q) : qpt := (144%Q, 0%Q, z).
Definition pC (z : Q) : qpt := (200%Q, 42%Q, z).
Definition n_left : qpt := (- (7 # 25), - (24 # 25), 0)%Q.
Definition n_right : qpt := (3 # 5, - (4 # 5), 0)%Q.
Definition n_up : qpt := (0, 1, 0)%Q.
Definition n_z (s : Q) : qpt := (0, 0, s)%Q.
Definition wedge : list tri :=
  [ Tri 0 (pB 0) (pB 30) (pA 0) n_left; Tri 1 (pB 30) (pA 30) (pA 0) n_left;
    Tri 2 (pB 0) (pC 0) (pC 30) n_right; Tri 3 (pB 0) (pC 30) (pB 30) n_right;
    Tri 4 (pC 0) (pA 0) (pA 30) n_up; Tri 5 (pC 0) (pA 30) (pC 30) n_up;
    Tri 6 (pA 0) (pC 0) (pB 0) (n_z (-1)); Tri 7 (pA 30) (pB 30) (pC 30) (n_z 1) ].
Definition wedge_grid : binvox Q := @BinVOX Q 20 5 3 0%Q 0%Q 0%Q 200%Q None None.

Definition qmax (a b : Q) : Q := if Qle_bool a b then b else a.
(** The new normals, scaled so that the largest coordinate is 1 or -1. *)
Definition smooth_sum (thr : Q) (mesh : list tri) (t : tri) : qpt := sump (close_to thr (tnorm t) (normals_at mesh (tv1 t))).
Definition smooth_factor (S : qpt) : Q := Qred (1 / qmax (Qabs (px S)) (qmax (Qabs (py S)) (Qabs (pz S)))).
Definition smooth_tri (thr : Q) (mesh : list tri) (t : tri) : tri :=
  let S := smooth_sum thr mesh t in Tri (taddr t) (tv1 t) (tv2 t) (tv3 t) (scalep (smooth_factor S) S).
Definition smooth_of (thr : Q) (mesh : list tri) : list tri := map (smooth_tri thr mesh) mesh.

Lemma smooth_of_ok thr mesh :
  forallb (fun t => negb (Qle_bool (smooth_factor (smooth_sum thr mesh t)) 0) && Qle_bool (1 # 2) (dotp (tnorm (smooth_tri thr mesh t)) (tnorm (smooth_tri thr mesh t))) &&
    Qle_bool (dotp (tnorm (smooth_tri thr mesh t)) (tnorm (smooth_tri thr mesh t))) 2) mesh = true -> SmoothNormalsThreshold thr mesh (smooth_of thr mesh).
Proof.
  intros H. unfold SmoothNormalsThreshold, smooth_of. rewrite forallb_forall in H.
  assert (G : forall l, (forall t, In t l -> In t mesh) -> Forall2 (smoothed thr mesh) l (map (smooth_tri thr mesh) l)).
  { induction l as [|t l IH]; intros Hl; [constructor|]. cbn [map]. constructor; [|apply IH; intros u Hu; apply Hl; right; exact Hu].
    specialize (H t (Hl t (or_introl eq_refl))). rewrite !andb_true_iff, !Qle_bool_iff, negb_true_iff, <- not_true_iff_false, Qle_bool_iff in H. destruct H as ((H1 & H2) & H3).
    unfold smoothed. repeat (split; [reflexivity|]). exists (smooth_factor (smooth_sum thr mesh t)). split; [lra|]. split; [reflexivity|]. split; assumption. }
  apply G. auto.
Qed.

Definition voxelb (r : vox_error + binvox Q) (k : key) : bool := match r with inl _ => false | inr b => bool_decide (k ∈ white b) end.
Lemma voxelb_iff r k : voxelb r k = true <-> result_voxels r k.
Proof. destruct r as [e|b]; cbn; [split; [discriminate|intros []]|apply bool_decide_eq_true]. Qed.

(** With 60 degrees, a voxel more than one voxel deep in a convex solid is set without smoothing, and not with it. *)
Theorem C85_hollow : exists b thr mesh mesh' k,
  zero_dim b = false /\ (thr == 1 # 2)%Q /\ NoDup (map taddr mesh) /\ (forall t, In t mesh -> unit_normal t) /\
  (forall t u, In t mesh -> In u mesh -> behind mesh (tv1 u) /\ behind mesh (tv2 u) /\ behind mesh (tv3 u)) /\
  SmoothNormalsThreshold thr mesh mesh' /\
  (forall t, In t mesh -> (vpmm b * height (tnorm t) (tv1 t) (middle b k) <= - (1))%Q) /\
  result_voxels (Voxelize b mesh) k /\ ~ result_voxels (Voxelize b mesh') k.
Proof.
  exists wedge_grid, (1 # 2)%Q, wedge, (smooth_of (1 # 2) wedge), (12, 2, 1).
  split; [reflexivity|]. split; [reflexivity|]. split; [apply (bool_decide_unpack _); vm_compute; exact I|].
  assert (E : forall (P : tri -> bool), forallb P wedge = true -> forall t, In t wedge -> P t = true) by (intros P H; apply forallb_forall; exact H).
  split.
  { intros t Ht. unfold unit_normal. apply Qeq_bool_iff. apply (E (fun t => Qeq_bool (dotp (tnorm t) (tnorm t)) 1)); [vm_compute; reflexivity|exact Ht]. }
  split.
  { intros t u _ Hu. unfold behind.
    assert (K : forall f : tri -> qpt, forallb (fun u => forallb (fun t => Qle_bool (height (tnorm t) (tv1 t) (f u)) 0) wedge) wedge = true -> forall t, In t wedge -> (height (tnorm t) (tv1 t) (f u) <= 0)%Q).
    { intros f H t' Ht'. apply Qle_bool_iff. rewrite forallb_forall in H. specialize (H u Hu). rewrite forallb_forall in H. exact (H t' Ht'). }
    split; [|split]; apply K; vm_compute; reflexivity. }
  split; [apply smooth_of_ok; vm_compute; reflexivity|]. split.
  { intros t Ht. apply Qle_bool_iff. apply (E (fun t => Qle_bool (vpmm wedge_grid * height (tnorm t) (tv1 t) (middle wedge_grid (12, 2, 1))) (- (1)))); [vm_compute; reflexivity|exact Ht]. }
  split; [apply voxelb_iff; vm_compute; reflexivity|]. intros H. apply voxelb_iff in H. vm_compute in H. discriminate.
Qed.
Print Assumptions C85_hollow.

(** With 14 degrees (thr = 97/100) the same solid meets the hypotheses of C85_steep: the normals of its sides are 16 and 37 degrees from the
    plane across x. *)
Example C85_steep_example : (forall t, In t wedge -> steep_x (97 # 100) wedge t \/ flat_x (97 # 100) wedge t) /\ SmoothNormalsThreshold (97 # 100) wedge (smooth_of (97 # 100) wedge) /\
  Voxelize wedge_grid (smooth_of (97 # 100) wedge) = Voxelize wedge_grid wedge.
Proof.
  assert (K : forall t, In t wedge -> steep_x (97 # 100) wedge t \/ flat_x (97 # 100) wedge t).
  { intros t Ht. cbn [In wedge] in Ht.
    assert (F : forall t, In t wedge -> forallb (fun u => negb (Qle_bool (97 # 100) (dotp (tnorm u) (tnorm t))) || Qeq_bool (px (tnorm u)) 0) wedge = true -> Qeq_bool (px (tnorm t)) 0 = true -> flat_x (97 # 100) wedge t).
    { intros u _ H H0. split; [apply Qeq_bool_iff, H0|]. intros u' Hu' Hd. rewrite forallb_forall in H. specialize (H u' Hu'). apply orb_true_iff in H as [H|H]; [|apply Qeq_bool_iff, H]. apply negb_true_iff in H. apply Qle_bool_iff in Hd. congruence. }
    decompose [or] Ht; try contradiction; subst t;
      first [left; split; vm_compute; reflexivity | right; apply F; [cbn [In wedge]; tauto|vm_compute; reflexivity|vm_compute; reflexivity]]. }
  assert (S : SmoothNormalsThreshold (97 # 100) wedge (smooth_of (97 # 100) wedge)) by (apply smooth_of_ok; vm_compute; reflexivity).
  split; [exact K|]. split; [exact S|]. apply (C85_steep (97 # 100)); [split; [reflexivity|discriminate]|apply (bool_decide_unpack _); vm_compute; exact I| |exact K|exact S].
  intros t Ht. unfold unit_normal. apply Qeq_bool_iff. assert (E : forallb (fun t => Qeq_bool (dotp (tnorm t) (tnorm t)) 1) wedge = true) by (vm_compute; reflexivity). rewrite forallb_forall in E. exact (E t Ht).
Qed.

(** A box keeps its voxels with 60 degrees. *)
Definition box_tris : list tri := box_mesh (1 # 2) (1 # 2) (1 # 2) (7 # 2) (5 # 2) (9 # 2).
Example C85_axis_example : box_tris <> [] /\ (forall t, In t box_tris -> unit_normal t) /\ (forall t, In t box_tris -> along_axis t) /\
  SmoothNormalsThreshold (1 # 2) box_tris (smooth_of (1 # 2) box_tris).
Proof.
  split; [discriminate|]. assert (E : forall (P : tri -> bool), forallb P box_tris = true -> forall t, In t box_tris -> P t = true) by (intros P H; apply forallb_forall; exact H). split; [|split].
  - intros t Ht. unfold unit_normal. apply Qeq_bool_iff. apply (E (fun t => Qeq_bool (dotp (tnorm t) (tnorm t)) 1)); [vm_compute; reflexivity|exact Ht].
  - intros t Ht. unfold along_axis. rewrite <- !Qeq_bool_iff, <- !andb_true_iff, <- !orb_true_iff. revert t Ht. apply (E (fun t => _)). vm_compute. reflexivity.
  - apply smooth_of_ok. vm_compute. reflexivity.
Qed.
