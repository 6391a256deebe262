(** C69: the volume the meshes enclose. *)
From Verif Require Import Base BaseLemmas BinvoxModel Geom VoxelizeModel VoxelizeSpec MeshSpec MeshCells MeshPush MarchTables MarchModel MarchProofs MarchProps
  ManifoldXform ManifoldTables ManifoldModel ManifoldProofs ManifoldSurface ManifoldProps.
From Coq Require Import ZArith QArith Qabs List Lia Lqa Bool Permutation.
From stdpp Require Import base list gmap sets fin_sets.
Import ListNotations.
Open Scope Z_scope.

(** ** Specification *)

(** a . (b x c): six times the volume, with sign, of the tetrahedron of the triangle and the origin. *)
Definition det3 (t : face) : Q :=
  let '(a, b, c) := t in
  (px a * (py b * pz c - pz b * py c) + py a * (pz b * px c - px b * pz c) + pz a * (px b * py c - py b * px c))%Q.

(** The volume a closed mesh encloses: positive if the triangles, seen from outside, go counter-clockwise. *)
Fixpoint six_volumes (m : list face) : Q := match m with [] => 0%Q | t :: m => (det3 t + six_volumes m)%Q end.
Definition signed_volume (m : list face) : Q := (six_volumes m * (1 # 6))%Q.

(** How many voxels a model has, and the volume of one. *)
Definition voxel_count (b : binvox Q) : Z := Z.of_nat (size (white b ∪ dom (colors b))).
Definition voxel_volume (b : binvox Q) : Q := ((1 / vpmm b) * (1 / vpmm b) * (1 / vpmm b))%Q.

(** ** Integer triangles *)
Definition zdet (t : zface) : Z :=
  let '(a, b, c) := t in
  kx a * (ky b * kz c - kz b * ky c) + ky a * (kz b * kx c - kx b * kz c) + kz a * (kx b * ky c - ky b * kx c).
Definition znorm (t : zface) : key :=
  let '(a, b, c) := t in
  let '(ux, uy, uz) := (kx b - kx a, ky b - ky a, kz b - kz a) in
  let '(vx, vy, vz) := (kx c - kx a, ky c - ky a, kz c - kz a) in
  (uy * vz - uz * vy, uz * vx - ux * vz, ux * vy - uy * vx).

Lemma zdet_shift d t : zdet (shift_face d t) = zdet t + (kx d * kx (znorm t) + ky d * ky (znorm t) + kz d * kz (znorm t)).
Proof.
  destruct t as [[[[? ?] ?] [[? ?] ?]] [[? ?] ?]], d as [[? ?] ?]. unfold zdet, shift_face, map3, znorm, kadd, kx, ky, kz. cbn [fst snd]. ring.
Qed.
Lemma znorm_shift d t : znorm (shift_face d t) = znorm t.
Proof.
  destruct t as [[[[? ?] ?] [[? ?] ?]] [[? ?] ?]], d as [[? ?] ?]. unfold shift_face, map3, znorm, kadd, kx, ky, kz. cbn [fst snd]. apply pair_equal_spec; split; [apply pair_equal_spec; split|]; ring.
Qed.

(** Scaling and moving. *)
Definition affine (s : Q) (v : qpt) (d : key) : qpt :=
  ((s * inject_Z (kx d) + px v)%Q, (s * inject_Z (ky d) + py v)%Q, (s * inject_Z (kz d) + pz v)%Q).

Lemma det3_affine s v t : (det3 (push_face (affine s v) t) ==
  s * s * s * inject_Z (zdet t) + s * s * (px v * inject_Z (kx (znorm t)) + py v * inject_Z (ky (znorm t)) + pz v * inject_Z (kz (znorm t))))%Q.
Proof.
  destruct t as [[[[? ?] ?] [[? ?] ?]] [[? ?] ?]], v as [[? ?] ?]. unfold push_face, affine, det3, zdet, znorm, px, py, pz, kx, ky, kz. cbn [fst snd].
  unfold Z.sub. repeat (rewrite ?inject_Z_plus, ?inject_Z_mult, ?inject_Z_opp). ring.
Qed.

Lemma six_volumes_affine s v ts :
  zsum (fun t => kx (znorm t)) ts = 0 -> zsum (fun t => ky (znorm t)) ts = 0 -> zsum (fun t => kz (znorm t)) ts = 0 ->
  (six_volumes (map (push_face (affine s v)) ts) == s * s * s * inject_Z (zsum zdet ts))%Q.
Proof.
  intros Hx Hy Hz.
  assert (G : (six_volumes (map (push_face (affine s v)) ts) == s * s * s * inject_Z (zsum zdet ts) +
    s * s * (px v * inject_Z (zsum (fun t => kx (znorm t)) ts) + py v * inject_Z (zsum (fun t => ky (znorm t)) ts) + pz v * inject_Z (zsum (fun t => kz (znorm t)) ts)))%Q).
  { clear. induction ts as [|t ts IH]; cbn [map six_volumes zsum]; [change (inject_Z 0) with 0%Q; ring|].
    rewrite IH, det3_affine, !inject_Z_plus. ring. }
  rewrite G, Hx, Hy, Hz. change (inject_Z 0) with 0%Q. ring.
Qed.

Lemma det3_eq s t : face_eq s t -> (det3 s == det3 t)%Q.
Proof.
  destruct s as [[[[? ?] ?] [[? ?] ?]] [[? ?] ?]], t as [[[[? ?] ?] [[? ?] ?]] [[? ?] ?]]. unfold face_eq, qpt_eq, det3, px, py, pz. cbn [fst snd].
  intros ((E1 & E2 & E3) & (E4 & E5 & E6) & (E7 & E8 & E9)). rewrite E1, E2, E3, E4, E5, E6, E7, E8, E9. reflexivity.
Qed.
Lemma six_volumes_eq m m' : Forall2 face_eq m m' -> (six_volumes m == six_volumes m')%Q.
Proof. induction 1 as [|s t m m' H _ IH]; cbn; [reflexivity|]. rewrite (det3_eq _ _ H), IH. reflexivity. Qed.

Lemma push_face_eq p q ts : (forall d, qpt_eq (p d) (q d)) -> Forall2 face_eq (map (push_face p) ts) (map (push_face q) ts).
Proof. intros H. induction ts as [|[[a b] c] ts IH]; cbn; constructor; [|exact IH]. split; [apply H|split; apply H]. Qed.

(** ** Cells *)
Definition netx (ts : list zface) : Z := zsum (fun t => kx (znorm t)) ts.
Definition nety (ts : list zface) : Z := zsum (fun t => ky (znorm t)) ts.
Definition netz (ts : list zface) : Z := zsum (fun t => kz (znorm t)) ts.

Definition pop (n : Z) : Z := zsum (fun i => b2n (Z.testbit n (Z.of_nat i))) (seq 0 8).

Section Cells.
  Context (tab : Z -> list zface).

  (** Twice the area, in half voxels and negative, that the patch leaves open on a face of the cell: read off
      the pattern in which only the voxels of that face are filled. *)
  Definition gx (f : Z) : Z := netx (tab (enc8 false (Z.testbit f 0) (Z.testbit f 1) false false (Z.testbit f 2) (Z.testbit f 3) false)).
  Definition gy (f : Z) : Z := nety (tab (enc8 (Z.testbit f 0) (Z.testbit f 1) false false (Z.testbit f 2) (Z.testbit f 3) false false)).
  Definition gz (f : Z) : Z := netz (tab (enc8 false false false false (Z.testbit f 0) (Z.testbit f 1) (Z.testbit f 2) (Z.testbit f 3))).

  Definition balanced (n : Z) : bool :=
    (netx (tab n) =? gx (fxp n) - gx (fxm n)) && (nety (tab n) =? gy (fyp n) - gy (fym n)) && (netz (tab n) =? gz (fzp n) - gz (fzm n)).

  (** 48 times the volume inside the cell, in voxels. *)
  Definition part48 (n : Z) : Z := zsum zdet (tab n) - 2 * gx (fxp n) - 2 * gy (fym n) - 2 * gz (fzp n).

  Context (gx0 : gx 0 = 0) (gy0 : gy 0 = 0) (gz0 : gz 0 = 0).
  Context (fill : key -> bool) (K : list key) (HK : List.NoDup K) (Hall : forall k, pat fill k <> 0 -> In k K)
    (Hok : forall k, In k K -> balanced (pat fill k) = true).

  Let A (g : Z -> Z) (fp : Z -> Z) (k : key) : Z := g (fp (pat fill k)).

  Lemma add_sub k d : ksub (kadd k d) d = k.
  Proof. destruct k as [[? ?] ?], d as [[? ?] ?]. unfold ksub, kadd, kx, ky, kz. cbn. keyeq. Qed.

  Lemma face_zero g fp fm d : g 0 = 0 -> fp 0 = 0 -> fm 0 = 0 -> (forall k, fm (pat fill k) = fp (pat fill (ksub k d))) ->
    forall k, A g fp k <> 0 -> In k K /\ In (kadd k d) K.
  Proof.
    intros Hg Hp Hm Hf k Hk. unfold A in Hk. split; apply Hall; intros E; apply Hk.
    - rewrite E, Hp. exact Hg.
    - rewrite <- (add_sub k d), <- Hf, E, Hm. exact Hg.
  Qed.

  Lemma shift_sum g fp fm d (c : key -> Z) : g 0 = 0 -> fp 0 = 0 -> fm 0 = 0 -> (forall k, fm (pat fill k) = fp (pat fill (ksub k d))) ->
    zsum (fun k => c (ksub k d) * g (fm (pat fill k))) K = zsum (fun k => c k * g (fp (pat fill k))) K.
  Proof.
    intros Hg Hp Hm Hf. rewrite <- (zsum_shift (fun k => c k * g (fp (pat fill k))) d K HK).
    - apply zsum_ext. intros k _. rewrite Hf. reflexivity.
    - intros k Hk. apply (face_zero g fp fm d Hg Hp Hm Hf). unfold A. intros E. apply Hk. rewrite E. ring.
  Qed.

  Let cells := flat_map (fun k => map (shift_face (kdouble k)) (tab (pat fill k))) K.

  Lemma zsum_cells (f : zface -> Z) : zsum f cells = zsum (fun k => zsum (fun t => f (shift_face (kdouble k) t)) (tab (pat fill k))) K.
  Proof. unfold cells. clear. induction K as [|k K' IH]; [reflexivity|]. cbn [flat_map zsum]. rewrite zsum_app, zsum_map, IH. reflexivity. Qed.

  Lemma zsum_scale {B} (f : B -> Z) c l : zsum (fun x => c * f x) l = c * zsum f l.
  Proof. induction l as [|a l IH]; [cbn; ring|]. cbn [zsum]. rewrite IH. ring. Qed.

  Lemma balanced_at k : In k K -> netx (tab (pat fill k)) = gx (fxp (pat fill k)) - gx (fxm (pat fill k)) /\
    nety (tab (pat fill k)) = gy (fyp (pat fill k)) - gy (fym (pat fill k)) /\ netz (tab (pat fill k)) = gz (fzp (pat fill k)) - gz (fzm (pat fill k)).
  Proof. intros H. specialize (Hok k H). unfold balanced in Hok. rewrite !andb_true_iff, !Z.eqb_eq in Hok. tauto. Qed.

  Lemma zsum_sub {B} (f g : B -> Z) l : zsum (fun x => f x - g x) l = zsum f l - zsum g l.
  Proof. induction l as [|a l IH]; [reflexivity|]. cbn [zsum]. rewrite IH. ring. Qed.

  Lemma cells_netx : netx cells = 0.
  Proof.
    unfold netx. rewrite zsum_cells. rewrite (zsum_ext _ (fun k => 1 * gx (fxp (pat fill k)) - 1 * gx (fxm (pat fill k)))).
    - rewrite zsum_sub, (shift_sum gx fxp fxm (1,0,0) (fun _ => 1)); [lia|exact gx0|reflexivity|reflexivity|apply face_x].
    - intros k Hk. destruct (balanced_at k Hk) as (H & _ & _). unfold netx in H.
      erewrite zsum_ext; [rewrite H; lia|]. intros t _. cbn beta. rewrite znorm_shift. reflexivity.
  Qed.
  Lemma cells_nety : nety cells = 0.
  Proof.
    unfold nety. rewrite zsum_cells. rewrite (zsum_ext _ (fun k => 1 * gy (fyp (pat fill k)) - 1 * gy (fym (pat fill k)))).
    - rewrite zsum_sub, (shift_sum gy fyp fym (0,1,0) (fun _ => 1)); [lia|exact gy0|reflexivity|reflexivity|apply face_y].
    - intros k Hk. destruct (balanced_at k Hk) as (_ & H & _). unfold nety in H.
      erewrite zsum_ext; [rewrite H; lia|]. intros t _. cbn beta. rewrite znorm_shift. reflexivity.
  Qed.
  Lemma cells_netz : netz cells = 0.
  Proof.
    unfold netz. rewrite zsum_cells. rewrite (zsum_ext _ (fun k => 1 * gz (fzp (pat fill k)) - 1 * gz (fzm (pat fill k)))).
    - rewrite zsum_sub, (shift_sum gz fzp fzm (0,0,1) (fun _ => 1)); [lia|exact gz0|reflexivity|reflexivity|apply face_z].
    - intros k Hk. destruct (balanced_at k Hk) as (_ & _ & H). unfold netz in H.
      erewrite zsum_ext; [rewrite H; lia|]. intros t _. cbn beta. rewrite znorm_shift. reflexivity.
  Qed.

  Lemma cells_det : zsum zdet cells = zsum (fun k => part48 (pat fill k)) K.
  Proof.
    rewrite zsum_cells.
    rewrite (zsum_ext _ (fun k => zsum zdet (tab (pat fill k)) +
      ((2 * kx k * gx (fxp (pat fill k)) - 2 * kx k * gx (fxm (pat fill k))) +
       ((2 * ky k * gy (fyp (pat fill k)) - 2 * ky k * gy (fym (pat fill k))) +
        (2 * kz k * gz (fzp (pat fill k)) - 2 * kz k * gz (fzm (pat fill k))))))).
    2:{ intros k Hk. destruct (balanced_at k Hk) as (Hx & Hy & Hz).
        rewrite (zsum_ext _ (fun t => zdet t + (kx (kdouble k) * kx (znorm t) + (ky (kdouble k) * ky (znorm t) + kz (kdouble k) * kz (znorm t))))).
        2:{ intros t _. rewrite zdet_shift. ring. }
        rewrite !zsum_add, !zsum_scale. fold (netx (tab (pat fill k))) (nety (tab (pat fill k))) (netz (tab (pat fill k))).
        rewrite Hx, Hy, Hz. destruct k as [[x y] z]. unfold kdouble, kx, ky, kz. cbn [fst snd]. ring. }
    rewrite !zsum_add, !zsum_sub. unfold part48. rewrite !zsum_sub.
    pose proof (shift_sum gx fxp fxm (1,0,0) (fun k => 2 * (kx k + 1)) gx0 eq_refl eq_refl (face_x fill)) as Sx.
    pose proof (shift_sum gy fyp fym (0,1,0) (fun k => 2 * (ky k + 1)) gy0 eq_refl eq_refl (face_y fill)) as Sy.
    pose proof (shift_sum gy fyp fym (0,1,0) (fun k => 2) gy0 eq_refl eq_refl (face_y fill)) as Sy'.
    pose proof (shift_sum gz fzp fzm (0,0,1) (fun k => 2 * (kz k + 1)) gz0 eq_refl eq_refl (face_z fill)) as Sz.
    rewrite (zsum_ext _ (fun k => 2 * kx k * gx (fxm (pat fill k)))) in Sx by (intros [[? ?] ?] _; unfold ksub, kx, ky, kz; cbn [fst snd]; f_equal; lia).
    rewrite (zsum_ext _ (fun k => 2 * ky k * gy (fym (pat fill k)))) in Sy by (intros [[? ?] ?] _; unfold ksub, kx, ky, kz; cbn [fst snd]; f_equal; lia).
    rewrite (zsum_ext _ (fun k => 2 * kz k * gz (fzm (pat fill k)))) in Sz by (intros [[? ?] ?] _; unfold ksub, kx, ky, kz; cbn [fst snd]; f_equal; lia).
    rewrite (zsum_ext (fun k => 2 * (kx k + 1) * gx (fxp (pat fill k))) (fun k => 2 * kx k * gx (fxp (pat fill k)) + 2 * gx (fxp (pat fill k)))) in Sx by (intros; ring).
    rewrite (zsum_ext (fun k => 2 * (ky k + 1) * gy (fyp (pat fill k))) (fun k => 2 * ky k * gy (fyp (pat fill k)) + 2 * gy (fyp (pat fill k)))) in Sy by (intros; ring).
    rewrite (zsum_ext (fun k => 2 * (kz k + 1) * gz (fzp (pat fill k))) (fun k => 2 * kz k * gz (fzp (pat fill k)) + 2 * gz (fzp (pat fill k)))) in Sz by (intros; ring).
    rewrite !zsum_add in Sx, Sy, Sz. cbn beta in Sx, Sy, Sy', Sz |- *. lia.
  Qed.
End Cells.

(** Every voxel is a corner of eight cells. *)
Lemma zsum_count {B} (p : B -> bool) l : zsum (fun x => b2n (p x)) l = Z.of_nat (length (List.filter p l)).
Proof. induction l as [|a l IH]; [reflexivity|]. cbn [zsum List.filter]. rewrite IH. destruct (p a); cbn [b2n length]; lia. Qed.

Lemma corner_count (S : gset key) K i : List.NoDup K -> (forall k, pat (fun v => bool_decide (v ∈ S)) k <> 0 -> In k K) -> (i < 8)%nat ->
  zsum (fun k => b2n (bool_decide (corner i k ∈ S))) K = Z.of_nat (size S).
Proof.
  intros HK Hall Hi. rewrite zsum_count. f_equal. unfold size, set_size. cbn [compose].
  rewrite <- (map_length (corner i)). apply Permutation_length.
  assert (Hinj : forall x y, corner i x = corner i y -> x = y).
  { intros x y E. unfold corner in E. rewrite <- (add_sub x (nth i corner_off (0,0,0))), E. apply add_sub. }
  apply Coq.Sorting.Permutation.NoDup_Permutation.
  - apply FinFun.Injective_map_NoDup; [exact Hinj|apply List.NoDup_filter, HK].
  - apply NoDup_ListNoDup, NoDup_elements.
  - intros v. rewrite <- (elem_of_list_In (elements S)), elem_of_elements, in_map_iff. split.
    + intros (k & <- & Hk). apply List.filter_In in Hk as [_ Hk]. apply bool_decide_eq_true in Hk. exact Hk.
    + intros Hv. set (k := ksub v (nth i corner_off (0,0,0))).
      assert (E : corner i k = v).
      { subst k. unfold corner. destruct v as [[? ?] ?], (nth i corner_off (0,0,0)) as [[? ?] ?]. unfold kadd, ksub, kx, ky, kz. cbn. keyeq. }
      exists k. split; [exact E|]. apply List.filter_In. rewrite E. split; [|apply bool_decide_eq_true, Hv].
      apply Hall. intros H0. rewrite pat_zero in H0. specialize (H0 i Hi). rewrite E in H0. apply bool_decide_eq_false in H0. contradiction.
Qed.

Lemma pop_count b K : List.NoDup K -> (forall k, pat (fillb b) k <> 0 -> In k K) ->
  zsum (fun k => pop (pat (fillb b) k)) K = 8 * voxel_count b.
Proof.
  intros HK Hall. unfold pop. cbn [seq zsum].
  rewrite (zsum_ext _ (fun k => b2n (fillb b (corner 0 k)) + (b2n (fillb b (corner 1 k)) + (b2n (fillb b (corner 2 k)) + (b2n (fillb b (corner 3 k)) +
     (b2n (fillb b (corner 4 k)) + (b2n (fillb b (corner 5 k)) + (b2n (fillb b (corner 6 k)) + b2n (fillb b (corner 7 k)))))))))).
  2:{ intros k _. change (Z.of_nat 0) with 0. change (Z.of_nat 1) with 1. change (Z.of_nat 2) with 2. change (Z.of_nat 3) with 3.
      change (Z.of_nat 4) with 4. change (Z.of_nat 5) with 5. change (Z.of_nat 6) with 6. change (Z.of_nat 7) with 7.
      rewrite pat_bit0, pat_bit1, pat_bit2, pat_bit3, pat_bit4, pat_bit5, pat_bit6, pat_bit7. lia. }
  rewrite !zsum_add. unfold fillb at 1 2 3 4 5 6 7 8. rewrite !(corner_count (white b ∪ dom (colors b)) K) by (assumption || lia).
  unfold voxel_count. lia.
Qed.

(** ** The volume of a mesh made of cells *)
Lemma half_pos_affine b d : qpt_eq (half_pos b d)
  (affine ((1 # 2) * (1 / vpmm b))%Q (((1 # 2) * (1 / vpmm b) + TX b)%Q, ((1 # 2) * (1 / vpmm b) + TY b)%Q, ((1 # 2) * (1 / vpmm b) + TZ b)%Q) d).
Proof. unfold qpt_eq, half_pos, affine, px, py, pz. cbn [fst snd]. generalize (1 / vpmm b)%Q. intros s. split; [ring|split; ring]. Qed.

Lemma Forall2_face_eq_trans m1 m2 m3 : Forall2 face_eq m1 m2 -> Forall2 face_eq m2 m3 -> Forall2 face_eq m1 m3.
Proof.
  apply Forall2_transitive. intros [[a1 a2] a3] [[b1 b2] b3] [[c1 c2] c3] (H1 & H2 & H3) (G1 & G2 & G3).
  split; [|split]; [rewrite H1|rewrite H2|rewrite H3]; assumption.
Qed.

Lemma cells_volume tab b K m :
  gx tab 0 = 0 -> gy tab 0 = 0 -> gz tab 0 = 0 ->
  List.NoDup K -> (forall k, pat (fillb b) k <> 0 -> In k K) -> (forall k, In k K -> balanced tab (pat (fillb b) k) = true) ->
  Forall2 face_eq m (map (push_face (half_pos b)) (flat_map (fun k => map (shift_face (kdouble k)) (tab (pat (fillb b) k))) K)) ->
  (signed_volume m == voxel_volume b * (1 # 48) * inject_Z (zsum (fun k => part48 tab (pat (fillb b) k)) K))%Q.
Proof.
  intros Hx Hy Hz HK Hall Hok Hm. unfold signed_volume.
  rewrite (six_volumes_eq _ _ (Forall2_face_eq_trans _ _ _ Hm (push_face_eq _ _ _ (half_pos_affine b)))).
  rewrite six_volumes_affine; [|apply cells_netx|apply cells_nety|apply cells_netz]; try assumption.
  rewrite cells_det by assumption. unfold voxel_volume. generalize (1 / vpmm b)%Q. intros s. ring.
Qed.

Lemma zsum_le {B} (f g : B -> Z) l : (forall x, In x l -> f x <= g x) -> zsum f l <= zsum g l.
Proof. intros H. induction l as [|a l IH]; [cbn; lia|]. cbn [zsum]. pose proof (H a ltac:(cbn; auto)). specialize (IH ltac:(intros x Hx; apply H; cbn; auto)). lia. Qed.

Lemma patterns_all (p : Z -> bool) : forallb p (map Z.of_nat (seq 0 256)) = true -> forall fill k, p (pat fill k) = true.
Proof. intros H fill k. rewrite forallb_forall in H. apply H, pat_range. Qed.

(** ** MarchingCubes *)
Lemma mc_balanced : forallb (balanced mc_ztris) (map Z.of_nat (seq 0 256)) = true.
Proof. vm_compute. reflexivity. Qed.
Lemma mc_parts : forallb (fun n => (pop n <=? part48 mc_ztris n) && (part48 mc_ztris n <=? 11 * pop n)) (map Z.of_nat (seq 0 256)) = true.
Proof. vm_compute. reflexivity. Qed.

(** Is the 2x2x2 block of voxels at [k] mixed: does it hold a voxel of the model and an empty one? *)
Definition mixed (b : binvox Q) (k : key) : Prop :=
  (exists i, (i < 8)%nat /\ filled b (corner i k)) /\ (exists i, (i < 8)%nat /\ ~ filled b (corner i k)).

Lemma mc_parts_mixed : forallb (fun n => if (n =? 0) || (n =? 255) then part48 mc_ztris n =? 6 * pop n else Z.abs (part48 mc_ztris n - 6 * pop n) <=? 20) (map Z.of_nat (seq 0 256)) = true.
Proof. vm_compute. reflexivity. Qed.

Lemma mc_volume b order m : Permutation order (elements (grid_cells b)) -> MarchingCubes b order = Some m ->
  (signed_volume m == voxel_volume b * (1 # 48) * inject_Z (zsum (fun k => part48 mc_ztris (pat (fillb b) k)) order))%Q /\
  zsum (fun k => pop (pat (fillb b) k)) order = 8 * voxel_count b.
Proof.
  intros Hp Em. destruct (MarchingCubes_faces b order) as (m' & E & Hf). rewrite Em in E. injection E as <-.
  assert (Hnd : List.NoDup order) by (apply NoDup_ListNoDup; rewrite Hp; apply NoDup_elements).
  assert (Hall : forall k, pat (fillb b) k <> 0 -> In k order).
  { intros k Hk. apply elem_of_list_In. rewrite Hp. apply elem_of_elements, grid_cells_pat, Hk. }
  split; [|apply pop_count; assumption].
  apply cells_volume; try reflexivity; try assumption. intros k _. apply (patterns_all _ mc_balanced).
Qed.

Lemma voxel_volume_pos b : (0 < vpmm b)%Q -> (0 < voxel_volume b)%Q.
Proof.
  intros H. assert (0 < 1 / vpmm b)%Q by (unfold Qdiv; rewrite Qmult_1_l; apply Qinv_lt_0_compat, H).
  unfold voxel_volume. set (s := (1 / vpmm b)%Q) in *. clearbody s. repeat apply Qmult_lt_0_compat; assumption.
Qed.

(** The volume is positive, a sixth of that of the voxels or more, and at most eleven sixths. *)
Theorem C69_marching_cubes b order m : (0 < vpmm b)%Q -> Permutation order (elements (grid_cells b)) -> MarchingCubes b order = Some m ->
  (inject_Z (voxel_count b) * voxel_volume b * (1 # 6) <= signed_volume m <= inject_Z (voxel_count b) * voxel_volume b * (11 # 6))%Q.
Proof.
  intros Hv Hp Em. destruct (mc_volume b order m Hp Em) as [HV HN]. rewrite HV.
  apply voxel_volume_pos in Hv. set (v := voxel_volume b) in *. clearbody v. clear HV Em.
  assert (H : forall k, pop (pat (fillb b) k) <= part48 mc_ztris (pat (fillb b) k) <= 11 * pop (pat (fillb b) k)).
  { intros k. pose proof (patterns_all _ mc_parts (fillb b) k) as H. cbn beta in H. rewrite andb_true_iff, !Z.leb_le in H. exact H. }
  pose proof (zsum_le (fun k => pop (pat (fillb b) k)) (fun k => part48 mc_ztris (pat (fillb b) k)) order (fun k _ => proj1 (H k))) as H1.
  pose proof (zsum_le (fun k => part48 mc_ztris (pat (fillb b) k)) (fun k => 11 * pop (pat (fillb b) k)) order (fun k _ => proj2 (H k))) as H2.
  rewrite zsum_scale in H2. rewrite HN in H1, H2. set (P := zsum (fun k => part48 mc_ztris (pat (fillb b) k)) order) in *. clearbody P. clear H.
  rewrite Zle_Qle, inject_Z_mult in H1. rewrite Zle_Qle, !inject_Z_mult in H2. change (inject_Z 8) with 8%Q in *. change (inject_Z 11) with 11%Q in *.
  set (N := inject_Z (voxel_count b)) in *. clearbody N. set (p := inject_Z P) in *. clearbody p.
  split.
  - setoid_replace (v * (1 # 48) * p)%Q with (N * v * (1 # 6) + v * (1 # 48) * (p - 8 * N))%Q by ring.
    assert (0 <= v * (1 # 48) * (p - 8 * N))%Q; [|lra]. apply Qmult_le_0_compat; [lra|lra].
  - setoid_replace (v * (1 # 48) * p)%Q with (N * v * (11 # 6) - v * (1 # 48) * (11 * (8 * N) - p))%Q by ring.
    assert (0 <= v * (1 # 48) * (11 * (8 * N) - p))%Q; [|lra]. apply Qmult_le_0_compat; [lra|lra].
Qed.

(** It differs from that of the voxels by at most 5/12 of a voxel for every mixed block. *)
Lemma pat_mixed b k : pat (fillb b) k <> 0 -> pat (fillb b) k <> 255 -> mixed b k.
Proof.
  intros H0 H1. split.
  - destruct (existsb (fun i => fillb b (corner i k)) (seq 0 8)) eqn:E.
    + apply existsb_exists in E as (i & Hi & E). apply in_seq in Hi. exists i. split; [lia|apply fillb_iff, E].
    + exfalso. apply H0, pat_zero. intros i Hi. apply not_true_is_false. intros Ht.
      assert (existsb (fun i => fillb b (corner i k)) (seq 0 8) = true); [|congruence]. apply existsb_exists. exists i. split; [apply in_seq; lia|exact Ht].
  - destruct (existsb (fun i => negb (fillb b (corner i k))) (seq 0 8)) eqn:E.
    + apply existsb_exists in E as (i & Hi & E). apply in_seq in Hi. exists i. split; [lia|]. rewrite <- fillb_iff. intros Ht. rewrite Ht in E. discriminate.
    + exfalso. apply H1. cbn [seq existsb] in E. rewrite !orb_false_iff, !negb_false_iff in E. destruct E as (E0 & E1 & E2 & E3 & E4 & E5 & E6 & E7 & _).
      unfold pat. rewrite E0, E1, E2, E3, E4, E5, E6, E7. reflexivity.
Qed.

Theorem C69_marching_cubes_surface b order m blocks : (0 < vpmm b)%Q -> Permutation order (elements (grid_cells b)) -> MarchingCubes b order = Some m ->
  (forall k, mixed b k -> In k blocks) ->
  (Qabs (signed_volume m - inject_Z (voxel_count b) * voxel_volume b) <= inject_Z (Z.of_nat (length blocks)) * voxel_volume b * (5 # 12))%Q.
Proof.
  intros Hv Hp Em Hb. destruct (mc_volume b order m Hp Em) as [HV HN]. rewrite HV.
  apply voxel_volume_pos in Hv. set (v := voxel_volume b) in *. clearbody v. clear HV Em.
  set (isb := fun k => negb ((pat (fillb b) k =? 0) || (pat (fillb b) k =? 255))).
  assert (Hlen : Z.of_nat (length (List.filter isb order)) <= Z.of_nat (length blocks)).
  { apply Nat2Z.inj_le, NoDup_incl_length.
    - apply List.NoDup_filter, NoDup_ListNoDup. rewrite Hp. apply NoDup_elements.
    - intros k Hk. apply List.filter_In in Hk as [_ Hk]. unfold isb in Hk. rewrite negb_true_iff, orb_false_iff, !Z.eqb_neq in Hk. apply Hb, pat_mixed; tauto. }
  assert (H : forall k, 6 * pop (pat (fillb b) k) - 20 * b2n (isb k) <= part48 mc_ztris (pat (fillb b) k) <= 6 * pop (pat (fillb b) k) + 20 * b2n (isb k)).
  { intros k. pose proof (patterns_all _ mc_parts_mixed (fillb b) k) as H. cbn beta in H. unfold isb.
    destruct ((pat (fillb b) k =? 0) || (pat (fillb b) k =? 255)); cbn [negb b2n]; [apply Z.eqb_eq in H; lia|apply Z.leb_le in H; lia]. }
  pose proof (zsum_le _ (fun k => part48 mc_ztris (pat (fillb b) k)) order (fun k _ => proj1 (H k))) as H1.
  pose proof (zsum_le (fun k => part48 mc_ztris (pat (fillb b) k)) _ order (fun k _ => proj2 (H k))) as H2.
  rewrite zsum_sub, !zsum_scale, HN, zsum_count in H1. rewrite zsum_add, !zsum_scale, HN, zsum_count in H2.
  set (P := zsum (fun k => part48 mc_ztris (pat (fillb b) k)) order) in *. clearbody P. clear H.
  assert (H1' : 48 * voxel_count b - 20 * Z.of_nat (length blocks) <= P) by lia. assert (H2' : P <= 48 * voxel_count b + 20 * Z.of_nat (length blocks)) by lia.
  clear H1 H2 Hlen. rewrite Zle_Qle in H1', H2'. unfold Z.sub in H1'. repeat rewrite ?inject_Z_plus, ?inject_Z_opp, ?inject_Z_mult in H1'. repeat rewrite ?inject_Z_plus, ?inject_Z_mult in H2'.
  change (inject_Z 48) with 48%Q in *. change (inject_Z 20) with 20%Q in *.
  set (N := inject_Z (voxel_count b)) in *. clearbody N. set (p := inject_Z P) in *. clearbody p. set (L := inject_Z (Z.of_nat (length blocks))) in *. clearbody L.
  apply Qabs_Qle_condition. split.
  - assert (0 <= v * (1 # 48) * (p - 48 * N + 20 * L))%Q by (apply Qmult_le_0_compat; lra).
    setoid_replace (v * (1 # 48) * (p - 48 * N + 20 * L))%Q with ((v * (1 # 48) * p - N * v) + L * v * (5 # 12))%Q in H by ring. lra.
  - assert (0 <= v * (1 # 48) * (48 * N + 20 * L - p))%Q by (apply Qmult_le_0_compat; lra).
    setoid_replace (v * (1 # 48) * (48 * N + 20 * L - p))%Q with (L * v * (5 # 12) - (v * (1 # 48) * p - N * v))%Q in H by ring. lra.
Qed.

(** ** ManifoldMesh *)

(** The patches with the corners of the cell at 0 and 2 instead of -1 and 1. *)
Definition mf_tab2 (n : Z) : list zface := map (shift_face (1, -1, 1)) (mf_ztris n).

Lemma mf_pos_half b d : qpt_eq (mf_pos b d) (half_pos b (kadd d (1, -1, 1))).
Proof.
  destruct d as [[x y] z]. unfold qpt_eq, mf_pos, half_pos, kadd, px, py, pz, kx, ky, kz. cbn [fst snd]. rewrite !inject_Z_plus.
  change (inject_Z 1) with 1%Q. change (inject_Z 2) with 2%Q. change (inject_Z (-1)) with (-1)%Q. generalize (1 / vpmm b)%Q. intros s. split; [ring|split; ring].
Qed.

Lemma kadd_swap k d : kadd (kadd (kdouble k) d) (1, -1, 1) = kadd (kdouble k) (kadd (1, -1, 1) d).
Proof. destruct k as [[? ?] ?], d as [[? ?] ?]. unfold kadd, kdouble, kx, ky, kz. cbn. keyeq. Qed.

Lemma manifold_faces2 b m : manifold_run b m -> exists K, List.NoDup K /\ (forall k, In k K <-> pat (fillb b) k <> 0) /\
  Forall2 face_eq m (map (push_face (half_pos b)) (flat_map (fun k => map (shift_face (kdouble k)) (mf_tab2 (pat (fillb b) k))) K)).
Proof.
  intros (whites & cols & order & Hw & Hc & Ho & ->). destruct (manifold_order b whites cols order Hw Hc Ho) as (Eo & Hnd & Hin).
  exists (map fst order). split; [exact Hnd|]. split; [exact Hin|].
  eapply Forall2_face_eq_trans; [apply ManifoldMesh_faces|]. rewrite Eo at 1. unfold mf_faces. generalize (map fst order). clear.
  intros K. induction K as [|k K IH]; [constructor|]. cbn [map flat_map]. rewrite !map_app. apply Forall2_app; [|exact IH].
  unfold mf_tab2. rewrite !map_map. induction (mf_ztris (pat (fillb b) k)) as [|[[p q] r] ts IHt]; [constructor|]. cbn [map]. constructor; [|exact IHt].
  unfold push_face, shift_face, map3. split; [|split]; rewrite <- kadd_swap; apply mf_pos_half.
Qed.

Lemma mf_balanced : forallb (fun n => leakyb n || (balanced mf_tab2 n && (6 * pop n <=? part48 mf_tab2 n))) (map Z.of_nat (seq 0 256)) = true.
Proof. vm_compute. reflexivity. Qed.
Lemma mf_exact : forallb (fun n => negb (conn_ok n true && conn_ok n false) || existsb (Z.eqb n) unhandled_chains || (6 * pop n =? part48 mf_tab2 n)) (map Z.of_nat (seq 0 256)) = true.
Proof. vm_compute. reflexivity. Qed.

Lemma mf_volume b m : manifold_run b m -> (forall k n, block_pattern b k n -> ~ In n leaky_patterns) ->
  exists K, (signed_volume m == voxel_volume b * (1 # 48) * inject_Z (zsum (fun k => part48 mf_tab2 (pat (fillb b) k)) K))%Q /\
    zsum (fun k => pop (pat (fillb b) k)) K = 8 * voxel_count b.
Proof.
  intros Hr Hl. destruct (manifold_faces2 b m Hr) as (K & Hnd & Hin & Hf). exists K.
  assert (Hall : forall k, pat (fillb b) k <> 0 -> In k K) by (intros k; apply Hin). split; [|apply pop_count; assumption].
  apply cells_volume; try reflexivity; try assumption. intros k _.
  pose proof (patterns_all _ mf_balanced (fillb b) k) as H. cbn beta in H. rewrite orb_true_iff, andb_true_iff, leakyb_iff in H.
  destruct H as [H|[H _]]; [|exact H]. exfalso. apply (Hl k _ (proj2 (block_pattern_pat b k _) eq_refl) H).
Qed.

(** A mesh without leaks encloses at least the volume of the voxels. *)
Theorem C69_manifold b m : (0 < vpmm b)%Q -> manifold_run b m -> (forall k n, block_pattern b k n -> ~ In n leaky_patterns) ->
  (inject_Z (voxel_count b) * voxel_volume b <= signed_volume m)%Q.
Proof.
  intros Hv Hr Hl. destruct (mf_volume b m Hr Hl) as (K & HV & HN). rewrite HV. apply voxel_volume_pos in Hv. set (v := voxel_volume b) in *. clearbody v.
  assert (H1 : zsum (fun k => 6 * pop (pat (fillb b) k)) K <= zsum (fun k => part48 mf_tab2 (pat (fillb b) k)) K).
  { apply zsum_le. intros k _. pose proof (patterns_all _ mf_balanced (fillb b) k) as H. cbn beta in H. rewrite orb_true_iff, andb_true_iff, leakyb_iff, Z.leb_le in H.
    destruct H as [H|[_ H]]; [|exact H]. exfalso. apply (Hl k _ (proj2 (block_pattern_pat b k _) eq_refl) H). }
  rewrite zsum_scale, HN in H1. set (P := zsum (fun k => part48 mf_tab2 (pat (fillb b) k)) K) in *. clearbody P. rewrite Zle_Qle, !inject_Z_mult in H1. change (inject_Z 8) with 8%Q in *. change (inject_Z 6) with 6%Q in *.
  set (N := inject_Z (voxel_count b)) in *. clearbody N. set (p := inject_Z P) in *. clearbody p.
  assert (0 <= v * (1 # 48) * (p - 6 * (8 * N)))%Q by (apply Qmult_le_0_compat; lra).
  setoid_replace (v * (1 # 48) * (p - 6 * (8 * N)))%Q with (v * (1 # 48) * p - N * v)%Q in H by ring. lra.
Qed.

(** If moreover the model is well composed it is exactly their volume. *)
Theorem C69_manifold_exact b m : manifold_run b m -> well_composed b -> (forall k n, block_pattern b k n -> ~ In n unhandled_chains) ->
  (signed_volume m == inject_Z (voxel_count b) * voxel_volume b)%Q.
Proof.
  intros Hr Hw Hu.
  assert (Hconn : forall k, conn_ok (pat (fillb b) k) true && conn_ok (pat (fillb b) k) false = true).
  { intros k. destruct (Hw k) as [H1 H2].
    apply (connected_conn_ok (fillb b) true k) in H1; [|intros v; symmetry; apply fillb_iff].
    apply (connected_conn_ok (fillb b) false k) in H2; [|intros v; rewrite <- fillb_iff; apply not_true_iff_false]. rewrite H1, H2. reflexivity. }
  assert (Hun : forall k, existsb (Z.eqb (pat (fillb b) k)) unhandled_chains = false).
  { intros k. apply not_true_is_false. intros H. apply existsb_exists in H as (x & Hx & E). apply Z.eqb_eq in E. subst x.
    apply (Hu k _ (proj2 (block_pattern_pat b k _) eq_refl) Hx). }
  assert (Hl : forall k n, block_pattern b k n -> ~ In n leaky_patterns).
  { intros k n Hp Hl. apply block_pattern_pat in Hp as ->. pose proof leaky_not_connected as H. rewrite forallb_forall in H. specialize (H _ Hl).
    rewrite Hconn, Hun in H. discriminate. }
  destruct (mf_volume b m Hr Hl) as (K & HV & HN). rewrite HV.
  assert (H1 : zsum (fun k => part48 mf_tab2 (pat (fillb b) k)) K = zsum (fun k => 6 * pop (pat (fillb b) k)) K).
  { apply zsum_ext. intros k _. pose proof (patterns_all _ mf_exact (fillb b) k) as H. cbn beta in H. rewrite Hconn, Hun in H. cbn [negb orb] in H.
    apply Z.eqb_eq in H. symmetry. exact H. }
  rewrite H1, zsum_scale, HN, !inject_Z_mult. change (inject_Z 8) with 8%Q. change (inject_Z 6) with 6%Q. ring.
Qed.

(** ** Examples *)

(** One voxel: MarchingCubes gives an octahedron, a sixth of the voxel, so the lower bound is reached. *)
Definition one_voxel : binvox Q := BinVOX 4 4 4 (1#3)%Q 2%Q (-5)%Q 4%Q (Some {[ (1, 2, 1) ]}) None.
Example C69_octahedron : (0 < vpmm one_voxel)%Q /\ voxel_count one_voxel = 1 /\
  exists m, MarchingCubes one_voxel (elements (grid_cells one_voxel)) = Some m /\ length m = 8%nat /\
    (signed_volume m == voxel_volume one_voxel * (1 # 6))%Q.
Proof.
  split; [reflexivity|]. split; [reflexivity|].
  destruct (MarchingCubes one_voxel (elements (grid_cells one_voxel))) as [m|] eqn:E; [|vm_compute in E; discriminate].
  exists m. vm_compute in E. injection E as <-. split; [reflexivity|]. split; [reflexivity|]. vm_compute. reflexivity.
Qed.

(** A chain of three voxels is well composed and meets the hypotheses of [C69_manifold_exact]. *)
Example C69_chain : exists m, manifold_run (ManifoldProps.block 7) m /\ well_composed (ManifoldProps.block 7) /\
  (forall k n, block_pattern (ManifoldProps.block 7) k n -> ~ In n unhandled_chains) /\ (signed_volume m == 3 * voxel_volume (ManifoldProps.block 7))%Q.
Proof.
  destruct (C36_total (ManifoldProps.block 7)) as (m & Hm). exists m. split; [exact Hm|].
  assert (Hw : well_composed (ManifoldProps.block 7)) by (apply block_well_composed; vm_compute; reflexivity).
  assert (Hu : forall k n, block_pattern (ManifoldProps.block 7) k n -> ~ In n unhandled_chains).
  { intros k n Hp. apply block_pattern_pat in Hp as ->. rewrite (pat_ext _ _ k (fillb_block 7)).
    destruct (Z.eq_dec (pat (blockfill 7) k) 0) as [->|Hne]; [cbn; intuition discriminate|]. apply block_cells in Hne.
    assert (H : forallb (fun k => negb (existsb (Z.eqb (pat (blockfill 7) k)) unhandled_chains)) around = true) by (vm_compute; reflexivity).
    rewrite forallb_forall in H. specialize (H k Hne). intros Hin. apply negb_true_iff in H.
    assert (existsb (Z.eqb (pat (blockfill 7) k)) unhandled_chains = true); [|congruence]. apply existsb_exists. eexists. split; [exact Hin|apply Z.eqb_refl]. }
  split; [exact Hw|]. split; [exact Hu|]. rewrite (C69_manifold_exact _ _ Hm Hw Hu). reflexivity.
Qed.
