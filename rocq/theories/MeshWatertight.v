(** C69 and C70 for every watertight mesh of ManifoldMesh (C36_exact), not only for those without a leaky pattern. *)
From Verif Require Import Base BaseLemmas BinvoxModel Geom VoxelizeModel VoxelizeSpec MeshSpec MeshCells MeshPush MarchModel MarchProofs MarchProps
  ManifoldModel ManifoldProofs ManifoldProps ManifoldXform ManifoldTables ManifoldSurface MeshVolume MeshInside ManifoldExact.
From Coq Require Import ZArith QArith Qabs List Lia Lqa Bool Permutation.
From stdpp Require Import base list gmap sets fin_sets.
Import ListNotations.
Open Scope Z_scope.

Lemma zsum_support {B} (f : B -> Z) l l' : List.NoDup l -> List.NoDup l' -> (forall x, f x <> 0 -> In x l) -> (forall x, f x <> 0 -> In x l') -> zsum f l = zsum f l'.
Proof.
  intros H H' Hl Hl'. rewrite (zsum_nonzero f l), (zsum_nonzero f l'). apply zsum_perm, Coq.Sorting.Permutation.NoDup_Permutation; [apply List.NoDup_filter, H|apply List.NoDup_filter, H'|].
  intros x. rewrite !List.filter_In, negb_true_iff, Z.eqb_neq. split; intros [_ Hx]; split; auto.
Qed.

(** ** C70 *)
Lemma mf_inside_torn : forallb (fun n => inb torn_patterns n || cell_inside mf_tab2 n) (map Z.of_nat (seq 0 256)) = true.
Proof. vm_compute. reflexivity. Qed.

(** A watertight mesh of ManifoldMesh winds once around the voxels of the model and around no other. *)
Theorem C70_manifold_watertight b m w u v : (0 < vpmm b)%Q -> manifold_run b m -> watertight m ->
  (0 < u)%Q -> (2 * u < v)%Q -> (u + v < 1 # 2)%Q ->
  off_mesh m (beside b w u v) /\ meets_no_edge m (beside b w u v) /\ (filled b w -> winding m (beside b w u v) = 1) /\ (~ filled b w -> winding m (beside b w u v) = 0).
Proof.
  intros Hv Hr Hw Hu Huv Hs. apply (C36_exact b m Hv Hr), closing_matching in Hw as [Htorn _].
  destruct (manifold_faces2 b m Hr) as (K & Hnd & Hin & Hf).
  assert (Hall : forall k, pat (fillb b) k <> 0 -> In k K) by (intros k; apply Hin).
  assert (Hok : forall k, In k K -> cell_inside mf_tab2 (pat (fillb b) k) = true).
  { intros k _. pose proof (patterns_all _ mf_inside_torn (fillb b) k) as H. cbn beta in H. rewrite orb_true_iff, inb_iff in H.
    destruct H as [H|H]; [|exact H]. exfalso. apply (Htorn k H). }
  split; [eapply whole_off; eassumption|]. split; [eapply whole_clear; eassumption|]. apply winding_filled. eapply whole_winding; eassumption.
Qed.

(** ** C69 *)
(** What the crossed patterns leave open on the face they share, beyond the usual. *)
Definition after4 (n : Z) : Z := if inb crossed_after n then 4 else 0.
Definition before4 (n : Z) : Z := if inb crossed_before n then 4 else 0.
Definition Gx' (n : Z) : Z := gx mf_tab2 (fxp n) + after4 n.
Definition Hx' (n : Z) : Z := gx mf_tab2 (fxm n) + before4 n.
Definition part48' (n : Z) : Z := part48 mf_tab2 n - 2 * after4 n.

Definition balanced' (n : Z) : bool :=
  (netx (mf_tab2 n) =? Gx' n - Hx' n) && (nety (mf_tab2 n) =? gy mf_tab2 (fyp n) - gy mf_tab2 (fym n)) && (netz (mf_tab2 n) =? gz mf_tab2 (fzp n) - gz mf_tab2 (fzm n)).

Lemma mf_balanced' : forallb (fun n => inb torn_patterns n ||
  (balanced' n && (6 * pop n - 6 * b2n (inb crossed_after n) - 6 * b2n (inb crossed_before n) <=? part48' n))) (map Z.of_nat (seq 0 256)) = true.
Proof. vm_compute. reflexivity. Qed.

Lemma zeros : Gx' 0 = 0 /\ Hx' 0 = 0 /\ gy mf_tab2 (fyp 0) = 0 /\ gy mf_tab2 (fym 0) = 0 /\ gz mf_tab2 (fzp 0) = 0 /\ gz mf_tab2 (fzm 0) = 0.
Proof. vm_compute. repeat split. Qed.

#[local] Opaque mf_tab2 gx gy gz zdet pop.

Lemma part48'_eq n : part48' n = zsum zdet (mf_tab2 n) - 2 * Gx' n - 2 * gy mf_tab2 (fym n) - 2 * gz mf_tab2 (fzp n).
Proof. unfold part48', part48, Gx'. lia. Qed.
Lemma step3 a g r s : 2 * (a + 1) * g + (r + 2 * s) = 2 * a * g + r + 2 * (g + s).
Proof. ring. Qed.
Lemma diff6 a p q b r s c t u d : d + (2 * a * (p) - 2 * a * q + (2 * b * r - 2 * b * s + (2 * c * t - 2 * c * u))) = d + (2 * a * (p - q) + (2 * b * (r - s) + 2 * c * (t - u))).
Proof. ring. Qed.

Section Sums.
  Context (fill : key -> bool) (K : list key) (HK : List.NoDup K) (Hall : forall k, pat fill k <> 0 -> In k K) (Hm : matching fill).
  Notation P := (fun k => pat fill k).

  Lemma at_k k : balanced' (pat fill k) = true /\
    6 * pop (pat fill k) - 6 * b2n (inb crossed_after (pat fill k)) - 6 * b2n (inb crossed_before (pat fill k)) <= part48' (pat fill k).
  Proof using Hm.
    pose proof (patterns_all _ mf_balanced' fill k) as H. cbn beta in H. rewrite orb_true_iff, inb_iff, andb_true_iff, Z.leb_le in H.
    destruct H as [H|H]; [|exact H]. exfalso. apply (proj1 Hm k H).
  Qed.

  Lemma nets k : netx (mf_tab2 (pat fill k)) = Gx' (pat fill k) - Hx' (pat fill k) /\
    nety (mf_tab2 (pat fill k)) = gy mf_tab2 (fyp (pat fill k)) - gy mf_tab2 (fym (pat fill k)) /\
    netz (mf_tab2 (pat fill k)) = gz mf_tab2 (fzp (pat fill k)) - gz mf_tab2 (fzm (pat fill k)).
  Proof using Hm. pose proof (proj1 (at_k k)) as H. unfold balanced' in H. rewrite !andb_true_iff, !Z.eqb_eq in H. tauto. Qed.

  Lemma face_x' k : Hx' (pat fill k) = Gx' (pat fill (ksub k (1,0,0))).
  Proof using Hm.
    unfold Hx', Gx', after4, before4. rewrite face_x. apply Z.add_cancel_l. pose proof (proj2 Hm k) as H. rewrite <- !inb_iff in H. apply eq_true_iff_eq in H. rewrite H. reflexivity.
  Qed.

  #[local] Opaque Gx' Hx' part48'.

  (** Sums over the cells of what is seen from one side of a face and from the other agree. *)
  Lemma sides (g h : Z -> Z) d (c : key -> Z) : g 0 = 0 -> h 0 = 0 -> (forall k, h (pat fill k) = g (pat fill (ksub k d))) ->
    zsum (fun k => c (ksub k d) * h (pat fill k)) K = zsum (fun k => c k * g (pat fill k)) K.
  Proof using HK Hall.
    intros Hg Hh Hf. rewrite <- (zsum_shift (fun k => c k * g (pat fill k)) d K HK).
    - apply zsum_ext. intros k _. rewrite Hf. reflexivity.
    - intros k Hk. split; apply Hall; intros E; apply Hk.
      + rewrite E, Hg. ring.
      + rewrite <- (add_sub k d), <- Hf, E, Hh. ring.
  Qed.
  Lemma sides_x c : zsum (fun k => c (ksub k (1,0,0)) * Hx' (pat fill k)) K = zsum (fun k => c k * Gx' (pat fill k)) K.
  Proof using HK Hall Hm. apply (sides Gx' Hx'); [apply zeros|apply zeros|apply face_x']. Qed.
  Lemma sides_y c : zsum (fun k => c (ksub k (0,1,0)) * gy mf_tab2 (fym (pat fill k))) K = zsum (fun k => c k * gy mf_tab2 (fyp (pat fill k))) K.
  Proof using HK Hall. apply (sides (fun n => gy mf_tab2 (fyp n)) (fun n => gy mf_tab2 (fym n))); [apply zeros|apply zeros|]. intros k. cbn beta. rewrite face_y. reflexivity. Qed.
  Lemma sides_z c : zsum (fun k => c (ksub k (0,0,1)) * gz mf_tab2 (fzm (pat fill k))) K = zsum (fun k => c k * gz mf_tab2 (fzp (pat fill k))) K.
  Proof using HK Hall. apply (sides (fun n => gz mf_tab2 (fzp n)) (fun n => gz mf_tab2 (fzm n))); [apply zeros|apply zeros|]. intros k. cbn beta. rewrite face_z. reflexivity. Qed.

  Let cells := flat_map (fun k => map (shift_face (kdouble k)) (mf_tab2 (pat fill k))) K.

  Lemma cells_net (pr : key -> Z) (G H : key -> Z) : zsum (fun k => 1 * H k) K = zsum (fun k => 1 * G k) K ->
    (forall k, zsum (fun t => pr (znorm t)) (mf_tab2 (pat fill k)) = G k - H k) -> zsum (fun t => pr (znorm t)) cells = 0.
  Proof using Hall.
    intros Hs Hp. unfold cells. rewrite zsum_cells. rewrite (zsum_ext _ (fun k => 1 * G k - 1 * H k)).
    - rewrite zsum_sub. lia.
    - intros k _. rewrite <- (Z.mul_1_l (zsum _ _)). erewrite zsum_ext; [rewrite Hp; lia|]. intros t _. cbn beta. rewrite znorm_shift. reflexivity.
  Qed.

  Lemma cells_nets : netx cells = 0 /\ nety cells = 0 /\ netz cells = 0.
  Proof using HK Hall Hm.
    split; [|split].
    - apply (cells_net kx _ _ (sides_x (fun _ => 1))). intros k. apply nets.
    - apply (cells_net ky _ _ (sides_y (fun _ => 1))). intros k. apply nets.
    - apply (cells_net kz _ _ (sides_z (fun _ => 1))). intros k. apply nets.
  Qed.

  Lemma cells_det' : zsum zdet cells = zsum (fun k => part48' (pat fill k)) K.
  Proof using HK Hall Hm.
    unfold cells. rewrite zsum_cells.
    rewrite (zsum_ext _ (fun k => zsum zdet (mf_tab2 (pat fill k)) +
      ((2 * kx k * Gx' (pat fill k) - 2 * kx k * Hx' (pat fill k)) +
       ((2 * ky k * gy mf_tab2 (fyp (pat fill k)) - 2 * ky k * gy mf_tab2 (fym (pat fill k))) +
        (2 * kz k * gz mf_tab2 (fzp (pat fill k)) - 2 * kz k * gz mf_tab2 (fzm (pat fill k))))))).
    2:{ intros k _. destruct (nets k) as (Hx & Hy & Hz).
        rewrite (zsum_ext _ (fun t => zdet t + (kx (kdouble k) * kx (znorm t) + (ky (kdouble k) * ky (znorm t) + kz (kdouble k) * kz (znorm t))))).
        2:{ intros t _. rewrite zdet_shift. ring. }
        rewrite !zsum_add, !zsum_scale. fold (netx (mf_tab2 (pat fill k))) (nety (mf_tab2 (pat fill k))) (netz (mf_tab2 (pat fill k))).
        rewrite Hx, Hy, Hz, diff6. destruct k as [[x y] z]. unfold kdouble, kx, ky, kz. cbn [fst snd]. reflexivity. }
    rewrite (zsum_ext (fun k => part48' (pat fill k)) (fun k => zsum zdet (mf_tab2 (pat fill k)) - 2 * Gx' (pat fill k) - 2 * gy mf_tab2 (fym (pat fill k)) - 2 * gz mf_tab2 (fzp (pat fill k))))
      by (intros k _; apply part48'_eq).
    rewrite !zsum_add, !zsum_sub.
    pose proof (sides_x (fun k => 2 * (kx k + 1))) as Sx.
    pose proof (sides_y (fun k => 2 * (ky k + 1))) as Sy.
    pose proof (sides_y (fun k => 2)) as Sy'.
    pose proof (sides_z (fun k => 2 * (kz k + 1))) as Sz.
    assert (LSx : zsum (fun k => 2 * (kx (ksub k (1,0,0)) + 1) * Hx' (pat fill k)) K = zsum (fun k => 2 * kx k * Hx' (pat fill k)) K).
    { apply zsum_ext. intros [[? ?] ?] _. unfold ksub, kx, ky, kz. cbn [fst snd]. rewrite Z.sub_add. reflexivity. }
    assert (RSx : zsum (fun k => 2 * (kx k + 1) * Gx' (pat fill k)) K = zsum (fun k => 2 * kx k * Gx' (pat fill k)) K + 2 * zsum (fun k => Gx' (pat fill k)) K).
    { clear. induction K as [|k K' IH]; [reflexivity|]. cbn [zsum]. rewrite IH. apply step3. }
    cbn beta in Sx. rewrite LSx, RSx in Sx. clear LSx RSx.
    assert (LSy : zsum (fun k => 2 * (ky (ksub k (0,1,0)) + 1) * gy mf_tab2 (fym (pat fill k))) K = zsum (fun k => 2 * ky k * gy mf_tab2 (fym (pat fill k))) K).
    { apply zsum_ext. intros [[? ?] ?] _. unfold ksub, kx, ky, kz. cbn [fst snd]. rewrite Z.sub_add. reflexivity. }
    assert (RSy : zsum (fun k => 2 * (ky k + 1) * gy mf_tab2 (fyp (pat fill k))) K = zsum (fun k => 2 * ky k * gy mf_tab2 (fyp (pat fill k))) K + 2 * zsum (fun k => gy mf_tab2 (fyp (pat fill k))) K).
    { clear. induction K as [|k K' IH]; [reflexivity|]. cbn [zsum]. rewrite IH. apply step3. }
    cbn beta in Sy. rewrite LSy, RSy in Sy. clear LSy RSy.
    assert (LSz : zsum (fun k => 2 * (kz (ksub k (0,0,1)) + 1) * gz mf_tab2 (fzm (pat fill k))) K = zsum (fun k => 2 * kz k * gz mf_tab2 (fzm (pat fill k))) K).
    { apply zsum_ext. intros [[? ?] ?] _. unfold ksub, kx, ky, kz. cbn [fst snd]. rewrite Z.sub_add. reflexivity. }
    assert (RSz : zsum (fun k => 2 * (kz k + 1) * gz mf_tab2 (fzp (pat fill k))) K = zsum (fun k => 2 * kz k * gz mf_tab2 (fzp (pat fill k))) K + 2 * zsum (fun k => gz mf_tab2 (fzp (pat fill k))) K).
    { clear. induction K as [|k K' IH]; [reflexivity|]. cbn [zsum]. rewrite IH. apply step3. }
    cbn beta in Sz. rewrite LSz, RSz in Sz. clear LSz RSz.
    cbn beta in Sy'. rewrite !zsum_scale in Sy'. rewrite !zsum_scale. lia.
  Qed.

  Lemma as_many_before : zsum (fun k => b2n (inb crossed_before (pat fill k))) K = zsum (fun k => b2n (inb crossed_after (pat fill k))) K.
  Proof using HK Hall Hm.
    pose proof (sides (fun n => b2n (inb crossed_after n)) (fun n => b2n (inb crossed_before n)) (1,0,0) (fun _ => 1) eq_refl eq_refl) as H.
    cbn beta in H. rewrite !zsum_scale, !Z.mul_1_l in H. apply H. intros k.
    pose proof (proj2 Hm k) as G. rewrite <- !inb_iff in G. apply eq_true_iff_eq in G. rewrite G. reflexivity.
  Qed.

  Lemma parts_bound : zsum (fun k => 6 * pop (pat fill k)) K - 12 * zsum (fun k => b2n (inb crossed_after (pat fill k))) K <= zsum (fun k => part48' (pat fill k)) K.
  Proof using HK Hall Hm.
    pose proof (zsum_le _ (fun k => part48' (pat fill k)) K (fun k _ => proj2 (at_k k))) as H. rewrite !zsum_sub, !zsum_scale, as_many_before in H. rewrite zsum_scale. lia.
  Qed.
End Sums.

Lemma mf_volume' b m : manifold_run b m -> matching (fillb b) ->
  exists K, List.NoDup K /\ (forall k, pat (fillb b) k <> 0 -> In k K) /\
    (signed_volume m == voxel_volume b * (1 # 48) * inject_Z (zsum (fun k => part48' (pat (fillb b) k)) K))%Q.
Proof.
  intros Hr Hm. destruct (manifold_faces2 b m Hr) as (K & Hnd & Hin & Hf). exists K. split; [exact Hnd|].
  assert (Hall : forall k, pat (fillb b) k <> 0 -> In k K) by (intros k; apply Hin). split; [exact Hall|].
  unfold signed_volume. rewrite (six_volumes_eq _ _ (Forall2_face_eq_trans _ _ _ Hf (push_face_eq _ _ _ (half_pos_affine b)))).
  destruct (cells_nets (fillb b) K Hnd Hall Hm) as (N1 & N2 & N3).
  rewrite six_volumes_affine; [|exact N1|exact N2|exact N3].
  rewrite cells_det' by assumption. unfold voxel_volume. generalize (1 / vpmm b)%Q. intros s. ring.
Qed.

(** A watertight mesh of ManifoldMesh encloses the volume of the voxels, less at most a quarter of a voxel for every
    pair of crossed blocks. *)
Theorem C69_manifold_watertight b m pairs : (0 < vpmm b)%Q -> manifold_run b m -> watertight m ->
  (forall k n, block_pattern b k n -> In n crossed_after -> In k pairs) ->
  (inject_Z (voxel_count b) * voxel_volume b - inject_Z (Z.of_nat (length pairs)) * voxel_volume b * (1 # 4) <= signed_volume m)%Q.
Proof.
  intros Hv Hr Hw Hp. apply (C36_exact b m Hv Hr), closing_matching in Hw. destruct (mf_volume' b m Hr Hw) as (K & HK & Hall & HV). rewrite HV.
  apply voxel_volume_pos in Hv. set (v := voxel_volume b) in *. clearbody v. clear HV.
  pose proof (parts_bound (fillb b) K HK Hall Hw) as H1. rewrite zsum_scale, (pop_count b K HK Hall), zsum_count in H1.
  assert (Hlen : Z.of_nat (length (List.filter (fun k => inb crossed_after (pat (fillb b) k)) K)) <= Z.of_nat (length pairs)).
  { apply Nat2Z.inj_le, NoDup_incl_length; [apply List.NoDup_filter, HK|]. intros k Hk. apply List.filter_In in Hk as [_ Hk]. apply inb_iff in Hk.
    apply (Hp k _ (proj2 (block_pattern_pat b k _) eq_refl) Hk). }
  set (P := zsum (fun k => part48' (pat (fillb b) k)) K) in *. clearbody P.
  assert (H2 : 48 * voxel_count b + - (12 * Z.of_nat (length pairs)) <= P) by lia. clear H1 Hlen.
  rewrite Zle_Qle, inject_Z_plus, inject_Z_opp, !inject_Z_mult in H2. change (inject_Z 48) with 48%Q in *. change (inject_Z 12) with 12%Q in *.
  set (N := inject_Z (voxel_count b)) in *. clearbody N. set (p := inject_Z P) in *. clearbody p. set (L := inject_Z (Z.of_nat (length pairs))) in *. clearbody L.
  assert (0 <= v * (1 # 48) * (p - 48 * N + 12 * L))%Q by (apply Qmult_le_0_compat; lra).
  setoid_replace (v * (1 # 48) * (p - 48 * N + 12 * L))%Q with (v * (1 # 48) * p - (N * v - L * v * (1 # 4)))%Q in H by ring. lra.
Qed.

(** The staircase of [C36_stair] has one such pair and encloses exactly that much: the loss is real. *)
Theorem C69_stair m : manifold_run stair m -> watertight m /\ voxel_count stair = 6 /\
  (signed_volume m == (23 # 4) * voxel_volume stair)%Q.
Proof.
  intros Hr. destruct (C36_stair m Hr) as (_ & _ & _ & _ & Hw). split; [exact Hw|]. split; [vm_compute; reflexivity|].
  apply (C36_exact stair m) in Hw; [|reflexivity|exact Hr]. apply closing_matching in Hw. destruct (mf_volume' stair m Hr Hw) as (K & HK & Hall & HV). rewrite HV.
  assert (P : forall k, pat (fillb stair) k = pat (listfill stair_voxels) k) by (intros k; apply pat_ext, fillb_stair).
  assert (E : zsum (fun k => part48' (pat (fillb stair) k)) K = 276).
  { transitivity (zsum (fun k => part48' (pat (listfill stair_voxels) k)) stair_cells); [|vm_compute; reflexivity].
    rewrite (zsum_ext _ (fun k => part48' (pat (listfill stair_voxels) k))) by (intros k _; rewrite P; reflexivity).
    apply zsum_support; [exact HK| | |].
    - apply NoDup_ListNoDup. apply (bool_decide_eq_true_1 (base.NoDup stair_cells)). vm_compute. reflexivity.
    - intros k Hk. apply Hall. rewrite P. intros E. apply Hk. rewrite E. vm_compute. reflexivity.
    - intros k Hk. destruct (in_dec (fun x y : key => decide (x = y)) k stair_cells) as [Hi|Hi]; [exact Hi|]. exfalso. apply Hk. rewrite (stair_far k Hi). vm_compute. reflexivity. }
  rewrite E. generalize (voxel_volume stair). intros v. unfold Qeq, Qmult, inject_Z. cbn [Qnum Qden]. lia.
Qed.
