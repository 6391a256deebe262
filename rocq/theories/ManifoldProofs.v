(** Proofs about ManifoldMesh. *)
From Verif Require Import Base BaseLemmas BinvoxModel Geom VoxelizeModel VoxelizeSpec MeshSpec MeshCells MeshPush MarchModel MarchProofs
  ManifoldXform ManifoldTables ManifoldModel.
From Coq Require Import ZArith QArith List Lia Lqa Bool Permutation.
From stdpp Require Import base list gmap sets fin_sets.
Import ListNotations.
Open Scope Z_scope.

(** ** The cell patterns *)
Definition cellval (m : gmap key Z) (k : key) : Z := default 0 (m !! k).

Lemma cellval_or_bit m k' g k i :
  Z.testbit (cellval (or_bit m k' g) k) i = Z.testbit (cellval m k) i || (key_eqb k k' && Z.testbit g i).
Proof.
  unfold cellval, or_bit. destruct (key_eqb k k') eqn:E.
  - apply key_eqb_eq in E as ->. rewrite lookup_insert. cbn [from_option id]. rewrite Z.lor_spec. reflexivity.
  - rewrite lookup_insert_ne; [rewrite orb_false_r; reflexivity|]. intros ->.
    rewrite (proj2 (key_eqb_eq k k) eq_refl) in E. discriminate.
Qed.

Lemma g_high g i : In g [g0; g1; g2; g3; g4; g5; g6; g7] -> 8 <= i -> Z.testbit g i = false.
Proof.
  intros Hg Hi. cbn in Hg.
  repeat (destruct Hg as [<-|Hg]; [apply Z.bits_above_log2; [vm_compute; congruence|cbn; lia]|]). destruct Hg.
Qed.

Lemma key_func_bit m v k i : (i < 8)%nat ->
  Z.testbit (cellval (key_func m v) k) (Z.of_nat i) = Z.testbit (cellval m k) (Z.of_nat i) || key_eqb (corner i k) v.
Proof.
  intros Hi. destruct v as [[x y] z], k as [[x' y'] z']. unfold key_func. cbn zeta beta iota.
  rewrite !cellval_or_bit.
  do 8 (destruct i as [|i]; [
    repeat match goal with |- context[Z.testbit ?g (Z.of_nat ?n)] =>
      lazymatch g with cellval _ _ => fail | _ => let t := eval vm_compute in (Z.testbit g (Z.of_nat n)) in change (Z.testbit g (Z.of_nat n)) with t end end;
    rewrite ?andb_false_r, ?orb_false_r, ?andb_true_r; f_equal;
    unfold corner, kadd, key_eqb, kx, ky, kz; cbn [nth corner_off fst snd];
    apply eq_true_iff_eq; rewrite !andb_true_iff, !Z.eqb_eq; lia|]). lia.
Qed.

Lemma key_func_high m v k i : 8 <= i -> Z.testbit (cellval (key_func m v) k) i = Z.testbit (cellval m k) i.
Proof.
  intros Hi. destruct v as [[x y] z]. unfold key_func. cbn zeta beta iota. rewrite !cellval_or_bit.
  rewrite (g_high g0), (g_high g1), (g_high g2), (g_high g3), (g_high g4), (g_high g5), (g_high g6), (g_high g7) by first [exact Hi|cbn; tauto]. rewrite !andb_false_r, !orb_false_r. reflexivity.
Qed.

Lemma key_func_some m v k : is_Some (key_func m v !! k) <-> is_Some (m !! k) \/ In k (voxel_cells v).
Proof.
  destruct v as [[x y] z]. unfold key_func, or_bit. cbn zeta beta iota.
  rewrite !lookup_insert_is_Some'. cbn [voxel_cells In].
  tauto.
Qed.

Lemma cells_bit l i k m : (i < 8)%nat ->
  Z.testbit (cellval (foldl key_func m l) k) (Z.of_nat i) = Z.testbit (cellval m k) (Z.of_nat i) || existsb (key_eqb (corner i k)) l.
Proof.
  intros Hi. revert m. induction l as [|v l IH]; intros m; cbn [foldl existsb]; [rewrite orb_false_r; reflexivity|].
  rewrite IH, key_func_bit by exact Hi. rewrite orb_assoc. reflexivity.
Qed.

Lemma cells_high l i k m : 8 <= i -> Z.testbit (cellval (foldl key_func m l) k) i = Z.testbit (cellval m k) i.
Proof. intros Hi. revert m. induction l as [|v l IH]; intros m; cbn [foldl]; [reflexivity|]. rewrite IH, key_func_high by exact Hi. reflexivity. Qed.

Lemma cells_some l k m : is_Some (foldl key_func m l !! k) <-> is_Some (m !! k) \/ exists v, In v l /\ In k (voxel_cells v).
Proof.
  revert m. induction l as [|v l IH]; intros m; cbn [foldl In].
  - split; [auto|]. intros [?|(v & [] & _)]; assumption.
  - rewrite IH, key_func_some. split; [intros [[?|?]|(v' & ? & ?)]; eauto|intros [?|(v' & [->|?] & ?)]; eauto].
Qed.

Section Cells.
  Context (b : binvox Q) (whites cols : list key).
  Context (Hw : Permutation whites (elements (white b))) (Hc : Permutation cols (elements (dom (colors b)))).

  Lemma orders_in v : In v (whites ++ cols) <-> fillb b v = true.
  Proof.
    rewrite <- elem_of_list_In, elem_of_app, Hw, Hc, <- visited_iff. unfold visited.
    rewrite in_app_iff, <- !elem_of_list_In. reflexivity.
  Qed.

  Lemma manifold_cells_val k : cellval (manifold_cells whites cols) k = pat (fillb b) k.
  Proof.
    apply Z.bits_inj'. intros n Hn. unfold manifold_cells.
    assert (H0 : cellval ∅ k = 0) by (unfold cellval; rewrite lookup_empty; reflexivity).
    destruct (Z_lt_le_dec n 8) as [Hlt|Hge].
    - rewrite <- (Z2Nat.id n) by exact Hn. rewrite cells_bit, pat_bit by lia.
      rewrite H0, Z.bits_0. cbn [orb]. apply eq_true_iff_eq. rewrite existsb_exists, <- orders_in. split.
      + intros (v & Hv & E). apply key_eqb_eq in E as ->. exact Hv.
      + intros Hv. eexists. split; [exact Hv|apply key_eqb_eq; reflexivity].
    - rewrite cells_high, H0, Z.bits_0 by exact Hge. symmetry.
      pose proof (pat_range (fillb b) k) as Hr. apply in_map_iff in Hr as (j & E & Hj). apply in_seq in Hj.
      destruct (Z.eq_dec (pat (fillb b) k) 0) as [->|Hne]; [apply Z.bits_0|].
      apply Z.bits_above_log2; [lia|]. assert (Z.log2 (pat (fillb b) k) < 8); [|lia].
      apply Z.log2_lt_pow2; [lia|]. cbn. lia.
  Qed.

  Lemma manifold_cells_some k : is_Some (manifold_cells whites cols !! k) <-> pat (fillb b) k <> 0.
  Proof.
    unfold manifold_cells. rewrite cells_some, <- grid_cells_pat, grid_cells_iff. split.
    - intros [H|(v & Hv & Hk)]; [rewrite lookup_empty in H; destruct H; discriminate|].
      exists v. split; [apply fillb_iff, orders_in, Hv|exact Hk].
    - intros (v & Hv & Hk). right. exists v. split; [apply orders_in, fillb_iff, Hv|exact Hk].
  Qed.

  Lemma manifold_cells_spec k n : manifold_cells whites cols !! k = Some n <-> n = pat (fillb b) k /\ n <> 0.
  Proof.
    pose proof (manifold_cells_val k) as Hv. unfold cellval in Hv. split.
    - intros E. rewrite E in Hv. cbn in Hv. split; [exact Hv|]. rewrite Hv. apply manifold_cells_some. rewrite E. eauto.
    - intros [-> Hne]. apply manifold_cells_some in Hne as [n E]. rewrite E in Hv |- *. cbn in Hv. congruence.
  Qed.
End Cells.

(** ** Integer triangles *)

Definition zid : voxelToVectorFunc key := fun _ dx dy dz => (dx, dy, dz).
Definition mf_ztris (n : Z) : list zface := grid2tris (0,0,0) n zid.

Lemma grid2tris_nat {A} k n (v : voxelToVectorFunc A) :
  grid2tris k n v = map (map3 (fun d => v k (kx d) (ky d) (kz d))) (mf_ztris n).
Proof.
  unfold mf_ztris, grid2tris.
  repeat match goal with |- (if ?c then _ else _) = _ => destruct c; [reflexivity|] end. reflexivity.
Qed.
