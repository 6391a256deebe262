(** The bounding box of a shell, and what it contains after parts have been added. *)
From Verif Require Import Base BaseLemmas BinvoxModel BinvoxSpec Geom VshellModel VshellSpec VshellBits VshellMerge VshellProofs VshellGeom VshellProps.
From Coq Require Import ZArith QArith Qround List Lia Lqa Bool.
From stdpp Require Import base list gmap sets fin_sets.
Import ListNotations.
Open Scope Z_scope.

(** vshell/vshell.go:102-107 MBB: (Min, Max). *)
Definition shell_mbb (vs : vshell) : qpt * qpt :=
  let s := (1 / shell_vpmm vs)%Q in
  ((sTX vs, sTY vs, sTZ vs),
   ((sTX vs + s * inject_Z (sNX vs))%Q, (sTY vs + s * inject_Z (sNY vs))%Q, (sTZ vs + s * inject_Z (sNZ vs))%Q)).

(** ** Specification: the world cell with low corner [lo] and high corner [hi] lies in a box. *)
Definition cell_in (box : qpt * qpt) (lo hi : qpt) : Prop := qpt_le (fst box) lo /\ qpt_le hi (snd box).

(** The high corner of voxel [k] is the low corner of the voxel diagonally above it. *)
Definition above (k : key) : key := move k (1, 1, 1).

Lemma inj_le a c : a <= c -> (inject_Z a <= inject_Z c)%Q.
Proof. intros. rewrite <- Zle_Qle. assumption. Qed.

Lemma axis_box (t v : Q) (x n : Z) : (0 < v)%Q -> 0 <= x < n ->
  (t <= t + inject_Z x / v)%Q /\ (t + inject_Z (x + 1) / v <= t + 1 / v * inject_Z n)%Q.
Proof.
  intros Hv H. unfold Qdiv.
  assert (Hi : (0 < / v)%Q) by (apply Qinv_lt_0_compat; exact Hv).
  pose proof (inj_le 0 x ltac:(lia)) as H0. pose proof (inj_le (x + 1) n ltac:(lia)) as H1.
  change (inject_Z 0) with 0%Q in H0. set (i := (/ v)%Q) in *. split; nra.
Qed.

Lemma shell_cell_in vs k : (0 < shell_vpmm vs)%Q -> in_grid (sNX vs) (sNY vs) (sNZ vs) k ->
  cell_in (shell_mbb vs) (shell_world vs k) (shell_world vs (above k)).
Proof.
  intros Hv Hg. destruct k as [[x y] z]. unfold in_grid, in_region, kx, ky, kz in Hg. cbn [fst snd] in Hg.
  destruct Hg as (Hx & Hy & Hz).
  pose proof (axis_box (sTX vs) _ x (sNX vs) Hv ltac:(lia)). pose proof (axis_box (sTY vs) _ y (sNY vs) Hv ltac:(lia)).
  pose proof (axis_box (sTZ vs) _ z (sNZ vs) Hv ltac:(lia)).
  unfold cell_in, shell_mbb, shell_world, above, move, kx, ky, kz, qpt_le. cbn [fst snd].
  tauto.
Qed.

Lemma svpmm_pos vs : (0 < sScale vs)%Q -> 0 < sdim (sNX vs) (sNY vs) (sNZ vs) -> (0 < shell_vpmm vs)%Q.
Proof.
  intros Hs Hd. unfold shell_vpmm, svpmm. destruct (Qle_bool (sScale vs) 0) eqn:E; [reflexivity|].
  apply Qlt_shift_div_l; [exact Hs|]. rewrite Qmult_0_l.
  change 0%Q with (inject_Z 0). rewrite <- Zlt_Qlt. exact Hd.
Qed.

(** * C77: the bounding box of a shell *)

(** Every voxel inside the dimensions has its cell in the box. *)
Theorem C77_contains_every_voxel vs k :
  (0 < sScale vs)%Q -> in_grid (sNX vs) (sNY vs) (sNZ vs) k ->
  cell_in (shell_mbb vs) (shell_world vs k) (shell_world vs (above k)).
Proof.
  intros Hs Hg. apply shell_cell_in; [|exact Hg]. apply svpmm_pos; [exact Hs|].
  rewrite sdim_max. destruct k as [[x y] z]. unfold in_grid, in_region, kx, ky, kz in Hg. cbn [fst snd] in Hg. lia.
Qed.

(** The corners are those of the grid, and the largest side is the scale. *)
Theorem C77_tight vs :
  (0 < sScale vs)%Q -> 0 < sdim (sNX vs) (sNY vs) (sNZ vs) ->
  qpt_eq (fst (shell_mbb vs)) (shell_world vs (0, 0, 0)) /\
  qpt_eq (snd (shell_mbb vs)) (shell_world vs (sNX vs, sNY vs, sNZ vs)) /\
  (qmax3 (sides (shell_mbb vs)) == sScale vs)%Q.
Proof.
  intros Hs Hd. pose proof (svpmm_pos vs Hs Hd) as Hv.
  set (b := BinVOX (sNX vs) (sNY vs) (sNZ vs) (sTX vs) (sTY vs) (sTZ vs) (sScale vs) None None : binvox Q).
  assert (Eb : vpmm b = shell_vpmm vs) by reflexivity.
  assert (Em : mbb b = shell_mbb vs) by reflexivity.
  assert (Db : 0 < dim b) by exact Hd.
  destruct (mbb_tight b Hs Db) as [T1 T2]. pose proof (mbb_largest_side b Hs Db) as T3.
  rewrite Em in *. split; [exact T1|]. split; [exact T2|exact T3].
Qed.

(** [held vs M]: the voxels [M] of the model lie inside the dimensions of the shell. *)
Definition held (vs : vshell) (M : gset key) : Prop := forall k, k ∈ M -> in_grid (sNX vs) (sNY vs) (sNZ vs) k.

Lemma in_grid_iff nx ny nz k : in_grid nx ny nz k <-> key_nonneg k /\ kx k < nx /\ ky k < ny /\ kz k < nz.
Proof. destruct k as [[x y] z]. unfold in_grid, in_region, key_nonneg, kx, ky, kz. cbn [fst snd]. lia. Qed.

Lemma qpt_le_eq p q p' q' : qpt_eq p p' -> qpt_eq q q' -> qpt_le p q -> qpt_le p' q'.
Proof.
  destruct p as [[? ?] ?], q as [[? ?] ?], p' as [[? ?] ?], q' as [[? ?] ?]. cbn. intros (H1 & H2 & H3) (H4 & H5 & H6) (H7 & H8 & H9).
  rewrite <- H1, <- H2, <- H3, <- H4, <- H5, <- H6. auto.
Qed.

Lemma qpt_eq_refl p : qpt_eq p p.
Proof. destruct p as [[? ?] ?]. cbn. split; [|split]; reflexivity. Qed.

Lemma qpt_eq_sym p q : qpt_eq p q -> qpt_eq q p.
Proof. destruct p as [[? ?] ?], q as [[? ?] ?]. cbn. intros (H1 & H2 & H3). rewrite H1, H2, H3. split; [|split]; reflexivity. Qed.

Lemma above_move k d : above (move k d) = move (above k) d.
Proof. destruct k as [[x y] z], d as [[a b] c]. unfold above, move, kx, ky, kz. cbn [fst snd]. f_equal; [f_equal|]; lia. Qed.

(** After a part is added (whole-voxel offset, components of one sign), the cells in the world of every
    voxel of the part and of every voxel of the shell are in the bounding box of the shell. *)
Theorem C77_add_contains g c wo co o vs bv d :
  orders_ok wo co o vs bv -> Voxels vs <> [] -> aligned vs bv d ->
  0 < sdim (sNX vs) (sNY vs) (sNZ vs) ->
  key_nonneg d \/ key_nonpos d ->
  (forall k, k ∈ model_of bv -> key_nonneg k) ->
  (forall k, k ∈ map fst (Voxels vs) -> in_grid (sNX vs) (sNY vs) (sNZ vs) k) ->
  exists vs', vs_Add g c wo co o vs (Some bv) = (vs', Done) /\
    (forall k, k ∈ model_of bv -> cell_in (shell_mbb vs') (world bv k) (world bv (above k))) /\
    (forall k, k ∈ map fst (Voxels vs) -> cell_in (shell_mbb vs') (shell_world vs k) (shell_world vs (above k))).
Proof.
  intros Hord Hne Hal Hdim Hsign Hpart Hin.
  destruct (C20_world_preserved g c wo co o vs bv d Hord Hne Hal Hdim Hsign) as (vs' & E & Wold & Wnew).
  destruct (C20_indices_nonnegative vs bv d Hne Hal Hsign) as [Iold Inew].
  destruct (Add_added g c wo co o vs bv Hord (aligned_compatible _ _ _ Hal)) as (vs1 & E1 & Had).
  rewrite E in E1. injection E1 as <-. exists vs'. split; [exact E|].
  destruct Had as [_ _ _ _ Hn Ho Hvp _ _ _]. specialize (Hvp Hdim).
  assert (Hv : (0 < shell_vpmm vs')%Q) by (rewrite Hvp; apply Hal).
  split; intros k Hk.
  - assert (G : in_grid (sNX vs') (sNY vs') (sNZ vs') (move k (new_disp vs bv))).
    { apply in_grid_iff. split; [apply Inew, Hpart, Hk|]. apply Hn. unfold displaced. apply elem_of_map. eauto. }
    destruct (shell_cell_in vs' _ Hv G) as [L H]. rewrite above_move in H. split.
    + eapply qpt_le_eq; [apply qpt_eq_refl|apply qpt_eq_sym, Wnew|exact L].
    + eapply qpt_le_eq; [apply qpt_eq_sym, Wnew|apply qpt_eq_refl|exact H].
  - assert (G : in_grid (sNX vs') (sNY vs') (sNZ vs') (move k (old_disp vs bv))).
    { apply in_grid_iff. split; [apply Iold, (in_grid_iff (sNX vs) (sNY vs) (sNZ vs)), Hin, Hk|].
      apply Ho. { intros k' Hk'. apply Hin, in_grid_iff in Hk'. apply Hk'. }
      unfold displaced_voxels. apply elem_of_list_fmap in Hk as ([k0 n0] & -> & Hk).
      rewrite map_map. apply elem_of_list_fmap. exists (k0, n0). split; [|exact Hk]. reflexivity. }
    destruct (shell_cell_in vs' _ Hv G) as [L H]. rewrite above_move in H. split.
    + eapply qpt_le_eq; [apply qpt_eq_refl|apply qpt_eq_sym, Wold|exact L].
    + eapply qpt_le_eq; [apply qpt_eq_sym, Wold|apply qpt_eq_refl|exact H].
Qed.

(** Sequences of parts on the positive side of the shell's origin (as in C17): the box keeps its low
    corner and contains the world cell of every voxel of every part and of the original model. *)
Theorem C77_sequence_contains ps : forall vs M,
  M <> ∅ -> sound_shell M (Voxels vs) -> held vs M -> (0 < shell_vpmm vs)%Q ->
  Forall (placed vs) ps -> Forall env_ok ps -> all_disjoint M ps ->
  Forall (fun p => forall k, k ∈ model_of (snd (fst p)) -> key_nonneg k) ps ->
  exists vs', merge_loop vs (map (fun p => (fst (fst p), snd (fst p))) ps) = (vs', Done) /\
    fst (shell_mbb vs') = fst (shell_mbb vs) /\
    (forall k, k ∈ M -> cell_in (shell_mbb vs') (shell_world vs k) (shell_world vs (above k))) /\
    (forall e bv o k, In (e, bv, o) ps -> k ∈ model_of bv -> cell_in (shell_mbb vs') (world bv k) (world bv (above k))).
Proof.
  induction ps as [|[[e bv] d] ps IH]; intros vs M HM Hs Hheld Hv0 Hp He Hd Hnn0.
  - exists vs. cbn [map merge_loop]. split; [reflexivity|]. split; [reflexivity|]. split; [|intros ? ? ? ? []].
    intros k Hk. apply shell_cell_in; [exact Hv0|apply Hheld, Hk].
  - apply Forall_cons in Hp as [[Hal Hnn] Hp]. apply Forall_cons in He as [He0 He].
    apply Forall_cons in Hnn0 as [Hnb Hnn0]. cbn [fst snd] in Hnb.
    destruct Hd as [Hd0 Hd].
    assert (Hdim : 0 < sdim (sNX vs) (sNY vs) (sNZ vs)).
    { destruct (decide (M = ∅)) as [->|]; [congruence|]. apply set_choose_L in n as [k Hk]. apply Hheld, in_grid_iff in Hk.
      destruct Hk as [(K1 & K2 & K3) K4]. rewrite sdim_max. lia. }
    assert (Hne : Voxels vs <> []) by (intros H; apply HM, (sound_shell_empty_iff M _ Hs), H).
    assert (Hnd : new_disp vs bv = d /\ old_disp vs bv = (0, 0, 0)).
    { pose proof (aligned_shift _ _ _ Hal) as Hsh. unfold new_disp, old_disp.
      destruct (Voxels vs); [contradiction|]. rewrite Hsh. rewrite !decide_True by exact Hnn. auto. }
    destruct Hnd as [Hnd Hod].
    assert (Hord : orders_ok (e_white e) (e_color e) (e_order e) vs bv).
    { destruct He0 as (? & ? & ?). split; [assumption|]. split; [assumption|]. rewrite Hnd. assumption. }
    assert (Hcomp : compatible vs bv) by (eapply aligned_compatible, Hal).
    cbn [map fst snd merge_loop].
    destruct (Add_added (e_grow e) (e_cap e) _ _ _ vs bv Hord Hcomp) as (vs1 & E1 & Had).
    destruct (C17_add_sound (e_grow e) (e_cap e) _ _ _ vs bv M Hord Hcomp Hs) as (vs1' & E1' & Hs1 & _).
    { rewrite Hnd, Hod, displaced_zero. intros k H1 H2. exact (Hd0 k H1 H2). }
    rewrite E1 in E1'. injection E1' as <-. rewrite E1.
    destruct (C20_world_preserved (e_grow e) (e_cap e) _ _ _ vs bv d Hord Hne Hal Hdim (or_introl Hnn)) as (vs1' & E1' & Wold & Wnew).
    rewrite E1 in E1'. injection E1' as <-.
    destruct (added_geometry _ _ _ _ _ _ d Hne Hal Hnn Hdim Had) as (_ & _ & Hv & Htx & Hty & Htz & Hdim').
    rewrite Hnd, Hod, displaced_zero in Hs1. rewrite Hod in Wold. rewrite Hnd in Wnew.
    destruct Had as [_ Lx Ly Lz Hn _ _ _ _ _]. rewrite Hnd in Hn.
    destruct (IH vs1 (M ∪ displaced (model_of bv) d)) as (vs' & E & Hmin & HoldM & Hparts).
    + intros H. apply HM. apply empty_union_L in H as [H _]; exact H.
    + exact Hs1.
    + intros k Hk. apply in_grid_iff. apply elem_of_union in Hk as [Hk|Hk].
      * apply Hheld, in_grid_iff in Hk. destruct Hk as [K1 K2]. split; [exact K1|]. lia.
      * split; [|apply Hn, Hk]. apply elem_of_map in Hk as (k0 & -> & Hk). apply Hnb in Hk.
        destruct k0 as [[? ?] ?], d as [[? ?] ?]. unfold key_nonneg, move, kx, ky, kz in *. cbn [fst snd] in *. lia.
    + rewrite Hv. exact Hv0.
    + eapply Forall_impl; [exact Hp|]. intros [[e' bv'] d'] [(A1 & A2 & A3 & A4 & A5) Hn'].
      split; [|exact Hn']. unfold aligned. rewrite Htx, Hty, Htz, Hv. auto.
    + exact He.
    + exact Hd.
    + exact Hnn0.
    + exists vs'. split; [exact E|]. split. { rewrite Hmin. unfold shell_mbb. cbn [fst]. congruence. }
      assert (Mz : forall k, move k (0, 0, 0) = k) by apply move_zero.
      split.
      * intros k Hk. destruct (HoldM k ltac:(apply elem_of_union; left; exact Hk)) as [L H]. split.
        -- eapply qpt_le_eq; [apply qpt_eq_refl|apply qpt_eq_sym|exact L]. rewrite <- (Mz k) at 2. apply Wold.
        -- eapply qpt_le_eq; [apply qpt_eq_sym|apply qpt_eq_refl|exact H]. rewrite <- (Mz (above k)) at 2. apply Wold.
      * intros e' bv' o' k [Heq|Hin] Hk; [|eapply Hparts; eassumption]. injection Heq as <- <- <-.
        assert (Hk' : move k d ∈ displaced (model_of bv) d) by (apply elem_of_map; eauto).
        destruct (HoldM _ ltac:(apply elem_of_union; right; exact Hk')) as [L H]. rewrite above_move in H. split.
        -- eapply qpt_le_eq; [apply qpt_eq_refl|apply qpt_eq_sym, Wnew|exact L].
        -- eapply qpt_le_eq; [apply qpt_eq_sym, Wnew|apply qpt_eq_refl|exact H].
Qed.

(** Non-vacuity: a two-voxel shell and a part two voxels to its right; and a part to its left. *)
Section C77_example.
  Let bv1 := bvq 2 1 1 0 0 0 2 (Some (list_to_set [(0,0,0); (1,0,0)])) None.
  Let bv2 := bvq 1 1 1 2 0 0 1 (Some (list_to_set [(0,0,0)])) None.
  Let bv3 := bvq 1 1 1 (-3) 0 0 1 (Some (list_to_set [(0,0,0)])) None.
  Let vs1 := fst (vs_New (fun c => (2 * c + 1)%nat) [(0,0,0); (1,0,0)] [] [(0,0,0); (1,0,0)] bv1).
  Example C77_example :
    aligned vs1 bv2 (2, 0, 0) /\ aligned vs1 bv3 (-3, 0, 0) /\
    (fst (shell_mbb vs1) = (0, 0, 0)%Q /\ qpt_eq (snd (shell_mbb vs1)) (2, 1, 1)%Q) /\
    (let r := merge_loop vs1 [(Env (fun c => (2 * c)%nat) 3 [(0,0,0)] [] [(2,0,0)], bv2)] in
     fst (shell_mbb (fst r)) = (0, 0, 0)%Q /\ qpt_eq (snd (shell_mbb (fst r))) (3, 1, 1)%Q) /\
    (let r := merge_loop vs1 [(Env (fun c => (2 * c)%nat) 3 [(0,0,0)] [] [(0,0,0)], bv3)] in
     qpt_eq (fst (shell_mbb (fst r))) (-3 # 1, 0, 0)%Q /\ qpt_eq (snd (shell_mbb (fst r))) (2, 1, 1)%Q).
  Proof. vm_compute. repeat split; reflexivity. Qed.
End C77_example.

Print Assumptions C77_contains_every_voxel.
Print Assumptions C77_tight.
Print Assumptions C77_add_contains.
Print Assumptions C77_sequence_contains.
