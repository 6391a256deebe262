(** ManifoldMesh: the surface is watertight away from the leaky patterns. *)
From Verif Require Import Base BaseLemmas BinvoxModel Geom VoxelizeModel VoxelizeSpec MeshSpec MeshCells MeshPush MarchModel MarchProofs
  ManifoldXform ManifoldTables ManifoldModel ManifoldProofs.
From Coq Require Import ZArith QArith List Lia Lqa Bool Permutation.
From stdpp Require Import base list gmap sets fin_sets.
Import ListNotations.
Open Scope Z_scope.

(** Where a point with coordinates in half voxels, relative to grid vertex of cell (0,0,0), lies. *)
Definition mf_pos (b : binvox Q) (d : key) : qpt :=
  let s := (1 / vpmm b)%Q in
  ((inject_Z (kx d + 2) * (1 # 2) * s + TX b)%Q, (inject_Z (ky d) * (1 # 2) * s + TY b)%Q,
   (inject_Z (kz d + 2) * (1 # 2) * s + TZ b)%Q).

Lemma mf_v2v_pos b k d : qpt_eq (mf_v2v b k (kx d) (ky d) (kz d)) (mf_pos b (kadd (kdouble k) d)).
Proof.
  destruct k as [[x y] z], d as [[dx dy] dz]. unfold qpt_eq, mf_v2v, mf_pos, kadd, kdouble, kx, ky, kz. cbn [fst snd].
  rewrite !inject_Z_plus, !inject_Z_mult. generalize (1 / vpmm b)%Q. intros s. split; [ring|split; ring].
Qed.

Definition mf_faces (order : list (key * Z)) : list zface :=
  flat_map (fun '(k, n) => map (shift_face (kdouble k)) (mf_ztris n)) order.

Lemma ManifoldMesh_faces b order : Forall2 face_eq (ManifoldMesh b order) (map (push_face (mf_pos b)) (mf_faces order)).
Proof.
  induction order as [|[k n] order IH]; [constructor|]. unfold ManifoldMesh, mf_faces in *. cbn [flat_map].
  rewrite map_app. apply Forall2_app; [|exact IH]. rewrite grid2tris_nat, map_map.
  induction (mf_ztris n) as [|[[p q] r] ts IHt]; [constructor|]. cbn [map]. constructor; [|exact IHt].
  unfold face_eq, map3, shift_face, push_face. split; [apply mf_v2v_pos|split; apply mf_v2v_pos].
Qed.

(** The cells visited, with their patterns. *)
Lemma manifold_order b whites cols order :
  Permutation whites (elements (white b)) -> Permutation cols (elements (dom (colors b))) ->
  Permutation order (map_to_list (manifold_cells whites cols)) ->
  order = map (fun k => (k, pat (fillb b) k)) (map fst order) /\ List.NoDup (map fst order) /\
  (forall k, In k (map fst order) <-> pat (fillb b) k <> 0).
Proof.
  intros Hw Hc Ho.
  assert (Hin : forall k n, In (k, n) order <-> n = pat (fillb b) k /\ n <> 0).
  { intros k n. rewrite <- (manifold_cells_spec b whites cols Hw Hc k n), <- elem_of_list_In, Ho. apply elem_of_map_to_list. }
  split; [|split].
  - assert (Hall : forall p, In p order -> snd p = pat (fillb b) (fst p)) by (intros [k n] Hp; apply Hin in Hp as [-> _]; reflexivity).
    clear Ho Hin. induction order as [|[k n] order IH]; [reflexivity|]. cbn [map fst]. rewrite <- IH by (intros p Hp; apply Hall; cbn; auto).
    f_equal. f_equal. apply (Hall (k, n)). cbn. auto.
  - apply NoDup_ListNoDup. rewrite Ho. apply NoDup_fst_map_to_list.
  - intros k. rewrite in_map_iff. split.
    + intros ([k' n] & E & Hp). cbn in E. subst k'. apply Hin in Hp as [-> Hne]. exact Hne.
    + intros Hne. exists (k, pat (fillb b) k). split; [reflexivity|]. apply Hin. auto.
Qed.

(** ** Cutting edges at T-junctions *)
Definition kmid (a b : key) : key := ((kx a + kx b) / 2, (ky a + ky b) / 2, (kz a + kz b) / 2).
Definition even_edge (e : zedge) : bool :=
  let d := ksub (snd e) (fst e) in Z.even (kx d) && Z.even (ky d) && Z.even (kz d).
Definition cut_zedge (e : zedge) : list zedge :=
  if even_edge e then [(fst e, kmid (fst e) (snd e)); (kmid (fst e) (snd e), snd e)] else [e].
Definition mf_edges (n : Z) : list zedge := flat_map zface_edges (mf_ztris n).
Definition mf_tab (n : Z) : list zedge := flat_map cut_zedge (mf_edges n).

(** The contribution of a cell face, by the pattern of the face. *)
Definition mf_Fx (f : Z) : list zedge :=
  match f with
  | 1 => [((1,0,-1), (1,0,0)); ((1,0,0), (1,1,0))]
  | 2 => [((1,-1,0), (1,0,0)); ((1,0,0), (1,0,-1))]
  | 3 => [((1,-1,0), (1,0,0)); ((1,0,0), (1,1,0))]
  | 4 => [((1,0,0), (1,0,1)); ((1,1,0), (1,0,0))]
  | 5 => [((1,0,-1), (1,0,0)); ((1,0,0), (1,0,1))]
  | 6 => [((1,-1,0), (1,0,1)); ((1,1,0), (1,0,-1))]
  | 7 => [((1,-1,0), (1,0,0)); ((1,0,0), (1,0,1))]
  | 8 => [((1,0,0), (1,-1,0)); ((1,0,1), (1,0,0))]
  | 9 => [((1,0,-1), (1,-1,0)); ((1,0,1), (1,1,0))]
  | 10 => [((1,0,0), (1,0,-1)); ((1,0,1), (1,0,0))]
  | 11 => [((1,0,1), (1,0,0)); ((1,0,0), (1,1,0))]
  | 12 => [((1,0,0), (1,-1,0)); ((1,1,0), (1,0,0))]
  | 13 => [((1,0,0), (1,-1,0)); ((1,0,-1), (1,0,0))]
  | 14 => [((1,0,0), (1,0,-1)); ((1,1,0), (1,0,0))]
  | _ => []
  end.

Definition mf_Fy (f : Z) : list zedge :=
  match f with
  | 1 => [((0,1,0), (-1,1,0)); ((0,1,-1), (0,1,0))]
  | 2 => [((0,1,0), (0,1,-1)); ((1,1,0), (0,1,0))]
  | 3 => [((0,1,0), (-1,1,0)); ((1,1,0), (0,1,0))]
  | 4 => [((-1,1,0), (0,1,0)); ((0,1,0), (0,1,1))]
  | 5 => [((0,1,-1), (0,1,0)); ((0,1,0), (0,1,1))]
  | 6 => [((-1,1,0), (0,1,-1)); ((1,1,0), (0,1,1))]
  | 7 => [((0,1,0), (0,1,1)); ((1,1,0), (0,1,0))]
  | 8 => [((0,1,1), (0,1,0)); ((0,1,0), (1,1,0))]
  | 9 => [((0,1,1), (-1,1,0)); ((0,1,-1), (1,1,0))]
  | 10 => [((0,1,0), (0,1,-1)); ((0,1,1), (0,1,0))]
  | 11 => [((0,1,0), (-1,1,0)); ((0,1,1), (0,1,0))]
  | 12 => [((-1,1,0), (0,1,0)); ((0,1,0), (1,1,0))]
  | 13 => [((0,1,-1), (0,1,0)); ((0,1,0), (1,1,0))]
  | 14 => [((-1,1,0), (0,1,0)); ((0,1,0), (0,1,-1))]
  | _ => []
  end.

Definition mf_Fz (f : Z) : list zedge :=
  match f with
  | 1 => [((0,0,1), (-1,0,1)); ((0,1,1), (0,0,1))]
  | 2 => [((0,0,1), (0,1,1)); ((1,0,1), (0,0,1))]
  | 3 => [((0,0,1), (-1,0,1)); ((1,0,1), (0,0,1))]
  | 4 => [((0,-1,1), (0,0,1)); ((0,0,1), (1,0,1))]
  | 5 => [((0,-1,1), (-1,0,1)); ((0,1,1), (1,0,1))]
  | 6 => [((0,-1,1), (0,0,1)); ((0,0,1), (0,1,1))]
  | 7 => [((0,0,1), (-1,0,1)); ((0,-1,1), (0,0,1))]
  | 8 => [((-1,0,1), (0,0,1)); ((0,0,1), (0,-1,1))]
  | 9 => [((0,0,1), (0,-1,1)); ((0,1,1), (0,0,1))]
  | 10 => [((-1,0,1), (0,1,1)); ((1,0,1), (0,-1,1))]
  | 11 => [((0,0,1), (0,-1,1)); ((1,0,1), (0,0,1))]
  | 12 => [((-1,0,1), (0,0,1)); ((0,0,1), (1,0,1))]
  | 13 => [((0,1,1), (0,0,1)); ((0,0,1), (1,0,1))]
  | 14 => [((-1,0,1), (0,0,1)); ((0,0,1), (0,1,1))]
  | _ => []
  end.


Lemma even_sub a b : Z.even (b - a) = true -> 2 * ((a + b) / 2) = a + b.
Proof.
  intros H. apply Zeven_bool_iff in H.
  destruct (Z.Even_or_Odd (a + b)) as [[c ->]|[c E]].
  - replace (2 * c) with (c * 2) by lia. rewrite Z.div_mul by lia. lia.
  - exfalso. apply Zeven_ex in H as [d H]. lia.
Qed.

(** The midpoint of an even edge lies on it. *)
Lemma even_on_segment b e p q : even_edge e = true -> edge_eq (p, q) (push (mf_pos b) e) ->
  on_segment p q (mf_pos b (kmid (fst e) (snd e))).
Proof.
  destruct e as [[[a1 a2] a3] [[b1 b2] b3]], p as [[p1 p2] p3], q as [[q1 q2] q3].
  unfold even_edge, edge_eq, push, kmid, ksub, kx, ky, kz. cbn [fst snd].
  rewrite !andb_true_iff. intros [[H1 H2] H3]. apply even_sub in H1, H2, H3.
  unfold mf_pos, qpt_eq, kx, ky, kz. cbn [fst snd]. intros [(E1 & E2 & E3) (E4 & E5 & E6)].
  exists (1 # 2)%Q. split; [split; vm_compute; congruence|].
  unfold qpt_eq, lerp, px, py, pz. cbn [fst snd]. rewrite E1, E2, E3, E4, E5, E6. clear E1 E2 E3 E4 E5 E6.
  assert (G : forall a b, 2 * ((a + b) / 2) = a + b -> (inject_Z ((a + b) / 2) == (inject_Z a + inject_Z b) * (1 # 2))%Q).
  { intros a c E. apply (f_equal inject_Z) in E. rewrite inject_Z_mult, inject_Z_plus in E. rewrite <- E. change (inject_Z 2) with 2%Q. ring. }
  rewrite !inject_Z_plus, (G _ _ H1), (G _ _ H2), (G _ _ H3). generalize (1 / vpmm b)%Q. intros s. change (inject_Z 2) with 2%Q.
  split; [ring|split; ring].
Qed.

Lemma cut_pieces b es zs : Forall2 edge_eq es (map (push (mf_pos b)) zs) ->
  exists pieces, Forall2 cut_edge es pieces /\ Forall2 edge_eq (concat pieces) (map (push (mf_pos b)) (flat_map cut_zedge zs)).
Proof.
  revert es. induction zs as [|z zs IH]; intros es H; inversion H as [|[p q] ? es' ? He Hes]; subst; clear H.
  - exists []. split; constructor.
  - destruct (IH _ Hes) as (pieces & Hc & Hp).
    destruct (even_edge z) eqn:Ev.
    + exists ([(p, mf_pos b (kmid (fst z) (snd z))); (mf_pos b (kmid (fst z) (snd z)), q)] :: pieces). split.
      * constructor; [|exact Hc]. apply cut_at, even_on_segment; assumption.
      * cbn [concat flat_map]. unfold cut_zedge at 1. rewrite Ev. cbn [app map]. destruct He as [H1 H2]. cbn [fst snd push] in H1, H2.
        constructor; [split; cbn [fst snd push]; [exact H1|reflexivity]|]. constructor; [split; cbn [fst snd push]; [reflexivity|exact H2]|]. exact Hp.
    + exists ([(p, q)] :: pieces). split; [constructor; [constructor|exact Hc]|].
      cbn [concat flat_map]. unfold cut_zedge at 1. rewrite Ev. cbn [app map]. constructor; [exact He|exact Hp].
Qed.

Lemma cut_shift d e : cut_zedge (shift_edge (kdouble d) e) = map (shift_edge (kdouble d)) (cut_zedge e).
Proof.
  destruct e as [[[a1 a2] a3] [[b1 b2] b3]], d as [[x y] z].
  unfold cut_zedge, even_edge, shift_edge, kadd, ksub, kdouble, kmid, kx, ky, kz. cbn [fst snd].
  replace (2 * x + b1 - (2 * x + a1)) with (b1 - a1) by lia. replace (2 * y + b2 - (2 * y + a2)) with (b2 - a2) by lia.
  replace (2 * z + b3 - (2 * z + a3)) with (b3 - a3) by lia.
  destruct (Z.even (b1 - a1) && Z.even (b2 - a2) && Z.even (b3 - a3)); [|reflexivity].
  assert (G : forall x a b, (2 * x + a + (2 * x + b)) / 2 = 2 * x + (a + b) / 2).
  { intros u a b. replace (2 * u + a + (2 * u + b)) with (a + b + (2 * u) * 2) by lia. rewrite Z.div_add by lia. lia. }
  rewrite !G. reflexivity.
Qed.

Lemma mf_edges_flat fill K :
  flat_map zface_edges (mf_faces (map (fun k => (k, pat fill k)) K)) =
  flat_map (fun k => map (shift_edge (kdouble k)) (mf_edges (pat fill k))) K.
Proof.
  unfold mf_faces. induction K as [|k K IH]; [reflexivity|]. cbn [map flat_map]. rewrite flat_map_app, IH. f_equal.
  unfold mf_edges. generalize (mf_ztris (pat fill k)). intros ts. induction ts as [|[[p q] r] ts IHt]; [reflexivity|].
  cbn. rewrite IHt. reflexivity.
Qed.

Lemma mf_cut_flat fill K :
  flat_map cut_zedge (flat_map (fun k => map (shift_edge (kdouble k)) (mf_edges (pat fill k))) K) =
  flat_map (fun k => map (shift_edge (kdouble k)) (mf_tab (pat fill k))) K.
Proof.
  induction K as [|k K IH]; [reflexivity|]. cbn [flat_map]. rewrite flat_map_app, IH. f_equal. unfold mf_tab.
  induction (mf_edges (pat fill k)) as [|e es IHe]; [reflexivity|]. cbn [map flat_map]. rewrite IHe, cut_shift, map_app. reflexivity.
Qed.

Definition mf_cell_ok : Z -> bool := cell_ok mf_tab mf_Fx mf_Fy mf_Fz.

Lemma manifold_watertight b m : manifold_run b m -> (forall k, mf_cell_ok (pat (fillb b) k) = true) -> watertight m.
Proof.
  intros (whites & cols & order & Hw & Hc & Ho & ->) Hok.
  destruct (manifold_order b whites cols order Hw Hc Ho) as (Eo & Hnd & Hin).
  set (K := map fst order) in *. clearbody K. subst order.
  pose proof (ManifoldMesh_faces b (map (fun k => (k, pat (fillb b) k)) K)) as Hf.
  apply mesh_edges_ext in Hf. rewrite mesh_edges_push, mf_edges_flat in Hf.
  destruct (cut_pieces b _ _ Hf) as (pieces & Hcut & Hp). exists pieces. split; [exact Hcut|].
  eapply closed_edges_ext; [exact Hp|]. apply closed_push. rewrite mf_cut_flat.
  apply (cells_closed mf_tab mf_Fx mf_Fy mf_Fz eq_refl eq_refl eq_refl); [exact Hnd|intros k; apply Hin|intros k _; apply Hok].
Qed.
