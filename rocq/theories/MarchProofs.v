(** Proofs about marching cubes. *)
From Verif Require Import Base BaseLemmas BinvoxModel Geom VoxelizeModel VoxelizeSpec MeshSpec MeshCells MeshPush MarchTables MarchModel.
From Coq Require Import ZArith QArith Qabs List Lia Lqa Bool Permutation.
From stdpp Require Import base list gmap sets fin_sets.
Import ListNotations.
Open Scope Z_scope.

(** ** The maps built from the voxels *)

Definition fillb (b : binvox Q) (k : key) : bool := bool_decide (k ∈ white b ∪ dom (colors b)).

Lemma fillb_iff b k : fillb b k = true <-> filled b k.
Proof. unfold fillb, filled. rewrite bool_decide_eq_true, elem_of_union, elem_of_dom. reflexivity. Qed.

Lemma visited_iff b k : In k (visited b) <-> fillb b k = true.
Proof.
  unfold visited, fillb. rewrite bool_decide_eq_true, in_app_iff, <- !elem_of_list_In, !elem_of_elements, elem_of_union.
  reflexivity.
Qed.

Lemma voxel_lookup_spec b k : voxel_lookup b !! k = if fillb b k then Some 1%Q else None.
Proof.
  unfold voxel_lookup.
  assert (H : forall l (m : gmap key Q), foldl (fun m v => <[v := 1%Q]> m) m l !! k =
            if existsb (key_eqb k) l then Some 1%Q else m !! k).
  { induction l as [|v l IH]; intros m; [reflexivity|]. cbn. rewrite IH.
    destruct (key_eqb k v) eqn:E; cbn.
    - apply key_eqb_eq in E as ->. rewrite lookup_insert. destruct (existsb _ _); reflexivity.
    - rewrite lookup_insert_ne; [reflexivity|]. intros ->.
      rewrite (proj2 (key_eqb_eq k k) eq_refl) in E. discriminate. }
  rewrite H, lookup_empty.
  destruct (fillb b k) eqn:E.
  - apply visited_iff in E. rewrite (proj2 (existsb_exists _ _)); [reflexivity|].
    exists k. split; [exact E|apply key_eqb_eq; reflexivity].
  - destruct (existsb (key_eqb k) (visited b)) eqn:E2; [|reflexivity].
    apply existsb_exists in E2 as (k' & Hk & Ek). apply key_eqb_eq in Ek as <-.
    apply visited_iff in Hk. congruence.
Qed.

Lemma grid_cells_iff b k : k ∈ grid_cells b <-> exists v, filled b v /\ In k (voxel_cells v).
Proof.
  unfold grid_cells.
  assert (H1 : forall l (s : gset key), k ∈ foldl (fun s k => {[k]} ∪ s) s l <-> In k l \/ k ∈ s).
  { induction l as [|a l IH]; intros s; cbn [foldl In]; [tauto|]. rewrite IH, elem_of_union, elem_of_singleton.
    split; [intros [?|[->|?]]; auto|intros [[->|?]|?]; auto]. }
  assert (H2 : forall l (s : gset key),
     k ∈ foldl (fun s v => foldl (fun s k => {[k]} ∪ s) s (voxel_cells v)) s l <->
     (exists v, In v l /\ In k (voxel_cells v)) \/ k ∈ s).
  { induction l as [|a l IH]; intros s; cbn [foldl In].
    - split; [auto|]. intros [(v & [] & _)|?]; assumption.
    - rewrite IH, H1. split.
      + intros [(v & ? & ?)|[?|?]]; eauto.
      + intros [(v & [->|?] & ?)|?]; eauto. }
  rewrite H2. split.
  - intros [(v & Hv & Hk)|Hk]; [|apply elem_of_empty in Hk as []].
    exists v. split; [apply fillb_iff, visited_iff, Hv|exact Hk].
  - intros (v & Hv & Hk). left. exists v. split; [apply visited_iff, fillb_iff, Hv|exact Hk].
Qed.

(** A cell is visited exactly if one of its corners is filled. *)
Lemma voxel_cells_corner v k : In k (voxel_cells v) <-> exists i, (i < 8)%nat /\ corner i k = v.
Proof.
  destruct v as [[x y] z], k as [[x' y'] z']. split.
  - cbn. intros [E|[E|[E|[E|[E|[E|[E|[E|[]]]]]]]]]; injection E as <- <- <-;
      [exists 0%nat|exists 1%nat|exists 3%nat|exists 2%nat|exists 4%nat|exists 5%nat|exists 7%nat|exists 6%nat];
      (split; [lia|]); unfold corner, kadd, kx, ky, kz; cbn; apply key_eq; lia.
  - intros (i & Hi & E).
    do 8 (destruct i as [|i]; [unfold corner, kadd, kx, ky, kz in E; cbn in E; injection E as <- <- <-; cbn;
      repeat (first [left; apply key_eq; lia|right])|]). lia.
Qed.

Lemma pat_zero fill k : pat fill k = 0 <-> forall i, (i < 8)%nat -> fill (corner i k) = false.
Proof.
  split.
  - intros H i Hi. rewrite <- pat_bit by exact Hi. rewrite H. apply Z.bits_0.
  - intros H. unfold pat. rewrite !H by lia. reflexivity.
Qed.

Lemma grid_cells_pat b k : k ∈ grid_cells b <-> pat (fillb b) k <> 0.
Proof.
  rewrite grid_cells_iff, pat_zero. split.
  - intros (v & Hv & Hk) H. apply voxel_cells_corner in Hk as (i & Hi & <-).
    apply fillb_iff in Hv. rewrite H in Hv by exact Hi. discriminate.
  - intros H. 
    assert (Hex : exists i, (i < 8)%nat /\ fillb b (corner i k) = true).
    { destruct (existsb (fun i => fillb b (corner i k)) (seq 0 8)) eqn:E.
      - apply existsb_exists in E as (i & Hi & E). exists i. apply in_seq in Hi. split; [lia|exact E].
      - exfalso. apply H. intros i Hi. apply not_true_is_false. intros Ht.
        assert (existsb (fun i => fillb b (corner i k)) (seq 0 8) = true); [|congruence].
        apply existsb_exists. exists i. split; [apply in_seq; lia|exact Ht]. }
    destruct Hex as (i & Hi & Ht). exists (corner i k). split; [apply fillb_iff, Ht|].
    apply voxel_cells_corner. eauto.
Qed.

(** ** The cell *)

Definition mc_index (n : Z) : Z := 255 - n.

Lemma nth8 {A} (l : list A) d : length l = 8%nat -> l = map (fun i => nth i l d) (seq 0 8).
Proof.
  do 8 (destruct l as [|? l]; [discriminate|]). destruct l; [reflexivity|discriminate].
Qed.

Section Cell.
  Context (b : binvox Q) (k : key).
  Let g := mc_cell (voxel_lookup b) (mc_v2v b) k.

  Lemma cell_val i : (i < 8)%nat -> nth i (gcval g) 0%Q = if fillb b (corner i k) then 1%Q else 0%Q.
  Proof.
    intros Hi. subst g. destruct k as [[x y] z].
    assert (H : forall k', default 0%Q (voxel_lookup b !! k') = if fillb b k' then 1%Q else 0%Q).
    { intros k'. rewrite voxel_lookup_spec. destruct (fillb b k'); reflexivity. }
    do 8 (destruct i as [|i]; [cbn [mc_cell gcval nth]; rewrite H; unfold corner, kadd, kx, ky, kz; cbn [nth corner_off fst snd];
      match goal with |- (if fillb b ?a then _ else _) = (if fillb b ?c then _ else _) => replace c with a by (apply key_eq; lia) end; reflexivity|]). lia.
  Qed.

  Lemma cell_p i : (i < 8)%nat -> nth i (gcp g) qpt0 =
    (let '(dx, dy, dz) := nth i corner_off (0,0,0) in mc_v2v b k dx dy dz).
  Proof.
    intros Hi. subst g. destruct k as [[x y] z]. do 8 (destruct i as [|i]; [reflexivity|]). lia.
  Qed.

  Lemma cubeIndex_pat : cubeIndex g = mc_index (pat (fillb b) k).
  Proof.
    unfold cubeIndex, pat. cbn [seq map foldl]. rewrite !cell_val by lia.
    destruct (fillb b (corner 0 k)), (fillb b (corner 1 k)), (fillb b (corner 2 k)), (fillb b (corner 3 k)),
      (fillb b (corner 4 k)), (fillb b (corner 5 k)), (fillb b (corner 6 k)), (fillb b (corner 7 k)); reflexivity.
  Qed.
End Cell.

(** ** Local integer triangles *)

(** Vertex on cube edge i: the sum of the two corner offsets, i.e. twice the midpoint. *)
Definition zmid (i : nat) : key :=
  let '(a, c) := nth i edge_corners (0, 0)%nat in kadd (nth a corner_off (0,0,0)) (nth c corner_off (0,0,0)).

Definition idx_tris (c : Z) : option (list (nat * nat * nat)) :=
  if nth (Z.to_nat c) edgeTable 0 =? 0 then Some [] else tri_loop (seq 0 12) (nth (Z.to_nat c) triTable []) 17 0.

Definition map3 {A B} (f : A -> B) (t : A * A * A) : B * B * B := let '(a, b, c) := t in (f a, f b, f c).

Lemma tri_loop_map {A B} (f : A -> B) vl row fuel i :
  tri_loop (map f vl) row fuel i = option_map (map (map3 f)) (tri_loop vl row fuel i).
Proof.
  revert i. induction fuel as [|fuel IH]; intros i; [reflexivity|]. cbn [tri_loop].
  destruct (nth_error row i) as [r|]; [|reflexivity]. destruct (r =? -1); [reflexivity|].
  destruct (nth_error row (i + 2)) as [r2|]; [|reflexivity]. destruct (nth_error row (i + 1)) as [r1|]; [|reflexivity].
  destruct (_ || _); [reflexivity|].
  rewrite !nth_error_map.
  destruct (nth_error vl (Z.to_nat r)); [|reflexivity]. destruct (nth_error vl (Z.to_nat r2)); [|reflexivity].
  destruct (nth_error vl (Z.to_nat r1)); [|reflexivity]. cbn [option_map]. rewrite IH.
  destruct (tri_loop vl row fuel (i + 3)); reflexivity.
Qed.

(** All facts about the tables that are needed, by computation over the 256 patterns. *)
Definition marked (c : Z) (i : nat) : bool := negb (Z.land (nth (Z.to_nat c) edgeTable 0) (Z.shiftl 1 (Z.of_nat i)) =? 0).
Definition differ (c : Z) (i : nat) : bool :=
  let '(a, d) := nth i edge_corners (0, 0)%nat in xorb (Z.testbit c (Z.of_nat a)) (Z.testbit c (Z.of_nat d)).

Definition all3 {A} (p : A -> bool) (t : A * A * A) : bool := let '(a, b, c) := t in p a && p b && p c.

Definition table_ok (c : Z) : bool :=
  forallb (fun i => Bool.eqb (marked c i) (differ c i)) (seq 0 12) &&
  match idx_tris c with
  | None => false
  | Some ts =>
      forallb (all3 (fun i => (i <? 12)%nat && marked c i)) ts &&
      forallb (fun i => negb (marked c i) || existsb (fun '(p, q, r) => Nat.eqb i p || Nat.eqb i q || Nat.eqb i r) ts) (seq 0 12)
  end.

Lemma all_tables_ok : forallb table_ok (map Z.of_nat (seq 0 256)) = true.
Proof. vm_compute. reflexivity. Qed.

Lemma mc_index_range fill k : In (mc_index (pat fill k)) (map Z.of_nat (seq 0 256)).
Proof.
  pose proof (pat_range fill k) as H. apply in_map_iff in H as (n & E & H). apply in_seq in H.
  apply in_map_iff. exists (255 - n)%nat. unfold mc_index. split; [lia|]. apply in_seq. lia.
Qed.

Lemma table_ok_at fill k : table_ok (mc_index (pat fill k)) = true.
Proof. pose proof all_tables_ok as H. rewrite forallb_forall in H. apply H, mc_index_range. Qed.

Definition mc_ztris (n : Z) : list zface :=
  match idx_tris (mc_index n) with Some ts => map (map3 zmid) ts | None => [] end.

(** Position of a point given in half voxels. *)
Definition half_pos (b : binvox Q) (d : key) : qpt :=
  let s := (1 / vpmm b)%Q in
  (((inject_Z (kx d) + 1) * (1 # 2) * s + TX b)%Q, ((inject_Z (ky d) + 1) * (1 # 2) * s + TY b)%Q,
   ((inject_Z (kz d) + 1) * (1 # 2) * s + TZ b)%Q).

Lemma interp_mid p1 p2 v1 v2 : (v1 = 0%Q /\ v2 = 1%Q \/ v1 = 1%Q /\ v2 = 0%Q) ->
  qpt_eq (vertexInterp iso p1 p2 v1 v2)
    (((px p1 + px p2) * (1#2))%Q, ((py p1 + py p2) * (1#2))%Q, ((pz p1 + pz p2) * (1#2))%Q).
Proof.
  intros [[-> ->]|[-> ->]]; unfold vertexInterp.
  - change (qlt (Qabs (iso - 0)) epsilon) with false. change (qlt (Qabs (iso - 1)) epsilon) with false.
    change (qlt (Qabs (0 - 1)) epsilon) with false. cbv beta iota zeta. unfold iso, qpt_eq. split; [field|split; field].
  - change (qlt (Qabs (iso - 0)) epsilon) with false. change (qlt (Qabs (iso - 1)) epsilon) with false.
    change (qlt (Qabs (1 - 0)) epsilon) with false. cbv beta iota zeta. unfold iso, qpt_eq. split; [field|split; field].
Qed.

Lemma mc_v2v_half b k d : mc_v2v b k (kx d) (ky d) (kz d) =
  (((inject_Z (kx k) + (1#2) + inject_Z (kx d)) * (1 / vpmm b) + TX b)%Q,
   ((inject_Z (ky k) + (1#2) + inject_Z (ky d)) * (1 / vpmm b) + TY b)%Q,
   ((inject_Z (kz k) + (1#2) + inject_Z (kz d)) * (1 / vpmm b) + TZ b)%Q).
Proof. reflexivity. Qed.

Lemma marked_bits b k i : (i < 12)%nat ->
  marked (mc_index (pat (fillb b) k)) i =
  xorb (fillb b (corner (fst (nth i edge_corners (0,0)%nat)) k)) (fillb b (corner (snd (nth i edge_corners (0,0)%nat)) k)).
Proof.
  intros Hi. pose proof (table_ok_at (fillb b) k) as H. unfold table_ok in H. apply andb_true_iff in H as [H _].
  rewrite forallb_forall in H. specialize (H i ltac:(apply in_seq; lia)). apply eqb_prop in H. rewrite H. unfold differ.
  assert (Hbit : forall j, (j < 8)%nat -> Z.testbit (mc_index (pat (fillb b) k)) (Z.of_nat j) = negb (fillb b (corner j k))).
  { intros j Hj. rewrite <- (pat_bit (fillb b) j k Hj). clear -Hj. unfold pat, mc_index.
    generalize (fillb b (corner 0 k)) (fillb b (corner 1 k)) (fillb b (corner 2 k)) (fillb b (corner 3 k))
      (fillb b (corner 4 k)) (fillb b (corner 5 k)) (fillb b (corner 6 k)) (fillb b (corner 7 k)).
    intros c0 c1 c2 c3 c4 c5 c6 c7.
    do 8 (destruct j as [|j]; [destruct c0, c1, c2, c3, c4, c5, c6, c7; reflexivity|]). lia. }
  do 12 (destruct i as [|i]; [cbn [nth edge_corners fst snd]; rewrite !Hbit by lia;
    match goal with |- xorb (negb ?a) (negb ?c) = _ => destruct a, c; reflexivity end|]). lia.
Qed.

Lemma vertlist_spec b k i : (i < 12)%nat -> marked (mc_index (pat (fillb b) k)) i = true ->
  qpt_eq (nth i (vertlist (mc_cell (voxel_lookup b) (mc_v2v b) k)) qpt0) (half_pos b (kadd (kdouble k) (zmid i))).
Proof.
  intros Hi Hm.
  pose proof Hm as Hx. rewrite marked_bits in Hx by exact Hi.
  set (g := mc_cell (voxel_lookup b) (mc_v2v b) k).
  assert (Hv : nth i (vertlist g) qpt0 =
    vertexInterp iso (nth (fst (nth i edge_corners (0,0)%nat)) (gcp g) qpt0) (nth (snd (nth i edge_corners (0,0)%nat)) (gcp g) qpt0)
      (nth (fst (nth i edge_corners (0,0)%nat)) (gcval g) 0%Q) (nth (snd (nth i edge_corners (0,0)%nat)) (gcval g) 0%Q)).
  { unfold vertlist. subst g. rewrite cubeIndex_pat. unfold marked in Hm.
    set (e := nth (Z.to_nat (mc_index (pat (fillb b) k))) edgeTable 0) in *. clearbody e.
    do 12 (destruct i as [|i]; [cbn [edge_corners imap nth fst snd compose]; rewrite Hm; reflexivity|]). lia. }
  rewrite Hv. clear Hv.
  assert (H8 : (fst (nth i edge_corners (0,0)%nat) < 8)%nat /\ (snd (nth i edge_corners (0,0)%nat) < 8)%nat).
  { do 12 (destruct i as [|i]; [cbn; lia|]). lia. }
  destruct H8 as [H8a H8b]. unfold zmid.
  destruct (nth i edge_corners (0,0)%nat) as [a c] eqn:Eac. cbn [fst snd] in *.
  subst g. rewrite !cell_val, !cell_p by assumption.
  rewrite interp_mid by (destruct (fillb b (corner a k)), (fillb b (corner c k)); cbn in Hx; auto; discriminate).
  destruct (nth a corner_off (0,0,0)) as [[dx dy] dz]. destruct (nth c corner_off (0,0,0)) as [[ex ey] ez].
  unfold half_pos, mc_v2v, qpt_eq, kadd, kdouble, px, py, pz. unfold kx, ky, kz. cbn [fst snd].
  rewrite !inject_Z_plus, !inject_Z_mult. change (inject_Z 2) with 2%Q. split; [ring|split; ring].
Qed.

Lemma nth12 {A} (l : list A) d : length l = 12%nat -> l = map (fun i => nth i l d) (seq 0 12).
Proof.
  do 12 (destruct l as [|? l]; [discriminate|]). destruct l; [reflexivity|discriminate].
Qed.

Lemma vertlist_len b k : vertlist (mc_cell (voxel_lookup b) (mc_v2v b) k) =
  map (fun i => nth i (vertlist (mc_cell (voxel_lookup b) (mc_v2v b) k)) qpt0) (seq 0 12).
Proof. apply nth12. unfold vertlist. rewrite imap_length. reflexivity. Qed.

Lemma polygonize_spec b k : exists ts,
  idx_tris (mc_index (pat (fillb b) k)) = Some ts /\
  polygonize (mc_cell (voxel_lookup b) (mc_v2v b) k) =
  Some (map (map3 (fun i => nth i (vertlist (mc_cell (voxel_lookup b) (mc_v2v b) k)) qpt0)) ts).
Proof.
  pose proof (table_ok_at (fillb b) k) as H. unfold table_ok in H. apply andb_true_iff in H as [_ H].
  destruct (idx_tris (mc_index (pat (fillb b) k))) as [ts|] eqn:E; [|discriminate]. exists ts. split; [reflexivity|].
  unfold polygonize. rewrite cubeIndex_pat. unfold idx_tris in E.
  destruct (nth (Z.to_nat (mc_index (pat (fillb b) k))) edgeTable 0 =? 0).
  - injection E as <-. reflexivity.
  - rewrite (vertlist_len b k) at 1. rewrite tri_loop_map, E. reflexivity.
Qed.

Definition shift_face (d : key) (t : zface) : zface := map3 (kadd d) t.

Lemma polygonize_faces b k : exists m, polygonize (mc_cell (voxel_lookup b) (mc_v2v b) k) = Some m /\
  Forall2 face_eq m (map (push_face (half_pos b)) (map (shift_face (kdouble k)) (mc_ztris (pat (fillb b) k)))).
Proof.
  destruct (polygonize_spec b k) as (ts & E & Ep). eexists. split; [exact Ep|].
  unfold mc_ztris. rewrite E. rewrite !map_map.
  assert (Hall : forallb (all3 (fun i => (i <? 12)%nat && marked (mc_index (pat (fillb b) k)) i)) ts = true).
  { pose proof (table_ok_at (fillb b) k) as H. unfold table_ok in H. apply andb_true_iff in H as [_ H]. rewrite E in H.
    apply andb_true_iff in H as [H _]. exact H. }
  clear E Ep. induction ts as [|[[p q] r] ts IH]; [constructor|].
  cbn [forallb all3] in Hall. apply andb_true_iff in Hall as [Ht Hall]. cbn [map]. constructor; [|apply IH, Hall].
  rewrite !andb_true_iff, !Nat.ltb_lt in Ht. destruct Ht as [[[? ?] [? ?]] [? ?]].
  unfold face_eq, map3, shift_face, push_face.
  split; [apply vertlist_spec; assumption|split; apply vertlist_spec; assumption].
Qed.

Lemma MarchingCubes_faces b order : exists m, MarchingCubes b order = Some m /\
  Forall2 face_eq m (map (push_face (half_pos b))
    (flat_map (fun k => map (shift_face (kdouble k)) (mc_ztris (pat (fillb b) k))) order)).
Proof.
  induction order as [|k order IH].
  - exists []. split; [reflexivity|constructor].
  - destruct IH as (m & E & Hm). destruct (polygonize_faces b k) as (mk & Ek & Hk).
    exists (mk ++ m). unfold MarchingCubes in *. cbn [map concat_opt]. rewrite Ek, E. split; [reflexivity|].
    cbn [flat_map]. rewrite map_app. apply Forall2_app; assumption.
Qed.

(** ** Closedness *)
Definition mc_edges (n : Z) : list zedge := flat_map zface_edges (mc_ztris n).

(** The contribution of a face: read off the pattern in which only the voxels of this face are filled. *)
Definition mc_Fx (f : Z) : list zedge :=
  List.filter (fun e => (kx (fst e) =? 2) && (kx (snd e) =? 2))
    (mc_edges (enc8 false (Z.testbit f 0) (Z.testbit f 1) false false (Z.testbit f 2) (Z.testbit f 3) false)).
Definition mc_Fy (f : Z) : list zedge :=
  List.filter (fun e => (ky (fst e) =? 0) && (ky (snd e) =? 0))
    (mc_edges (enc8 (Z.testbit f 0) (Z.testbit f 1) false false (Z.testbit f 2) (Z.testbit f 3) false false)).
Definition mc_Fz (f : Z) : list zedge :=
  List.filter (fun e => (kz (fst e) =? 2) && (kz (snd e) =? 2))
    (mc_edges (enc8 false false false false (Z.testbit f 0) (Z.testbit f 1) (Z.testbit f 2) (Z.testbit f 3))).

Lemma mc_cells_ok : forallb (cell_ok mc_edges mc_Fx mc_Fy mc_Fz) (map Z.of_nat (seq 0 256)) = true.
Proof. vm_compute. reflexivity. Qed.

Lemma edges_flat fill K :
  flat_map zface_edges (flat_map (fun k => map (shift_face (kdouble k)) (mc_ztris (pat fill k))) K) =
  flat_map (fun k => map (shift_edge (kdouble k)) (mc_edges (pat fill k))) K.
Proof.
  induction K as [|k K IH]; [reflexivity|]. cbn. rewrite flat_map_app, IH. f_equal.
  unfold mc_edges. generalize (mc_ztris (pat fill k)). intros ts. induction ts as [|[[p q] r] ts IHt]; [reflexivity|].
  cbn. rewrite IHt. reflexivity.
Qed.

Lemma MarchingCubes_closed b order : Permutation order (elements (grid_cells b)) ->
  exists m, MarchingCubes b order = Some m /\ closed_mesh m.
Proof.
  intros Hp. destruct (MarchingCubes_faces b order) as (m & E & Hm). exists m. split; [exact E|].
  eapply closed_mesh_push; [exact Hm|]. rewrite edges_flat.
  apply (cells_closed mc_edges mc_Fx mc_Fy mc_Fz eq_refl eq_refl eq_refl).
  - apply NoDup_ListNoDup. rewrite Hp. apply NoDup_elements.
  - intros k Hk. apply grid_cells_pat in Hk. rewrite <- elem_of_list_In, Hp, elem_of_elements. exact Hk.
  - intros k _. pose proof mc_cells_ok as H. rewrite forallb_forall in H. apply H, pat_range.
Qed.
