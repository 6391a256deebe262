(** Properties of marching cubes: C32 to C34. *)
From Verif Require Import Base BaseLemmas BinvoxModel Geom VoxelizeModel VoxelizeSpec MeshSpec MeshCells MeshPush MarchTables MarchModel MarchProofs.
From Coq Require Import ZArith QArith List Lia Lqa Bool Permutation.
From stdpp Require Import base list gmap sets fin_sets.
Import ListNotations.
Open Scope Z_scope.

(** ** C32: the tables *)

(** One row of the triangle table: whole triangles of marked, pairwise distinct edges, then only -1;
    every marked edge is used. *)
Definition row_well_formed (e : Z) (row : list Z) : Prop :=
  exists ts : list (Z * Z * Z),
    row = flat_map (fun '(i, j, k) => [i; j; k]) ts ++ repeat (-1) (16 - 3 * length ts) /\
    (length ts <= 5)%nat /\
    (forall i j k, In (i, j, k) ts -> i <> j /\ j <> k /\ i <> k /\
       (0 <= i < 12 /\ Z.testbit e i = true) /\ (0 <= j < 12 /\ Z.testbit e j = true) /\ (0 <= k < 12 /\ Z.testbit e k = true)) /\
    (forall i, 0 <= i < 12 -> Z.testbit e i = true -> exists j k l, In (j, k, l) ts /\ (i = j \/ i = k \/ i = l)).

(** An executable version, for the computation over the 256 patterns. *)
Fixpoint parse_row (row : list Z) (fuel : nat) : list (Z * Z * Z) :=
  match fuel, row with
  | S fuel', i :: j :: k :: row' => if i =? -1 then [] else (i, j, k) :: parse_row row' fuel'
  | _, _ => []
  end.

Definition row_okb (e : Z) (row : list Z) : bool :=
  let ts := parse_row row 16 in
  let okv i := (0 <=? i) && (i <? 12) && Z.testbit e i in
  (if List.list_eq_dec Z.eq_dec row (flat_map (fun '(i, j, k) => [i; j; k]) ts ++ repeat (-1) (16 - 3 * length ts)) then true else false) &&
  (length ts <=? 5)%nat &&
  forallb (fun '(i, j, k) => negb (i =? j) && negb (j =? k) && negb (i =? k) && okv i && okv j && okv k) ts &&
  forallb (fun i => negb (Z.testbit e i) || existsb (fun '(j, k, l) => (i =? j) || (i =? k) || (i =? l)) ts) (map Z.of_nat (seq 0 12)).

Lemma row_okb_sound e row : row_okb e row = true -> row_well_formed e row.
Proof.
  unfold row_okb. rewrite !andb_true_iff. intros [[[H1 H2] H3] H4]. exists (parse_row row 16).
  destruct (List.list_eq_dec _ _ _) as [E|]; [|discriminate]. split; [exact E|].
  split; [apply Nat.leb_le, H2|]. split.
  - intros i j k Hin. rewrite forallb_forall in H3. specialize (H3 _ Hin). cbn beta iota in H3.
    rewrite !andb_true_iff, !negb_true_iff, !Z.eqb_neq, !Z.leb_le, !Z.ltb_lt in H3. tauto.
  - intros i Hi Ht. rewrite forallb_forall in H4. specialize (H4 i).
    assert (Hin : In i (map Z.of_nat (seq 0 12))).
    { apply in_map_iff. exists (Z.to_nat i). split; [lia|apply in_seq; lia]. }
    apply H4 in Hin. rewrite Ht in Hin. cbn in Hin. apply existsb_exists in Hin as ([[j k] l] & Hin & E').
    rewrite !orb_true_iff, !Z.eqb_eq in E'. exists j, k, l. tauto.
Qed.

Definition pattern_okb (c : Z) : bool :=
  let e := nth (Z.to_nat c) edgeTable 0 in
  (0 <=? e) && (e <? 2 ^ 12) && row_okb e (nth (Z.to_nat c) triTable []) &&
  forallb (fun i => Bool.eqb (Z.testbit e (Z.of_nat i)) (differ c i)) (seq 0 12).

Lemma all_patterns_okb : forallb pattern_okb (map Z.of_nat (seq 0 256)) = true.
Proof. vm_compute. reflexivity. Qed.

Theorem C32_tables c : 0 <= c < 256 ->
  let e := nth (Z.to_nat c) edgeTable 0 in
  0 <= e < 2 ^ 12 /\
  (forall i a d, nth_error edge_corners i = Some (a, d) ->
     Z.testbit e (Z.of_nat i) = xorb (Z.testbit c (Z.of_nat a)) (Z.testbit c (Z.of_nat d))) /\
  row_well_formed e (nth (Z.to_nat c) triTable []).
Proof.
  intros Hc e. pose proof all_patterns_okb as H. rewrite forallb_forall in H.
  assert (Hin : In c (map Z.of_nat (seq 0 256))) by (apply in_map_iff; exists (Z.to_nat c); split; [lia|apply in_seq; lia]).
  specialize (H c Hin). unfold pattern_okb in H. fold e in H.
  rewrite !andb_true_iff, Z.leb_le, Z.ltb_lt in H. destruct H as [[[H1 H2] H3] H4].
  split; [lia|]. split; [|apply row_okb_sound, H3].
  intros i a d E. rewrite forallb_forall in H4.
  assert (Hi : (i < 12)%nat) by (change 12%nat with (length edge_corners); apply nth_error_Some; congruence).
  specialize (H4 i ltac:(apply in_seq; lia)). apply eqb_prop in H4. rewrite H4. unfold differ.
  rewrite (nth_error_nth _ _ _ E). reflexivity.
Qed.

(** The edge numbering covers each of the twelve cube edges once: corners at distance one. *)
Theorem C32_edges : length edge_corners = 12%nat /\ NoDup edge_corners /\
  forall a d, In (a, d) edge_corners ->
    (a < 8)%nat /\ (d < 8)%nat /\ axis_neighbour (nth a corner_off (0,0,0)) (nth d corner_off (0,0,0)) /\ ~ In (d, a) edge_corners.
Proof.
  split; [reflexivity|]. split; [apply (bool_decide_unpack _); vm_compute; exact I|].
  intros a d H. cbn in H.
  repeat (destruct H as [[= <- <-]|H]; [split; [lia|split; [lia|split; [reflexivity|cbn; intuition discriminate]]]|]). destruct H.
Qed.

(** The tables are never indexed out of range, whatever the model. *)
Theorem C32_no_panic b order : MarchingCubes b order <> None.
Proof. destruct (MarchingCubes_faces b order) as (m & E & _). rewrite E. discriminate. Qed.

(** ** C33: closed *)
Theorem C33_closed b order : Permutation order (elements (grid_cells b)) ->
  exists m, MarchingCubes b order = Some m /\ closed_mesh m.
Proof. apply MarchingCubes_closed. Qed.

(** The triangles do not depend on the iteration order of the cell map. *)
Lemma concat_opt_perm {A} (l l' : list (option (list A))) : Permutation l l' ->
  forall m, concat_opt l = Some m -> exists m', concat_opt l' = Some m' /\ Permutation m m'.
Proof.
  induction 1 as [|x l l' _ IH|x y l|l l' l'' _ IH1 _ IH2]; intros m E.
  - exists m. auto.
  - cbn in *. destruct x as [x|]; [|discriminate]. destruct (concat_opt l) as [y|]; [|discriminate].
    injection E as <-. destruct (IH y eq_refl) as (y' & -> & Hp). eexists. split; [reflexivity|]. apply Permutation_app_head, Hp.
  - cbn in *. destruct y as [y|]; [|discriminate]. destruct x as [x|]; [|discriminate]. destruct (concat_opt l) as [z|]; [|discriminate].
    injection E as <-. eexists. split; [reflexivity|]. rewrite !app_assoc. apply Permutation_app_tail, Permutation_app_comm.
  - destruct (IH1 m E) as (m' & E' & Hp). destruct (IH2 m' E') as (m'' & E'' & Hp'). exists m''. split; [exact E''|].
    etransitivity; eassumption.
Qed.

Theorem C33_order_independent b order order' m : Permutation order order' ->
  MarchingCubes b order = Some m -> exists m', MarchingCubes b order' = Some m' /\ Permutation m m'.
Proof. intros Hp. apply concat_opt_perm, Permutation_map, Hp. Qed.

(** ** C34: where the vertices are *)

Definition separates (b : binvox Q) (v w : key) : Prop := filled b v /\ ~ filled b w /\ axis_neighbour v w.

Lemma half_pos_mid b v w : qpt_eq (half_pos b (kadd v w)) (midpoint (voxel_center b v) (voxel_center b w)).
Proof.
  destruct v as [[x y] z], w as [[x' y'] z'].
  unfold half_pos, midpoint, voxel_center, qpt_eq, kadd, px, py, pz, kx, ky, kz. cbn [fst snd].
  rewrite !inject_Z_plus. split; [ring|split; ring].
Qed.

Lemma midpoint_comm p q : qpt_eq (midpoint p q) (midpoint q p).
Proof. destruct p as [[? ?] ?], q as [[? ?] ?]. unfold midpoint, qpt_eq, px, py, pz. cbn [fst snd]. split; [ring|split; ring]. Qed.

Lemma edge_corner_facts i : (i < 12)%nat ->
  let '(a, c) := nth i edge_corners (0,0)%nat in
  (a < 8)%nat /\ (c < 8)%nat /\ forall k, axis_neighbour (corner a k) (corner c k) /\ kadd (corner a k) (corner c k) = kadd (kdouble k) (zmid i).
Proof.
  intros Hi.
  do 12 (destruct i as [|i]; [cbn [nth edge_corners]; split; [lia|split; [lia|]]; intros [[x y] z];
    unfold corner, zmid, axis_neighbour, kadd, kdouble, kx, ky, kz; cbn [nth edge_corners corner_off fst snd]; split; [lia|apply key_eq; lia]|]). lia.
Qed.

Lemma marked_separates b k i : (i < 12)%nat -> marked (mc_index (pat (fillb b) k)) i = true ->
  exists v w, separates b v w /\ kadd v w = kadd (kdouble k) (zmid i) /\
    (exists a c, nth i edge_corners (0,0)%nat = (a, c) /\ (v = corner a k /\ w = corner c k \/ v = corner c k /\ w = corner a k)).
Proof.
  intros Hi Hm. rewrite marked_bits in Hm by exact Hi. pose proof (edge_corner_facts i Hi) as H.
  destruct (nth i edge_corners (0,0)%nat) as [a c] eqn:E. cbn [fst snd] in Hm. destruct H as (Ha & Hc & H). destruct (H k) as [Hn Hs].
  destruct (fillb b (corner a k)) eqn:Ea, (fillb b (corner c k)) eqn:Ec; try discriminate.
  - exists (corner a k), (corner c k). split; [|split; [exact Hs|exists a, c; split; [reflexivity|left; split; reflexivity]]].
    split; [apply fillb_iff, Ea|]. split; [|exact Hn]. rewrite <- fillb_iff, Ec. discriminate.
  - exists (corner c k), (corner a k). split; [|split; [|exists a, c; split; [reflexivity|right; split; reflexivity]]].
    + split; [apply fillb_iff, Ec|]. split; [|unfold axis_neighbour in *; lia]. rewrite <- fillb_iff, Ea. discriminate.
    + rewrite <- Hs. destruct (corner a k) as [[? ?] ?], (corner c k) as [[? ?] ?]. unfold kadd, kx, ky, kz. cbn. apply key_eq; lia.
Qed.

(** The triangles of the mesh, one by one. *)
Lemma MarchingCubes_triangle b order m t : MarchingCubes b order = Some m -> In t m ->
  exists k ts i j l, In k order /\ idx_tris (mc_index (pat (fillb b) k)) = Some ts /\ In (i, j, l) ts /\
    face_eq t (half_pos b (kadd (kdouble k) (zmid i)), half_pos b (kadd (kdouble k) (zmid j)), half_pos b (kadd (kdouble k) (zmid l))).
Proof.
  intros E Ht. destruct (MarchingCubes_faces b order) as (m' & E' & Hm). rewrite E in E'. injection E' as <-.
  apply elem_of_list_In, elem_of_list_lookup in Ht as (n & Hn).
  destruct (Forall2_lookup_l _ _ _ _ _ Hm Hn) as (t' & Ht' & Heq).
  apply elem_of_list_lookup_2, elem_of_list_In, in_map_iff in Ht' as (z & <- & Hz).
  apply in_flat_map in Hz as (k & Hk & Hz). apply in_map_iff in Hz as (z' & <- & Hz').
  unfold mc_ztris in Hz'. destruct (idx_tris _) as [ts|] eqn:Ets; [|destruct Hz'].
  apply in_map_iff in Hz' as ([[i j] l] & <- & Hin). exists k, ts, i, j, l. auto.
Qed.

Lemma MarchingCubes_triangle' b order m k ts i j l : MarchingCubes b order = Some m -> In k order ->
  idx_tris (mc_index (pat (fillb b) k)) = Some ts -> In (i, j, l) ts ->
  exists t, In t m /\
    face_eq t (half_pos b (kadd (kdouble k) (zmid i)), half_pos b (kadd (kdouble k) (zmid j)), half_pos b (kadd (kdouble k) (zmid l))).
Proof.
  intros E Hk Ets Hin. destruct (MarchingCubes_faces b order) as (m' & E' & Hm). rewrite E in E'. injection E' as <-.
  set (t' := (half_pos b (kadd (kdouble k) (zmid i)), half_pos b (kadd (kdouble k) (zmid j)), half_pos b (kadd (kdouble k) (zmid l)))).
  assert (Ht' : In t' (map (push_face (half_pos b))
    (flat_map (fun k => map (shift_face (kdouble k)) (mc_ztris (pat (fillb b) k))) order))).
  { apply in_map_iff. exists (shift_face (kdouble k) (map3 zmid (i, j, l))). split; [reflexivity|].
    apply in_flat_map. exists k. split; [exact Hk|]. apply in_map. unfold mc_ztris. rewrite Ets. apply in_map, Hin. }
  apply elem_of_list_In, elem_of_list_lookup in Ht' as (n & Hn).
  destruct (Forall2_lookup_r _ _ _ _ _ Hm Hn) as (t & Ht & Heq). exists t. split; [|exact Heq].
  apply elem_of_list_In. eapply elem_of_list_lookup_2, Ht.
Qed.

Lemma idx_marked b k ts i j l : idx_tris (mc_index (pat (fillb b) k)) = Some ts -> In (i, j, l) ts ->
  let c := mc_index (pat (fillb b) k) in
  ((i < 12)%nat /\ marked c i = true) /\ ((j < 12)%nat /\ marked c j = true) /\ ((l < 12)%nat /\ marked c l = true).
Proof.
  intros E Hin c. pose proof (table_ok_at (fillb b) k) as H. unfold table_ok in H. fold c in H, E. rewrite E in H.
  rewrite !andb_true_iff in H. destruct H as [_ [H _]]. rewrite forallb_forall in H. specialize (H _ Hin).
  cbn [all3] in H. rewrite !andb_true_iff, !Nat.ltb_lt in H. tauto.
Qed.

Theorem C34_vertices b order m p : Permutation order (elements (grid_cells b)) ->
  MarchingCubes b order = Some m ->
  mesh_vertex m p <-> exists v w, separates b v w /\ qpt_eq p (midpoint (voxel_center b v) (voxel_center b w)).
Proof.
  intros Hp Em. split.
  - intros (a1 & a2 & a3 & Hin & Hpt).
    destruct (MarchingCubes_triangle b order m _ Em Hin) as (k & ts & i & j & l & Hk & Ets & Ht & (H1 & H2 & H3)).
    destruct (idx_marked b k ts i j l Ets Ht) as ([Hi Mi] & [Hj Mj] & [Hl Ml]).
    assert (G : forall n q, (n < 12)%nat -> marked (mc_index (pat (fillb b) k)) n = true -> qpt_eq q (half_pos b (kadd (kdouble k) (zmid n))) -> qpt_eq p q ->
       exists v w, separates b v w /\ qpt_eq p (midpoint (voxel_center b v) (voxel_center b w))).
    { intros n q Hn Mn Hq Hpq. destruct (marked_separates b k n Hn Mn) as (v & w & Hs & Ev & _). exists v, w. split; [exact Hs|].
      rewrite Hpq, Hq, <- Ev. apply half_pos_mid. }
    destruct Hpt as [Hpt|[Hpt|Hpt]]; [apply (G i a1 Hi Mi H1 Hpt)|apply (G j a2 Hj Mj H2 Hpt)|apply (G l a3 Hl Ml H3 Hpt)].
  - intros (v & w & (Hv & Hw & Hn) & Hpt).
    assert (Hcell : exists k i, (i < 12)%nat /\ (let '(a, c) := nth i edge_corners (0,0)%nat in
       corner a k = v /\ corner c k = w \/ corner a k = w /\ corner c k = v)).
    { destruct v as [[x y] z], w as [[x' y'] z']. unfold axis_neighbour, kx, ky, kz in Hn. cbn [fst snd] in Hn.
      assert (Hc : x' = x + 1 /\ y' = y /\ z' = z \/ x' = x - 1 /\ y' = y /\ z' = z \/
                   x' = x /\ y' = y - 1 /\ z' = z \/ x' = x /\ y' = y + 1 /\ z' = z \/
                   x' = x /\ y' = y /\ z' = z + 1 \/ x' = x /\ y' = y /\ z' = z - 1) by lia.
      destruct Hc as [(-> & -> & ->)|[(-> & -> & ->)|[(-> & -> & ->)|[(-> & -> & ->)|[(-> & -> & ->)|(-> & -> & ->)]]]]].
      - exists (x, y, z), 0%nat. split; [lia|]. left. unfold corner, kadd, kx, ky, kz. cbn. split; apply key_eq; lia.
      - exists (x - 1, y, z), 0%nat. split; [lia|]. right. unfold corner, kadd, kx, ky, kz. cbn. split; apply key_eq; lia.
      - exists (x, y, z), 3%nat. split; [lia|]. right. unfold corner, kadd, kx, ky, kz. cbn. split; apply key_eq; lia.
      - exists (x, y + 1, z), 3%nat. split; [lia|]. left. unfold corner, kadd, kx, ky, kz. cbn. split; apply key_eq; lia.
      - exists (x, y, z), 8%nat. split; [lia|]. left. unfold corner, kadd, kx, ky, kz. cbn. split; apply key_eq; lia.
      - exists (x, y, z - 1), 8%nat. split; [lia|]. right. unfold corner, kadd, kx, ky, kz. cbn. split; apply key_eq; lia. }
    destruct Hcell as (k & i & Hi & Hc).
    pose proof (edge_corner_facts i Hi) as Hf.
    assert (Mi : marked (mc_index (pat (fillb b) k)) i = true).
    { rewrite marked_bits by exact Hi. destruct (nth i edge_corners (0,0)%nat) as [a c]. cbn [fst snd].
      apply fillb_iff in Hv. rewrite <- fillb_iff in Hw. apply not_true_is_false in Hw.
      destruct Hc as [[-> ->]|[-> ->]]; rewrite Hv, Hw; reflexivity. }
    assert (Hk : In k order).
    { rewrite <- elem_of_list_In, Hp, elem_of_elements. apply grid_cells_iff. exists v. split; [exact Hv|].
      apply voxel_cells_corner. destruct (nth i edge_corners (0,0)%nat) as [a c]. destruct Hf as (Ha & Hc' & _).
      destruct Hc as [[? ?]|[? ?]]; eauto. }
    pose proof (table_ok_at (fillb b) k) as H. unfold table_ok in H.
    destruct (idx_tris (mc_index (pat (fillb b) k))) as [ts|] eqn:Ets; [|rewrite andb_false_r in H; discriminate].
    rewrite !andb_true_iff in H. destruct H as [_ [_ H]]. rewrite forallb_forall in H.
    specialize (H i ltac:(apply in_seq; lia)). rewrite Mi in H. cbn in H.
    apply existsb_exists in H as ([[i1 i2] i3] & Hin & Ei).
    destruct (MarchingCubes_triangle' b order m k ts i1 i2 i3 Em Hk Ets Hin) as ([[q1 q2] q3] & Hq & (H1 & H2 & H3)).
    exists q1, q2, q3. split; [exact Hq|].
    assert (Hpi : qpt_eq p (half_pos b (kadd (kdouble k) (zmid i)))).
    { rewrite Hpt. destruct (nth i edge_corners (0,0)%nat) as [a c]. destruct Hf as (_ & _ & Hf). destruct (Hf k) as [_ <-].
      destruct Hc as [[-> ->]|[-> ->]]; rewrite half_pos_mid; [reflexivity|apply midpoint_comm]. }
    rewrite !orb_true_iff, !Nat.eqb_eq in Ei. destruct Ei as [[<-|<-]|<-]; [left|right; left|right; right]; rewrite Hpi; symmetry; assumption.
Qed.

(** Orientation: at two or more of its three vertices a triangle faces from the filled to the empty
    voxel; in particular no triangle is degenerate. *)
Definition zdot_normal (a b c d : key) : Z :=
  let '(ux, uy, uz) := (kx b - kx a, ky b - ky a, kz b - kz a) in
  let '(vx, vy, vz) := (kx c - kx a, ky c - ky a, kz c - kz a) in
  (uy * vz - uz * vy) * kx d + (uz * vx - ux * vz) * ky d + (ux * vy - uy * vx) * kz d.

Definition edge_dir (c : Z) (i : nat) : key :=
  let '(a, d) := nth i edge_corners (0,0)%nat in
  if Z.testbit c (Z.of_nat a) then ksub (nth a corner_off (0,0,0)) (nth d corner_off (0,0,0))
  else ksub (nth d corner_off (0,0,0)) (nth a corner_off (0,0,0)).

Definition two_of (p q r : Prop) : Prop := p /\ q \/ p /\ r \/ q /\ r.
Definition two_ofb (p q r : bool) : bool := p && q || p && r || q && r.

Definition outward_ok (c : Z) : bool :=
  match idx_tris c with
  | None => false
  | Some ts => forallb (fun '(i, j, l) =>
      let f n := 0 <? zdot_normal (zmid i) (zmid j) (zmid l) (edge_dir c n) in two_ofb (f i) (f j) (f l)) ts
  end.

Lemma all_outward_ok : forallb outward_ok (map Z.of_nat (seq 0 256)) = true.
Proof. vm_compute. reflexivity. Qed.

Lemma faces_along_half b D A1 A2 A3 v w q1 q2 q3 :
  qpt_eq q1 (half_pos b (kadd D A1)) -> qpt_eq q2 (half_pos b (kadd D A2)) -> qpt_eq q3 (half_pos b (kadd D A3)) ->
  (faces_along q1 q2 q3 (qsub (voxel_center b w) (voxel_center b v)) ==
   inject_Z (zdot_normal A1 A2 A3 (ksub w v)) * ((1 # 4) * (1 / vpmm b) * (1 / vpmm b) * (1 / vpmm b)))%Q.
Proof.
  destruct q1 as [[x1 y1] z1], q2 as [[x2 y2] z2], q3 as [[x3 y3] z3].
  destruct D as [[dx dy] dz], A1 as [[a1 a2] a3], A2 as [[b1 b2] b3], A3 as [[c1 c2] c3], v as [[v1 v2] v3], w as [[w1 w2] w3].
  unfold half_pos, qpt_eq, kadd, ksub, kx, ky, kz. cbn [fst snd]. intros (E1 & E2 & E3) (E4 & E5 & E6) (E7 & E8 & E9).
  unfold faces_along, zdot_normal, qsub, voxel_center, px, py, pz, kx, ky, kz. cbn [fst snd].
  rewrite E1, E2, E3, E4, E5, E6, E7, E8, E9. clear.
  unfold Z.sub. repeat (rewrite ?inject_Z_plus, ?inject_Z_mult, ?inject_Z_opp). set (s := (1 / vpmm b)%Q). ring.
Qed.

Theorem C34_outward b order m a1 a2 a3 : (0 < vpmm b)%Q ->
  MarchingCubes b order = Some m -> In (a1, a2, a3) m ->
  exists v1 w1 v2 w2 v3 w3,
    (separates b v1 w1 /\ qpt_eq a1 (midpoint (voxel_center b v1) (voxel_center b w1))) /\
    (separates b v2 w2 /\ qpt_eq a2 (midpoint (voxel_center b v2) (voxel_center b w2))) /\
    (separates b v3 w3 /\ qpt_eq a3 (midpoint (voxel_center b v3) (voxel_center b w3))) /\
    let towards v w := (0 < faces_along a1 a2 a3 (qsub (voxel_center b w) (voxel_center b v)))%Q in
    two_of (towards v1 w1) (towards v2 w2) (towards v3 w3).
Proof.
  intros Hs Em Hin.
  destruct (MarchingCubes_triangle b order m _ Em Hin) as (k & ts & i & j & l & Hk & Ets & Ht & (H1 & H2 & H3)).
  destruct (idx_marked b k ts i j l Ets Ht) as ([Hi Mi] & [Hj Mj] & [Hl Ml]).
  set (c := mc_index (pat (fillb b) k)) in *.
  assert (G : forall n q, (n < 12)%nat -> marked c n = true -> qpt_eq q (half_pos b (kadd (kdouble k) (zmid n))) ->
     exists v w, (separates b v w /\ qpt_eq q (midpoint (voxel_center b v) (voxel_center b w))) /\ ksub w v = edge_dir c n).
  { intros n q Hn Mn Hq. destruct (marked_separates b k n Hn Mn) as (v & w & Hsep & Ev & (a & d & Ead & Hvw)). exists v, w. split.
    - split; [exact Hsep|]. rewrite Hq, <- Ev. apply half_pos_mid.
    - unfold edge_dir. pose proof (edge_corner_facts n Hn) as Hf. rewrite Ead in Hf |- *. destruct Hf as (Ha & Hd & _).
      assert (Ht' : Z.testbit c (Z.of_nat a) = negb (fillb b (corner a k))).
      { rewrite <- (pat_bit (fillb b) a k Ha). clear -Ha. unfold c, mc_index.
        pose proof (pat_range (fillb b) k) as Hr. 
        assert (Hall : forallb (fun n => forallb (fun a => Bool.eqb (Z.testbit (255 - n) (Z.of_nat a)) (negb (Z.testbit n (Z.of_nat a)))) (seq 0 8)) (map Z.of_nat (seq 0 256)) = true) by (vm_compute; reflexivity).
        rewrite forallb_forall in Hall. specialize (Hall _ Hr). rewrite forallb_forall in Hall. apply eqb_prop, Hall, in_seq. lia. }
      rewrite Ht'. destruct Hsep as (Hv & Hw & _). apply fillb_iff in Hv. rewrite <- fillb_iff in Hw. apply not_true_is_false in Hw.
      destruct Hvw as [[-> ->]|[-> ->]]; rewrite ?Hv, ?Hw; cbn [negb]; unfold corner;
        destruct (nth a corner_off (0,0,0)) as [[? ?] ?], (nth d corner_off (0,0,0)) as [[? ?] ?], k as [[? ?] ?];
        unfold ksub, kadd, kx, ky, kz; cbn [fst snd]; apply key_eq; lia. }
  destruct (G i a1 Hi Mi H1) as (v1 & w1 & S1 & D1). destruct (G j a2 Hj Mj H2) as (v2 & w2 & S2 & D2). destruct (G l a3 Hl Ml H3) as (v3 & w3 & S3 & D3).
  exists v1, w1, v2, w2, v3, w3. do 3 (split; [assumption|]). cbn zeta.
  pose proof all_outward_ok as Ho. rewrite forallb_forall in Ho. specialize (Ho c (mc_index_range _ _)). unfold outward_ok in Ho.
  fold c in Ets. rewrite Ets, forallb_forall in Ho. specialize (Ho _ Ht). cbn beta iota in Ho.
  assert (Hpos : forall n v w, ksub w v = edge_dir c n -> (0 <? zdot_normal (zmid i) (zmid j) (zmid l) (edge_dir c n)) = true ->
    (0 < faces_along a1 a2 a3 (qsub (voxel_center b w) (voxel_center b v)))%Q).
  { intros n v w E Hlt. rewrite (faces_along_half b (kdouble k) (zmid i) (zmid j) (zmid l) v w _ _ _ H1 H2 H3), E.
    apply Z.ltb_lt in Hlt. rewrite Zlt_Qlt in Hlt. change (inject_Z 0) with 0%Q in Hlt.
    assert (0 < 1 / vpmm b)%Q by (unfold Qdiv; rewrite Qmult_1_l; apply Qinv_lt_0_compat, Hs).
    apply Qmult_lt_0_compat; [exact Hlt|]. set (s := (1 / vpmm b)%Q) in *. clearbody s.
    apply Qmult_lt_0_compat; [apply Qmult_lt_0_compat; [apply Qmult_lt_0_compat; [reflexivity|]|]|]; assumption. }
  unfold two_of, two_ofb in *. rewrite !orb_true_iff, !andb_true_iff in Ho.
  destruct Ho as [[[? ?]|[? ?]]|[? ?]]; [left|right; left|right; right]; split; eapply Hpos; eassumption.
Qed.

(** A model with two diagonally touching voxels: 20 triangles. *)
Definition two_voxels : binvox Q :=
  BinVOX 4 4 4 0%Q 0%Q 0%Q 4%Q (Some {[ (1, 1, 1); (2, 2, 1) ]}) None.

Example C33_example :
  (exists m, MarchingCubes two_voxels (elements (grid_cells two_voxels)) = Some m /\ length m = 20%nat) /\
  (0 < vpmm two_voxels)%Q /\ separates two_voxels (1,1,1) (1,1,2).
Proof.
  split; [|split; [reflexivity|]].
  - eexists. split; [vm_compute; reflexivity|vm_compute; reflexivity].
  - split; [left; apply (bool_decide_unpack _); vm_compute; exact I|]. split; [|reflexivity].
    intros [H|[c H]]; [|discriminate H]. revert H. apply (bool_decide_unpack _). vm_compute. exact I.
Qed.

Print Assumptions C32_tables.
Print Assumptions C32_no_panic.
Print Assumptions C33_closed.
Print Assumptions C33_order_independent.
Print Assumptions C34_vertices.
Print Assumptions C34_outward.
