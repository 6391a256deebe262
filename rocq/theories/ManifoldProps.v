(** Properties of ManifoldMesh: C35, C36 and C37. *)
From Verif Require Import Base BaseLemmas BinvoxModel Geom VoxelizeModel VoxelizeSpec MeshSpec MeshCells MeshPush MarchModel MarchProofs MarchProps
  ManifoldXform ManifoldTables ManifoldModel ManifoldProofs ManifoldSurface MeshLeak.
From Coq Require Import ZArith QArith List Lia Lqa Bool Permutation.
From stdpp Require Import base list gmap sets fin_sets relations sorting.
Import ListNotations.
Open Scope Z_scope.

(** ** C35: the patterns of the grid cells *)

(** [n] is the pattern of the 2x2x2 block of voxels at [k]: bit i is set iff the voxel at corner i is filled. *)
Definition block_pattern (b : binvox Q) (k : key) (n : Z) : Prop :=
  0 <= n < 256 /\ forall i, (i < 8)%nat -> (Z.testbit n (Z.of_nat i) = true <-> filled b (corner i k)).

Lemma block_pattern_pat b k n : block_pattern b k n <-> n = pat (fillb b) k.
Proof.
  assert (Hp : block_pattern b k (pat (fillb b) k)).
  { split.
    - pose proof (pat_range (fillb b) k) as H. apply in_map_iff in H as (j & <- & Hj). apply in_seq in Hj. lia.
    - intros i Hi. rewrite (pat_bit (fillb b) i k Hi). apply fillb_iff. }
  split; [|intros ->; exact Hp]. intros [Hr Hb]. destruct Hp as [Hr' Hb'].
  apply Z.bits_inj'. intros i Hi. destruct (Z_lt_le_dec i 8) as [Hlt|Hge].
  - apply eq_true_iff_eq. rewrite <- (Z2Nat.id i) by exact Hi. rewrite Hb, Hb' by lia. reflexivity.
  - assert (G : forall z, 0 <= z < 256 -> Z.testbit z i = false).
    { intros z Hz. destruct (Z.eq_dec z 0) as [->|Hne]; [apply Z.bits_0|]. apply Z.bits_above_log2; [lia|].
      assert (Z.log2 z < 8); [|lia]. apply Z.log2_lt_pow2; cbn; lia. }
    rewrite !G by assumption. reflexivity.
Qed.

Theorem C35_cells b whites cols k : Permutation whites (elements (white b)) -> Permutation cols (elements (dom (colors b))) ->
  block_pattern b k (default 0 (manifold_cells whites cols !! k)) /\
  (is_Some (manifold_cells whites cols !! k) <-> exists i, (i < 8)%nat /\ filled b (corner i k)).
Proof.
  intros Hw Hc. pose proof (manifold_cells_val b whites cols Hw Hc k) as Hv. unfold cellval in Hv. split.
  - apply block_pattern_pat, Hv.
  - rewrite (manifold_cells_some b whites cols Hw Hc k). pose proof (proj2 (block_pattern_pat b k _) eq_refl) as [Hr Hb]. split.
    + intros Hne. destruct (Z.eq_dec (pat (fillb b) k) 0) as [E|_]; [contradiction|].
      destruct (existsb (fun i => fillb b (corner i k)) (seq 0 8)) eqn:E.
      * apply existsb_exists in E as (i & Hi & E). apply in_seq in Hi. exists i. split; [lia|]. apply fillb_iff, E.
      * exfalso. apply Hne. unfold pat. cbn in E. rewrite !orb_false_iff in E. destruct E as (-> & -> & -> & -> & -> & -> & -> & -> & _). reflexivity.
    + intros (i & Hi & Hf) E. apply Hb in Hf; [|exact Hi]. rewrite E, Z.bits_0 in Hf. discriminate.
Qed.

(** Every model has a run. *)
Theorem C36_total b : exists m, manifold_run b m.
Proof. eexists _, _, _, _. split; [reflexivity|]. split; [reflexivity|]. split; reflexivity. Qed.

(** ** C36: watertight away from 96 leaky patterns *)
Definition leaky_patterns : list Z :=
  [21; 22; 23; 26; 30; 37; 41; 42; 43; 45; 53; 56; 58; 60; 61; 62; 69;
   73; 74; 75; 81; 82; 83; 84; 85; 86; 87; 88; 89; 90; 91; 92; 93; 94;
   95; 97; 101; 104; 105; 106; 107; 109; 117; 120; 121; 123; 124; 125;
   133; 134; 135; 138; 142; 146; 148; 149; 150; 151; 154; 158; 161; 162;
   163; 164; 165; 166; 167; 168; 169; 170; 171; 172; 173; 174; 175; 182;
   183; 186; 188; 190; 194; 197; 202; 203; 210; 211; 212; 213; 215; 218;
   225; 227; 229; 232; 234; 235].

Definition leakyb (n : Z) : bool := existsb (Z.eqb n) leaky_patterns.

Lemma leakyb_iff n : leakyb n = true <-> In n leaky_patterns.
Proof.
  unfold leakyb. rewrite existsb_exists. split.
  - intros (x & Hx & E). apply Z.eqb_eq in E as ->. exact Hx.
  - intros H. exists n. split; [exact H|apply Z.eqb_refl].
Qed.

Lemma cells_ok_or_leaky : forallb (fun n => mf_cell_ok n || leakyb n) (map Z.of_nat (seq 0 256)) = true.
Proof. vm_compute. reflexivity. Qed.

Lemma not_leaky_ok fill k : ~ In (pat fill k) leaky_patterns -> mf_cell_ok (pat fill k) = true.
Proof.
  intros H. pose proof cells_ok_or_leaky as G. rewrite forallb_forall in G. specialize (G _ (pat_range fill k)).
  apply orb_true_iff in G as [G|G]; [exact G|]. apply leakyb_iff in G. contradiction.
Qed.

Theorem C36_watertight b m : manifold_run b m ->
  (forall k n, block_pattern b k n -> ~ In n leaky_patterns) -> watertight m.
Proof.
  intros Hr Hp. apply (manifold_watertight b m Hr). intros k. apply not_leaky_ok, (Hp k), block_pattern_pat. reflexivity.
Qed.

(** *** Each leaky pattern does leak *)

(** The model whose voxels are those of the 2x2x2 block with pattern [n]. *)
Definition block_voxels (n : Z) : list key :=
  map (fun i => corner i (0, 1, 0)) (List.filter (fun i => Z.testbit n (Z.of_nat i)) (seq 0 8)).
Definition block (n : Z) : binvox Q := BinVOX 2 2 2 0%Q 0%Q 0%Q 4%Q (Some (list_to_set (block_voxels n))) None.

Definition blockfill (n : Z) (k : key) : bool := existsb (key_eqb k) (block_voxels n).

Lemma fillb_block n k : fillb (block n) k = blockfill n k.
Proof.
  apply eq_true_iff_eq. unfold fillb, blockfill. rewrite bool_decide_eq_true, existsb_exists. unfold block, white, colors. cbn.
  rewrite dom_empty_L, elem_of_union, elem_of_list_to_set, elem_of_list_In. split.
  - intros [H|H]; [|set_solver]. exists k. split; [exact H|]. apply key_eqb_eq. reflexivity.
  - intros (k' & Hk & E). apply key_eqb_eq in E as ->. auto.
Qed.

Lemma pat_ext f g k : (forall k, f k = g k) -> pat f k = pat g k.
Proof. intros H. unfold pat. rewrite !H. reflexivity. Qed.

Definition around : list key :=
  flat_map (fun x => flat_map (fun y => map (fun z => (x, y, z)) [-1;0;1]) [0;1;2]) [-1;0;1].

Lemma around_nodup : List.NoDup around.
Proof. apply NoDup_ListNoDup. apply (bool_decide_unpack _). vm_compute. exact I. Qed.

Lemma block_range n k : blockfill n k = true -> 0 <= kx k <= 1 /\ 0 <= ky k <= 1 /\ 0 <= kz k <= 1.
Proof.
  unfold blockfill. rewrite existsb_exists. intros (k' & Hk & E). apply key_eqb_eq in E as ->.
  apply in_map_iff in Hk as (i & <- & Hi). apply List.filter_In in Hi as [Hi _]. apply in_seq in Hi.
  do 8 (destruct i as [|i]; [vm_compute; repeat split; congruence|]). lia.
Qed.

Lemma block_cells n k : pat (blockfill n) k <> 0 -> In k around.
Proof.
  intros Hne.
  assert (Hex : exists i, (i < 8)%nat /\ blockfill n (corner i k) = true).
  { destruct (existsb (fun i => blockfill n (corner i k)) (seq 0 8)) eqn:E.
    - apply existsb_exists in E as (i & Hi & E). apply in_seq in Hi. exists i. split; [lia|exact E].
    - exfalso. apply Hne. unfold pat. cbn [seq existsb] in E. rewrite !orb_false_iff in E.
      destruct E as (-> & -> & -> & -> & -> & -> & -> & -> & _). reflexivity. }
  destruct Hex as (i & Hi & E). apply block_range in E. destruct k as [[x y] z].
  assert (-1 <= x <= 1 /\ 0 <= y <= 2 /\ -1 <= z <= 1).
  { do 8 (destruct i as [|i]; [unfold corner, kadd, kx, ky, kz in E; cbn in E; lia|]). lia. }
  unfold around. rewrite in_flat_map. exists x. split; [cbn; lia|]. rewrite in_flat_map. exists y. split; [cbn; lia|].
  apply in_map_iff. exists z. split; [reflexivity|cbn; lia].
Qed.

Definition block_K (n : Z) : list key := List.filter (fun k => negb (pat (blockfill n) k =? 0)) around.

(** The edges of the block's mesh, in world coordinates, which are integers at this scale. *)
Definition block_edges (n : Z) : list zedge :=
  flat_map (fun k => map (shift_edge (kadd (2,0,2) (kdouble k))) (mf_edges (pat (blockfill n) k))) (block_K n).

Lemma mf_pos_block n p : qpt_eq (mf_pos (block n) p) (zpt (kadd (2,0,2) p)).
Proof.
  unfold mf_pos. assert (E : (1 / vpmm (block n) == 2)%Q) by reflexivity.
  destruct p as [[x y] z]. unfold qpt_eq, zpt, kadd, kx, ky, kz. cbn [fst snd block TX TY TZ]. rewrite E.
  rewrite !inject_Z_plus. change (inject_Z 2) with 2%Q. change (inject_Z 0) with 0%Q.
  split; [ring|split; ring].
Qed.

Lemma zsum_flat_perm {A} (f : zedge -> Z) (g : A -> list zedge) K K' : Permutation K K' ->
  zsum f (flat_map g K) = zsum f (flat_map g K').
Proof.
  intros H. assert (E : forall L, zsum f (flat_map g L) = zsum (fun k => zsum f (g k)) L).
  { intros L. induction L as [|k L IH]; [reflexivity|]. cbn. rewrite zsum_app, IH. reflexivity. }
  rewrite !E. apply zsum_perm, H.
Qed.

Lemma edge_eq_trans l1 l2 l3 : Forall2 edge_eq l1 l2 -> Forall2 edge_eq l2 l3 -> Forall2 edge_eq l1 l3.
Proof.
  intros H. revert l3. induction H as [|a b l1 l2 [H1 H2] _ IH]; intros l3 H3; inversion H3 as [|? c ? l3' [H4 H5] H6]; subst; constructor; [|auto].
  split; etransitivity; eassumption.
Qed.

Lemma block_mesh n m : manifold_run (block n) m -> exists zs,
  Forall2 edge_eq (mesh_edges m) (map (push zpt) zs) /\ forall f, zsum f zs = zsum f (block_edges n).
Proof.
  intros (whites & cols & order & Hw & Hc & Ho & ->).
  destruct (manifold_order (block n) whites cols order Hw Hc Ho) as (Eo & Hnd & Hin).
  set (K := map fst order) in *. clearbody K. subst order.
  assert (Hpat : forall k, pat (fillb (block n)) k = pat (blockfill n) k) by (intros k; apply pat_ext, fillb_block).
  exists (flat_map (fun k => map (shift_edge (kadd (2,0,2) (kdouble k))) (mf_edges (pat (blockfill n) k))) K). split.
  - pose proof (ManifoldMesh_faces (block n) (map (fun k => (k, pat (fillb (block n)) k)) K)) as Hf.
    apply mesh_edges_ext in Hf. rewrite mesh_edges_push, mf_edges_flat in Hf.
    eapply edge_eq_trans; [exact Hf|].
    clear. induction K as [|k K IH]; [constructor|]. cbn [flat_map map]. rewrite !map_app. apply Forall2_app; [|exact IH].
    rewrite (pat_ext _ _ k (fillb_block n)). rewrite !map_map.
    induction (mf_edges (pat (blockfill n) k)) as [|[p q] es IHe]; [constructor|]. cbn [map]. constructor; [|exact IHe].
    unfold push, shift_edge. cbn [fst snd]. split; cbn [fst snd]; rewrite mf_pos_block;
      assert (E : forall a d, kadd (2,0,2) (kadd d a) = kadd (kadd (2,0,2) d) a)
        by (intros [[? ?] ?] [[? ?] ?]; unfold kadd, kx, ky, kz; cbn [fst snd]; apply key_eq; lia); rewrite E; reflexivity.
  - intros f. apply zsum_flat_perm. apply Coq.Sorting.Permutation.NoDup_Permutation.
    + exact Hnd.
    + apply List.NoDup_filter, around_nodup.
    + intros k. rewrite Hin, Hpat. unfold block_K. rewrite List.filter_In, negb_true_iff, Z.eqb_neq. split; [|tauto].
      intros Hne. split; [apply (block_cells n), Hne|exact Hne].
Qed.

Definition leak_forms : list (key * nat * nat) :=
  flat_map (fun d => flat_map (fun i => map (fun j => (d, i, j)) [3; 0; 1; 2]%nat) [0; 1; 2]%nat)
    [(0,1,1); (0,1,-1); (1,0,1); (1,0,-1); (1,0,0); (0,1,0); (0,0,1); (1,1,0); (1,-1,0)].

Lemma all_leaky_leak : forallb (fun n => let es := block_edges n in
  existsb (fun '(d, i, j) => negb (zsum (zform d i j) es =? 0)) leak_forms) leaky_patterns = true.
Proof. vm_cast_no_check (eq_refl true). Qed.

Lemma block_neighbours_ok : forallb (fun n => leakyb n || forallb (fun k => negb (leakyb (pat (blockfill n) k))) (block_K n))
  (map Z.of_nat (seq 0 256)) = true.
Proof. vm_compute. reflexivity. Qed.

Theorem C36_leaky_exactly n m : 0 <= n < 256 -> manifold_run (block n) m -> (watertight m <-> ~ In n leaky_patterns).
Proof.
  intros Hn Hr. split.
  - intros Hw Hl. destruct (block_mesh n m Hr) as (zs & Hm & Hs).
    pose proof all_leaky_leak as H. rewrite forallb_forall in H. specialize (H n Hl). cbn zeta in H.
    apply existsb_exists in H as ([[d i] j] & _ & Hne). apply negb_true_iff, Z.eqb_neq in Hne. rewrite <- Hs in Hne.
    exact (leak_test m zs d i j Hm Hne Hw).
  - intros Hl. apply (C36_watertight _ _ Hr). intros k n' Hp. apply block_pattern_pat in Hp as ->.
    rewrite (pat_ext _ _ k (fillb_block n)). intros Hin.
    pose proof block_neighbours_ok as H. rewrite forallb_forall in H.
    specialize (H n ltac:(apply in_map_iff; exists (Z.to_nat n); split; [lia|apply in_seq; lia])).
    apply orb_true_iff in H as [H|H]; [apply leakyb_iff in H; contradiction|].
    rewrite forallb_forall in H.
    assert (Hne : pat (blockfill n) k <> 0) by (intros E; rewrite E, <- leakyb_iff in Hin; vm_compute in Hin; discriminate Hin).
    specialize (H k). rewrite (proj2 (leakyb_iff _) Hin) in H. discriminate H. unfold block_K. apply List.filter_In.
    split; [apply (block_cells n), Hne|]. apply negb_true_iff, Z.eqb_neq, Hne.
Qed.

(** *** Well-composed models *)

(** Within the 2x2x2 block at [k], any two voxels satisfying [P] are joined by a chain of face neighbours satisfying [P]. *)
Definition block_connected (P : key -> Prop) (k : key) : Prop :=
  forall i j, (i < 8)%nat -> (j < 8)%nat -> P (corner i k) -> P (corner j k) ->
    rtc (fun u v => (v < 8)%nat /\ axis_neighbour (corner u k) (corner v k) /\ P (corner v k)) i j.

Definition well_composed (b : binvox Q) : Prop :=
  forall k, block_connected (filled b) k /\ block_connected (fun v => ~ filled b v) k.

(** The unhandled chains of four voxels 2-1-0-4 and so on. *)
Definition unhandled_chains : list Z := [23; 43; 142; 212; 232].

Definition adjb (i j : nat) : bool :=
  let d := ksub (nth i corner_off (0,0,0)) (nth j corner_off (0,0,0)) in Z.abs (kx d) + Z.abs (ky d) + Z.abs (kz d) =? 1.

(** Flood fill from [i] over the corners whose bit is [c]. *)
Definition flood_step (n : Z) (c : bool) (r : list nat) : list nat :=
  List.filter (fun j => existsb (Nat.eqb j) r || (Bool.eqb (Z.testbit n (Z.of_nat j)) c && existsb (adjb j) r)) (seq 0 8).
Definition flood (n : Z) (c : bool) (i : nat) : list nat := Nat.iter 8 (flood_step n c) [i].

Lemma flood_closed_all : forallb (fun n => forallb (fun c => forallb (fun i =>
    let r := flood n c i in existsb (Nat.eqb i) r && forallb (fun u => forallb (fun v =>
      negb (adjb v u && Bool.eqb (Z.testbit n (Z.of_nat v)) c) || existsb (Nat.eqb v) r) (seq 0 8)) r) (seq 0 8)) [true; false])
  (map Z.of_nat (seq 0 256)) = true.
Proof. vm_cast_no_check (eq_refl true). Qed.

Definition conn_ok (n : Z) (c : bool) : bool :=
  forallb (fun i => let r := flood n c i in
     forallb (fun j => negb (Bool.eqb (Z.testbit n (Z.of_nat i)) c && Bool.eqb (Z.testbit n (Z.of_nat j)) c)
     || existsb (Nat.eqb j) r) (seq 0 8)) (seq 0 8).

Lemma leaky_not_connected : forallb (fun n => negb (conn_ok n true && conn_ok n false) || existsb (Z.eqb n) unhandled_chains) leaky_patterns = true.
Proof. vm_compute. reflexivity. Qed.

Lemma adjb_iff i j k : adjb i j = true <-> axis_neighbour (corner i k) (corner j k).
Proof.
  unfold adjb, axis_neighbour, corner, kadd, ksub. rewrite Z.eqb_eq. unfold kx at 1 4 6, ky at 1 4 6, kz at 1 4 6. cbn [fst snd].
  unfold kx, ky, kz. cbn [fst snd]. destruct (nth i corner_off (0,0,0)) as [[? ?] ?], (nth j corner_off (0,0,0)) as [[? ?] ?]. cbn [fst snd].
  match goal with |- ?a = 1 <-> ?b = 1 => assert (a = b) as -> end; [|reflexivity]. f_equal; [f_equal|]; f_equal; lia.
Qed.

Lemma connected_conn_ok fill c k (P : key -> Prop) : (forall v, P v <-> fill v = c) -> block_connected P k -> conn_ok (pat fill k) c = true.
Proof.
  intros HP H. unfold conn_ok. rewrite forallb_forall. intros i Hi. cbn zeta. rewrite forallb_forall. intros j Hj.
  destruct (Bool.eqb (Z.testbit (pat fill k) (Z.of_nat i)) c && Bool.eqb (Z.testbit (pat fill k) (Z.of_nat j)) c) eqn:E; [|reflexivity].
  cbn [negb orb]. apply andb_true_iff in E as [Ei Ej]. apply eqb_prop in Ei, Ej.
  pose proof Hi as Hi'. pose proof Hj as Hj'. apply in_seq in Hi', Hj'. rewrite pat_bit in Ei, Ej by lia.
  specialize (H i j ltac:(lia) ltac:(lia) (proj2 (HP _) Ei) (proj2 (HP _) Ej)).
  pose proof flood_closed_all as F. rewrite forallb_forall in F. specialize (F _ (pat_range fill k)). rewrite forallb_forall in F.
  specialize (F c ltac:(destruct c; cbn; auto)). rewrite forallb_forall in F. specialize (F i Hi). cbn zeta in F.
  apply andb_true_iff in F as [F0 F]. rewrite forallb_forall in F.
  assert (G : forall u v, rtc (fun u v => (v < 8)%nat /\ axis_neighbour (corner u k) (corner v k) /\ P (corner v k)) u v ->
     existsb (Nat.eqb u) (flood (pat fill k) c i) = true -> existsb (Nat.eqb v) (flood (pat fill k) c i) = true).
  { induction 1 as [|u v w (Hv & Ha & Hpv) _ IH]; [auto|]. intros Hu. apply IH. apply existsb_exists in Hu as (u' & Hu & E).
    apply Nat.eqb_eq in E as <-. specialize (F u Hu). rewrite forallb_forall in F. specialize (F v ltac:(apply in_seq; lia)).
    apply orb_true_iff in F as [F|F]; [|exact F]. exfalso. apply negb_true_iff, andb_false_iff in F as [F|F].
    - assert (adjb v u = true) as Ht; [|rewrite Ht in F; discriminate F]. apply (adjb_iff v u k). revert Ha. unfold axis_neighbour. lia.
    - apply HP in Hpv. rewrite pat_bit, Hpv in F by lia. clear -F. destruct c; discriminate. }
  exact (G i j H F0).
Qed.

Theorem C36_well_composed b m : manifold_run b m -> well_composed b ->
  (forall k n, block_pattern b k n -> ~ In n unhandled_chains) -> watertight m.
Proof.
  intros Hr Hw Hu. apply (C36_watertight b m Hr). intros k n Hp Hl.
  pose proof leaky_not_connected as H. rewrite forallb_forall in H. specialize (H n Hl).
  apply orb_true_iff in H as [H|H].
  - apply negb_true_iff, andb_false_iff in H. destruct (Hw k) as [H1 H2]. apply block_pattern_pat in Hp as ->.
    apply (connected_conn_ok (fillb b) true k) in H1; [|intros v; symmetry; apply fillb_iff].
    apply (connected_conn_ok (fillb b) false k) in H2; [|intros v; rewrite <- fillb_iff; apply not_true_iff_false].
    destruct H; congruence.
  - apply existsb_exists in H as (x & Hx & E). apply Z.eqb_eq in E as ->. exact (Hu k x Hp Hx).
Qed.

(** *** Orientation *)

(** The closed cell of a voxel in world space. *)
Definition in_voxel (b : binvox Q) (v : key) (p : qpt) : Prop :=
  let s := (1 / vpmm b)%Q in
  (inject_Z (kx v) * s + TX b <= px p <= (inject_Z (kx v) + 1) * s + TX b)%Q /\
  (inject_Z (ky v) * s + TY b <= py p <= (inject_Z (ky v) + 1) * s + TY b)%Q /\
  (inject_Z (kz v) * s + TZ b <= pz p <= (inject_Z (kz v) + 1) * s + TZ b)%Q.

Definition centroid (a b c : qpt) : qpt :=
  (((px a + px b + px c) * (1 # 3))%Q, ((py a + py b + py c) * (1 # 3))%Q, ((pz a + pz b + pz c) * (1 # 3))%Q).

(** Local check: the sum of the three corners of the triangle lies in the two voxels at corners i and j of the cell. *)
Definition in_corner (i : nat) (s : key) : bool :=
  let o := nth i corner_off (0,0,0) in
  (6 * (kx o - 1) <=? kx s) && (kx s <=? 6 * kx o) && (6 * ky o <=? ky s) && (ky s <=? 6 * (ky o + 1)) &&
  (6 * (kz o - 1) <=? kz s) && (kz s <=? 6 * kz o).

Definition tri_outward (n : Z) (t : zface) : bool :=
  let '(p, q, r) := t in let s := kadd p (kadd q r) in
  existsb (fun i => existsb (fun j =>
    Z.testbit n (Z.of_nat i) && negb (Z.testbit n (Z.of_nat j)) && adjb i j && in_corner i s && in_corner j s &&
    (0 <? zdot_normal p q r (ksub (nth j corner_off (0,0,0)) (nth i corner_off (0,0,0))))) (seq 0 8)) (seq 0 8).

Lemma connected_outward : forallb (fun n => negb (conn_ok n true && conn_ok n false) || forallb (tri_outward n) (mf_ztris n))
  (map Z.of_nat (seq 0 256)) = true.
Proof. vm_cast_no_check (eq_refl true). Qed.

Lemma in_corner_voxel b k i p q r a1 a2 a3 : (0 <= 1 / vpmm b)%Q ->
  qpt_eq a1 (mf_pos b (kadd (kdouble k) p)) -> qpt_eq a2 (mf_pos b (kadd (kdouble k) q)) -> qpt_eq a3 (mf_pos b (kadd (kdouble k) r)) ->
  in_corner i (kadd p (kadd q r)) = true -> in_voxel b (corner i k) (centroid a1 a2 a3).
Proof.
  intros Hs E1 E2 E3. unfold in_corner. rewrite !andb_true_iff, !Z.leb_le. intros (((((H1 & H2) & H3) & H4) & H5) & H6).
  unfold in_voxel, corner. destruct (nth i corner_off (0,0,0)) as [[ox oy] oz].
  apply qpt_eq_coords in E1 as (X1 & Y1 & Z1). apply qpt_eq_coords in E2 as (X2 & Y2 & Z2). apply qpt_eq_coords in E3 as (X3 & Y3 & Z3).
  destruct k as [[kx' ky'] kz'], p as [[p1 p2] p3], q as [[q1 q2] q3], r as [[r1 r2] r3].
  unfold mf_pos, centroid, kadd, kdouble in *. unfold kx, ky, kz in *. unfold px, py, pz in X1, Y1, Z1, X2, Y2, Z2, X3, Y3, Z3 |- *. cbn [fst snd] in *.
  rewrite X1, X2, X3, Y1, Y2, Y3, Z1, Z2, Z3. clear -Hs H1 H2 H3 H4 H5 H6.
  rewrite Zle_Qle in H1, H2, H3, H4, H5, H6. unfold Z.sub in *. rewrite !inject_Z_mult, !inject_Z_plus in *.
  revert Hs. generalize (1 / vpmm b)%Q. intros s Hs.
  change (inject_Z 6) with 6%Q in *. change (inject_Z 2) with 2%Q in *. change (inject_Z (-(1))) with (-1)%Q in *. change (inject_Z 1) with 1%Q in *.
  assert (G : forall u v w, (u <= v)%Q -> (u * s + w <= v * s + w)%Q).
  { intros u v w Huv. apply Qplus_le_l, Qmult_le_compat_r; assumption. }
  assert (X : forall c, ((((2 * inject_Z kx' + inject_Z p1 + 2) * (1 # 2) * s + c + ((2 * inject_Z kx' + inject_Z q1 + 2) * (1 # 2) * s + c) +
     ((2 * inject_Z kx' + inject_Z r1 + 2) * (1 # 2) * s + c)) * (1 # 3)) ==
     (inject_Z kx' + 1 + (inject_Z p1 + (inject_Z q1 + inject_Z r1)) * (1 # 6)) * s + c)%Q) by (intros c; ring).
  assert (Y : forall c, ((((2 * inject_Z ky' + inject_Z p2) * (1 # 2) * s + c + ((2 * inject_Z ky' + inject_Z q2) * (1 # 2) * s + c) +
     ((2 * inject_Z ky' + inject_Z r2) * (1 # 2) * s + c)) * (1 # 3)) ==
     (inject_Z ky' + (inject_Z p2 + (inject_Z q2 + inject_Z r2)) * (1 # 6)) * s + c)%Q) by (intros c; ring).
  assert (Z : forall c, ((((2 * inject_Z kz' + inject_Z p3 + 2) * (1 # 2) * s + c + ((2 * inject_Z kz' + inject_Z q3 + 2) * (1 # 2) * s + c) +
     ((2 * inject_Z kz' + inject_Z r3 + 2) * (1 # 2) * s + c)) * (1 # 3)) ==
     (inject_Z kz' + 1 + (inject_Z p3 + (inject_Z q3 + inject_Z r3)) * (1 # 6)) * s + c)%Q) by (intros c; ring).
  rewrite X, Y, Z. clear X Y Z.
  split; [|split]; split; apply G; lra.
Qed.

Lemma faces_along_mf b D A1 A2 A3 v w q1 q2 q3 :
  qpt_eq q1 (mf_pos b (kadd D A1)) -> qpt_eq q2 (mf_pos b (kadd D A2)) -> qpt_eq q3 (mf_pos b (kadd D A3)) ->
  (faces_along q1 q2 q3 (qsub (voxel_center b w) (voxel_center b v)) ==
   inject_Z (zdot_normal A1 A2 A3 (ksub w v)) * ((1 # 4) * (1 / vpmm b) * (1 / vpmm b) * (1 / vpmm b)))%Q.
Proof.
  destruct q1 as [[x1 y1] z1], q2 as [[x2 y2] z2], q3 as [[x3 y3] z3].
  destruct D as [[dx dy] dz], A1 as [[a1 a2] a3], A2 as [[b1 b2] b3], A3 as [[c1 c2] c3], v as [[v1 v2] v3], w as [[w1 w2] w3].
  unfold mf_pos, qpt_eq, kadd, ksub, kx, ky, kz. cbn [fst snd]. intros (E1 & E2 & E3) (E4 & E5 & E6) (E7 & E8 & E9).
  unfold faces_along, zdot_normal, qsub, voxel_center, px, py, pz, kx, ky, kz. cbn [fst snd].
  rewrite E1, E2, E3, E4, E5, E6, E7, E8, E9. clear.
  unfold Z.sub. repeat (rewrite ?inject_Z_plus, ?inject_Z_mult, ?inject_Z_opp). set (s := (1 / vpmm b)%Q). ring.
Qed.

(** Every triangle of a run comes from a cell. *)
Lemma manifold_triangle b m a1 a2 a3 : manifold_run b m -> In (a1, a2, a3) m ->
  exists k p q r, In (p, q, r) (mf_ztris (pat (fillb b) k)) /\
    qpt_eq a1 (mf_pos b (kadd (kdouble k) p)) /\ qpt_eq a2 (mf_pos b (kadd (kdouble k) q)) /\ qpt_eq a3 (mf_pos b (kadd (kdouble k) r)).
Proof.
  intros (whites & cols & order & Hw & Hc & Ho & ->) Hin.
  destruct (manifold_order b whites cols order Hw Hc Ho) as (Eo & _ & _).
  unfold ManifoldMesh in Hin. rewrite Eo in Hin. apply in_flat_map in Hin as ([k n] & Hk & Hin).
  apply in_map_iff in Hk as (k' & [= -> <-] & _). rewrite grid2tris_nat in Hin.
  apply in_map_iff in Hin as ([[p q] r] & E & Hin). exists k, p, q, r. split; [exact Hin|].
  cbn [map3] in E. injection E as <- <- <-. split; [apply mf_v2v_pos|split; apply mf_v2v_pos].
Qed.

Theorem C36_outward b m a1 a2 a3 : (0 < vpmm b)%Q -> manifold_run b m -> well_composed b -> In (a1, a2, a3) m ->
  exists v w, separates b v w /\ in_voxel b v (centroid a1 a2 a3) /\ in_voxel b w (centroid a1 a2 a3) /\
    (0 < faces_along a1 a2 a3 (qsub (voxel_center b w) (voxel_center b v)))%Q.
Proof.
  intros Hs Hr Hwc Hin. destruct (manifold_triangle b m a1 a2 a3 Hr Hin) as (k & p & q & r & Ht & E1 & E2 & E3).
  pose proof connected_outward as H. rewrite forallb_forall in H. specialize (H _ (pat_range (fillb b) k)).
  destruct (Hwc k) as [H1 H2].
  apply (connected_conn_ok (fillb b) true k) in H1; [|intros v; symmetry; apply fillb_iff].
  apply (connected_conn_ok (fillb b) false k) in H2; [|intros v; rewrite <- fillb_iff; apply not_true_iff_false].
  rewrite H1, H2 in H. cbn [andb negb orb] in H. clear H1 H2. rewrite forallb_forall in H. specialize (H _ Ht). cbn [tri_outward] in H.
  apply existsb_exists in H as (i & Hi & H). apply existsb_exists in H as (j & Hj & H). apply in_seq in Hi, Hj.
  rewrite !andb_true_iff in H. destruct H as (((((Bi & Bj) & Ha) & Ci) & Cj) & Hd).
  rewrite pat_bit in Bi, Bj by lia. exists (corner i k), (corner j k).
  assert (Hp : (0 < 1 / vpmm b)%Q) by (unfold Qdiv; rewrite Qmult_1_l; apply Qinv_lt_0_compat, Hs).
  split; [|split; [|split]].
  - split; [apply fillb_iff, Bi|]. split; [rewrite <- fillb_iff; apply not_true_iff_false, negb_true_iff, Bj|]. apply adjb_iff, Ha.
  - eapply in_corner_voxel; eauto. apply Qlt_le_weak, Hp.
  - eapply in_corner_voxel; eauto. apply Qlt_le_weak, Hp.
  - rewrite (faces_along_mf b (kdouble k) p q r _ _ _ _ _ E1 E2 E3).
    assert (Ed : ksub (corner j k) (corner i k) = ksub (nth j corner_off (0,0,0)) (nth i corner_off (0,0,0))).
    { unfold corner. destruct (nth i corner_off (0,0,0)) as [[? ?] ?], (nth j corner_off (0,0,0)) as [[? ?] ?], k as [[? ?] ?].
      unfold ksub, kadd, kx, ky, kz. cbn [fst snd]. apply key_eq; lia. }
    rewrite Ed. apply Z.ltb_lt in Hd. rewrite Zlt_Qlt in Hd. change (inject_Z 0) with 0%Q in Hd.
    set (s := (1 / vpmm b)%Q) in *. clearbody s.
    apply Qmult_lt_0_compat; [exact Hd|].
    apply Qmult_lt_0_compat; [apply Qmult_lt_0_compat; [apply Qmult_lt_0_compat; [reflexivity|]|]|]; assumption.
Qed.

(** *** Well-composed blocks, for examples *)
Lemma flood_sound n c i k (P : key -> Prop) : (forall j, (j < 8)%nat -> Z.testbit n (Z.of_nat j) = c -> P (corner j k)) ->
  (i < 8)%nat -> forall j, In j (flood n c i) ->
  rtc (fun u v => (v < 8)%nat /\ axis_neighbour (corner u k) (corner v k) /\ P (corner v k)) i j.
Proof.
  intros HP Hi. unfold flood.
  assert (G : forall fuel j, In j (Nat.iter fuel (flood_step n c) [i]) ->
    rtc (fun u v => (v < 8)%nat /\ axis_neighbour (corner u k) (corner v k) /\ P (corner v k)) i j); [|apply G].
  induction fuel as [|fuel IH]; intros j Hj.
  - cbn in Hj. destruct Hj as [<-|[]]. constructor.
  - change (In j (flood_step n c (Nat.iter fuel (flood_step n c) [i]))) in Hj. unfold flood_step at 1 in Hj. apply List.filter_In in Hj as [Hj E]. apply in_seq in Hj.
    apply orb_true_iff in E as [E|E].
    + apply existsb_exists in E as (u & Hu & E). apply Nat.eqb_eq in E as ->. apply IH, Hu.
    + apply andb_true_iff in E as [Ec E]. apply eqb_prop in Ec. apply existsb_exists in E as (u & Hu & E).
      eapply rtc_r; [apply IH, Hu|]. split; [lia|]. split; [|apply HP; [lia|exact Ec]].
      apply (adjb_iff j u k) in E. revert E. unfold axis_neighbour. lia.
Qed.

Lemma conn_ok_elim n c i j : conn_ok n c = true -> (i < 8)%nat -> (j < 8)%nat ->
  Z.testbit n (Z.of_nat i) = c -> Z.testbit n (Z.of_nat j) = c -> In j (flood n c i).
Proof.
  unfold conn_ok. generalize (flood n c). intros fl H Hi Hj Ei Ej. rewrite forallb_forall in H.
  specialize (H i (proj2 (in_seq _ _ _) (conj (Nat.le_0_l i) Hi))). cbn beta zeta in H. rewrite forallb_forall in H.
  specialize (H j (proj2 (in_seq _ _ _) (conj (Nat.le_0_l j) Hj))). cbn beta in H. rewrite Ei, Ej, Bool.eqb_reflx in H.
  apply (existsb_exists (Nat.eqb j) (fl i)) in H as (j' & Hin & E). apply Nat.eqb_eq in E as <-. exact Hin.
Qed.

Lemma conn_ok_connected fill c k (P : key -> Prop) : (forall v, P v <-> fill v = c) -> conn_ok (pat fill k) c = true -> block_connected P k.
Proof.
  intros HP H i j Hi Hj Pi Pj. apply HP in Pi, Pj. rewrite <- (pat_bit fill i k Hi) in Pi. rewrite <- (pat_bit fill j k Hj) in Pj.
  apply (flood_sound (pat fill k) c i k P); [|exact Hi|apply conn_ok_elim; assumption].
  intros u Hu Eu. apply HP. rewrite <- (pat_bit fill u k Hu). exact Eu.
Qed.

Lemma block_well_composed n : forallb (fun k => conn_ok (pat (blockfill n) k) true && conn_ok (pat (blockfill n) k) false) around = true ->
  well_composed (block n).
Proof.
  intros H k.
  assert (G : conn_ok (pat (blockfill n) k) true && conn_ok (pat (blockfill n) k) false = true).
  { destruct (Z.eq_dec (pat (blockfill n) k) 0) as [->|Hne]; [vm_compute; reflexivity|].
    rewrite forallb_forall in H. apply H, (block_cells n), Hne. }
  apply andb_true_iff in G as [G1 G2]. rewrite <- (pat_ext _ _ k (fillb_block n)) in G1, G2. split.
  - apply (conn_ok_connected (fillb (block n)) true); [intros v; symmetry; apply fillb_iff|exact G1].
  - apply (conn_ok_connected (fillb (block n)) false); [intros v; rewrite <- fillb_iff; apply not_true_iff_false|exact G2].
Qed.

Lemma count_zsum zs p q : Z.of_nat (count_edge (map (push zpt) zs) p q) = zsum (fun e => if matches (push zpt e) p q then 1 else 0) zs.
Proof. induction zs as [|z zs IH]; [reflexivity|]. cbn [map zsum]. rewrite count_cons. destruct (matches (push zpt z) p q); lia. Qed.

(** The L-shaped model of three voxels: well-composed and watertight, but only up to T-junctions: the mesh is
    not closed edge by edge. *)
Theorem C36_t_junctions m : manifold_run (block 7) m ->
  well_composed (block 7) /\ (forall k n, block_pattern (block 7) k n -> ~ In n unhandled_chains) /\ watertight m /\ ~ closed_mesh m.
Proof.
  intros Hr. split; [apply block_well_composed; vm_compute; reflexivity|]. split; [|split].
  - intros k n Hp Hn. apply block_pattern_pat in Hp as ->. rewrite (pat_ext _ _ k (fillb_block 7)) in Hn.
    assert (H : forallb (fun k => negb (existsb (Z.eqb (pat (blockfill 7) k)) unhandled_chains)) around = true) by (vm_compute; reflexivity).
    rewrite forallb_forall in H. specialize (H k). rewrite (proj2 (existsb_exists _ _)) in H by (eexists; split; [exact Hn|apply Z.eqb_refl]).
    discriminate H. apply (block_cells 7). intros E. rewrite E in Hn. cbn in Hn. lia.
  - apply (C36_leaky_exactly 7 m ltac:(lia) Hr). intros H. apply leakyb_iff in H. vm_compute in H. discriminate H.
  - intros Hc. destruct (block_mesh 7 m Hr) as (zs & Hm & Hs).
    specialize (Hc (zpt (2,1,0)) (zpt (2,3,0))). unfold closed_mesh in Hc.
    rewrite (count_edge_ext _ _ _ _ Hm), (count_edge_ext _ _ (zpt (2,3,0)) _ Hm) in Hc.
    apply (f_equal Z.of_nat) in Hc. rewrite !count_zsum, !Hs in Hc. vm_compute in Hc. discriminate Hc.
Qed.

(** A well-composed model that leaks: a twisted chain of four voxels. *)
Theorem C36_chain_leaks m : manifold_run (block 23) m -> well_composed (block 23) /\ ~ watertight m.
Proof.
  intros Hr. split; [apply block_well_composed; vm_compute; reflexivity|].
  rewrite (C36_leaky_exactly 23 m ltac:(lia) Hr). intros H. apply H, leakyb_iff. vm_compute. reflexivity.
Qed.

(** Handled patterns that leak all the same: 194 is given the triangles of another pattern. *)
Theorem C36_wrong_template m : manifold_run (block 194) m -> mf_ztris 194 <> [] /\ ~ watertight m.
Proof.
  intros Hr. split; [vm_compute; discriminate|].
  rewrite (C36_leaky_exactly 194 m ltac:(lia) Hr). intros H. apply H, leakyb_iff. vm_compute. reflexivity.
Qed.

(** ** C37: the order used for sorting *)

(** The nine coordinates in the order in which they are compared. *)
Definition face_key (t : face) : list Q :=
  let '(a, b, c) := t in [pz a; py a; px a; pz b; py b; px b; pz c; py c; px c].

Fixpoint lexlt (l l' : list Q) : Prop :=
  match l, l' with
  | x :: l, y :: l' => (x < y)%Q \/ (x == y)%Q /\ lexlt l l'
  | _, _ => False
  end.

Lemma qlt_iff a b : qlt a b = true <-> (a < b)%Q.
Proof.
  unfold qlt. rewrite negb_true_iff. split; intros H.
  - apply Qnot_le_lt. intros Hle. apply Qle_bool_iff in Hle. congruence.
  - apply not_true_iff_false. rewrite Qle_bool_iff. apply Qlt_not_le, H.
Qed.

Lemma lex_step x y r (R : Prop) : (r = true <-> R) ->
  (if qlt x y then true else if qlt y x then false else r) = true <-> (x < y)%Q \/ (x == y)%Q /\ R.
Proof.
  intros Hr. destruct (qlt x y) eqn:E1; [apply qlt_iff in E1; tauto|]. destruct (qlt y x) eqn:E2.
  - apply qlt_iff in E2. split; [discriminate|]. intros [H|[H _]]; [|rewrite H in E2]; exfalso; revert E2; [apply Qle_not_lt, Qlt_le_weak, H|apply Qlt_irrefl].
  - rewrite Hr. apply not_true_iff_false in E1, E2. rewrite qlt_iff in E1, E2. split; [|tauto].
    intros HR. right. split; [|exact HR]. apply Qle_antisym; apply Qnot_lt_le; assumption.
Qed.

(** TriangleLess is the lexicographic order on the nine coordinates. *)
Theorem C37_lexicographic s t : TriangleLess s t = true <-> lexlt (face_key s) (face_key t).
Proof.
  destruct s as [[a1 a2] a3], t as [[b1 b2] b3]. unfold TriangleLess, face_key. cbn [lexlt].
  do 8 apply lex_step. rewrite qlt_iff. tauto.
Qed.

Lemma lexlt_irrefl l : ~ lexlt l l.
Proof. induction l as [|x l IH]; cbn; [tauto|]. intros [H|[_ H]]; [apply (Qlt_irrefl x H)|exact (IH H)]. Qed.

Lemma lexlt_trans l1 l2 l3 : lexlt l1 l2 -> lexlt l2 l3 -> lexlt l1 l3.
Proof.
  revert l2 l3. induction l1 as [|x l1 IH]; intros [|y l2] [|z l3]; cbn; try tauto.
  intros [H1|[E1 H1]] [H2|[E2 H2]].
  - left. eapply Qlt_trans; eassumption.
  - left. rewrite <- E2. exact H1.
  - left. rewrite E1. exact H2.
  - right. split; [rewrite E1; exact E2|]. eapply IH; eassumption.
Qed.

Lemma lexlt_total l1 l2 : length l1 = length l2 -> lexlt l1 l2 \/ Forall2 Qeq l1 l2 \/ lexlt l2 l1.
Proof.
  revert l2. induction l1 as [|x l1 IH]; intros [|y l2] E; try discriminate E; cbn; [auto|].
  injection E as E. destruct (Q_dec x y) as [[H|H]|H]; [auto|auto|].
  destruct (IH l2 E) as [G|[G|G]]; [left; right; auto|right; left; constructor; assumption|right; right; right; split; [symmetry; exact H|exact G]].
Qed.

Lemma face_key_eq s t : Forall2 Qeq (face_key s) (face_key t) <-> face_eq s t.
Proof.
  destruct s as [[a1 a2] a3], t as [[b1 b2] b3]. unfold face_key, face_eq. rewrite !qpt_eq_coords, !Forall2_cons, Forall2_nil. tauto.
Qed.

Theorem C37_irreflexive t : TriangleLess t t = false.
Proof. apply not_true_iff_false. rewrite C37_lexicographic. apply lexlt_irrefl. Qed.

Theorem C37_transitive s t u : TriangleLess s t = true -> TriangleLess t u = true -> TriangleLess s u = true.
Proof. rewrite !C37_lexicographic. apply lexlt_trans. Qed.

(** Incomparable triangles have the same coordinates. *)
Theorem C37_total s t : TriangleLess s t = false /\ TriangleLess t s = false <-> face_eq s t.
Proof.
  rewrite <- !not_true_iff_false, !C37_lexicographic. split.
  - intros [H1 H2]. destruct (lexlt_total (face_key s) (face_key t)) as [H|[H|H]]; [|tauto|apply face_key_eq, H|tauto].
    destruct s as [[? ?] ?], t as [[? ?] ?]. reflexivity.
  - intros H. apply face_key_eq in H.
    assert (G : forall l l', Forall2 Qeq l l' -> ~ lexlt l l' /\ ~ lexlt l' l).
    { induction 1 as [|x y l l' E _ IH]; [cbn; tauto|]. cbn.
      split; (intros [Hlt|[_ Hlt]]; [|tauto]); rewrite E in Hlt; exact (Qlt_irrefl y Hlt). }
    apply G, H.
Qed.

(** Sorted with respect to TriangleLess, as sort.Slice leaves the mesh: no triangle is less than one before it. *)
Definition tri_sorted (l : list face) : Prop := StronglySorted (fun s t => TriangleLess t s = false) l.

Definition canon (t : face) : list Q := map Qred (face_key t).

Lemma canon_eq s t : canon s = canon t <-> face_eq s t.
Proof.
  rewrite <- face_key_eq. unfold canon. generalize (face_key s) (face_key t). clear. induction l as [|x l IH]; intros [|y l'].
  - split; [constructor|reflexivity].
  - split; [discriminate|intros H; inversion H].
  - split; [discriminate|intros H; inversion H].
  - cbn [map]. rewrite Forall2_cons, <- IH. split.
    + intros [= H1 H2]. split; [|exact H2]. rewrite <- (Qred_correct x), <- (Qred_correct y), H1. reflexivity.
    + intros [H1 H2]. rewrite (Qred_complete _ _ H1), H2. reflexivity.
Qed.

Lemma lexlt_map_Qred l l' : lexlt (map Qred l) (map Qred l') <-> lexlt l l'.
Proof. revert l'. induction l as [|x l IH]; intros [|y l']; cbn [map lexlt]; try tauto. rewrite IH, !Qred_correct. reflexivity. Qed.

(** Sorted meshes with the same triangles are equal position by position, whatever the order they were produced in. *)
Theorem C37_sorted_unique l l' : Permutation l l' -> tri_sorted l -> tri_sorted l' -> Forall2 face_eq l l'.
Proof.
  intros Hp Hs Hs'.
  assert (E : map canon l = map canon l').
  { assert (Ha : AntiSymm eq (fun u v => u = v \/ lexlt u v)).
    { intros u v [?|Hu] [?|Hv]; try congruence. exfalso. apply (lexlt_irrefl u), (lexlt_trans u v u Hu Hv). }
    apply (StronglySorted_unique (fun u v => u = v \/ lexlt u v)).
    - revert Hs. apply StronglySorted_fmap. intros s t H. apply not_true_iff_false in H. rewrite C37_lexicographic, <- lexlt_map_Qred in H.
      destruct (lexlt_total (face_key s) (face_key t)) as [G|[G|G]]; [destruct s as [[? ?] ?], t as [[? ?] ?]; reflexivity|..].
      + right. apply lexlt_map_Qred, G.
      + left. apply canon_eq, face_key_eq, G.
      + exfalso. apply H, lexlt_map_Qred, G.
    - revert Hs'. apply StronglySorted_fmap. intros s t H. apply not_true_iff_false in H. rewrite C37_lexicographic, <- lexlt_map_Qred in H.
      destruct (lexlt_total (face_key s) (face_key t)) as [G|[G|G]]; [destruct s as [[? ?] ?], t as [[? ?] ?]; reflexivity|..].
      + right. apply lexlt_map_Qred, G.
      + left. apply canon_eq, face_key_eq, G.
      + exfalso. apply H, lexlt_map_Qred, G.
    - apply Permutation_map, Hp. }
  clear Hp Hs Hs'. revert l' E. induction l as [|s l IH]; intros [|t l'] E; try discriminate E; [constructor|].
  injection E as E1 E2. constructor; [apply canon_eq, E1|apply IH, E2].
Qed.

(** Any two runs of ManifoldMesh on the same model have the same sorted mesh. *)
Theorem C37_runs_agree b m m' s s' : manifold_run b m -> manifold_run b m' ->
  Permutation m s -> Permutation m' s' -> tri_sorted s -> tri_sorted s' -> Forall2 face_eq s s'.
Proof.
  intros (w1 & c1 & o1 & Hw1 & Hc1 & Ho1 & ->) (w2 & c2 & o2 & Hw2 & Hc2 & Ho2 & ->) Hs Hs' Ss Ss'.
  apply C37_sorted_unique; [|exact Ss|exact Ss']. rewrite <- Hs, <- Hs'. unfold ManifoldMesh.
  apply Permutation_flat_map. rewrite Ho1, Ho2. clear -Hw1 Hw2 Hc1 Hc2.
  replace (manifold_cells w1 c1) with (manifold_cells w2 c2); [reflexivity|].
  apply map_eq. intros k. apply option_eq. intros n.
  rewrite (manifold_cells_spec b w2 c2 Hw2 Hc2 k n), (manifold_cells_spec b w1 c1 Hw1 Hc1 k n). reflexivity.
Qed.

(** Two triangles that differ only in the last coordinate compared. *)
Example C37_example : TriangleLess (zpt (0,0,0), zpt (1,0,0), zpt (0,1,0)) (zpt (0,0,0), zpt (1,0,0), zpt (2,1,0)) = true.
Proof. reflexivity. Qed.

Print Assumptions C35_cells.
Print Assumptions C36_watertight.
Print Assumptions C36_leaky_exactly.
Print Assumptions C36_well_composed.
Print Assumptions C36_outward.
Print Assumptions C36_t_junctions.
Print Assumptions C37_sorted_unique.
Print Assumptions C37_runs_agree.
