(** C71, by winding numbers: what the mesh of ToMesh encloses. *)
From Verif Require Import Base BaseLemmas BinvoxModel Geom VoxelizeModel VoxelizeSpec MeshSpec MeshCells MarchModel MarchProofs MeshInside BinvoxProps ToMesh MeshNear MeshSolid.
From Coq Require Import ZArith QArith Qabs List Lia Lqa Bool Permutation.
From stdpp Require Import base list gmap sets fin_sets.
Import ListNotations.
Open Scope Z_scope.

(** ** Specification *)

(** The inside of the unit cube around the integer point [v]. *)
Definition in_unit_cube (v : key) (p : qpt) : Prop :=
  (Qabs (px p - inject_Z (kx v)) < 1 # 2 /\ Qabs (py p - inject_Z (ky v)) < 1 # 2 /\ Qabs (pz p - inject_Z (kz v)) < 1 # 2)%Q.

(** [m] is the surface of the union of the unit cubes around the points of [l]: no triangle goes through the inside of a
    cube, in or not in [l], and [m] winds once around the insides of those in [l] and not at all around those of the others (at every
    point from which a vertical line meets no edge). *)
Definition surface_of (l : list key) (m : list face) : Prop :=
  forall v p, in_unit_cube v p -> off_mesh m p /\ (meets_no_edge m p -> (In v l -> winding m p = 1) /\ (~ In v l -> winding m p = 0)).

(** [m] is the surface of the voxels of the grid of [b] that satisfy [P], each a cube with sides of 1 / voxels-per-mm. *)
Definition surrounds (b : binvox Q) (m : list face) (P : key -> Prop) : Prop :=
  forall w d, in_cube d -> let p := near b w d in
    off_mesh m p /\ (meets_no_edge m p -> (P w -> winding m p = 1) /\ (~ P w -> winding m p = 0)).

(** ** Moving a mesh *)
Definition move_back (b : binvox Q) (p : qpt) : qpt :=
  let mmpv := (1 / vpmm b)%Q in
  (((px p + (1 # 2)) * mmpv + TX b)%Q, ((py p + (1 # 2)) * mmpv + TY b)%Q, ((pz p + (1 # 2)) * mmpv + TZ b)%Q).
Definition transform (f : qpt -> qpt) (m : list face) : list face := map (fun '(a, b, c) => (f a, f b, f c)) m.
Lemma ToMesh_transform f b whites cols : ToMesh f b whites cols = transform (move_back b) (f (whites ++ cols)).
Proof. reflexivity. Qed.

Section Move.
  Context (b : binvox Q) (Hv : (0 < vpmm b)%Q).
  Let s := (1 / vpmm b)%Q.
  Lemma move_scale : (0 < s)%Q.
  Proof using Hv. unfold s. apply Qlt_shift_div_l; lra. Qed.

  Lemma crossing_move p t : crossing (move_back b p) (let '(x, y, z) := t in (move_back b x, move_back b y, move_back b z)) = crossing p t.
  Proof using Hv.
    destruct t as [[x y] z]. apply (crossing_scale s); [exact move_scale|..]; unfold side, faces_along, qsub, move_back, px, py, pz; cbn [fst snd]; fold s; ring.
  Qed.
  Lemma winding_move m p : winding (transform (move_back b) m) (move_back b p) = winding m p.
  Proof using Hv. unfold winding, transform. rewrite zsum_map. apply zsum_ext. intros t _. apply crossing_move. Qed.

  Lemma off_move m p : off_mesh m p -> off_mesh (transform (move_back b) m) (move_back b p).
  Proof using Hv.
    intros H a c e Hin (r1 & r2 & r3 & H1 & H2 & H3 & H4 & H5 & H6 & H7). apply in_map_iff in Hin as ([[x y] z] & E & Hin). injection E as <- <- <-.
    apply (H x y z Hin). exists r1, r2, r3. repeat split; try assumption.
    all: unfold move_back, px, py, pz in H5, H6, H7; cbn [fst snd] in H5, H6, H7; fold s in H5, H6, H7; pose proof move_scale as Hs; clearbody s.
    - assert (G : (s * (px p - (r1 * px x + r2 * px y + r3 * px z)) == 0)%Q).
      { unfold px. transitivity ((fst (fst p) + (1 # 2)) * s + TX b - (r1 * ((fst (fst x) + (1 # 2)) * s + TX b) + r2 * ((fst (fst y) + (1 # 2)) * s + TX b) + r3 * ((fst (fst z) + (1 # 2)) * s + TX b)) + ((r1 + r2 + r3) - 1) * ((1 # 2) * s + TX b))%Q; [ring|]. rewrite <- H5, H4. ring. }
      apply Qmult_integral in G as [G|G]; lra.
    - assert (G : (s * (py p - (r1 * py x + r2 * py y + r3 * py z)) == 0)%Q).
      { unfold py. transitivity ((snd (fst p) + (1 # 2)) * s + TY b - (r1 * ((snd (fst x) + (1 # 2)) * s + TY b) + r2 * ((snd (fst y) + (1 # 2)) * s + TY b) + r3 * ((snd (fst z) + (1 # 2)) * s + TY b)) + ((r1 + r2 + r3) - 1) * ((1 # 2) * s + TY b))%Q; [ring|]. rewrite <- H6, H4. ring. }
      apply Qmult_integral in G as [G|G]; lra.
    - assert (G : (s * (pz p - (r1 * pz x + r2 * pz y + r3 * pz z)) == 0)%Q).
      { unfold pz. transitivity ((snd p + (1 # 2)) * s + TZ b - (r1 * ((snd x + (1 # 2)) * s + TZ b) + r2 * ((snd y + (1 # 2)) * s + TZ b) + r3 * ((snd z + (1 # 2)) * s + TZ b)) + ((r1 + r2 + r3) - 1) * ((1 # 2) * s + TZ b))%Q; [ring|]. rewrite <- H7, H4. ring. }
      apply Qmult_integral in G as [G|G]; lra.
  Qed.

  Lemma edges_move m : mesh_edges (transform (move_back b) m) = map (fun '(x, y) => (move_back b x, move_back b y)) (mesh_edges m).
  Proof using. induction m as [|[[x y] z] m IH]; [reflexivity|]. cbn. unfold mesh_edges, transform in IH. rewrite IH. reflexivity. Qed.

  Lemma no_edge_move m p : meets_no_edge (transform (move_back b) m) (move_back b p) -> meets_no_edge m p.
  Proof using.
    intros H x y q Hin (t & Ht & Hq) [Ex Ey]. apply (H (move_back b x) (move_back b y) (move_back b q)).
    - rewrite edges_move. apply in_map_iff. exists (x, y). auto.
    - exists t. split; [exact Ht|]. apply qpt_eq_iff in Hq as (Q1 & Q2 & Q3). apply qpt_eq_iff.
      unfold lerp, move_back, px, py, pz in *. cbn [fst snd] in *. rewrite Q1, Q2, Q3. repeat split; ring.
    - unfold move_back, px, py in *. cbn [fst snd]. rewrite Ex, Ey. split; reflexivity.
  Qed.

  Definition in_voxels (w : key) (d : qpt) : qpt := ((inject_Z (kx w) + px d)%Q, (inject_Z (ky w) + py d)%Q, (inject_Z (kz w) + pz d)%Q).
  Lemma near_move w d : qpt_eq (move_back b (in_voxels w d)) (near b w d).
  Proof using. apply qpt_eq_iff. unfold move_back, near, in_voxels, px, py, pz. cbn [fst snd]. repeat split; ring. Qed.

  Lemma surface_move l m : surface_of l m -> surrounds b (transform (move_back b) m) (fun w => In w l).
  Proof using Hv.
    intros H w d (D1 & D2 & D3) p. pose proof (near_move w d) as E. fold p in E.
    destruct (H w (in_voxels w d)) as [H1 H2].
    { unfold in_unit_cube, in_voxels, px, py, pz. cbn [fst snd].
      setoid_replace (inject_Z (kx w) + fst (fst d) - inject_Z (kx w))%Q with (px d) by (unfold px; ring).
      setoid_replace (inject_Z (ky w) + snd (fst d) - inject_Z (ky w))%Q with (py d) by (unfold py; ring).
      setoid_replace (inject_Z (kz w) + snd d - inject_Z (kz w))%Q with (pz d) by (unfold pz; ring). auto. }
    assert (Hpt : forall mm, off_mesh mm (move_back b (in_voxels w d)) -> off_mesh mm p).
    { clear -E. apply qpt_eq_iff in E as (Ex & Ey & Ez). intros mm Ho a b' c Hin (r1 & r2 & r3 & H1 & H2 & H3 & H4 & H5 & H6 & H7). apply (Ho a b' c Hin). exists r1, r2, r3.
      rewrite Ex, Ey, Ez. repeat split; assumption. }
    split; [apply Hpt, off_move, H1|]. intros Hne.
    assert (Ew : winding (transform (move_back b) m) p = winding m (in_voxels w d)).
    { rewrite <- (winding_move m (in_voxels w d)). apply zsum_ext. intros t _. symmetry. apply crossing_q_eq, E. }
    rewrite Ew. apply H2, no_edge_move. apply qpt_eq_iff in E as (Ex & Ey & Ez). intros a c q Hin Hs [G1 G2]. apply (Hne a c q Hin Hs). rewrite <- Ex, <- Ey. auto.
  Qed.
End Move.

(** ToMesh puts the surface that NewVoxelMesh makes of the voxels around the voxels in world space: the cubes whose corners are
    TX + i / voxels-per-mm for the indices i and i + 1, and so on. *)
Theorem C71_winding NewVoxelMesh b whites cols : (0 < vpmm b)%Q ->
  Permutation whites (elements (white b)) -> Permutation cols (elements (dom (colors b))) -> surface_of (whites ++ cols) (NewVoxelMesh (whites ++ cols)) ->
  surrounds b (ToMesh NewVoxelMesh b whites cols) (filled b).
Proof.
  intros Hv Hw Hc Hlib. rewrite ToMesh_transform. intros w d Hd p. destruct (surface_move b Hv _ _ Hlib w d Hd) as [H1 H2]. split; [exact H1|].
  intros Hne. destruct (H2 Hne) as [H3 H4].
  assert (E : In w (whites ++ cols) <-> filled b w).
  { rewrite <- elem_of_list_In, elem_of_app, Hw, Hc, !elem_of_elements, elem_of_dom. reflexivity. }
  rewrite E in H3, H4. auto.
Qed.
Print Assumptions C71_winding.


(** ** A voxel mesh as the library makes it, without joining faces: two triangles for every face between a voxel of the list and one
    that is not in it, turned outwards. *)
Definition corner (v : key) (x y z : Z) : qpt :=
  ((inject_Z (kx v) + (x # 2))%Q, (inject_Z (ky v) + (y # 2))%Q, (inject_Z (kz v) + (z # 2))%Q).
Definition quad (a b c d : qpt) : list face := [(a, b, c); (a, c, d)].
Definition has (l : list key) (v : key) : bool := bool_decide (v ∈ l).
Definition if_open (l : list key) (v : key) (m : list face) : list face := if has l v then [] else m.
Definition top (v : key) : list face := quad (corner v (-1) (-1) 1) (corner v 1 (-1) 1) (corner v 1 1 1) (corner v (-1) 1 1).
Definition bottom (v : key) : list face := quad (corner v (-1) (-1) (-1)) (corner v (-1) 1 (-1)) (corner v 1 1 (-1)) (corner v 1 (-1) (-1)).
Definition walls (l : list key) (v : key) : list face :=
  let '(x, y, z) := v in
  if_open l (x + 1, y, z) (quad (corner v 1 (-1) (-1)) (corner v 1 1 (-1)) (corner v 1 1 1) (corner v 1 (-1) 1)) ++
  if_open l (x - 1, y, z) (quad (corner v (-1) (-1) (-1)) (corner v (-1) (-1) 1) (corner v (-1) 1 1) (corner v (-1) 1 (-1))) ++
  if_open l (x, y + 1, z) (quad (corner v (-1) 1 (-1)) (corner v (-1) 1 1) (corner v 1 1 1) (corner v 1 1 (-1))) ++
  if_open l (x, y - 1, z) (quad (corner v (-1) (-1) (-1)) (corner v 1 (-1) (-1)) (corner v 1 (-1) 1) (corner v (-1) (-1) 1)).
Definition above (v : key) : key := let '(x, y, z) := v in (x, y, z + 1).
Definition under (v : key) : key := let '(x, y, z) := v in (x, y, z - 1).
Definition faces_of (l : list key) (v : key) : list face :=
  walls l v ++ if_open l (above v) (top v) ++ if_open l (under v) (bottom v).
Definition unit_faces (l : list key) : list face := flat_map (faces_of l) l.

(** Every triangle lies in a plane between two layers of cubes. *)
Definition half (c : Q) : Prop := exists n, (c == inject_Z n + (1 # 2))%Q.
Definition flat (t : face) : Prop := let '(a, b, c) := t in
  exists h, half h /\ ((px a == h /\ px b == h /\ px c == h) \/ (py a == h /\ py b == h /\ py c == h) \/ (pz a == h /\ pz b == h /\ pz c == h))%Q.

Lemma half_up n : half (inject_Z n + (1 # 2)).
Proof. exists n. reflexivity. Qed.
Lemma half_down n : half (inject_Z n + (-1 # 2)).
Proof. exists (n - 1). replace (n - 1) with (n + (-1)) by lia. rewrite inject_Z_plus. change (inject_Z (-1)) with (-(1))%Q. unfold Qplus, Qopp, Qeq. cbn. lia. Qed.

Lemma if_open_in l v m t : In t (if_open l v m) -> In t m /\ v ∉ l.
Proof. unfold if_open, has. case_bool_decide; [intros []|auto]. Qed.

Lemma faces_flat l v t : In t (faces_of l v) -> flat t.
Proof.
  unfold faces_of, walls. destruct v as [[x y] z]. rewrite !in_app_iff. intros H.
  assert (G : In t (quad (corner (x, y, z) 1 (-1) (-1)) (corner (x, y, z) 1 1 (-1)) (corner (x, y, z) 1 1 1) (corner (x, y, z) 1 (-1) 1)) \/
    In t (quad (corner (x, y, z) (-1) (-1) (-1)) (corner (x, y, z) (-1) (-1) 1) (corner (x, y, z) (-1) 1 1) (corner (x, y, z) (-1) 1 (-1))) \/
    In t (quad (corner (x, y, z) (-1) 1 (-1)) (corner (x, y, z) (-1) 1 1) (corner (x, y, z) 1 1 1) (corner (x, y, z) 1 1 (-1))) \/
    In t (quad (corner (x, y, z) (-1) (-1) (-1)) (corner (x, y, z) 1 (-1) (-1)) (corner (x, y, z) 1 (-1) 1) (corner (x, y, z) (-1) (-1) 1)) \/
    In t (top (x, y, z)) \/ In t (bottom (x, y, z))).
  { repeat match goal with H : _ \/ _ |- _ => destruct H as [H|H] end; apply if_open_in in H as [H _]; tauto. }
  clear H. unfold top, bottom, quad in G. cbn [In] in G.
  repeat match goal with H : _ \/ _ |- _ => destruct H as [H|H] end; try contradiction; subst t; cbv beta iota delta [flat];
    [exists (inject_Z x + (1 # 2))%Q | exists (inject_Z x + (1 # 2))%Q | exists (inject_Z x + (-1 # 2))%Q | exists (inject_Z x + (-1 # 2))%Q
    | exists (inject_Z y + (1 # 2))%Q | exists (inject_Z y + (1 # 2))%Q | exists (inject_Z y + (-1 # 2))%Q | exists (inject_Z y + (-1 # 2))%Q
    | exists (inject_Z z + (1 # 2))%Q | exists (inject_Z z + (1 # 2))%Q | exists (inject_Z z + (-1 # 2))%Q | exists (inject_Z z + (-1 # 2))%Q];
    (split; [apply half_up || apply half_down|]); unfold corner, px, py, pz, kx, ky, kz; cbn [fst snd];
    first [left; repeat split; reflexivity | right; left; repeat split; reflexivity | right; right; repeat split; reflexivity].
Qed.

Lemma half_gap c n p : half c -> (Qabs (p - inject_Z n) < 1 # 2)%Q -> ~ (p == c)%Q.
Proof.
  intros (i & Hi) Hp E. apply Qabs_Qlt_condition in Hp as [H1 H2]. rewrite E, Hi in H1, H2.
  assert (L : (inject_Z i < inject_Z n)%Q) by lra. assert (R : (inject_Z n < inject_Z i + 1)%Q) by lra.
  change 1%Q with (inject_Z 1) in R. rewrite <- inject_Z_plus, <- Zlt_Qlt in R. rewrite <- Zlt_Qlt in L. lia.
Qed.

Lemma flat_off t v p : flat t -> in_unit_cube v p -> let '(a, b, c) := t in ~ in_triangle a b c p.
Proof.
  destruct t as [[a b] c]. intros (h & Hh & H) (P1 & P2 & P3) (r1 & r2 & r3 & _ & _ & _ & Hr & Ex & Ey & Ez).
  assert (G : forall x y z, (x == h -> y == h -> z == h -> r1 * x + r2 * y + r3 * z == h)%Q).
  { intros x y z -> -> ->. transitivity ((r1 + r2 + r3) * h)%Q; [ring|]. rewrite Hr. ring. }
  destruct H as [(A & B & C)|[(A & B & C)|(A & B & C)]].
  - apply (half_gap h (kx v) (px p) Hh P1). rewrite Ex. apply G; assumption.
  - apply (half_gap h (ky v) (py p) Hh P2). rewrite Ey. apply G; assumption.
  - apply (half_gap h (kz v) (pz p) Hh P3). rewrite Ez. apply G; assumption.
Qed.

Lemma crossing_wall_x a b c h q : (px a == h -> px b == h -> px c == h -> crossing q (a, b, c) = 0%Z)%Q.
Proof.
  intros A B C. apply crossing_outside. assert (E : (side a b q + side b c q + side c a q == 0)%Q) by (unfold side; rewrite A, B, C; ring). split; intros (? & ? & ?); lra.
Qed.
Lemma crossing_wall_y a b c h q : (py a == h -> py b == h -> py c == h -> crossing q (a, b, c) = 0%Z)%Q.
Proof.
  intros A B C. apply crossing_outside. assert (E : (side a b q + side b c q + side c a q == 0)%Q) by (unfold side; rewrite A, B, C; ring). split; intros (? & ? & ?); lra.
Qed.

Lemma walls_winding l v q : winding (walls l v) q = 0.
Proof.
  apply zsum_zero. intros t Ht. unfold walls in Ht. destruct v as [[x y] z]. rewrite !in_app_iff in Ht.
  repeat match goal with H : _ \/ _ |- _ => destruct H as [H|H] end; apply if_open_in in Ht as [Ht _]; unfold quad in Ht; cbn [In] in Ht;
  destruct Ht as [<-|[<-|[]]];
  first [eapply crossing_wall_x; reflexivity | eapply crossing_wall_y; reflexivity].
Qed.

Definition column (w v : key) : bool := (kx v =? kx w) && (ky v =? ky w).

Section Square.
  Context (v w : key) (q : qpt) (Hq : in_unit_cube w q).

  Lemma other_column : column w v = false ->
    (px q < inject_Z (kx v) + (-1 # 2) \/ inject_Z (kx v) + (1 # 2) < px q)%Q \/ (py q < inject_Z (ky v) + (-1 # 2) \/ inject_Z (ky v) + (1 # 2) < py q)%Q.
  Proof using Hq.
    destruct Hq as (H1 & H2 & _). apply Qabs_Qlt_condition in H1 as [L1 U1]. apply Qabs_Qlt_condition in H2 as [L2 U2].
    assert (G : forall i j p, i <> j -> ((-(1 # 2) < p - inject_Z j) -> (p - inject_Z j < 1 # 2) -> p < inject_Z i + (-1 # 2) \/ inject_Z i + (1 # 2) < p)%Q).
    { intros i j p Hij Hl Hu. destruct (Z_lt_le_dec i j) as [C|C].
      - right. assert (D : (inject_Z (i + 1) <= inject_Z j)%Q) by (rewrite <- Zle_Qle; lia). rewrite inject_Z_plus in D. change (inject_Z 1) with 1%Q in D. lra.
      - left. assert (D : (inject_Z (j + 1) <= inject_Z i)%Q) by (rewrite <- Zle_Qle; lia). rewrite inject_Z_plus in D. change (inject_Z 1) with 1%Q in D. change (-1 # 2)%Q with (-(1 # 2))%Q. lra. }
    unfold column. intros Hc. destruct (kx v =? kx w) eqn:Ex.
    - right. apply (G (ky v) (ky w)); [lia|assumption..].
    - left. apply (G (kx v) (kx w)); [lia|assumption..].
  Qed.

  Lemma square_outside x1 y1 x2 y2 x3 y3 z1 z2 z3 : column w v = false ->
    (x1 = 1 \/ x1 = -1) -> (x2 = 1 \/ x2 = -1) -> (x3 = 1 \/ x3 = -1) -> (y1 = 1 \/ y1 = -1) -> (y2 = 1 \/ y2 = -1) -> (y3 = 1 \/ y3 = -1) ->
    crossing q (corner v x1 y1 z1, corner v x2 y2 z2, corner v x3 y3 z3) = 0.
  Proof using Hq.
    intros Hc X1 X2 X3 Y1 Y2 Y3. apply crossing_outside. destruct (other_column Hc) as [H|H].
    - apply (all_sides_x _ _ _ _ (inject_Z (kx v) + (-1 # 2)) (inject_Z (kx v) + (1 # 2))); [..|exact H]; unfold corner, px; cbn [fst snd]; change (-1 # 2)%Q with (-(1 # 2))%Q.
      all: [> destruct X1 as [-> | ->] | destruct X2 as [-> | ->] | destruct X3 as [-> | ->]]; change (-1 # 2)%Q with (-(1 # 2))%Q; split; lra.
    - apply (all_sides_y _ _ _ _ (inject_Z (ky v) + (-1 # 2)) (inject_Z (ky v) + (1 # 2))); [..|exact H]; unfold corner, py; cbn [fst snd]; change (-1 # 2)%Q with (-(1 # 2))%Q.
      all: [> destruct Y1 as [-> | ->] | destruct Y2 as [-> | ->] | destruct Y3 as [-> | ->]]; change (-1 # 2)%Q with (-(1 # 2))%Q; split; lra.
  Qed.

  (** Inside the column, beside the diagonal. *)
  Lemma square_inside (h : Z) (up : bool) : column w v = true -> h = 1 \/ h = -1 ->
    let m := if up then quad (corner v (-1) (-1) h) (corner v 1 (-1) h) (corner v 1 1 h) (corner v (-1) 1 h)
             else quad (corner v (-1) (-1) h) (corner v (-1) 1 h) (corner v 1 1 h) (corner v 1 (-1) h) in
    meets_no_edge m q -> winding m q = if qlt (pz q) (inject_Z (kz v) + (h # 2)) then (if up then 1 else -1) else 0.
  Proof using Hq.
    intros Hc Hh m Hne. unfold column in Hc. apply andb_true_iff in Hc as [Ex Ey]. apply Z.eqb_eq in Ex, Ey.
    destruct Hq as (H1 & H2 & _). rewrite <- Ex in H1. rewrite <- Ey in H2. apply Qabs_Qlt_condition in H1 as [L1 U1]. apply Qabs_Qlt_condition in H2 as [L2 U2].
    set (X := inject_Z (kx v)) in *. set (Y := inject_Z (ky v)) in *. set (Zv := (inject_Z (kz v) + (h # 2))%Q).
    assert (Hd : ~ (px q - X == py q - Y)%Q).
    { intros E. apply (Hne (corner v (-1) (-1) h) (corner v 1 1 h) ((X + (px q - X))%Q, (Y + (px q - X))%Q, Zv)).
      - subst m. destruct up; cbn; tauto.
      - exists (px q - X + (1 # 2))%Q. split; [lra|]. apply qpt_eq_iff. unfold lerp, corner, px, py, pz. cbn [fst snd]. fold X Y Zv. change (-1 # 2)%Q with (-(1 # 2))%Q.
        repeat split; ring.
      - unfold px, py in *. cbn [fst snd]. split; [ring|]. lra. }
    assert (Hz : forall x y, (pz (corner v x y h) == Zv)%Q) by reflexivity.
    destruct (qlt (pz q) Zv) eqn:Eh.
    - apply qlt_iff in Eh.
      assert (P : forall a b c, (pz a == Zv)%Q -> (pz b == Zv)%Q -> (pz c == Zv)%Q ->
        ((0 < side a b q /\ 0 < side b c q /\ 0 < side c a q)%Q -> crossing q (a, b, c) = 1) /\ ((side a b q < 0 /\ side b c q < 0 /\ side c a q < 0)%Q -> crossing q (a, b, c) = -1)).
      { intros a b c A B C. apply crossing_above; try (left; rewrite A; lra); rewrite ?A, ?B, ?C; lra. }
      assert (O : forall a b c, ((side a b q < 0 /\ (0 < side b c q \/ 0 < side c a q)) \/ (0 < side a b q /\ (side b c q < 0 \/ side c a q < 0)) \/ (0 < side b c q /\ side c a q < 0) \/ (side b c q < 0 /\ 0 < side c a q))%Q -> crossing q (a, b, c) = 0).
      { intros a b c S. apply crossing_outside. split; lra. }
      assert (S : forall x1 y1 x2 y2, (side (corner v x1 y1 h) (corner v x2 y2 h) q == ((x2 # 2) - (x1 # 2)) * (py q - Y - (y1 # 2)) - ((y2 # 2) - (y1 # 2)) * (px q - X - (x1 # 2)))%Q).
      { intros. unfold side, corner, px, py. cbn [fst snd]. fold X Y. ring. }
      set (u := (px q - X)%Q) in *. set (t := (py q - Y)%Q) in *. clearbody u t X Y.
      destruct (Qlt_le_dec u t) as [C|C]; [|assert (C' : (t < u)%Q) by (apply Qle_lt_or_eq in C as [C|C]; [exact C|exfalso; apply Hd; rewrite C; reflexivity])].
      all: subst m; destruct up; unfold winding, quad; cbn [zsum]; rewrite Z.add_0_r.
      all: match goal with |- crossing q (?a1, ?b1, ?c1) + crossing q (?a2, ?b2, ?c2) = _ =>
        pose proof (P a1 b1 c1 (Hz _ _) (Hz _ _) (Hz _ _)) as [P1 N1]; pose proof (P a2 b2 c2 (Hz _ _) (Hz _ _) (Hz _ _)) as [P2 N2]; pose proof (O a1 b1 c1) as O1; pose proof (O a2 b2 c2) as O2 end.
      all: rewrite !S in P1, N1, P2, N2, O1, O2; change (-1 # 2)%Q with (-(1 # 2))%Q in *.
      + rewrite O1, P2; [reflexivity|lra|lra].
      + rewrite N1, O2; [reflexivity|lra|lra].
      + rewrite P1, O2; [reflexivity|lra|lra].
      + rewrite O1, N2; [reflexivity|lra|lra].
    - assert (G : (Zv <= pz q)%Q) by (apply Qnot_lt_le; rewrite <- qlt_iff, Eh; discriminate).
      apply zsum_zero. intros t Ht. subst m. destruct up; unfold quad in Ht; cbn [In] in Ht; destruct Ht as [<-|[<-|[]]]; apply crossing_below; rewrite Hz; exact G.
  Qed.
End Square.

Lemma top_side v w q : in_unit_cube w q -> qlt (pz q) (inject_Z (kz v) + (1 # 2)) = (kz w <=? kz v).
Proof.
  intros (_ & _ & H). apply Qabs_Qlt_condition in H as [L U]. apply eq_true_iff_eq. rewrite qlt_iff, Z.leb_le. split; intros H.
  - apply Z.lt_succ_r. rewrite Zlt_Qlt. unfold Z.succ. rewrite inject_Z_plus. change (inject_Z 1) with 1%Q. lra.
  - rewrite Zle_Qle in H. lra.
Qed.
Lemma bottom_side v w q : in_unit_cube w q -> qlt (pz q) (inject_Z (kz v) + (-1 # 2)) = (kz w <? kz v).
Proof.
  intros (_ & _ & H). apply Qabs_Qlt_condition in H as [L U]. apply eq_true_iff_eq. rewrite qlt_iff, Z.ltb_lt. change (-1 # 2)%Q with (-(1 # 2))%Q. split; intros H.
  - rewrite Zlt_Qlt. lra.
  - assert (D : (inject_Z (kz w + 1) <= inject_Z (kz v))%Q) by (rewrite <- Zle_Qle; lia). rewrite inject_Z_plus in D. change (inject_Z 1) with 1%Q in D. lra.
Qed.

Definition b2n (x : bool) : Z := if x then 1 else 0.

Lemma no_edge_sub m m' q : (forall t, In t m' -> In t m) -> meets_no_edge m q -> meets_no_edge m' q.
Proof. intros Hs H a b p Hin. apply (H a b p). unfold mesh_edges in *. apply in_flat_map in Hin as (t & Ht & Hin). apply in_flat_map. eauto. Qed.

Lemma faces_winding l v w q : in_unit_cube w q -> meets_no_edge (faces_of l v) q ->
  winding (faces_of l v) q = b2n (column w v && (kz w <=? kz v) && negb (has l (above v))) - b2n (column w v && (kz w <? kz v) && negb (has l (under v))).
Proof.
  intros Hq Hne. unfold faces_of in *. unfold winding. rewrite !zsum_app. fold (winding (walls l v) q). rewrite walls_winding.
  assert (T : zsum (crossing q) (if_open l (above v) (top v)) = b2n (column w v && (kz w <=? kz v) && negb (has l (above v)))).
  { unfold if_open in *. destruct (has l (above v)); [rewrite andb_false_r; reflexivity|]. cbn [negb]. rewrite andb_true_r.
    destruct (column w v) eqn:Ec; cbn [andb].
    - pose proof (square_inside v w q Hq 1 true Ec (or_introl eq_refl)) as H. cbn beta iota zeta in H. unfold winding in H. unfold top. rewrite H.
      + rewrite (top_side v w q Hq). reflexivity.
      + eapply no_edge_sub; [|exact Hne]. intros t Ht. rewrite !in_app_iff. right. left. exact Ht.
    - apply zsum_zero. intros t Ht. unfold top, quad in Ht. cbn [In] in Ht. destruct Ht as [<-|[<-|[]]]; apply (square_outside v w q Hq); auto. }
  assert (B : zsum (crossing q) (if_open l (under v) (bottom v)) = - b2n (column w v && (kz w <? kz v) && negb (has l (under v)))).
  { unfold if_open in *. destruct (has l (under v)); [rewrite andb_false_r; reflexivity|]. cbn [negb]. rewrite andb_true_r.
    destruct (column w v) eqn:Ec; cbn [andb].
    - pose proof (square_inside v w q Hq (-1) false Ec (or_intror eq_refl)) as H. cbn beta iota zeta in H. unfold winding in H. unfold bottom. rewrite H.
      + rewrite (bottom_side v w q Hq). destruct (kz w <? kz v); reflexivity.
      + eapply no_edge_sub; [|exact Hne]. intros t Ht. rewrite !in_app_iff. right. right. exact Ht.
    - apply zsum_zero. intros t Ht. unfold bottom, quad in Ht. cbn [In] in Ht. destruct Ht as [<-|[<-|[]]]; apply (square_outside v w q Hq); auto. }
  rewrite T, B. lia.
Qed.

Lemma count_filter {A} (f : A -> bool) l : zsum (fun x => b2n (f x)) l = Z.of_nat (length (List.filter f l)).
Proof. induction l as [|x l IH]; [reflexivity|]. cbn [zsum List.filter]. destruct (f x); cbn [b2n length]; lia. Qed.

Lemma stacked l w : List.NoDup l ->
  zsum (fun v => b2n (column w v && (kz w <=? kz v) && has l (above v))) l = zsum (fun v => b2n (column w v && (kz w <? kz v) && has l (under v))) l.
Proof.
  intros Hnd. rewrite !count_filter. f_equal. rewrite <- (map_length above). apply Permutation_length. apply Permutation.NoDup_Permutation.
  - apply FinFun.Injective_map_NoDup; [|apply List.NoDup_filter, Hnd].
    intros [[x y] z] [[x' y'] z'] E. injection E as -> -> E. f_equal. lia.
  - apply List.NoDup_filter, Hnd.
  - intros v. rewrite in_map_iff, filter_In, !andb_true_iff. unfold has, column. rewrite bool_decide_eq_true, elem_of_list_In, andb_true_iff. split.
    + intros (u & <- & Hu). rewrite filter_In, !andb_true_iff, bool_decide_eq_true, elem_of_list_In in Hu. destruct Hu as (Hu & ((E1 & E2) & Hz) & Ha).
      destruct u as [[x y] z]. unfold above, under, kx, ky, kz in *. cbn [fst snd] in *. replace (z + 1 - 1) with z by lia. repeat split; try assumption. lia.
    + intros (Hv & ((E1 & E2) & Hz) & Hu). exists (under v). destruct v as [[x y] z]. unfold above, under, kx, ky, kz in *. cbn [fst snd] in *. replace (z - 1 + 1) with z by lia.
      split; [reflexivity|]. rewrite filter_In, !andb_true_iff, bool_decide_eq_true, elem_of_list_In. cbn [fst snd]. replace (z - 1 + 1) with z by lia. repeat split; try assumption. lia.
Qed.

(** Such a mesh is the surface of the cubes. *)
Theorem C71_unit_faces l : List.NoDup l -> surface_of l (unit_faces l).
Proof.
  intros Hnd w q Hq. split.
  { intros a b c Hin. apply in_flat_map in Hin as (v & _ & Hin). apply faces_flat in Hin. exact (flat_off _ w q Hin Hq). }
  intros Hne.
  assert (E : winding (unit_faces l) q = zsum (fun v => winding (faces_of l v) q) l).
  { clear. unfold unit_faces. generalize l at 1 3. intros l'. induction l as [|v l IH]; [reflexivity|]. cbn [flat_map zsum]. unfold winding in *. rewrite zsum_app, IH. reflexivity. }
  rewrite E, (zsum_ext _ (fun v => b2n (column w v && (kz w <=? kz v) && negb (has l (above v))) - b2n (column w v && (kz w <? kz v) && negb (has l (under v))))).
  2:{ intros v Hv. apply faces_winding; [exact Hq|]. eapply no_edge_sub; [|exact Hne]. intros t Ht. apply in_flat_map. eauto. }
  assert (G : zsum (fun v => b2n (column w v && (kz w <=? kz v) && negb (has l (above v))) - b2n (column w v && (kz w <? kz v) && negb (has l (under v)))) l
    = zsum (fun v => b2n (bool_decide (v = w))) l).
  { pose proof (stacked l w Hnd) as Hs.
    rewrite (zsum_ext _ (fun v => b2n (bool_decide (v = w)) + (- b2n (column w v && (kz w <=? kz v) && has l (above v)) + b2n (column w v && (kz w <? kz v) && has l (under v))))).
    - rewrite !zsum_add. assert (O : forall (f : key -> Z) k, zsum (fun x => - f x) k = - zsum f k) by (clear; intros f k; induction k; cbn; lia). rewrite (O (fun v => b2n (column w v && (kz w <=? kz v) && has l (above v)))). lia.
    - intros v _. unfold column. destruct (bool_decide_reflect (v = w)) as [->|Hn].
      + rewrite !Z.eqb_refl, Z.leb_refl, Z.ltb_irrefl. cbn [andb]. destruct (has l (above w)); reflexivity.
      + destruct (kx v =? kx w) eqn:E1; [|reflexivity]. destruct (ky v =? ky w) eqn:E2; [|reflexivity]. cbn [andb].
        assert (Hz : kz v <> kz w) by (intros Hz; apply Hn; destruct v as [[? ?] ?], w as [[? ?] ?]; unfold kx, ky, kz in *; cbn [fst snd] in *; f_equal; [f_equal|]; lia).
        destruct (kz w <=? kz v) eqn:E3, (kz w <? kz v) eqn:E4; try lia; cbn [andb]; destruct (has l (above v)), (has l (under v)); reflexivity. }
  rewrite G, count_filter. split.
  - intros Hin. assert (F : Permutation (List.filter (fun v => bool_decide (v = w)) l) [w]).
    { apply Permutation.NoDup_Permutation; [apply List.NoDup_filter, Hnd|repeat constructor; intros []|]. intros v. rewrite filter_In, bool_decide_eq_true. cbn. split; [intros [_ ->]; auto|intros [<-|[]]; auto]. }
    rewrite F. reflexivity.
  - intros Hin. destruct (List.filter (fun v => bool_decide (v = w)) l) as [|v f] eqn:F; [reflexivity|]. exfalso.
    assert (Hv : In v (List.filter (fun v => bool_decide (v = w)) l)) by (rewrite F; left; reflexivity). apply filter_In in Hv as [Hv Ew]. apply bool_decide_eq_true in Ew as ->. contradiction.
Qed.

(** A check for [meets_no_edge]. *)
Definition edge_clear (q : qpt) (e : qedge) : bool :=
  let '(a, b) := e in
  negb (Qeq_bool (side a b q) 0) || (Qeq_bool (px a) (px b) && negb (Qeq_bool (px a) (px q))) || (Qeq_bool (py a) (py b) && negb (Qeq_bool (py a) (py q))).
Lemma edges_clear m q : forallb (edge_clear q) (mesh_edges m) = true -> meets_no_edge m q.
Proof.
  intros H a b p Hin (t & _ & Hp) [Ex Ey]. rewrite forallb_forall in H. apply H in Hin. clear H. unfold edge_clear in Hin.
  apply qpt_eq_iff in Hp as (P1 & P2 & _). unfold lerp, px, py in P1, P2. cbn [fst snd] in P1, P2. fold (px a) (px b) (px p) in P1. fold (py a) (py b) (py p) in P2. rewrite Ex in P1. rewrite Ey in P2.
  rewrite !orb_true_iff, !andb_true_iff, !negb_true_iff, <- !not_true_iff_false, !Qeq_bool_iff in Hin. destruct Hin as [[H|[H1 H2]]|[H1 H2]].
  - apply H. unfold side. rewrite P1, P2. ring.
  - apply H2. rewrite P1, <- H1. ring.
  - apply H2. rewrite P2, <- H1. ring.
Qed.

(** *** Example: ToMesh with that mesh, on a model of two voxels. *)
Definition two : binvox Q := BinVOX 4 4 4 10%Q 20%Q 30%Q 8%Q (Some {[(0, 0, 0); (0, 0, 1)]}) None.
Example C71_winding_example : let m := ToMesh unit_faces two (elements (white two)) (elements (dom (colors two))) in
  surrounds two m (filled two) /\
  let d := ((1 # 10)%Q, (2 # 5)%Q, (-(9 # 20))%Q) in in_cube d /\ meets_no_edge m (near two (0, 0, 1) d) /\ winding m (near two (0, 0, 1) d) = 1.
Proof.
  cbn zeta. split.
  { apply C71_winding; [reflexivity..|]. apply C71_unit_faces. apply NoDup_ListNoDup, (bool_decide_unpack _). vm_compute. exact I. }
  split; [repeat split; reflexivity|]. split; [apply edges_clear; vm_compute; reflexivity|vm_compute; reflexivity].
Qed.
