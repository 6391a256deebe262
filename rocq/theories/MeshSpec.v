(** What it means for a triangle mesh to be closed. *)
From Verif Require Import Base BinvoxModel Geom VoxelizeModel VoxelizeSpec.
From Coq Require Import ZArith QArith List Bool.
From stdpp Require Import base list gmap.
Import ListNotations.
Open Scope Z_scope.

(** A triangle: its three vertex positions in order. *)
Notation face := (qpt * qpt * qpt)%type.
(** A directed edge: from, to. *)
Notation qedge := (qpt * qpt)%type.

Definition qpt_eqb (p q : qpt) : bool :=
  Qeq_bool (px p) (px q) && Qeq_bool (py p) (py q) && Qeq_bool (pz p) (pz q).

Definition face_edges (t : face) : list qedge :=
  let '(a, b, c) := t in [(a, b); (b, c); (c, a)].

Definition mesh_edges (m : list face) : list qedge := flat_map face_edges m.

(** How many directed edges go from [p] to [q]. *)
Definition count_edge (es : list qedge) (p q : qpt) : nat :=
  length (List.filter (fun e => qpt_eqb (fst e) p && qpt_eqb (snd e) q) es).

(** Every directed edge occurs exactly as often as its reverse: the surface has no boundary and
    neighbouring triangles agree about the orientation. *)
Definition closed_edges (es : list qedge) : Prop :=
  forall p q, count_edge es p q = count_edge es q p.

Definition closed_mesh (m : list face) : Prop := closed_edges (mesh_edges m).

(** An edge is kept, or cut in two at a point on it. *)
Inductive cut_edge : qedge -> list qedge -> Prop :=
| cut_keep a b : cut_edge (a, b) [(a, b)]
| cut_at a b m : on_segment a b m -> cut_edge (a, b) [(a, m); (m, b)].

(** Closed up to T-junctions: after cutting some edges at points on them, every piece is covered
    equally often in both directions.  The surface has no boundary as a set of points. *)
Definition watertight (m : list face) : Prop :=
  exists pieces, Forall2 cut_edge (mesh_edges m) pieces /\ closed_edges (concat pieces).

(** Two meshes with the same triangles up to equality of rational coordinates. *)
Definition face_eq (s t : face) : Prop :=
  let '(a, b, c) := s in let '(a', b', c') := t in qpt_eq a a' /\ qpt_eq b b' /\ qpt_eq c c'.

(** A model's voxels, white or coloured. *)
Definition filled (b : binvox Q) (k : key) : Prop := k ∈ white b \/ is_Some (colors b !! k).

(** The centre of a voxel in world space. *)
Definition voxel_center (b : binvox Q) (k : key) : qpt :=
  let s := (1 / vpmm b)%Q in
  (((inject_Z (kx k) + (1 # 2)) * s + TX b)%Q, ((inject_Z (ky k) + (1 # 2)) * s + TY b)%Q,
   ((inject_Z (kz k) + (1 # 2)) * s + TZ b)%Q).

Definition midpoint (p q : qpt) : qpt :=
  (((px p + px q) * (1 # 2))%Q, ((py p + py q) * (1 # 2))%Q, ((pz p + pz q) * (1 # 2))%Q).

(** Voxels sharing a face. *)
Definition axis_neighbour (v w : key) : Prop :=
  Z.abs (kx v - kx w) + Z.abs (ky v - ky w) + Z.abs (kz v - kz w) = 1.

Definition mesh_vertex (m : list face) (p : qpt) : Prop :=
  exists a b c, In (a, b, c) m /\ (qpt_eq p a \/ qpt_eq p b \/ qpt_eq p c).

(** (b - a) x (c - a) . d : positive if the triangle a b c, seen counter-clockwise, faces towards d. *)
Definition faces_along (a b c d : qpt) : Q :=
  let '(ux, uy, uz) := (px b - px a, py b - py a, pz b - pz a)%Q in
  let '(vx, vy, vz) := (px c - px a, py c - py a, pz c - pz a)%Q in
  ((uy * vz - uz * vy) * px d + (uz * vx - ux * vz) * py d + (ux * vy - uy * vx) * pz d)%Q.

Definition qsub (p q : qpt) : qpt := ((px p - px q)%Q, (py p - py q)%Q, (pz p - pz q)%Q).
