(** What the voxelizer is supposed to compute, stated without its loops. *)
From Verif Require Import Base BinvoxModel Geom VoxelizeModel.
From Coq Require Import ZArith QArith List Bool.
From stdpp Require Import base list gmap.
Import ListNotations.
Open Scope Z_scope.

(** ** Digital lines *)

(** Neighbouring pixels: different, and at most one apart in each coordinate. *)
Definition adjacent (p q : Z * Z) : Prop :=
  p <> q /\ Z.abs (fst p - fst q) <= 1 /\ Z.abs (snd p - snd q) <= 1.

Fixpoint connected (l : list (Z * Z)) : Prop :=
  match l with p :: ((q :: _) as l') => adjacent p q /\ connected l' | _ => True end.

(** The signed distance of a pixel to the ideal line, scaled by the larger extent. *)
Definition deviation (x1 y1 x2 y2 : Z) (p : Z * Z) : Z :=
  (snd p - y1) * (x2 - x1) - (fst p - x1) * (y2 - y1).

Definition extent (x1 y1 x2 y2 : Z) : Z := Z.max (Z.abs (x2 - x1)) (Z.abs (y2 - y1)).

(** Within half a pixel of the ideal line, measured along the minor axis. *)
Definition half_pixel (x1 y1 x2 y2 : Z) (p : Z * Z) : Prop :=
  2 * Z.abs (deviation x1 y1 x2 y2 p) <= extent x1 y1 x2 y2.

Definition zbetween (a b c : Z) : Prop := Z.min a b <= c <= Z.max a b.

(** ** Slicing a triangle *)

(** [lerp p q t]: the point p + t (q - p). *)
Definition lerp (p q : qpt) (t : Q) : qpt :=
  ((px p + (px q - px p) * t)%Q, (py p + (py q - py p) * t)%Q, (pz p + (pz q - pz p) * t)%Q).

Definition on_segment (p q r : qpt) : Prop :=
  exists t : Q, (0 <= t <= 1)%Q /\ qpt_eq r (lerp p q t).

Definition comb3 (a b c : Q) (p q r : qpt) : qpt :=
  ((a * px p + b * px q + c * px r)%Q, (a * py p + b * py q + c * py r)%Q, (a * pz p + b * pz q + c * pz r)%Q).

(** A point of the closed triangle. *)
Definition in_triangle (t : tri) (p : qpt) : Prop :=
  exists a b c : Q, (0 <= a /\ 0 <= b /\ 0 <= c /\ a + b + c == 1)%Q /\
    qpt_eq p (comb3 a b c (tv1 t) (tv2 t) (tv3 t)).

Definition on_edge (t : tri) (p : qpt) : Prop :=
  on_segment (tv1 t) (tv2 t) p \/ on_segment (tv2 t) (tv3 t) p \/ on_segment (tv3 t) (tv1 t) p.

(** ** The outline of a mesh in a slice *)

(** The height of slice [zi]: the middle of the voxel layer. *)
Definition slice_z (b : binvox Q) (zi : Z) : Q :=
  (TZ b + ((1 # 2) + inject_Z zi) * (1 / vpmm b))%Q.

(** The pixels of the digital line where triangle [t] cuts slice [zi]. *)
Definition outline (b : binvox Q) (zi : Z) (t : tri) : list (Z * Z) :=
  match intersectTriZPlane t (slice_z b zi) with Some p => pair_points b p | None => [] end.

Definition shell (b : binvox Q) (mesh : list tri) (k : key) : Prop :=
  exists t, In t mesh /\ In (kx k, ky k) (outline b (kz k) t).

(** The x of the outline of [t] in row [y], and the leftmost of them. *)
Definition row_xs (b : binvox Q) (zi y : Z) (t : tri) : list Z :=
  map fst (List.filter (fun p => snd p =? y) (outline b zi t)).

Definition leftmost (b : binvox Q) (zi y : Z) (t : tri) (x : Z) : bool :=
  existsb (Z.eqb x) (row_xs b zi y t) && forallb (Z.leb x) (row_xs b zi y t).

(** Facing -x (going in as x grows), facing +x (going out). *)
Definition facing_in (t : tri) : bool := qlt (px (tnorm t)) (- epsilon).
Definition facing_out (t : tri) : bool := qlt epsilon (px (tnorm t)).

(** Triangles whose outline in row [y] starts at [x]: those facing in minus those facing out. *)
Definition balance (b : binvox Q) (mesh : list tri) (zi y x : Z) : Z :=
  Z.of_nat (length (List.filter (fun t => leftmost b zi y t x && facing_in t) mesh)) -
  Z.of_nat (length (List.filter (fun t => leftmost b zi y t x && facing_out t) mesh)).

(** Entered somewhere to the left and not left since. *)
Definition inside_at (b : binvox Q) (mesh : list tri) (zi y x : Z) : Prop :=
  exists x', x' < x /\ 0 < balance b mesh zi y x' /\
    forall x'', x' < x'' -> x'' < x -> 0 <= balance b mesh zi y x''.

(** The voxels of slice [zi]. *)
Definition solid (b : binvox Q) (mesh : list tri) (zi : Z) (k : key) : Prop :=
  kz k = zi /\ 0 <= ky k < NY b /\ kx k < NX b /\
  (shell b mesh k \/
   0 <= kx k /\ inside_at b mesh zi (ky k) (kx k) /\ exists x', kx k < x' /\ shell b mesh (x', ky k, zi)).
