(** Model of the transformations of binvox/manifold.go:76-142.

    Simplification: the template coordinates 0, dd, -dd are kept as the integers 0, 1, -1; the last
    function in the chain, [voxelToVector], scales them by dd. *)
From Verif Require Import Base MeshPush.
From Coq Require Import ZArith List.
Import ListNotations.
Open Scope Z_scope.

(** binvox/manifold.go:76 voxelToVectorFunc, with result type [A] (gl.Vector in the code). *)
Definition voxelToVectorFunc (A : Type) : Type := key -> Z -> Z -> Z -> A.

(** binvox/manifold.go:78-86 apply. *)
Definition apply {A} (k : key) (v2v : voxelToVectorFunc A) (ts : list zface) : list (A * A * A) :=
  map (fun '(p1, p2, p3) => (v2v k (kx p1) (ky p1) (kz p1), v2v k (kx p2) (ky p2) (kz p2), v2v k (kx p3) (ky p3) (kz p3))) ts.

(** binvox/manifold.go:88-134. *)
Definition rotateTrisClockwiseZ {A} (v : voxelToVectorFunc A) : voxelToVectorFunc A := fun k dx dy dz => v k dy (- dx) dz.
Definition rotateTrisCounterClockwiseZ {A} (v : voxelToVectorFunc A) : voxelToVectorFunc A := fun k dx dy dz => v k (- dy) dx dz.
Definition rotateTris180Z {A} (v : voxelToVectorFunc A) : voxelToVectorFunc A := fun k dx dy dz => v k (- dx) (- dy) dz.
Definition rotateTrisClockwiseX {A} (v : voxelToVectorFunc A) : voxelToVectorFunc A := fun k dx dy dz => v k dx dz (- dy).
Definition rotateTrisCounterClockwiseX {A} (v : voxelToVectorFunc A) : voxelToVectorFunc A := fun k dx dy dz => v k dx (- dz) dy.
Definition rotateTris180X {A} (v : voxelToVectorFunc A) : voxelToVectorFunc A := fun k dx dy dz => v k dx (- dy) (- dz).
Definition rotateTrisClockwiseY {A} (v : voxelToVectorFunc A) : voxelToVectorFunc A := fun k dx dy dz => v k dz dy (- dx).
Definition rotateTrisCounterClockwiseY {A} (v : voxelToVectorFunc A) : voxelToVectorFunc A := fun k dx dy dz => v k (- dz) dy dx.
Definition rotateTris180Y {A} (v : voxelToVectorFunc A) : voxelToVectorFunc A := fun k dx dy dz => v k (- dx) dy (- dz).
Definition mirrorX {A} (v : voxelToVectorFunc A) : voxelToVectorFunc A := fun k dx dy dz => v k (- dx) dy dz.
Definition mirrorY {A} (v : voxelToVectorFunc A) : voxelToVectorFunc A := fun k dx dy dz => v k dx (- dy) dz.
Definition mirrorZ {A} (v : voxelToVectorFunc A) : voxelToVectorFunc A := fun k dx dy dz => v k dx dy (- dz).

(** binvox/manifold.go:137-142 flipNormals. *)
Definition flipNormals (ts : list zface) : list zface := map (fun '(p1, p2, p3) => (p1, p3, p2)) ts.

(** binvox/manifold.go:11-20 g0..g7. *)
Definition g0 : Z := 1.
Definition g1 : Z := 2.
Definition g2 : Z := 4.
Definition g3 : Z := 8.
Definition g4 : Z := 16.
Definition g5 : Z := 32.
Definition g6 : Z := 64.
Definition g7 : Z := 128.
