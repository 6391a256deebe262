(** The templates of binvox/face-templates.go and the switch of binvox/manifold.go: grid2tris;
    generated by tools/gen_manifold.py, do not edit.
    Coordinates are in units of [dd] (face-templates.go:7). *)
From Verif Require Import Base MeshPush ManifoldXform.
From Coq Require Import ZArith List Bool.
Import ListNotations.
Open Scope Z_scope.

(** binvox/face-templates.go:11 *)
Definition x_1y_1z0 : key := (-1, -1, 0).
(** binvox/face-templates.go:12 *)
Definition x_1y_1z1 : key := (-1, -1, 1).
(** binvox/face-templates.go:13 *)
Definition x_1y0z_1 : key := (-1, 0, -1).
(** binvox/face-templates.go:14 *)
Definition x_1y0z0 : key := (-1, 0, 0).
(** binvox/face-templates.go:15 *)
Definition x_1y0z1 : key := (-1, 0, 1).
(** binvox/face-templates.go:17 *)
Definition x_1y1z0 : key := (-1, 1, 0).
(** binvox/face-templates.go:19 *)
Definition x0y_1z_1 : key := (0, -1, -1).
(** binvox/face-templates.go:20 *)
Definition x0y_1z0 : key := (0, -1, 0).
(** binvox/face-templates.go:21 *)
Definition x0y_1z1 : key := (0, -1, 1).
(** binvox/face-templates.go:22 *)
Definition x0y0z_1 : key := (0, 0, -1).
(** binvox/face-templates.go:23 *)
Definition x0y0z0 : key := (0, 0, 0).
(** binvox/face-templates.go:24 *)
Definition x0y0z1 : key := (0, 0, 1).
(** binvox/face-templates.go:25 *)
Definition x0y1z_1 : key := (0, 1, -1).
(** binvox/face-templates.go:26 *)
Definition x0y1z0 : key := (0, 1, 0).
(** binvox/face-templates.go:27 *)
Definition x0y1z1 : key := (0, 1, 1).
(** binvox/face-templates.go:29 *)
Definition x1y_1z0 : key := (1, -1, 0).
(** binvox/face-templates.go:30 *)
Definition x1y_1z1 : key := (1, -1, 1).
(** binvox/face-templates.go:31 *)
Definition x1y0z_1 : key := (1, 0, -1).
(** binvox/face-templates.go:32 *)
Definition x1y0z0 : key := (1, 0, 0).
(** binvox/face-templates.go:33 *)
Definition x1y0z1 : key := (1, 0, 1).
(** binvox/face-templates.go:35 *)
Definition x1y1z0 : key := (1, 1, 0).

(** binvox/face-templates.go:38-50 *)
Definition singleFace : list zface := [
  (x_1y0z_1, x0y0z_1, x0y0z0);
  (x_1y0z_1, x0y0z0, x_1y0z0);
  (x0y0z_1, x1y0z_1, x1y0z0);
  (x0y0z_1, x1y0z0, x0y0z0);
  (x_1y0z0, x0y0z0, x0y0z1);
  (x_1y0z0, x0y0z1, x_1y0z1);
  (x0y0z0, x1y0z0, x1y0z1);
  (x0y0z0, x1y0z1, x0y0z1)
].

(** binvox/face-templates.go:52-59 *)
Definition singleCorner : list zface := [
  (x_1y0z_1, x0y0z_1, x0y0z0);
  (x_1y0z_1, x0y0z0, x_1y0z0);
  (x0y0z0, x0y1z0, x_1y1z0);
  (x0y0z0, x_1y1z0, x_1y0z0);
  (x0y0z0, x0y0z_1, x0y1z_1);
  (x0y0z0, x0y1z_1, x0y1z0)
].

(** binvox/face-templates.go:61-73 *)
Definition twoAdjacentCorners : list zface := [
  (x_1y0z0, x0y0z0, x0y1z0);
  (x_1y0z0, x0y1z0, x_1y1z0);
  (x0y0z0, x1y0z0, x1y1z0);
  (x0y0z0, x1y1z0, x0y1z0);
  (x_1y0z0, x_1y0z_1, x0y0z_1);
  (x_1y0z0, x0y0z_1, x0y0z0);
  (x0y0z0, x0y0z_1, x1y0z_1);
  (x0y0z0, x1y0z_1, x1y0z0)
].

(** binvox/face-templates.go:75-86 *)
Definition twoOppositeLevelCorners : list zface := [
  (x_1y1z0, x_1y0z0, x0y_1z0);
  (x_1y1z0, x0y_1z0, x1y_1z0);
  (x_1y1z0, x1y_1z0, x1y0z0);
  (x_1y1z0, x1y0z0, x0y1z0);
  (x_1y0z0, x_1y0z_1, x0y_1z_1);
  (x_1y0z0, x0y_1z_1, x0y_1z0);
  (x1y0z0, x1y0z_1, x0y1z_1);
  (x1y0z0, x0y1z_1, x0y1z0)
].

(** binvox/face-templates.go:88-106 *)
Definition twoOppositeDiagonalCorners : list zface := [
  (x_1y1z0, x_1y0z0, x0y_1z1);
  (x_1y1z0, x0y_1z1, x0y0z1);
  (x_1y0z0, x_1y0z_1, x0y_1z0);
  (x_1y0z0, x0y_1z0, x0y_1z1);
  (x_1y0z_1, x0y0z_1, x1y_1z0);
  (x_1y0z_1, x1y_1z0, x0y_1z0);
  (x0y0z_1, x0y1z_1, x1y0z0);
  (x0y0z_1, x1y0z0, x1y_1z0);
  (x0y1z_1, x0y1z0, x1y0z1);
  (x0y1z_1, x1y0z1, x1y0z0);
  (x0y1z0, x_1y1z0, x0y0z1);
  (x0y1z0, x0y0z1, x1y0z1)
].

(** binvox/face-templates.go:108-117 *)
Definition threeAdjacentCorners : list zface := [
  (x_1y0z0, x1y0z0, x1y1z0);
  (x_1y0z0, x1y1z0, x_1y1z0);
  (x_1y0z_1, x0y0z_1, x0y0z0);
  (x_1y0z_1, x0y0z0, x_1y0z0);
  (x0y0z0, x0y0z_1, x0y_1z_1);
  (x0y0z0, x0y_1z_1, x0y_1z0);
  (x0y0z0, x0y_1z0, x1y_1z0);
  (x0y0z0, x1y_1z0, x1y0z0)
].

(** binvox/face-templates.go:119-124 *)
Definition halfCorner : list zface := [
  (x_1y0z_1, x0y0z_1, x0y0z0);
  (x_1y0z_1, x0y0z0, x_1y0z0);
  (x0y0z0, x0y1z0, x_1y1z0);
  (x0y0z0, x_1y1z0, x_1y0z0)
].

(** binvox/face-templates.go:128-139 *)
Definition g0357 : list zface := [
  (x_1y0z0, x_1y0z1, x0y0z1);
  (x_1y0z0, x0y0z1, x0y1z1);
  (x_1y0z0, x0y1z1, x_1y1z0);
  (x0y0z_1, x0y1z_1, x1y1z0);
  (x0y0z_1, x1y1z0, x1y0z0);
  (x0y0z0, x0y0z_1, x1y0z0);
  (x0y0z0, x1y0z0, x1y_1z0);
  (x0y0z0, x1y_1z0, x0y_1z0);
  (x0y0z0, x0y_1z0, x0y_1z_1);
  (x0y0z0, x0y_1z_1, x0y0z_1)
].

(** binvox/face-templates.go:141-154 *)
Definition g234 : list zface := [
  (x0y0z_1, x_1y0z_1, x_1y1z0);
  (x0y0z_1, x_1y1z0, x0y1z0);
  (x0y0z_1, x0y1z0, x0y0z0);
  (x0y0z_1, x0y0z0, x1y0z_1);
  (x0y0z0, x1y0z0, x1y0z_1);
  (x0y0z0, x1y_1z0, x1y0z0);
  (x0y0z0, x0y_1z0, x1y_1z0);
  (x0y0z0, x0y0z1, x0y_1z0);
  (x0y0z0, x0y1z1, x0y0z1);
  (x0y0z0, x0y1z0, x0y1z1);
  (x0y_1z0, x0y0z1, x_1y0z1);
  (x0y_1z0, x_1y0z1, x_1y_1z0)
].

(** binvox/face-templates.go:156-165 *)
Definition g0156 : list zface := [
  (x_1y0z_1, x1y0z_1, x1y0z0);
  (x_1y0z_1, x1y0z0, x_1y0z0);
  (x0y1z0, x0y_1z0, x0y_1z1);
  (x0y1z0, x0y_1z1, x0y1z1);
  (x0y0z0, x0y1z0, x_1y1z0);
  (x0y0z0, x_1y1z0, x_1y0z0);
  (x0y0z0, x1y0z0, x1y_1z0);
  (x0y0z0, x1y_1z0, x0y_1z0)
].

(** binvox/face-templates.go:167-174 *)
Definition g2457 : list zface := [
  (x1y_1z0, x1y0z1, x0y_1z1);
  (x0y_1z1, x1y0z1, x0y0z1);
  (x0y0z_1, x0y_1z_1, x_1y_1z0);
  (x0y0z_1, x_1y_1z0, x_1y1z0);
  (x0y0z_1, x_1y1z0, x1y1z0);
  (x0y0z_1, x1y1z0, x1y0z_1)
].

(** binvox/face-templates.go:176-189 *)
Definition g12467 : list zface := [
  (x1y0z0, x1y1z0, x0y1z1);
  (x1y0z0, x0y1z1, x0y0z1);
  (x1y0z0, x0y0z1, x1y0z1);
  (x0y0z_1, x0y_1z_1, x0y_1z0);
  (x0y0z_1, x0y_1z0, x0y0z0);
  (x0y0z_1, x0y0z0, x_1y0z0);
  (x0y0z_1, x_1y0z0, x_1y1z0);
  (x0y0z_1, x_1y1z0, x0y1z_1);
  (x0y0z0, x0y_1z0, x_1y_1z0);
  (x0y0z0, x_1y_1z0, x_1y0z0)
].

(** binvox/face-templates.go:191-199 *)
Definition g024567 : list zface := [
  (x_1y0z0, x_1y0z_1, x0y_1z_1);
  (x_1y0z0, x0y_1z_1, x0y_1z0);
  (x_1y0z0, x0y_1z0, x_1y_1z0);
  (x1y0z0, x1y0z_1, x0y1z_1);
  (x1y0z0, x0y1z_1, x0y1z0);
  (x1y0z0, x0y1z0, x1y1z0)
].

(** binvox/face-templates.go:201-210 *)
Definition g13456 : list zface := [
  (x_1y_1z0, x0y_1z1, x0y0z1);
  (x_1y_1z0, x0y0z1, x_1y0z1);
  (x0y_1z_1, x1y0z_1, x1y0z0);
  (x0y_1z_1, x1y0z0, x1y_1z0);
  (x_1y0z_1, x_1y1z0, x0y1z0);
  (x_1y0z_1, x0y1z0, x0y1z_1)
].

(** binvox/face-templates.go:212-218 *)
Definition g0167 : list zface := [
  (x1y1z0, x_1y1z0, x_1y0z1);
  (x1y1z0, x_1y0z1, x1y0z1);
  (x_1y0z_1, x1y0z_1, x1y_1z0);
  (x_1y0z_1, x1y_1z0, x_1y_1z0)
].

(** binvox/manifold.go:145-538 grid2tris; the unhandled patterns are logged and give nothing. *)
Definition grid2tris {A} (k : key) (n : Z) (v2v : voxelToVectorFunc A) : list (A * A * A) :=
  if (n =? 0) || (n =? 255) then (* manifold.go:148 *) [] else
  if n =? g0 then (* manifold.go:151 *) apply k v2v singleCorner else
  if n =? g1 then (* manifold.go:153 *) apply k (rotateTrisClockwiseZ v2v) singleCorner else
  if n =? g2 then (* manifold.go:155 *) apply k (rotateTris180Z v2v) singleCorner else
  if n =? g3 then (* manifold.go:157 *) apply k (rotateTrisCounterClockwiseZ v2v) singleCorner else
  if n =? g4 then (* manifold.go:159 *) apply k (rotateTrisCounterClockwiseZ (rotateTris180X v2v)) singleCorner else
  if n =? g5 then (* manifold.go:161 *) apply k (rotateTris180Z (rotateTris180X v2v)) singleCorner else
  if n =? g6 then (* manifold.go:163 *) apply k (rotateTrisClockwiseZ (rotateTris180X v2v)) singleCorner else
  if n =? g7 then (* manifold.go:165 *) apply k (rotateTris180X v2v) singleCorner else
  if n =? Z.lor (Z.lor (Z.lor (Z.lor (Z.lor (Z.lor g0 g1) g2) g3) g4) g6) g7 then (* manifold.go:167 *) apply k (rotateTrisClockwiseZ (mirrorZ v2v)) singleCorner else
  if n =? Z.lor (Z.lor (Z.lor (Z.lor (Z.lor (Z.lor g0 g1) g3) g4) g5) g6) g7 then (* manifold.go:169 *) apply k (rotateTrisClockwiseZ (mirrorY v2v)) singleCorner else
  if n =? Z.lor (Z.lor (Z.lor (Z.lor (Z.lor (Z.lor g0 g2) g3) g4) g5) g6) g7 then (* manifold.go:171 *) apply k (mirrorX v2v) singleCorner else
  if n =? Z.lor (Z.lor (Z.lor (Z.lor (Z.lor (Z.lor g0 g1) g2) g4) g5) g6) g7 then (* manifold.go:173 *) apply k (rotateTris180X (mirrorZ v2v)) singleCorner else
  if n =? Z.lor (Z.lor (Z.lor (Z.lor (Z.lor (Z.lor g1 g2) g3) g4) g5) g6) g7 then (* manifold.go:175 *) apply k (rotateTrisClockwiseZ (mirrorX v2v)) singleCorner else
  if n =? Z.lor (Z.lor (Z.lor (Z.lor (Z.lor (Z.lor g0 g1) g2) g3) g5) g6) g7 then (* manifold.go:177 *) apply k (mirrorZ v2v) singleCorner else
  if n =? Z.lor (Z.lor (Z.lor (Z.lor (Z.lor (Z.lor g0 g1) g2) g3) g4) g5) g7 then (* manifold.go:179 *) apply k (rotateTris180X (mirrorX v2v)) singleCorner else
  if n =? Z.lor (Z.lor (Z.lor (Z.lor (Z.lor (Z.lor g0 g1) g2) g3) g4) g5) g6 then (* manifold.go:181 *) apply k (rotateTrisCounterClockwiseZ (mirrorZ v2v)) singleCorner else
  if n =? Z.lor (Z.lor (Z.lor g0 g1) g2) g3 then (* manifold.go:185 *) apply k (rotateTrisClockwiseX v2v) singleFace else
  if n =? Z.lor (Z.lor (Z.lor g4 g5) g6) g7 then (* manifold.go:187 *) apply k (rotateTrisCounterClockwiseX v2v) singleFace else
  if n =? Z.lor (Z.lor (Z.lor g0 g1) g4) g5 then (* manifold.go:189 *) apply k v2v singleFace else
  if n =? Z.lor (Z.lor (Z.lor g1 g2) g5) g6 then (* manifold.go:191 *) apply k (rotateTrisClockwiseZ v2v) singleFace else
  if n =? Z.lor (Z.lor (Z.lor g2 g3) g6) g7 then (* manifold.go:193 *) apply k (rotateTris180Z v2v) singleFace else
  if n =? Z.lor (Z.lor (Z.lor g0 g3) g4) g7 then (* manifold.go:195 *) apply k (rotateTrisCounterClockwiseZ v2v) singleFace else
  if n =? Z.lor g0 g1 then (* manifold.go:199 *) apply k v2v twoAdjacentCorners else
  if n =? Z.lor g0 g3 then (* manifold.go:201 *) apply k (rotateTrisCounterClockwiseZ v2v) twoAdjacentCorners else
  if n =? Z.lor g1 g2 then (* manifold.go:203 *) apply k (rotateTrisClockwiseZ v2v) twoAdjacentCorners else
  if n =? Z.lor g2 g3 then (* manifold.go:205 *) apply k (rotateTris180Z v2v) twoAdjacentCorners else
  if n =? Z.lor g0 g4 then (* manifold.go:207 *) apply k (rotateTrisClockwiseY v2v) twoAdjacentCorners else
  if n =? Z.lor g1 g5 then (* manifold.go:209 *) apply k (rotateTrisClockwiseY (rotateTrisClockwiseZ v2v)) twoAdjacentCorners else
  if n =? Z.lor g2 g6 then (* manifold.go:211 *) apply k (rotateTrisClockwiseY (rotateTris180Z v2v)) twoAdjacentCorners else
  if n =? Z.lor g3 g7 then (* manifold.go:213 *) apply k (rotateTrisClockwiseY (rotateTrisCounterClockwiseZ v2v)) twoAdjacentCorners else
  if n =? Z.lor g4 g5 then (* manifold.go:215 *) apply k (rotateTrisCounterClockwiseX v2v) twoAdjacentCorners else
  if n =? Z.lor g4 g7 then (* manifold.go:217 *) apply k (rotateTrisCounterClockwiseX (rotateTrisCounterClockwiseZ v2v)) twoAdjacentCorners else
  if n =? Z.lor g5 g6 then (* manifold.go:219 *) apply k (rotateTrisCounterClockwiseX (rotateTrisClockwiseZ v2v)) twoAdjacentCorners else
  if n =? Z.lor g6 g7 then (* manifold.go:221 *) apply k (rotateTrisCounterClockwiseX (rotateTris180Z v2v)) twoAdjacentCorners else
  if n =? Z.lor (Z.lor (Z.lor (Z.lor (Z.lor g0 g1) g2) g3) g6) g7 then (* manifold.go:223 *) apply k (mirrorZ v2v) twoAdjacentCorners else
  if n =? Z.lor (Z.lor (Z.lor (Z.lor (Z.lor g0 g1) g2) g3) g5) g6 then (* manifold.go:225 *) apply k (rotateTrisCounterClockwiseZ (mirrorZ v2v)) twoAdjacentCorners else
  if n =? Z.lor (Z.lor (Z.lor (Z.lor (Z.lor g0 g1) g4) g5) g6) g7 then (* manifold.go:227 *) apply k (mirrorY v2v) twoAdjacentCorners else
  if n =? Z.lor (Z.lor (Z.lor (Z.lor (Z.lor g0 g3) g4) g5) g6) g7 then (* manifold.go:229 *) apply k (rotateTrisCounterClockwiseZ (mirrorX v2v)) twoAdjacentCorners else
  if n =? Z.lor (Z.lor (Z.lor (Z.lor (Z.lor g1 g2) g4) g5) g6) g7 then (* manifold.go:231 *) apply k (rotateTrisClockwiseZ (mirrorX v2v)) twoAdjacentCorners else
  if n =? Z.lor (Z.lor (Z.lor (Z.lor (Z.lor g2 g3) g4) g5) g6) g7 then (* manifold.go:233 *) apply k (rotateTrisCounterClockwiseX (mirrorZ v2v)) twoAdjacentCorners else
  if n =? Z.lor (Z.lor (Z.lor (Z.lor (Z.lor g1 g2) g3) g5) g6) g7 then (* manifold.go:235 *) apply k (rotateTrisClockwiseY (rotateTrisClockwiseZ (mirrorX v2v))) twoAdjacentCorners else
  if n =? Z.lor (Z.lor (Z.lor (Z.lor (Z.lor g0 g1) g2) g4) g5) g6 then (* manifold.go:237 *) apply k (rotateTrisClockwiseY (mirrorY v2v)) twoAdjacentCorners else
  if n =? Z.lor (Z.lor (Z.lor (Z.lor (Z.lor g0 g2) g3) g4) g6) g7 then (* manifold.go:239 *) apply k (rotateTrisClockwiseY (mirrorX v2v)) twoAdjacentCorners else
  if n =? Z.lor (Z.lor (Z.lor (Z.lor (Z.lor g0 g1) g3) g4) g5) g7 then (* manifold.go:241 *) apply k (rotateTrisClockwiseY (rotateTrisCounterClockwiseZ (mirrorX v2v))) twoAdjacentCorners else
  if n =? Z.lor (Z.lor (Z.lor (Z.lor (Z.lor g0 g1) g2) g3) g4) g5 then (* manifold.go:243 *) apply k (rotateTris180Z (mirrorZ v2v)) twoAdjacentCorners else
  if n =? Z.lor (Z.lor (Z.lor (Z.lor (Z.lor g0 g1) g2) g3) g4) g7 then (* manifold.go:245 *) apply k (rotateTrisClockwiseZ (mirrorZ v2v)) twoAdjacentCorners else
  if n =? Z.lor g0 g2 then (* manifold.go:249 *) apply k v2v twoOppositeLevelCorners else
  if n =? Z.lor g1 g3 then (* manifold.go:251 *) apply k (rotateTrisClockwiseZ v2v) twoOppositeLevelCorners else
  if n =? Z.lor g0 g7 then (* manifold.go:253 *) apply k (rotateTrisClockwiseY (rotateTrisClockwiseX v2v)) twoOppositeLevelCorners else
  if n =? Z.lor g3 g4 then (* manifold.go:255 *) apply k (rotateTrisClockwiseY v2v) twoOppositeLevelCorners else
  if n =? Z.lor g0 g5 then (* manifold.go:257 *) apply k (rotateTrisCounterClockwiseX (rotateTrisClockwiseY v2v)) twoOppositeLevelCorners else
  if n =? Z.lor g1 g4 then (* manifold.go:259 *) apply k (rotateTrisCounterClockwiseX v2v) twoOppositeLevelCorners else
  if n =? Z.lor g1 g6 then (* manifold.go:261 *) apply k (rotateTrisCounterClockwiseY v2v) twoOppositeLevelCorners else
  if n =? Z.lor g2 g5 then (* manifold.go:263 *) apply k (rotateTrisCounterClockwiseY (rotateTrisClockwiseX v2v)) twoOppositeLevelCorners else
  if n =? Z.lor g3 g6 then (* manifold.go:265 *) apply k (rotateTrisClockwiseX v2v) twoOppositeLevelCorners else
  if n =? Z.lor g2 g7 then (* manifold.go:267 *) apply k (rotateTrisClockwiseX (rotateTrisClockwiseY v2v)) twoOppositeLevelCorners else
  if n =? Z.lor g4 g6 then (* manifold.go:269 *) apply k (rotateTris180X (rotateTrisClockwiseZ v2v)) twoOppositeLevelCorners else
  if n =? Z.lor g5 g7 then (* manifold.go:271 *) apply k (rotateTris180X v2v) twoOppositeLevelCorners else
  if n =? Z.lor g0 g6 then (* manifold.go:275 *) apply k v2v twoOppositeDiagonalCorners else
  if n =? Z.lor g1 g7 then (* manifold.go:277 *) apply k (rotateTrisClockwiseZ v2v) twoOppositeDiagonalCorners else
  if n =? Z.lor g2 g4 then (* manifold.go:279 *) apply k (rotateTris180Z v2v) twoOppositeDiagonalCorners else
  if n =? Z.lor g3 g5 then (* manifold.go:281 *) apply k (rotateTrisCounterClockwiseZ v2v) twoOppositeDiagonalCorners else
  if n =? Z.lor (Z.lor g0 g1) g2 then (* manifold.go:285 *) apply k v2v threeAdjacentCorners else
  if n =? Z.lor (Z.lor g0 g1) g3 then (* manifold.go:287 *) apply k (rotateTrisCounterClockwiseZ v2v) threeAdjacentCorners else
  if n =? Z.lor (Z.lor g0 g2) g3 then (* manifold.go:289 *) apply k (rotateTris180Z v2v) threeAdjacentCorners else
  if n =? Z.lor (Z.lor g1 g2) g3 then (* manifold.go:291 *) apply k (rotateTrisClockwiseZ v2v) threeAdjacentCorners else
  if n =? Z.lor (Z.lor g4 g5) g6 then (* manifold.go:293 *) apply k (rotateTris180X (rotateTrisCounterClockwiseZ v2v)) threeAdjacentCorners else
  if n =? Z.lor (Z.lor g4 g5) g7 then (* manifold.go:295 *) apply k (rotateTris180X (rotateTris180Z v2v)) threeAdjacentCorners else
  if n =? Z.lor (Z.lor g4 g6) g7 then (* manifold.go:297 *) apply k (rotateTris180X (rotateTrisClockwiseZ v2v)) threeAdjacentCorners else
  if n =? Z.lor (Z.lor g5 g6) g7 then (* manifold.go:299 *) apply k (rotateTris180X v2v) threeAdjacentCorners else
  if n =? Z.lor (Z.lor g0 g4) g5 then (* manifold.go:301 *) apply k (rotateTrisCounterClockwiseY (rotateTrisCounterClockwiseZ v2v)) threeAdjacentCorners else
  if n =? Z.lor (Z.lor g1 g2) g6 then (* manifold.go:303 *) apply k (rotateTrisClockwiseY (rotateTris180Z v2v)) threeAdjacentCorners else
  if n =? Z.lor (Z.lor g2 g3) g6 then (* manifold.go:305 *) apply k (rotateTrisClockwiseX v2v) threeAdjacentCorners else
  if n =? Z.lor (Z.lor g0 g4) g7 then (* manifold.go:307 *) apply k (rotateTrisCounterClockwiseX (rotateTrisCounterClockwiseZ v2v)) threeAdjacentCorners else
  if n =? Z.lor (Z.lor g2 g3) g7 then (* manifold.go:309 *) apply k (rotateTrisClockwiseY (rotateTrisCounterClockwiseZ v2v)) threeAdjacentCorners else
  if n =? Z.lor (Z.lor g0 g3) g7 then (* manifold.go:311 *) apply k (rotateTrisClockwiseX (rotateTrisClockwiseZ v2v)) threeAdjacentCorners else
  if n =? Z.lor (Z.lor g0 g1) g5 then (* manifold.go:313 *) apply k (rotateTrisClockwiseY (rotateTrisClockwiseZ v2v)) threeAdjacentCorners else
  if n =? Z.lor (Z.lor g1 g5) g6 then (* manifold.go:315 *) apply k (rotateTrisCounterClockwiseY v2v) threeAdjacentCorners else
  if n =? Z.lor (Z.lor g3 g6) g7 then (* manifold.go:317 *) apply k (rotateTrisCounterClockwiseX (rotateTris180Z v2v)) threeAdjacentCorners else
  if n =? Z.lor (Z.lor g2 g6) g7 then (* manifold.go:319 *) apply k (rotateTrisCounterClockwiseY (rotateTrisClockwiseZ v2v)) threeAdjacentCorners else
  if n =? Z.lor (Z.lor g1 g4) g5 then (* manifold.go:321 *) apply k (rotateTrisCounterClockwiseX v2v) threeAdjacentCorners else
  if n =? Z.lor (Z.lor g0 g1) g4 then (* manifold.go:323 *) apply k (rotateTrisClockwiseX (rotateTris180Z v2v)) threeAdjacentCorners else
  if n =? Z.lor (Z.lor g3 g4) g7 then (* manifold.go:325 *) apply k (rotateTrisCounterClockwiseY (rotateTris180Z v2v)) threeAdjacentCorners else
  if n =? Z.lor (Z.lor g2 g5) g6 then (* manifold.go:327 *) apply k (rotateTrisCounterClockwiseX (rotateTrisClockwiseZ v2v)) threeAdjacentCorners else
  if n =? Z.lor (Z.lor g0 g3) g4 then (* manifold.go:329 *) apply k (rotateTrisClockwiseY v2v) threeAdjacentCorners else
  if n =? Z.lor (Z.lor g1 g2) g5 then (* manifold.go:331 *) apply k (rotateTrisClockwiseX (rotateTrisCounterClockwiseZ v2v)) threeAdjacentCorners else
  if n =? Z.lor (Z.lor (Z.lor (Z.lor g0 g1) g2) g3) g6 then (* manifold.go:333 *) apply k (rotateTris180X (rotateTris180Z v2v)) (flipNormals threeAdjacentCorners) else
  if n =? Z.lor (Z.lor (Z.lor (Z.lor g0 g1) g2) g3) g7 then (* manifold.go:335 *) apply k (rotateTris180X (rotateTrisCounterClockwiseZ v2v)) (flipNormals threeAdjacentCorners) else
  if n =? Z.lor (Z.lor (Z.lor (Z.lor g1 g4) g5) g6) g7 then (* manifold.go:337 *) apply k (rotateTris180Z v2v) (flipNormals threeAdjacentCorners) else
  if n =? Z.lor (Z.lor (Z.lor (Z.lor g0 g4) g5) g6) g7 then (* manifold.go:339 *) apply k (rotateTrisClockwiseZ v2v) (flipNormals threeAdjacentCorners) else
  if n =? Z.lor (Z.lor (Z.lor (Z.lor g0 g3) g4) g5) g7 then (* manifold.go:341 *) apply k (rotateTrisClockwiseY (rotateTris180Z v2v)) (flipNormals threeAdjacentCorners) else
  if n =? Z.lor (Z.lor (Z.lor (Z.lor g2 g3) g5) g6) g7 then (* manifold.go:343 *) apply k (rotateTrisClockwiseX (rotateTris180Z v2v)) (flipNormals threeAdjacentCorners) else
  if n =? Z.lor (Z.lor (Z.lor (Z.lor g2 g3) g4) g6) g7 then (* manifold.go:345 *) apply k (rotateTrisClockwiseY (rotateTrisClockwiseZ v2v)) (flipNormals threeAdjacentCorners) else
  if n =? Z.lor (Z.lor (Z.lor (Z.lor g0 g3) g4) g6) g7 then (* manifold.go:347 *) apply k (rotateTrisClockwiseX (rotateTrisCounterClockwiseZ v2v)) (flipNormals threeAdjacentCorners) else
  if n =? Z.lor (Z.lor (Z.lor (Z.lor g1 g2) g5) g6) g7 then (* manifold.go:349 *) apply k (rotateTrisClockwiseY v2v) (flipNormals threeAdjacentCorners) else
  if n =? Z.lor (Z.lor (Z.lor (Z.lor g0 g1) g4) g5) g7 then (* manifold.go:351 *) apply k (rotateTrisClockwiseX v2v) (flipNormals threeAdjacentCorners) else
  if n =? Z.lor (Z.lor (Z.lor (Z.lor g0 g1) g4) g5) g6 then (* manifold.go:353 *) apply k (rotateTrisClockwiseY (rotateTrisCounterClockwiseZ v2v)) (flipNormals threeAdjacentCorners) else
  if n =? Z.lor (Z.lor (Z.lor (Z.lor g1 g2) g4) g5) g6 then (* manifold.go:355 *) apply k (rotateTrisClockwiseX (rotateTrisClockwiseZ v2v)) (flipNormals threeAdjacentCorners) else
  if n =? Z.lor (Z.lor (Z.lor (Z.lor g2 g4) g5) g6) g7 then (* manifold.go:357 *) apply k (rotateTrisCounterClockwiseZ v2v) (flipNormals threeAdjacentCorners) else
  if n =? Z.lor (Z.lor (Z.lor (Z.lor g0 g2) g3) g6) g7 then (* manifold.go:359 *) apply k (rotateTrisCounterClockwiseX v2v) (flipNormals threeAdjacentCorners) else
  if n =? Z.lor (Z.lor (Z.lor (Z.lor g0 g2) g3) g4) g7 then (* manifold.go:361 *) apply k (rotateTrisCounterClockwiseY v2v) (flipNormals threeAdjacentCorners) else
  if n =? Z.lor (Z.lor (Z.lor (Z.lor g0 g1) g2) g5) g6 then (* manifold.go:363 *) apply k (rotateTrisCounterClockwiseY (rotateTris180Z v2v)) (flipNormals threeAdjacentCorners) else
  if n =? Z.lor (Z.lor (Z.lor (Z.lor g1 g2) g3) g5) g6 then (* manifold.go:365 *) apply k (rotateTrisCounterClockwiseX (rotateTrisCounterClockwiseZ v2v)) (flipNormals threeAdjacentCorners) else
  if n =? Z.lor (Z.lor (Z.lor (Z.lor g0 g1) g2) g4) g5 then (* manifold.go:367 *) apply k (rotateTrisCounterClockwiseX (rotateTris180Z v2v)) (flipNormals threeAdjacentCorners) else
  if n =? Z.lor (Z.lor (Z.lor (Z.lor g3 g4) g5) g6) g7 then (* manifold.go:369 *) apply k v2v (flipNormals threeAdjacentCorners) else
  if n =? Z.lor (Z.lor (Z.lor (Z.lor g0 g1) g2) g3) g5 then (* manifold.go:371 *) apply k (rotateTris180X (rotateTrisClockwiseZ v2v)) (flipNormals threeAdjacentCorners) else
  if n =? Z.lor (Z.lor (Z.lor (Z.lor g0 g1) g3) g4) g7 then (* manifold.go:373 *) apply k (rotateTrisCounterClockwiseX (rotateTrisClockwiseZ v2v)) (flipNormals threeAdjacentCorners) else
  if n =? Z.lor (Z.lor (Z.lor (Z.lor g0 g1) g2) g3) g4 then (* manifold.go:375 *) apply k (rotateTris180X v2v) (flipNormals threeAdjacentCorners) else
  if n =? Z.lor (Z.lor (Z.lor (Z.lor g1 g2) g3) g6) g7 then (* manifold.go:377 *) apply k (rotateTrisCounterClockwiseY (rotateTrisCounterClockwiseZ v2v)) (flipNormals threeAdjacentCorners) else
  if n =? Z.lor (Z.lor (Z.lor (Z.lor g0 g1) g3) g4) g5 then (* manifold.go:379 *) apply k (rotateTrisCounterClockwiseY (rotateTrisClockwiseZ v2v)) (flipNormals threeAdjacentCorners) else
  if n =? Z.lor (Z.lor (Z.lor g0 g1) g2) g5 then (* manifold.go:383 *) apply k v2v halfCorner ++ apply k (rotateTrisClockwiseX (rotateTrisCounterClockwiseZ v2v)) halfCorner ++ apply k (rotateTrisCounterClockwiseX (rotateTrisClockwiseY v2v)) halfCorner else
  if n =? Z.lor (Z.lor (Z.lor g0 g1) g3) g4 then (* manifold.go:388 *) apply k (rotateTrisCounterClockwiseZ v2v) halfCorner ++ apply k (rotateTrisClockwiseX (rotateTris180Z v2v)) halfCorner ++ apply k (rotateTrisCounterClockwiseX (rotateTrisClockwiseY (rotateTrisCounterClockwiseZ v2v))) halfCorner else
  if n =? Z.lor (Z.lor (Z.lor g0 g2) g3) g7 then (* manifold.go:393 *) apply k (rotateTris180Z v2v) halfCorner ++ apply k (rotateTrisClockwiseX (rotateTrisClockwiseZ v2v)) halfCorner ++ apply k (rotateTrisCounterClockwiseX (rotateTrisClockwiseY (rotateTris180Z v2v))) halfCorner else
  if n =? Z.lor (Z.lor (Z.lor g0 g4) g5) g7 then (* manifold.go:398 *) apply k (rotateTrisCounterClockwiseX (rotateTrisCounterClockwiseZ v2v)) halfCorner ++ apply k (rotateTrisClockwiseX (rotateTrisCounterClockwiseZ (rotateTrisCounterClockwiseX (rotateTrisCounterClockwiseZ v2v)))) halfCorner ++ apply k (rotateTrisCounterClockwiseX (rotateTrisClockwiseY (rotateTrisCounterClockwiseX (rotateTrisCounterClockwiseZ v2v)))) halfCorner else
  if n =? Z.lor (Z.lor (Z.lor g1 g2) g3) g6 then (* manifold.go:403 *) apply k (rotateTrisClockwiseZ v2v) halfCorner ++ apply k (rotateTrisClockwiseX v2v) halfCorner ++ apply k (rotateTrisCounterClockwiseX (rotateTrisClockwiseY (rotateTrisClockwiseZ v2v))) halfCorner else
  if n =? Z.lor (Z.lor (Z.lor g1 g4) g5) g6 then (* manifold.go:408 *) apply k (rotateTrisCounterClockwiseX v2v) halfCorner ++ apply k (rotateTrisClockwiseX (rotateTrisCounterClockwiseZ (rotateTrisCounterClockwiseX v2v))) halfCorner ++ apply k (rotateTrisCounterClockwiseX (rotateTrisClockwiseY (rotateTrisCounterClockwiseX v2v))) halfCorner else
  if n =? Z.lor (Z.lor (Z.lor g2 g5) g6) g7 then (* manifold.go:413 *) apply k (rotateTrisCounterClockwiseX (rotateTrisClockwiseZ v2v)) halfCorner ++ apply k (rotateTrisClockwiseX (rotateTrisCounterClockwiseZ (rotateTrisCounterClockwiseX (rotateTrisClockwiseZ v2v)))) halfCorner ++ apply k (rotateTrisCounterClockwiseX (rotateTrisClockwiseY (rotateTrisCounterClockwiseX (rotateTrisClockwiseZ v2v)))) halfCorner else
  if n =? Z.lor (Z.lor (Z.lor g3 g4) g6) g7 then (* manifold.go:418 *) apply k (rotateTrisCounterClockwiseX (rotateTris180Z v2v)) halfCorner ++ apply k (rotateTrisClockwiseX (rotateTrisCounterClockwiseZ (rotateTrisCounterClockwiseX (rotateTris180Z v2v)))) halfCorner ++ apply k (rotateTrisCounterClockwiseX (rotateTrisClockwiseY (rotateTrisCounterClockwiseX (rotateTris180Z v2v)))) halfCorner else
  if n =? Z.lor (Z.lor (Z.lor (Z.lor g0 g3) g5) g6) g7 then (* manifold.go:426 *) apply k v2v g0357 else
  if n =? Z.lor (Z.lor (Z.lor (Z.lor g0 g1) g2) g6) g7 then (* manifold.go:428 *) apply k (mirrorZ (rotateTrisCounterClockwiseZ v2v)) (flipNormals g0357) else
  if n =? Z.lor (Z.lor g3 g4) g5 then (* manifold.go:430 *) apply k (mirrorZ (rotateTrisCounterClockwiseZ v2v)) g0357 else
  if n =? Z.lor (Z.lor g2 g3) g4 then (* manifold.go:433 *) apply k v2v g234 else
  if n =? Z.lor (Z.lor (Z.lor (Z.lor g0 g1) g5) g6) g7 then (* manifold.go:435 *) apply k v2v (flipNormals g234) else
  if n =? Z.lor (Z.lor g0 g6) g7 then (* manifold.go:437 *) apply k (mirrorZ v2v) (flipNormals g234) else
  if n =? Z.lor (Z.lor (Z.lor (Z.lor g1 g2) g3) g4) g5 then (* manifold.go:439 *) apply k (mirrorZ v2v) g234 else
  if n =? Z.lor (Z.lor g1 g6) g7 then (* manifold.go:441 *) apply k (mirrorX v2v) (flipNormals g234) else
  if n =? Z.lor (Z.lor (Z.lor (Z.lor g0 g2) g3) g4) g5 then (* manifold.go:443 *) apply k (mirrorX v2v) g234 else
  if n =? Z.lor (Z.lor g0 g1) g6 then (* manifold.go:445 *) apply k (rotateTris180Z v2v) g234 else
  if n =? Z.lor (Z.lor (Z.lor (Z.lor g2 g3) g4) g5) g7 then (* manifold.go:447 *) apply k (rotateTris180Z v2v) (flipNormals g234) else
  if n =? Z.lor (Z.lor g0 g1) g7 then (* manifold.go:449 *) apply k (rotateTris180Z (mirrorX v2v)) (flipNormals g234) else
  if n =? Z.lor (Z.lor (Z.lor (Z.lor g2 g3) g4) g5) g6 then (* manifold.go:451 *) apply k (rotateTris180Z (mirrorX v2v)) g234 else
  if n =? Z.lor (Z.lor g2 g4) g5 then (* manifold.go:453 *) apply k (mirrorZ (rotateTris180Z v2v)) (flipNormals g234) else
  if n =? Z.lor (Z.lor (Z.lor (Z.lor g0 g1) g3) g6) g7 then (* manifold.go:455 *) apply k (mirrorZ (rotateTris180Z v2v)) g234 else
  if n =? Z.lor (Z.lor g2 g3) g5 then (* manifold.go:457 *) apply k (rotateTris180Z (mirrorX (rotateTris180Z v2v))) (flipNormals g234) else
  if n =? Z.lor (Z.lor (Z.lor (Z.lor g0 g1) g4) g6) g7 then (* manifold.go:459 *) apply k (rotateTris180Z (mirrorX (rotateTris180Z v2v))) g234 else
  if n =? Z.lor (Z.lor (Z.lor g0 g1) g6) g7 then (* manifold.go:462 *) apply k v2v g0167 else
  if n =? Z.lor (Z.lor (Z.lor g2 g3) g4) g5 then (* manifold.go:464 *) apply k v2v (flipNormals g0167) else
  if n =? Z.lor (Z.lor (Z.lor g0 g1) g5) g6 then (* manifold.go:467 *) apply k v2v g0156 else
  if n =? Z.lor (Z.lor (Z.lor g0 g3) g6) g7 then (* manifold.go:469 *) apply k (mirrorX (rotateTrisCounterClockwiseZ v2v)) (flipNormals g0156) else
  if n =? Z.lor (Z.lor (Z.lor g2 g3) g4) g7 then (* manifold.go:471 *) apply k (rotateTris180Z v2v) g0156 else
  if n =? Z.lor (Z.lor (Z.lor g0 g4) g5) g6 then (* manifold.go:473 *) apply k (rotateTrisCounterClockwiseY (mirrorX v2v)) (flipNormals g0156) else
  if n =? Z.lor (Z.lor (Z.lor g3 g4) g5) g7 then (* manifold.go:475 *) apply k (rotateTrisCounterClockwiseY (mirrorX (rotateTrisCounterClockwiseZ v2v))) (flipNormals g0156) else
  if n =? Z.lor (Z.lor (Z.lor g0 g1) g2) g6 then (* manifold.go:477 *) apply k (rotateTrisCounterClockwiseY (mirrorX (rotateTrisCounterClockwiseZ v2v))) g0156 else
  if n =? Z.lor (Z.lor (Z.lor g2 g3) g5) g6 then (* manifold.go:479 *) apply k (mirrorX (rotateTris180Z v2v)) (flipNormals g0156) else
  if n =? Z.lor (Z.lor (Z.lor g0 g3) g4) g5 then (* manifold.go:481 *) apply k (rotateTrisCounterClockwiseZ v2v) g0156 else
  if n =? Z.lor (Z.lor (Z.lor g1 g2) g6) g7 then (* manifold.go:483 *) apply k (rotateTrisCounterClockwiseZ v2v) (flipNormals g0156) else
  if n =? Z.lor (Z.lor (Z.lor g0 g1) g4) g7 then (* manifold.go:485 *) apply k (mirrorX (rotateTris180Z v2v)) g0156 else
  if n =? Z.lor (Z.lor (Z.lor g1 g2) g4) g5 then (* manifold.go:487 *) apply k (mirrorX (rotateTrisCounterClockwiseZ v2v)) g0156 else
  if n =? Z.lor (Z.lor (Z.lor g1 g4) g5) g7 then (* manifold.go:489 *) apply k (rotateTrisCounterClockwiseX (rotateTrisCounterClockwiseZ v2v)) g0156 else
  if n =? Z.lor (Z.lor (Z.lor g0 g2) g3) g6 then (* manifold.go:491 *) apply k (rotateTrisCounterClockwiseX (rotateTrisCounterClockwiseZ v2v)) (flipNormals g0156) else
  if n =? Z.lor (Z.lor (Z.lor g0 g4) g6) g7 then (* manifold.go:493 *) apply k (rotateTris180Z (rotateTrisClockwiseX v2v)) g0156 else
  if n =? Z.lor (Z.lor (Z.lor g1 g2) g3) g5 then (* manifold.go:495 *) apply k (rotateTris180Z (rotateTrisClockwiseX v2v)) (flipNormals g0156) else
  if n =? Z.lor (Z.lor (Z.lor g2 g4) g5) g6 then (* manifold.go:497 *) apply k (rotateTrisClockwiseZ (rotateTrisClockwiseX v2v)) g0156 else
  if n =? Z.lor (Z.lor (Z.lor g0 g1) g3) g7 then (* manifold.go:499 *) apply k (rotateTrisClockwiseZ (rotateTrisClockwiseX v2v)) (flipNormals g0156) else
  if n =? Z.lor (Z.lor (Z.lor g0 g2) g3) g4 then (* manifold.go:501 *) apply k (rotateTrisCounterClockwiseY (mirrorX (rotateTrisCounterClockwiseZ (rotateTris180Z v2v)))) g0156 else
  if n =? Z.lor (Z.lor (Z.lor g1 g5) g6) g7 then (* manifold.go:503 *) apply k (rotateTrisCounterClockwiseY (mirrorX (rotateTrisCounterClockwiseZ (rotateTris180Z v2v)))) (flipNormals g0156) else
  if n =? Z.lor (Z.lor (Z.lor g2 g4) g5) g7 then (* manifold.go:506 *) apply k v2v g2457 else
  if n =? Z.lor (Z.lor (Z.lor (Z.lor g1 g2) g4) g6) g7 then (* manifold.go:509 *) apply k v2v g12467 else
  if n =? Z.lor (Z.lor (Z.lor (Z.lor (Z.lor g0 g2) g4) g5) g6) g7 then (* manifold.go:512 *) apply k v2v g024567 else
  if n =? Z.lor (Z.lor (Z.lor (Z.lor (Z.lor g1 g3) g4) g5) g6) g7 then (* manifold.go:514 *) apply k (rotateTrisClockwiseZ v2v) g024567 else
  if n =? Z.lor (Z.lor (Z.lor (Z.lor (Z.lor g1 g2) g3) g4) g5) g6 then (* manifold.go:516 *) apply k (rotateTrisClockwiseY v2v) g024567 else
  if n =? Z.lor (Z.lor (Z.lor (Z.lor (Z.lor g1 g2) g3) g4) g6) g7 then (* manifold.go:518 *) apply k (rotateTrisCounterClockwiseX v2v) g024567 else
  if n =? Z.lor (Z.lor (Z.lor (Z.lor (Z.lor g0 g2) g3) g4) g5) g7 then (* manifold.go:520 *) apply k (rotateTrisCounterClockwiseX (rotateTrisClockwiseZ v2v)) g024567 else
  if n =? Z.lor (Z.lor (Z.lor (Z.lor (Z.lor g0 g2) g3) g5) g6) g7 then (* manifold.go:522 *) apply k (rotateTrisClockwiseY (rotateTrisClockwiseZ v2v)) g024567 else
  if n =? Z.lor (Z.lor (Z.lor (Z.lor (Z.lor g0 g1) g3) g4) g6) g7 then (* manifold.go:524 *) apply k (rotateTrisCounterClockwiseY v2v) g024567 else
  if n =? Z.lor (Z.lor (Z.lor (Z.lor (Z.lor g0 g1) g2) g5) g6) g7 then (* manifold.go:526 *) apply k (rotateTrisCounterClockwiseX (rotateTrisCounterClockwiseZ v2v)) g024567 else
  if n =? Z.lor (Z.lor (Z.lor (Z.lor g1 g3) g4) g5) g6 then (* manifold.go:529 *) apply k v2v g13456 else
  if n =? Z.lor (Z.lor (Z.lor (Z.lor g0 g2) g4) g5) g7 then (* manifold.go:531 *) apply k (rotateTrisCounterClockwiseZ v2v) g13456 else
  [].
