(** Specification vocabulary for the .binvox codec.  Nothing here refers to the code. *)
From Verif Require Import Base.
From Coq Require Import ZArith List Bool String Init.Byte.
From stdpp Require Import base list list_numbers gmap sets fin_sets.
Import ListNotations.
Open Scope Z_scope.

(** The half-open region [s, s+n) on each axis. *)
Definition in_region (sx sy sz nx ny nz : Z) (k : key) : Prop :=
  sx <= kx k < sx + nx /\ sy <= ky k < sy + ny /\ sz <= kz k < sz + nz.

(** A key inside a grid of the given dimensions. *)
Definition in_grid (nx ny nz : Z) (k : key) : Prop := in_region 0 0 0 nx ny nz k.

Definition shift_key (dx dy dz : Z) (k : key) : key := (kx k + dx, ky k + dy, kz k + dz).

(** The [i]-th voxel of a grid in file order: y runs fastest, then z, then x. *)
Definition nth_voxel (ny nz : Z) (i : Z) : key := (i / (ny * nz), i mod ny, (i / ny) mod nz).

(** Position in file order. *)
Definition voxel_index (ny nz : Z) (k : key) : Z := (kx k * nz + kz k) * ny + ky k.

(** A data section read as a list of records (value, count). *)
Inductive data_records : list byte -> list (bool * Z) -> Prop :=
| dr_nil : data_records [] []
| dr_cons v c rest (b : bool) recs :
    b2z v = (if b then 1 else 0) -> 1 <= b2z c ->
    data_records rest recs -> data_records (v :: c :: rest) ((b, b2z c) :: recs).

(** The number of voxels the records describe. *)
Definition rec_total (recs : list (bool * Z)) : Z := fold_right (fun r a => snd r + a) 0 recs.

(** Voxel values described by the records, in file order. *)
Definition expand (recs : list (bool * Z)) : list bool :=
  concat (map (fun r => repeat (fst r) (Z.to_nat (snd r))) recs).

(** Two neighbouring records share a value only if the first is full. *)
Fixpoint canonical (recs : list (bool * Z)) : Prop :=
  match recs with
  | (v1, c1) :: (((v2, _) :: _) as rest) => (v1 = v2 -> c1 = 255) /\ canonical rest
  | _ => True
  end.
