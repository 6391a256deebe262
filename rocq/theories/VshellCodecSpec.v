(** Specification vocabulary for the .vshell codec.  Nothing here refers to the code. *)
From Verif Require Import Base BinvoxSpec.
From Coq Require Import ZArith List Bool Init.Byte.
From stdpp Require Import base list list_numbers gmap.
Import ListNotations.
Open Scope Z_scope.

(** A 32-bit value that stands for "no shell voxel here" in a file. *)
Definition blank (v : Z) : Prop := v = 0 \/ v = 2 ^ 32 - 1.
Global Instance blank_dec v : Decision (blank v).
Proof. unfold blank. apply _. Defined.

(** The number made of bytes, least significant first. *)
Fixpoint le_number (bs : list byte) : Z :=
  match bs with [] => 0 | b :: bs => b2z b + 256 * le_number bs end.

(** A data section read as a list of records (value, count): a 4-byte value, then a 2-byte count for
    a blank value and a non-zero 1-byte count for a mask. *)
Inductive srecords : list byte -> list (Z * Z) -> Prop :=
| sr_nil : srecords [] []
| sr_blank vb cb rest recs :
    length vb = 4%nat -> length cb = 2%nat -> blank (le_number vb) ->
    srecords rest recs -> srecords (vb ++ cb ++ rest) ((le_number vb, le_number cb) :: recs)
| sr_mask vb c rest recs :
    length vb = 4%nat -> ~ blank (le_number vb) -> 1 <= b2z c ->
    srecords rest recs -> srecords (vb ++ c :: rest) ((le_number vb, b2z c) :: recs).

(** The number of grid positions the records describe, and their values in file order. *)
Definition srec_total (recs : list (Z * Z)) : Z := fold_right (fun r a => snd r + a) 0 recs.
Definition sexpand (recs : list (Z * Z)) : list Z :=
  concat (map (fun r => repeat (fst r) (Z.to_nat (snd r))) recs).

(** The mask of the voxel at a key, 0 if there is none. *)
Definition mask_at (vox : list (key * Z)) (k : key) : Z :=
  default 0 ((list_to_map vox : gmap key Z) !! k).

(** Among the first [total] values of [f] there are no 65536 consecutive equal ones. *)
Definition no_long_run (f : Z -> Z) (total : Z) : Prop :=
  forall i, 0 <= i -> i + 65536 <= total -> exists j, i < j < i + 65536 /\ f j <> f i.

(** Voxels listed in file order. *)
Definition file_order (ny nz : Z) (vox : list (key * Z)) : Prop :=
  forall i j v w, (i < j)%nat -> vox !! i = Some v -> vox !! j = Some w ->
    voxel_index ny nz (fst v) < voxel_index ny nz (fst w).
