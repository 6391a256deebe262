(** Specification vocabulary for shells.  Nothing here refers to the code. *)
From Verif Require Import Base.
From Coq Require Import ZArith List Bool.
From stdpp Require Import base list gmap sets fin_sets.
Import ListNotations.
Open Scope Z_scope.

(** The 26 offsets to the neighbours of a voxel. *)
Definition is_offset (o : key) : Prop :=
  -1 <= kx o <= 1 /\ -1 <= ky o <= 1 /\ -1 <= kz o <= 1 /\ o <> (0, 0, 0).

Definition move (k o : key) : key := (kx k + kx o, ky k + ky o, kz k + kz o).

(** The bit assigned to an offset: x slowest, z fastest (vshell/vshell.go:109-137). *)
Definition offset_bit (o : key) : Z := 9 * (kx o + 1) + 3 * (ky o + 1) + (kz o + 1).

(** [n] is exactly the mask of the neighbours that voxel [k] has in the model [M]. *)
Definition exact_mask (M : gset key) (k : key) (n : Z) : Prop :=
  0 <= n /\ forall i, Z.testbit n i = true <->
    exists o, is_offset o /\ i = offset_bit o /\ move k o ∈ M.

(** [n] claims only neighbours that are there. *)
Definition sound_mask (M : gset key) (k : key) (n : Z) : Prop :=
  0 <= n /\ forall i, Z.testbit n i = true ->
    exists o, is_offset o /\ i = offset_bit o /\ move k o ∈ M.

(** All 26 neighbours are present. *)
Definition enclosed (M : gset key) (k : key) : Prop := forall o, is_offset o -> move k o ∈ M.

(** [vs] is the exact shell of the model [M]. *)
Definition exact_shell (M : gset key) (vs : list (key * Z)) : Prop :=
  NoDup (map fst vs) /\
  (forall k, k ∈ map fst vs <-> k ∈ M /\ ~ enclosed M k) /\
  (forall k n, (k, n) ∈ vs -> exact_mask M k n).

(** A shell between the exact shell and the model, with sound masks. *)
Definition sound_shell (M : gset key) (vs : list (key * Z)) : Prop :=
  NoDup (map fst vs) /\
  (forall k, k ∈ map fst vs -> k ∈ M) /\
  (forall k, k ∈ M -> ~ enclosed M k -> k ∈ map fst vs) /\
  (forall k n, (k, n) ∈ vs -> sound_mask M k n).

(** [order] is an order in which a Go map with key set [S] may be iterated. *)
Definition iterates (order : list key) (S : gset key) : Prop :=
  NoDup order /\ forall k, k ∈ order <-> k ∈ S.

(** The model [M] moved by [d] voxels. *)
Definition displaced (M : gset key) (d : key) : gset key := set_map (fun k => move k d) M.
