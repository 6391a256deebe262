(** Model of package vshell: shells and merging (vshell/vshell.go, vshell/merge.go).

    Floats are exact rationals here ([Q]); [int(x)] is truncation toward zero.  NeighborBitMap
    (uint32) is a [Z]; all masks built by the code stay below 2^27, so no wrap-around occurs. *)
From Verif Require Import Base BinvoxModel Geom.
From Coq Require Import ZArith QArith List Bool.
From stdpp Require Import base list gmap sets fin_sets.
Import ListNotations.
Open Scope Z_scope.

(** vshell/vshell.go:40-43 VShVoxel: location and neighbour mask. *)
Notation svox := (key * Z)%type.

(** vshell/vshell.go:32-37.  [F] is float64: only its text form matters to the codec
    (VshellCodec.v), and geometry is done with exact rationals ([vshell]). *)
Record gshell (F : Type) := GShell {
  sNX : Z; sNY : Z; sNZ : Z;
  sTX : F; sTY : F; sTZ : F;
  sScale : F;
  Voxels : list svox
}.
Arguments GShell {F}. Arguments sNX {F}. Arguments sNY {F}. Arguments sNZ {F}.
Arguments sTX {F}. Arguments sTY {F}. Arguments sTZ {F}. Arguments sScale {F}. Arguments Voxels {F}.
Notation vshell := (gshell Q).
Notation VShell := (@GShell Q).

(** vshell/vshell.go:109-137: [1 << iota]; the first, the centre and the full mask (282-307). *)
Definition bit_first : Z := Z.shiftl 1 0.
Definition bit_center : Z := Z.shiftl 1 13.
Definition allNeighbors : Z :=
  fold_left Z.lor (map (Z.shiftl 1)
    [0;1;2;3;4;5;6;7;8;9;10;11;12;14;15;16;17;18;19;20;21;22;23;24;25;26]) 0.

(** The three nested loops of findNeighbors, vshell/merge.go:186-188. *)
Definition offsets : list key :=
  x ← [-1;0;1]; y ← [-1;0;1]; z ← [-1;0;1]; [(x, y, z)].

Definition add_key (k o : key) : key := (kx k + kx o, ky k + ky o, kz k + kz o).

(** One iteration of the innermost loop, vshell/merge.go:189-198. *)
Definition find_step (m : gset key) (old : gmap key nat) (k : key)
    (st : Z * Z * list key) (o : key) : Z * Z * list key :=
  let '(mask, result, toCheck) := st in
  let '(result, toCheck) :=
    if negb (mask =? bit_center) then
      let tk := add_key k o in
      if decide (tk ∈ m) then (Z.lor result mask, toCheck)
      else match old !! tk with
           | Some _ => (Z.lor result mask, toCheck ++ [tk])
           | None => (result, toCheck)
           end
    else (result, toCheck) in
  (Z.shiftl mask 1, result, toCheck).

(** vshell/merge.go:184-203 findNeighbors. *)
Definition findNeighbors (m : gset key) (k : key) (old : gmap key nat) : Z * list key :=
  let '(_, result, toCheck) := fold_left (find_step m old k) offsets (bit_first, 0, []) in
  (result, toCheck).

(** vshell/merge.go:207-243 diffKeys. *)
Definition diffKeys (o n : key) : Z :=
  let dx := kx n - kx o in
  let dy := ky n - ky o in
  let dz := kz n - kz o in
  let result := bit_first in
  match (if dx =? -1 then Some result else if dx =? 0 then Some (Z.shiftl result 9)
         else if dx =? 1 then Some (Z.shiftl result 18) else None) with
  | None => 0
  | Some result =>
  match (if dy =? -1 then Some result else if dy =? 0 then Some (Z.shiftl result 3)
         else if dy =? 1 then Some (Z.shiftl result 6) else None) with
  | None => 0
  | Some result =>
  match (if dz =? -1 then Some result else if dz =? 0 then Some (Z.shiftl result 1)
         else if dz =? 1 then Some (Z.shiftl result 2) else None) with
  | None => 0
  | Some result => Z.land result allNeighbors
  end end end.

(** ** The slice vs.Voxels and the pointers into it.

    [old] (vshell/merge.go:85-88) holds pointers into the backing array of vs.Voxels as it is before
    the loop.  [c_old] is the contents of the first cells of that array, [c_cur] is what vs.Voxels
    shows.  While [c_shared] holds both are the same memory; the first append that exceeds the
    capacity copies vs.Voxels to a new array, after which writes through [old] are not seen in
    vs.Voxels. *)
Record cells := Cells { c_old : list svox; c_cur : list svox; c_cap : nat; c_shared : bool }.

(** vshell/merge.go:85-88: index of the voxel a key points to; a later duplicate wins. *)
Definition build_old (vs : list svox) : gmap key nat :=
  fold_left (fun m iv => <[fst (snd iv) := fst iv]> m) (imap pair vs) ∅.

(** [*p = f( *p )] for a pointer to cell [i]. *)
Definition poke (i : nat) (f : svox -> svox) (c : cells) : cells :=
  Cells (alter f i (c_old c))
        (if c_shared c then alter f i (c_cur c) else c_cur c) (c_cap c) (c_shared c).

(** [append(vs.Voxels, v)]; [grow] is the runtime's capacity policy. *)
Definition push (grow : nat -> nat) (v : svox) (c : cells) : cells :=
  if Nat.ltb (length (c_cur c)) (c_cap c)
  then Cells (c_old c) (c_cur c ++ [v]) (c_cap c) (c_shared c)
  else Cells (c_old c) (c_cur c ++ [v]) (grow (c_cap c)) false.

(** Loop state of Add: the cells and toRemove. *)
Notation add_state := (cells * gset key)%type.

(** vshell/merge.go:96-103, one element of toCheck. *)
Definition touch (old : gmap key nat) (k : key) (st : add_state) (ck : key) : add_state :=
  let '(c, toRemove) := st in
  match old !! ck with
  | None => st                                    (* not reached: toCheck only holds keys of old *)
  | Some i =>
      let c := poke i (fun v => (fst v, Z.lor (snd v) (diffKeys ck k))) c in
      match c_old c !! i with
      | Some v => if snd v =? allNeighbors then (c, {[ck]} ∪ toRemove) else (c, toRemove)
      | None => (c, toRemove)
      end
  end.

(** vshell/merge.go:93-111, one new voxel. *)
Definition add_key_step (grow : nat -> nat) (lookup : gset key) (old : gmap key nat)
    (st : add_state) (k : key) : add_state :=
  let '(neighbors, toCheck) := findNeighbors lookup k old in
  let '(c, toRemove) := fold_left (touch old k) toCheck st in
  if neighbors =? allNeighbors then (c, toRemove)
  else (push grow (k, neighbors) c, toRemove).

(** vshell/merge.go:84-123: from the lookup table to the new voxel list.  [order] is the order in
    which the map iteration visits lookup, [cap] the capacity of vs.Voxels.  [None] is the panic of
    make with a negative capacity (line 115). *)
Definition add_voxels (grow : nat -> nat) (cap : nat) (lookup : gset key) (order : list key)
    (vs : list svox) : option (list svox) :=
  let old := build_old vs in
  let '(c, toRemove) :=
    fold_left (add_key_step grow lookup old) order (Cells vs vs cap true, ∅) in
  if decide (0 < size toRemove)%nat then
    if Nat.ltb (length (c_cur c)) (size toRemove) then None
    else Some (filter (fun v => fst v ∉ toRemove) (c_cur c))
  else Some (c_cur c).

(** ** Geometry *)

(** vshell/vshell.go:81-90 Dim. *)
Definition sdim (nx ny nz : Z) : Z :=
  let d := nx in
  let d := if ny >? d then ny else d in
  if nz >? d then nz else d.

(** vshell/vshell.go:93-99 VoxelsPerMM. *)
Definition svpmm (nx ny nz : Z) (scale : Q) : Q :=
  if Qle_bool scale 0 then 1%Q else (inject_Z (sdim nx ny nz) / scale)%Q.

Definition shell_vpmm (vs : vshell) : Q := svpmm (sNX vs) (sNY vs) (sNZ vs) (sScale vs).

(** Go's [int(x)] of a float. *)
Definition trunc (q : Q) : Z := Z.quot (Qnum q) (Zpos (Qden q)).

Definition Qltb (a b : Q) : bool := negb (Qle_bool b a).

(** vshell/merge.go:54-68 keyFunc and 162-170: growing the dimensions to hold a key. *)
Definition grow_dims (d : Z * Z * Z) (k : key) : Z * Z * Z :=
  let '(nx, ny, nz) := d in
  (if kx k >=? nx then kx k + 1 else nx,
   if ky k >=? ny then ky k + 1 else ny,
   if kz k >=? nz then kz k + 1 else nz).

(** vshell/merge.go:76-81 and 172-177. *)
Definition rescale (before : Q) (nx ny nz : Z) (scale : Q) : Q :=
  let after := svpmm nx ny nz scale in
  if negb (Qeq_bool before after) then (scale * (after / before))%Q else scale.

Inductive add_error := ENil | EResolution.
Inductive add_result := Done | Failed (e : add_error) | Panicked.

(** vshell/merge.go:129-182 update: the shell afterwards, and an error or the shift of the new
    voxels. *)
Definition update (vs : vshell) (bv : binvox Q) : vshell * (add_error + (Z * Z * Z)) :=
  let v := shell_vpmm vs in
  if negb (trunc v =? trunc (vpmm bv)) then (vs, inl EResolution)
  else
    let dx := trunc ((TX bv - sTX vs) * v) in
    let dy := trunc ((TY bv - sTY vs) * v) in
    let dz := trunc ((TZ bv - sTZ vs) * v) in
    let tx := if Qltb (TX bv) (sTX vs) then TX bv else sTX vs in
    let ty := if Qltb (TY bv) (sTY vs) then TY bv else sTY vs in
    let tz := if Qltb (TZ bv) (sTZ vs) then TZ bv else sTZ vs in
    if (dx >=? 0) && (dy >=? 0) && (dz >=? 0) then
      (VShell (sNX vs) (sNY vs) (sNZ vs) tx ty tz (sScale vs) (Voxels vs), inr (dx, dy, dz))
    else
      let moved := map (fun w => (add_key (fst w) (- dx, - dy, - dz), snd w)) (Voxels vs) in
      let '(nx, ny, nz) := fold_left grow_dims (map fst moved) (sNX vs, sNY vs, sNZ vs) in
      (VShell nx ny nz tx ty tz (rescale v nx ny nz (sScale vs)) moved, inr (0, 0, 0)).

(** vshell/merge.go:39-125 Add on a non-nil shell: the shell afterwards and the result.
    [bv = None] is a nil model.  [worder], [corder] are the iteration orders over the white and
    colour maps, [order] that over lookup; [cap] is the capacity of vs.Voxels and [grow] the
    runtime's growth policy. *)
Definition vs_Add (grow : nat -> nat) (cap : nat) (worder corder order : list key)
    (vs : vshell) (bv : option (binvox Q)) : vshell * add_result :=
  match bv with
  | None => (vs, Failed ENil)
  | Some bv =>
    match (if decide (0 < length (Voxels vs))%nat then update vs bv
           else (vs, inr (0, 0, 0))) with
    | (vs, inl e) => (vs, Failed e)
    | (vs, inr (dx, dy, dz)) =>
      let shift k := add_key k (dx, dy, dz) in
      let lookup : gset key := list_to_set (map shift (worder ++ corder)) in
      let before := shell_vpmm vs in
      let '(nx, ny, nz) :=
        fold_left grow_dims (map shift (worder ++ corder)) (sNX vs, sNY vs, sNZ vs) in
      let sc := rescale before nx ny nz (sScale vs) in
      let set_voxels := VShell nx ny nz (sTX vs) (sTY vs) (sTZ vs) sc in
      match add_voxels grow cap lookup order (Voxels vs) with
      | None => (set_voxels (Voxels vs), Panicked)
      | Some voxels => (set_voxels voxels, Done)
      end
    end
  end.

(** vshell/vshell.go:55-67 New; a [Failed] result stands for the returned error. *)
Definition vs_New (grow : nat -> nat) (worder corder order : list key) (bv : binvox Q)
  : vshell * add_result :=
  let vs := VShell (NX bv) (NY bv) (NZ bv) (TX bv) (TY bv) (TZ bv) (Scale bv) [] in
  if decide (0 < size (white bv))%nat then vs_Add grow 0 worder corder order vs (Some bv)
  else (vs, Done).

(** vshell/merge.go:11-33 Merge, from the models read: the first is made a shell, the others are
    added.  [None] for no file; an error stops the loop.  [envs] gives for every step the growth
    policy, the slice capacity and the three iteration orders. *)
Record env := Env { e_grow : nat -> nat; e_cap : nat; e_white : list key; e_color : list key;
                    e_order : list key }.

Fixpoint merge_loop (vs : vshell) (parts : list (env * binvox Q)) : vshell * add_result :=
  match parts with
  | [] => (vs, Done)
  | (e, bv) :: parts =>
      match vs_Add (e_grow e) (e_cap e) (e_white e) (e_color e) (e_order e) vs (Some bv) with
      | (vs, Done) => merge_loop vs parts
      | r => r
      end
  end.

Definition vs_Merge (parts : list (env * binvox Q)) : option (vshell * add_result) :=
  match parts with
  | [] => None
  | (e, bv) :: parts =>
      Some match vs_New (e_grow e) (e_white e) (e_color e) (e_order e) bv with
           | (vs, Done) => merge_loop vs parts
           | r => r
           end
  end.
