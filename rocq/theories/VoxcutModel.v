(** Model of cmd/voxcut and cmd/voxcut-dice.

    Simplifications: float64 is replaced by exact rationals; log output, mesh output (-ostl) and the
    float offsets that voxcut only logs (voxcut.go:139-143) are not modelled; os.Args, flags and the
    file system are replaced by parameters: a file that cannot be opened is [None]; log.Fatal is
    [None]. *)
From Verif Require Import Base BinvoxModel Geom VoxelizeModel.
From Coq Require Import ZArith QArith List Bool String Init.Byte.
From stdpp Require Import base list gmap sets fin_sets.
Import ListNotations.
Open Scope Z_scope.

(** gl.Clamp of github.com/fogleman/fauxgl (not in /repo): the nearest value in [lo, hi]. *)
Definition clampq (x lo hi : Q) : Q := if qlt x lo then lo else if qlt hi x then hi else x.

(** binvox/binvox.go:51 White. *)
Definition whiteQ : color Q := Color 1%Q 1%Q 1%Q 1%Q.

(** cmd/voxcut/voxcut.go:145-160 keyFunc: whether the voxel is put into newVoxels. *)
Definition keep_voxel (cut : binvox Q) (v : key) (vc : color Q) : bool :=
  match get_voxel whiteQ cut v with
  | None => true
  | Some c =>
      let r := clampq (cR vc - cA c * cR c) 0 1 in
      let g := clampq (cG vc - cA c * cG c) 0 1 in
      let b := clampq (cB vc - cA c * cB c) 0 1 in
      let a := cA vc in
      qlt 0 a && (qlt 0 r || qlt 0 g || qlt 0 b)
  end.

Definition key_step (cut : binvox Q) (m : gset key) (p : key * color Q) : gset key :=
  if keep_voxel cut (fst p) (snd p) then {[fst p]} ∪ m else m.

(** cmd/voxcut/voxcut.go:128-170 voxcut; [None] is the error.  [whites] and [cols] are the orders in
    which the two maps of the base are visited. *)
Definition voxcut (base cut : binvox Q) (whites : list key) (cols : list (key * color Q)) : option (option (gset key)) :=
  if decide (size (white cut) = 0%nat) then Some (White base)
  else if decide (size (white base) = 0%nat) then None
  else
    let m := foldl (key_step cut) ∅ (map (fun v => (v, whiteQ)) whites) in
    Some (Some (foldl (key_step cut) m cols)).

(** Some execution of voxcut. *)
Definition voxcut_run (base cut : binvox Q) (r : option (option (gset key))) : Prop :=
  exists whites cols, Permutation whites (elements (white base)) /\ Permutation cols (map_to_list (colors base)) /\
    r = voxcut base cut whites cols.

Definition set_white (b : binvox Q) (w : option (gset key)) : binvox Q :=
  BinVOX (NX b) (NY b) (NZ b) (TX b) (TY b) (TZ b) (Scale b) w (Colors b).

Section Main.
  Context (ft : FloatText Q).

  (** binvox/read.go:22-35 Read: a file that cannot be opened is an error. *)
  Definition read_file (f : option (list byte)) (sx sy sz cx cy cz : Z) : option (binvox Q) :=
    match f with
    | None => None
    | Some bytes => match read ft bytes sx sy sz cx cy cz with inl _ => None | inr b => Some b end
    end.

  (** cmd/voxcut/voxcut.go:63-79: one iteration of the loop over the cuts. *)
  Definition cut_step (sx sy sz cx cy cz : Z) (base : binvox Q) (f : option (list byte)) : option (binvox Q) :=
    match read_file f sx sy sz cx cy cz with
    | None => Some base
    | Some cut =>
        match voxcut base cut (elements (white base)) (map_to_list (colors base)) with
        | None => None
        | Some w => if decide (size (white (set_white base w)) = 0%nat) then None else Some (set_white base w)
        end
    end.

  Fixpoint cut_loop (sx sy sz cx cy cz : Z) (base : binvox Q) (fs : list (option (list byte))) : option (binvox Q) :=
    match fs with
    | [] => Some base
    | f :: fs' =>
        match cut_step sx sy sz cx cy cz base f with
        | None => None
        | Some base' => cut_loop sx sy sz cx cy cz base' fs'
        end
    end.

  (** cmd/voxcut/voxcut.go:58-79 main: the model after all cuts. *)
  Definition voxcut_main (sx sy sz cx cy cz : Z) (basef : option (list byte)) (cuts : list (option (list byte))) : option (binvox Q) :=
    match read_file basef sx sy sz cx cy cz with
    | None => None
    | Some base => cut_loop sx sy sz cx cy cz base cuts
    end.

  (** cmd/voxcut/voxcut.go:81-87 main: the file written with -obinvox, when all writes succeed. *)
  Definition voxcut_out (sx sy sz cx cy cz : Z) (basef : option (list byte)) (cuts : list (option (list byte))) : option (list byte) :=
    match voxcut_main sx sy sz cx cy cz basef cuts with
    | None => None
    | Some b => Some (write_file ft b sx sy sz cx cy cz)
    end.
End Main.

(** ** writeVOX *)

(** binary.Write of an int32 in little endian order; the conversion int32(int) keeps the low 32 bits. *)
Definition le32 (z : Z) : list byte := [z2b z; z2b (z / 256); z2b (z / 65536); z2b (z / 16777216)].

(** gl.VOXHeader and gl.VOXChunk of fauxgl: magic, version; id, content bytes, children bytes. *)
Definition vox_header : list byte := txt "VOX " ++ le32 150.
Definition vox_chunk (id : string) (content children : Z) : list byte := txt id ++ le32 content ++ le32 children.

(** cmd/voxcut/voxcut.go:188-199: the maxima. *)
Definition vox_max (l : list key) : Z * Z * Z :=
  foldl (fun '(mx, my, mz) v =>
           (if kx v >? mx then kx v else mx, if ky v >? my then ky v else my, if kz v >? mz then kz v else mz)) (0, 0, 0) l.

Definition vox_voxel (v : key) : list byte := le32 (kx v) ++ le32 (ky v) ++ le32 (kz v) ++ le32 1.

(** cmd/voxcut/voxcut.go:173-240 writeVOX, all writes succeeding; [l1] and [l2] are the orders in
    which the two loops visit the map. *)
Definition writeVOX (l1 l2 : list key) : list byte :=
  let n := Z.of_nat (length l1) in
  let '(mx, my, mz) := vox_max l1 in
  vox_header
  ++ vox_chunk "MAIN" 0 (12 + n * 4 + 4)
  ++ vox_chunk "SIZE" 12 0 ++ le32 mx ++ le32 my ++ le32 mz
  ++ vox_chunk "XYZI" (n * 4 + 4) 0 ++ le32 n ++ concat (map vox_voxel l2).

(** ** cmd/voxcut-dice *)

(** fmt's %04d of a non-negative int: padded with zeros to four digits. *)
Definition pad4 (n : Z) : list byte := repeat x30 (4 - length (show_nat n)) ++ show_nat n.

(** cmd/voxcut-dice/voxcut-dice.go:52,60,64,68: the name of an output file. *)
Definition tile_name (prefix : list byte) (ext : list byte) (sz : Z) (t : key) : list byte :=
  prefix ++ [x2d] ++ pad4 (kx t) ++ [x2d] ++ pad4 (ky t) ++ [x2d] ++ pad4 (kz t)
  ++ [x2d] ++ pad4 sz ++ [x2d] ++ pad4 sz ++ [x2d] ++ pad4 sz ++ ext.

(** A loop "for i := 0; i < n; i += size" started at [i]: the values of i, at most [fuel] of them;
    [None] if it has not ended by then. *)
Fixpoint for_loop (fuel : nat) (i n size : Z) : option (list Z) :=
  if i <? n then
    match fuel with
    | O => None
    | S fuel' => match for_loop fuel' (i + size) n size with Some l => Some (i :: l) | None => None end
    end
  else Some [].

(** cmd/voxcut-dice/voxcut-dice.go:53-55: the three nested loops, given the values each ranges over. *)
Definition dice_tiles (xs ys zs : list Z) : list key :=
  flat_map (fun zi => flat_map (fun yi => map (fun xi => (xi, yi, zi)) xs) ys) zs.

Section Dice.
  Context (ft : FloatText Q).

  (** The loop over the tiles when commands are executed: each runs voxcut; the first failure ends the
      program (voxcut-dice.go:77-81).  Returns the tiles done with their output files, and whether all
      were. *)
  Fixpoint dice_run (size : Z) (basef : option (list byte)) (cuts : list (option (list byte))) (ts : list key)
    : list (key * list byte) * bool :=
    match ts with
    | [] => ([], true)
    | t :: ts' =>
        match voxcut_out ft (kx t) (ky t) (kz t) size size size basef cuts with
        | None => ([], false)
        | Some file => let '(l, ok) := dice_run size basef cuts ts' in ((t, file) :: l, ok)
        end
    end.

  (** cmd/voxcut-dice/voxcut-dice.go:39-86 main with -obinvox and a positive -size; [None] is a
      log.Fatal before the loop (or lack of fuel).  For a size <= 0 the loops do not end
      (voxcut-dice.go:53-55), which this function does not describe. *)
  Definition dice_main (fuel : nat) (size : Z) (basef : option (list byte)) (cuts : list (option (list byte)))
    : option (list (key * list byte) * bool) :=
    match read_file ft basef 0 0 0 1 1 1 with
    | None => None
    | Some b =>
        if (size >? NX b) && (size >? NY b) && (size >? NZ b) then None
        else
          match for_loop fuel 0 (NX b) size, for_loop fuel 0 (NY b) size, for_loop fuel 0 (NZ b) size with
          | Some xs, Some ys, Some zs => Some (dice_run size basef cuts (dice_tiles xs ys zs))
          | _, _, _ => None
          end
    end.
End Dice.
