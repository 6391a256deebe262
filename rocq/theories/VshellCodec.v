(** Model of the .vshell codec: vshell/write.go and vshell/read.go. *)
From Verif Require Import Base BinvoxModel VshellModel.
From Coq Require Import ZArith List Bool String Init.Byte.
From stdpp Require Import base list list_numbers gmap sets fin_sets.
Import ListNotations.
Open Scope Z_scope.

Section Codec.
  Context {F : Type} (ft : FloatText F).

  (** ** Writer *)

  (** vshell/write.go:32-37 headerFMT. *)
  Definition sheader (nx ny nz : Z) (tx ty tz sc : F) : list byte :=
    txt "#vshell 1" ++ [x0a]
    ++ txt "dim " ++ show_int nx ++ [x20] ++ show_int ny ++ [x20] ++ show_int nz ++ [x0a]
    ++ txt "translate " ++ fmtG ft tx ++ [x20] ++ fmtG ft ty ++ [x20] ++ fmtG ft tz ++ [x0a]
    ++ txt "scale " ++ fmtG ft sc ++ [x0a]
    ++ txt "data" ++ [x0a].

  (** vshell/write.go:120-123: the value of one grid position; [lookup] is the map built in lines
      57-60, the same loop as in merge.go ([build_old]: later duplicates win). *)
  Definition svalue (vox : list svox) (lookup : gmap key nat) (k : key) : Z :=
    match lookup !! k with
    | Some i => match vox !! i with Some v => snd v | None => 0 end
    | None => 0
    end.

  (** vshell/write.go:124-132: one iteration; [count] is a uint16. *)
  Definition senc_step (e : enc) (newValue : Z) : enc * option (Z * Z) :=
    if negb (newValue =? e_value e) then
      (Enc newValue 1, if 0 <? e_count e then Some (e_value e, e_count e) else None)
    else (Enc (e_value e) ((e_count e + 1) mod 65536), None).

  (** vshell/write.go:113-140 encode, as the list of runs sent on the channel. *)
  Fixpoint senc_loop (vals : list Z) (e : enc) : list (Z * Z) :=
    match vals with
    | [] => if 0 <? e_count e then [(e_value e, e_count e)] else []
    | v :: vals' =>
        let '(e', out) := senc_step e v in
        match out with
        | Some r => r :: senc_loop vals' e'
        | None => senc_loop vals' e'
        end
    end.

  Definition svalues (vox : list svox) (sx sy sz nx ny nz : Z) : list Z :=
    map (svalue vox (build_old vox)) (loop_keys sx sy sz nx ny nz).

  Definition sencode (vox : list svox) (sx sy sz nx ny nz : Z) : list (Z * Z) :=
    senc_loop (svalues vox sx sy sz nx ny nz) (Enc 0 0).

  (** encoding/binary little endian, and the byte expressions of lines 82-85, 93-96. *)
  Definition le32 (v : Z) : list byte :=
    [z2b (Z.land v 255); z2b (Z.land (Z.shiftr v 8) 255); z2b (Z.land (Z.shiftr v 16) 255);
     z2b (Z.land (Z.shiftr v 24) 255)].
  Definition le16 (v : Z) : list byte := [z2b (Z.land v 255); z2b (Z.land (Z.shiftr v 8) 255)].

  Definition special (v : Z) : bool := (v =? 0) || (v =? 4294967295).

  (** vshell/write.go:70-101: the writes made for one run. *)
  Definition run_writes (r : Z * Z) : list (list byte) :=
    let '(v, c) := r in
    if special v then [le32 v; le16 c]
    else (let numMax := c / 255 in
          if 0 <? numMax then [concat (repeat (le32 v ++ [xff]) (Z.to_nat numMax))] else [])
         ++ (let rem := c mod 255 in
             if 0 <? rem then [le32 v ++ [z2b rem]] else []).

  (** vshell/write.go:79: the voxel count (int64, does not overflow). *)
  Definition scount (rs : list (Z * Z)) : Z :=
    fold_left (fun a r => if special (fst r) then a else a + snd r) rs 0.

  (** vshell/write.go:39-105 write: the byte strings handed to w.Write, in order, and the result, when
      no call fails.  The channel is replaced by the list it carries (VshellChan.v has the
      goroutines). *)
  Definition swrite (vs : gshell F) (sx sy sz nx ny nz : Z) : list (list byte) * Z :=
    match Voxels vs with
    | [] => ([sheader 0 0 0 (sTX vs) (sTY vs) (sTZ vs) (sScale vs)], 0)
    | _ =>
      let nx := default_dim nx (sNX vs) in
      let ny := default_dim ny (sNY vs) in
      let nz := default_dim nz (sNZ vs) in
      let rs := sencode (Voxels vs) sx sy sz nx ny nz in
      (sheader nx ny nz (sTX vs) (sTY vs) (sTZ vs) (sScale vs) :: concat (map run_writes rs),
       scount rs)
    end.

  Definition swrite_file (vs : gshell F) (sx sy sz nx ny nz : Z) : list byte :=
    concat (fst (swrite vs sx sy sz nx ny nz)).

  (** ** Reader *)

  (** vshell/read.go:158-175: the inner loop; [None] is the overrun error. *)
  Fixpoint sread_run (nx ny nz : Z) (w : window) (value : Z) (n : nat)
      (st : cursor * list svox) : option (cursor * list svox) :=
    match n with
    | O => Some st
    | S n' =>
        let '(c, vs) := st in
        if xi c >=? nx then None
        else
          let vs' := if negb (special value) && in_window w c
                     then vs ++ [((xi c, yi c, zi c), value)] else vs in
          sread_run nx ny nz w value n' (advance ny nz c, vs')
    end.

  Definition un32 (a b c d : byte) : Z := b2z a + 256 * b2z b + 65536 * b2z c + 16777216 * b2z d.
  Definition un16 (a b : byte) : Z := b2z a + 256 * b2z b.

  (** vshell/read.go:129-175: the record loop.  binary.Read fails with io.EOF only if no byte is left
      (then the loop ends), otherwise a short read is an error; a short count always is. *)
  Fixpoint sread_data (nx ny nz : Z) (w : window) (data : list byte) (st : cursor * list svox)
    : read_error + (cursor * list svox) :=
    match data with
    | [] => inr st
    | b0 :: b1 :: b2 :: b3 :: rest =>
        let value := un32 b0 b1 b2 b3 in
        if special value then
          match rest with
          | c0 :: c1 :: rest' =>
              match sread_run nx ny nz w value (Z.to_nat (un16 c0 c1)) st with
              | None => inl EOverrun
              | Some st' => sread_data nx ny nz w rest' st'
              end
          | _ => inl ENoCount
          end
        else
          match rest with
          | [] => inl ENoCount
          | c :: rest' =>
              if b2z c =? 0 then inl ECount
              else match sread_run nx ny nz w value (Z.to_nat (b2z c)) st with
                   | None => inl EOverrun
                   | Some st' => sread_data nx ny nz w rest' st'
                   end
          end
    | _ => inl EValue
    end.

  (** vshell/read.go:38-183 read. *)
  Definition sread (bytes : list byte) (sx sy sz cx cy cz : Z) : read_error + gshell F :=
    if (sx <? 0) || (sy <? 0) || (sz <? 0) || (cx <? 0) || (cy <? 0) || (cz <? 0) then inl EParams
    else match read_header ft (txt "#vshell 1" ++ [x0a]) sx sy sz bytes with
    | inl e => inl e
    | inr (h, data) =>
      let w := Win sx sy sz (clip_count cx (h_nx h)) (clip_count cy (h_ny h)) (clip_count cz (h_nz h)) in
      match sread_data (h_nx h) (h_ny h) (h_nz h) w data (Cur 0 0 0, []) with
      | inl e => inl e
      | inr (_, vox) =>
        inr {| sNX := h_nx h; sNY := h_ny h; sNZ := h_nz h;
               sTX := h_tx h; sTY := h_ty h; sTZ := h_tz h; sScale := h_sc h; Voxels := vox |}
      end
    end.
End Codec.
