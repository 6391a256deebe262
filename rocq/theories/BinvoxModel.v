(** Model of package binvox: the voxel store and the .binvox codec.
    Sources: binvox/binvox.go, binvox/write.go, binvox/read.go. *)
From Verif Require Import Base.
From Coq Require Import ZArith List Bool String Init.Byte.
From stdpp Require Import base list list_numbers gmap sets fin_sets.
Import ListNotations.
Open Scope Z_scope.

Section Model.
  (** [F] is float64, seen only through its text form here. *)
  Context {F : Type} (ft : FloatText F).

  (** binvox/binvox.go:44-52 (Color, Black, White); the components are only stored and compared to
      constants here, so they are kept as an abstract [F]; [cR..] are constructor fields. *)
  Record color := Color { cR : F; cG : F; cB : F; cA : F }.

  (** binvox/binvox.go:25-37.  A nil map is [None]. *)
  Record binvox := BinVOX {
    NX : Z; NY : Z; NZ : Z;
    TX : F; TY : F; TZ : F;
    Scale : F;
    White : option (gset key);
    Colors : option (gmap key color)
  }.

  (** [range]/[len]/lookup on a nil map behave as on an empty map. *)
  Definition white (b : binvox) : gset key := default ∅ (White b).
  Definition colors (b : binvox) : gmap key color := default ∅ (Colors b).

  (** binvox/binvox.go:61-82 New. *)
  Definition new (nx ny nz : Z) (ox oy oz sc : F) (fullColor : bool) : binvox :=
    {| NX := nx; NY := ny; NZ := nz; TX := ox; TY := oy; TZ := oz; Scale := sc;
       White := if fullColor then None else Some ∅;
       Colors := if fullColor then Some ∅ else None |}.

  (** binvox/binvox.go:99-108 Get; [whiteC] is the package variable White (line 51). *)
  Definition get_voxel (whiteC : color) (b : binvox) (k : key) : option color :=
    if decide (k ∈ white b) then Some whiteC else colors b !! k.

  (** binvox/binvox.go:111-114 Add; [None] is the run-time panic "assignment to entry in nil map". *)
  Definition add (b : binvox) (k : key) : option binvox :=
    match White b with
    | None => None
    | Some w => Some {| NX := NX b; NY := NY b; NZ := NZ b; TX := TX b; TY := TY b; TZ := TZ b;
                        Scale := Scale b; White := Some ({[k]} ∪ w); Colors := Colors b |}
    end.

  (** binvox/binvox.go:117-120 AddColor. *)
  Definition add_color (b : binvox) (k : key) (c : color) : option binvox :=
    match Colors b with
    | None => None
    | Some m => Some {| NX := NX b; NY := NY b; NZ := NZ b; TX := TX b; TY := TY b; TZ := TZ b;
                        Scale := Scale b; White := White b; Colors := Some (<[k := c]> m) |}
    end.

  (** binvox/binvox.go:123-132 Dim. *)
  Definition dim (b : binvox) : Z :=
    let d := NX b in
    let d := if NY b >? d then NY b else d in
    if NZ b >? d then NZ b else d.

  (** ** Writer *)

  (** binvox/write.go:88-91.  [value] is a byte (0 or 1), [count] an int64. *)
  Notation rle := (Z * Z)%type.

  (** binvox/write.go:99-107: the value of one voxel.  gl.Black/gl.White are opaque black and white,
      so [c.A > 0 && (c.R > 0.5 || ...)] holds exactly for white. *)
  Definition voxel_value (lookup : gset key) (k : key) : Z := if decide (k ∈ lookup) then 1 else 0.

  (** binvox/write.go:94-95,104-116: the encoder's local variables. *)
  Record enc := Enc { e_value : Z; e_count : Z }.

  (** One iteration of the innermost loop, binvox/write.go:99-116: new state and the run sent, if any. *)
  Definition enc_step (e : enc) (newValue : Z) : enc * option rle :=
    if negb (newValue =? e_value e) then
      (Enc newValue 1, if 0 <? e_count e then Some (e_value e, e_count e) else None)
    else (Enc (e_value e) (e_count e + 1), None).

  (** binvox/write.go:96-98: the order in which the three nested loops visit the window. *)
  Definition loop_keys (sx sy sz nx ny nz : Z) : list key :=
    xi ← seqZ sx nx; zi ← seqZ sz nz; yi ← seqZ sy ny; [(xi, yi, zi)].

  (** binvox/write.go:93-124 encode, as the list of runs sent on the channel. *)
  Fixpoint enc_loop (lookup : gset key) (ks : list key) (e : enc) : list rle :=
    match ks with
    | [] => if 0 <? e_count e then [(e_value e, e_count e)] else []   (* lines 120-122 *)
    | k :: ks' =>
        let '(e', out) := enc_step e (voxel_value lookup k) in
        match out with
        | Some r => r :: enc_loop lookup ks' e'
        | None => enc_loop lookup ks' e'
        end
    end.

  Definition encode_rle (lookup : gset key) (sx sy sz nx ny nz : Z) : list rle :=
    enc_loop lookup (loop_keys sx sy sz nx ny nz) (Enc 0 0).

  (** binvox/write.go:69-78: the bytes appended to buf for one run. *)
  Definition run_bytes (r : rle) : list byte :=
    let '(v, c) := r in
    let numMax := c / 255 in
    let rem := c mod 255 in
    (if 0 <? numMax then concat (repeat [z2b v; xff] (Z.to_nat numMax)) else [])
      ++ (if 0 <? rem then [z2b v; z2b rem] else []).

  (** binvox/write.go:64-67. *)
  Definition count_white (rs : list rle) : Z :=
    fold_left (fun a r => if fst r =? 1 then a + snd r else a) rs 0.

  (** binvox/write.go:33-38 headerFMT. *)
  Definition header (nx ny nz : Z) (tx ty tz sc : F) : list byte :=
    txt "#binvox 1" ++ [x0a]
    ++ txt "dim " ++ show_int nx ++ [x20] ++ show_int ny ++ [x20] ++ show_int nz ++ [x0a]
    ++ txt "translate " ++ fmtG ft tx ++ [x20] ++ fmtG ft ty ++ [x20] ++ fmtG ft tz ++ [x0a]
    ++ txt "scale " ++ fmtG ft sc ++ [x0a]
    ++ txt "data" ++ [x0a].

  (** binvox/write.go:46-54. *)
  Definition default_dim (n bn : Z) : Z := if n =? 0 then bn else n.

  (** binvox/write.go:40-85 write, as the sequence of byte strings handed to w.Write and the count
      returned on success.  The channel is replaced by the list of the runs it carries
      (see BinvoxChan.v for the two goroutines). *)
  Definition write (b : binvox) (sx sy sz nx ny nz : Z) : list (list byte) * Z :=
    if decide (size (white b) = 0%nat) then
      ([header 0 0 0 (TX b) (TY b) (TZ b) (Scale b)], 0)
    else
      let nx := default_dim nx (NX b) in
      let ny := default_dim ny (NY b) in
      let nz := default_dim nz (NZ b) in
      let rs := encode_rle (white b) sx sy sz nx ny nz in
      ([header nx ny nz (TX b) (TY b) (TZ b) (Scale b); concat (map run_bytes rs)],
       count_white rs).

  (** The file left by a Write whose w.Write calls all succeed. *)
  Definition write_file (b : binvox) (sx sy sz nx ny nz : Z) : list byte :=
    concat (fst (write b sx sy sz nx ny nz)).

  (** Outcome of one w.Write call: all bytes written, or [n] bytes written and an error. *)
  Inductive outcome := WOk | WErr (n : nat).

  Definition put (o : outcome) (bs : list byte) : list byte :=
    match o with WOk => bs | WErr n => take n bs end.

  (** binvox/write.go:40-85 with a writer whose first call has outcome [o1] and second call [o2]:
      file contents, and [Some n] for [(n, nil)] or [None] for an error.  The results of both
      Fprintf (line 42) and Fprint (line 58) are discarded by the code. *)
  Definition write_faulty (o1 o2 : outcome) (b : binvox) (sx sy sz nx ny nz : Z)
    : list byte * option Z :=
    match write b sx sy sz nx ny nz with
    | ([h], n) => (put o1 h, Some n)
    | ([h; d], n) => (put o1 h ++ put o2 d, match o2 with WOk => Some n | WErr _ => None end)
    | _ => ([], None)
    end.

  (** binvox/write.go:16-31 Write: create, write, close; [true] for a nil error. *)
  Definition Write (create_ok : bool) (o1 o2 : outcome) (close_ok : bool)
      (b : binvox) (sx sy sz nx ny nz : Z) : option (list byte) * bool :=
    if create_ok then
      let '(file, r) := write_faulty o1 o2 b sx sy sz nx ny nz in
      (Some file, match r with None => false | Some _ => close_ok end)
    else (None, false).

  (** ** Reader *)

  Inductive read_error :=
  | EParams | ENoHeader | ENotBinvox | ENoDim | EBadDim | EStart | ENoTranslate | EBadTranslate
  | ENoScale | EBadScale | ENoData | EBadData | EValue | ENoCount | ECount | EOverrun.

  (** binvox/read.go:74-82. *)
  Definition clip_count (c n : Z) : Z := if (c =? 0) || (c >? n) then n else c.

  (** Parsed header: dims, translation, scale. *)
  Record hdr := Hdr { h_nx : Z; h_ny : Z; h_nz : Z; h_tx : F; h_ty : F; h_tz : F; h_sc : F }.

  (** binvox/read.go:43-124; the order of the checks is that of the code.  The result also carries
      the unread bytes. *)
  Definition read_header (magic : list byte) (sx sy sz : Z) (bytes : list byte)
    : read_error + (hdr * list byte) :=
    match read_line bytes with
    | None => inl ENoHeader
    | Some (hline, r1) =>
    if negb (bool_decide (hline = magic)) then inl ENotBinvox else
    match read_line r1 with
    | None => inl ENoDim
    | Some (dline, r2) =>
    match match3 (txt "dim ") is_digit dline with
    | None => inl EBadDim
    | Some (a, b, c) =>
    match atoi_digits a, atoi_digits b, atoi_digits c with
    | Some nx, Some ny, Some nz =>
    if (sx >? nx) || (sy >? ny) || (sz >? nz) then inl EStart else
    match read_line r2 with
    | None => inl ENoTranslate
    | Some (tline, r3) =>
    match match3 (txt "translate ") not_space tline with
    | None => inl EBadTranslate
    | Some (ta, tb, tc) =>
    match parseF ft ta, parseF ft tb, parseF ft tc with
    | Some tx, Some ty, Some tz =>
    match read_line r3 with
    | None => inl ENoScale
    | Some (sline, r4) =>
    match match1 (txt "scale ") not_space sline with
    | None => inl EBadScale
    | Some sa =>
    match parseF ft sa with
    | None => inl EBadScale
    | Some sc =>
    match read_line r4 with
    | None => inl ENoData
    | Some (data, r5) =>
    if bool_decide (data = txt "data" ++ [x0a])
    then inr (Hdr nx ny nz tx ty tz sc, r5) else inl EBadData
    end end end end
    | _, _, _ => inl EBadTranslate
    end end end
    | _, _, _ => inl EBadDim
    end end end end.

  (** Reader window, after clipping: start and count per axis. *)
  Record window := Win { w_sx : Z; w_sy : Z; w_sz : Z; w_cx : Z; w_cy : Z; w_cz : Z }.

  (** binvox/read.go:128: the cursor. *)
  Record cursor := Cur { xi : Z; yi : Z; zi : Z }.

  (** binvox/read.go:158-166. *)
  Definition advance (ny nz : Z) (c : cursor) : cursor :=
    if yi c + 1 >=? ny then
      if zi c + 1 >=? nz then Cur (xi c + 1) 0 0 else Cur (xi c) 0 (zi c + 1)
    else Cur (xi c) (yi c + 1) (zi c).

  (** binvox/read.go:155: both bounds are inclusive in the code. *)
  Definition in_window (w : window) (c : cursor) : bool :=
    (w_sx w <=? xi c) && (xi c <=? w_sx w + w_cx w)
    && (w_sy w <=? yi c) && (yi c <=? w_sy w + w_cy w)
    && (w_sz w <=? zi c) && (zi c <=? w_sz w + w_cz w).

  (** binvox/read.go:151-167: the inner loop; [None] is the overrun error. *)
  Fixpoint read_run (nx ny nz : Z) (w : window) (value : bool) (n : nat)
      (st : cursor * gset key) : option (cursor * gset key) :=
    match n with
    | O => Some st
    | S n' =>
        let '(c, vs) := st in
        if xi c >=? nx then None
        else
          let vs' := if value && in_window w c then {[(xi c, yi c, zi c)]} ∪ vs else vs in
          read_run nx ny nz w value n' (advance ny nz c, vs')
    end.

  (** binvox/read.go:130-168: the record loop. *)
  Fixpoint read_data (nx ny nz : Z) (w : window) (data : list byte) (st : cursor * gset key)
    : read_error + (cursor * gset key) :=
    match data with
    | [] => inr st                                          (* io.EOF at a value: done *)
    | v :: rest =>
        if negb ((b2z v =? 0) || (b2z v =? 1)) then inl EValue
        else match rest with
             | [] => inl ENoCount
             | c :: rest' =>
                 if b2z c =? 0 then inl ECount
                 else match read_run nx ny nz w (b2z v =? 1) (Z.to_nat (b2z c)) st with
                      | None => inl EOverrun
                      | Some st' => read_data nx ny nz w rest' st'
                      end
             end
    end.

  (** binvox/read.go:37-176 read. *)
  Definition read (bytes : list byte) (sx sy sz cx cy cz : Z) : read_error + binvox :=
    if (sx <? 0) || (sy <? 0) || (sz <? 0) || (cx <? 0) || (cy <? 0) || (cz <? 0) then inl EParams
    else match read_header (txt "#binvox 1" ++ [x0a]) sx sy sz bytes with
    | inl e => inl e
    | inr (h, data) =>
      let w := Win sx sy sz (clip_count cx (h_nx h)) (clip_count cy (h_ny h)) (clip_count cz (h_nz h)) in
      match read_data (h_nx h) (h_ny h) (h_nz h) w data (Cur 0 0 0, ∅) with
      | inl e => inl e
      | inr (_, vs) =>
        inr {| NX := h_nx h; NY := h_ny h; NZ := h_nz h;
               TX := h_tx h; TY := h_ty h; TZ := h_tz h; Scale := h_sc h;
               White := Some vs; Colors := None |}
      end
    end.
End Model.

Arguments color : clear implicits.
Arguments binvox : clear implicits.
Arguments hdr : clear implicits.
