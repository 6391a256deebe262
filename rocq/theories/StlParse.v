(** Model of STL parsing and writing: server/stldice-slave/stldice-slave.go:149-218 (stlToMesh,
    loadSTLA, loadSTLB), and of the fauxgl functions it is a copy of or calls (ParseFloats, SaveSTL),
    from the knowledge of that library: it is not in /repo.

    A float64 is an abstract [F]: [f32] is the value of a 32-bit pattern converted to float64,
    [parse] is strconv.ParseFloat with its error ignored (gl.ParseFloats), [bits32] the pattern of
    float32(x).  Only the positions of the vertices of a triangle are kept; the normals of parsed
    triangles are recomputed from them (FixNormals). *)
From Verif Require Import Base.
From Coq Require Import ZArith List Bool String Init.Byte.
From stdpp Require Import base list.
Import ListNotations.
Open Scope Z_scope.

(** encoding/binary's LittleEndian uint32 at an offset, and back. *)
Definition byte_at (l : list byte) (i : nat) : Z := b2z (nth i l x00).
Definition le32 (l : list byte) (i : nat) : Z :=
  byte_at l i + 256 * byte_at l (i + 1) + 65536 * byte_at l (i + 2) + 16777216 * byte_at l (i + 3).
Definition put32 (w : Z) : list byte := [z2b w; z2b (w / 256); z2b (w / 65536); z2b (w / 16777216)].

(** binary.Read of a struct of [n] bytes: [None] is io.EOF or io.ErrUnexpectedEOF. *)
Definition read_struct (n : nat) (l : list byte) : option (list byte * list byte) :=
  if Nat.ltb (length l) n then None else Some (take n l, drop n l).

(** The characters that are white space for strings.Fields (unicode.IsSpace), in UTF-8. *)
Definition ws_chars : list (list byte) :=
  [[x09]; [x0a]; [x0b]; [x0c]; [x0d]; [x20]; [xc2; x85]; [xc2; xa0]; [xe1; x9a; x80];
   [xe2; x80; x80]; [xe2; x80; x81]; [xe2; x80; x82]; [xe2; x80; x83]; [xe2; x80; x84]; [xe2; x80; x85];
   [xe2; x80; x86]; [xe2; x80; x87]; [xe2; x80; x88]; [xe2; x80; x89]; [xe2; x80; x8a];
   [xe2; x80; xa8]; [xe2; x80; xa9]; [xe2; x80; xaf]; [xe2; x81; x9f]; [xe3; x80; x80]].

(** The length of the white space character that [l] begins with, 0 if it does not.  (The first
    bytes of these characters are no UTF-8 continuation bytes, so that the decoder, which goes on by
    one byte after an invalid one, always stops at them.) *)
Definition space_prefix (l : list byte) : nat :=
  match List.find (fun c => match drop_lit c l with Some _ => true | None => false end) ws_chars with
  | Some c => length c
  | None => 0
  end.

Definition flush (cur : list byte) : list (list byte) := match cur with [] => [] | _ => [cur] end.

(** strings.Fields: [cur] is the field being read, [skip] the bytes left of a white space character. *)
Fixpoint fields_go (l cur : list byte) (skip : nat) : list (list byte) :=
  match l with
  | [] => flush cur
  | c :: l' =>
      match skip with
      | S k => fields_go l' cur k
      | O => match space_prefix l with
             | O => fields_go l' (cur ++ [c]) 0
             | S k => flush cur ++ fields_go l' [] k
             end
      end
  end.
Definition fields (l : list byte) : list (list byte) := fields_go l [] 0.

(** bufio.Scanner with ScanLines: the lines, and whether it stopped at a line of
    bufio.MaxScanTokenSize = 64*1024 bytes or more (ErrTooLong); a carriage return before the newline
    is dropped. *)
Definition max_token : Z := 65536.
Definition drop_cr (l : list byte) : list byte :=
  match rev l with x0d :: r => rev r | _ => l end.
Fixpoint scan (l cur : list byte) : list (list byte) * bool :=
  match l with
  | [] => match cur with
          | [] => ([], false)
          | _ => if (max_token <=? Z.of_nat (length cur)) then ([], true) else ([drop_cr cur], false)
          end
  | c :: l' =>
      if Byte.eqb c x0a then
        if (max_token <=? Z.of_nat (length cur)) then ([], true)
        else let '(ls, e) := scan l' [] in (drop_cr cur :: ls, e)
      else scan l' (cur ++ [c])
  end.

Section Parse.
  Context {F : Type} (f32 : Z -> F) (parse : list byte -> F).

  Definition vec : Type := F * F * F.
  Definition ftri : Type := vec * vec * vec.

  Inductive stl_error := EHeader | EBody | ELine.
  Inductive stl_result := SErr (e : stl_error) | SMesh (ts : list ftri) | SPanic.

  (** stldice-slave.go:197-218 loadSTLB.  An STLTriangle is 50 bytes: the normal, the three vertices,
      two more bytes. *)
  Definition vertex_at (d : list byte) (i : nat) : vec := (f32 (le32 d i), f32 (le32 d (i + 4)), f32 (le32 d (i + 8))).
  Fixpoint read_tris (n : nat) (l : list byte) : option (list ftri) :=
    match n with
    | O => Some []
    | S n' => match read_struct 50 l with
              | None => None
              | Some (d, rest) => match read_tris n' rest with
                                  | None => None
                                  | Some ts => Some ((vertex_at d 12, vertex_at d 24, vertex_at d 36) :: ts)
                                  end
              end
    end.
  Definition loadSTLB (buf : list byte) : stl_result :=
    match read_struct 84 buf with
    | None => SErr EHeader
    | Some (h, rest) => match read_tris (Z.to_nat (le32 h 80)) rest with
                        | None => SErr EBody
                        | Some ts => SMesh ts
                        end
    end.

  (** stldice-slave.go:173-195 loadSTLA. *)
  Definition line_vertex (line : list byte) : list vec :=
    match fields line with
    | [w; a; b; c] => if bool_decide (w = txt "vertex") then [(parse a, parse b, parse c)] else []
    | _ => []
    end.
  (** Lines 187-195: [None] is the panic "index out of range" when the vertices are not a multiple
      of three. *)
  Fixpoint group3 (vs : list vec) : option (list ftri) :=
    match vs with
    | [] => Some []
    | a :: b :: c :: vs' => match group3 vs' with Some ts => Some ((a, b, c) :: ts) | None => None end
    | _ => None
    end.
  Definition loadSTLA (buf : list byte) : stl_result :=
    let '(ls, toolong) := scan buf [] in
    match group3 (concat (map line_vertex ls)) with
    | None => SPanic
    | Some ts => if toolong : bool then SErr ELine else SMesh ts
    end.

  (** stldice-slave.go:149-171 stlToMesh. *)
  Definition stlToMesh (buf : list byte) : stl_result :=
    match read_struct 84 buf with
    | None => SErr EHeader
    | Some (h, _) =>
        if Z.of_nat (length buf) =? le32 h 80 * 50 + 84 then loadSTLB buf else loadSTLA buf
    end.

  (** fauxgl's SaveSTL (and the same loop in stldice-slave.go:103-127): an 80-byte header of zeros,
      the count, 50 bytes per triangle.  [norm] is the pattern of the three floats of a triangle's
      Normal(). *)
  Context (bits32 : F -> Z) (norm : ftri -> Z * Z * Z).
  Definition put_vec (v : vec) : list byte := let '(x, y, z) := v in put32 (bits32 x) ++ put32 (bits32 y) ++ put32 (bits32 z).
  Definition put_tri (t : ftri) : list byte :=
    let '(nx, ny, nz) := norm t in
    let '(a, b, c) := t in
    put32 nx ++ put32 ny ++ put32 nz ++ put_vec a ++ put_vec b ++ put_vec c ++ [x00; x00].
  Definition saveSTL (ts : list ftri) : list byte :=
    repeat x00 80 ++ put32 (Z.of_nat (length ts)) ++ concat (map put_tri ts).
End Parse.
Arguments vec : clear implicits. Arguments ftri : clear implicits. Arguments stl_result : clear implicits.
