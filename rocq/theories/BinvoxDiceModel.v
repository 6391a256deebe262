(** Model of cmd/binvox-dice: the commands it prints for a bounding box.

    Generic in the number type; BinvoxDiceProps.v uses IEEE 754 binary64 (Flocq) and exact rationals.
    Not modelled: flag and MBB parsing, the comment header, %g formatting of the coordinates, and
    names with a percent sign (they are spliced into a format string at lines 97-101). *)
From Coq Require Import ZArith List Bool Init.Byte.
From Verif Require Import Base BinvoxModel.
Import ListNotations.
Open Scope Z_scope.

(** The arithmetic used by the program. *)
Record arith (F : Type) := Arith { f_int : Z -> F; f_add : F -> F -> F; f_sub : F -> F -> F; f_mul : F -> F -> F; f_div : F -> F -> F }.
Arguments f_int {_}. Arguments f_add {_}. Arguments f_sub {_}. Arguments f_mul {_}. Arguments f_div {_}.

(** A printed command: binvox on a box and an argument, or voxcut with a suffix on all arguments. *)
Inductive command (F : Type) :=
| RunBinvox (x1 y1 z1 x2 y2 z2 : F) (arg : list byte)
| RunVoxcut (suffix : list byte).
Arguments RunBinvox {_}. Arguments RunVoxcut {_}.

Section Dice.
  Context {F : Type} (ar : arith F).

  (** fauxgl's Vector.Lerp (not in /repo) on one coordinate: a + (b - a) * t. *)
  Definition lerp (a b t : F) : F := f_add ar a (f_mul ar (f_sub ar b a) t).

  (** cmd/binvox-dice/binvox-dice.go:105-112: boundary i of n along an axis from ll to ur. *)
  Definition boundary (ll ur : F) (n i : Z) : F := lerp ll ur (f_div ar (f_int ar i) (f_int ar n)).

  (** cmd/binvox-dice/binvox-dice.go:84-95: -subx and friends. *)
  Definition cuts (factor : Z) (sub : bool) : Z := if sub then factor else 1.

  (** cmd/binvox-dice/binvox-dice.go:119-122. *)
  Definition cut_suffix (numCuts : Z) : list byte := if numCuts >? 0 then [x5f] ++ show_nat numCuts else [].

  (** cmd/binvox-dice/binvox-dice.go:114-123: the commands of one tile. *)
  Definition tile_commands (args : list (list byte)) (x1 x2 y1 y2 z1 z2 : F) (numCuts : Z) : list (command F) :=
    map (RunBinvox x1 y1 z1 x2 y2 z2) args ++ [RunVoxcut (cut_suffix numCuts)].

  (** for i := 0; i < n; i++ with a counter threaded through. *)
  Fixpoint for_loop {A} (body : Z -> Z -> list A * Z) (todo : nat) (i numCuts : Z) : list A * Z :=
    match todo with
    | O => ([], numCuts)
    | S todo' => let '(out, numCuts) := body i numCuts in
                 let '(outs, numCuts) := for_loop body todo' (i + 1) numCuts in
                 (out ++ outs, numCuts)
    end.

  (** cmd/binvox-dice/binvox-dice.go:103-128: the nested loops. *)
  Definition dice_commands (args : list (list byte)) (llx lly llz urx ury urz : F) (xf yf zf : Z) : list (command F) :=
    fst (for_loop (fun zi c =>
      let z1 := boundary llz urz zf zi in
      let z2 := boundary llz urz zf (zi + 1) in
      for_loop (fun yi c =>
        let y1 := boundary lly ury yf yi in
        let y2 := boundary lly ury yf (yi + 1) in
        for_loop (fun xi c =>
          let x1 := boundary llx urx xf xi in
          let x2 := boundary llx urx xf (xi + 1) in
          (tile_commands args x1 x2 y1 y2 z1 z2 c, c + 1))
        (Z.to_nat xf) 0 c) (Z.to_nat yf) 0 c) (Z.to_nat zf) 0 0).
End Dice.
