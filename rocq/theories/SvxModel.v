(** Model of cmd/stl2svx (slicing a base minus its cuts into images) and of the reading side,
    cmd/svx2stl.  stl2svx/agent/agent.go and stl2svx/stl/stl.go repeat the same functions for the
    distributed version; their lines are cited beside.

    Simplifications: float64 is replaced by exact rationals; PNG, ZIP and XML encodings are not
    modelled (an archive is the list of its entries, an image the function of its pixels); storage
    buckets and log output are not modelled.  A [range] over a Go map visits the entries in an order
    chosen by a parameter ([ord], [pord]), so that theorems quantify over all orders. *)
From Verif Require Import Base BinvoxModel Geom VoxelizeModel VoxcutModel StldiceModel.
From Coq Require Import ZArith QArith Qround List Bool String Init.Byte.
From stdpp Require Import base list list_numbers gmap sets.
Import ListNotations.
Open Scope Z_scope.

(** ** image.Gray *)

Record image := Image { iw : Z; ih : Z; pix : Z * Z -> Z }.

(** image.NewGray and the draw.Draw of image.Black over it. *)
Definition black_image (w h : Z) : image := Image w h (fun _ => 0).

(** (img *Gray) Set: points outside the rectangle are ignored. *)
Definition set_pixel (img : image) (p : Z * Z) (c : Z) : image :=
  if (0 <=? fst p) && (fst p <? iw img) && (0 <=? snd p) && (snd p <? ih img)
  then Image (iw img) (ih img) (fun q => if decide (q = p) then c else pix img q) else img.

(** ** stl2svx: the jobs *)

(** cmd/stl2svx/stl2svx.go:131-136, stl2svx/agent/agent.go:87-92. *)
Record bvInfo := BvInfo { j_off : key; j_bv : binvox Q; j_base : bool; j_mesh : list tri }.

(** cmd/stl2svx/stl2svx.go:244-247, stl2svx/agent/agent.go:145-148. *)
Record voxelInfo := VoxelInfo { v_X : Z; v_Y : Z; v_Base : bool }.

Section Slicer.
  Context (dim nx ny nz : Z).

  (** cmd/stl2svx/stl2svx.go:211-236, stl2svx/agent/agent.go:113-138: the jobs of one STL file. *)
  Definition mesh_jobs (bx : qpt * qpt) (dx dy dz : Z) (base : bool) (mesh : list tri) : list bvInfo :=
    let mmpv := dice_mmpv (mbb_scale bx) dim in
    map (fun t => BvInfo (kx t * dx, ky t * dy, kz t * dz) (region (fst bx) mmpv dx dy dz t) base mesh)
      (dice_tiles (seqZ 0 nx) (seqZ 0 ny) (seqZ 0 nz)).

  (** cmd/stl2svx/stl2svx.go:174-180, stl2svx/stl/stl.go:51-57: the size of a region. *)
  Definition region_dims3 (bx : qpt * qpt) : Z * Z * Z :=
    (region_dim (model_dim (mbb_scale bx) dim (size_x bx)) nx,
     region_dim (model_dim (mbb_scale bx) dim (size_y bx)) ny,
     region_dim (model_dim (mbb_scale bx) dim (size_z bx)) nz).

  (** cmd/stl2svx/stl2svx.go:142-242 generateMR with dimOnly = false, stl2svx/agent/agent.go:98-143:
      the jobs in the order they are sent, for the meshes of all files, the base first; [None]: log.Fatal. *)
  Definition mr_jobs (meshes : list (list tri)) : option (list bvInfo) :=
    match meshes with
    | [] => Some []
    | base :: cuts =>
        let bx := bounding_box base in
        let '(dx, dy, dz) := region_dims3 bx in
        if (dx =? 0) || (dy =? 0) || (dz =? 0) then None
        else Some (mesh_jobs bx dx dy dz true base ++ flat_map (mesh_jobs bx dx dy dz false) cuts)
    end.

  (** ** stl2svx: voxelize *)

  (** cmd/stl2svx/stl2svx.go:264-275, stl2svx/agent/agent.go:165-176 keyFunc over a list of keys: the
      values sent; [None]: log.Fatal. *)
  Fixpoint send_keys (j : bvInfo) (zi : Z) (ks : list key) : option (list voxelInfo) :=
    match ks with
    | [] => Some []
    | k :: ks' =>
        let x := kx k + kx (j_off j) in
        let y := ky k + ky (j_off j) in
        let z := kz k + kz (j_off j) in
        if negb (zi =? z) then None
        else match send_keys j zi ks' with
             | None => None
             | Some vs => Some (if (x <? 0) || (y <? 0) || (z <? 0) then vs else VoxelInfo x y (j_base j) :: vs)
             end
    end.

  (** cmd/stl2svx/stl2svx.go:251-282, stl2svx/agent/agent.go:152-183 voxelize. *)
  Definition voxelize (ord : list key -> list key) (j : bvInfo) (zi : Z) : option (list voxelInfo) :=
    match VoxelizeZ (j_bv j) (j_mesh j) zi with
    | inl _ => Some []
    | inr b => send_keys j zi (ord (elements (white b)) ++ ord (map fst (map_to_list (colors b))))
    end.

  (** cmd/stl2svx/stl2svx.go:123-126, stl2svx/agent/agent.go:73-76: all jobs in turn, into one channel;
      [ord n] is the iteration order of the n-th job. *)
  Fixpoint run_jobs (ord : nat -> list key -> list key) (n : nat) (js : list bvInfo) (zi : Z) : option (list voxelInfo) :=
    match js with
    | [] => Some []
    | j :: js' =>
        match voxelize (ord n) j zi, run_jobs ord (S n) js' zi with
        | Some vs, Some vs' => Some (vs ++ vs')
        | _, _ => None
        end
    end.

  (** ** stl2svx: imager *)

  (** cmd/stl2svx/stl2svx.go:293-305, stl2svx/agent/agent.go:196-208. *)
  Definition put_pixel (m : gmap (Z * Z) bool) (v : voxelInfo) : gmap (Z * Z) bool :=
    let k := (v_X v, dim - 1 - v_Y v) in
    match m !! k with
    | Some true => <[k := v_Base v]> m
    | Some false => m
    | None => <[k := v_Base v]> m
    end.
  Definition pixels (vs : list voxelInfo) : gmap (Z * Z) bool := fold_left put_pixel vs ∅.

  (** cmd/stl2svx/stl2svx.go:308-319, stl2svx/agent/agent.go:211-223. *)
  Definition draw_pixel (img : image) (kv : Z * Z * bool) : image :=
    set_pixel img (fst (fst kv) + 1, snd (fst kv) + 1) (if snd kv then 255 else 0).
  Definition imager (pord : list (Z * Z * bool) -> list (Z * Z * bool)) (vs : list voxelInfo) : image :=
    fold_left draw_pixel (pord (map_to_list (pixels vs))) (black_image (dim + 2) (dim + 2)).

  (** cmd/stl2svx/stl2svx.go:107-129 agent, stl2svx/agent/agent.go:57-85 SliceJob: the image of slice zi. *)
  Definition slice_image ord pord (meshes : list (list tri)) (zi : Z) : option image :=
    match mr_jobs meshes with
    | None => None
    | Some js => match run_jobs ord 0 js zi with None => None | Some vs => Some (imager pord vs) end
    end.

  (** ** stl2svx: the archive *)

  (** The values of the manifest that svx2stl reads back, and the slice name pattern: what comes
      before and after its %04d.  cmd/stl2svx/stl2svx.go:186-198, stl2svx/master/master.go:143-158. *)
  Record manifest := Manifest { gridSizeX : Z; gridSizeY : Z; gridSizeZ : Z; voxelSize : Q; slice_prefix : list byte; slice_suffix : list byte }.

  (** fmt's %04d of a non-negative int. *)
  Definition pad4 (n : Z) : list byte := repeat x30 (4 - length (show_nat n)) ++ show_nat n.

  (** "%v/<prefix>-%v-%v-%v-%v-" *)
  Definition slice_dir (outPrefix : list byte) : list byte :=
    show_int dim ++ [x2f] ++ outPrefix ++ [x2d] ++ show_int dim ++ [x2d] ++ show_int nx ++ [x2d] ++ show_int ny ++ [x2d] ++ show_int nz ++ [x2d].
  Definition slice_name (n : Z) : list byte := slice_dir (txt "out") ++ pad4 n ++ txt ".png".

  (** cmd/stl2svx/stl2svx.go:190-196; outPrefix is "out" here, and the request's in
      stl2svx/master/master.go:152-158. *)
  Definition make_manifest (outPrefix : list byte) (bx : qpt * qpt) : manifest :=
    let s := mbb_scale bx in
    Manifest (model_dim s dim (size_x bx) + 2) (model_dim s dim (size_z bx) + 2) (model_dim s dim (size_y bx) + 2)
      (dice_mmpv s dim * (1 # 1000))%Q (slice_dir outPrefix) (txt ".png").

  Inductive entry := EManifest (m : manifest) | ESlice (name : list byte) (img : image).

  (** The images of slices 0 .. n-1; each agent has its own iteration orders. *)
  Fixpoint slice_entries (ord : Z -> nat -> list key -> list key) pord (meshes : list (list tri)) (zs : list Z) : option (list entry) :=
    match zs with
    | [] => Some []
    | z :: zs' =>
        match slice_image (ord z) (pord z) meshes z, slice_entries ord pord meshes zs' with
        | Some img, Some es => Some (ESlice (slice_name (z + 1)) img :: es)
        | _, _ => None
        end
    end.

  (** cmd/stl2svx/stl2svx.go:78-105 master, in the intended order of events (see SvxRace.v): the
      archive; [None]: log.Fatal. *)
  Definition svx_archive ord pord (meshes : list (list tri)) : option (list entry) :=
    match meshes with
    | [] => None
    | base :: _ =>
        let bx := bounding_box base in
        let '(dx, dy, dz) := region_dims3 bx in
        if (dx =? 0) || (dy =? 0) || (dz =? 0) then None
        else match slice_entries ord pord meshes (seqZ 0 dz) with
             | None => None
             | Some es =>
                 Some (EManifest (make_manifest (txt "out") bx) :: ESlice (slice_name 0) (black_image (dim + 2) (dim + 2)) ::
                       es ++ [ESlice (slice_name (dz + 1)) (black_image (dim + 2) (dim + 2))])
             end
    end.
End Slicer.

(** ** svx2stl *)

Inductive svx_error := EName | ENoManifest.

(** strconv.ParseInt of a string of digits. *)
Definition digits_value (d : list byte) : Z := fold_left (fun a b => a * 10 + (b2z b - 48)) d 0.

(** The digits that %04d takes: at most four. *)
Fixpoint take_digits (n : nat) (s : list byte) : list byte * list byte :=
  match n, s with
  | S n', b :: s' => if is_digit b then let '(d, r) := take_digits n' s' in (b :: d, r) else ([], s)
  | _, _ => ([], s)
  end.

Fixpoint strip (p s : list byte) : option (list byte) :=
  match p, s with
  | [], _ => Some s
  | a :: p', b :: s' => if decide (a = b) then strip p' s' else None
  | _ :: _, [] => None
  end.

(** fmt.Sscanf(name, prefix + "%04d" + suffix, &n): the literal prefix, up to four digits, the literal
    suffix; what follows is not read.  Simplified: no spaces, no sign. *)
Definition sscanf_slice (prefix suffix name : list byte) : option Z :=
  match strip prefix name with
  | None => None
  | Some r => let '(d, r') := take_digits 4 r in
              match d, strip suffix r' with
              | _ :: _, Some _ => Some (digits_value d)
              | _, _ => None
              end
  end.

(** cmd/svx2stl/main.go:95-104 scanImage. *)
Definition scan_row (img : image) (z y : Z) (w : gset key) : gset key :=
  fold_left (fun w x => if 128 <=? pix img (x, y) then {[(x, y, z)]} ∪ w else w) (seqZ 0 (iw img)) w.
Definition scanImage (img : image) (z : Z) (w : gset key) : gset key :=
  fold_left (fun w y => scan_row img z y w) (seqZ 0 (ih img)) w.

(** cmd/svx2stl/main.go:162-169: the model of a manifest. *)
Definition svx_model (m : manifest) (w : gset key) : binvox Q :=
  BinVOX (gridSizeX m) (gridSizeY m) (gridSizeZ m) 0%Q 0%Q 0%Q (voxelSize m * 1000)%Q (Some w) None.

(** cmd/svx2stl/main.go:63-92 the loop over the entries: the state is the model and pattern once the
    manifest has been read.  Simplified: a slice before the manifest is an error (in the code Sscanf
    with an empty format reads nothing and fails); a later manifest replaces the model. *)
Fixpoint svx_loop (st : option (manifest * gset key)) (es : list entry) : svx_error + option (manifest * gset key) :=
  match es with
  | [] => inr st
  | EManifest m :: es' => svx_loop (Some (m, ∅)) es'
  | ESlice name img :: es' =>
      match st with
      | None => inl ENoManifest
      | Some (m, w) =>
          match sscanf_slice (slice_prefix m) (slice_suffix m) name with
          | None => inl EName
          | Some z => svx_loop (Some (m, scanImage img z w)) es'
          end
      end
  end.

(** cmd/svx2stl/main.go:52-93 read. *)
Definition svx_read (es : list entry) : svx_error + option (binvox Q) :=
  match svx_loop None es with
  | inl e => inl e
  | inr None => inr None
  | inr (Some (m, w)) => inr (Some (svx_model m w))
  end.
