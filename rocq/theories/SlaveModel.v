(** Model of server/stldice-slave/stldice-slave.go (the three RPCs) and of
    server/stldice-master/stldice-master.go.

    The server's only state is its working directory.  The environment decides how the calls that
    write a file end.  A panic in an RPC ends the process (grpc-go does not recover); the histories go
    on after it with the directory that it left, as a supervisor that restarts the server would. *)
From Verif Require Import Base BinvoxModel StlParse.
From Coq Require Import ZArith List Bool String Init.Byte.
From stdpp Require Import base list gmap.
Import ListNotations.
Open Scope Z_scope.

Section Slave.
  Context {F : Type} (ft : FloatText F) (f32 : Z -> F) (parse : list byte -> F) (bits32 : F -> Z) (norm : ftri F -> Z * Z * Z).
  (** fmt's %v of a float64. *)
  Context (fmtV : F -> list byte).

  (** stldice/stldice.proto:23-37 VoxelRegion. *)
  Record region := Region { Llx : F; Lly : F; Llz : F; Urx : F; Ury : F; Urz : F; Rnx : Z; Rny : Z; Rnz : Z }.

  (** stldice-slave.go:141-147 filename. *)
  Definition dash : list byte := [x2d].
  Definition filename (r : region) : list byte :=
    txt "model" ++ dash ++ fmtV (Llx r) ++ dash ++ fmtV (Lly r) ++ dash ++ fmtV (Llz r) ++ dash
    ++ fmtV (Urx r) ++ dash ++ fmtV (Ury r) ++ dash ++ fmtV (Urz r) ++ dash
    ++ show_int (Rnx r) ++ dash ++ show_int (Rny r) ++ dash ++ show_int (Rnz r) ++ txt ".binvox".

  Definition dir : Type := list byte -> option (list byte).
  Definition put_file (d : dir) (name contents : list byte) : dir := fun n => if bool_decide (n = name) then Some contents else d n.

  (** binvox/read.go:22-35 Read, with the arguments of all calls here. *)
  Definition Read (d : dir) (name : list byte) : option (binvox F) :=
    match d name with
    | None => None
    | Some bytes => match read ft bytes 0 0 0 0 0 0 with inl _ => None | inr b => Some b end
    end.

  (** How a call that writes a file ends: well, with os.Create failing, or after [n] bytes. *)
  Inductive disk := DOk | DNoCreate | DFail (n : nat).
  Definition save (d : dir) (name contents : list byte) (o : disk) : dir * bool :=
    match o with
    | DOk => (put_file d name contents, true)
    | DNoCreate => (d, false)
    | DFail n => (put_file d name (take n contents), false)
    end.

  Inductive request := QAdd (r : region) (stl : list byte) | QSub (r : region) (stl : list byte) | QGet (r : region).
  (** The replies carry nothing (AddSTLMeshReply, SubSTLMeshReply) or the bytes of an STL file. *)
  Inductive reply := RAdded | RSubtracted | RMesh (stl : list byte) | RError | RCrash.

  (** stldice-slave.go:221-224 voxelize and :227-229 voxelOp: stubs, the result is nil. *)
  Definition voxelOp (base op : option (binvox F)) (union : bool) : option (binvox F) := None.

  (** binvox/write.go:16-31,40-42 on a possibly nil *BinVOX: os.Create has emptied the file when
      [write] dereferences the nil pointer. *)
  Definition WriteNil (d : dir) (name : list byte) (b : option (binvox F)) (o : disk) : dir * option bool :=
    match b with
    | None => match o with DNoCreate => (d, Some false) | _ => (put_file d name [], None) end
    | Some b => let '(d', ok) := save d name (write_file ft b 0 0 0 0 0 0) o in (d', Some ok)
    end.

  (** stldice-slave.go:33-61 AddSTLMesh. *)
  Definition AddSTLMesh (d : dir) (r : region) (stl : list byte) (o : disk) : dir * reply :=
    match stlToMesh f32 parse stl with
    | SPanic => (d, RCrash)
    | SErr _ => (d, RError)
    | SMesh ts =>
        let name := filename r in
        match Read d name with
        | None => let '(d', ok) := save d name (saveSTL bits32 norm ts) o in (d', if ok : bool then RAdded else RError)
        | Some base =>
            match WriteNil d name (voxelOp (Some base) None true) o with
            | (d', None) => (d', RCrash)
            | (d', Some ok) => (d', if ok : bool then RAdded else RError)
            end
        end
    end.

  (** stldice-slave.go:64-89 SubSTLMesh. *)
  Definition SubSTLMesh (d : dir) (r : region) (stl : list byte) (o : disk) : dir * reply :=
    let name := filename r in
    match Read d name with
    | None => (d, RError)
    | Some base =>
        match stlToMesh f32 parse stl with
        | SPanic => (d, RCrash)
        | SErr _ => (d, RError)
        | SMesh ts =>
            match WriteNil d name (voxelOp (Some base) None false) o with
            | (d', None) => (d', RCrash)
            | (d', Some ok) => (d', if ok : bool then RSubtracted else RError)
            end
        end
    end.

  (** stldice-slave.go:93-129 GetSTLMesh: the STL file is built in buf, which is then dropped; the
      model file is not removed.  (ManifoldMesh has no failing operation: it is a total function in ManifoldModel.v.) *)
  Definition GetSTLMesh (d : dir) (r : region) : dir * reply :=
    match Read d (filename r) with
    | None => (d, RError)
    | Some base => (d, RMesh [])
    end.

  Definition serve (d : dir) (q : request) (o : disk) : dir * reply :=
    match q with
    | QAdd r stl => AddSTLMesh d r stl o
    | QSub r stl => SubSTLMesh d r stl o
    | QGet r => GetSTLMesh d r
    end.

  (** A history: the requests, with the outcome of their disk writes and their replies. *)
  Fixpoint run (d : dir) (h : list (request * disk)) : dir * list reply :=
    match h with
    | [] => (d, [])
    | (q, o) :: h' => let '(d1, a) := serve d q o in let '(d2, rs) := run d1 h' in (d2, a :: rs)
    end.

  (** server/stldice-master/stldice-master.go:24-36: every request is acknowledged, none is acted on. *)
  Definition master_serve (q : request) : reply :=
    match q with QAdd _ _ => RAdded | QSub _ _ => RSubtracted | QGet _ => RMesh [] end.
End Slave.
Arguments region : clear implicits. Arguments request : clear implicits.
