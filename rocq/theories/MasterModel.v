(** Model of stl2svx/master/master.go: the master of the distributed stl2svx, its pool of idle agents,
    and its NewJob requests, any number of which may run at the same time.

    Simplified: a request is its number of slices with what its archive entries are ([manifest_of],
    [blanks_of], [slice_of]); requests refused by stl.New never start; every section under a mutex,
    and every other statement on shared state, is one atomic step; getIdleAgent's polling loop is a
    wait; dialling and the SliceJob call of an agent end in any way they like.  A zip.Writer writes to
    the buffer of its own request; entries created after its Close are lost. *)
From Coq Require Import List Lia Bool PeanoNat.
From stdpp Require Import base list gmap sets relations.
Import ListNotations.

Section Master.
  Context {addr png request entry : Type} `{Countable addr}.
  Context (slices_of : request -> nat) (manifest_of : request -> entry) (blanks_of : request -> list entry)
    (slice_of : request -> nat -> png -> entry).

  (** The goroutine of one slice: runAgent, master.go:83-123. *)
  Inductive slice :=
  | SWait                         (* getIdleAgent *)
  | SDial (a : addr)              (* grpc.Dial *)
  | SCall (a : addr)              (* c.SliceJob *)
  | SBack (a : addr) (p : png)    (* mark the agent as idle *)
  | SWrite (p : png)              (* write the PNG to the zip file *)
  | SEnd.

  (** The reply of NewJob: an error, or the contents of its buffer and whether the zip was closed
      (otherwise it has no directory, and no entry can be read). *)
  Inductive reply := RError | ROk (es : list entry) (closed : bool).

  (** NewJob, master.go:40-71. *)
  Inductive phase :=
  | JSet                          (* m.zipFile = zip.NewWriter(&zbuf) *)
  | JManifest                     (* writeManifest *)
  | JBlanks                       (* writeBlankImages *)
  | JRun (ss : list slice)        (* the goroutines, wg.Wait and m.zipFile.Close *)
  | JReturned (r : reply).

  Record job := Job { req : request; ph : phase; buf : list entry; closed : bool }.

  (** idle: m.idleAgents; cur: whose writer m.zipFile is. *)
  Record master := Master { idle : gset addr; cur : option nat; jobs : list job }.

  Definition master_init : master := Master ∅ None [].

  Inductive label :=
  | LRegister (a : addr) | LNew (r : request) | LSet (j : nat) | LManifest (j : nat) | LBlanks (j : nat)
  | LAssign (j z : nat) (a : addr) | LDialFail (j z : nat) | LDialOk (j z : nat)
  | LCallErr (j z : nat) | LCallOk (j z : nat) (p : png) | LBack (j z : nat) | LWrite (j z : nat) | LFinish (j : nat).

  Definition set_phase (p : phase) (b : job) : job := Job (req b) p (buf b) (closed b).
  Definition set_slice (z : nat) (s : slice) (b : job) : job :=
    match ph b with JRun ss => set_phase (JRun (<[z := s]> ss)) b | _ => b end.

  (** Create and Write on the writer of job [j]. *)
  Definition zip_add (es : list entry) (b : job) : job :=
    if closed b then b else Job (req b) (ph b) (buf b ++ es) (closed b).

  Definition add_cur (c : option nat) (es : list entry) (js : list job) : list job :=
    match c with Some i => alter (zip_add es) i js | None => js end.

  Definition slice_at (m : master) (j z : nat) (s : slice) : Prop :=
    exists b ss, jobs m !! j = Some b /\ ph b = JRun ss /\ ss !! z = Some s.

  Definition at_phase (m : master) (j : nat) (p : phase) (b : job) : Prop := jobs m !! j = Some b /\ ph b = p.

  Definition is_end (s : slice) : bool := match s with SEnd => true | _ => false end.

  Inductive step (m : master) : label -> master -> Prop :=
  (* RegisterAgent, master.go:73-80 *)
  | st_register a : step m (LRegister a) (Master ({[a]} ∪ idle m) (cur m) (jobs m))
  | st_new r : step m (LNew r) (Master (idle m) (cur m) (jobs m ++ [Job r JSet [] false]))
  | st_set j b : at_phase m j JSet b ->
      step m (LSet j) (Master (idle m) (Some j) (alter (set_phase JManifest) j (jobs m)))
  | st_manifest j b : at_phase m j JManifest b ->
      step m (LManifest j) (Master (idle m) (cur m) (add_cur (cur m) [manifest_of (req b)] (alter (set_phase JBlanks) j (jobs m))))
  | st_blanks j b : at_phase m j JBlanks b ->
      step m (LBlanks j) (Master (idle m) (cur m)
        (add_cur (cur m) (blanks_of (req b)) (alter (set_phase (JRun (replicate (slices_of (req b)) SWait))) j (jobs m))))
  (* getIdleAgent, master.go:126-141 *)
  | st_assign j z a : slice_at m j z SWait -> a ∈ idle m ->
      step m (LAssign j z a) (Master (idle m ∖ {[a]}) (cur m) (alter (set_slice z (SDial a)) j (jobs m)))
  | st_dial_fail j z a : slice_at m j z (SDial a) ->
      step m (LDialFail j z) (Master (idle m) (cur m) (alter (set_slice z SWait) j (jobs m)))
  | st_dial_ok j z a : slice_at m j z (SDial a) ->
      step m (LDialOk j z) (Master (idle m) (cur m) (alter (set_slice z (SCall a)) j (jobs m)))
  | st_call_err j z a : slice_at m j z (SCall a) ->
      step m (LCallErr j z) (Master (idle m) (cur m) (alter (set_slice z SEnd) j (jobs m)))
  | st_call_ok j z a p : slice_at m j z (SCall a) ->
      step m (LCallOk j z p) (Master (idle m) (cur m) (alter (set_slice z (SBack a p)) j (jobs m)))
  (* master.go:105-107 *)
  | st_back j z a p : slice_at m j z (SBack a p) ->
      step m (LBack j z) (Master ({[a]} ∪ idle m) (cur m) (alter (set_slice z (SWrite p)) j (jobs m)))
  (* master.go:110-122 *)
  | st_write j z p b : slice_at m j z (SWrite p) -> jobs m !! j = Some b ->
      step m (LWrite j z) (Master (idle m) (cur m) (add_cur (cur m) [slice_of (req b) z p] (alter (set_slice z SEnd) j (jobs m))))
  (* wg.Wait, Close and return, master.go:63-70; a second Close of a writer is an error *)
  | st_finish_err j b ss i c : at_phase m j (JRun ss) b -> forallb is_end ss = true -> cur m = Some i -> jobs m !! i = Some c -> closed c = true ->
      step m (LFinish j) (Master (idle m) (cur m) (alter (set_phase (JReturned RError)) j (jobs m)))
  | st_finish_ok j b ss i c b' : at_phase m j (JRun ss) b -> forallb is_end ss = true -> cur m = Some i -> jobs m !! i = Some c -> closed c = false ->
      let js := alter (fun c => Job (req c) (ph c) (buf c) true) i (jobs m) in
      js !! j = Some b' ->
      step m (LFinish j) (Master (idle m) (cur m) (alter (set_phase (JReturned (ROk (buf b') (closed b')))) j js)).

  Inductive trace (m : master) : list label -> master -> Prop :=
  | t_nil : trace m [] m
  | t_snoc t l m1 m2 : trace m t m1 -> step m1 l m2 -> trace m (t ++ [l]) m2.
End Master.
Arguments SWait {addr png}. Arguments SDial {addr png}. Arguments SCall {addr png}. Arguments SBack {addr png}. Arguments SWrite {addr png}. Arguments SEnd {addr png}.
