(** Runs of the master model: non-vacuity of C49 and C50, and what happens beyond their hypotheses. *)
From Verif Require Import MasterModel MasterProps MasterJobs.
From Coq Require Import List Lia Bool PeanoNat.
From stdpp Require Import base list gmap sets relations.
Import ListNotations.

(** A request is its name and number of slices; entries are named by strings of numbers. *)
Inductive ent := Man (r : nat) | Blank (r n : nat) | Slice (r z p : nat).
Definition xslices (r : nat * nat) : nat := snd r.
Definition xman (r : nat * nat) : ent := Man (fst r).
Definition xblanks (r : nat * nat) : list ent := [Blank (fst r) 0; Blank (fst r) (S (snd r))].
Definition xslice (r : nat * nat) (z p : nat) : ent := Slice (fst r) z p.
Notation xmaster := (@master nat nat (nat * nat) ent _ _).
Notation xstep := (@step nat nat (nat * nat) ent _ _ xslices xman xblanks xslice).
Notation xlabel := (@label nat nat (nat * nat)).

(** An executable version of [step]. *)
Definition get_slice (m : xmaster) (j z : nat) : option (@slice nat nat) :=
  match jobs m !! j with Some b => match ph b with JRun ss => ss !! z | _ => None end | None => None end.

Definition do_step (m : xmaster) (l : xlabel) : option xmaster :=
  match l with
  | LRegister a => Some (Master ({[a]} ∪ idle m) (cur m) (jobs m))
  | LNew r => Some (Master (idle m) (cur m) (jobs m ++ [Job r JSet [] false]))
  | LSet j => match jobs m !! j with Some b => match ph b with JSet => Some (Master (idle m) (Some j) (alter (set_phase JManifest) j (jobs m))) | _ => None end | None => None end
  | LManifest j => match jobs m !! j with Some b => match ph b with JManifest =>
      Some (Master (idle m) (cur m) (add_cur (cur m) [xman (req b)] (alter (set_phase JBlanks) j (jobs m)))) | _ => None end | None => None end
  | LBlanks j => match jobs m !! j with Some b => match ph b with JBlanks =>
      Some (Master (idle m) (cur m) (add_cur (cur m) (xblanks (req b)) (alter (set_phase (JRun (replicate (xslices (req b)) SWait))) j (jobs m)))) | _ => None end | None => None end
  | LAssign j z a => match get_slice m j z with Some SWait => if decide (a ∈ idle m) then Some (Master (idle m ∖ {[a]}) (cur m) (alter (set_slice z (SDial a)) j (jobs m))) else None | _ => None end
  | LDialFail j z => match get_slice m j z with Some (SDial a) => Some (Master (idle m) (cur m) (alter (set_slice z SWait) j (jobs m))) | _ => None end
  | LDialOk j z => match get_slice m j z with Some (SDial a) => Some (Master (idle m) (cur m) (alter (set_slice z (SCall a)) j (jobs m))) | _ => None end
  | LCallErr j z => match get_slice m j z with Some (SCall a) => Some (Master (idle m) (cur m) (alter (set_slice z SEnd) j (jobs m))) | _ => None end
  | LCallOk j z p => match get_slice m j z with Some (SCall a) => Some (Master (idle m) (cur m) (alter (set_slice z (SBack a p)) j (jobs m))) | _ => None end
  | LBack j z => match get_slice m j z with Some (SBack a p) => Some (Master ({[a]} ∪ idle m) (cur m) (alter (set_slice z (SWrite p)) j (jobs m))) | _ => None end
  | LWrite j z => match get_slice m j z, jobs m !! j with Some (SWrite p), Some b =>
      Some (Master (idle m) (cur m) (add_cur (cur m) [xslice (req b) z p] (alter (set_slice z SEnd) j (jobs m)))) | _, _ => None end
  | LFinish j =>
      match jobs m !! j, cur m with
      | Some b, Some i =>
          match ph b, jobs m !! i with
          | JRun ss, Some c =>
              if forallb is_end ss then
                if closed c then Some (Master (idle m) (cur m) (alter (set_phase (JReturned RError)) j (jobs m)))
                else let js := alter (fun c => Job (req c) (ph c) (buf c) true) i (jobs m) in
                     match js !! j with
                     | Some b' => Some (Master (idle m) (cur m) (alter (set_phase (JReturned (ROk (buf b') (closed b')))) j js))
                     | None => None
                     end
              else None
          | _, _ => None
          end
      | _, _ => None
      end
  end.

Lemma get_slice_at m j z s : get_slice m j z = Some s -> slice_at m j z s.
Proof.
  unfold get_slice, slice_at. intros E. destruct (jobs m !! j) as [b|]; [|discriminate]. destruct (ph b) as [| | |ss|] eqn:Hp; try discriminate. exists b, ss. auto.
Qed.

Lemma do_step_sound m l m' : do_step m l = Some m' -> xstep m l m'.
Proof.
  destruct l as [a|r|j|j|j|j z a|j z|j z|j z|j z p|j z|j z|j]; cbn [do_step]; intros E.
  1-2: injection E as <-; constructor.
  1-3: destruct (jobs m !! j) as [b|] eqn:Hb; [|discriminate]; destruct (ph b) eqn:Hp; try discriminate; injection E as <-; econstructor; split; eassumption.
  1-6: destruct (get_slice m j z) as [s|] eqn:Hs; [|discriminate]; apply get_slice_at in Hs; destruct s; try discriminate.
  1: destruct (decide (a ∈ idle m)); [|discriminate]; injection E as <-; constructor; assumption.
  1-5: injection E as <-; econstructor; eassumption.
  - destruct (get_slice m j z) as [s|] eqn:Hs; [|discriminate]; apply get_slice_at in Hs; destruct s; try discriminate. destruct (jobs m !! j) as [b|] eqn:Hb; [|discriminate].
    injection E as <-. econstructor; eassumption.
  - destruct (jobs m !! j) as [b|] eqn:Hb; [|discriminate]. destruct (cur m) as [i|] eqn:Hc; [|discriminate]. destruct (ph b) as [| | |ss|] eqn:Hp; try discriminate.
    destruct (jobs m !! i) as [c|] eqn:Hi; [|discriminate]. destruct (forallb is_end ss) eqn:He; [|discriminate]. destruct (closed c) eqn:Hcl.
    + injection E as <-. rewrite <- Hc. eapply (st_finish_err _ _ _ _ m j b ss i c); auto. split; auto.
    + cbv zeta in E. destruct (alter _ i (jobs m) !! j) as [b'|] eqn:Hb'; [|discriminate]. injection E as <-. rewrite <- Hc.
      eapply (st_finish_ok _ _ _ _ m j b ss i c b'); auto. split; auto.
Qed.

Fixpoint do_steps (m : xmaster) (t : list xlabel) : option xmaster :=
  match t with [] => Some m | l :: t' => match do_step m l with Some m' => do_steps m' t' | None => None end end.

Lemma do_steps_trace t : forall m0 t0 m m', trace xslices xman xblanks xslice m0 t0 m -> do_steps m t = Some m' -> trace xslices xman xblanks xslice m0 (t0 ++ t) m'.
Proof.
  induction t as [|l t IH]; intros m0 t0 m m' Ht E; cbn in E; [injection E as <-; rewrite app_nil_r; exact Ht|].
  destruct (do_step m l) as [m1|] eqn:E1; [|discriminate]. replace (t0 ++ l :: t) with ((t0 ++ [l]) ++ t) by (rewrite <- app_assoc; reflexivity).
  eapply IH; [eapply t_snoc; [exact Ht|apply do_step_sound, E1]|exact E].
Qed.

Notation xtrace := (trace xslices xman xblanks xslice master_init).

(** A registration while busy makes the agent run two slices at a time: the hypothesis of C49 is needed. *)
Definition again : list xlabel :=
  [LRegister 1; LNew (7, 2); LSet 0; LManifest 0; LBlanks 0; LAssign 0 0 1; LDialOk 0 0; LRegister 1; LAssign 0 1 1; LDialOk 0 1].
Example C49_reregister_ex : exists m, xtrace again m /\ slice_at m 0 0 (SCall 1) /\ slice_at m 0 1 (SCall 1).
Proof.
  destruct (do_steps master_init again) as [m|] eqn:E; [|vm_compute in E; discriminate]. exists m.
  split; [apply (do_steps_trace again _ [] _ _ (t_nil _ _ _ _ _) E)|]. vm_compute in E. injection E as <-.
  split; eexists; eexists; (split; [reflexivity|]); (split; reflexivity).
Qed.

(** A call that fails: NewJob returns without an error, and slice 0 is missing.  *)
Definition lossy : list xlabel :=
  [LRegister 1; LRegister 2; LNew (7, 2); LSet 0; LManifest 0; LBlanks 0; LAssign 0 0 1; LAssign 0 1 2; LDialOk 0 0; LCallErr 0 0; LDialOk 0 1; LCallOk 0 1 55; LBack 0 1; LWrite 0 1; LFinish 0].

Lemma do_steps_one t : forall t0 m m', one_at_a_time xslices xman xblanks xslice t0 m ->
  (fix ok (m : xmaster) (t : list xlabel) : bool :=
     match t with
     | [] => true
     | l :: t' => match l with LSet _ => forallb (fun b : job => match ph b with JSet | JReturned _ => true | _ => false end) (jobs m) | _ => true end &&
                  match do_step m l with Some m1 => ok m1 t' | None => false end
     end) m t = true -> do_steps m t = Some m' -> one_at_a_time xslices xman xblanks xslice (t0 ++ t) m'.
Proof.
  induction t as [|l t IH]; intros t0 m m' Ho Hok E; cbn in E; [injection E as <-; rewrite app_nil_r; exact Ho|].
  apply andb_prop in Hok as [Hl Hok]. destruct (do_step m l) as [m1|] eqn:E1; [|discriminate]. replace (t0 ++ l :: t) with ((t0 ++ [l]) ++ t) by (rewrite <- app_assoc; reflexivity).
  eapply IH; [|exact Hok|exact E]. eapply o_snoc; [exact Ho|apply do_step_sound, E1|]. intros j -> i b Hb.
  rewrite forallb_forall in Hl. apply elem_of_list_lookup_2, elem_of_list_In in Hb. specialize (Hl b Hb). destruct (ph b); cbn; auto; discriminate.
Qed.

Example C50_lossy_ex : exists m b, one_at_a_time xslices xman xblanks xslice lossy m /\ jobs m !! 0 = Some b /\
  ph b = JReturned (ROk [Man 7; Blank 7 0; Blank 7 3; Slice 7 1 55] true) /\ idle m = {[2]}.
Proof.
  destruct (do_steps master_init lossy) as [m|] eqn:E; [|vm_compute in E; discriminate]. eexists m, _.
  split; [apply (do_steps_one lossy [] _ _ (o_nil _ _ _ _)); [vm_compute; reflexivity|exact E]|]. vm_compute in E. injection E as <-.
  split; [reflexivity|]. split; [reflexivity|]. apply (bool_decide_unpack _). vm_compute. exact I.
Qed.

(** Two jobs at the same time: the slice of job 0 ends up in the archive of job 1; job 0 gets a buffer
    that was never closed, and job 1 an error.  The hypothesis of C50_archive is needed. *)
Definition both : list xlabel :=
  [LRegister 1; LNew (7, 1); LSet 0; LManifest 0; LBlanks 0; LNew (8, 1); LSet 1; LManifest 1; LBlanks 1;
   LAssign 0 0 1; LDialOk 0 0; LCallOk 0 0 70; LBack 0 0; LWrite 0 0; LFinish 0; LAssign 1 0 1; LDialOk 1 0; LCallOk 1 0 80; LBack 1 0; LWrite 1 0; LFinish 1].
Example C50_concurrent_ex : exists m b0 b1, xtrace both m /\ jobs m !! 0 = Some b0 /\ jobs m !! 1 = Some b1 /\
  ph b0 = JReturned (ROk [Man 7; Blank 7 0; Blank 7 2] false) /\ ph b1 = JReturned RError /\ buf b1 = [Man 8; Blank 8 0; Blank 8 2; Slice 7 0 70].
Proof.
  destruct (do_steps master_init both) as [m|] eqn:E; [|vm_compute in E; discriminate]. eexists m, _, _.
  split; [apply (do_steps_trace both _ [] _ _ (t_nil _ _ _ _ _) E)|]. vm_compute in E. injection E as <-. repeat (split; [reflexivity|]). reflexivity.
Qed.

(** The pool runs dry: one agent, one failure; the second slice waits (C50_stuck applies). *)
Definition dry : list xlabel := [LRegister 1; LNew (7, 2); LSet 0; LManifest 0; LBlanks 0; LAssign 0 0 1; LDialOk 0 0; LCallErr 0 0].
Example C50_stuck_ex : exists m, xtrace dry m /\ registers dry <= losses dry /\ slice_at m 0 1 SWait.
Proof.
  destruct (do_steps master_init dry) as [m|] eqn:E; [|vm_compute in E; discriminate]. exists m.
  split; [apply (do_steps_trace dry _ [] _ _ (t_nil _ _ _ _ _) E)|]. split; [vm_compute; lia|]. vm_compute in E. injection E as <-.
  eexists. eexists. split; [reflexivity|]. split; reflexivity.
Qed.

(** An honest run with a slice under way. *)
Example C49_ex : exists m, honest xslices xman xblanks xslice [LRegister 1; LNew (7, 2); LSet 0; LManifest 0; LBlanks 0; LAssign 0 0 1; LDialOk 0 0] m /\ slice_at m 0 0 (SCall 1).
Proof.
  assert (G : forall t m l m', honest xslices xman xblanks xslice t m -> do_step m l = Some m' -> (match l with LRegister _ => jobs m = [] | _ => True end) -> honest xslices xman xblanks xslice (t ++ [l]) m').
  { intros t m l m' Hh E Hl. eapply h_snoc; [exact Hh|apply do_step_sound, E|]. intros a -> j z (s & (b & ss & Hb & _) & _). rewrite Hl in Hb. discriminate Hb. }
  eexists. split.
  - change [LRegister 1; LNew (7, 2); LSet 0; LManifest 0; LBlanks 0; LAssign 0 0 1; LDialOk 0 0] with (((((((([] ++ [LRegister 1]) ++ [LNew (7, 2)]) ++ [LSet 0]) ++ [LManifest 0]) ++ [LBlanks 0]) ++ [LAssign 0 0 1]) ++ [LDialOk 0 0]) : list xlabel).
    eapply G; [eapply G; [eapply G; [eapply G; [eapply G; [eapply G; [eapply G; [apply h_nil|vm_compute; reflexivity|reflexivity]|vm_compute; reflexivity|exact I]|vm_compute; reflexivity|exact I]|vm_compute; reflexivity|exact I]|vm_compute; reflexivity|exact I]|vm_compute; reflexivity|exact I]|vm_compute; reflexivity|exact I].
  - eexists. eexists. split; [reflexivity|]. split; reflexivity.
Qed.
