(** C48: stl.Merge, for all schedules of its goroutines.

    Simplified: LoadSTL is a function of the file (an error or a list of triangles); every statement
    is one atomic step, also the assignment to mergeErr, which the code makes without a lock (a data
    race when two files fail at once).  mesh.Add appends the triangles (fauxgl). *)
From Coq Require Import List Lia Bool Permutation PeanoNat.
From stdpp Require Import base list relations.
Import ListNotations.

Section Merge.
  Context {file tri error : Type} (load : file -> error + list tri) (workers : nat).

  (** The goroutine of a file: stl/stl.go:31-37, with merge (49-57) and addFunc (17-25) inlined. *)
  Inductive gor :=
  | GLoad (f : file)              (* gl.LoadSTL *)
  | GFail (f : file) (e : error)  (* mergeErr = err *)
  | GLock (f : file) (m : list tri)   (* mu.Lock() *)
  | GAdd (f : file) (m : list tri)    (* mesh = meshToAdd or mesh.Add(meshToAdd) *)
  | GUnlock                       (* mu.Unlock() *)
  | GRelease                      (* <-ch *)
  | GDone.                        (* wg.Done() *)

  (** The caller: stl/stl.go:28-46. *)
  Inductive caller :=
  | CLoop (fs : list file)              (* ch <- struct{}{} for the next file, or wg.Wait() *)
  | CAdd (f : file) (fs : list file)    (* wg.Add(1) *)
  | CGo (f : file) (fs : list file)     (* go func *)
  | CReturn (r : option error * option (list tri)).   (* returned *)

  (** ch: how many tokens are in the channel; wg: the counter; mu: the lock is taken. *)
  Record mstate := MState { main : caller; ch : nat; wg : nat; mu : bool; mesh : option (list tri); mergeErr : option error; gs : list gor }.

  Definition add_mesh (mesh : option (list tri)) (m : list tri) : option (list tri) :=
    match mesh with None => Some m | Some l => Some (l ++ m) end.

  (** stl/stl.go:41-45 *)
  Definition ret (mesh : option (list tri)) (err : option error) : option error * option (list tri) :=
    match err with Some e => (Some e, None) | None => (None, mesh) end.

  Inductive mstep : mstate -> mstate -> Prop :=
  | s_send f fs c w l ms e g : c < workers -> mstep (MState (CLoop (f :: fs)) c w l ms e g) (MState (CAdd f fs) (S c) w l ms e g)
  | s_add f fs c w l ms e g : mstep (MState (CAdd f fs) c w l ms e g) (MState (CGo f fs) c (S w) l ms e g)
  | s_go f fs c w l ms e g : mstep (MState (CGo f fs) c w l ms e g) (MState (CLoop fs) c w l ms e (g ++ [GLoad f]))
  | s_wait c l ms e g : mstep (MState (CLoop []) c 0 l ms e g) (MState (CReturn (ret ms e)) c 0 l ms e g)
  | s_load_err m c w l ms e g1 g2 f er : load f = inl er ->
      mstep (MState m c w l ms e (g1 ++ GLoad f :: g2)) (MState m c w l ms e (g1 ++ GFail f er :: g2))
  | s_load_ok m c w l ms e g1 g2 f t : load f = inr t ->
      mstep (MState m c w l ms e (g1 ++ GLoad f :: g2)) (MState m c w l ms e (g1 ++ GLock f t :: g2))
  | s_fail m c w l ms e g1 g2 f er :
      mstep (MState m c w l ms e (g1 ++ GFail f er :: g2)) (MState m c w l ms (Some er) (g1 ++ GRelease :: g2))
  | s_lock m c w ms e g1 g2 f t :
      mstep (MState m c w false ms e (g1 ++ GLock f t :: g2)) (MState m c w true ms e (g1 ++ GAdd f t :: g2))
  | s_addmesh m c w l ms e g1 g2 f t :
      mstep (MState m c w l ms e (g1 ++ GAdd f t :: g2)) (MState m c w l (add_mesh ms t) e (g1 ++ GUnlock :: g2))
  | s_unlock m c w l ms e g1 g2 :
      mstep (MState m c w l ms e (g1 ++ GUnlock :: g2)) (MState m c w false ms e (g1 ++ GRelease :: g2))
  | s_release m c w l ms e g1 g2 :
      mstep (MState m (S c) w l ms e (g1 ++ GRelease :: g2)) (MState m c w l ms e (g1 ++ GDone :: g2))
  | s_done m c w l ms e g1 g2 :
      mstep (MState m c (S w) l ms e (g1 ++ GDone :: g2)) (MState m c w l ms e (g1 ++ g2)).

  (** stl/stl.go:12-27, after make(chan struct{}, numWorkers) *)
  Definition minit (files : list file) : mstate := MState (CLoop files) 0 0 false None None [].

  (** ** Invariant *)

  Definition todo (m : caller) : list file :=
    match m with CLoop fs => fs | CAdd f fs => f :: fs | CGo f fs => f :: fs | CReturn _ => [] end.
  Definition gfile (g : gor) : list file :=
    match g with GLoad f | GFail f _ | GLock f _ | GAdd f _ => [f] | _ => [] end.
  Definition critical (g : gor) : nat := match g with GAdd _ _ | GUnlock => 1 | _ => 0 end.
  Definition token (g : gor) : nat := match g with GDone => 0 | _ => 1 end.
  Definition sum (f : gor -> nat) (l : list gor) : nat := fold_right (fun g n => f g + n) 0 l.
  Definition gok (g : gor) : Prop :=
    match g with GFail f e => load f = inl e | GLock f t | GAdd f t => load f = inr t | _ => True end.

  Definition tris (f : file) : list tri := match load f with inr t => t | inl _ => [] end.
  Definition fails (f : file) : Prop := exists e, load f = inl e.

  Definition joined (done : list file) : option (list tri) := match done with [] => None | _ => Some (flat_map tris done) end.
  Definition last_error (failed : list file) : option error :=
    match rev failed with [] => None | f :: _ => match load f with inl e => Some e | inr _ => None end end.

  Record minv (files : list file) (done failed : list file) (s : mstate) : Prop := {
    i_files : Permutation files (done ++ failed ++ todo (main s) ++ flat_map gfile (gs s));
    i_done : Forall (fun f => exists t, load f = inr t) done;
    i_failed : Forall fails failed;
    i_mesh : mesh s = joined done;
    i_err : mergeErr s = last_error failed;
    i_ok : Forall gok (gs s);
    i_ch : ch s = sum token (gs s) + match main s with CAdd _ _ | CGo _ _ => 1 | _ => 0 end;
    i_wg : wg s = length (gs s) + match main s with CGo _ _ => 1 | _ => 0 end;
    i_mu : sum critical (gs s) = if mu s then 1 else 0;
    i_cap : ch s <= workers;
    i_ret : forall r, main s = CReturn r -> gs s = [] /\ r = ret (mesh s) (mergeErr s) }.

  Lemma sum_app f l1 l2 : sum f (l1 ++ l2) = sum f l1 + sum f l2.
  Proof. induction l1 as [|g l1 IH]; [reflexivity|]. unfold sum in *. cbn [fold_right app]. rewrite IH. lia. Qed.

  Lemma joined_snoc done f t : load f = inr t -> add_mesh (joined done) t = joined (done ++ [f]).
  Proof.
    intros E. assert (Et : tris f = t) by (unfold tris; rewrite E; reflexivity). unfold joined. destruct done as [|d done]; cbn [app add_mesh].
    - cbn [flat_map]. rewrite Et, app_nil_r. reflexivity.
    - f_equal. rewrite app_comm_cons, flat_map_app. cbn [flat_map]. rewrite Et, app_nil_r. reflexivity.
  Qed.

  Lemma last_error_snoc failed f e : load f = inl e -> last_error (failed ++ [f]) = Some e.
  Proof. intros E. unfold last_error. rewrite rev_app_distr. cbn. rewrite E. reflexivity. Qed.

  Lemma minv_init files : minv files [] [] (minit files).
  Proof. constructor; cbn; auto; try discriminate; try lia. rewrite app_nil_r. reflexivity. Qed.

  Lemma flat_gfile_mid g1 g g2 : Permutation (flat_map gfile (g1 ++ g :: g2)) (gfile g ++ flat_map gfile (g1 ++ g2)).
  Proof.
    rewrite !flat_map_app. cbn [flat_map]. rewrite Permutation_app_comm, <- app_assoc. apply Permutation_app_head. apply Permutation_app_comm.
  Qed.

  (** Replacing one goroutine by another that holds the same file. *)
  Lemma perm_same files (pre : list file) g1 g g' g2 : gfile g = gfile g' ->
    Permutation files (pre ++ flat_map gfile (g1 ++ g :: g2)) -> Permutation files (pre ++ flat_map gfile (g1 ++ g' :: g2)).
  Proof. intros E H. rewrite H. apply Permutation_app_head. rewrite !flat_gfile_mid, E. reflexivity. Qed.

  Lemma perm_move files (d fl td : list file) g1 g g2 g' f : gfile g = [f] -> gfile g' = [] ->
    Permutation files (d ++ fl ++ td ++ flat_map gfile (g1 ++ g :: g2)) ->
    Permutation files ((d ++ [f]) ++ fl ++ td ++ flat_map gfile (g1 ++ g' :: g2)) /\
    Permutation files (d ++ (fl ++ [f]) ++ td ++ flat_map gfile (g1 ++ g' :: g2)).
  Proof.
    intros E E' H. assert (G : Permutation (flat_map gfile (g1 ++ g :: g2)) (f :: flat_map gfile (g1 ++ g' :: g2))).
    { rewrite !flat_gfile_mid, E, E'. reflexivity. }
    split; rewrite H, G; rewrite <- !app_assoc.
    - apply Permutation_app_head. cbn [app]. rewrite <- Permutation_middle. rewrite <- Permutation_middle. reflexivity.
    - do 2 apply Permutation_app_head. cbn [app]. rewrite <- Permutation_middle. reflexivity.
  Qed.

  Ltac split_gs := repeat match goal with
    | H : Forall _ (_ ++ _) |- _ => apply Forall_app in H as [? H]
    | H : Forall _ (_ :: _) |- _ => apply Forall_cons in H as [? H]
    | H : context [sum _ (_ ++ _)] |- _ => rewrite sum_app in H
    | H : context [length (_ ++ _)] |- _ => rewrite app_length in H
    end; cbn [sum fold_right token critical length main ch wg mu gs mesh mergeErr] in *.

  Lemma minv_step files done failed s s' : minv files done failed s -> mstep s s' ->
    exists done' failed', minv files done' failed' s'.
  Proof.
    intros [H1 H2 H3 H4 H5 H6 H7 H8 H9 H10 H11] Hs. destruct Hs; cbn [main ch wg mu mesh mergeErr gs] in *.
    - exists done, failed. constructor; cbn [main ch wg mu mesh mergeErr gs todo] in *; auto; try lia. discriminate.
    - exists done, failed. constructor; cbn [main ch wg mu mesh mergeErr gs todo] in *; auto; try lia. discriminate.
    - exists done, failed. constructor; cbn [main ch wg mu mesh mergeErr gs todo] in *; auto; try discriminate.
      + rewrite H1. do 2 apply Permutation_app_head. rewrite flat_map_app. cbn. rewrite app_assoc. apply Permutation_cons_append.
      + apply Forall_app. split; [assumption|]. repeat constructor.
      + rewrite sum_app. cbn. lia.
      + rewrite app_length. cbn. lia.
      + rewrite sum_app. cbn. lia.
    - exists done, failed. destruct g; [|cbn in H8; lia]. constructor; cbn [main ch wg mu mesh mergeErr gs todo] in *; auto.
      intros r [= <-]. auto.
    - exists done, failed. constructor; cbn [main ch wg mu mesh mergeErr gs todo] in *; auto; split_gs; rewrite ?sum_app, ?app_length; cbn [sum fold_right token critical length] in *; try lia.
      + rewrite !app_assoc in *. eapply perm_same, H1. reflexivity.
      + apply Forall_app. split; [assumption|]. constructor; [|assumption]. assumption.
      + intros r Hr. destruct (H11 r Hr) as [Hg _]. destruct g1; discriminate.
    - exists done, failed. constructor; cbn [main ch wg mu mesh mergeErr gs todo] in *; auto; split_gs; rewrite ?sum_app, ?app_length; cbn [sum fold_right token critical length] in *; try lia.
      + rewrite !app_assoc in *. eapply perm_same, H1. reflexivity.
      + apply Forall_app. split; [assumption|]. constructor; [|assumption]. assumption.
      + intros r Hr. destruct (H11 r Hr) as [Hg _]. destruct g1; discriminate.
    - exists done, (failed ++ [f]). constructor; cbn [main ch wg mu mesh mergeErr gs todo] in *; auto; split_gs; rewrite ?sum_app, ?app_length; cbn [sum fold_right token critical length] in *; try lia.
      + apply (perm_move files done failed (todo m) g1 (GFail f er) g2 GRelease f eq_refl eq_refl H1).
      + apply Forall_app. split; [assumption|]. constructor; [|constructor]. exists er. assumption.
      + symmetry. apply last_error_snoc. assumption.
      + apply Forall_app. split; [assumption|]. constructor; [exact I|assumption].
      + intros r Hr. destruct (H11 r Hr) as [Hg _]. destruct g1; discriminate.
    - exists done, failed. constructor; cbn [main ch wg mu mesh mergeErr gs todo] in *; auto; split_gs; rewrite ?sum_app, ?app_length; cbn [sum fold_right token critical length] in *; try lia.
      + rewrite !app_assoc in *. eapply perm_same, H1. reflexivity.
      + apply Forall_app. split; [assumption|]. constructor; assumption.
      + intros r Hr. destruct (H11 r Hr) as [Hg _]. destruct g1; discriminate.
    - exists (done ++ [f]), failed. constructor; cbn [main ch wg mu mesh mergeErr gs todo] in *; auto; split_gs; rewrite ?sum_app, ?app_length; cbn [sum fold_right token critical length] in *; try lia.
      + apply (perm_move files done failed (todo m) g1 (GAdd f t) g2 GUnlock f eq_refl eq_refl H1).
      + apply Forall_app. split; [assumption|]. constructor; [|constructor]. exists t. assumption.
      + rewrite H4. apply joined_snoc. assumption.
      + apply Forall_app. split; [assumption|]. constructor; [exact I|assumption].
      + intros r Hr. destruct (H11 r Hr) as [Hg _]. destruct g1; discriminate.
    - exists done, failed. constructor; cbn [main ch wg mu mesh mergeErr gs todo] in *; auto; split_gs; rewrite ?sum_app, ?app_length; cbn [sum fold_right token critical length] in *; try lia.
      + rewrite !app_assoc in *. eapply perm_same, H1. reflexivity.
      + apply Forall_app. split; [assumption|]. constructor; [exact I|assumption].
      + destruct l; lia.
      + intros r Hr. destruct (H11 r Hr) as [Hg _]. destruct g1; discriminate.
    - exists done, failed. constructor; cbn [main ch wg mu mesh mergeErr gs todo] in *; auto; split_gs; rewrite ?sum_app, ?app_length; cbn [sum fold_right token critical length] in *; try lia.
      + rewrite !app_assoc in *. eapply perm_same, H1. reflexivity.
      + apply Forall_app. split; [assumption|]. constructor; [exact I|assumption].
      + intros r Hr. destruct (H11 r Hr) as [Hg _]. destruct g1; discriminate.
    - exists done, failed. constructor; cbn [main ch wg mu mesh mergeErr gs todo] in *; auto; split_gs; rewrite ?sum_app, ?app_length; cbn [sum fold_right token critical length] in *; try lia.
      + rewrite H1. rewrite flat_gfile_mid. reflexivity.
      + apply Forall_app. split; assumption.
      + unfold sum in *. lia.
      + unfold sum in *. lia.
      + intros r Hr. destruct (H11 r Hr) as [Hg _]. destruct g1; discriminate.
  Qed.

  Lemma minv_reach files s : rtc mstep (minit files) s -> exists done failed, minv files done failed s.
  Proof.
    intros H. assert (G : forall s1, rtc mstep s1 s -> (exists d f, minv files d f s1) -> exists d f, minv files d f s).
    { clear H. intros s1 H. induction H as [|s1 s2 s3 Hst _ IH]; [auto|]. intros (d & f & Hi). apply IH. eapply minv_step; eauto. }
    apply (G _ H). exists [], []. apply minv_init.
  Qed.

  (** What Merge returns, in every schedule: the error of a file that fails, if there is one;
      otherwise the meshes of all files, one after the other in some order (nil if there is no file). *)
  Theorem C48_result files s r : rtc mstep (minit files) s -> main s = CReturn r ->
    ((exists f, In f files /\ fails f) -> exists e f, In f files /\ load f = inl e /\ r = (Some e, None)) /\
    ((forall f, In f files -> ~ fails f) -> exists order, Permutation order files /\
       r = (None, match files with [] => None | _ => Some (flat_map tris order) end)).
  Proof.
    intros Hr Hm. apply minv_reach in Hr as (done & failed & [H1 H2 H3 H4 H5 H6 H7 H8 H9 H10 H11]).
    destruct (H11 r Hm) as [Hg ->]. rewrite Hg, Hm in H1. cbn in H1. rewrite app_nil_r in H1. rewrite H4, H5. split.
    - intros (f & Hf & e & He).
      assert (Hin : In f failed).
      { apply (Permutation_in _ H1), in_app_iff in Hf as [Hf|Hf]; [|exact Hf]. rewrite List.Forall_forall in H2. destruct (H2 f Hf) as (t & Ht). congruence. }
      destruct failed as [|f0 failed0 _] using rev_ind; [destruct Hin|]. apply Forall_app in H3 as [_ H3]. apply Forall_cons in H3 as [[e0 He0] _].
      exists e0, f0. split; [apply (Permutation_in _ (Permutation_sym H1)), in_app_iff; right; apply in_app_iff; right; left; reflexivity|]. split; [exact He0|].
      rewrite (last_error_snoc _ _ _ He0). reflexivity.
    - intros Hnf. assert (failed = []).
      { destruct failed as [|f failed]; [reflexivity|]. exfalso. apply (Hnf f); [apply (Permutation_in _ (Permutation_sym H1)), in_app_iff; right; left; reflexivity|].
        apply Forall_cons in H3 as [H3 _]. exact H3. }
      subst failed. rewrite app_nil_r in H1. exists done. split; [symmetry; exact H1|]. cbn. f_equal. unfold joined.
      destruct done as [|d done]; [apply Permutation_sym, Permutation_nil in H1; subst; reflexivity|]. destruct files as [|f files]; [apply Permutation_nil in H1; discriminate|reflexivity].
  Qed.

  (** No deadlock with at least one worker. *)
  Lemma sum_pos f l : 0 < sum f l -> exists g, In g l /\ 0 < f g.
  Proof.
    induction l as [|g l IH]; [cbn; lia|]. cbn. intros H. destruct (f g) eqn:E.
    - destruct IH as (g' & Hg & Hp); [cbn in H; exact H|]. exists g'. auto.
    - exists g. split; [left; reflexivity|lia].
  Qed.

  Lemma gor_progress files done failed s : minv files done failed s -> (exists g, In g (gs s)) -> exists s', mstep s s'.
  Proof.
    intros [H1 H2 H3 H4 H5 H6 H7 H8 H9 H10 H11] (g & Hg). destruct s as [m c w l ms e gl]. cbn [main ch wg mu mesh mergeErr gs] in *.
    apply in_split in Hg as (g1 & g2 & ->).
    assert (Hc : (exists f t, g = GLock f t /\ l = true) \/ ~ (exists f t, g = GLock f t /\ l = true)).
    { destruct g; try (right; intros (? & ? & ? & _); discriminate). destruct l; [left; eauto|right; intros (? & ? & _ & ?); discriminate]. }
    destruct Hc as [(f & t & -> & ->)|Hc].
    - destruct (sum_pos critical (g1 ++ GLock f t :: g2)) as (g & Hg & Hp); [lia|]. apply in_split in Hg as (k1 & k2 & ->).
      destruct g; cbn in Hp; try lia; eexists; constructor.
    - destruct g as [f|f er|f t|f t| | |].
      + destruct (load f) eqn:E; eexists; [apply s_load_err|apply s_load_ok]; eassumption.
      + eexists. apply s_fail.
      + destruct l; [exfalso; apply Hc; eauto|]. eexists. apply s_lock.
      + eexists. apply s_addmesh.
      + eexists. apply s_unlock.
      + destruct c; [rewrite sum_app in H7; cbn in H7; lia|]. eexists. apply s_release.
      + destruct w; [rewrite app_length in H8; cbn in H8; lia|]. eexists. apply s_done.
  Qed.

  Theorem C48_no_deadlock files s : 1 <= workers -> rtc mstep (minit files) s ->
    (exists s', mstep s s') \/ exists r, main s = CReturn r.
  Proof.
    intros Hw Hr. apply minv_reach in Hr as (done & failed & Hi).
    destruct (gs s) as [|g gl] eqn:Eg; [|left; eapply gor_progress; [exact Hi|exists g; rewrite Eg; left; reflexivity]].
    destruct Hi as [H1 H2 H3 H4 H5 H6 H7 H8 H9 H10 H11]. destruct s as [m c w l ms e gl]. cbn [main ch wg mu mesh mergeErr gs] in *. subst gl. cbn in H7, H8.
    destruct m as [[|f fs]|f fs|f fs|r]; [left| | | |right; eauto].
    - replace w with 0 by lia. eexists. apply s_wait.
    - left. eexists. apply s_send. lia.
    - left. eexists. apply s_add.
    - left. eexists. apply s_go.
  Qed.

  (** At most [workers] files are being loaded at a time. *)
  Theorem C48_pool_bound files s : rtc mstep (minit files) s ->
    length (List.filter (fun g => match g with GDone => false | _ => true end) (gs s)) <= workers.
  Proof.
    intros Hr. apply minv_reach in Hr as (done & failed & [H1 H2 H3 H4 H5 H6 H7 H8 H9 H10 H11]).
    assert (E : length (List.filter (fun g => match g with GDone => false | _ => true end) (gs s)) = sum token (gs s)).
    { generalize (gs s) as l. induction l as [|g l IH]; [reflexivity|]. unfold sum in *. cbn. destruct g; cbn [token length]; rewrite ?IH; reflexivity. }
    lia.
  Qed.

  (** Every schedule ends, after at most nine steps per file and one. *)
  Definition gwork (g : gor) : nat :=
    match g with GLoad _ => 6 | GLock _ _ => 5 | GAdd _ _ => 4 | GUnlock => 3 | GFail _ _ => 3 | GRelease => 2 | GDone => 1 end.
  Definition work (s : mstate) : nat :=
    match main s with CLoop fs => 9 * length fs + 1 | CAdd _ fs => 9 * length fs + 9 | CGo _ fs => 9 * length fs + 8 | CReturn _ => 0 end + sum gwork (gs s).

  Lemma work_step s s' : mstep s s' -> work s' < work s.
  Proof. intros H. destruct H; unfold work; cbn [main gs length]; rewrite ?sum_app; unfold sum; cbn [fold_right gwork]; lia. Qed.

  Theorem C48_terminates files n s : nsteps mstep n (minit files) s -> n <= 9 * length files + 1.
  Proof.
    intros H. assert (G : forall n s1 s2, nsteps mstep n s1 s2 -> n + work s2 <= work s1).
    { clear H. intros n' s1 s2 H. induction H as [|n' s1 s2 s3 Hst _ IH]; [lia|]. apply work_step in Hst. lia. }
    apply G in H. unfold work in H at 2. cbn in H. lia.
  Qed.

  (** With no worker nothing ever happens once there is a file. *)
  Theorem C48_zero_workers f files s : workers = 0 -> rtc mstep (minit (f :: files)) s -> s = minit (f :: files).
  Proof.
    intros Hw H. inversion H as [|? s1 ? Hst _]; subst; [reflexivity|]. exfalso. inversion Hst; subst; try lia; destruct g1; discriminate.
  Qed.
End Merge.
Print Assumptions C48_result.
Print Assumptions C48_no_deadlock.
Print Assumptions C48_pool_bound.
Print Assumptions C48_terminates.
Print Assumptions C48_zero_workers.

(** Two workers and two files: a complete run, in which the second file gets the lock first. *)
Definition ex_load (f : nat) : nat + list nat := if Nat.eqb f 7 then inl 70 else inr [f; f].
Example C48_ex : exists s, rtc (mstep ex_load 2) (minit [1; 2]) s /\ main s = CReturn (None, Some [2; 2; 1; 1]).
Proof.
  eexists. split.
  - eapply rtc_l; [apply s_send; lia|]. eapply rtc_l; [apply s_add|]. eapply rtc_l; [apply s_go|].
    eapply rtc_l; [apply s_send; lia|]. eapply rtc_l; [apply s_add|]. eapply rtc_l; [apply s_go|]. cbn [app].
    eapply rtc_l; [apply (s_load_ok ex_load 2 _ _ _ _ _ _ [] _ 1); reflexivity|]. cbn [app].
    eapply rtc_l; [apply (s_load_ok ex_load 2 _ _ _ _ _ _ [_] _ 2); reflexivity|]. cbn [app].
    eapply rtc_l; [apply (s_lock ex_load 2 _ _ _ _ _ [_] [])|]. cbn [app].
    eapply rtc_l; [apply (s_addmesh ex_load 2 _ _ _ _ _ _ [_] [])|]. cbn [app].
    eapply rtc_l; [apply (s_unlock ex_load 2 _ _ _ _ _ _ [_] [])|]. cbn [app].
    eapply rtc_l; [apply (s_lock ex_load 2 _ _ _ _ _ [] [_])|]. cbn [app].
    eapply rtc_l; [apply (s_addmesh ex_load 2 _ _ _ _ _ _ [] [_])|]. cbn [app].
    eapply rtc_l; [apply (s_unlock ex_load 2 _ _ _ _ _ _ [] [_])|]. cbn [app].
    eapply rtc_l; [apply (s_release ex_load 2 _ _ _ _ _ _ [] [_])|]. cbn [app].
    eapply rtc_l; [apply (s_done ex_load 2 _ _ _ _ _ _ [] [_])|]. cbn [app].
    eapply rtc_l; [apply (s_release ex_load 2 _ _ _ _ _ _ [] [])|]. cbn [app].
    eapply rtc_l; [apply (s_done ex_load 2 _ _ _ _ _ _ [] [])|]. cbn [app].
    eapply rtc_l; [apply s_wait|]. apply rtc_refl.
  - reflexivity.
Qed.
