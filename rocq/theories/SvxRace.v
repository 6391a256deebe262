(** C46: the race of cmd/stl2svx.  generateMR(.., true) runs in a goroutine, and releases its caller
    (wg.Done, stl2svx.go:185) before it creates the zip file and writes the manifest into it
    (stl2svx.go:186-199).  From there two threads use the same zip.Writer:

      G: zipFile = zip.NewWriter; mf = Create("manifest.xml"); Write(mf)        stl2svx.go:360-367
      M: for each image, f = Create(name); Write(f), ..., Write(f); at last Close  stl2svx.go:71-73, 84-104, 325-334

    Simplified: every call is one atomic step, and the process ends with M's Close (after which main
    only logs); os.Create succeeds.  archive/zip: Create closes the entry before it; a Write to a
    closed entry only returns an error, which fmt.Fprint's caller ignores and png.Encode's caller
    logs; any use of the nil writer panics. *)
From Coq Require Import List Lia Bool PeanoNat.
Import ListNotations.

Section Race.
  Context {name chunk : Type} (man : name) (mtext : chunk).

  (** The directory of a zip.Writer: each entry and what has been written to it. *)
  Definition dir := list (name * list chunk).

  Inductive op := NewWriter | Create (n : name) | Write (c : chunk) | Close.

  (** zipFile, and the handle (position in the directory) that each thread got from its last Create. *)
  Record rstate := RState { zip : option dir; gh : option nat; mh : option nat }.

  Definition write_entry (d : dir) (h : option nat) (c : chunk) : dir :=
    match h, rev d with
    | Some h, (n, cs) :: r => if (S h =? length d)%nat then rev r ++ [(n, cs ++ [c])] else d
    | _, _ => d
    end.

  (** One step of G ([true]) or M ([false]); [None]: panic. *)
  Definition do_op (g : bool) (o : op) (s : rstate) : option rstate :=
    match o, zip s with
    | NewWriter, _ => Some (RState (Some []) (gh s) (mh s))
    | _, None => None
    | Create n, Some d => let h := Some (length d) in
        Some (RState (Some (d ++ [(n, [])])) (if g then h else gh s) (if g then mh s else h))
    | Write c, Some d => Some (RState (Some (write_entry d (if g then gh s else mh s) c)) (gh s) (mh s))
    | Close, Some d => Some s
    end.

  Inductive outcome := Running (s : rstate) (gp mp : list op) | Panicked | Finished (d : dir).

  (** A schedule says which thread takes the next step; a thread that has ended skips its turn. *)
  Fixpoint exec (sched : list bool) (s : rstate) (gp mp : list op) : outcome :=
    match sched with
    | [] => Running s gp mp
    | true :: r =>
        match gp with
        | [] => exec r s gp mp
        | o :: gp' => match do_op true o s with None => Panicked | Some s' => exec r s' gp' mp end
        end
    | false :: r =>
        match mp with
        | [] => exec r s gp mp
        | Close :: _ => match zip s with None => Panicked | Some d => Finished d end
        | o :: mp' => match do_op false o s with None => Panicked | Some s' => exec r s' gp mp' end
        end
    end.

  (** cmd/stl2svx/stl2svx.go:337-368 writeManifest. *)
  Definition manifest_prog : list op := [NewWriter; Create man; Write mtext].

  (** cmd/stl2svx/stl2svx.go:84-104, 325-334 (each image) and 71 (Close). *)
  Definition image_prog (f : name * list chunk) : list op := Create (fst f) :: map Write (snd f).
  Definition images_prog (fs : dir) : list op := flat_map image_prog fs ++ [Close].

  Definition run (sched : list bool) (files : dir) : outcome :=
    exec sched (RState None None None) manifest_prog (images_prog files).

  (** The number of steps that G makes before the first step of M. *)
  Fixpoint head_start (sched : list bool) : nat := match sched with true :: r => S (head_start r) | _ => 0 end.

  (** ** Proofs *)

  Lemma write_last d n cs c : write_entry (d ++ [(n, cs)]) (Some (length d)) c = d ++ [(n, cs ++ [c])].
  Proof.
    unfold write_entry. rewrite rev_app_distr. cbn [rev app]. rewrite app_length. cbn [length]. rewrite Nat.add_1_r, Nat.eqb_refl, rev_involutive. reflexivity.
  Qed.

  Lemma write_stale d h c : S h < length d -> write_entry d (Some h) c = d.
  Proof. intros H. unfold write_entry. destruct (rev d) as [|[n cs] r]; [reflexivity|]. destruct (Nat.eqb_spec (S h) (length d)); [lia|reflexivity]. Qed.

  Lemma images_prog_cons n cs fs : images_prog ((n, cs) :: fs) = Create n :: map Write cs ++ images_prog fs.
  Proof. unfold images_prog. cbn [flat_map image_prog fst snd app]. rewrite <- app_assoc. reflexivity. Qed.

  Definition harmless (s : rstate) (gp : list op) : Prop :=
    gp = [] \/ gp = [Write mtext] /\ exists h d, gh s = Some h /\ zip s = Some d /\ S h < length d.

  (** M writes the last entry, G can do no more harm. *)
  Lemma exec_alone sched : forall s gp done n cs1 cs2 fs,
    zip s = Some (done ++ [(n, cs1)]) -> mh s = Some (length done) -> harmless s gp ->
    match exec sched s gp (map Write cs2 ++ images_prog fs) with
    | Panicked => False | Running _ _ _ => True | Finished d => d = done ++ (n, cs1 ++ cs2) :: fs
    end.
  Proof.
    induction sched as [|b sched IH]; intros s gp done n cs1 cs2 fs Hz Hm Hg; [exact I|]. destruct b; cbn [exec].
    - destruct Hg as [->|(-> & h & d & Hh & Hd & Hlt)]; [apply IH; [assumption..|left; reflexivity]|].
      cbn [do_op]. rewrite Hd. rewrite Hh, write_stale by exact Hlt. apply IH; cbn [zip mh]; [congruence|exact Hm|left; reflexivity].
    - destruct cs2 as [|c cs2].
      + rewrite app_nil_r. destruct fs as [|[n' cs'] fs].
        * cbn. rewrite Hz. reflexivity.
        * rewrite images_prog_cons. cbn [map app do_op]. rewrite Hz.
          pose proof (IH (RState (Some ((done ++ [(n, cs1)]) ++ [(n', [])])) (gh s) (Some (length (done ++ [(n, cs1)])))) gp (done ++ [(n, cs1)]) n' [] cs' fs eq_refl eq_refl) as H.
          lapply H; clear H.
          -- intros H. destruct (exec _ _ _ _); auto. rewrite H, <- app_assoc. reflexivity.
          -- destruct Hg as [->|(-> & h & d & Hh & Hd & Hlt)]; [left; reflexivity|right]. split; [reflexivity|].
             exists h, ((done ++ [(n, cs1)]) ++ [(n', [])]). split; [exact Hh|]. split; [reflexivity|]. rewrite app_length. rewrite Hz in Hd. injection Hd as <-. lia.
      + cbn [map app do_op]. rewrite Hz, Hm, write_last.
        pose proof (IH (RState (Some (done ++ [(n, cs1 ++ [c])])) (gh s) (Some (length done))) gp done n (cs1 ++ [c]) cs2 fs eq_refl eq_refl) as H.
        lapply H; clear H.
        -- intros H. destruct (exec _ _ _ _); auto. rewrite H, <- app_assoc. reflexivity.
        -- destruct Hg as [->|(-> & h & d & Hh & Hd & Hlt)]; [left; reflexivity|right]. split; [reflexivity|]. exists h, (done ++ [(n, cs1 ++ [c])]).
           split; [exact Hh|]. split; [reflexivity|]. rewrite Hz in Hd. injection Hd as <-. rewrite app_length in *. exact Hlt.
  Qed.

  (** G has just taken the writer away from M. *)
  Lemma exec_stolen sched : forall s gp pre mc h cs2 fs,
    zip s = Some (pre ++ [(man, mc)]) -> mh s = Some h -> h < length pre ->
    gp = [] \/ gp = [Write mtext] /\ gh s = Some (length pre) /\ mc = [] ->
    match exec sched s gp (map Write cs2 ++ images_prog fs) with
    | Panicked => False | Running _ _ _ => True
    | Finished d => exists mc', (mc' = mc \/ mc' = [mtext]) /\ d = pre ++ (man, mc') :: fs
    end.
  Proof.
    induction sched as [|b sched IH]; intros s gp pre mc h cs2 fs Hz Hm Hlt Hg; [exact I|]. destruct b; cbn [exec].
    - destruct Hg as [->|(-> & Hh & ->)]; [eapply IH; eauto|]. cbn [do_op]. rewrite Hz, Hh, write_last. cbn [app].
      pose proof (IH (RState (Some (pre ++ [(man, [mtext])])) (Some (length pre)) (mh s)) [] pre [mtext] h cs2 fs eq_refl Hm Hlt (or_introl eq_refl)) as H.
      destruct (exec _ _ _ _); auto. destruct H as (mc' & Hmc & ->). exists mc'. split; [tauto|reflexivity].
    - destruct cs2 as [|c cs2].
      + destruct fs as [|[n' cs'] fs].
        * cbn. rewrite Hz. exists mc. split; [left; reflexivity|reflexivity].
        * rewrite images_prog_cons. cbn [map app do_op]. rewrite Hz.
          pose proof (exec_alone sched (RState (Some ((pre ++ [(man, mc)]) ++ [(n', [])])) (gh s) (Some (length (pre ++ [(man, mc)])))) gp (pre ++ [(man, mc)]) n' [] cs' fs eq_refl eq_refl) as H.
          lapply H; clear H.
          -- intros H. destruct (exec _ _ _ _); auto. rewrite H. exists mc. split; [left; reflexivity|]. rewrite <- app_assoc. reflexivity.
          -- destruct Hg as [->|(-> & Hh & ->)]; [left; reflexivity|right]. split; [reflexivity|]. exists (length pre), ((pre ++ [(man, [])]) ++ [(n', [])]).
             split; [exact Hh|]. split; [reflexivity|]. rewrite !app_length. cbn [length]. lia.
      + cbn [map app do_op]. rewrite Hz, Hm, write_stale by (rewrite app_length; cbn [length]; lia).
        apply (IH (RState (Some (pre ++ [(man, mc)])) (gh s) (Some h)) gp pre mc h cs2 fs eq_refl eq_refl Hlt Hg).
  Qed.

  (** Where the manifest ends up when M is faster: nowhere, or behind some entry, which it truncates. *)
  Definition misplaced (files d : dir) : Prop :=
    d = files \/
    exists pre n cs cs' post mc, files = pre ++ (n, cs) :: post /\ (exists rest, cs = cs' ++ rest) /\ (mc = [] \/ mc = [mtext]) /\
      d = pre ++ (n, cs') :: (man, mc) :: post.

  Lemma misplaced_cons f files d : misplaced files d -> misplaced (f :: files) (f :: d).
  Proof.
    intros [->|(pre & n & cs & cs' & post & mc & -> & H1 & H2 & ->)]; [left; reflexivity|right].
    exists (f :: pre), n, cs, cs', post, mc. auto.
  Qed.

  Lemma misplaced_app l files d : misplaced files d -> misplaced (l ++ files) (l ++ d).
  Proof. intros H. induction l as [|f l IH]; [exact H|]. apply misplaced_cons, IH. Qed.

  Lemma exec_race sched : forall s done n cs1 cs2 fs,
    zip s = Some (done ++ [(n, cs1)]) -> mh s = Some (length done) ->
    match exec sched s [Create man; Write mtext] (map Write cs2 ++ images_prog fs) with
    | Panicked => False | Running _ _ _ => True | Finished d => misplaced (done ++ (n, cs1 ++ cs2) :: fs) d
    end.
  Proof.
    induction sched as [|b sched IH]; intros s done n cs1 cs2 fs Hz Hm; [exact I|]. destruct b; cbn [exec].
    - cbn [do_op]. rewrite Hz.
      pose proof (exec_stolen sched (RState (Some ((done ++ [(n, cs1)]) ++ [(man, [])])) (Some (length (done ++ [(n, cs1)]))) (mh s)) [Write mtext] (done ++ [(n, cs1)]) [] (length done) cs2 fs eq_refl Hm) as H.
      lapply H; clear H; [intros H; lapply H; clear H|rewrite app_length; cbn [length]; lia]; [|right; auto].
      intros H. destruct (exec _ _ _ _); auto. destruct H as (mc & Hmc & ->). right. exists done, n, (cs1 ++ cs2), cs1, fs, mc.
      split; [reflexivity|]. split; [exists cs2; reflexivity|]. split; [exact Hmc|]. rewrite <- app_assoc. reflexivity.
    - destruct cs2 as [|c cs2].
      + rewrite app_nil_r. destruct fs as [|[n' cs'] fs].
        * cbn. rewrite Hz. left. reflexivity.
        * rewrite images_prog_cons. cbn [map app do_op]. rewrite Hz.
          pose proof (IH (RState (Some ((done ++ [(n, cs1)]) ++ [(n', [])])) (gh s) (Some (length (done ++ [(n, cs1)])))) (done ++ [(n, cs1)]) n' [] cs' fs eq_refl eq_refl) as H.
          destruct (exec _ _ _ _); auto. cbn [app] in H. rewrite <- app_assoc in H. exact H.
      + cbn [map app do_op]. rewrite Hz, Hm, write_last.
        pose proof (IH (RState (Some (done ++ [(n, cs1 ++ [c])])) (gh s) (Some (length done))) done n (cs1 ++ [c]) cs2 fs eq_refl eq_refl) as H.
        destruct (exec _ _ _ _); auto. rewrite <- app_assoc in H. exact H.
  Qed.

  Lemma exec_idle k sched s mp : exec (repeat true k ++ sched) s [] mp = exec sched s [] mp.
  Proof. induction k as [|k IH]; [reflexivity|]. exact IH. Qed.

  Lemma head_start_split sched : (exists r, sched = repeat true (head_start sched) ++ false :: r) \/ sched = repeat true (head_start sched).
  Proof.
    induction sched as [|[] sched IH]; [right; reflexivity| |left; exists sched; reflexivity].
    cbn [head_start]. destruct IH as [(r & E)|E]; [left; exists r|right]; cbn [repeat app]; congruence.
  Qed.

  (** The outcome of every schedule is decided by how many of its three steps G makes before M's first. *)
  Theorem C46_outcome sched n cs fs : let files := (n, cs) :: fs in
    (run sched files = Panicked <-> head_start sched = 0 /\ sched <> []) /\
    forall d, run sched files = Finished d ->
      match head_start sched with
      | 0 => False
      | 1 => misplaced files d
      | 2 => d = (man, []) :: files
      | _ => d = (man, [mtext]) :: files
      end.
  Proof.
    intros files. unfold run, files. rewrite images_prog_cons.
    destruct (head_start_split sched) as [(r & E)|E].
    - set (hs := head_start sched) in *. destruct hs as [|[|[|hs]]]; cbn [repeat app] in E; rewrite E; cbn [exec manifest_prog do_op zip].
      + split; [split; [split; [reflexivity|discriminate]|reflexivity]|discriminate].
      + pose proof (exec_race r (RState (Some ([] ++ [(n, [])])) None (Some 0)) [] n [] cs fs eq_refl eq_refl) as H. cbn [app length] in *.
        destruct (exec _ _ _ _); [|destruct H|]; (split; [split; [discriminate|intros [? _]; discriminate]|]); [discriminate|]. intros d' [= <-]. exact H.
      + cbn [app length gh mh].
        pose proof (exec_alone r (RState (Some ([(man, [])] ++ [(n, [])])) (Some 0) (Some 1)) [Write mtext] [(man, [])] n [] cs fs eq_refl eq_refl) as H.
        lapply H; clear H; [intros H|right; split; [reflexivity|]; exists 0, [(man, []); (n, [])]; cbn; auto]. cbn [app] in H.
        destruct (exec _ _ _ _); [|destruct H|]; (split; [split; [discriminate|intros [? _]; discriminate]|]); [discriminate|]. intros d' [= <-]. exact H.
      + cbn [app length gh mh write_entry rev Nat.eqb]. rewrite exec_idle. cbn [exec do_op zip gh mh app length].
        pose proof (exec_alone r (RState (Some ([(man, [mtext])] ++ [(n, [])])) (Some 0) (Some 1)) [] [(man, [mtext])] n [] cs fs eq_refl eq_refl (or_introl eq_refl)) as H. cbn [app] in H.
        destruct (exec _ _ _ _); [|destruct H|]; (split; [split; [discriminate|intros [? _]; discriminate]|]); [discriminate|]. intros d' [= <-]. exact H.
    - set (hs := head_start sched) in *. destruct hs as [|[|[|hs]]]; cbn [repeat app] in E; rewrite E; cbn [exec manifest_prog do_op zip].
      + split; [split; [discriminate|intros [_ []]; reflexivity]|discriminate].
      + split; [split; [discriminate|intros [? _]; discriminate]|discriminate].
      + split; [split; [discriminate|intros [? _]; discriminate]|discriminate].
      + rewrite <- (app_nil_r (repeat true hs)), exec_idle. cbn [exec]. split; [split; [discriminate|intros [? _]; discriminate]|discriminate].
  Qed.

  (** In particular the archive is the intended one iff the manifest is written before M's first step. *)
  Theorem C46_complete sched n cs fs d : let files := (n, cs) :: fs in
    (forall f, In f files -> fst f <> man) ->
    run sched files = Finished d -> (d = (man, [mtext]) :: files <-> 3 <= head_start sched).
  Proof.
    intros files Hne Hr. pose proof (proj2 (C46_outcome sched n cs fs) d Hr) as H. fold files in H.
    assert (Hfst : fst (n, cs) <> man) by (apply Hne; left; reflexivity). cbn [fst] in Hfst.
    destruct (head_start sched) as [|[|[|k]]].
    - destruct H.
    - split; [|lia]. intros ->. exfalso. destruct H as [H|(pre & n' & c & c' & post & mc & Ef & _ & _ & H)]; [unfold files in H; congruence|].
      destruct pre as [|p pre]; cbn [app] in *; [|unfold files in Ef; congruence]. assert (n' = n) by (unfold files in Ef; congruence). congruence.
    - split; [|lia]. intros ->. discriminate H.
    - split; [lia|]. intros _. exact H.
  Qed.

  (** M always finishes if it is given its turns, unless it panics. *)
  Theorem C46_schedules k fs : k <= 3 -> fs <> [] ->
    exists sched, head_start sched = k /\ (k = 0 /\ run sched fs = Panicked \/ 0 < k /\ exists d, run sched fs = Finished d).
  Proof.
    intros Hk Hf. exists (repeat true k ++ repeat false (length (images_prog fs))).
    assert (Hl : exists l, length (images_prog fs) = S l).
    { destruct fs as [|[n cs] fs]; [congruence|]. rewrite images_prog_cons. eexists. reflexivity. }
    split.
    { destruct Hl as (l & ->). clear. induction k as [|k IH]; [reflexivity|]. cbn [repeat app head_start]. f_equal. exact IH. }
    assert (Hfin : forall mp s gp z, zip s = Some z -> (forall o, In o mp -> o <> Close) -> (forall o, In o mp -> o <> NewWriter) ->
      exists d, exec (repeat false (length (mp ++ [Close]))) s gp (mp ++ [Close]) = Finished d).
    { induction mp as [|o mp IH]; intros s gp z Hz H1 H2; [cbn; rewrite Hz; eauto|].
      destruct o as [|n|c|]; [destruct (H2 NewWriter); [left|]; reflexivity| | |destruct (H1 Close); [left|]; reflexivity];
        cbn [app length repeat exec do_op]; rewrite Hz; eapply IH; cbn [zip]; try reflexivity; intros o Ho; [apply H1|apply H2|apply H1|apply H2]; right; exact Ho. }
    assert (Hops : forall o, In o (flat_map image_prog fs) -> o <> Close /\ o <> NewWriter).
    { intros o Ho. apply in_flat_map in Ho as (f & _ & [<-|Ho]); [split; discriminate|]. apply in_map_iff in Ho as (c & <- & _). split; discriminate. }
    destruct k as [|[|[|[|k]]]]; [left|right..|lia].
    - split; [reflexivity|]. destruct Hl as (l & Hl). unfold run. rewrite Hl. destruct fs as [|[n cs] fs]; [congruence|]. reflexivity.
    - split; [lia|]. unfold run, images_prog. cbn [repeat app exec manifest_prog do_op zip]. eapply Hfin; [reflexivity|intros o Ho; apply Hops, Ho..].
    - split; [lia|]. unfold run, images_prog. cbn [repeat app exec manifest_prog do_op zip]. eapply Hfin; [reflexivity|intros o Ho; apply Hops, Ho..].
    - split; [lia|]. unfold run, images_prog. cbn [repeat app exec manifest_prog do_op zip]. eapply Hfin; [reflexivity|intros o Ho; apply Hops, Ho..].
  Qed.
End Race.
Arguments Panicked {name chunk}. Arguments Finished {name chunk}. Arguments Running {name chunk}.
Print Assumptions C46_outcome.
Print Assumptions C46_complete.
Print Assumptions C46_schedules.

(** A run that truncates an image: G creates the manifest between the two writes of image 1. *)
Example C46_truncated_ex : run 0 70 [true; false; false; true; false; true; false; false; false] [(1, [11; 12]); (2, [21])]
  = Finished [(1, [11]); (0, [70]); (2, [21])].
Proof. reflexivity. Qed.
Example C46_intended_ex : run 0 70 [true; true; true; false; false; false; false; false; false] [(1, [11; 12]); (2, [21])]
  = Finished [(0, [70]); (1, [11; 12]); (2, [21])].
Proof. reflexivity. Qed.
