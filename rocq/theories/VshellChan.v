(** The two goroutines of the .vshell writer (vshell/write.go:65-105, 113-140) as an instance of
    Chan.v, with a writer that may fail at any call. *)
From Verif Require Import Base BaseLemmas BinvoxModel VshellModel VshellCodec Chan.
From Coq Require Import ZArith List Lia Bool Init.Byte.
From stdpp Require Import base relations list list_numbers gmap sets fin_sets.
Import ListNotations.
Open Scope Z_scope.

Definition senc_prog : Type := option (enc * list Z).

(** vshell/write.go:113-140, one iteration or channel operation per step.  The values are read from
    the shell, which nobody changes meanwhile, so the list of values stands for the keys to visit. *)
Definition senc_next (p : senc_prog) : action senc_prog (Z * Z) :=
  match p with
  | None => PClose                                                     (* line 141 *)
  | Some (e, []) =>
      if 0 <? e_count e then PSend (e_value e, e_count e) None          (* lines 138-140 *)
      else PTau None
  | Some (e, v :: vals) =>
      let '(e', out) := senc_step e v in
      match out with
      | Some r => PSend r (Some (e', vals))
      | None => PTau (Some (e', vals))
      end
  end.

(** Consecutive w.Write calls, the [i]-th of which has outcome [oracle i]. *)
Fixpoint do_writes (oracle : nat -> outcome) (ws : list (list byte)) (i : nat) (out : list byte)
  : option (nat * list byte) :=
  match ws with
  | [] => Some (i, out)
  | w :: ws' => match oracle i with
                | WOk => do_writes oracle ws' (S i) (out ++ w)
                | WErr _ => None
                end
  end.

(** vshell/write.go:69-102: the body of the range loop; [None] is the early [return 0, err]. *)
Definition swrite_body (oracle : nat -> outcome) (c : Z * nat * list byte) (r : Z * Z)
  : option (Z * nat * list byte) :=
  let '(numVoxels, i, out) := c in
  match do_writes oracle (run_writes r) i out with
  | Some (i', out') => Some (if special (fst r) then numVoxels else numVoxels + snd r, i', out')
  | None => None
  end.

Definition senc_measure (p : senc_prog) : nat :=
  match p with None => 0 | Some (_, vals) => S (length vals) end.

Lemma senc_measure_tau p p' : senc_next p = PTau p' -> (senc_measure p' < senc_measure p)%nat.
Proof.
  destruct p as [[e [|v vals]]|]; cbn [senc_next]; intros H; try discriminate.
  - destruct (0 <? e_count e); [discriminate|]. injection H as <-. cbn. lia.
  - destruct (senc_step e v) as [e' [r|]]; [discriminate|]. injection H as <-. cbn. lia.
Qed.

Lemma senc_measure_send p x p' : senc_next p = PSend x p' -> (senc_measure p' < senc_measure p)%nat.
Proof.
  destruct p as [[e [|v vals]]|]; cbn [senc_next]; intros H; try discriminate.
  - destruct (0 <? e_count e); [|discriminate]. injection H as <- <-. cbn. lia.
  - destruct (senc_step e v) as [e' [r|]]; [|discriminate]. injection H as <- <-. cbn. lia.
Qed.

Lemma senc_sends vals e : sends senc_next (Some (e, vals)) (senc_loop vals e).
Proof.
  revert e. induction vals as [|v vals IH]; intros e.
  - cbn [senc_loop]. destruct (0 <? e_count e) eqn:E.
    + eapply t_send; [cbn; rewrite E; reflexivity|]. apply t_close. reflexivity.
    + eapply t_tau; [cbn; rewrite E; reflexivity|]. apply t_close. reflexivity.
  - cbn [senc_loop]. destruct (senc_step e v) as [e' [r|]] eqn:E.
    + eapply t_send; [cbn; rewrite E; reflexivity|]. apply IH.
    + eapply t_tau; [cbn; rewrite E; reflexivity|]. apply IH.
Qed.

Lemma do_writes_ok oracle ws i out :
  (forall j, (i <= j < i + length ws)%nat -> oracle j = WOk) ->
  do_writes oracle ws i out = Some ((i + length ws)%nat, out ++ concat ws).
Proof.
  revert i out. induction ws as [|w ws IH]; intros i out H; cbn [do_writes length concat].
  - rewrite Nat.add_0_r, app_nil_r. reflexivity.
  - rewrite (H i) by (cbn; lia). rewrite IH by (intros j Hj; apply H; cbn; lia).
    rewrite <- app_assoc. f_equal. f_equal. lia.
Qed.

Lemma do_writes_fail oracle ws i out m :
  (exists j, (i <= j < i + length ws)%nat /\ oracle j = WErr m) -> do_writes oracle ws i out = None.
Proof.
  revert i out. induction ws as [|w ws IH]; intros i out (j & Hj & Ho); cbn [do_writes length] in *; [lia|].
  destruct (oracle i) eqn:E; [|reflexivity]. apply IH. exists j. split; [|exact Ho].
  assert (i <> j) by congruence. lia.
Qed.

Lemma sconsume_ok oracle rs n i out :
  (forall j, (i <= j < i + length (concat (map run_writes rs)))%nat -> oracle j = WOk) ->
  iter_body (swrite_body oracle) (n, i, out) rs
  = Some (fold_left (fun a r => if special (fst r) then a else a + snd r) rs n,
          (i + length (concat (map run_writes rs)))%nat, out ++ concat (concat (map run_writes rs))).
Proof.
  revert n i out. induction rs as [|r rs IH]; intros n i out H; cbn [iter_body fold_left map concat length] in *.
  - rewrite Nat.add_0_r, app_nil_r. reflexivity.
  - rewrite app_length in H. unfold swrite_body at 1. rewrite do_writes_ok by (intros; apply H; lia).
    rewrite IH by (intros; apply H; lia). rewrite app_length, concat_app, app_assoc, Nat.add_assoc. reflexivity.
Qed.

Lemma iter_consume {A C : Type} (body : C -> A -> option C) xs c c' :
  iter_body body c xs = Some c' -> consume_all body c xs = Finished c'.
Proof.
  revert c. induction xs as [|x xs IH]; intros c H; cbn in *; [congruence|].
  destruct (body c x); [auto|discriminate].
Qed.

(** The run whose writes meet the first failure. *)
Lemma first_fault oracle rs n i out :
  (exists j m, (i <= j < i + length (concat (map run_writes rs)))%nat /\ oracle j = WErr m) ->
  exists d r ys c', rs = d ++ r :: ys /\
    iter_body (swrite_body oracle) (n, i, out) d = Some c' /\ swrite_body oracle c' r = None.
Proof.
  revert n i out. induction rs as [|r rs IH]; intros n i out (j & m & Hj & Ho); cbn [map concat length] in *; [lia|].
  rewrite app_length in Hj.
  destruct (swrite_body oracle (n, i, out) r) as [[[n' i'] out']|] eqn:E.
  - assert (Hi : i' = (i + length (run_writes r))%nat /\ (i' <= j)%nat).
    { unfold swrite_body in E.
      assert (Hall : forall ws i out i' out', do_writes oracle ws i out = Some (i', out') ->
                i' = (i + length ws)%nat /\ forall j, (i <= j < i + length ws)%nat -> oracle j = WOk).
      { clear. induction ws as [|w ws IH]; intros i out i' out' H; cbn [do_writes length] in *.
        - injection H as <- <-. split; [lia|intros; lia].
        - destruct (oracle i) eqn:E; [|discriminate]. apply IH in H as [-> H]. split; [lia|].
          intros j Hj. destruct (Nat.eq_dec i j) as [<-|]; [exact E|]. apply H. lia. }
      destruct (do_writes oracle (run_writes r) i out) as [[i1 o1]|] eqn:Ed; [|discriminate].
      destruct (Hall _ _ _ _ _ Ed) as [H1 H2]. injection E as _ <- _. subst i1. split; [reflexivity|].
      destruct (Nat.le_gt_cases (i + length (run_writes r)) j); [assumption|].
      rewrite H2 in Ho by lia. discriminate. }
    destruct Hi as [-> Hle].
    destruct (IH n' (i + length (run_writes r))%nat out') as (d & r1 & ys & c' & -> & Hd & Hf).
    { exists j, m. split; [lia|exact Ho]. }
    exists (r :: d), r1, ys, c'. split; [reflexivity|]. split; [|exact Hf]. cbn [iter_body]. rewrite E. exact Hd.
  - exists [], r, rs, (n, i, out). split; [reflexivity|]. split; [reflexivity|exact E].
Qed.

Section Sched.
  Context {F : Type} (ft : FloatText F).
  Context (vs : gshell F) (sx sy sz nx ny nz : Z) (cap : nat) (oracle : nat -> outcome).

  Let nx' := default_dim nx (sNX vs).
  Let ny' := default_dim ny (sNY vs).
  Let nz' := default_dim nz (sNZ vs).

  (** The two goroutines right after line 66. *)
  Definition swriter_init : sys senc_prog (Z * Z) (Z * nat * list byte) :=
    init (Some (Enc 0 0, svalues (Voxels vs) sx sy sz nx' ny' nz')) (0, 0%nat, []).

  Definition swriter_step := step senc_next (swrite_body oracle) cap.

  Lemma swriter_sends :
    sends senc_next (Some (Enc 0 0, svalues (Voxels vs) sx sy sz nx' ny' nz'))
      (sencode (Voxels vs) sx sy sz nx' ny' nz').
  Proof. apply senc_sends. Qed.

  Lemma swriter_final s : Voxels vs <> [] ->
    (forall i, oracle i = WOk) ->
    rtc swriter_step swriter_init s -> (forall s', ~ swriter_step s s') ->
    prod s = None /\ buf s = [] /\
    exists h ws n, swrite ft vs sx sy sz nx ny nz = (h :: ws, n) /\
                   cons_ s = Finished (n, length ws, concat ws).
  Proof.
    intros Hne Ho Hs Hno.
    destruct (no_deadlock _ _ _ _ _ _ _ swriter_sends Hs Hno) as [Hc Hf].
    pose proof (sconsume_ok oracle (sencode (Voxels vs) sx sy sz nx' ny' nz') 0 0 [] ltac:(auto)) as Hi.
    apply iter_consume in Hi. rewrite Hi in Hc. destruct (Hf _ Hc) as [Hp Hb].
    split; [exact Hp|]. split; [exact Hb|].
    unfold swrite. destruct (Voxels vs) eqn:EV; [contradiction|].
    do 3 eexists. split; [reflexivity|]. exact Hc.
  Qed.

  Lemma swriter_fault s i m : Voxels vs <> [] ->
    (S i < length (fst (swrite ft vs sx sy sz nx ny nz)))%nat -> oracle i = WErr m ->
    rtc swriter_step swriter_init s -> (forall s', ~ swriter_step s s') ->
    exists c r d ys, cons_ s = Failed c r /\
      sencode (Voxels vs) sx sy sz nx' ny' nz' = d ++ r :: ys /\
      iter_body (swrite_body oracle) (0, 0%nat, []) d = Some c /\
      swrite_body oracle c r = None /\
      (prod s = None <-> (length ys <= cap)%nat).
  Proof.
    intros Hne Hi Ho Hs Hno.
    destruct (first_fault oracle (sencode (Voxels vs) sx sy sz nx' ny' nz') 0 0 []) as (d & r & ys & c' & E & Hd & Hf).
    { exists i, m. split; [|exact Ho]. revert Hi. unfold swrite. destruct (Voxels vs) eqn:EV; [contradiction|].
      cbn [fst length]. fold nx' ny' nz'. lia. }
    pose proof swriter_sends as Hx. rewrite E in Hx.
    destruct (producer_leak _ _ _ _ _ _ _ _ _ _ Hx Hd Hf Hs Hno) as [Hc Hp].
    exists c', r, d, ys. auto.
  Qed.

  Lemma swriter_bounded n s :
    nsteps swriter_step n swriter_init s ->
    (n <= 2 * length (svalues (Voxels vs) sx sy sz nx' ny' nz') + 6)%nat.
  Proof.
    intros H. apply (bounded_schedules _ _ _ senc_measure) in H.
    - unfold measure in H. cbn [swriter_init init prod buf cons_ senc_measure length] in H. lia.
    - apply senc_measure_tau.
    - apply senc_measure_send.
  Qed.
End Sched.
