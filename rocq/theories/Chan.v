(** A producer goroutine that sends on a channel and closes it, and a consumer that ranges over it:
    the concurrency pattern of binvox/write.go:60-79 and vshell/write.go.

    The producer is any deterministic program; the consumer's loop body is any function that may
    return early ([None]).  The channel has an arbitrary capacity; a send may also meet a waiting
    receiver directly, which covers capacity 0. *)
From Coq Require Import List Lia Arith.
From stdpp Require Import base relations list.
Import ListNotations.

Section Chan.
  Context {P A C : Type}.

  (** What a producer does next. *)
  Inductive action := PTau (p : P) | PSend (x : A) (p : P) | PClose.

  Context (next : P -> action).
  Context (body : C -> A -> option C).
  Context (cap : nat).

  Inductive consumer := Running (c : C) | Finished (c : C) | Failed (c : C) (x : A).

  Record sys := Sys {
    prod : option P;        (* None: channel closed, goroutine gone *)
    buf : list A;           (* channel contents, oldest first *)
    cons_ : consumer
  }.

  Definition consume (c : C) (x : A) : consumer :=
    match body c x with Some c' => Running c' | None => Failed c x end.

  (** One step of one goroutine; a schedule is any sequence of steps. *)
  Inductive step : sys -> sys -> Prop :=
  | s_tau p p' b k : next p = PTau p' -> step (Sys (Some p) b k) (Sys (Some p') b k)
  | s_send p p' x b k : next p = PSend x p' -> length b < cap ->
      step (Sys (Some p) b k) (Sys (Some p') (b ++ [x]) k)
  | s_handoff p p' x c : next p = PSend x p' ->
      step (Sys (Some p) [] (Running c)) (Sys (Some p') [] (consume c x))
  | s_close p b k : next p = PClose -> step (Sys (Some p) b k) (Sys None b k)
  | s_recv q x b c : step (Sys q (x :: b) (Running c)) (Sys q b (consume c x))
  | s_end c : step (Sys None [] (Running c)) (Sys None [] (Finished c)).

  (** The items a producer sends when run alone. *)
  Inductive sends : P -> list A -> Prop :=
  | t_tau p p' xs : next p = PTau p' -> sends p' xs -> sends p xs
  | t_send p p' x xs : next p = PSend x p' -> sends p' xs -> sends p (x :: xs)
  | t_close p : next p = PClose -> sends p [].

  (** The sequential meaning of the consumer. *)
  Fixpoint consume_all (c : C) (xs : list A) : consumer :=
    match xs with
    | [] => Finished c
    | x :: xs' => match body c x with Some c' => consume_all c' xs' | None => Failed c x end
    end.

  Definition init (p : P) (c : C) : sys := Sys (Some p) [] (Running c).

  Definition left_to_send (q : option P) (xs : list A) : Prop :=
    match q with None => xs = [] | Some p => sends p xs end.

  (** What the whole run will produce is determined in every reachable state. *)
  Definition Inv (r : consumer) (s : sys) : Prop :=
    exists rest, left_to_send (prod s) rest /\
      match cons_ s with
      | Running c => consume_all c (buf s ++ rest) = r
      | k => k = r
      end.

  Lemma sends_inv p xs : sends p xs ->
    match next p with
    | PTau p' => sends p' xs
    | PSend x p' => exists xs', xs = x :: xs' /\ sends p' xs'
    | PClose => xs = []
    end.
  Proof. destruct 1 as [p p' xs E H|p p' x xs E H|p E]; rewrite E; eauto. Qed.

  Lemma Inv_step r s s' : Inv r s -> step s s' -> Inv r s'.
  Proof.
    intros (rest & Hl & Hk) Hs. unfold Inv.
    destruct Hs as [p p' b k E|p p' x b k E Hc|p p' x c E|p b k E|q x b c|c]; cbn [prod buf cons_] in *.
    - apply sends_inv in Hl. rewrite E in Hl. exists rest. auto.
    - apply sends_inv in Hl. rewrite E in Hl. destruct Hl as (xs' & -> & Hl).
      exists xs'. split; [exact Hl|]. destruct k; try exact Hk. rewrite <- app_assoc. exact Hk.
    - apply sends_inv in Hl. rewrite E in Hl. destruct Hl as (xs' & -> & Hl).
      exists xs'. split; [exact Hl|]. cbn [app consume_all] in Hk. unfold consume.
      destruct (body c x); exact Hk.
    - apply sends_inv in Hl. rewrite E in Hl. subst rest. exists []. split; [reflexivity|exact Hk].
    - exists rest. split; [exact Hl|]. cbn [app consume_all] in Hk. unfold consume.
      destruct (body c x); exact Hk.
    - cbn in Hl. exists []. subst rest. split; [reflexivity|exact Hk].
  Qed.

  Lemma Inv_init p c xs : sends p xs -> Inv (consume_all c xs) (init p c).
  Proof. intros H. exists xs. split; [exact H|reflexivity]. Qed.

  Lemma Inv_steps r s s' : Inv r s -> rtc step s s' -> Inv r s'.
  Proof. intros HI H. induction H; [assumption|]. eauto using Inv_step. Qed.

  (** Result independence of the schedule. *)
  Lemma schedule_result p c xs s : sends p xs -> rtc step (init p c) s ->
    match cons_ s with Running _ => True | k => k = consume_all c xs end.
  Proof.
    intros Hx Hs. apply (Inv_steps _ _ _ (Inv_init p c xs Hx)) in Hs as (rest & _ & Hk).
    destruct (cons_ s); auto.
  Qed.

  (** No deadlock: a state without successor has a consumer that is done; if it did not fail the
      producer is gone as well. *)
  Lemma no_deadlock p c xs s : sends p xs -> rtc step (init p c) s ->
    (forall s', ~ step s s') ->
    cons_ s = consume_all c xs /\
    (forall c', cons_ s = Finished c' -> prod s = None /\ buf s = []).
  Proof.
    intros Hx Hs Hno. pose proof (schedule_result _ _ _ _ Hx Hs) as Hr.
    assert (HI := Inv_steps _ _ _ (Inv_init p c xs Hx) Hs).
    assert (Hdone : forall s, rtc step (init p c) s -> forall c', cons_ s = Finished c' -> prod s = None /\ buf s = []).
    { clear. intros s Hs. revert Hs.
      apply (rtc_ind_r (fun s => forall c', cons_ s = Finished c' -> prod s = None /\ buf s = []) (init p c)).
      - intros c' E. discriminate.
      - intros y z _ Hst IH c' E.
        destruct Hst as [p0 p' b k E0|p0 p' x b k E0 Hc|p0 p' x c0 E0|p0 b k E0|q x b c0|c0];
          cbn [prod buf cons_] in *.
        + destruct (IH _ E); discriminate.
        + destruct (IH _ E); discriminate.
        + unfold consume in E. destruct (body _ _); discriminate.
        + destruct (IH _ E); auto.
        + unfold consume in E. destruct (body _ _); discriminate.
        + auto. }
    split; [|apply Hdone, Hs].
    destruct s as [q b k]. cbn [prod buf cons_] in *.
    destruct k as [c0|c0|c0 x0]; [exfalso|exact Hr|exact Hr].
    destruct b as [|x b].
    - destruct q as [p0|].
      + destruct HI as (rest & Hl & _). cbn [prod left_to_send] in Hl. apply sends_inv in Hl.
        destruct (next p0) as [p'|x p'|] eqn:E.
        * eapply Hno. apply s_tau, E.
        * eapply Hno. eapply s_handoff, E.
        * eapply Hno. apply s_close, E.
      + eapply Hno. apply s_end.
    - eapply Hno. apply s_recv.
  Qed.

  (** ** Early return of the consumer *)

  (** Consuming items without failure. *)
  Fixpoint iter_body (c : C) (xs : list A) : option C :=
    match xs with
    | [] => Some c
    | x :: xs' => match body c x with Some c' => iter_body c' xs' | None => None end
    end.

  Lemma iter_body_app c xs ys :
    iter_body c (xs ++ ys) = match iter_body c xs with Some c' => iter_body c' ys | None => None end.
  Proof. revert c. induction xs as [|x xs IH]; intros c; [reflexivity|]. cbn. destruct (body c x); auto. Qed.

  (** Every item is consumed, in the buffer or still to be sent. *)
  Definition Acc (c0 : C) (xs : list A) (s : sys) : Prop :=
    exists done rest, xs = done ++ buf s ++ rest /\ left_to_send (prod s) rest /\ length (buf s) <= cap /\
      match cons_ s with
      | Running c | Finished c => iter_body c0 done = Some c
      | Failed c x => exists d, done = d ++ [x] /\ iter_body c0 d = Some c /\ body c x = None
      end.

  Lemma Acc_consume c0 d x c rest b q xs :
    xs = d ++ (x :: b) ++ rest -> left_to_send q rest -> length b <= cap -> iter_body c0 d = Some c ->
    Acc c0 xs (Sys q b (consume c x)).
  Proof.
    intros -> Hl Hb Hi. exists (d ++ [x]), rest. cbn [prod buf cons_].
    split; [rewrite <- app_assoc; reflexivity|]. split; [exact Hl|]. split; [exact Hb|].
    unfold consume. destruct (body c x) as [c'|] eqn:E.
    - rewrite iter_body_app, Hi. cbn. rewrite E. reflexivity.
    - exists d. auto.
  Qed.

  Lemma Acc_step c0 xs s s' : Acc c0 xs s -> step s s' -> Acc c0 xs s'.
  Proof.
    intros (d & rest & Hx & Hl & Hb & Hc) Hs.
    destruct Hs as [p p' b k E|p p' x b k E Hlt|p p' x c E|p b k E|q x b c|c]; cbn [prod buf cons_] in *.
    - apply sends_inv in Hl. rewrite E in Hl. exists d, rest. auto.
    - apply sends_inv in Hl. rewrite E in Hl. destruct Hl as (xs' & -> & Hl).
      exists d, xs'. cbn [prod buf cons_]. split; [rewrite <- app_assoc; exact Hx|]. split; [exact Hl|].
      split; [rewrite app_length; cbn; lia|exact Hc].
    - apply sends_inv in Hl. rewrite E in Hl. destruct Hl as (xs' & -> & Hl).
      eapply Acc_consume; [|exact Hl|cbn; lia|exact Hc]. exact Hx.
    - apply sends_inv in Hl. rewrite E in Hl. subst rest. exists d, []. cbn [prod buf cons_]. cbn. auto.
    - eapply Acc_consume; [exact Hx|exact Hl|cbn in Hb; lia|exact Hc].
    - exists d, rest. cbn [prod buf cons_]. auto.
  Qed.

  Lemma Acc_steps c0 p xs s : sends p xs -> rtc step (init p c0) s -> Acc c0 xs s.
  Proof.
    intros Hx Hs. assert (H0 : Acc c0 xs (init p c0)).
    { exists [], xs. cbn. split; [reflexivity|]. split; [exact Hx|]. split; [lia|reflexivity]. }
    revert H0. induction Hs as [|a b c Hab _ IH]; intros H0; [exact H0|]. apply IH.
    + eapply Acc_step; eauto.
  Qed.

  Lemma consume_all_prefix c d x c' ys : iter_body c d = Some c' -> body c' x = None ->
    consume_all c (d ++ x :: ys) = Failed c' x.
  Proof.
    revert c. induction d as [|y d IH]; intros c Hd Hx; cbn in *.
    - injection Hd as ->. rewrite Hx. reflexivity.
    - destruct (body c y) as [c1|]; [|discriminate]. apply IH; assumption.
  Qed.

  (** If the consumer gives up at item [d] (the prefix before it is [d]), then in every terminal state
      the producer is gone exactly when the items not consumed fit in the channel. *)
  Lemma producer_leak p c d x c' ys s :
    sends p (d ++ x :: ys) -> iter_body c d = Some c' -> body c' x = None ->
    rtc step (init p c) s -> (forall s', ~ step s s') ->
    cons_ s = Failed c' x /\ (prod s = None <-> length ys <= cap).
  Proof.
    intros Hx Hd Hb Hs Hno.
    destruct (no_deadlock _ _ _ _ Hx Hs Hno) as [Hc _].
    rewrite (consume_all_prefix _ _ _ _ _ Hd Hb) in Hc. split; [exact Hc|].
    destruct (Acc_steps _ _ _ _ Hx Hs) as (dn & rest & Hxs & Hl & Hbuf & Hk). rewrite Hc in Hk.
    destruct Hk as (d' & -> & Hi & _).
    assert (E : d' = d /\ ys = buf s ++ rest).
    { rewrite <- app_assoc in Hxs. cbn [app] in Hxs. clear -Hxs Hd Hi Hb.
      revert c d' Hxs Hd Hi. induction d as [|y d IH]; intros c d' Hxs Hd Hi.
      - cbn in Hd. injection Hd as ->. destruct d' as [|z d'].
        + cbn in Hxs. injection Hxs as ->. auto.
        + cbn in Hxs. injection Hxs as -> ->. cbn in Hi. rewrite Hb in Hi. discriminate.
      - destruct d' as [|z d'].
        + cbn in Hxs. injection Hxs as -> Hxs. cbn in Hi. injection Hi as ->. cbn in Hd.
          rewrite Hb in Hd. discriminate.
        + cbn in Hxs. injection Hxs as -> Hxs. cbn in Hd, Hi. destruct (body c z) as [c1|]; [|discriminate].
          destruct (IH c1 d' Hxs Hd Hi) as [-> ->]. auto. }
    destruct E as [_ ->]. split.
    - intros Hp. rewrite Hp in Hl. cbn in Hl. subst rest. rewrite app_nil_r. exact Hbuf.
    - intros Hlen. destruct s as [[p0|] b k]; [|reflexivity]. exfalso. cbn [prod buf cons_] in *. subst k.
      cbn [left_to_send] in Hl. apply sends_inv in Hl. destruct (next p0) as [p'|z p'|] eqn:E.
      + eapply Hno. apply s_tau, E.
      + destruct Hl as (xs' & -> & _). rewrite app_length in Hlen. cbn in Hlen.
        eapply Hno. eapply s_send; [exact E|]. lia.
      + eapply Hno. apply s_close, E.
  Qed.

  (** Termination: with a measure on the producer every schedule is bounded. *)
  Context (pm : P -> nat).
  Hypothesis pm_tau : forall p p', next p = PTau p' -> pm p' < pm p.
  Hypothesis pm_send : forall p x p', next p = PSend x p' -> pm p' < pm p.

  Definition measure (s : sys) : nat :=
    match prod s with None => 0 | Some p => 1 + 2 * S (pm p) end
    + length (buf s) + match cons_ s with Running _ => 1 | _ => 0 end.

  Lemma step_measure s s' : step s s' -> measure s' < measure s.
  Proof.
    intros Hs. unfold measure.
    destruct Hs as [p p' b k E|p p' x b k E Hc|p p' x c E|p b k E|q x b c|c]; cbn [prod buf cons_].
    - apply pm_tau in E. lia.
    - apply pm_send in E. rewrite app_length. cbn. lia.
    - apply pm_send in E. unfold consume. destruct (body c x); cbn; lia.
    - lia.
    - unfold consume. destruct (body c x); cbn; lia.
    - cbn. lia.
  Qed.

  Lemma bounded_schedules n s s' : nsteps step n s s' -> n + measure s' <= measure s.
  Proof.
    induction 1 as [|n x y z Hxy _ IH]; [lia|]. apply step_measure in Hxy. lia.
  Qed.
End Chan.

Arguments action : clear implicits.
Arguments sys : clear implicits.
Arguments consumer : clear implicits.
