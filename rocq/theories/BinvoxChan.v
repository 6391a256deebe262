(** The two goroutines of the .binvox writer (binvox/write.go:60-79, 93-124) as an instance of
    Chan.v. *)
From Verif Require Import Base BaseLemmas BinvoxModel BinvoxSpec BinvoxLemmas BinvoxProofs Chan.
From Coq Require Import ZArith List Lia Bool Init.Byte.
From stdpp Require Import base relations list list_numbers gmap sets fin_sets.
Import ListNotations.
Open Scope Z_scope.

Notation rle := (Z * Z)%type.

(** Control state of the encoder goroutine: inside the loops with the keys still to visit, or past
    line 122 and about to close the channel ([None]). *)
Definition enc_prog : Type := option (enc * list key).

(** binvox/write.go:93-124, one iteration or one channel operation per step. *)
Definition enc_next (lookup : gset key) (p : enc_prog) : action enc_prog rle :=
  match p with
  | None => PClose                                                     (* line 123 *)
  | Some (e, []) =>
      if 0 <? e_count e then PSend (e_value e, e_count e) None          (* lines 120-122 *)
      else PTau None
  | Some (e, k :: ks) =>
      let '(e', out) := enc_step e (voxel_value lookup k) in
      match out with
      | Some r => PSend r (Some (e', ks))
      | None => PTau (Some (e', ks))
      end
  end.

(** binvox/write.go:65-79: the body of the range loop over the channel; writing to a bytes.Buffer
    does not fail. *)
Definition write_body (c : Z * list byte) (r : rle) : option (Z * list byte) :=
  let '(numWhite, buf) := c in
  Some (if fst r =? 1 then numWhite + snd r else numWhite, buf ++ run_bytes r).

Definition enc_start (sx sy sz nx ny nz : Z) : enc_prog :=
  Some (Enc 0 0, loop_keys sx sy sz nx ny nz).

Definition enc_measure (p : enc_prog) : nat :=
  match p with None => 0 | Some (_, ks) => S (length ks) end.

Lemma enc_measure_tau lookup p p' : enc_next lookup p = PTau p' -> (enc_measure p' < enc_measure p)%nat.
Proof.
  destruct p as [[e [|k ks]]|]; cbn [enc_next]; intros H; try discriminate.
  - destruct (0 <? e_count e); [discriminate|]. injection H as <-. cbn. lia.
  - destruct (enc_step e (voxel_value lookup k)) as [e' [r|]]; [discriminate|].
    injection H as <-. cbn. lia.
Qed.

Lemma enc_measure_send lookup p x p' :
  enc_next lookup p = PSend x p' -> (enc_measure p' < enc_measure p)%nat.
Proof.
  destruct p as [[e [|k ks]]|]; cbn [enc_next]; intros H; try discriminate.
  - destruct (0 <? e_count e); [|discriminate]. injection H as <- <-. cbn. lia.
  - destruct (enc_step e (voxel_value lookup k)) as [e' [r|]]; [|discriminate].
    injection H as <- <-. cbn. lia.
Qed.

Lemma enc_sends lookup ks e : sends (enc_next lookup) (Some (e, ks)) (enc_loop lookup ks e).
Proof.
  revert e. induction ks as [|k ks IH]; intros e.
  - cbn [enc_loop]. destruct (0 <? e_count e) eqn:E.
    + eapply t_send; [cbn; rewrite E; reflexivity|]. apply t_close. reflexivity.
    + eapply t_tau; [cbn; rewrite E; reflexivity|]. apply t_close. reflexivity.
  - cbn [enc_loop]. destruct (enc_step e (voxel_value lookup k)) as [e' [r|]] eqn:E.
    + eapply t_send; [cbn; rewrite E; reflexivity|]. apply IH.
    + eapply t_tau; [cbn; rewrite E; reflexivity|]. apply IH.
Qed.

Lemma write_consume rs n buf :
  consume_all write_body (n, buf) rs
  = Finished (fold_left (fun a r => if fst r =? 1 then a + snd r else a) rs n,
              buf ++ concat (map run_bytes rs)).
Proof.
  revert n buf. induction rs as [|r rs IH]; intros n buf; cbn [consume_all map concat fold_left].
  - rewrite app_nil_r. reflexivity.
  - cbn [write_body]. rewrite IH, <- app_assoc. reflexivity.
Qed.

Section Sched.
  Context {F : Type} (ft : FloatText F).
  Context (b : binvox F) (sx sy sz nx ny nz : Z) (cap : nat).
  Context (Hne : exists k, k ∈ white b).

  Let nx' := default_dim nx (NX b).
  Let ny' := default_dim ny (NY b).
  Let nz' := default_dim nz (NZ b).

  (** The two goroutines right after line 61. *)
  Definition writer_init : sys enc_prog rle (Z * list byte) :=
    init (enc_start sx sy sz nx' ny' nz') (0, []).

  Definition writer_step := step (enc_next (white b)) write_body cap.

  Lemma writer_final s :
    rtc writer_step writer_init s -> (forall s', ~ writer_step s s') ->
    prod s = None /\ buf s = [] /\
    exists h d n, write ft b sx sy sz nx ny nz = ([h; d], n) /\ cons_ s = Finished (n, d).
  Proof.
    intros Hs Hno.
    pose proof (enc_sends (white b) (loop_keys sx sy sz nx' ny' nz') (Enc 0 0)) as Hx.
    destruct (no_deadlock _ _ _ _ _ _ _ Hx Hs Hno) as [Hc Hf].
    rewrite write_consume in Hc. destruct (Hf _ Hc) as [Hp Hb].
    split; [exact Hp|]. split; [exact Hb|].
    rewrite write_nonempty by exact Hne. do 3 eexists. split; [reflexivity|]. exact Hc.
  Qed.

  Lemma writer_bounded n s :
    nsteps writer_step n writer_init s -> (n <= 2 * length (loop_keys sx sy sz nx' ny' nz') + 6)%nat.
  Proof.
    intros H. apply (bounded_schedules _ _ _ enc_measure) in H.
    - unfold measure in H. cbn [writer_init init prod buf cons_ enc_start enc_measure length] in H. lia.
    - apply enc_measure_tau.
    - apply enc_measure_send.
  Qed.
End Sched.
