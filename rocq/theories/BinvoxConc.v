(** Round trip and count of the concurrent writer (C01, C05 over the schedules of C10): the file is the header
    followed by what the consumer goroutine-channel loop has buffered when everything has stopped. *)
From Verif Require Import Base BaseLemmas Chan BinvoxModel BinvoxSpec BinvoxChan BinvoxProps.
From Coq Require Import ZArith List Lia Init.Byte.
From stdpp Require Import base list gmap sets fin_sets relations.
Import ListNotations.
Open Scope Z_scope.

(** Whatever the schedule and the channel's capacity, the file (header, then the bytes of the finished
    consumer) reads back as the model written. *)
Theorem C01_any_schedule : forall (F : Type) (ft : FloatText F) (b : binvox F) (cap : nat) s,
  (exists k, k ∈ white b) ->
  (forall k, k ∈ white b -> in_grid (NX b) (NY b) (NZ b) k) ->
  NX b <= max_int -> NY b <= max_int -> NZ b <= max_int ->
  rtc (writer_step b cap) (writer_init b 0 0 0 0 0 0) s ->
  (forall s', ~ writer_step b cap s s') ->
  exists n d, cons_ s = Finished (n, d) /\
    read ft (header ft (NX b) (NY b) (NZ b) (TX b) (TY b) (TZ b) (Scale b) ++ d) 0 0 0 0 0 0
    = inr {| NX := NX b; NY := NY b; NZ := NZ b; TX := TX b; TY := TY b; TZ := TZ b;
             Scale := Scale b; White := Some (white b); Colors := None |}.
Proof.
  intros F ft b cap s Hne Hin Hx Hy Hz Hr Hf.
  destruct (C10_writer_schedule_independent F ft b 0 0 0 0 0 0 cap Hne s Hr Hf) as (_ & _ & h & d & n & Hw & Hc).
  exists n, d. split; [exact Hc|].
  pose proof (C01_write_read_round_trip F ft b Hne Hin Hx Hy Hz) as H.
  unfold write_file in H. rewrite Hw in H. cbn [fst concat] in H. rewrite app_nil_r in H.
  unfold write in Hw. destruct (decide _); [discriminate|]. cbv zeta in Hw. injection Hw as Hh Hd Hn. subst h d.
  exact H.
Qed.

(** ... and the number of white voxels it reports is that of the region. *)
Theorem C05_any_schedule : forall (F : Type) (ft : FloatText F) (b : binvox F) (sx sy sz nx ny nz : Z) (cap : nat) s,
  let nx' := if nx =? 0 then NX b else nx in
  let ny' := if ny =? 0 then NY b else ny in
  let nz' := if nz =? 0 then NZ b else nz in
  forall R : gset key,
  (forall k, k ∈ R <-> k ∈ white b /\ in_region sx sy sz nx' ny' nz' k) ->
  (exists k, k ∈ white b) ->
  rtc (writer_step b cap) (writer_init b sx sy sz nx ny nz) s ->
  (forall s', ~ writer_step b cap s s') ->
  exists d, cons_ s = Finished (Z.of_nat (size R), d).
Proof.
  intros F ft b sx sy sz nx ny nz cap s nx' ny' nz' R HR Hne Hr Hf.
  destruct (C10_writer_schedule_independent F ft b sx sy sz nx ny nz cap Hne s Hr Hf) as (_ & _ & h & d & n & Hw & Hc).
  exists d. pose proof (C05_reported_count_exact F ft b sx sy sz nx ny nz R HR) as H. rewrite Hw in H. cbn [snd] in H.
  rewrite Hc, H. reflexivity.
Qed.

Print Assumptions C01_any_schedule.
Print Assumptions C05_any_schedule.
