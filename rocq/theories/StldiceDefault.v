(** C43 without -mbb: the box is that of the first input, in the first run and when it is repeated. *)
From Verif Require Import Base BaseLemmas BinvoxModel Geom VoxelizeModel VoxelizeSpec StldiceModel StldiceProps.
From Coq Require Import ZArith QArith List Bool String Init.Byte Lia.
From stdpp Require Import base list.
Import ListNotations.
Open Scope Z_scope.

Theorem C43_default_box ft d dim nx ny nz name mesh args ws l m :
  good (bounding_box mesh) dim nx ny nz -> divides dim nx ny nz -> List.NoDup (map fst ((name, mesh) :: args)) ->
  let margs := map (fun a => (fst a, Some (snd a))) ((name, mesh) :: args) in
  stldice_main ft d None dim nx ny nz margs = (ws, Some l) ->
  stldice_main ft (put_files d (take m ws)) None dim nx ny nz margs = (drop m ws, Some (drop m l)) /\
  stldice_main ft (put_files d ws) None dim nx ny nz margs = ([], Some []) /\
  forall n bytes j, nth_error ws m = Some (n, bytes) ->
    let crash := put_file (put_files d (take m ws)) (n, take j bytes) in
    stldice_main ft crash None dim nx ny nz margs = (drop (S m) ws, Some (drop (S m) l)) /\
    put_files crash (drop (S m) ws) n = Some (take j bytes).
Proof.
  intros Hg Hd Hnd. cbn zeta. cbn [map fst snd]. rewrite !stldice_main_default. intros Hrun.
  split; [exact (C43_resume ft d _ dim nx ny nz ((name, mesh) :: args) ws l m Hg Hd Hnd Hrun)|].
  split; [exact (C43_second_run_prints_nothing ft d _ dim nx ny nz ((name, mesh) :: args) ws l Hg Hd Hnd Hrun)|].
  intros n bytes j Hn. rewrite stldice_main_default. exact (C43_torn_file ft d _ dim nx ny nz ((name, mesh) :: args) ws l m n bytes j Hg Hd Hnd Hrun Hn).
Qed.
