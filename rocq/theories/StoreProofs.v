(** The voxel store (C13). *)
From Verif Require Import Base BinvoxModel.
From Coq Require Import ZArith List Lia Bool.
From stdpp Require Import base list gmap sets fin_sets.
Import ListNotations.
Open Scope Z_scope.

Section Store.
  Context {F : Type} (whiteC : color F).

  (** Apply a list of Add calls, [None] if one of them panics. *)
  Definition adds (b : binvox F) (ks : list key) : option (binvox F) :=
    fold_left (fun r k => r ≫= fun b => add b k) ks (Some b).

  Definition add_colors (b : binvox F) (kcs : list (key * color F)) : option (binvox F) :=
    fold_left (fun r kc => r ≫= fun b => add_color b (fst kc) (snd kc)) kcs (Some b).

  (** The colour of the last entry for [k]. *)
  Fixpoint last_color (k : key) (kcs : list (key * color F)) : option (color F) :=
    match kcs with
    | [] => None
    | (k', c) :: rest =>
        match last_color k rest with
        | Some c' => Some c'
        | None => if decide (k = k') then Some c else None
        end
    end.

  Lemma add_spec b k b' : add b k = Some b' ->
    (forall k', get_voxel whiteC b' k' = if decide (k' = k) then Some whiteC else get_voxel whiteC b k') /\
    (NX b', NY b', NZ b') = (NX b, NY b, NZ b) /\
    (TX b', TY b', TZ b', Scale b') = (TX b, TY b, TZ b, Scale b) /\
    Colors b' = Colors b /\ (exists w, White b' = Some w).
  Proof.
    unfold add. destruct (White b) as [w|] eqn:E; [|discriminate]. intros [= <-].
    split; [|cbn; eauto 10]. intros k'. unfold get_voxel, white, colors. cbn. rewrite E. cbn.
    repeat case_decide; try reflexivity; set_solver.
  Qed.

  Lemma add_color_spec b k c b' : add_color b k c = Some b' ->
    (forall k', get_voxel whiteC b' k' =
       if decide (k' ∈ white b) then Some whiteC
       else if decide (k' = k) then Some c else get_voxel whiteC b k') /\
    (NX b', NY b', NZ b') = (NX b, NY b, NZ b) /\
    (TX b', TY b', TZ b', Scale b') = (TX b, TY b, TZ b, Scale b) /\
    White b' = White b /\ (exists m, Colors b' = Some m).
  Proof.
    unfold add_color. destruct (Colors b) as [m|] eqn:E; [|discriminate]. intros [= <-].
    split; [|cbn; eauto 10]. intros k'. unfold get_voxel, white, colors. cbn. rewrite E. cbn.
    repeat case_decide; try reflexivity; subst.
    - apply lookup_insert.
    - apply lookup_insert_ne. congruence.
  Qed.

  Lemma adds_spec ks b : (exists w, White b = Some w) ->
    exists b', adds b ks = Some b' /\
      forall k, get_voxel whiteC b' k = if decide (k ∈ ks) then Some whiteC else get_voxel whiteC b k.
  Proof.
    unfold adds. revert b. induction ks as [|k0 ks IH]; intros b Hw.
    - exists b. split; [reflexivity|]. intros k. case_decide as H; [inversion H|reflexivity].
    - cbn [fold_left]. destruct Hw as [w Hw].
      destruct (add b k0) as [b1|] eqn:E; [|unfold add in E; rewrite Hw in E; discriminate].
      destruct (add_spec _ _ _ E) as (Hg & _ & _ & _ & Hw1).
      change (Some b ≫= (fun b => add b k0)) with (add b k0). rewrite E.
      destruct (IH b1 Hw1) as (b' & Hb & Hg'). exists b'. split; [exact Hb|].
      intros k. rewrite Hg', Hg. repeat case_decide; try reflexivity; set_solver.
  Qed.

  Lemma add_colors_spec kcs b : (exists m, Colors b = Some m) -> White b = None ->
    exists b', add_colors b kcs = Some b' /\
      forall k, get_voxel whiteC b' k =
        match last_color k kcs with Some c => Some c | None => get_voxel whiteC b k end.
  Proof.
    unfold add_colors. revert b. induction kcs as [|[k0 c0] kcs IH]; intros b Hc Hw.
    - exists b. split; reflexivity.
    - cbn [fold_left fst snd]. destruct Hc as [m Hc].
      destruct (add_color b k0 c0) as [b1|] eqn:E; [|unfold add_color in E; rewrite Hc in E; discriminate].
      destruct (add_color_spec _ _ _ _ E) as (Hg & _ & _ & Hw1 & Hc1).
      change (Some b ≫= (fun b => add_color b k0 c0)) with (add_color b k0 c0). rewrite E.
      rewrite Hw in Hw1.
      destruct (IH b1 Hc1 Hw1) as (b' & Hb & Hg'). exists b'. split; [exact Hb|].
      intros k. rewrite Hg', Hg. cbn [last_color].
      destruct (last_color k kcs); [reflexivity|].
      assert (k ∉ white b) by (unfold white; rewrite Hw; cbn; set_solver).
      repeat case_decide; try reflexivity; tauto.
  Qed.
End Store.
