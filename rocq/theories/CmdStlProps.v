(** C67: merge-stl over a directory.  C68: from .binvox files to one closed STL. *)
From Verif Require Import Base BaseLemmas BinvoxSpec BinvoxModel Geom VoxelizeModel VoxelizeSpec VoxelizeProps FloatTextQ StldiceModel StldiceProps CmdMergeModel CmdMergeProps
  MeshSpec MarchModel MarchProps StlMerge CmdStlModel.
From Coq Require Import ZArith QArith List Bool String Init.Byte Lia Permutation.
From stdpp Require Import base list relations gmap sets sorting.
Import ListNotations.
Open Scope nat_scope.

(** ** Specification *)

(** The parts: the files prefix*.stl except the output prefix.stl. *)
Definition stl_parts (d : dir) (prefix : list byte) (files : list (list byte)) : Prop :=
  List.NoDup files /\ forall n, In n files <-> n <> prefix ++ txt ".stl" /\ (exists mid, n = prefix ++ mid ++ txt ".stl") /\ d n <> None.

(** ** The inputs *)

Lemma inputs_none out files : In out files -> inputs false out files = None.
Proof.
  induction files as [|f files IH]; [intros []|]. intros H. cbn [inputs]. destruct (decide (f = out)); [reflexivity|].
  destruct H as [->|H]; [contradiction|]. rewrite IH by exact H. reflexivity.
Qed.

Lemma inputs_filter out files : inputs true out files = Some (List.filter (fun f => negb (bool_decide (f = out))) files).
Proof.
  induction files as [|f files IH]; [reflexivity|]. cbn [inputs List.filter]. rewrite IH. destruct (decide (f = out)) as [->|Hn].
  - rewrite bool_decide_true by reflexivity. reflexivity.
  - rewrite bool_decide_false by exact Hn. reflexivity.
Qed.

Lemma inputs_parts force d names prefix files : listing d names ->
  inputs force (prefix ++ txt ".stl") (Glob names prefix (txt ".stl")) = Some files -> stl_parts d prefix files.
Proof.
  intros Hl E. pose proof (Glob_matching d names prefix (txt ".stl") Hl) as [Hs Hm]. set (out := prefix ++ txt ".stl") in *. set (g := Glob names prefix (txt ".stl")) in *.
  assert (Hnd : List.NoDup g).
  { clear -Hs. induction Hs as [|f l Hs IH Hf]; constructor; [|exact IH]. intros Hin. rewrite List.Forall_forall in Hf. apply Hf in Hin. exact (name_lt_irrefl f Hin). }
  assert (Hfiles : files = List.filter (fun f => negb (bool_decide (f = out))) g).
  { destruct force; [rewrite inputs_filter in E; congruence|].
    destruct (in_dec (List.list_eq_dec Byte.byte_eq_dec) out g) as [H|H]; [rewrite inputs_none in E by exact H; discriminate|].
    rewrite inputs_all in E by exact H. injection E as <-. clear -H. induction g as [|f g IH]; [reflexivity|].
    cbn [List.filter]. rewrite bool_decide_false by (intros ->; apply H; left; reflexivity). cbn [negb]. f_equal. apply IH. intros C. apply H. right. exact C. }
  rewrite Hfiles. split; [apply List.NoDup_filter, Hnd|]. intros n. rewrite filter_In, Hm, negb_true_iff, bool_decide_eq_false. tauto.
Qed.

Lemma inputs_some force d names prefix : listing d names -> force = true \/ d (prefix ++ txt ".stl") = None ->
  exists files, inputs force (prefix ++ txt ".stl") (Glob names prefix (txt ".stl")) = Some files.
Proof.
  intros Hl [-> |Ho]; [rewrite inputs_filter; eauto|]. rewrite inputs_all; [eauto|]. intros H.
  apply (proj2 (Glob_matching d names prefix (txt ".stl") Hl)) in H as [_ H]. contradiction.
Qed.

Section Cmd.
  Context {tri error : Type} (no_file : error) (load : list byte -> error + list tri) (save : list tri -> list byte).
  Notation run := (merge_stl no_file load save).

  (** No file but prefix.stl is written. *)
  Theorem C67_only_output force workers prefix d names d' e n : run force workers prefix d names d' e ->
    n <> prefix ++ txt ".stl" -> d' n = d n.
  Proof.
    intros H Hn. destruct H as [| | |files s d' _ _ _ [-> | ->]]; try reflexivity; unfold put_file; cbn [fst]; apply decide_False, Hn.
  Qed.

  (** Without -f an existing prefix.stl is never overwritten: the run stops and nothing changes. *)
  Theorem C67_no_overwrite workers prefix d names d' e : listing d names -> d (prefix ++ txt ".stl") <> None ->
    run false workers prefix d names d' e -> d' = d /\ e = Fatal.
  Proof.
    intros Hl Ho H.
    assert (E : inputs false (prefix ++ txt ".stl") (Glob names prefix (txt ".stl")) = None).
    { apply inputs_none. apply (proj2 (Glob_matching d names prefix (txt ".stl") Hl)). split; [exists []; reflexivity|exact Ho]. }
    destruct H as [_|files s er m E'|files s m E'|files s d' E']; [auto|..]; rewrite E in E'; discriminate.
  Qed.

  (** How a run ends, otherwise. *)
  Theorem C67_outcome force workers prefix d names d' e files : listing d names -> force = true \/ d (prefix ++ txt ".stl") = None ->
    stl_parts d prefix files -> run force workers prefix d names d' e ->
    match e with
    | Finished => files <> [] /\ exists order meshes, Permutation order files /\
        Forall2 (fun f m => exists bytes, d f = Some bytes /\ load bytes = inr m) order meshes /\
        d' (prefix ++ txt ".stl") = Some (save (concat meshes))
    | Fatal => d' = d /\ exists f bytes er, In f files /\ d f = Some bytes /\ load bytes = inl er
    | Crashed => files = [] /\ (d' = d \/ d' (prefix ++ txt ".stl") = Some [])
    end.
  Proof.
    intros Hl Hf Hp H. destruct (inputs_some force d names prefix Hl Hf) as (fs & E).
    pose proof (inputs_parts force d names prefix fs Hl E) as Hp'.
    assert (Hperm : Permutation fs files).
    { apply Permutation.NoDup_Permutation; [apply Hp'|apply Hp|]. intros n. rewrite (proj2 Hp n), (proj2 Hp' n). reflexivity. }
    assert (Hd : forall f, In f fs -> exists bytes, d f = Some bytes).
    { intros f Hin. apply (proj2 Hp') in Hin as (_ & _ & Hin). destruct (d f); [eauto|contradiction]. }
    destruct H as [E'|files' s er m E' Hr Hm|files' s mesh E' Hr Hm|files' s d' E' Hr Hm Hd']; rewrite E in E'; try discriminate; injection E' as <-.
    - destruct (C48_result (load_file no_file load d) workers fs s _ Hr Hm) as [C1 C2]. split; [reflexivity|].
      assert (Hx : exists f, In f fs /\ fails (load_file no_file load d) f).
      { destruct (List.Exists_dec (fun f => fails (load_file no_file load d) f) fs) as [Hx|Hx].
        - intros f. destruct (load_file no_file load d f) eqn:El; [left; eexists; exact El|right; intros (e' & C); congruence].
        - apply List.Exists_exists in Hx. exact Hx.
        - exfalso. destruct C2 as (order & _ & C); [|discriminate]. intros f Hin C. apply Hx. apply List.Exists_exists. eauto. }
      destruct Hx as (f & Hin & e' & He). destruct (Hd f Hin) as (bytes & Hb). exists f, bytes, e'. unfold load_file in He. rewrite Hb in He.
      split; [eapply Permutation_in; eassumption|]. auto.
    - destruct (C48_result (load_file no_file load d) workers fs s _ Hr Hm) as [C1 C2].
      assert (Hno : forall f, In f fs -> ~ fails (load_file no_file load d) f).
      { intros f Hin Hfail. destruct C1 as (e' & f' & _ & _ & C); [eauto|discriminate]. }
      destruct (C2 Hno) as (order & Ho & C). destruct fs as [|f0 fs]; [discriminate|]. injection C as ->.
      split; [intros ->; apply Permutation_sym, Permutation_nil in Hperm; discriminate|].
      exists order, (map (tris (load_file no_file load d)) order). split; [etransitivity; eassumption|]. split.
      + apply Forall2_fmap_r, Forall_Forall2_diag, Forall_forall. intros f Hin. apply elem_of_list_In in Hin. assert (Hin' : In f (f0 :: fs)) by (eapply Permutation_in; eassumption).
        destruct (Hd f Hin') as (bytes & Hb). exists bytes. split; [exact Hb|]. unfold tris, load_file. rewrite Hb.
        destruct (load bytes) as [er|] eqn:El; [|reflexivity]. exfalso. apply (Hno f Hin'). exists er. unfold load_file. rewrite Hb. exact El.
      + unfold put_file. cbn [fst snd]. rewrite decide_True by reflexivity. rewrite flat_map_concat_map. reflexivity.
    - destruct (C48_result (load_file no_file load d) workers fs s _ Hr Hm) as [C1 C2].
      assert (Hno : forall f, In f fs -> ~ fails (load_file no_file load d) f).
      { intros f Hin Hfail. destruct C1 as (e' & f' & _ & _ & C); [eauto|discriminate]. }
      destruct (C2 Hno) as (order & Ho & C). destruct fs as [|f0 fs]; [|discriminate]. split; [apply Permutation_nil, Hperm|].
      destruct Hd' as [-> | ->]; [left; reflexivity|right]. unfold put_file. cbn [fst snd]. apply decide_True. reflexivity.
  Qed.

  (** With a worker a run can always go on until it ends; without one, it never does once there is a
      part to load. *)
  Theorem C67_ends force workers prefix d names : 1 <= workers -> exists d' e, run force workers prefix d names d' e.
  Proof.
    intros Hw. destruct (inputs force (prefix ++ txt ".stl") (Glob names prefix (txt ".stl"))) as [files|] eqn:E; [|exists d, Fatal; apply ms_refused, E].
    assert (G : forall n s, 9 * length files + 1 <= n + work s -> rtc (mstep (load_file no_file load d) workers) (minit files) s ->
      exists s' r, rtc (mstep (load_file no_file load d) workers) (minit files) s' /\ main s' = CReturn r).
    { intros n. assert (Hx : forall m s, work s <= m -> rtc (mstep (load_file no_file load d) workers) (minit files) s ->
        exists s' r, rtc (mstep (load_file no_file load d) workers) (minit files) s' /\ main s' = CReturn r).
      { induction m as [|m IH]; intros s Hs Hr; destruct (C48_no_deadlock (load_file no_file load d) workers files s Hw Hr) as [(s' & Hst)|(r & Hm)]; eauto.
        - pose proof (work_step _ _ _ _ Hst). lia.
        - apply (IH s'); [pose proof (work_step _ _ _ _ Hst); lia|]. eapply rtc_r; eassumption. }
      intros s _ Hr. exact (Hx (work s) s (le_n _) Hr). }
    destruct (G (9 * length files + 1) (minit files) ltac:(lia) (rtc_refl _ _)) as (s & [er m] & Hr & Hm).
    destruct er as [er|]; [exists d, Fatal; eapply ms_error; eassumption|]. destruct m as [m|].
    - eexists _, Finished. eapply ms_saved; eassumption.
    - exists d, Crashed. eapply ms_nil; try eassumption. left. reflexivity.
  Qed.

  Theorem C67_zero_workers force prefix d names d' e files f : listing d names -> force = true \/ d (prefix ++ txt ".stl") = None ->
    stl_parts d prefix files -> In f files -> ~ run force 0 prefix d names d' e.
  Proof.
    intros Hl Hf Hp Hin H. destruct (inputs_some force d names prefix Hl Hf) as (fs & E). pose proof (inputs_parts force d names prefix fs Hl E) as Hp'.
    assert (Hin' : In f fs) by (apply (proj2 Hp'), (proj2 Hp), Hin). destruct fs as [|f0 fs]; [destruct Hin'|].
    destruct H as [E'|files' s er m E' Hr Hm|files' s mesh E' Hr Hm|files' s d' E' Hr Hm _]; rewrite E in E'; try discriminate; injection E' as <-;
      rewrite (C48_zero_workers (load_file no_file load d) 0 f0 fs s eq_refl Hr) in Hm; discriminate Hm.
  Qed.

  (** Merging again with -f: the old output is not among the parts, so the new one has the same
      triangles. *)
  Theorem C67_again force workers workers' prefix d names d1 names1 d2 e : listing d names ->
    run force workers prefix d names d1 Finished -> listing d1 names1 -> run true workers' prefix d1 names1 d2 e ->
    e = Finished /\ exists m1 m2, d1 (prefix ++ txt ".stl") = Some (save m1) /\ d2 (prefix ++ txt ".stl") = Some (save m2) /\ Permutation m1 m2.
  Proof.
    intros Hl H1 Hl1 H2.
    assert (Hf : force = true \/ d (prefix ++ txt ".stl") = None).
    { destruct force; [left; reflexivity|]. destruct (d (prefix ++ txt ".stl")) eqn:Ed; [|right; reflexivity].
      destruct (C67_no_overwrite workers prefix d names d1 Finished Hl ltac:(congruence) H1) as [_ C]. discriminate. }
    destruct (inputs_some force d names prefix Hl Hf) as (fs & E). pose proof (inputs_parts force d names prefix fs Hl E) as Hp.
    assert (Hsame : forall f, In f fs -> d1 f = d f).
    { intros f Hin. apply (C67_only_output _ _ _ _ _ _ _ _ H1). apply (proj2 Hp), Hin. }
    assert (Hp1 : stl_parts d1 prefix fs).
    { split; [apply Hp|]. intros n. rewrite (proj2 Hp n). split; intros (Hn & Hmid & Hd); (split; [exact Hn|]; split; [exact Hmid|]).
      - rewrite (C67_only_output _ _ _ _ _ _ _ _ H1 Hn). exact Hd.
      - rewrite <- (C67_only_output _ _ _ _ _ _ _ _ H1 Hn). exact Hd. }
    destruct (C67_outcome _ _ _ _ _ _ _ fs Hl Hf Hp H1) as (Hne & o1 & ms1 & Ho1 & Hm1 & Hd1).
    pose proof (C67_outcome _ _ _ _ _ _ _ fs Hl1 (or_introl eq_refl) Hp1 H2) as H. destruct e.
    - split; [reflexivity|]. destruct H as (_ & o2 & ms2 & Ho2 & Hm2 & Hd2). exists (concat ms1), (concat ms2). split; [exact Hd1|]. split; [exact Hd2|].
      set (g := fun f => tris (load_file no_file load d) f).
      assert (Hg : forall o ms (dd : dir), (forall f, In f o -> dd f = d f) -> Forall2 (fun f m => exists bytes, dd f = Some bytes /\ load bytes = inr m) o ms -> ms = map g o).
      { clear. intros o ms dd Hs H. induction H as [|f m o ms (bytes & Hb & Hm) _ IH]; [reflexivity|]. cbn [map]. f_equal.
        - subst g. cbv beta. unfold tris, load_file. rewrite <- (Hs f (or_introl eq_refl)), Hb, Hm. reflexivity.
        - apply IH. intros x Hx. apply Hs. right. exact Hx. }
      rewrite (Hg o1 ms1 d (fun _ _ => eq_refl) Hm1). rewrite (Hg o2 ms2 d1).
      2:{ intros f Hin. apply Hsame. eapply Permutation_in; eassumption. }
      2:{ exact Hm2. }
      rewrite <- !flat_map_concat_map. apply Permutation_flat_map. rewrite Ho1, Ho2. reflexivity.
    - exfalso. destruct H as (_ & f & bytes & er & Hin & Hb & Hload). rewrite (Hsame f Hin) in Hb.
      assert (Hin1 : In f o1) by (eapply Permutation_in; [apply Permutation_sym, Ho1|exact Hin]).
      clear -Hin1 Hm1 Hb Hload. induction Hm1 as [|f' m o ms (bytes' & Hb' & Hm') _ IH]; [destruct Hin1|]. destruct Hin1 as [->|Hin1]; [congruence|auto].
    - exfalso. destruct H as [-> _]. contradiction.
  Qed.
End Cmd.
Print Assumptions C67_only_output.
Print Assumptions C67_no_overwrite.
Print Assumptions C67_outcome.
Print Assumptions C67_ends.
Print Assumptions C67_zero_workers.
Print Assumptions C67_again.
