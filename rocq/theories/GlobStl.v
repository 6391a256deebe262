(** C86, continued: what merge-stl does when there is a class in its prefix. *)
From Verif Require Import Base BaseLemmas BinvoxModel Geom VshellModel VshellCodec StldiceModel CmdMergeModel CmdMergeProps StlMerge CmdStlModel GlobModel GlobProps GlobOnly.
From Coq Require Import ZArith QArith List Bool String Init.Byte Lia.
From stdpp Require Import base list gmap sets sorting relations.
Import ListNotations.
Open Scope Z_scope.
#[local] Open Scope byte_scope.

(** The names that have a character of [set] between [p] and [q], and then end with .stl. *)
Definition class_name (p set q n : list byte) : Prop := exists c mid, List.In c set /\ n = p ++ c :: q ++ mid ++ txt ".stl".

(** A run with the prefix p[set]q, with or without -f, joins the files with a character of the class in its place, in some order, and writes
    the result to the file whose name is the prefix as written, also if it exists; without such files it crashes. *)
Theorem C86_stl_class {tri error} (no_file : error) (load : list byte -> error + list tri) save force workers p set q d names d' e :
  plain p -> class_text set -> ~ List.In "[" set -> plain q -> in_directory names -> listing d names ->
  let prefix := p ++ "[" :: set ++ "]" :: q in
  merge_stl_any no_file load save force workers prefix d names d' e ->
  match e with
  | Finished => exists files order meshes, files <> [] /\ finds names (class_name p set q) files /\ Permutation order files /\
      Forall2 (fun f m => exists bytes, d f = Some bytes /\ load bytes = inr m) order meshes /\
      d' = put_file d (prefix ++ txt ".stl", save (concat meshes))
  | Fatal => d' = d /\ exists f bytes er, List.In f names /\ class_name p set q f /\ d f = Some bytes /\ load bytes = inl er
  | Crashed => (forall n, List.In n names -> ~ class_name p set q n) /\ (d' = d \/ d' = put_file d (prefix ++ txt ".stl", []))
  end.
Proof.
  intros Hp Hs Hb Hq Hn Hl prefix H.
  destruct (C86_class_lost names p set q (txt ".stl") Hp Hs Hb Hq plain_ext_stl Hn) as (fs & E & Hlost).
  destruct (C86_class names p set q (txt ".stl") Hp Hs Hq plain_ext_stl Hn) as (fs' & E' & Hf). rewrite E in E'. injection E' as <-.
  rewrite <- txt_stl in E. fold prefix in E. assert (Hi : inputs force (prefix ++ txt ".stl") fs = Some fs) by (apply inputs_all, Hlost).
  assert (Hd : forall f, List.In f fs -> exists bytes, d f = Some bytes).
  { intros f Hin. apply Hf in Hin as [Hin _]. apply (proj2 Hl) in Hin. destruct (d f); [eauto|contradiction]. }
  assert (Hx : forall s r, rtc (mstep (load_file no_file load d) workers) (minit fs) s -> main s = CReturn r ->
    (exists f er, List.In f fs /\ load_file no_file load d f = inl er /\ r = (Some er, None)) \/
    (exists order, Permutation order fs /\ (forall f, List.In f fs -> exists m, load_file no_file load d f = inr m) /\ r = (None, match fs with [] => None | _ => Some (flat_map (tris (load_file no_file load d)) order) end))).
  { intros s r Hr Hm. destruct (C48_result (load_file no_file load d) workers fs s r Hr Hm) as [C1 C2].
    destruct (List.Exists_dec (fun f => fails (load_file no_file load d) f) fs) as [He|He].
    - intros f. destruct (load_file no_file load d f) eqn:El; [left; eexists; exact El|right; intros (e' & C); congruence].
    - apply List.Exists_exists in He. destruct (C1 He) as (er & f & H1 & H2 & H3). left. eauto 6.
    - assert (Hno : forall f, List.In f fs -> ~ fails (load_file no_file load d) f) by (intros f Hin C; apply He, List.Exists_exists; eauto).
      destruct (C2 Hno) as (order & H1 & H2). right. exists order. split; [exact H1|]. split; [|exact H2]. intros f Hin.
      destruct (load_file no_file load d f) as [er|m] eqn:El; [|eauto]. exfalso. apply (Hno f Hin). exists er. exact El. }
  destruct H as [H|found H1 H2|found files s er m H1 H2 Hr Hm|found files s mesh H1 H2 Hr Hm|found files s d1 H1 H2 Hr Hm H5]; [congruence|rewrite E in H1; injection H1 as <-; congruence|..];
    rewrite E in H1; injection H1 as <-; rewrite Hi in H2; injection H2 as <-; destruct (Hx s _ Hr Hm) as [(f & er' & Hin & Hld & C)|(order & Ho & Hall & C)].
  - split; [reflexivity|]. destruct (Hd f Hin) as (bytes & Hby). unfold load_file in Hld. rewrite Hby in Hld. apply Hf in Hin as [H1 H2]. exists f, bytes, er'. split; [exact H1|]. split; [exact H2|]. auto.
  - discriminate C.
  - discriminate C.
  - destruct fs as [|f0 fs]; [discriminate C|]. injection C as ->. exists (f0 :: fs), order, (map (tris (load_file no_file load d)) order).
    split; [discriminate|]. split; [exact Hf|]. split; [exact Ho|]. split.
    + apply Forall2_fmap_r, Forall_Forall2_diag, Forall_forall. intros f Hin. apply elem_of_list_In in Hin. assert (Hin' : List.In f (f0 :: fs)) by (eapply Permutation_in; eassumption).
      destruct (Hd f Hin') as (bytes & Hby). exists bytes. split; [exact Hby|]. destruct (Hall f Hin') as (m & Em). unfold tris. rewrite Em. unfold load_file in Em. rewrite Hby in Em. exact Em.
    + rewrite flat_map_concat_map. reflexivity.
  - discriminate C.
  - destruct fs as [|f0 fs]; [|discriminate C]. split; [|exact H5]. intros n Hin Hc. apply (proj2 (Hf n)). split; [exact Hin|exact Hc].
Qed.
Print Assumptions C86_stl_class.

(** With a worker such a run exists: the statement above is about something. *)
Theorem C86_stl_ends {tri error} (no_file : error) (load : list byte -> error + list tri) save force workers prefix d names : (1 <= workers)%nat ->
  exists d' e, merge_stl_any no_file load save force workers prefix d names d' e.
Proof.
  intros Hw. destruct (filepath_Glob names (prefix ++ txt "*.stl")) as [found|] eqn:Eg; [|exists d, Fatal; apply ma_pattern, Eg].
  destruct (inputs force (prefix ++ txt ".stl") found) as [files|] eqn:E; [|exists d, Fatal; eapply ma_refused; eassumption].
  assert (Hx : forall m s, (work s <= m)%nat -> rtc (mstep (load_file no_file load d) workers) (minit files) s ->
      exists s' r, rtc (mstep (load_file no_file load d) workers) (minit files) s' /\ main s' = CReturn r).
  { induction m as [|m IH]; intros s Hs Hr; destruct (C48_no_deadlock (load_file no_file load d) workers files s Hw Hr) as [(s' & Hst)|(r & Hm)]; eauto.
    - pose proof (work_step _ _ _ _ Hst). lia.
    - apply (IH s'); [pose proof (work_step _ _ _ _ Hst); lia|]. eapply rtc_r; eassumption. }
  destruct (Hx (work (minit files)) (minit files) (le_n _) (rtc_refl _ _)) as (s & [er m] & Hr & Hm).
  destruct er as [er|]; [exists d, Fatal; eapply ma_error; eassumption|]. destruct m as [m|].
  - eexists _, Finished. eapply ma_saved; eassumption.
  - exists d, Crashed. eapply ma_nil; try eassumption. left. reflexivity.
Qed.
Print Assumptions C86_stl_ends.

(** So merge-stl on the tiles that stldice's script makes of a file like part[1].stl always crashes: every one of their names begins with the
    prefix as written, which the pattern does not match. *)
Theorem C86_stl_lost {tri error} (no_file : error) (load : list byte -> error + list tri) save force workers p set q d names d' e :
  plain p -> class_text set -> ~ List.In "[" set -> plain q -> in_directory names -> listing d names ->
  let prefix := p ++ "[" :: set ++ "]" :: q in
  (forall n, List.In n names -> exists rest, n = prefix ++ rest) ->
  merge_stl_any no_file load save force workers prefix d names d' e ->
  e = Crashed /\ (d' = d \/ d' = put_file d (prefix ++ txt ".stl", [])).
Proof.
  intros Hp Hs Hb Hq Hn Hl prefix Hall H. apply (C86_stl_class no_file load save force workers p set q d names d' e Hp Hs Hb Hq Hn Hl) in H.
  assert (Hno : forall n, List.In n names -> ~ class_name p set q n).
  { intros n Hin (c & mid & Hc & E). destruct (Hall n Hin) as (rest & E'). rewrite E in E'. unfold prefix in E'. rewrite <- !app_assoc in E'. apply app_inv_head in E'. injection E' as -> _. contradiction. }
  destruct e.
  - exfalso. destruct H as (files & order & meshes & Hne & Hf & _). destruct files as [|f files]; [contradiction|]. destruct (proj1 (Hf f) (or_introl eq_refl)) as [H1 H2]. exact (Hno f H1 H2).
  - exfalso. destruct H as (_ & f & b & er & H1 & H2 & _). exact (Hno f H1 H2).
  - destruct H as [_ H]. split; [reflexivity|exact H].
Qed.
Print Assumptions C86_stl_lost.

(** Two tiles of part[1].stl. *)
Example C86_stl_lost_example : exists d names, listing d names /\ names = [txt "part[1]-4-2-1-1-00-00-00.stl"; txt "part[1]-4-2-1-1-01-00-00.stl"] /\
  forall d' e, merge_stl_any tt (fun b => inr b) (fun b : list byte => b) true 1 (txt "part[1]-4-2-1-1") d names d' e -> e = Crashed.
Proof.
  set (names := [txt "part[1]-4-2-1-1-00-00-00.stl"; txt "part[1]-4-2-1-1-01-00-00.stl"]).
  exists (put_file (put_file (fun _ => None) (txt "part[1]-4-2-1-1-00-00-00.stl", [])) (txt "part[1]-4-2-1-1-01-00-00.stl", [])), names.
  assert (Hl : listing (put_file (put_file (fun _ => None) (txt "part[1]-4-2-1-1-00-00-00.stl", [])) (txt "part[1]-4-2-1-1-01-00-00.stl", [])) names).
  { split; [apply NoDup_ListNoDup; apply (bool_decide_unpack _); vm_compute; exact I|]. intros n. unfold put_file. cbn [fst snd]. destruct (decide (n = txt "part[1]-4-2-1-1-01-00-00.stl")) as [->|H1]; [split; [discriminate|intros _; right; left; reflexivity]|].
    destruct (decide (n = txt "part[1]-4-2-1-1-00-00-00.stl")) as [->|H2]; [split; [discriminate|intros _; left; reflexivity]|].
    split; [intros [<-|[<-|[]]]; contradiction|intros C; contradiction]. }
  split; [exact Hl|]. split; [reflexivity|]. intros d' e H.
  apply (C86_stl_lost tt (fun b => inr b) (fun b : list byte => b) true 1 (txt "part") [x31] (txt "-4-2-1-1") _ names d' e) in H; [apply H|..].
  all: try exact Hl.
  - intros c C; cbn in C; repeat destruct C as [<-|C]; try contradiction; repeat split; discriminate.
  - split; [discriminate|]. split; [discriminate|]. intros c [<-|[]]. repeat split; discriminate.
  - intros [C|[]]. discriminate C.
  - intros c C; cbn in C; repeat destruct C as [<-|C]; try contradiction; repeat split; discriminate.
  - intros n Hn C. assert (G : forallb (fun n => forallb (fun c => negb (Byte.eqb c "/")) n) names = true) by (vm_compute; reflexivity).
    rewrite forallb_forall in G. apply G in Hn. rewrite forallb_forall in Hn. apply Hn in C. vm_compute in C. discriminate.
  - intros n [<-|[<-|[]]]; eexists; reflexivity.
Qed.
