(** C64: the merge-binvox command. *)
From Verif Require Import Base BaseLemmas BinvoxSpec BinvoxModel BinvoxProps Geom VshellModel VshellSpec VshellBits VshellMerge
  VshellProofs VshellGeom VshellProps VshellCodec VshellCodecSpec VshellCodecProps StldiceModel CmdMergeModel.
From Coq Require Import ZArith QArith List Bool String Init.Byte Lia Lqa.
From stdpp Require Import base list gmap sets fin_sets sorting.
Import ListNotations.
Open Scope Z_scope.

(** ** Specification vocabulary *)

(** Bytewise order of names: a proper prefix is smaller, else the first different byte decides. *)
Definition name_lt (a b : list byte) : Prop :=
  (exists y r, b = a ++ y :: r) \/
  (exists c x y r s, a = c ++ x :: r /\ b = c ++ y :: s /\ b2z x < b2z y).

(** [names] lists the directory, in some order. *)
Definition listing (d : dir) (names : list (list byte)) : Prop :=
  List.NoDup names /\ forall n, In n names <-> d n <> None.

(** [files] are the files of the directory whose name begins with [prefix] and then ends with [ext], in
    increasing order. *)
Definition matching (d : dir) (prefix ext : list byte) (files : list (list byte)) : Prop :=
  StronglySorted name_lt files /\
  forall n, In n files <-> (exists mid, n = prefix ++ mid ++ ext) /\ d n <> None.

(** ** Names *)

Lemma name_leb_spec a : forall b, name_leb a b = true <-> a = b \/ name_lt a b.
Proof.
  induction a as [|x a IH]; intros [|y b]; cbn [name_leb].
  - split; auto.
  - split; [|reflexivity]. intros _. right. left. exists y, b. reflexivity.
  - split; [discriminate|]. intros [H|[(z & r & H)|(c & u & v & r & s & H1 & H2 & _)]]; [discriminate|discriminate|].
    destruct c; discriminate.
  - destruct (Z.ltb_spec (b2z x) (b2z y)) as [Hlt|Hge].
    + split; [|reflexivity]. intros _. right. right. exists [], x, y, a, b. auto.
    + destruct (Z.eqb_spec (b2z x) (b2z y)) as [He|Hne].
      * apply b2z_inj in He. subst y. rewrite IH. split.
        -- intros [->|[(z & r & ->)|(c & u & v & r & s & -> & -> & H)]]; [auto|right; left; exists z, r; reflexivity|].
           right. right. exists (x :: c), u, v, r, s. auto.
        -- intros [H|[(z & r & H)|(c & u & v & r & s & H1 & H2 & H)]].
           ++ injection H as ->. auto.
           ++ cbn in H. injection H as ->. right. left. eauto.
           ++ destruct c as [|w c]; cbn in H1, H2.
              ** injection H1 as <- _. injection H2 as <- _. lia.
              ** injection H1 as <- ->. injection H2 as ->. right. right. exists c, u, v, r, s. auto.
      * split; [discriminate|]. intros [H|[(z & r & H)|(c & u & v & r & s & H1 & H2 & H)]].
        -- injection H as -> _. contradiction.
        -- cbn in H. injection H as -> _. contradiction.
        -- destruct c as [|w c]; cbn in H1, H2.
           ++ injection H1 as <- _. injection H2 as <- _. lia.
           ++ injection H1 as <- _. injection H2 as <- _. contradiction.
Qed.

Lemma name_lt_leb a b : name_lt a b <-> name_leb a b = true /\ name_leb b a = false.
Proof.
  revert b. induction a as [|x a IH]; intros [|y b]; cbn [name_leb].
  - split; [|intros [_ H]; discriminate]. intros [(z & r & H)|(c & u & v & r & s & H1 & _)]; [discriminate|destruct c; discriminate].
  - split; [auto|]. intros _. left. exists y, b. reflexivity.
  - split; [|intros [H _]; discriminate]. intros [(z & r & H)|(c & u & v & r & s & H1 & H2 & _)]; [discriminate|destruct c; discriminate].
  - destruct (Z.ltb_spec (b2z x) (b2z y)) as [Hlt|Hge].
    + assert (E1 : b2z y <? b2z x = false) by (apply Z.ltb_ge; lia). assert (E2 : b2z y =? b2z x = false) by (apply Z.eqb_neq; lia).
      rewrite E1, E2. split; [auto|]. intros _. right. exists [], x, y, a, b. auto.
    + destruct (Z.eqb_spec (b2z x) (b2z y)) as [He|Hne].
      * rewrite <- He, Z.ltb_irrefl, Z.eqb_refl. rewrite <- IH. apply b2z_inj in He. subst y. split.
        -- intros [(z & r & H)|(c & u & v & r & s & H1 & H2 & H)].
           ++ cbn in H. injection H as ->. left. eauto.
           ++ destruct c as [|w c]; cbn in H1, H2.
              ** injection H1 as <- _. injection H2 as <- _. lia.
              ** injection H1 as <- ->. injection H2 as ->. right. exists c, u, v, r, s. auto.
        -- intros [(z & r & ->)|(c & u & v & r & s & -> & -> & H)]; [left; exists z, r; reflexivity|].
           right. exists (x :: c), u, v, r, s. auto.
      * split; [|intros [H _]; discriminate]. intros [(z & r & H)|(c & u & v & r & s & H1 & H2 & H)].
        -- cbn in H. injection H as -> _. contradiction.
        -- destruct c as [|w c]; cbn in H1, H2.
           ++ injection H1 as <- _. injection H2 as <- _. lia.
           ++ injection H1 as <- _. injection H2 as <- _. contradiction.
Qed.

Lemma name_leb_total a b : name_leb a b = true \/ name_leb b a = true.
Proof.
  revert b. induction a as [|x a IH]; intros [|y b]; cbn [name_leb]; [auto..|].
  destruct (Z.ltb_spec (b2z x) (b2z y)); [auto|]. destruct (Z.ltb_spec (b2z y) (b2z x)); [auto|].
  assert (E : b2z x = b2z y) by lia. rewrite E, Z.eqb_refl. apply IH.
Qed.

Lemma name_leb_trans a : forall b c, name_leb a b = true -> name_leb b c = true -> name_leb a c = true.
Proof.
  induction a as [|x a IH]; intros [|y b] [|z c]; cbn [name_leb]; try (auto; discriminate).
  destruct (Z.ltb_spec (b2z x) (b2z y)), (Z.ltb_spec (b2z y) (b2z z)), (Z.ltb_spec (b2z x) (b2z z)); try reflexivity; try lia;
    destruct (Z.eqb_spec (b2z x) (b2z y)), (Z.eqb_spec (b2z y) (b2z z)), (Z.eqb_spec (b2z x) (b2z z)); try lia; try discriminate.
  apply IH.
Qed.

Lemma name_lt_irrefl a : ~ name_lt a a.
Proof. rewrite name_lt_leb. intros [H1 H2]. congruence. Qed.

Lemma name_lt_trans a b c : name_lt a b -> name_lt b c -> name_lt a c.
Proof.
  rewrite !name_lt_leb. intros [H1 H2] [H3 H4]. split; [eapply name_leb_trans; eassumption|].
  destruct (name_leb c a) eqn:E; [|reflexivity]. exfalso. rewrite (name_leb_trans b c a) in H2; [discriminate|..].
  - assumption.
  - assumption.
Qed.

#[local] Instance name_le_total : Total name_le.
Proof. intros a b. apply name_leb_total. Qed.
#[local] Instance name_le_trans : Transitive name_le.
Proof. intros a b c. apply name_leb_trans. Qed.

(** A strictly sorted list is determined by its elements. *)
Lemma sorted_unique l l' : StronglySorted name_lt l -> StronglySorted name_lt l' -> (forall n, In n l <-> In n l') -> l = l'.
Proof.
  revert l'. induction l as [|a l IH]; intros [|b l'] H H' E.
  - reflexivity.
  - exfalso. apply (E b). left. reflexivity.
  - exfalso. apply (E a). left. reflexivity.
  - inversion H as [|? ? Hs Ha]. inversion H' as [|? ? Hs' Hb]. subst. rewrite List.Forall_forall in Ha, Hb.
    assert (Eab : a = b).
    { destruct (proj1 (E a) (or_introl eq_refl)) as [->|H1]; [reflexivity|]. destruct (proj2 (E b) (or_introl eq_refl)) as [->|H2]; [reflexivity|].
      exfalso. apply (name_lt_irrefl a). eapply name_lt_trans; [apply Ha, H2|apply Hb, H1]. }
    subst b. f_equal. apply IH; [assumption..|]. intros n. split; intros Hn.
    + destruct (proj1 (E n) (or_intror Hn)) as [<-|]; [|assumption]. exfalso. apply (name_lt_irrefl a), Ha, Hn.
    + destruct (proj2 (E n) (or_intror Hn)) as [<-|]; [|assumption]. exfalso. apply (name_lt_irrefl a), Hb, Hn.
Qed.

Lemma drop_lit_Some p l r : drop_lit p l = Some r -> l = p ++ r.
Proof.
  revert l. induction p as [|a p IH]; intros l H; [injection H as ->; reflexivity|]. destruct l as [|b l]; cbn [drop_lit] in H; [discriminate H|]. revert H.
  destruct (Byte.eqb a b) eqn:E; [|discriminate]. apply Byte.byte_dec_bl in E. subst b. intros H. cbn. f_equal. apply IH, H.
Qed.

Lemma matches_spec prefix ext n : matches prefix ext n = true <-> exists mid, n = prefix ++ mid ++ ext.
Proof.
  unfold matches. split.
  - destruct (drop_lit prefix n) as [r|] eqn:E; [|discriminate]. apply drop_lit_Some in E. subst n.
    destruct (drop_lit (rev ext) (rev r)) as [q|] eqn:E; [|discriminate]. apply drop_lit_Some in E. intros _. exists (rev q). f_equal.
    rewrite <- (rev_involutive r), E, rev_app_distr, rev_involutive. reflexivity.
  - intros (mid & ->). rewrite drop_lit_app, rev_app_distr, drop_lit_app. reflexivity.
Qed.

Lemma Glob_matching d names prefix ext : listing d names -> matching d prefix ext (Glob names prefix ext).
Proof.
  intros [Hnd Hn]. unfold Glob. set (l := filter _ names). assert (Hin : forall n, In n (merge_sort name_le l) <-> In n l).
  { intros n. rewrite <- !elem_of_list_In. rewrite merge_sort_Permutation. reflexivity. }
  split.
  - assert (Hl : NoDup (merge_sort name_le l)).
    { rewrite merge_sort_Permutation. apply NoDup_filter, NoDup_ListNoDup, Hnd. }
    pose proof (StronglySorted_merge_sort name_le l) as Hs. revert Hs Hl. generalize (merge_sort name_le l). clear.
    induction 1 as [|a l Hs IH Ha]; [constructor|]. intros Hnd. apply NoDup_cons in Hnd as [Hna Hnd]. constructor; [auto|].
    rewrite List.Forall_forall in *. intros b Hb. specialize (Ha b Hb). apply name_leb_spec in Ha as [->|Ha]; [|exact Ha].
    exfalso. apply Hna, elem_of_list_In, Hb.
  - intros n. rewrite Hin. subst l. rewrite <- elem_of_list_In, elem_of_list_filter, elem_of_list_In, matches_spec, Hn. reflexivity.
Qed.

Lemma Glob_eq d names prefix ext files : listing d names -> matching d prefix ext files -> Glob names prefix ext = files.
Proof.
  intros Hl [Hs Hf]. destruct (Glob_matching d names prefix ext Hl) as [Hs' Hf']. apply sorted_unique; [assumption..|].
  intros n. rewrite Hf, Hf'. reflexivity.
Qed.

Lemma inputs_all force out files : ~ In out files -> inputs force out files = Some files.
Proof.
  induction files as [|f files IH]; [reflexivity|]. cbn [In inputs]. intros H. rewrite decide_False by (intros ->; auto).
  rewrite IH by auto. reflexivity.
Qed.

(** The name of the output never matches the pattern of the inputs. *)
Lemma vsh_no_match prefix mid : prefix ++ txt ".vsh" <> prefix ++ mid ++ txt ".binvox".
Proof.
  intros H. apply app_inv_head in H. apply (f_equal (@rev byte)) in H. rewrite rev_app_distr in H. discriminate H.
Qed.

Lemma binvox_inputs force d names prefix files : listing d names -> matching d prefix (txt ".binvox") files ->
  inputs force (prefix ++ txt ".vsh") (Glob names prefix (txt ".binvox")) = Some files.
Proof.
  intros Hl Hm. rewrite (Glob_eq d names prefix _ files Hl Hm). apply inputs_all. intros H. apply (proj2 Hm) in H as [(mid & H) _].
  exact (vsh_no_match _ _ H).
Qed.

(** ** The command on any directory *)

(** No other file is touched, however the run ends. *)
Theorem C64_only_output ft force prefix d names es n :
  n <> prefix ++ txt ".vsh" -> fst (merge_binvox ft force prefix d names es) n = d n.
Proof.
  intros Hn. unfold merge_binvox. destruct (inputs _ _ _) as [files|]; [|reflexivity].
  destruct (merge_files ft d es None files) as [e|[vs|]]; [reflexivity|..]; cbn [fst]; unfold put_file; cbn [fst]; apply decide_False, Hn.
Qed.

(** -f changes nothing: an old output file is overwritten with or without it. *)
Theorem C64_force_ignored ft prefix d names es : listing d names ->
  merge_binvox ft true prefix d names es = merge_binvox ft false prefix d names es.
Proof.
  intros Hl. unfold merge_binvox. pose proof (Glob_matching d names prefix (txt ".binvox") Hl) as Hm.
  rewrite !(binvox_inputs _ d names prefix _ Hl Hm). reflexivity.
Qed.

(** What [files] hold: the models read, each with its environment. *)
Definition holds ft (d : dir) (es : nat -> env) (files : list (list byte)) (parts : list (env * binvox Q)) : Prop :=
  length parts = length files /\
  forall i f, files !! i = Some f -> exists bytes bv, d f = Some bytes /\ read ft bytes 0 0 0 0 0 0 = inr bv /\ parts !! i = Some (es i, bv).

Lemma holds_nil ft d es : holds ft d es [] [].
Proof. split; [reflexivity|]. intros i f H. discriminate H. Qed.

Lemma holds_snoc ft d es files parts f bytes bv : holds ft d es files parts -> d f = Some bytes -> read ft bytes 0 0 0 0 0 0 = inr bv ->
  holds ft d es (files ++ [f]) (parts ++ [(es (length files), bv)]).
Proof.
  intros [Hlen H] Hd Hr. split; [rewrite !app_length, Hlen; reflexivity|]. intros i g Hi. apply lookup_app_Some in Hi as [Hi|[Hi1 Hi2]].
  - destruct (H i g Hi) as (b & v & H1 & H2 & H3). exists b, v. split; [exact H1|]. split; [exact H2|]. apply lookup_app_l_Some, H3.
  - destruct (i - length files)%nat as [|j] eqn:Ej; [|destruct j; discriminate Hi2]. injection Hi2 as <-.
    exists bytes, bv. split; [exact Hd|]. split; [exact Hr|]. rewrite lookup_app_r by lia. rewrite Hlen.
    replace i with (length files) by lia. rewrite Nat.sub_diag. reflexivity.
Qed.

Definition may_be_built (parts : list (env * binvox Q)) (vs : option vshell) : Prop :=
  match vs with None => parts = [] | Some vs => built parts vs end.

Lemma merge_files_ext ft d l : forall (g h : nat -> env) v, (forall i, g i = h i) -> merge_files ft d g v l = merge_files ft d h v l.
Proof.
  induction l as [|f l IH]; intros g h v H; [reflexivity|]. cbn [merge_files]. destruct (d f); [|reflexivity].
  destruct (read ft _ 0 0 0 0 0 0); [reflexivity|]. rewrite !H. destruct v as [v|].
  - destruct (vs_Add _ _ _ _ _ _ _) as [? []]; try reflexivity. apply IH. intros i. apply H.
  - destruct (vs_New _ _ _ _ _) as [? []]; try reflexivity. apply IH. intros i. apply H.
Qed.

(** How the run ends, for every directory: the inputs are the matching files in order of their names. *)
Theorem C64_outcome ft force prefix d names es files :
  listing d names -> matching d prefix (txt ".binvox") files ->
  let '(d', e) := merge_binvox ft force prefix d names es in
  match e with
  | Finished => exists parts vs, files <> [] /\ holds ft d es files parts /\ built parts vs /\
      d' (prefix ++ txt ".vsh") = Some (swrite_file ft vs 0 0 0 0 0 0)
  | Fatal => d' = d /\ exists pre f post parts vs, files = pre ++ f :: post /\ holds ft d es pre parts /\ may_be_built parts vs /\
      exists bytes, d f = Some bytes /\
      ((exists err, read ft bytes 0 0 0 0 0 0 = inl err) \/
       (exists bv s, read ft bytes 0 0 0 0 0 0 = inr bv /\ vs = Some s /\ Voxels s <> [] /\ trunc (shell_vpmm s) <> trunc (vpmm bv)))
  | Crashed => files = [] /\ d' (prefix ++ txt ".vsh") = Some []
  end.
Proof.
  intros Hl Hm. unfold merge_binvox. rewrite (binvox_inputs force d names prefix files Hl Hm).
  assert (L : forall rest pre parts vs, files = pre ++ rest -> holds ft d es pre parts -> may_be_built parts vs ->
    match merge_files ft d (fun i => es (length pre + i)%nat) vs rest with
    | inl Fatal => exists pre f post parts vs, files = pre ++ f :: post /\ holds ft d es pre parts /\ may_be_built parts vs /\
        exists bytes, d f = Some bytes /\
        ((exists err, read ft bytes 0 0 0 0 0 0 = inl err) \/
         (exists bv s, read ft bytes 0 0 0 0 0 0 = inr bv /\ vs = Some s /\ Voxels s <> [] /\ trunc (shell_vpmm s) <> trunc (vpmm bv)))
    | inl _ => False
    | inr vs' => exists parts, holds ft d es files parts /\ may_be_built parts vs'
    end).
  { induction rest as [|f rest IH]; intros pre parts vs E Hh Hb; cbn [merge_files].
    - rewrite app_nil_r in E. subst pre. eauto.
    - destruct (d f) as [bytes|] eqn:Hd.
      2:{ exfalso. apply (proj2 (proj1 (proj2 Hm f) ltac:(rewrite E; apply in_elt))). exact Hd. }
      destruct (read ft bytes 0 0 0 0 0 0) as [err|bv] eqn:Hr.
      { exists pre, f, rest, parts, vs. split; [exact E|]. split; [exact Hh|]. split; [exact Hb|]. exists bytes. split; [exact Hd|]. left. eauto. }
      pose proof (holds_snoc ft d es pre parts f bytes bv Hh Hd Hr) as Hh'.
      rewrite Nat.add_0_r. set (en := es (length pre)) in *.
      assert (E' : files = (pre ++ [f]) ++ rest) by (rewrite E, <- app_assoc; reflexivity).
      assert (Eext : forall v, merge_files ft d (fun i => es (length pre + S i)%nat) v rest = merge_files ft d (fun i => es (length (pre ++ [f]) + i)%nat) v rest).
      { intros v. apply merge_files_ext. intros i. f_equal. rewrite app_length. cbn [length]. lia. }
      destruct vs as [s|].
      + destruct (C21_add_outcome (e_grow en) (e_cap en) (e_white en) (e_color en) (e_order en) s (Some bv)) as [HF HD].
        destruct (decide (Voxels s <> [] /\ trunc (shell_vpmm s) <> trunc (vpmm bv))) as [[H1 H2]|Hc].
        * rewrite (HF H1 H2). exists pre, f, rest, parts, (Some s). split; [exact E|]. split; [exact Hh|]. split; [exact Hb|]. exists bytes. split; [exact Hd|].
          right. exists bv, s. auto.
        * destruct HD as (vs1 & E1).
          { destruct (decide (Voxels s = [])); [auto|]. right. destruct (Z.eq_dec (trunc (shell_vpmm s)) (trunc (vpmm bv))); [assumption|]. exfalso. auto. }
          rewrite E1, Eext. apply (IH (pre ++ [f]) (parts ++ [(en, bv)]) (Some vs1) E' Hh'). cbn. eapply built_next; eassumption.
      + cbn in Hb. subst parts. unfold vs_New.
        destruct (decide (0 < size (white bv))%nat) as [Hsz|Hsz].
        * destruct (C21_add_outcome (e_grow en) 0 (e_white en) (e_color en) (e_order en)
                      (VShell (NX bv) (NY bv) (NZ bv) (TX bv) (TY bv) (TZ bv) (Scale bv) []) (Some bv)) as [_ HD].
          destruct HD as (vs1 & E1); [left; reflexivity|]. rewrite E1, Eext. apply (IH (pre ++ [f]) ([] ++ [(en, bv)]) (Some vs1) E' Hh').
          apply built_first. unfold vs_New. rewrite decide_True by exact Hsz. exact E1.
        * rewrite Eext. apply (IH (pre ++ [f]) ([] ++ [(en, bv)]) (Some _) E' Hh').
          apply built_first. unfold vs_New. rewrite decide_False by exact Hsz. reflexivity. }
  specialize (L files [] [] None eq_refl (holds_nil ft d es) eq_refl). cbn [length Nat.add] in L.
  change (fun i => es i) with es in L.
  destruct (merge_files ft d es None files) as [[| |]|[vs|]]; [contradiction|auto|contradiction|..].
  - destruct L as (parts & Hh & Hb). exists parts, vs. split.
    + intros ->. destruct Hh as [Hlen _]. destruct parts; [|discriminate]. cbn in Hb. inversion Hb as [|? ? ? ? ? ? ? Hp]. destruct parts; discriminate Hp.
    + split; [exact Hh|]. split; [exact Hb|]. unfold put_file. cbn [fst snd]. apply decide_True. reflexivity.
  - destruct L as (parts & [Hlen _] & ->). split; [destruct files; [reflexivity|discriminate]|]. unfold put_file. cbn [fst snd]. apply decide_True. reflexivity.
Qed.
Print Assumptions C64_outcome.
