(** C51: what the stldice-slave server keeps and returns. *)
From Verif Require Import Base BaseLemmas FloatTextQ BinvoxModel StlParse StlParseProps SlaveModel.
From Coq Require Import ZArith QArith List Lia Bool String Init.Byte.
From stdpp Require Import base list gmap.
Import ListNotations.
Open Scope Z_scope.

Section Props.
  Context {F : Type} (ft : FloatText F) (f32 : Z -> F) (parse : list byte -> F) (bits32 : F -> Z) (norm : ftri F -> Z * Z * Z) (fmtV : F -> list byte).
  Notation serve := (serve ft f32 parse bits32 norm fmtV).
  Notation run := (run ft f32 parse bits32 norm fmtV).
  Notation Read := (Read ft).
  Notation filename := (filename fmtV).
  Notation saveSTL := (saveSTL bits32 norm).
  Notation stlToMesh := (stlToMesh f32 parse).

  Definition region_of (q : request F) : region F := match q with QAdd r _ | QSub r _ | QGet r => r end.

  (** ** What the server writes is no model *)

  Lemma read_zero bytes : read ft (x00 :: bytes) 0 0 0 0 0 0 = inl ENoHeader \/ read ft (x00 :: bytes) 0 0 0 0 0 0 = inl ENotBinvox.
  Proof.
    unfold read. cbn [orb Z.ltb Z.compare]. unfold read_header. cbn [read_line]. change (Byte.eqb x00 x0a) with false. cbn iota.
    destruct (read_line bytes) as [[line rest]|]; [right|left; reflexivity]. rewrite bool_decide_false by discriminate. reflexivity.
  Qed.

  Lemma no_model d name n ts : Read (put_file d name (take n (saveSTL ts))) name = None.
  Proof.
    unfold SlaveModel.Read, put_file. rewrite bool_decide_true by reflexivity. destruct n as [|n]; [reflexivity|]. unfold saveSTL. cbn [repeat app take].
    destruct (read_zero (take n (x00 :: repeat x00 78 ++ put32 (Z.of_nat (length ts)) ++ concat (map (put_tri bits32 norm) ts)))) as [E|E]; cbn [repeat app] in E; rewrite E; reflexivity.
  Qed.
  Lemma no_model_all d name ts : Read (put_file d name (saveSTL ts)) name = None.
  Proof. rewrite <- (take_ge (saveSTL ts) (length (saveSTL ts))) by lia. apply no_model. Qed.
  Lemma no_model_empty d name : Read (put_file d name []) name = None.
  Proof. unfold SlaveModel.Read, put_file. rewrite bool_decide_true by reflexivity. reflexivity. Qed.

  Lemma put_file_ne d name c n : n <> name -> put_file d name c n = d n.
  Proof. intros H. unfold put_file. rewrite bool_decide_false by exact H. reflexivity. Qed.
  Lemma put_file_eq d name c : put_file d name c name = Some c.
  Proof. unfold put_file. rewrite bool_decide_true by reflexivity. reflexivity. Qed.
  Lemma Read_ext d d' n : d n = d' n -> Read d n = Read d' n.
  Proof. unfold SlaveModel.Read. intros ->. reflexivity. Qed.

  (** The effect of one request on the directory: nothing, or the region's file becomes something
      that is no model. *)
  Lemma serve_effect d q o d' a : serve d q o = (d', a) ->
    d' = d \/ exists c, d' = put_file d (filename (region_of q)) c /\ Read d' (filename (region_of q)) = None.
  Proof.
    destruct q as [r stl|r stl|r]; cbn [SlaveModel.serve region_of].
    - unfold AddSTLMesh. destruct (stlToMesh stl) as [e|ts|]; try (intros E; injection E as <- <-; left; reflexivity).
      destruct (Read d (filename r)) as [b|].
      + cbn [voxelOp WriteNil]. destruct o; intros E; injection E as <- <-; [right|left; reflexivity|right]; (eexists; split; [reflexivity|apply no_model_empty]).
      + destruct o; cbn [save]; intros E; injection E as <- <-; [right|left; reflexivity|right]; (eexists; split; [reflexivity|]); [apply no_model_all|apply no_model].
    - unfold SubSTLMesh. destruct (Read d (filename r)) as [b|]; [|intros E; injection E as <- <-; left; reflexivity].
      destruct (stlToMesh stl) as [e|ts|]; try (intros E; injection E as <- <-; left; reflexivity).
      cbn [voxelOp WriteNil]. destruct o; intros E; injection E as <- <-; [right|left; reflexivity|right]; (eexists; split; [reflexivity|apply no_model_empty]).
    - unfold GetSTLMesh. destruct (Read d (filename r)); intros E; injection E as <- <-; left; reflexivity.
  Qed.

  Lemma run_app h1 : forall d h2, run d (h1 ++ h2) = let '(d1, r1) := run d h1 in let '(d2, r2) := run d1 h2 in (d2, r1 ++ r2).
  Proof.
    induction h1 as [|[q o] h1 IH]; intros d h2; [cbn; destruct (run d h2); reflexivity|]. cbn [app SlaveModel.run]. destruct (serve d q o) as [d1 a]. rewrite IH.
    destruct (run d1 h1) as [d2 r1]. destruct (run d2 h2). reflexivity.
  Qed.

  (** A request touches only the file of its region. *)
  Theorem C51_frame d q o name : name <> filename (region_of q) -> fst (serve d q o) name = d name.
  Proof.
    intros Hn. destruct (serve d q o) as [d' a] eqn:E. apply serve_effect in E as [->|(c & -> & _)]; [reflexivity|]. apply put_file_ne. exact Hn.
  Qed.

  (** No history makes or changes a model: one that is there at the end was there at the start, with
      the same bytes. *)
  Theorem C51_no_new_model h : forall d name, Read (fst (run d h)) name <> None -> fst (run d h) name = d name.
  Proof.
    induction h as [|[q o] h IH]; intros d name; [reflexivity|]. cbn [SlaveModel.run]. destruct (serve d q o) as [d1 a] eqn:E. specialize (IH d1 name).
    destruct (run d1 h) as [d2 rs]. cbn [fst] in *. intros Hr. specialize (IH Hr). apply serve_effect in E as [->|(c & -> & Hn)]; [exact IH|].
    rewrite IH. destruct (decide (name = filename (region_of q))) as [->|Hne]; [|apply put_file_ne; exact Hne].
    exfalso. apply Hr. rewrite (Read_ext _ _ _ IH). exact Hn.
  Qed.

  (** No subtraction ever succeeds, and no reply ever holds a mesh, whatever the directory and the
      history. *)
  Theorem C51_replies h : forall d i q o a, nth_error h i = Some (q, o) -> nth_error (snd (run d h)) i = Some a ->
    match q with
    | QAdd _ _ => a = RAdded \/ a = RError \/ a = RCrash
    | QSub _ _ => a = RError \/ a = RCrash
    | QGet _ => a = RError \/ a = RMesh []
    end.
  Proof.
    induction h as [|[q0 o0] h IH]; intros d i q o a Hq Ha; [destruct i; discriminate Hq|]. cbn [SlaveModel.run] in Ha. destruct (serve d q0 o0) as [d1 a0] eqn:E.
    destruct (run d1 h) as [d2 rs] eqn:Er. cbn [snd] in Ha. destruct i as [|i]; cbn [nth_error] in Hq, Ha.
    - injection Hq as -> ->. injection Ha as ->. destruct q as [r stl|r stl|r]; cbn [SlaveModel.serve] in E.
      + unfold AddSTLMesh in E. destruct (stlToMesh stl); try (injection E as <- <-; tauto). destruct (Read d (filename r)).
        * cbn [voxelOp WriteNil] in E. destruct o; injection E as <- <-; tauto.
        * destruct o; cbn [save] in E; injection E as <- <-; tauto.
      + unfold SubSTLMesh in E. destruct (Read d (filename r)); [|injection E as <- <-; tauto]. destruct (stlToMesh stl); try (injection E as <- <-; tauto).
        cbn [voxelOp WriteNil] in E. destruct o; injection E as <- <-; tauto.
      + unfold GetSTLMesh in E. destruct (Read d (filename r)); injection E as <- <-; tauto.
    - apply (IH d1 i q o a Hq). rewrite Er. exact Ha.
  Qed.

  (** To add to a model, or to subtract from it, empties its file and kills the server. *)
  Theorem C51_destroys d r stl ts b o : Read d (filename r) = Some b -> stlToMesh stl = SMesh ts -> o <> DNoCreate ->
    forall q, q = QAdd r stl \/ q = QSub r stl -> exists d', serve d q o = (d', RCrash) /\ d' (filename r) = Some [] /\ Read d' (filename r) = None.
  Proof.
    intros Hb Hs Ho q [-> | ->]; cbn [SlaveModel.serve]; [unfold AddSTLMesh|unfold SubSTLMesh]; rewrite Hb, Hs; cbn [voxelOp WriteNil]; exists (put_file d (filename r) []);
      (split; [destruct o; [reflexivity|congruence|reflexivity]|]; split; [apply put_file_eq|apply no_model_empty]).
  Qed.

  (** Without a model, to add succeeds and keeps the file given last, alone: what was added before is
      lost; and the region still has no model: to get or to subtract fails. *)
  Theorem C51_last_add d h r stl ts : Read d (filename r) = None -> stlToMesh stl = SMesh ts ->
    exists d' rs, run d (h ++ [(QAdd r stl, DOk)]) = (d', rs ++ [RAdded]) /\ d' (filename r) = Some (saveSTL ts) /\
      snd (serve d' (QGet r) DOk) = RError /\ forall stl' o, snd (serve d' (QSub r stl') o) = RError.
  Proof.
    intros Hd Hs. rewrite run_app. destruct (run d h) as [d1 rs] eqn:E. cbn [SlaveModel.run SlaveModel.serve].
    assert (Hn : Read d1 (filename r) = None).
    { destruct (Read d1 (filename r)) eqn:E1; [|reflexivity]. pose proof (C51_no_new_model h d (filename r)) as G. rewrite E in G. cbn [fst] in G. rewrite E1 in G.
      rewrite (Read_ext _ _ _ (G ltac:(discriminate))) in E1. congruence. }
    unfold AddSTLMesh. rewrite Hs, Hn. cbn [save]. exists (put_file d1 (filename r) (saveSTL ts)), rs. split; [reflexivity|]. split; [apply put_file_eq|].
    cbn [SlaveModel.serve]. unfold GetSTLMesh, SubSTLMesh. rewrite no_model_all. split; [reflexivity|]. reflexivity.
  Qed.

  (** An addition that reports success, whatever the disk does: the request was an STL file and all of
      it is in the region's file. *)
  Theorem C51_added d r stl o d' : serve d (QAdd r stl) o = (d', RAdded) ->
    exists ts, stlToMesh stl = SMesh ts /\ Read d (filename r) = None /\ d' (filename r) = Some (saveSTL ts).
  Proof.
    cbn [SlaveModel.serve]. unfold AddSTLMesh. destruct (stlToMesh stl) as [e|ts|]; try discriminate. destruct (Read d (filename r)) eqn:Er.
    - cbn [voxelOp WriteNil]. destruct o; discriminate.
    - destruct o; cbn [save]; intros E; try discriminate E. injection E as <-. exists ts. split; [reflexivity|]. split; [reflexivity|apply put_file_eq].
  Qed.

  (** To get does not clear the model, contrary to its comment. *)
  Theorem C51_get_keeps d r o : fst (serve d (QGet r) o) = d.
  Proof. cbn [SlaveModel.serve]. unfold GetSTLMesh. destruct (Read d (filename r)); reflexivity. Qed.

  (** ** Names *)

  (** A number's text: not empty, a dash only at the start or after an 'e', no 'e' at the end. *)
  Definition number_text (w : list byte) : Prop :=
    w <> [] /\ (forall a, w <> a ++ [x65]) /\ forall a b, w = a ++ dash ++ b -> a = [] \/ exists a', a = a' ++ [x65].

  Lemma split_dash w w' r r' : number_text w -> number_text w' -> w ++ dash ++ r = w' ++ dash ++ r' -> w = w' /\ r = r'.
  Proof.
    assert (G : forall u u' s s' k, number_text u -> number_text u' -> u = u' ++ k -> dash ++ s' = k ++ dash ++ s -> u = u' /\ s = s').
    { intros u u' s s' k (_ & _ & H1) (H2 & H3 & _) -> E. destruct k as [|x k]; [rewrite app_nil_r; split; [reflexivity|]; injection E; congruence|].
      cbn [dash app] in E. injection E as <- E. destruct (H1 u' k eq_refl) as [->|(a & ->)]; [congruence|]. destruct (H3 a eq_refl). }
    intros Hw Hw' E. apply app_eq_inv in E as [(k & E1 & E2)|(k & E1 & E2)].
    - destruct (G w w' r r' k Hw Hw' E1 E2). auto.
    - destruct (G w' w r' r k Hw' Hw E1 E2). auto.
  Qed.

  Lemma show_int_number n : number_text (show_int n).
  Proof.
    assert (D : forall l a x b, forallb is_digit l = true -> l = a ++ [x] ++ b -> is_digit x = true).
    { intros l a x b Hl ->. rewrite forallb_forall in Hl. apply Hl. apply in_app_iff. right. left. reflexivity. }
    unfold show_int. destruct (Z.ltb_spec n 0).
    - pose proof (show_nat_digits (- n) ltac:(lia)) as Hd. pose proof (show_nat_nonempty (- n) ltac:(lia)) as He. split; [discriminate|]. split.
      + intros [|y a] E; injection E as _ E; [congruence|]. pose proof (D _ a x65 [] Hd E). discriminate.
      + intros [|y a] b E; [auto|]. injection E as _ E. pose proof (D _ a x2d b Hd E). discriminate.
    - pose proof (show_nat_digits n ltac:(lia)) as Hd. split; [apply show_nat_nonempty; lia|]. split.
      + intros a E. pose proof (D _ a x65 [] Hd E). discriminate.
      + intros a b E. pose proof (D _ a x2d b Hd E). discriminate.
  Qed.
  Lemma show_int_inj a b : show_int a = show_int b -> a = b.
  Proof. intros E. rewrite <- (parse_show_int a), E. apply parse_show_int. Qed.

  (** Two regions share a file only if they are the same, given that %v of a float64 is injective and
      prints numbers with a dash only as a sign. *)
  Theorem C51_names r r' : (forall x, number_text (fmtV x)) -> (forall x y, fmtV x = fmtV y -> x = y) ->
    filename r = filename r' -> r = r'.
  Proof.
    intros Hn Hi. destruct r as [a b c d e f x y z], r' as [a' b' c' d' e' f' x' y' z']. unfold SlaveModel.filename. cbn [Llx Lly Llz Urx Ury Urz Rnx Rny Rnz].
    intros E. apply app_inv_head, app_inv_head in E.
    do 6 (apply split_dash in E as [E0 E]; [|apply Hn|apply Hn]; apply Hi in E0; subst).
    do 2 (apply split_dash in E as [E0 E]; [|apply show_int_number|apply show_int_number]; apply show_int_inj in E0; subst).
    apply app_inv_tail, show_int_inj in E as ->. reflexivity.
  Qed.

  (** Texts with dashes between them. *)
  Fixpoint dashed (l : list (list byte)) : list byte := match l with [] => [] | [a] => a | a :: l => a ++ txt "-" ++ dashed l end.

  (** The file of a region is called "model-", the six coordinates and the three numbers of voxels, with dashes between, and ".binvox";
      an addition that succeeds writes there. *)
  Theorem C51_file_name d r stl o d' : serve d (QAdd r stl) o = (d', RAdded) ->
    forall n, d' n <> d n -> n = dashed [txt "model"; fmtV (Llx r); fmtV (Lly r); fmtV (Llz r); fmtV (Urx r); fmtV (Ury r); fmtV (Urz r);
      show_int (Rnx r); show_int (Rny r); show_int (Rnz r)] ++ txt ".binvox".
  Proof.
    intros E n Hn.
    assert (H : n = filename r).
    { destruct (decide (n = filename r)) as [->|Hne]; [reflexivity|]. exfalso. apply Hn. pose proof (C51_frame d (QAdd r stl) o n Hne) as Hf. rewrite E in Hf. exact Hf. }
    rewrite H. unfold SlaveModel.filename, dash. cbn [dashed]. change (txt "-") with [x2d]. repeat rewrite <- app_assoc. reflexivity.
  Qed.
End Props.
Print Assumptions C51_file_name.
Print Assumptions C51_frame.
Print Assumptions C51_no_new_model.
Print Assumptions C51_replies.
Print Assumptions C51_destroys.
Print Assumptions C51_last_add.
Print Assumptions C51_added.
Print Assumptions C51_get_keeps.
Print Assumptions C51_names.

(** ** Example: a model is there; it is read, then destroyed by an addition; then additions replace
    each other. *)
Definition ex_r : region Q := Region 0%Q 0%Q 0%Q 1%Q 1%Q 1%Q 2 1 1.
Definition ex_model : list byte := txt "#binvox 1" ++ [x0a] ++ txt "dim 2 1 1" ++ [x0a] ++ txt "translate 0/1 0/1 0/1" ++ [x0a] ++ txt "scale 1/1" ++ [x0a] ++ txt "data" ++ [x0a] ++ [x01; x02].
Definition ex_d : dir := put_file (fun _ => None) (filename fmtQ ex_r) ex_model.
Definition ex_tri (n : Z) : ftri Q := ((inject_Z n, 0%Q, 0%Q), (0%Q, 1%Q, 0%Q), (0%Q, 0%Q, 1%Q)).
Definition ex_stl (n : Z) : list byte := saveSTL (fun q => Qnum q) (fun _ => (0, 0, 1)) [ex_tri n].
Definition ex_run := run qtext inject_Z (fun _ => 0%Q) (fun q => Qnum q) (fun _ => (0, 0, 1)) fmtQ ex_d.
Definition ex_h : list (request Q * disk) := [(QGet ex_r, DOk); (QAdd ex_r (ex_stl 5), DOk); (QGet ex_r, DOk); (QAdd ex_r (ex_stl 6), DOk); (QAdd ex_r (ex_stl 7), DOk); (QSub ex_r (ex_stl 7), DOk); (QGet ex_r, DOk)].
Example C51_ex : snd (ex_run ex_h) = [RMesh []; RCrash; RError; RAdded; RAdded; RError; RError] /\ fst (ex_run ex_h) (filename fmtQ ex_r) = Some (ex_stl 7).
Proof. split; vm_compute; reflexivity. Qed.
(** The hypotheses of C51_destroys hold of it. *)
Example C51_destroys_ex : (exists b, Read qtext ex_d (filename fmtQ ex_r) = Some b /\ NX b = 2) /\ stlToMesh inject_Z (fun _ => 0%Q) (ex_stl 5) = SMesh [ex_tri 5].
Proof. split; [eexists; split; [vm_compute; reflexivity|reflexivity]|vm_compute; reflexivity]. Qed.
