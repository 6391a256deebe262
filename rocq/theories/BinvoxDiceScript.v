(** C82: running the script that binvox-dice prints. *)
From Verif Require Import Base BaseLemmas BinvoxModel Geom VoxelizeModel MeshSpec FloatTextQ StldiceModel VoxcutModel CmdMergeModel CmdMergeProps CmdStlModel MeshInside MeshNear ToMesh ToMeshWind StldiceScriptModel StldiceScript
  BinvoxDiceModel BinvoxDiceProps CmdSvx BinvoxDiceScriptModel StldiceProps.
From Coq Require Import ZArith QArith List Bool String Init.Byte Lia Permutation FinFun.
From stdpp Require Import base list gmap sets fin_sets.
Import ListNotations.
Open Scope Z_scope.

(** ** Specification *)

(** File names: the STL file of an argument, what binvox makes of it for tile number [c], and the STL file of that tile. *)
Definition numbered_name (stem : list byte) (c : Z) : list byte := if c =? 0 then stem else stem ++ txt "_" ++ show_int c.
Definition arg_file (stem : list byte) : list byte := stem ++ txt ".stl".
Definition vox_file (stem : list byte) (c : Z) : list byte := numbered_name stem c ++ txt ".binvox".
Definition out_stl (c : Z) : list byte := numbered_name (txt "out") c ++ txt ".stl".

(** Names that the script can handle: of letters, digits and . _ + -, not beginning with -; so no blanks, no percent signs, nothing that is
    special to bash. *)
Definition simple (n : list byte) : Prop := proper n.
Lemma simple_none n : simple n -> ~ In x20 n /\ ~ In x25 n.
Proof. intros [H _]. rewrite forallb_forall in H. split; intros C; apply H in C; vm_compute in C; discriminate. Qed.

(** The names do not get into each other's way: they are different, none is another one with a number, and none is that of an output. *)
Definition separate (stems : list (list byte)) : Prop := List.NoDup stems /\
  (forall s s' n, In s stems -> In s' stems -> 0 < n -> s' <> s ++ txt "_" ++ show_int n) /\ (forall c, 0 <= c -> ~ In (numbered_name (txt "out") c) stems).

(** ** Names *)
Lemma show_int_inj a b : show_int a = show_int b -> a = b.
Proof. intros E. rewrite <- (parse_show_int a), E. apply parse_show_int. Qed.
Lemma suffix_name s c : 0 <= c -> s ++ cut_suffix c = numbered_name s c.
Proof.
  intros Hc. unfold cut_suffix, numbered_name. destruct (Z.gtb_spec c 0), (Z.eqb_spec c 0); try lia; [|apply app_nil_r].
  unfold show_int. destruct (Z.ltb_spec c 0); [lia|]. reflexivity.
Qed.

Lemma no_underscore c : 0 <= c -> ~ In x5f (show_int c).
Proof. intros Hc H. unfold show_int in H. destruct (Z.ltb_spec c 0); [lia|]. pose proof (show_nat_digits c Hc) as D. rewrite forallb_forall in D. apply D in H. discriminate. Qed.

Lemma split_last (a b a' b' : list byte) x : ~ In x b -> ~ In x b' -> a ++ [x] ++ b = a' ++ [x] ++ b' -> a = a' /\ b = b'.
Proof.
  intros Hb Hb'. revert a'. induction a as [|y a IH]; intros [|y' a'] E; cbn in E.
  - injection E as E. auto.
  - injection E as -> E. exfalso. apply Hb. rewrite E. apply in_app_iff. right. left. reflexivity.
  - injection E as -> E. exfalso. apply Hb'. rewrite <- E. apply in_app_iff. right. left. reflexivity.
  - injection E as -> E. destruct (IH _ E) as [-> ->]. auto.
Qed.

Lemma numbered_inj stems s s' c c' : separate stems -> In s stems -> In s' stems -> 0 <= c -> 0 <= c' -> numbered_name s c = numbered_name s' c' -> s = s' /\ c = c'.
Proof.
  intros (_ & Hsep & _) Hs Hs' Hc Hc'. unfold numbered_name. destruct (Z.eqb_spec c 0), (Z.eqb_spec c' 0).
  - intros ->. subst. auto.
  - intros E. exfalso. apply (Hsep s' s c'); [assumption..|lia|exact E].
  - intros E. exfalso. apply (Hsep s s' c); [assumption..|lia|symmetry; exact E].
  - intros E. change (txt "_") with [x5f] in E. apply split_last in E as [-> E]; [|apply no_underscore; assumption..]. split; [reflexivity|]. apply show_int_inj, E.
Qed.

Lemma out_inj c c' : 0 <= c -> 0 <= c' -> out_stl c = out_stl c' -> c = c'.
Proof.
  intros Hc Hc' E. unfold out_stl in E. apply app_inv_tail in E. unfold numbered_name in E. destruct (Z.eqb_spec c 0), (Z.eqb_spec c' 0); [lia|discriminate E|discriminate E|].
  do 2 apply app_inv_head in E. apply show_int_inj, E.
Qed.

Lemma vox_not_stl s c n : vox_file s c <> n ++ txt ".stl".
Proof.
  intros E. apply (f_equal (fun l => List.last l x00)) in E. unfold vox_file in E.
  change (txt ".stl") with (txt ".st" ++ [x6c]) in E. change (txt ".binvox") with (txt ".binvo" ++ [x78]) in E. rewrite !app_assoc, !last_last in E. discriminate.
Qed.

Lemma trim_stl s : TrimSuffix (arg_file s) (txt ".stl") = s.
Proof.
  unfold TrimSuffix, arg_file. rewrite app_length, Nat.add_sub. rewrite List.skipn_app, List.skipn_all, Nat.sub_diag. cbn [app skipn].
  rewrite decide_True by reflexivity. rewrite List.firstn_app, List.firstn_all, Nat.sub_diag. cbn [firstn]. apply app_nil_r.
Qed.

(** ** Lines *)
Lemma format_app s f c : ~ In x25 s -> format1 (s ++ f) c = option_map (app s) (format1 f c).
Proof.
  induction s as [|b s IH]; intros H; [cbn; destruct (format1 f c); reflexivity|]. cbn [app].
  assert (E : format1 (b :: s ++ f) c = option_map (cons b) (format1 (s ++ f) c)) by (destruct b; try reflexivity; exfalso; apply H; left; reflexivity).
  rewrite E, IH by (intros C; apply H; right; exact C). destruct (format1 f c); reflexivity.
Qed.
Lemma format_arg f c : format1 (txt "%[1]v" ++ f) c = option_map (app c) (format1 f c).
Proof. reflexivity. Qed.

Definition voxcut_text (stems : list (list byte)) (c : Z) : list byte :=
  txt "voxcut -ostl " ++ out_stl c ++ concat (map (fun s => [x20] ++ vox_file s c) stems).

Lemma sFmt_line stems c : 0 <= c -> Forall simple stems -> format1 (sFmt (map arg_file stems)) (cut_suffix c) = Some (voxcut_text stems c).
Proof.
  intros Hc Hs. unfold sFmt, voxcut_text, out_stl. rewrite <- suffix_name by exact Hc.
  change (txt "voxcut -ostl out%[1]v.stl") with (txt "voxcut -ostl out" ++ txt "%[1]v" ++ txt ".stl"). rewrite <- !app_assoc.
  rewrite format_app by (intros C; cbn in C; repeat destruct C as [C|C]; try discriminate C; exact C). rewrite format_arg.
  rewrite format_app by (intros C; cbn in C; repeat destruct C as [C|C]; try discriminate C; exact C).
  assert (E : format1 (concat (map (fun a => txt " " ++ TrimSuffix a (txt ".stl") ++ txt "%[1]v.binvox") (map arg_file stems))) (cut_suffix c) = Some (concat (map (fun s => [x20] ++ vox_file s c) stems))).
  { induction Hs as [|s stems Hp0 _ IH]; [reflexivity|]. destruct (simple_none s Hp0) as [_ Hp]. cbn [map concat]. set (rest := concat (map _ (map arg_file stems))) in IH |- *. rewrite trim_stl. change (txt "%[1]v.binvox") with (txt "%[1]v" ++ txt ".binvox"). rewrite <- !app_assoc.
    rewrite format_app by (intros [C|[]]; discriminate C). rewrite format_app by exact Hp. rewrite format_arg.
    rewrite format_app by (intros C; cbn in C; repeat destruct C as [C|C]; try discriminate C; exact C).
    rewrite IH. unfold vox_file. rewrite <- (suffix_name s) by exact Hc. cbn [option_map]. f_equal. change (txt " ") with [x20]. cbn [app]. f_equal. rewrite <- !app_assoc. reflexivity. }
  rewrite E. cbn [option_map]. reflexivity.
Qed.

Lemma simple_plain n : simple n -> plain n.
Proof. intros H. exact (proj1 (simple_none n H)). Qed.
Lemma plain_numbered s c : plain s -> plain (numbered_name s c).
Proof. intros H. unfold numbered_name. destruct (c =? 0); [exact H|]. apply plain_app; [exact H|]. apply plain_app; [intros [C|[]]; discriminate C|apply plain_int]. Qed.
Lemma plain_vox s c : plain s -> plain (vox_file s c).
Proof. intros H. apply plain_app; [apply plain_numbered, H|]. intros C. cbn in C. repeat destruct C as [C|C]; try discriminate C; exact C. Qed.
Lemma plain_out c : plain (out_stl c).
Proof. apply plain_app; [apply plain_numbered|]; intros C; cbn in C; repeat destruct C as [C|C]; try discriminate C; exact C. Qed.

Lemma voxcut_text_words stems c : Forall simple stems -> words (voxcut_text stems c) = txt "voxcut" :: txt "-ostl" :: out_stl c :: map (fun s => vox_file s c) stems.
Proof.
  intros Hs. unfold words, voxcut_text. change (txt "voxcut -ostl ") with (txt "voxcut" ++ x20 :: txt "-ostl" ++ [x20]). rewrite <- app_assoc. cbn [app]. rewrite <- (app_assoc (txt "-ostl")).
  change (txt "voxcut" ++ x20 :: ?r) with (txt "voxcut" ++ x20 :: r).
  rewrite StldiceScript.split_cons by (intros C; cbn in C; repeat destruct C as [C|C]; try discriminate C; exact C). cbn [app].
  rewrite StldiceScript.split_cons by (intros C; cbn in C; repeat destruct C as [C|C]; try discriminate C; exact C). cbn [app].
  rewrite <- (map_map (fun s => vox_file s c) (fun a => x20 :: a)).
  pose proof (split_all (map (fun s => vox_file s c) stems)) as H. cbn [app] in H. rewrite H; [reflexivity| |apply plain_out].
  apply List.Forall_forall. intros n Hn. apply in_map_iff in Hn as (s & <- & Hin). apply plain_vox, simple_plain. rewrite List.Forall_forall in Hs. apply Hs, Hin.
Qed.

Section Run.
  Context {F : Type} (ar : arith F) (fmtG : F -> list byte) (HG : forall x, plain (fmtG x)).
  Context {error : Type} (no_file : error) (load : list byte -> error + list face) (save : list face -> list byte).
  Context (NewVoxelMesh : list key -> list face -> Prop) (ft : FloatText Q) (workers : nat) (binvox : list (list byte) -> list byte -> option (list byte)).

  Lemma binvox_words x1 y1 z1 x2 y2 z2 arg : plain arg -> words (binvox_line fmtG x1 y1 z1 x2 y2 z2 arg) =
    txt "binvox" :: txt "-pb" :: [txt "-d"; txt "1024"; txt "-bb"; fmtG x1; fmtG y1; fmtG z1; fmtG x2; fmtG y2; fmtG z2] ++ [arg].
  Proof using HG.
    intros Ha. unfold words, binvox_line. change (txt "binvox -pb -d 1024 -bb ") with (txt "binvox" ++ x20 :: txt "-pb" ++ x20 :: txt "-d" ++ x20 :: txt "1024" ++ x20 :: txt "-bb" ++ [x20]).
    assert (D : forall s, forallb (fun c => negb (bool_decide (c = x20))) s = true -> plain s).
    { intros s H Hin. rewrite forallb_forall in H. apply H in Hin. rewrite bool_decide_true in Hin by reflexivity. discriminate. }
    change (txt " ") with [x20]. repeat (rewrite <- app_assoc || rewrite <- app_comm_cons). cbn [app].
    repeat (rewrite StldiceScript.split_cons by first [apply HG|apply D; reflexivity]; cbn [app]).
    rewrite StldiceScript.split_word by exact Ha. reflexivity.
  Qed.

  Notation run_line := (run_dice_line no_file load save NewVoxelMesh ft workers binvox).
  Notation run := (run_dice no_file load save NewVoxelMesh ft workers binvox).

  Lemma empty_step d d' : run_line d [] d' -> d' = d.
  Proof using.
    intros [_|ws arg d1 E _ _|d1 H]; [reflexivity|vm_compute in E; discriminate|]. destruct H as [r E|ostl b cuts d1 e E _|prefix names d1 e E _ _]; [discriminate|vm_compute in E; discriminate..].
  Qed.
  Lemma comment_step d l d' : run_line d (x23 :: l) d' -> d' = d.
  Proof using.
    assert (W : forall w ws, words (x23 :: l) = w :: ws -> hd x00 w = x23).
    { intros w ws E. assert (G : forall l cur, hd x00 cur = x23 -> cur <> [] -> forall w ws, split_words cur l = w :: ws -> hd x00 w = x23).
      { clear. induction l as [|b l IH]; intros cur H Hn w ws E; cbn in E; [injection E as <- _; exact H|]. destruct (decide (b = x20)); [injection E as <- _; exact H|].
        apply (IH (cur ++ [b])) in E; [exact E| |destruct cur; discriminate]. destruct cur; [congruence|exact H]. }
      apply (G l [x23] eq_refl ltac:(discriminate) w ws). exact E. }
    intros [E|ws arg d1 E _ _|d1 H]; [discriminate|apply W in E; discriminate|]. destruct H as [r E|ostl b cuts d1 e E _|prefix names d1 e E _ _]; [reflexivity|apply W in E; discriminate..].
  Qed.

  Lemma binvox_step d x1 y1 z1 x2 y2 z2 s d' stl bytes c : plain s -> run_line d (binvox_line fmtG x1 y1 z1 x2 y2 z2 (arg_file s)) d' -> d (arg_file s) = Some stl ->
    binvox [txt "-d"; txt "1024"; txt "-bb"; fmtG x1; fmtG y1; fmtG z1; fmtG x2; fmtG y2; fmtG z2] stl = Some bytes -> 0 <= c ->
    (forall j, 0 <= j < c -> d (vox_file s j) <> None) -> d (vox_file s c) = None -> d' = put_file d (vox_file s c, bytes).
  Proof using HG.
    intros Hs Hr Hstl Hb Hc Hbusy Hfree.
    assert (Hp : plain (arg_file s)) by (apply plain_app; [exact Hs|]; intros C; cbn in C; repeat destruct C as [C|C]; try discriminate C; exact C).
    pose proof (binvox_words x1 y1 z1 x2 y2 z2 (arg_file s) Hp) as Ew.
    set (ws0 := [txt "-d"; txt "1024"; txt "-bb"; fmtG x1; fmtG y1; fmtG z1; fmtG x2; fmtG y2; fmtG z2]) in *.
    assert (Hl : exists r, binvox_line fmtG x1 y1 z1 x2 y2 z2 (arg_file s) = x62 :: r) by (eexists; reflexivity).
    set (line := binvox_line fmtG x1 y1 z1 x2 y2 z2 (arg_file s)) in *. clearbody line.
    destruct Hr as [E|ws arg d1 E Hlen Hrun|d1 H].
    - destruct Hl as (r & Hl). congruence.
    - rewrite E in Ew. injection Ew as Ew. apply (app_inj_tail ws ws0 arg (arg_file s)) in Ew as [-> ->].
      destruct Hrun as [Hf|stem stl' bytes' c' Ea Hd Hb' Hc' Hbusy' Hfree'].
      + exfalso. destruct Hf as [Hf|Hf]; [rewrite Hstl in Hf; congruence|exact (Hf s eq_refl)].
      + unfold arg_file in Ea. apply app_inv_tail in Ea as <-. rewrite Hstl in Hd. injection Hd as <-. rewrite Hb in Hb'. injection Hb' as <-.
        rewrite app_assoc, suffix_name in * by exact Hc'. fold (vox_file s c') in *.
        assert (c' = c).
        { destruct (Z.lt_trichotomy c' c) as [L|[L|L]]; [|exact L|]; exfalso; [apply (Hbusy c'); [lia|exact Hfree']|].
          apply (Hbusy' c); [lia|]. rewrite app_assoc, suffix_name by exact Hc. exact Hfree. }
        subst c'. reflexivity.
    - exfalso. destruct Hl as (r & Hl). destruct H as [r' E|ostl b cuts d1 e E _|prefix names d1 e E _ _]; [congruence|rewrite E in Ew; discriminate..].
  Qed.

  Lemma voxcut_step d base cuts c d' : Forall simple (base :: cuts) -> run_line d (voxcut_text (base :: cuts) c) d' ->
    (forall n, n <> out_stl c -> d' n = d n) /\
    match voxcut_main ft 0 0 0 0 0 0 (d (vox_file base c)) (map d (map (fun s => vox_file s c) cuts)) with
    | Some b => exists m, is_mesh NewVoxelMesh b m /\ d' (out_stl c) = Some (save m)
    | None => d' (out_stl c) = d (out_stl c)
    end.
  Proof using.
    intros Hs Hr. pose proof (voxcut_text_words _ c Hs) as Ew. assert (Hl : exists r, voxcut_text (base :: cuts) c = x76 :: r) by (eexists; reflexivity).
    set (line := voxcut_text (base :: cuts) c) in *. clearbody line. destruct Hl as (r & Hl).
    destruct Hr as [E|ws arg d1 E Hlen Hrun|d1 H]; [congruence|rewrite E in Ew; discriminate|].
    destruct H as [r' E|ostl b cs d1 e E Hc|prefix names d1 e E _ _]; [congruence| |rewrite E in Ew; discriminate].
    rewrite E in Ew. injection Ew as -> -> ->. destruct Hc as [Hc|b' f whites cols Hc Hm1 Hm2 Hm3]; rewrite Hc.
    - split; reflexivity.
    - split; [intros n Hn; apply put_file_other, Hn|]. eexists. split; [exists f, whites, cols; split; [exact Hm1|]; split; [exact Hm2|]; split; [exact Hm3|reflexivity]|]. unfold put_file. cbn [fst snd]. apply decide_True. reflexivity.
  Qed.

  Lemma dice_app l1 l2 d d2 : run d (l1 ++ l2) d2 -> exists d1, run d l1 d1 /\ run d1 l2 d2.
  Proof using.
    revert d. induction l1 as [|x l1 IH]; intros d H; [exists d; split; [constructor|exact H]|]. cbn [app] in H. inversion_clear H as [|? ? ? d1 ? H1 H2].
    destruct (IH _ H2) as (d' & H3 & H4). exists d'. split; [econstructor; eassumption|exact H4].
  Qed.

  Lemma dice_app_intro l1 l2 d d1 d2 : run d l1 d1 -> run d1 l2 d2 -> run d (l1 ++ l2) d2.
  Proof using. intros H. induction H as [|d line lines d' d'' H1 H2 IH]; intros Hr; [exact Hr|]. cbn [app]. econstructor; [exact H1|exact (IH Hr)]. Qed.

  (** The lines of a tile. *)
  Definition tile_text (stems : list (list byte)) (x1 y1 z1 x2 y2 z2 : F) (c : Z) : list (list byte) :=
    [] :: map (fun s => binvox_line fmtG x1 y1 z1 x2 y2 z2 (arg_file s)) stems ++ [voxcut_text stems c].

  Lemma print_tile stems x1 y1 z1 x2 y2 z2 c rest : 0 <= c -> Forall simple stems ->
    print_commands fmtG (map arg_file stems) true (map (RunBinvox x1 y1 z1 x2 y2 z2) (map arg_file stems) ++ RunVoxcut (cut_suffix c) :: rest) =
    tile_text stems x1 y1 z1 x2 y2 z2 c ++ print_commands fmtG (map arg_file stems) true rest.
  Proof using.
    intros Hc Hs. pose proof (sFmt_line stems c Hc Hs) as El. unfold tile_text. cbn [app].
    assert (G : forall l first, print_commands fmtG (map arg_file stems) first (map (RunBinvox x1 y1 z1 x2 y2 z2) (map arg_file l) ++ RunVoxcut (cut_suffix c) :: rest) =
      (if first : bool then [[]] else []) ++ (map (fun s => binvox_line fmtG x1 y1 z1 x2 y2 z2 (arg_file s)) l ++ [voxcut_text stems c]) ++ print_commands fmtG (map arg_file stems) true rest).
    { induction l as [|a l IH]; intros first; cbn [map app print_commands print_command].
      - rewrite El. reflexivity.
      - rewrite IH. reflexivity. }
    rewrite G. reflexivity.
  Qed.

  Lemma binvox_go d x1 y1 z1 x2 y2 z2 s stl bytes c : plain s -> d (arg_file s) = Some stl ->
    binvox [txt "-d"; txt "1024"; txt "-bb"; fmtG x1; fmtG y1; fmtG z1; fmtG x2; fmtG y2; fmtG z2] stl = Some bytes -> 0 <= c ->
    (forall j, 0 <= j < c -> d (vox_file s j) <> None) -> d (vox_file s c) = None ->
    run_line d (binvox_line fmtG x1 y1 z1 x2 y2 z2 (arg_file s)) (put_file d (vox_file s c, bytes)).
  Proof using HG.
    intros Hs Hstl Hb Hc Hbusy Hfree.
    assert (Hp : plain (arg_file s)) by (apply plain_app; [exact Hs|]; intros C; cbn in C; repeat destruct C as [C|C]; try discriminate C; exact C).
    eapply run_binvox; [apply binvox_words, Hp|reflexivity|]. unfold vox_file in *. rewrite <- suffix_name in * by exact Hc. rewrite <- app_assoc in *.
    eapply binvox_saves; [reflexivity|exact Hstl|exact Hb|exact Hc| |exact Hfree]. intros j Hj. specialize (Hbusy j Hj). rewrite <- suffix_name, <- app_assoc in Hbusy by lia. exact Hbusy.
  Qed.

  Lemma voxcut_go d base cuts c : (forall l, exists m, NewVoxelMesh l m) -> Forall simple (base :: cuts) -> exists d', run_line d (voxcut_text (base :: cuts) c) d'.
  Proof using.
    intros Hnvm Hs. pose proof (voxcut_text_words _ c Hs) as Ew. cbn [map] in Ew.
    destruct (voxcut_main ft 0 0 0 0 0 0 (d (vox_file base c)) (map d (map (fun s => vox_file s c) cuts))) as [b|] eqn:E.
    - destruct (Hnvm (elements (white b) ++ elements (dom (colors b)))) as (m & Hm). eexists. apply run_known. eapply run_voxcut; [exact Ew|].
      apply (voxcut_saved _ _ _ _ _ _ _ b (fun _ => m) (elements (white b)) (elements (dom (colors b))) E); [reflexivity..|exact Hm].
    - eexists. apply run_known. eapply run_voxcut; [exact Ew|]. apply voxcut_fatal, E.
  Qed.

  (** What a line with binvox leaves alone. *)
  Lemma binvox_frame d x1 y1 z1 x2 y2 z2 s d' : plain s -> run_line d (binvox_line fmtG x1 y1 z1 x2 y2 z2 (arg_file s)) d' ->
    (forall n, d n <> None -> d' n = d n) /\ (forall n, d' (n ++ txt ".stl") = d (n ++ txt ".stl")).
  Proof using HG.
    intros Hs Hr.
    assert (Hp : plain (arg_file s)) by (apply plain_app; [exact Hs|]; intros C; cbn in C; repeat destruct C as [C|C]; try discriminate C; exact C).
    pose proof (binvox_words x1 y1 z1 x2 y2 z2 (arg_file s) Hp) as Ew.
    set (ws0 := [txt "-d"; txt "1024"; txt "-bb"; fmtG x1; fmtG y1; fmtG z1; fmtG x2; fmtG y2; fmtG z2]) in *.
    assert (Hl : exists r, binvox_line fmtG x1 y1 z1 x2 y2 z2 (arg_file s) = x62 :: r) by (eexists; reflexivity).
    set (line := binvox_line fmtG x1 y1 z1 x2 y2 z2 (arg_file s)) in *. clearbody line.
    destruct Hr as [E|ws arg d1 E Hlen Hrun|d1 H].
    - destruct Hl as (r & Hl). congruence.
    - rewrite E in Ew. injection Ew as Ew. apply (app_inj_tail ws ws0 arg (arg_file s)) in Ew as [-> ->].
      destruct Hrun as [Hf|stem stl' bytes' c' Ea Hd Hb' Hc' Hbusy' Hfree']; [auto|].
      rewrite app_assoc, suffix_name in * by exact Hc'. fold (vox_file stem c') in *. split.
      + intros n Hn. apply put_file_other. cbn [fst]. intros ->. contradiction.
      + intros n. apply put_file_other. cbn [fst]. intros E'. exact (vox_not_stl _ _ _ (eq_sym E')).
    - exfalso. destruct Hl as (r & Hl). destruct H as [r' E|ostl b cuts d1 e E _|prefix names d1 e E _ _]; [congruence|rewrite E in Ew; discriminate..].
  Qed.

  Lemma binvoxes_frame x1 y1 z1 x2 y2 z2 l : Forall simple l -> forall d d', run d (map (fun s => binvox_line fmtG x1 y1 z1 x2 y2 z2 (arg_file s)) l) d' ->
    (forall n, d n <> None -> d' n = d n) /\ (forall n, d' (n ++ txt ".stl") = d (n ++ txt ".stl")).
  Proof using HG.
    induction 1 as [|s l Hs _ IH]; intros d d' Hr; cbn [map] in Hr; [inversion Hr; subst; auto|inversion_clear Hr as [|? ? ? d1 ? H1 H2]].
    apply binvox_frame in H1 as [F1 F2]; [|apply simple_plain, Hs]. destruct (IH _ _ H2) as [F3 F4]. split.
    - intros n Hn. rewrite F3 by (rewrite F1; assumption). apply F1, Hn.
    - intros n. rewrite F4. apply F2.
  Qed.

  (** What the lines of a tile leave alone. *)
  Lemma tile_frame base cuts x1 y1 z1 x2 y2 z2 c d d' : Forall simple (base :: cuts) -> run d (tile_text (base :: cuts) x1 y1 z1 x2 y2 z2 c) d' ->
    (forall s j, d (vox_file s j) <> None -> d' (vox_file s j) = d (vox_file s j)) /\
    (forall n, n ++ txt ".stl" <> out_stl c -> d' (n ++ txt ".stl") = d (n ++ txt ".stl")) /\
    exists base_file cut_files, (d (vox_file base c) <> None -> base_file = d (vox_file base c)) /\
      match voxcut_main ft 0 0 0 0 0 0 base_file cut_files with
      | Some b => exists m, is_mesh NewVoxelMesh b m /\ d' (out_stl c) = Some (save m)
      | None => d' (out_stl c) = d (out_stl c)
      end.
  Proof using HG.
    intros Hs Hr. unfold tile_text in Hr. inversion_clear Hr as [|? ? ? da ? H1 H2]. apply empty_step in H1. subst da.
    apply (dice_app (map (fun s => binvox_line fmtG x1 y1 z1 x2 y2 z2 (arg_file s)) (base :: cuts))) in H2 as (da & Hbin & Hcut). inversion_clear Hcut as [|? ? ? db ? Hcut' Hend]. inversion Hend; subst. clear Hend.
    apply binvoxes_frame in Hbin as [F1 F2]; [|exact Hs]. apply voxcut_step in Hcut' as [Hoth Hout]; [|exact Hs].
    split; [|split].
    - intros s j Hn. rewrite Hoth by (intros E; exact (vox_not_stl _ _ _ E)). apply F1, Hn.
    - intros n Hn. rewrite Hoth by exact Hn. apply F2.
    - exists (da (vox_file base c)), (map da (map (fun s => vox_file s c) cuts)). split; [intros Hn; apply F1, Hn|].
      destruct (voxcut_main ft 0 0 0 0 0 0 (da (vox_file base c)) (map da (map (fun s => vox_file s c) cuts))); [exact Hout|]. rewrite Hout. apply F2.
  Qed.

  Section Tiles.
    Context (base : list byte) (cuts : list (list byte)) (stl : list byte -> list byte) (box : Z -> F * F * F * F * F * F) (d0 : dir) (N : Z).
    Notation stems := (base :: cuts).
    Context (Hsimple : Forall simple stems) (Hsep : separate stems).
    Definition box_words (b : F * F * F * F * F * F) : list (list byte) :=
      let '(x1, y1, z1, x2, y2, z2) := b in [txt "-d"; txt "1024"; txt "-bb"; fmtG x1; fmtG y1; fmtG z1; fmtG x2; fmtG y2; fmtG z2].
    Definition text_at (c : Z) : list (list byte) := let '(x1, y1, z1, x2, y2, z2) := box c in tile_text stems x1 y1 z1 x2 y2 z2 c.
    Definition made (s : list byte) (c : Z) : option (list byte) := binvox (box_words (box c)) (stl s).
    Context (Hok : forall s c, In s stems -> 0 <= c < N -> made s c <> None).

    Definition tile_ok (d : dir) (c : Z) : Prop :=
      match voxcut_main ft 0 0 0 0 0 0 (made base c) (map (fun s => made s c) cuts) with
      | Some b => exists m, is_mesh NewVoxelMesh b m /\ d (out_stl c) = Some (save m)
      | None => d (out_stl c) = d0 (out_stl c)
      end.
    Record inv (c : Z) (done : list (list byte)) (d : dir) : Prop := Inv {
      i_made s j : In s stems -> 0 <= j -> j < c \/ (j = c /\ In s done) -> d (vox_file s j) = made s j;
      i_free s j : In s stems -> 0 <= j -> c < j \/ (j = c /\ ~ In s done) -> d (vox_file s j) = None;
      i_stl s : In s stems -> d (arg_file s) = Some (stl s);
      i_todo j : 0 <= j -> c <= j -> d (out_stl j) = d0 (out_stl j);
      i_out j : 0 <= j < c -> tile_ok d j
    }.

    Lemma inv_binvox c done d s d' : 0 <= c < N -> In s stems -> ~ In s done -> inv c done d ->
      (let '(x1, y1, z1, x2, y2, z2) := box c in run_line d (binvox_line fmtG x1 y1 z1 x2 y2 z2 (arg_file s)) d') -> inv c (s :: done) d'.
    Proof using HG Hsimple Hsep Hok.
      intros Hc Hs Hn HI Hr. destruct (made s c) as [bytes|] eqn:Em; [|exfalso; exact (Hok s c Hs Hc Em)].
      assert (Hd' : d' = put_file d (vox_file s c, bytes)).
      { unfold made in Em. destruct (box c) as [[[[[x1 y1] z1] x2] y2] z2]. eapply binvox_step; [|exact Hr|apply (i_stl _ _ _ HI), Hs|exact Em|lia| |].
        - apply simple_plain. rewrite List.Forall_forall in Hsimple. apply Hsimple, Hs.
        - intros j Hj. rewrite (i_made _ _ _ HI s j Hs) by lia. apply Hok; [exact Hs|lia].
        - apply (i_free _ _ _ HI); [exact Hs|lia|right; auto]. }
      assert (Hoth : forall n, n <> vox_file s c -> d' n = d n) by (intros n Hne; rewrite Hd'; apply put_file_other, Hne).
      assert (Hnew : d' (vox_file s c) = made s c) by (rewrite Hd', Em; unfold put_file; cbn [fst snd]; apply decide_True; reflexivity).
      assert (Hv : forall s' j, In s' stems -> 0 <= j -> vox_file s' j = vox_file s c -> s' = s /\ j = c).
      { intros s' j Hs' Hj E. unfold vox_file in E. apply app_inv_tail in E. apply (numbered_inj stems); [assumption..|lia|exact E]. }
      assert (Hstl : forall n, d' (n ++ txt ".stl") = d (n ++ txt ".stl")) by (intros n; apply Hoth; intros E; exact (vox_not_stl s c n (eq_sym E))).
      split.
      - intros s' j Hs' Hj H. destruct (decide (vox_file s' j = vox_file s c)) as [E|E].
        + destruct (Hv s' j Hs' Hj E) as [-> ->]. exact Hnew.
        + rewrite Hoth by exact E. apply (i_made _ _ _ HI); [assumption..|]. destruct H as [H|[-> [<-|H]]]; [left; exact H|congruence|right; auto].
      - intros s' j Hs' Hj H. rewrite Hoth.
        + apply (i_free _ _ _ HI); [assumption..|]. destruct H as [H|[-> H]]; [left; exact H|right; split; [reflexivity|]]. intros C. apply H. right. exact C.
        + intros E. destruct (Hv s' j Hs' Hj E) as [-> ->]. destruct H as [H|[_ H]]; [lia|]. apply H. left. reflexivity.
      - intros s' Hs'. unfold arg_file. rewrite Hstl. apply (i_stl _ _ _ HI), Hs'.
      - intros j Hj H. unfold out_stl. rewrite Hstl. apply (i_todo _ _ _ HI); assumption.
      - intros j Hj. pose proof (i_out _ _ _ HI j Hj) as H. unfold tile_ok, out_stl in *. rewrite Hstl. exact H.
    Qed.

    Lemma inv_tile c d d' : 0 <= c < N -> inv c [] d -> run d (text_at c) d' -> inv (c + 1) [] d'.
    Proof using HG Hsimple Hsep Hok.
      intros Hc HI Hr. unfold text_at in Hr. assert (Hb : forall s d d', (let '(x1, y1, z1, x2, y2, z2) := box c in run_line d (binvox_line fmtG x1 y1 z1 x2 y2 z2 (arg_file s)) d') ->
        forall done, In s stems -> ~ In s done -> inv c done d -> inv c (s :: done) d') by (intros; eapply inv_binvox; eassumption).
      destruct (box c) as [[[[[x1 y1] z1] x2] y2] z2] eqn:Ebox. unfold tile_text in Hr. inversion_clear Hr as [|? ? ? da ? H1 H2]. apply empty_step in H1. subst da.
      apply (dice_app (map (fun s => binvox_line fmtG x1 y1 z1 x2 y2 z2 (arg_file s)) stems)) in H2 as (da & Hbin & Hcut). inversion_clear Hcut as [|? ? ? db ? Hcut' Hend]. inversion Hend; subst. clear Hend.
      assert (HI' : exists done, (forall s, In s stems -> In s done) /\ inv c done da).
      { assert (G : forall l dz done d, List.NoDup l -> (forall s, In s l -> In s stems /\ ~ In s done) -> inv c done d ->
          run d (map (fun s => binvox_line fmtG x1 y1 z1 x2 y2 z2 (arg_file s)) l) dz -> exists done', (forall s, In s done \/ In s l -> In s done') /\ inv c done' dz).
        { induction l as [|s l IH]; intros dz done d1 Hnd Hl HI1 Hr1; cbn [map] in Hr1; [inversion Hr1; subst|inversion_clear Hr1 as [|? ? ? d2 ? Hs1 Hs2]].
          - exists done. split; [intros s [H|[]]; exact H|exact HI1].
          - inversion_clear Hnd as [|? ? Hni Hnd']. destruct (Hl s (or_introl eq_refl)) as [Hin Hnin].
            destruct (IH dz (s :: done) d2 Hnd') as (done' & Hd' & HI2); [|exact (Hb s d1 d2 Hs1 done Hin Hnin HI1)|exact Hs2|].
            + intros s' Hs'. split; [apply Hl; right; exact Hs'|]. intros [<-|C]; [contradiction|]. apply (Hl s' (or_intror Hs')), C.
            + exists done'. split; [|exact HI2]. intros s' [H|[<-|H]]; apply Hd'; [left; right; exact H|left; left; reflexivity|right; exact H]. }
        destruct (G stems da [] d) as (done & Hd & HI1); [apply Hsep|intros s Hs; split; [exact Hs|intros []]|exact HI|exact Hbin|]. exists done. split; [intros s Hs; apply Hd; right; exact Hs|exact HI1]. }
      destruct HI' as (done & Hdone & HI'). apply voxcut_step in Hcut' as [Hoth Hout]; [|exact Hsimple].
      assert (Hvx : forall s, In s stems -> da (vox_file s c) = made s c) by (intros s Hs; apply (i_made _ _ _ HI'); [exact Hs|lia|right; split; [reflexivity|apply Hdone, Hs]]).
      assert (Hnv : forall s j, vox_file s j <> out_stl c) by (intros s j E; exact (vox_not_stl _ _ _ E)).
      assert (Hno : forall j, 0 <= j -> j <> c -> out_stl j <> out_stl c) by (intros j Hj Hne E; apply Hne, out_inj; [exact Hj|lia|exact E]).
      split.
      - intros s j Hs Hj H. rewrite Hoth by apply Hnv. apply (i_made _ _ _ HI'); [assumption..|]. destruct H as [H|[_ []]]. destruct (Z.eq_dec j c); [right; auto|left; lia].
      - intros s j Hs Hj H. rewrite Hoth by apply Hnv. apply (i_free _ _ _ HI'); [assumption..|]. left. lia.
      - intros s Hs. rewrite Hoth; [apply (i_stl _ _ _ HI'), Hs|]. intros E. unfold arg_file, out_stl in E. apply app_inv_tail in E. destruct Hsep as (_ & _ & H). apply (H c ltac:(lia)). rewrite <- E. exact Hs.
      - intros j Hj H. rewrite Hoth by (apply Hno; lia). apply (i_todo _ _ _ HI'); lia.
      - intros j Hj. unfold tile_ok. destruct (Z.eq_dec j c) as [->|Hne].
        + rewrite (Hvx base (or_introl eq_refl)) in Hout. assert (Em : map da (map (fun s => vox_file s c) cuts) = map (fun s => made s c) cuts).
          { rewrite map_map. apply map_ext_in. intros s Hs. apply Hvx. right. exact Hs. }
          rewrite Em in Hout. destruct (voxcut_main ft 0 0 0 0 0 0 (made base c) (map (fun s => made s c) cuts)); [exact Hout|]. rewrite Hout. apply (i_todo _ _ _ HI'); lia.
        + pose proof (i_out _ _ _ HI' j ltac:(lia)) as H. unfold tile_ok in H. rewrite Hoth by (apply Hno; lia). exact H.
    Qed.

    Lemma inv_tiles n d2 : 0 <= n <= N -> inv 0 [] d0 -> run d0 (flat_map text_at (upto n)) d2 -> inv n [] d2.
    Proof using HG Hsimple Hsep Hok.
      intros Hn HI. revert d2. assert (G : forall m : nat, Z.of_nat m <= N -> forall d2, run d0 (flat_map text_at (upto (Z.of_nat m))) d2 -> inv (Z.of_nat m) [] d2).
      { induction m as [|m IH]; intros Hm d2 Hr; [inversion Hr; subst; exact HI|].
        replace (Z.of_nat (S m)) with (Z.of_nat m + 1) in * by lia. rewrite upto_S, flat_map_app in Hr by lia. cbn [flat_map] in Hr. rewrite app_nil_r in Hr.
        apply dice_app in Hr as (d1 & H1 & H2). apply (inv_tile _ d1); [lia|apply IH; [lia|exact H1]|exact H2]. }
      intros d2 Hr. replace n with (Z.of_nat (Z.to_nat n)) in * by lia. apply G; [lia|exact Hr].
    Qed.
    Lemma tile_go c d : (forall l, exists m, NewVoxelMesh l m) -> 0 <= c < N -> inv c [] d -> exists d', run d (text_at c) d'.
    Proof using HG Hsimple Hsep Hok.
      intros Hnvm Hc HI. unfold text_at. assert (Hb : forall s d done, In s stems -> ~ In s done -> inv c done d ->
        exists d', (let '(x1, y1, z1, x2, y2, z2) := box c in run_line d (binvox_line fmtG x1 y1 z1 x2 y2 z2 (arg_file s)) d') /\ inv c (s :: done) d').
      { intros s d1 done Hs Hn HI1. destruct (made s c) as [bytes|] eqn:Em; [|exfalso; exact (Hok s c Hs Hc Em)].
        assert (H : let '(x1, y1, z1, x2, y2, z2) := box c in run_line d1 (binvox_line fmtG x1 y1 z1 x2 y2 z2 (arg_file s)) (put_file d1 (vox_file s c, bytes))).
        { unfold made in Em. destruct (box c) as [[[[[x1 y1] z1] x2] y2] z2]. eapply binvox_go; [|apply (i_stl _ _ _ HI1), Hs|exact Em|lia| |].
          - apply simple_plain. rewrite List.Forall_forall in Hsimple. apply Hsimple, Hs.
          - intros j Hj. rewrite (i_made _ _ _ HI1 s j Hs) by lia. apply Hok; [exact Hs|lia].
          - apply (i_free _ _ _ HI1); [exact Hs|lia|right; auto]. }
        eexists. split; [exact H|]. eapply inv_binvox; [exact Hc|exact Hs|exact Hn|exact HI1|exact H]. }
      destruct (box c) as [[[[[x1 y1] z1] x2] y2] z2]. unfold tile_text.
      assert (G : forall l done d, List.NoDup l -> (forall s, In s l -> In s stems /\ ~ In s done) -> inv c done d ->
        exists d', run d (map (fun s => binvox_line fmtG x1 y1 z1 x2 y2 z2 (arg_file s)) l) d').
      { induction l as [|s l IH]; intros done d1 Hnd Hl HI1; [exists d1; constructor|]. inversion_clear Hnd as [|? ? Hni Hnd']. destruct (Hl s (or_introl eq_refl)) as [Hin Hnin].
        destruct (Hb s d1 done Hin Hnin HI1) as (d2 & Hr & HI2). destruct (IH (s :: done) d2 Hnd') as (d' & Hr'); [|exact HI2|exists d'; cbn [map]; econstructor; eassumption].
        intros s' Hs'. split; [apply Hl; right; exact Hs'|]. intros [<-|C]; [contradiction|]. apply (Hl s' (or_intror Hs')), C. }
      destruct (G stems [] d) as (da & Hda); [apply Hsep|intros s Hs; split; [exact Hs|intros []]|exact HI|].
      destruct (voxcut_go da base cuts c Hnvm Hsimple) as (db & Hdb). exists db. econstructor; [apply run_empty; reflexivity|].
      eapply dice_app_intro; [exact Hda|]. econstructor; [exact Hdb|constructor].
    Qed.

    Lemma tiles_go n : (forall l, exists m, NewVoxelMesh l m) -> 0 <= n <= N -> inv 0 [] d0 -> exists d2, run d0 (flat_map text_at (upto n)) d2.
    Proof using HG Hsimple Hsep Hok.
      intros Hnvm Hn HI. assert (G : forall m : nat, Z.of_nat m <= N -> exists d2, run d0 (flat_map text_at (upto (Z.of_nat m))) d2).
      { induction m as [|m IH]; intros Hm; [exists d0; constructor|]. destruct IH as (d1 & H1); [lia|].
        replace (Z.of_nat (S m)) with (Z.of_nat m + 1) by lia. rewrite upto_S, flat_map_app by lia. cbn [flat_map]. rewrite app_nil_r.
        assert (HI1 : inv (Z.of_nat m) [] d1) by (apply inv_tiles; [lia|exact HI|exact H1]).
        destruct (tile_go (Z.of_nat m) d1 Hnvm ltac:(lia) HI1) as (d2 & H2). exists d2. eapply dice_app_intro; eassumption. }
      replace n with (Z.of_nat (Z.to_nat n)) by lia. apply G. lia.
    Qed.
  End Tiles.

  Section Main.
    Context (factor : Z) (mbb : list byte) (subx suby subz : bool) (llx lly llz urx ury urz : F) (base : list byte) (cuts : list (list byte)).
    Notation stems := (base :: cuts).
    Definition parts (sub : bool) : Z := if sub then factor else 1.
    (** The words that give binvox the box of tile (i, j, k). *)
    Definition tile_box (i j k : Z) : list (list byte) :=
      [txt "-d"; txt "1024"; txt "-bb"; fmtG (boundary ar llx urx (parts subx) i); fmtG (boundary ar lly ury (parts suby) j); fmtG (boundary ar llz urz (parts subz) k);
       fmtG (boundary ar llx urx (parts subx) (i + 1)); fmtG (boundary ar lly ury (parts suby) (j + 1)); fmtG (boundary ar llz urz (parts subz) (k + 1))].
    Definition tile_in (i j k : Z) : Prop := 0 <= i < parts subx /\ 0 <= j < parts suby /\ 0 <= k < parts subz.
    Definition box_at (c : Z) : F * F * F * F * F * F :=
      let i := c mod parts subx in let j := (c / parts subx) mod parts suby in let k := c / (parts subx * parts suby) in
      (boundary ar llx urx (parts subx) i, boundary ar lly ury (parts suby) j, boundary ar llz urz (parts subz) k,
       boundary ar llx urx (parts subx) (i + 1), boundary ar lly ury (parts suby) (j + 1), boundary ar llz urz (parts subz) (k + 1)).
    Notation N := (parts subx * parts suby * parts subz).

    Lemma parts_pos sub : 0 < factor -> 0 < parts sub.
    Proof using. clear -factor. intros H. unfold parts. destruct sub; lia. Qed.

    Lemma box_at_tile i j k : tile_in i j k -> let c := i + parts subx * j + parts subx * parts suby * k in 0 <= c < N /\ box_words (box_at c) = tile_box i j k.
    Proof using.
      clear no_file load save NewVoxelMesh ft workers binvox base cuts HG mbb; try clear error. intros (Hi & Hj & Hk). set (X := parts subx) in *. set (Y := parts suby) in *. set (Z_ := parts subz) in *. cbn zeta. split.
      - assert (0 <= X * j) by (clear -Hi Hj; nia). assert (P : 0 < X * Y) by (clear -Hi Hj; nia). assert (0 <= X * Y * k) by (clear -P Hk; nia). assert (i + X * j <= X * Y - 1) by (clear -Hi Hj; nia).
        split; [lia|]. assert (X * Y * k <= X * Y * (Z_ - 1)) by (apply Z.mul_le_mono_nonneg_l; lia). lia.
      - unfold box_words, box_at, tile_box. fold X Y Z_.
        replace ((i + X * j + X * Y * k) mod X) with i.
        2:{ replace (i + X * j + X * Y * k) with (i + (j + Y * k) * X) by lia. rewrite Z_mod_plus_full, Z.mod_small; lia. }
        replace ((i + X * j + X * Y * k) / X) with (j + Y * k).
        2:{ replace (i + X * j + X * Y * k) with (i + (j + Y * k) * X) by lia. rewrite Z_div_plus_full, Z.div_small; lia. }
        replace ((j + Y * k) mod Y) with j.
        2:{ replace (j + Y * k) with (j + k * Y) by lia. rewrite Z_mod_plus_full, Z.mod_small; lia. }
        replace ((i + X * j + X * Y * k) / (X * Y)) with k.
        2:{ replace (i + X * j + X * Y * k) with ((i + X * j) + k * (X * Y)) by lia. rewrite Z_div_plus_full, Z.div_small; nia. }
        reflexivity.
    Qed.

    Lemma tile_of c : 0 < factor -> 0 <= c < N -> exists i j k, tile_in i j k /\ c = i + parts subx * j + parts subx * parts suby * k.
    Proof using.
      clear no_file load save NewVoxelMesh ft workers binvox base cuts HG mbb; try clear error. clear -factor subx suby subz. intros Hf Hc. pose proof (parts_pos subx Hf) as HX. pose proof (parts_pos suby Hf) as HY. pose proof (parts_pos subz Hf) as HZ. unfold tile_in.
      set (X := parts subx) in *. set (Y := parts suby) in *. set (Z_ := parts subz) in *.
      exists (c mod X), ((c / X) mod Y), (c / (X * Y)). split.
      - split; [apply Z.mod_pos_bound; lia|]. split; [apply Z.mod_pos_bound; lia|]. split; [apply Z.div_pos; nia|apply Z.div_lt_upper_bound; nia].
      - rewrite <- Z.div_div by lia. pose proof (Z.div_mod c X ltac:(lia)). pose proof (Z.div_mod (c / X) Y ltac:(lia)). nia.
    Qed.

    Lemma script_lines lines : 0 < factor -> Forall simple stems -> dice_script ar fmtG factor mbb subx suby subz llx lly llz urx ury urz (map arg_file stems) = Some lines ->
      lines = dice_header factor mbb subx suby subz (map arg_file stems) ++ flat_map (text_at base cuts box_at) (upto N).
    Proof using.
      clear no_file load save NewVoxelMesh ft workers binvox HG; try clear error. intros Hf Hs E. unfold dice_script in E. cbn [map] in E. apply (inj Some) in E. rewrite <- E. clear E. f_equal.
      pose proof (parts_pos subx Hf) as HX. pose proof (parts_pos suby Hf) as HY. pose proof (parts_pos subz Hf) as HZ.
      change (BinvoxDiceModel.cuts factor) with parts. rewrite dice_commands_spec by lia.
      change (arg_file base :: map arg_file cuts) with (map arg_file stems).
      assert (G : forall l, (forall c, In c l -> 0 <= c) -> print_commands fmtG (map arg_file stems) true (flat_map (tile_block ar (map arg_file stems) llx lly llz urx ury urz (parts subx) (parts suby) (parts subz)) l) =
        flat_map (text_at base cuts box_at) l).
      { induction l as [|c l IH]; intros Hl; [reflexivity|]. cbn [flat_map]. unfold tile_block at 1. cbv zeta. rewrite <- app_assoc. cbn [app]. rewrite print_tile by (first [apply Hl; left; reflexivity|exact Hs]).
        rewrite IH by (intros c' Hc'; apply Hl; right; exact Hc'). reflexivity. }
      apply G. intros c Hc. apply in_upto in Hc. lia.
    Qed.

    Lemma header_run args d d' : run d (dice_header factor mbb subx suby subz args) d' -> d' = d.
    Proof using.
      intros H. unfold dice_header in H.
      repeat match goal with H : run _ (_ :: _) _ |- _ => inversion_clear H as [|? ? ? ?da ? ?H1 ?H2] end.
      repeat match goal with H : run_line _ ?l _ |- _ => apply (comment_step _ (tl l)) in H; subst end.
      match goal with H : run _ [] _ |- _ => inversion H; subst end. reflexivity.
    Qed.

    (** The script of binvox-dice, run in a directory with the STL files and without files of the names that it makes, if binvox succeeds
        on every box: the STL file with the number of tile (i, j, k) is made from what binvox made of that very tile of every argument. *)
    Theorem C82_script stl d0 lines d2 : 0 < factor -> Forall simple stems -> separate stems ->
      (forall s, In s stems -> d0 (arg_file s) = Some (stl s)) -> (forall s c, In s stems -> 0 <= c -> d0 (vox_file s c) = None) ->
      (forall s i j k, In s stems -> tile_in i j k -> binvox (tile_box i j k) (stl s) <> None) ->
      dice_script ar fmtG factor mbb subx suby subz llx lly llz urx ury urz (map arg_file stems) = Some lines -> run d0 lines d2 ->
      forall i j k, tile_in i j k -> let c := i + parts subx * j + parts subx * parts suby * k in
        (forall s, In s stems -> d2 (vox_file s c) = binvox (tile_box i j k) (stl s)) /\
        match voxcut_main ft 0 0 0 0 0 0 (binvox (tile_box i j k) (stl base)) (map (fun s => binvox (tile_box i j k) (stl s)) cuts) with
        | Some b => exists m, is_mesh NewVoxelMesh b m /\ d2 (out_stl c) = Some (save m)
        | None => d2 (out_stl c) = d0 (out_stl c)
        end.
    Proof using HG.
      intros Hf Hs Hsep Hstl Hfree Hok Hl Hr i j k Ht c. apply script_lines in Hl; [|assumption..]. subst lines. apply dice_app in Hr as (d1 & H1 & H2). apply header_run in H1. subst d1.
      assert (HI : inv base cuts stl box_at d0 N [] d2).
      { pose proof (parts_pos subx Hf). pose proof (parts_pos suby Hf). pose proof (parts_pos subz Hf).
        apply (inv_tiles base cuts stl box_at d0 N Hs Hsep); [|split; [nia|reflexivity]| |exact H2].
        - intros s c' Hin Hc'. destruct (tile_of c' Hf Hc') as (i' & j' & k' & Ht' & ->). unfold made. destruct (box_at_tile i' j' k' Ht') as [_ ->]. apply Hok; assumption.
        - split; [intros s j' _ ? [?|[_ []]]; lia|intros s j' Hin Hj' _; apply Hfree; assumption|exact Hstl|reflexivity|intros j' ?; lia]. }
      destruct (box_at_tile i j k Ht) as [Hc Eb]. fold c in Hc, Eb. split.
      - intros s Hin. rewrite (i_made _ _ _ _ _ _ _ _ HI s c Hin) by lia. unfold made. rewrite Eb. reflexivity.
      - pose proof (i_out _ _ _ _ _ _ _ _ HI c Hc) as H. unfold tile_ok, made in H. rewrite Eb in H. exact H.
    Qed.

    (** The voxels of the base of tile (i, j, k) that no cut has, in the grid that binvox made of the base. *)
    Definition remain (stl : list byte -> list byte) (i j k : Z) (b : BinvoxModel.binvox Q) (v : key) : Prop :=
      v ∈ white b /\ forall s c, In s cuts -> read_file ft (binvox (tile_box i j k) (stl s)) 0 0 0 0 0 0 = Some c -> v ∉ white c.

    (** The STL file of a tile is the surface of the voxels that remain; without any, the script leaves no file for it.  A file of a cut
        that cannot be read cuts nothing. *)
    Theorem C82_surface stl d0 lines d2 : (forall l m, List.NoDup l -> NewVoxelMesh l m -> surface_of l m) ->
      0 < factor -> Forall simple stems -> separate stems ->
      (forall s, In s stems -> d0 (arg_file s) = Some (stl s)) -> (forall s c, In s stems -> 0 <= c -> d0 (vox_file s c) = None) ->
      (forall s i j k, In s stems -> tile_in i j k -> binvox (tile_box i j k) (stl s) <> None) ->
      dice_script ar fmtG factor mbb subx suby subz llx lly llz urx ury urz (map arg_file stems) = Some lines -> run d0 lines d2 ->
      forall i j k b, tile_in i j k -> read_file ft (binvox (tile_box i j k) (stl base)) 0 0 0 0 0 0 = Some b -> (0 < vpmm b)%Q ->
      let out := out_stl (i + parts subx * j + parts subx * parts suby * k) in
        ((exists v, remain stl i j k b v) -> exists m, d2 out = Some (save m) /\ surrounds b m (remain stl i j k b)) /\
        ((forall v, ~ remain stl i j k b v) -> d2 out = d0 out \/ exists m, d2 out = Some (save m) /\ surrounds b m (remain stl i j k b)).
    Proof using HG.
      intros Hlib Hf Hs Hsep Hstl Hfree Hok Hl Hr i j k b Ht Hb Hv. cbv zeta.
      destruct (C82_script stl d0 lines d2 Hf Hs Hsep Hstl Hfree Hok Hl Hr i j k Ht) as [_ H]. cbv zeta in H. set (out := out_stl _) in *.
      unfold voxcut_main in H. rewrite Hb in H. set (fs := map (fun s => binvox (tile_box i j k) (stl s)) cuts) in *.
      assert (Hcol : forall f c, read_file ft f 0 0 0 0 0 0 = Some c -> colors c = ∅).
      { clear. intros [bytes|] c; [|discriminate]. cbn [read_file]. unfold BinvoxModel.read. cbn [Z.ltb orb]. destruct (read_header _ _ _ _ _ bytes) as [e|[h data]]; [discriminate|].
        destruct (read_data _ _ _ _ _ _) as [e|[cur vs]]; [discriminate|]. intros [= <-]. reflexivity. }
      assert (Hrem : forall v, remain stl i j k b v <-> v ∈ white b /\ ~ cut_by (map (fun f => read_file ft f 0 0 0 0 0 0) fs) v).
      { intros v. unfold remain, cut_by, fs. rewrite map_map. split; intros [H1 H2]; (split; [exact H1|]).
        - intros (c & Hin & Hc). apply in_map_iff in Hin as (s & Es & Hin). exact (H2 s c Hin Es Hc).
        - intros s c Hin Es Hc. apply H2. exists c. split; [|exact Hc]. apply in_map_iff. exists s. auto. }
      pose proof (cuts_loop ft b fs (Hcol _ _ Hb)) as HL. destruct (cut_loop ft 0 0 0 0 0 0 b fs) as [b'|].
      - assert (G : exists m, d2 out = Some (save m) /\ surrounds b m (remain stl i j k b)); [|auto].
        destruct HL as (Hw & Hc & E1 & E2 & E3 & E4 & E5 & E6 & E7); [apply List.Forall_forall; intros f _; apply Hcol|].
        assert (Ev : vpmm b' = vpmm b) by (unfold vpmm; rewrite !dim_max, E1, E2, E3, E7; reflexivity).
        destruct H as (m & (f & whites & cols & Hp1 & Hp2 & Hnvm & Em) & Hd). exists m. split; [exact Hd|].
        assert (Hsur : surrounds b' m (filled b')).
        { rewrite Em. apply C71_winding; [rewrite Ev; exact Hv|exact Hp1|exact Hp2|]. apply Hlib; [|exact Hnvm].
          rewrite Hc, dom_empty_L, elements_empty in Hp2. apply Permutation_sym, Permutation_nil in Hp2. subst cols. rewrite app_nil_r. apply NoDup_ListNoDup. rewrite Hp1. apply NoDup_elements. }
        intros w d Hin. specialize (Hsur w d Hin). cbv zeta in *. assert (En : near b' w d = near b w d) by (unfold near; rewrite Ev, E4, E5, E6; reflexivity). rewrite En in Hsur.
        assert (Hfl : filled b' w <-> remain stl i j k b w) by (rewrite Hrem, <- Hw; unfold filled; rewrite Hc, lookup_empty; split; [intros [C|[? C]]; [exact C|discriminate]|auto]).
        rewrite Hfl in Hsur. exact Hsur.
      - split; [|auto]. intros (v & Hvr). exfalso. apply Hrem in Hvr as [H1 H2]. apply H2, HL; [apply List.Forall_forall; intros f _; apply Hcol|exact H1].
    Qed.

    Lemma header_go args d : run d (dice_header factor mbb subx suby subz args) d.
    Proof using. unfold dice_header. repeat (econstructor; [apply run_known; eapply run_comment; reflexivity|]). constructor. Qed.

    (** And there it comes to its end. *)
    Theorem C82_ends stl d0 lines : (forall l, exists m, NewVoxelMesh l m) -> 0 < factor -> Forall simple stems -> separate stems ->
      (forall s, In s stems -> d0 (arg_file s) = Some (stl s)) -> (forall s c, In s stems -> 0 <= c -> d0 (vox_file s c) = None) ->
      (forall s i j k, In s stems -> tile_in i j k -> binvox (tile_box i j k) (stl s) <> None) ->
      dice_script ar fmtG factor mbb subx suby subz llx lly llz urx ury urz (map arg_file stems) = Some lines -> exists d2, run d0 lines d2.
    Proof using HG.
      intros Hnvm Hf Hs Hsep Hstl Hfree Hok Hl. apply script_lines in Hl; [|assumption..]. subst lines.
      pose proof (parts_pos subx Hf). pose proof (parts_pos suby Hf). pose proof (parts_pos subz Hf).
      destruct (tiles_go base cuts stl box_at d0 N Hs Hsep) with (n := N) as (d2 & H2); [|exact Hnvm|split; [nia|reflexivity]| |].
      - intros s c' Hin Hc'. destruct (tile_of c' Hf Hc') as (i' & j' & k' & Ht' & ->). unfold made. destruct (box_at_tile i' j' k' Ht') as [_ ->]. apply Hok; assumption.
      - split; [intros s j' _ ? [?|[_ []]]; lia|intros s j' Hin Hj' _; apply Hfree; assumption|exact Hstl|reflexivity|intros j' ?; lia].
      - exists d2. eapply dice_app_intro; [apply header_go|exact H2].
    Qed.

    (** It does so in every directory, whatever binvox makes of the boxes. *)
    Definition finite (d : dir) : Prop := exists names, forall n, d n <> None -> In n names.
    Lemma finite_put d w : finite d -> finite (put_file d w).
    Proof using.
      intros (names & H). exists (fst w :: names). intros n Hn. destruct (decide (n = fst w)) as [->|E]; [left; reflexivity|]. right. apply H. rewrite put_file_other in Hn by exact E. exact Hn.
    Qed.
    Lemma free_number d s : finite d -> exists c, 0 <= c /\ (forall j, 0 <= j < c -> d (vox_file s j) <> None) /\ d (vox_file s c) = None.
    Proof using.
      clear. intros (names & Hn).
      assert (Hinj : forall c c', 0 <= c -> 0 <= c' -> vox_file s c = vox_file s c' -> c = c').
      { intros j j' Hj Hj' E. unfold vox_file in E. apply app_inv_tail in E. unfold numbered_name in E. destruct (Z.eqb_spec j 0), (Z.eqb_spec j' 0); [lia|exfalso..|].
        - apply (f_equal length) in E. rewrite !app_length in E. cbn in E. lia.
        - apply (f_equal length) in E. rewrite !app_length in E. cbn in E. lia.
        - do 2 apply app_inv_head in E. apply show_int_inj, E. }
      assert (G : forall m : nat, (forall j, 0 <= j < Z.of_nat m -> d (vox_file s j) <> None) \/ exists c, 0 <= c /\ (forall j, 0 <= j < c -> d (vox_file s j) <> None) /\ d (vox_file s c) = None).
      { induction m as [|m [IH|IH]]; [left; lia| |right; exact IH]. destruct (d (vox_file s (Z.of_nat m))) as [x|] eqn:E.
        - left. intros j Hj. destruct (Z.eq_dec j (Z.of_nat m)) as [->|]; [congruence|apply IH; lia].
        - right. exists (Z.of_nat m). split; [lia|auto]. }
      destruct (G (S (length names))) as [H|H]; [exfalso|exact H].
      set (l := map (fun m => vox_file s (Z.of_nat m)) (seq 0 (S (length names)))).
      assert (Hlen : length l = S (length names)) by (unfold l; rewrite map_length, seq_length; reflexivity).
      assert (Hnd : List.NoDup l).
      { unfold l. apply FinFun.Injective_map_NoDup; [|apply seq_NoDup]. intros a b E. apply Hinj in E; lia. }
      assert (Hin : incl l names).
      { intros n Hin. unfold l in Hin. apply in_map_iff in Hin as (m & <- & Hm). apply in_seq in Hm. apply Hn, H. lia. }
      pose proof (NoDup_incl_length Hnd Hin). lia.
    Qed.
    Lemma binvox_any d x1 y1 z1 x2 y2 z2 s : plain s -> finite d -> exists d', run_line d (binvox_line fmtG x1 y1 z1 x2 y2 z2 (arg_file s)) d' /\ finite d'.
    Proof using HG.
      intros Hs Hfin. set (ws := [txt "-d"; txt "1024"; txt "-bb"; fmtG x1; fmtG y1; fmtG z1; fmtG x2; fmtG y2; fmtG z2]).
      assert (Hp : plain (arg_file s)) by (apply plain_app; [exact Hs|]; intros C; cbn in C; repeat destruct C as [C|C]; try discriminate C; exact C).
      assert (Hfail : match d (arg_file s) with Some stl => binvox ws stl = None | None => True end -> run_line d (binvox_line fmtG x1 y1 z1 x2 y2 z2 (arg_file s)) d).
      { intros H. eapply run_binvox; [apply binvox_words, Hp|reflexivity|]. apply binvox_fails. left. exact H. }
      destruct (d (arg_file s)) as [stl|] eqn:Es; [|exists d; auto]. destruct (binvox ws stl) as [bytes|] eqn:Eb; [|exists d; auto].
      destruct (free_number d s Hfin) as (c & Hc & Hbusy & Hfree). exists (put_file d (vox_file s c, bytes)). split; [eapply binvox_go; eassumption|]. apply finite_put, Hfin.
    Qed.
    Lemma voxcut_any d c : (forall l, exists m, NewVoxelMesh l m) -> Forall simple stems -> finite d -> exists d', run_line d (voxcut_text stems c) d' /\ finite d'.
    Proof using.
      intros Hnvm Hs Hfin. destruct (voxcut_go d base cuts c Hnvm Hs) as (d' & Hr). exists d'. split; [exact Hr|].
      apply voxcut_step in Hr as [Hoth _]; [|exact Hs]. destruct Hfin as (names & Hn). exists (out_stl c :: names). intros n Hne. destruct (decide (n = out_stl c)) as [->|E]; [left; reflexivity|].
      right. apply Hn. rewrite <- Hoth by exact E. exact Hne.
    Qed.
    Lemma tile_any d c : (forall l, exists m, NewVoxelMesh l m) -> Forall simple stems -> finite d -> exists d', run d (text_at base cuts box_at c) d' /\ finite d'.
    Proof using HG.
      intros Hnvm Hs Hfin. unfold text_at. destruct (box_at c) as [[[[[x1 y1] z1] x2] y2] z2]. unfold tile_text.
      assert (G : forall l, Forall simple l -> forall d, finite d -> exists d', run d (map (fun s => binvox_line fmtG x1 y1 z1 x2 y2 z2 (arg_file s)) l) d' /\ finite d').
      { clear d Hfin. induction 1 as [|s l Hsl _ IH]; intros d Hfin; [exists d; split; [constructor|exact Hfin]|].
        destruct (binvox_any d x1 y1 z1 x2 y2 z2 s (simple_plain _ Hsl) Hfin) as (d1 & H1 & F1). destruct (IH d1 F1) as (d2 & H2 & F2). exists d2. split; [cbn [map]; econstructor; eassumption|exact F2]. }
      destruct (G stems Hs d Hfin) as (d1 & H1 & F1). destruct (voxcut_any d1 c Hnvm Hs F1) as (d2 & H2 & F2). exists d2. split; [|exact F2].
      econstructor; [apply run_empty; reflexivity|]. eapply dice_app_intro; [exact H1|]. econstructor; [exact H2|constructor].
    Qed.
    Theorem C82_always_ends d0 lines : (forall l, exists m, NewVoxelMesh l m) -> 0 < factor -> Forall simple stems -> finite d0 ->
      dice_script ar fmtG factor mbb subx suby subz llx lly llz urx ury urz (map arg_file stems) = Some lines -> exists d2, run d0 lines d2.
    Proof using HG.
      intros Hnvm Hf Hs Hfin Hl. apply script_lines in Hl; [|assumption..]. subst lines.
      assert (G : forall l d, finite d -> exists d', run d (flat_map (text_at base cuts box_at) l) d').
      { clear d0 Hfin. induction l as [|c l IH]; intros d Hfin; [exists d; constructor|]. destruct (tile_any d c Hnvm Hs Hfin) as (d1 & H1 & F1). destruct (IH d1 F1) as (d2 & H2). exists d2. cbn [flat_map]. eapply dice_app_intro; eassumption. }
      destruct (G (upto N) d0 Hfin) as (d2 & H2). exists d2. eapply dice_app_intro; [apply header_go|exact H2].
    Qed.

    Lemma out_frame l d d' : Forall simple stems -> (forall c, In c l -> 0 <= c) -> run d (flat_map (text_at base cuts box_at) l) d' -> forall j, 0 <= j -> ~ In j l -> d' (out_stl j) = d (out_stl j).
    Proof using HG.
      intros Hs. revert d. induction l as [|c l IH]; intros d Hl Hr j Hj Hn; cbn [flat_map] in Hr; [inversion Hr; subst; reflexivity|].
      apply dice_app in Hr as (d1 & H1 & H2). rewrite (IH d1); [|intros c' Hc'; apply Hl; right; exact Hc'|exact H2|exact Hj|intros C; apply Hn; right; exact C].
      unfold text_at, box_at in H1. apply tile_frame in H1 as (_ & Fr & _); [|exact Hs]. apply (Fr (numbered_name (txt "out") j)). intros E. apply Hn. left. apply out_inj; [apply Hl; left; reflexivity|exact Hj|symmetry; exact E].
    Qed.

    (** An older base.binvox in the directory is taken for the first tile, whatever the STL file is. *)
    Theorem C82_stale d0 old lines d2 : 0 < factor -> Forall simple stems -> d0 (vox_file base 0) = Some old ->
      dice_script ar fmtG factor mbb subx suby subz llx lly llz urx ury urz (map arg_file stems) = Some lines -> run d0 lines d2 ->
      exists cut_files, match voxcut_main ft 0 0 0 0 0 0 (Some old) cut_files with
      | Some b => exists m, is_mesh NewVoxelMesh b m /\ d2 (out_stl 0) = Some (save m)
      | None => d2 (out_stl 0) = d0 (out_stl 0)
      end.
    Proof using HG.
      intros Hf Hs Hold Hl Hr. apply script_lines in Hl; [|assumption..]. subst lines. apply dice_app in Hr as (d1 & H1 & H2). apply header_run in H1. subst d1.
      pose proof (parts_pos subx Hf). pose proof (parts_pos suby Hf). pose proof (parts_pos subz Hf). assert (HN : 0 < N) by nia.
      replace N with (1 + (N - 1)) in H2 by lia. rewrite upto_add, flat_map_app in H2 by lia. apply dice_app in H2 as (d1 & H2 & H3).
      change (upto 1) with [0] in H2. cbn [flat_map] in H2. rewrite app_nil_r in H2. unfold text_at, box_at in H2. apply tile_frame in H2 as (_ & _ & bf & cf & Hbf & Hm); [|exact Hs].
      rewrite Hold in Hbf. rewrite Hbf in Hm by discriminate. exists cf. rewrite (out_frame (map (fun j => 1 + j) (upto (N - 1))) d1 d2 Hs); [exact Hm| |exact H3|lia|].
      - intros c Hc. apply in_map_iff in Hc as (c' & <- & Hc'). apply in_upto in Hc'. lia.
      - intros C. apply in_map_iff in C as (c' & E & Hc'). apply in_upto in Hc'. lia.
    Qed.
    (** Next to an argument x.stl, an argument x_1.stl is taken for it: the second tile of x is then the first tile of x_1. *)
    Theorem C82_collision stl d0 lines d2 wrong : 0 < factor -> Forall simple stems -> cuts = [base ++ txt "_1"] -> 1 < N ->
      (forall s, In s stems -> d0 (arg_file s) = Some (stl s)) -> (forall s c, In s stems -> 0 <= c -> d0 (vox_file s c) = None) ->
      binvox (tile_box 0 0 0) (stl base) <> None -> binvox (tile_box 0 0 0) (stl (base ++ txt "_1")) = Some wrong ->
      dice_script ar fmtG factor mbb subx suby subz llx lly llz urx ury urz (map arg_file stems) = Some lines -> run d0 lines d2 ->
      exists cut_files, match voxcut_main ft 0 0 0 0 0 0 (Some wrong) cut_files with
      | Some b => exists m, is_mesh NewVoxelMesh b m /\ d2 (out_stl 1) = Some (save m)
      | None => d2 (out_stl 1) = d0 (out_stl 1)
      end.
    Proof using HG.
      intros Hf Hs Hcuts HN1 Hstl Hfree Hb Hw Hl Hr. apply script_lines in Hl; [|assumption..]. subst lines. apply dice_app in Hr as (d1 & H1 & H2). apply header_run in H1. subst d1.
      pose proof (parts_pos subx Hf) as PX. pose proof (parts_pos suby Hf) as PY. pose proof (parts_pos subz Hf) as PZ.
      replace N with (1 + 1 + (N - 2)) in H2 by lia. rewrite upto_add, flat_map_app in H2 by lia. apply dice_app in H2 as (d1 & H2 & H3).
      change (upto (1 + 1)) with [0; 1] in H2. cbn [flat_map] in H2. rewrite app_nil_r in H2. apply dice_app in H2 as (da & H0 & H1).
      destruct (box_at_tile 0 0 0) as [_ Eb]; [unfold tile_in; lia|]. rewrite !Z.mul_0_r in Eb. change (0 + 0 + 0) with 0 in Eb.
      assert (Hda : da (vox_file base 1) = Some wrong /\ da (out_stl 1) = d0 (out_stl 1)).
      { unfold text_at in H0. destruct (box_at 0) as [[[[[x1 y1] z1] x2] y2] z2]. unfold tile_text in H0. rewrite Hcuts in H0, Hs, Hfree, Hstl. inversion_clear H0 as [|? ? ? db ? He H2]. apply empty_step in He. subst db.
        cbn [map app] in H2. inversion_clear H2 as [|? ? ? db ? Hb1 H4]. inversion_clear H4 as [|? ? ? dc ? Hb2 H5]. inversion_clear H5 as [|? ? ? dd ? Hc1 H6]. inversion H6; subst. clear H6.
        pose proof (Hstl base (or_introl eq_refl)) as S1. pose proof (Hstl (base ++ txt "_1") (or_intror (or_introl eq_refl))) as S2.
        assert (P1 : plain base) by (inversion_clear Hs; apply simple_plain; assumption). assert (P2 : plain (base ++ txt "_1")) by (apply plain_app; [exact P1|]; intros C; cbn in C; repeat destruct C as [C|C]; try discriminate C; exact C).
        unfold box_words in Eb. rewrite <- Eb in Hb, Hw. destruct (binvox [txt "-d"; txt "1024"; txt "-bb"; fmtG x1; fmtG y1; fmtG z1; fmtG x2; fmtG y2; fmtG z2] (stl base)) as [right|] eqn:Er; [|congruence].
        assert (E1 : db = put_file d0 (vox_file base 0, right)) by (eapply binvox_step; [exact P1|exact Hb1|exact S1|exact Er|lia|intros j ?; lia|apply Hfree; [left; reflexivity|lia]]).
        assert (Nv : vox_file (base ++ txt "_1") 0 <> vox_file base 0) by (unfold vox_file, numbered_name; cbn [Z.eqb]; intros E; apply (f_equal length) in E; rewrite !app_length in E; cbn in E; lia).
        assert (E2 : dc = put_file db (vox_file (base ++ txt "_1") 0, wrong)).
        { eapply binvox_step; [exact P2|exact Hb2| |exact Hw|lia|intros j ?; lia|].
          - rewrite E1, put_file_other; [exact S2|]. cbn [fst]. intros E. exact (vox_not_stl _ _ _ (eq_sym E)).
          - rewrite E1, put_file_other by exact Nv. apply Hfree; [right; left; reflexivity|lia]. }
        apply voxcut_step in Hc1 as [Fr _]; [|exact Hs]. split.
        - rewrite Fr by (intros E; exact (vox_not_stl _ _ _ E)). rewrite E2. unfold put_file. cbn [fst snd]. apply decide_True. reflexivity.
        - rewrite Fr by (intros E; apply out_inj in E; lia). rewrite E2, put_file_other by (cbn [fst]; intros E; exact (vox_not_stl _ _ _ (eq_sym E))).
          rewrite E1, put_file_other by (cbn [fst]; intros E; exact (vox_not_stl _ _ _ (eq_sym E))). reflexivity. }
      destruct Hda as [Hv Ho]. unfold text_at, box_at in H1. apply tile_frame in H1 as (_ & _ & bf & cf & Hbf & Hm); [|exact Hs].
      rewrite Hv in Hbf. rewrite Hbf in Hm by discriminate. rewrite Ho in Hm. exists cf. rewrite (out_frame (map (fun j => 1 + 1 + j) (upto (N - 2))) d1 d2 Hs); [exact Hm| |exact H3|lia|].
      - intros c Hc. apply in_map_iff in Hc as (c' & <- & Hc'). apply in_upto in Hc'. lia.
      - intros C. apply in_map_iff in C as (c' & E & Hc'). apply in_upto in Hc'. lia.
    Qed.
  End Main.
End Run.

(** In a name, %% becomes % in the line with voxcut but not in the one with binvox, so voxcut gets another file than binvox wrote. *)
Theorem C82_percent {F : Type} (fmtG : F -> list byte) (p q : list byte) c : 0 <= c -> ~ In x25 p -> ~ In x25 q ->
  print_command fmtG [arg_file (p ++ txt "%%" ++ q)] (RunVoxcut (cut_suffix c)) = txt "voxcut -ostl " ++ out_stl c ++ txt " " ++ vox_file (p ++ txt "%" ++ q) c /\
  vox_file (p ++ txt "%" ++ q) c <> vox_file (p ++ txt "%%" ++ q) c.
Proof.
  intros Hc Hp Hq. split.
  - unfold print_command, sFmt, out_stl. rewrite <- suffix_name by exact Hc. cbn [map concat]. rewrite app_nil_r, trim_stl.
    change (txt "voxcut -ostl out%[1]v.stl") with (txt "voxcut -ostl out" ++ txt "%[1]v" ++ txt ".stl"). change (txt "%[1]v.binvox") with (txt "%[1]v" ++ txt ".binvox"). rewrite <- !app_assoc.
    rewrite format_app by (intros C; cbn in C; repeat destruct C as [C|C]; try discriminate C; exact C). rewrite format_arg.
    rewrite format_app by (intros C; cbn in C; repeat destruct C as [C|C]; try discriminate C; exact C).
    rewrite format_app by (intros C; cbn in C; repeat destruct C as [C|C]; try discriminate C; exact C).
    rewrite format_app by exact Hp. change (format1 (txt "%%" ++ ?f) ?c) with (option_map (cons x25) (format1 f c)). rewrite format_app by exact Hq. rewrite format_arg.
    cbn [format1 txt option_map]. unfold vox_file. rewrite <- suffix_name by exact Hc. change (txt "%") with [x25]. rewrite <- !app_assoc. reflexivity.
  - intros E. apply (f_equal length) in E. unfold vox_file, numbered_name in E. destruct (c =? 0); rewrite !app_length in E; cbn in E; lia.
Qed.
