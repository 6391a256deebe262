(** C79: running the script that stldice prints. *)
From Verif Require Import Base BaseLemmas BinvoxSpec BinvoxModel Geom VoxelizeModel VoxelizeSpec VoxelizeProps FloatTextQ StldiceModel StldiceProps VoxcutModel VoxcutProps
  CmdMergeModel CmdMergeProps CmdMergeTiles CmdDice MeshSpec MeshCells MarchModel MarchProofs MarchProps MeshInside MeshNear MeshSolid StlMerge CmdStlModel CmdStlProps CmdStlClosed CmdDiceMesh
  ToMesh StldiceScriptModel ToMeshWind.
From Verif Require GlobModel GlobProps GlobOnly GlobStl.
From Coq Require Import ZArith QArith List Bool String Init.Byte Lia Lqa Permutation.
From stdpp Require Import base list relations gmap sets fin_sets sorting.
Import ListNotations.
Open Scope Z_scope.

(** ** Specification *)

(** Names of letters, digits and the characters . _ + - that do not begin with -: nothing in them, or in what the script makes of them,
    is special to bash, is taken for a flag, or is special to filepath.Glob. *)
Definition ordinary (c : byte) : bool := existsb (Byte.eqb c) (txt "ABCDEFGHIJKLMNOPQRSTUVWXYZabcdefghijklmnopqrstuvwxyz0123456789._+-").
Definition proper (n : list byte) : Prop := forallb ordinary n = true /\ match n with [] => False | c :: _ => c <> x2d end.
(** A name without blanks. *)
Definition plain (n : list byte) : Prop := ~ In x20 n.

(** The voxels of the base that no cut has, in the part of the grid that the tiles cover. *)
Definition left_over (bx : qpt * qpt) (dim nx ny nz : Z) (base : list tri) (cuts : list (list tri)) (g : key) : Prop :=
  model_voxel bx dim nx ny nz base g /\ forall cut, In cut cuts -> ~ model_voxel bx dim nx ny nz cut g.

(** ** Lines *)
Lemma split_word w : plain w -> forall cur, split_words cur w = [cur ++ w].
Proof.
  unfold plain. induction w as [|c w IH]; intros Hp cur; [rewrite app_nil_r; reflexivity|]. cbn [split_words].
  rewrite decide_False by (intros ->; apply Hp; left; reflexivity). rewrite IH by (intros H; apply Hp; right; exact H). rewrite <- app_assoc. reflexivity.
Qed.
Lemma split_cons w rest : plain w -> forall cur, split_words cur (w ++ x20 :: rest) = (cur ++ w) :: split_words [] rest.
Proof.
  unfold plain. induction w as [|c w IH]; intros Hp cur; [rewrite app_nil_r; reflexivity|]. cbn [app split_words].
  rewrite decide_False by (intros ->; apply Hp; left; reflexivity). rewrite IH by (intros H; apply Hp; right; exact H). rewrite <- app_assoc. reflexivity.
Qed.
Lemma split_all ws : Forall plain ws -> forall w cur, plain w -> split_words cur (w ++ concat (map (fun a => [x20] ++ a) ws)) = (cur ++ w) :: ws.
Proof.
  induction 1 as [|a ws Ha _ IH]; intros w cur Hw; cbn [map concat].
  - rewrite app_nil_r. apply split_word, Hw.
  - cbn [app]. rewrite split_cons by exact Hw. rewrite IH by exact Ha. reflexivity.
Qed.

Lemma plain_app a b : plain a -> plain b -> plain (a ++ b).
Proof. unfold plain. rewrite in_app_iff. tauto. Qed.
Lemma digits_plain l : forallb is_digit l = true -> plain l.
Proof. intros H Hin. rewrite forallb_forall in H. apply H in Hin. discriminate. Qed.
Lemma plain_int n : plain (show_int n).
Proof.
  unfold show_int. destruct (n <? 0) eqn:E.
  - intros [H|H]; [discriminate|]. revert H. apply digits_plain, show_nat_digits. lia.
  - apply digits_plain, show_nat_digits. lia.
Qed.
Lemma plain_common dim nx ny nz : plain (common dim nx ny nz).
Proof. unfold common. repeat apply plain_app; try apply plain_int; intros [H|[]]; discriminate. Qed.
Lemma plain_suffix nx ny nz t : in_grid nx ny nz t -> plain (suffix_of t).
Proof.
  unfold in_grid, in_region. intros H. unfold suffix_of.
  assert (Hp : forall a, 0 <= a -> plain (pad2 a)) by (intros a Ha; apply digits_plain, pad2_digits, Ha).
  assert (Hm : plain [x2d]) by (intros [E|[]]; discriminate).
  apply plain_app; [exact Hm|]. apply plain_app; [apply Hp; lia|]. apply plain_app; [exact Hm|]. apply plain_app; [apply Hp; lia|]. apply plain_app; [exact Hm|]. apply Hp; lia.
Qed.

Lemma ord_plain n : forallb ordinary n = true -> plain n.
Proof. intros H C. rewrite forallb_forall in H. apply H in C. vm_compute in C. discriminate. Qed.
Lemma proper_plain n : proper n -> plain n.
Proof. intros [H _]. apply ord_plain, H. Qed.
Lemma proper_plains l : Forall proper l -> Forall plain l.
Proof. intros H. eapply List.Forall_impl; [exact proper_plain|exact H]. Qed.
Lemma ord_glob n : forallb ordinary n = true -> GlobProps.plain n.
Proof. intros H c C. rewrite forallb_forall in H. apply H in C. repeat split; intros ->; vm_compute in C; discriminate. Qed.
Lemma ord_slash n : forallb ordinary n = true -> ~ In x2f n.
Proof. intros H C. rewrite forallb_forall in H. apply H in C. vm_compute in C. discriminate. Qed.
Lemma digit_ord c : is_digit c = true -> ordinary c = true.
Proof. destruct c; intros H; try (vm_compute in H; discriminate H); vm_compute; reflexivity. Qed.
Lemma digits_ord l : forallb is_digit l = true -> forallb ordinary l = true.
Proof. rewrite !forallb_forall. intros H c Hc. apply digit_ord, H, Hc. Qed.
Lemma ord_app a b : forallb ordinary a = true -> forallb ordinary b = true -> forallb ordinary (a ++ b) = true.
Proof. intros Ha Hb. rewrite forallb_app, Ha, Hb. reflexivity. Qed.
Lemma ord_int n : forallb ordinary (show_int n) = true.
Proof.
  unfold show_int. destruct (n <? 0) eqn:E.
  - cbn [forallb]. apply andb_true_intro. split; [reflexivity|]. apply digits_ord, show_nat_digits. lia.
  - apply digits_ord, show_nat_digits. lia.
Qed.
Lemma ord_common dim nx ny nz : forallb ordinary (common dim nx ny nz) = true.
Proof. unfold common. repeat apply ord_app; try apply ord_int; reflexivity. Qed.
Lemma ord_suffix nx ny nz t : in_grid nx ny nz t -> forallb ordinary (suffix_of t) = true.
Proof.
  unfold in_grid, in_region. intros H. unfold suffix_of.
  assert (Hp : forall a, 0 <= a -> forallb ordinary (pad2 a) = true) by (intros a Ha; apply digits_ord, pad2_digits, Ha).
  apply ord_app; [reflexivity|]. apply ord_app; [apply Hp; lia|]. apply ord_app; [reflexivity|]. apply ord_app; [apply Hp; lia|]. apply ord_app; [reflexivity|]. apply Hp; lia.
Qed.
Lemma ord_out args : Forall proper args -> forallb ordinary (stlOutPrefix args) = true.
Proof. intros H. unfold stlOutPrefix. destruct args as [|a [|b l]]; [reflexivity| |reflexivity]. inversion_clear H as [|? ? [Ha _] _]. exact Ha. Qed.

Definition tile_stl (args : list (list byte)) (dim nx ny nz : Z) (v : list byte) : list byte := (stlOutPrefix args ++ [x2d] ++ common dim nx ny nz) ++ v ++ txt ".stl".
Definition tile_file (name : list byte) (dim nx ny nz : Z) (v : list byte) : list byte := name ++ [x2d] ++ common dim nx ny nz ++ v ++ txt ".binvox".

Lemma tile_file_of name dim nx ny nz t : tile_file name dim nx ny nz (suffix_of t) = out_file (out_prefix name dim nx ny nz) t.
Proof. unfold tile_file, out_file, out_prefix, common. rewrite <- !app_assoc. reflexivity. Qed.

Local Opaque common.
Lemma voxcut_words args name rest dim nx ny nz v : args = name :: rest -> Forall plain args -> plain v ->
  words (voxcut_line args dim nx ny nz v) =
    txt "voxcut" :: txt "-ostl" :: tile_stl args dim nx ny nz v :: tile_file name dim nx ny nz v :: map (fun a => tile_file a dim nx ny nz v) rest.
Proof.
  intros -> Hp Hv. inversion_clear Hp as [|? ? Hn Hr]. pose proof (plain_common dim nx ny nz) as Hc.
  assert (Ho : plain (stlOutPrefix (name :: rest))) by (unfold stlOutPrefix; destruct rest; [exact Hn|intros H; cbn in H; repeat destruct H as [H|H]; try discriminate; exact H]).
  assert (D : forall s, forallb (fun c => negb (bool_decide (c = x20))) s = true -> plain s).
  { intros s H Hin. rewrite forallb_forall in H. apply H in Hin. rewrite bool_decide_true in Hin by reflexivity. discriminate. }
  assert (Hf : forall a, plain a -> plain (tile_file a dim nx ny nz v)) by (intros a Ha; unfold tile_file; repeat apply plain_app; try assumption; apply D; reflexivity).
  assert (E : voxcut_line (name :: rest) dim nx ny nz v =
    txt "voxcut" ++ x20 :: txt "-ostl" ++ x20 :: tile_stl (name :: rest) dim nx ny nz v ++ x20 :: tile_file name dim nx ny nz v ++ concat (map (fun a => [x20] ++ a) (map (fun a => tile_file a dim nx ny nz v) rest))).
  { unfold voxcut_line, tile_stl, tile_file. cbn [hd tl]. rewrite map_map.
    change (txt "voxcut -ostl ") with (txt "voxcut" ++ x20 :: txt "-ostl" ++ [x20]). change (txt ".stl ") with (txt ".stl" ++ [x20]). rewrite <- !app_assoc. reflexivity. }
  unfold words. rewrite E.
  rewrite split_cons by (apply D; reflexivity). rewrite split_cons by (apply D; reflexivity).
  rewrite split_cons by (unfold tile_stl; repeat apply plain_app; try assumption; apply D; reflexivity).
  rewrite split_all; [reflexivity| |apply Hf, Hn]. apply List.Forall_forall. intros x Hx. apply in_map_iff in Hx as (a & <- & Ha). apply Hf. rewrite List.Forall_forall in Hr. exact (Hr a Ha).
Qed.

Lemma merge_words prefix : plain prefix -> words (txt "merge-stl -f -prefix " ++ prefix) = [txt "merge-stl"; txt "-f"; txt "-prefix"; prefix].
Proof.
  intros Hp. assert (D : forall s, forallb (fun c => negb (bool_decide (c = x20))) s = true -> plain s).
  { intros s H Hin. rewrite forallb_forall in H. apply H in Hin. rewrite bool_decide_true in Hin by reflexivity. discriminate. }
  assert (E : txt "merge-stl -f -prefix " ++ prefix = txt "merge-stl" ++ x20 :: (txt "-f" ++ x20 :: (txt "-prefix" ++ x20 :: prefix))) by reflexivity.
  unfold words. rewrite E.
  rewrite split_cons by (apply D; reflexivity). rewrite split_cons by (apply D; reflexivity). rewrite split_cons by (apply D; reflexivity). rewrite split_word by exact Hp. reflexivity.
Qed.

(** ** The files after stldice *)
Lemma main_files ft d0 box bx dim nx ny nz args ws l :
  match box, args with Some b, _ => b = bx | None, (_, first) :: _ => bounding_box first = bx | None, [] => True end ->
  good bx dim nx ny nz -> divides dim nx ny nz -> List.NoDup (map fst args) ->
  (forall name mesh t, In (name, mesh) args -> in_grid nx ny nz t -> d0 (out_file (out_prefix name dim nx ny nz) t) = None) ->
  stldice_main ft d0 box dim nx ny nz (map (fun a => (fst a, Some (snd a))) args) = (ws, Some l) ->
  let d := put_files d0 ws in
  (forall name mesh t, In (name, mesh) args -> in_grid nx ny nz t ->
     d (out_file (out_prefix name dim nx ny nz) t) = match region_file ft (tile_region bx dim nx ny nz t) mesh with inr o => o | inl _ => None end) /\
  (forall n, (forall name t, In name (map fst args) -> in_grid nx ny nz t -> n <> out_file (out_prefix name dim nx ny nz) t) -> d n = d0 n) /\
  (forall v, In v l <-> exists name mesh t, In (name, mesh) args /\ in_grid nx ny nz t /\ v = suffix_of t /\ d (out_file (out_prefix name dim nx ny nz) t) <> None).
Proof.
  intros Hbox Hgood Hdv Hnd Hd Hrun d.
  assert (E : stldice_main ft d0 (Some bx) dim nx ny nz (map (fun a => (fst a, Some (snd a))) args) = (ws, Some l)).
  { rewrite <- Hrun. destruct box as [b|]; [rewrite Hbox; reflexivity|]. destruct args as [|[n1 m1] args']; [reflexivity|]. rewrite <- Hbox. symmetry. apply (stldice_main_default ft d0 dim nx ny nz n1 m1). }
  clear Hrun Hbox. rewrite stldice_main_spec in E by assumption. injection E as Ews El.
  assert (Hab : forall w, In w (wanted ft bx dim nx ny nz args) -> absent d0 w = true).
  { intros w Hw. apply wanted_in in Hw as (name & mesh & t & Hin & Ht & Hn & _). unfold absent. rewrite Hn, (Hd name mesh t Hin Ht). reflexivity. }
  assert (Ef : List.filter (absent d0) (wanted ft bx dim nx ny nz args) = wanted ft bx dim nx ny nz args).
  { clear -Hab. revert Hab. generalize (wanted ft bx dim nx ny nz args). induction l as [|w l IHl]; intros H; [reflexivity|]. cbn. rewrite (H w (or_introl eq_refl)), IHl; [reflexivity|]. intros w' Hw'. apply H. right. exact Hw'. }
  rewrite Ef in Ews, El. clear Ef Hab.
  assert (Hfst : List.NoDup (map fst ws)).
  { rewrite <- Ews, map_map. apply wanted_nodup, Hnd. }
  assert (Hmesh : forall name m m', In (name, m) args -> In (name, m') args -> m' = m).
  { clear -Hnd. intros name mesh mesh' Harg Hin. induction args as [|[n1 m1] args IH]; [destruct Hin|]. cbn [map fst] in Hnd. inversion_clear Hnd as [|? ? Hni Hnd'].
      assert (Hno : forall m0, ~ In (n1, m0) args) by (intros m0 H; apply Hni, in_map_iff; exists (n1, m0); auto).
      destruct Harg as [E|Harg], Hin as [E'|Hin]; [congruence|injection E as <- <-; destruct (Hno _ Hin)|injection E' as <- <-; destruct (Hno _ Harg)|exact (IH Hnd' Harg Hin)]. }
  assert (H1 : forall name mesh t, In (name, mesh) args -> in_grid nx ny nz t ->
     d (out_file (out_prefix name dim nx ny nz) t) = match region_file ft (tile_region bx dim nx ny nz t) mesh with inr o => o | inl _ => None end).
  { intros name mesh t Hin Ht. destruct (region_file ft (tile_region bx dim nx ny nz t) mesh) as [e|[bytes|]] eqn:Er.
    - exfalso. destruct (region_file_ok ft bx dim nx ny nz mesh t Hgood) as [o Ho]. congruence.
    - apply put_files_in; [exact Hfst|]. rewrite <- Ews. apply in_map_iff. exists (out_file (out_prefix name dim nx ny nz) t, suffix_of t, bytes). split; [reflexivity|].
      apply wanted_in. exists name, mesh, t. auto.
    - unfold d. rewrite put_files_other; [eauto|]. rewrite <- Ews, map_map. intros Hi. apply in_map_iff in Hi as (w & Ew & Hw).
      apply wanted_in in Hw as (name' & mesh' & t' & Hin' & Ht' & Hn & _ & Hr). cbn in Ew. rewrite Ew in Hn.
      apply (C42_names_distinct _ _ _ _ nx ny nz) in Hn as [Hp <-]; [|assumption..]. apply out_prefix_inj in Hp. subst name'. rewrite (Hmesh _ _ _ Hin Hin') in Hr. congruence. }
  split; [exact H1|]. split.
  - intros n Hn. apply put_files_other. rewrite <- Ews, map_map. intros Hi. apply in_map_iff in Hi as (w & Ew & Hw). apply wanted_in in Hw as (name & mesh & t & Hin & Ht & E & _).
    cbn in Ew. rewrite Ew in E. apply (Hn name t); [apply in_map_iff; exists (name, mesh); auto|exact Ht|exact E].
  - intros v. rewrite <- El, in_map_iff. split.
    + intros (w & <- & Hw). apply wanted_in in Hw as (name & mesh & t & Hin & Ht & E & Es & Hr). exists name, mesh, t. split; [exact Hin|]. split; [exact Ht|]. split; [exact Es|].
      rewrite (H1 name mesh t Hin Ht), Hr. discriminate.
    + intros (name & mesh & t & Hin & Ht & -> & Hne). rewrite (H1 name mesh t Hin Ht) in Hne.
      destruct (region_file ft (tile_region bx dim nx ny nz t) mesh) as [e|[bytes|]] eqn:Er; try congruence.
      exists (out_file (out_prefix name dim nx ny nz) t, suffix_of t, bytes). split; [reflexivity|]. apply wanted_in. exists name, mesh, t. auto.
Qed.

(** ** Cutting *)
Definition cut_by (fs : list (option (binvox Q))) (k : key) : Prop := exists c, In (Some c) fs /\ k ∈ white c.

Lemma cuts_loop ft base fs :
  colors base = ∅ -> Forall (fun f => forall c, read_file ft f 0 0 0 0 0 0 = Some c -> colors c = ∅) fs ->
  match cut_loop ft 0 0 0 0 0 0 base fs with
  | Some b' => (forall k, k ∈ white b' <-> k ∈ white base /\ ~ cut_by (map (fun f => read_file ft f 0 0 0 0 0 0) fs) k) /\ colors b' = ∅ /\
      NX b' = NX base /\ NY b' = NY base /\ NZ b' = NZ base /\ TX b' = TX base /\ TY b' = TY base /\ TZ b' = TZ base /\ Scale b' = Scale base
  | None => forall k, k ∈ white base -> cut_by (map (fun f => read_file ft f 0 0 0 0 0 0) fs) k
  end.
Proof.
  intros Hc Hfs. revert base Hc. induction Hfs as [|f fs Hf _ IH]; intros base Hc; cbn [cut_loop map].
  - split; [|tauto]. intros k. split; [|tauto]. intros Hk. split; [exact Hk|]. intros (c & [] & _).
  - unfold cut_step. destruct (read_file ft f 0 0 0 0 0 0) as [c|] eqn:Er.
    + assert (Hrun : voxcut_run base c (voxcut base c (elements (white base)) (map_to_list (colors base)))) by (exists (elements (white base)), (map_to_list (colors base)); auto).
      set (r := voxcut base c (elements (white base)) (map_to_list (colors base))) in *. clearbody r.
      destruct (decide (white base = ∅)) as [Hb|Hb].
      * destruct (decide (white c = ∅)) as [Hcut|Hcut].
        -- rewrite (proj1 (C38_outcome base c r Hrun) Hcut). change (white (set_white base (White base))) with (white base). rewrite decide_True by (rewrite Hb; apply size_empty).
           intros k Hk. rewrite Hb in Hk. apply elem_of_empty in Hk. contradiction.
        -- rewrite (proj1 (proj2 (C38_outcome base c r Hrun)) Hcut Hb). intros k Hk. rewrite Hb in Hk. apply elem_of_empty in Hk. contradiction.
      * destruct (C38_subtract base c r Hrun Hc Hb (Hf c eq_refl)) as (w & -> & Hw).
        change (white (set_white base w)) with (default ∅ w). destruct (decide (size (default ∅ w) = 0%nat)) as [Hz|Hz].
        -- intros k Hk. exists c. split; [left; reflexivity|]. apply size_empty_inv in Hz. apply leibniz_equiv in Hz. rewrite Hw in Hz.
           destruct (decide (k ∈ white c)) as [|Hn]; [assumption|exfalso]. assert (Hk' : k ∈ white base ∖ white c) by (apply elem_of_difference; auto). rewrite Hz in Hk'. apply elem_of_empty in Hk'. exact Hk'.
        -- specialize (IH (set_white base w) Hc). destruct (cut_loop ft 0 0 0 0 0 0 (set_white base w) fs) as [b'|].
           ++ destruct IH as [IH Hrest]. split; [|exact Hrest]. intros k. rewrite IH. change (white (set_white base w)) with (default ∅ w). rewrite Hw, elem_of_difference. split.
              ** intros [[H1 H2] H3]. split; [exact H1|]. intros (c' & [[= <-]|Hin] & Hk); [exact (H2 Hk)|]. apply H3. exists c'. auto.
              ** intros [H1 H2]. split; [split; [exact H1|]|].
                 --- intros Hk. apply H2. exists c. split; [left; reflexivity|exact Hk].
                 --- intros (c' & Hin & Hk). apply H2. exists c'. split; [right; exact Hin|exact Hk].
           ++ intros k Hk. destruct (decide (k ∈ white c)) as [Hin|Hn]; [exists c; split; [left; reflexivity|exact Hin]|].
              destruct (IH k) as (c' & Hin & Hk'); [change (white (set_white base w)) with (default ∅ w); rewrite Hw; apply elem_of_difference; auto|]. exists c'. split; [right; exact Hin|exact Hk'].
    + specialize (IH base Hc). assert (E : forall k, cut_by (None :: map (fun f => read_file ft f 0 0 0 0 0 0) fs) k <-> cut_by (map (fun f => read_file ft f 0 0 0 0 0 0) fs) k).
      { intros k. split; intros (c & Hin & Hk); exists c; (split; [|exact Hk]); [destruct Hin as [|Hin]; [discriminate|exact Hin]|right; exact Hin]. }
      destruct (cut_loop ft 0 0 0 0 0 0 base fs) as [b'|].
      * destruct IH as [IH Hrest]. split; [|exact Hrest]. intros k. rewrite IH, E. reflexivity.
      * intros k Hk. apply E, IH, Hk.
Qed.

(** What voxcut makes of tile [t]. *)
Lemma tile_cut ft d bx dim nx ny nz bname base cuts t :
  good bx dim nx ny nz -> in_grid nx ny nz t -> (forall name mesh, In (name, mesh) ((bname, base) :: cuts) -> List.NoDup (map taddr mesh)) ->
  (forall name mesh, In (name, mesh) ((bname, base) :: cuts) ->
     d (out_file (out_prefix name dim nx ny nz) t) = match region_file ft (tile_region bx dim nx ny nz t) mesh with inr o => o | inl _ => None end) ->
  let td := tile_dims bx dim nx ny nz in
  match voxcut_main ft 0 0 0 0 0 0 (d (tile_file bname dim nx ny nz (suffix_of t))) (map d (map (fun a => tile_file a dim nx ny nz (suffix_of t)) (map fst cuts))) with
  | Some b' => (0 < vpmm b')%Q /\ colors b' = ∅ /\ (forall k, qpt_eq (world b' k) (world (whole bx dim) (tile_voxel td t k))) /\
      forall k, filled b' k <-> in_grid (kx td) (ky td) (kz td) k /\ left_over bx dim nx ny nz base (map snd cuts) (tile_voxel td t k)
  | None => forall k, in_grid (kx td) (ky td) (kz td) k -> ~ left_over bx dim nx ny nz base (map snd cuts) (tile_voxel td t k)
  end.
Proof.
  intros Hgood Ht Haddr Hd td.
  assert (Hfile : forall name mesh, In (name, mesh) ((bname, base) :: cuts) ->
    match read_file ft (d (tile_file name dim nx ny nz (suffix_of t))) 0 0 0 0 0 0 with
    | Some b => (0 < vpmm b)%Q /\ colors b = ∅ /\ (forall k, qpt_eq (world b k) (world (whole bx dim) (tile_voxel td t k))) /\
        forall k, k ∈ white b <-> in_grid (kx td) (ky td) (kz td) k /\ model_voxel bx dim nx ny nz mesh (tile_voxel td t k)
    | None => forall k, in_grid (kx td) (ky td) (kz td) k -> ~ model_voxel bx dim nx ny nz mesh (tile_voxel td t k)
    end).
  { intros name mesh Hin. rewrite tile_file_of.
    destruct (tile_reads ft d bx dim nx ny nz mesh (out_prefix name dim nx ny nz) t Hgood (Haddr _ _ Hin) Ht (Hd _ _ Hin)) as [H1 H2]. fold td in H1, H2.
    destruct (d (out_file (out_prefix name dim nx ny nz) t)) as [bytes|] eqn:Ed.
    - destruct H2 as ((bytes' & Hb & Hr) & Hmod & Hmw & Hcol & _ & _ & _ & Hv & Hw); [discriminate|]. rewrite Ed in Hb. injection Hb as <-. cbn [read_file]. rewrite Hr.
      split; [exact Hv|]. split; [apply dom_empty_inv_L, Hcol|]. split; [exact Hw|]. intros k. rewrite <- Hmw. apply Hmod.
    - cbn [read_file]. intros k Hk Hm. exact (H1 k Hk Hm eq_refl). }
  unfold voxcut_main. pose proof (Hfile bname base (or_introl eq_refl)) as HB.
  destruct (read_file ft (d (tile_file bname dim nx ny nz (suffix_of t))) 0 0 0 0 0 0) as [b|].
  2:{ intros k Hk [Hl _]. exact (HB k Hk Hl). }
  destruct HB as (Hv & Hcol & Hw & Hwhite).
  set (fs := map d (map (fun a => tile_file a dim nx ny nz (suffix_of t)) (map fst cuts))).
  assert (Hcut : forall k, in_grid (kx td) (ky td) (kz td) k ->
    (cut_by (map (fun f => read_file ft f 0 0 0 0 0 0) fs) k <-> exists cut, In cut (map snd cuts) /\ model_voxel bx dim nx ny nz cut (tile_voxel td t k))).
  { intros k Hk. unfold cut_by, fs. rewrite !map_map. split.
    - intros (c & Hin & Hkc). apply in_map_iff in Hin as ([name mesh] & Er & Hin). cbn [fst] in Er. pose proof (Hfile name mesh (or_intror Hin)) as HF. rewrite Er in HF.
      exists mesh. split; [apply in_map_iff; exists (name, mesh); auto|]. apply HF, Hkc.
    - intros (cut & Hin & Hm). apply in_map_iff in Hin as ([name mesh] & Es & Hin). cbn [snd] in Es. subst mesh. pose proof (Hfile name cut (or_intror Hin)) as HF.
      destruct (read_file ft (d (tile_file name dim nx ny nz (suffix_of t))) 0 0 0 0 0 0) as [c|] eqn:Er; [|exfalso; exact (HF k Hk Hm)].
      exists c. split; [apply in_map_iff; exists (name, cut); auto|]. apply HF. auto. }
  pose proof (cuts_loop ft b fs Hcol) as HL.
  destruct (cut_loop ft 0 0 0 0 0 0 b fs) as [b'|].
  - destruct HL as (Hb & Hc' & E1 & E2 & E3 & E4 & E5 & E6 & E7).
    { apply List.Forall_forall. intros f Hf c Hr. unfold fs in Hf. rewrite !map_map in Hf. apply in_map_iff in Hf as ([name mesh] & <- & Hin). cbn [fst] in Hr.
      pose proof (Hfile name mesh (or_intror Hin)) as HF. rewrite Hr in HF. tauto. }
    assert (Ev : vpmm b' = vpmm b) by (unfold vpmm; rewrite !dim_max, E1, E2, E3, E7; reflexivity).
    split; [rewrite Ev; exact Hv|]. split; [exact Hc'|]. split.
    { intros k. specialize (Hw k). unfold world in *. rewrite Ev, E4, E5, E6. exact Hw. }
    intros k. unfold filled. rewrite Hc', lookup_empty. split.
    + intros [Hk|[? Hk]]; [|discriminate]. apply Hb in Hk as [Hk Hn]. apply Hwhite in Hk as [Hg Hm]. split; [exact Hg|]. split; [exact Hm|].
      intros cut Hin Hc. apply Hn, Hcut; eauto.
    + intros [Hg [Hm Hn]]. left. apply Hb. split; [apply Hwhite; auto|]. rewrite (Hcut k Hg). intros (cut & Hin & Hc). exact (Hn cut Hin Hc).
  - intros k Hk [Hm Hn].
    assert (Hbk : k ∈ white b) by (apply Hwhite; auto). apply HL in Hbk.
    { apply (Hcut k Hk) in Hbk as (cut & Hin & Hc). exact (Hn cut Hin Hc). }
    apply List.Forall_forall. intros f Hf c Hr. unfold fs in Hf. rewrite !map_map in Hf. apply in_map_iff in Hf as ([name mesh] & <- & Hin). cbn [fst] in Hr.
    pose proof (Hfile name mesh (or_intror Hin)) as HF. rewrite Hr in HF. tauto.
Qed.

(** ** Meshes side by side *)

(** The meshes [ms] of the tiles [ts], one of each, make up the surface of what is left over. *)
Lemma tiles_surround bx dim nx ny nz P ts ms : let td := tile_dims bx dim nx ny nz in
  0 < kx td -> 0 < ky td -> 0 < kz td -> List.NoDup ts ->
  Forall2 (fun t m => exists b, (0 < vpmm b)%Q /\ (forall k, qpt_eq (world b k) (world (whole bx dim) (tile_voxel td t k))) /\ surrounds b m (filled b) /\
    forall k, filled b k <-> in_grid (kx td) (ky td) (kz td) k /\ P (tile_voxel td t k)) ts ms ->
  (forall g, P g -> exists t k, In t ts /\ in_grid (kx td) (ky td) (kz td) k /\ g = tile_voxel td t k) ->
  surrounds (whole bx dim) (concat ms) P.
Proof.
  intros td Hx Hy Hz Hnd Hall Hcov g c Hc p.
  set (loc := fun t : key => (kx g - kx t * kx td, ky g - ky t * ky td, kz g - kz t * kz td)).
  assert (Hloc : forall t, tile_voxel td t (loc t) = g).
  { intros t. subst loc. cbn beta. destruct g as [[? ?] ?]. unfold tile_voxel, kx, ky, kz. cbn [fst snd]. apply key_eq; unfold kx, ky, kz; cbn [fst snd]; lia. }
  assert (Hloc' : forall t k, g = tile_voxel td t k -> loc t = k).
  { intros t k ->. subst loc. cbn beta. destruct k as [[? ?] ?]. unfold tile_voxel, kx, ky, kz. cbn [fst snd]. rewrite !Z.add_simpl_l. reflexivity. }
  assert (Hpart : Forall2 (fun t m => off_mesh m p /\ (meets_no_edge m p ->
      (in_grid (kx td) (ky td) (kz td) (loc t) /\ P g -> winding m p = 1) /\ (~ (in_grid (kx td) (ky td) (kz td) (loc t) /\ P g) -> winding m p = 0))) ts ms).
  { eapply Forall2_impl; [exact Hall|]. intros t m (b & Hv & Hw & Hs & Hf). cbn beta.
    pose proof (near_world b (whole bx dim) td t (loc t) c Hv Hw) as Hq. rewrite Hloc in Hq. fold p in Hq.
    destruct (Hs (loc t) c Hc) as [G1 G2]. split; [exact (off_mesh_point m _ p Hq G1)|]. intros Hne.
    assert (Hq' : qpt_eq p (near b (loc t) c)) by (apply qpt_eq_iff; apply qpt_eq_iff in Hq as (Q1 & Q2 & Q3); repeat split; symmetry; assumption).
    destruct (G2 (no_edge_point m _ _ Hq' Hne)) as [G3 G4]. rewrite (winding_point m _ _ Hq'). rewrite Hf, Hloc in G3, G4. auto. }
  split. { apply off_concat. clear -Hpart. induction Hpart as [|t m ts ms [H _] _ IH]; constructor; auto. }
  intros Hne.
  assert (Hsum : Forall2 (fun t m => (in_grid (kx td) (ky td) (kz td) (loc t) /\ P g -> winding m p = 1) /\ (~ (in_grid (kx td) (ky td) (kz td) (loc t) /\ P g) -> winding m p = 0)) ts ms).
  { clear -Hpart Hne. induction Hpart as [|t m ts ms [_ H] _ IH]; constructor.
    - apply H. eapply no_edge_sub; [|exact Hne]. intros f Hf. cbn [concat]. apply in_app_iff. left. exact Hf.
    - apply IH. eapply no_edge_sub; [|exact Hne]. intros f Hf. cbn [concat]. apply in_app_iff. right. exact Hf. }
  rewrite winding_concat. split.
  - intros HP. destruct (Hcov g HP) as (t0 & k0 & Hin & Hk0 & Eg). pose proof (Hloc' t0 k0 Eg) as El. rewrite <- El in Hk0. clear El Eg k0 Hall Hpart Hne Hcov.
    assert (Hother : forall t, In t ts -> t <> t0 -> ~ in_grid (kx td) (ky td) (kz td) (loc t)).
    { intros t _ Ht Hg. apply Ht. exact (tile_unique td t t0 g Hx Hy Hz Hg Hk0). }
    revert Hin Hnd Hother. induction Hsum as [|t m ts ms [H1 H0] Hr IH]; intros Hin Hnd Hother; [destruct Hin|]. inversion_clear Hnd as [|? ? Hni Hnd']. cbn [zsum].
    destruct Hin as [->|Hin].
    + rewrite H1 by auto.
      assert (Z0 : zsum (fun m => winding m p) ms = 0); [|lia]. clear -Hr Hother Hni.
      assert (Ho : forall t, In t ts -> ~ in_grid (kx td) (ky td) (kz td) (loc t)) by (intros t Ht; apply Hother; [right; exact Ht|intros ->; contradiction]). clear Hother Hni.
      induction Hr as [|t m ts ms [_ H0] _ IH]; [reflexivity|]. cbn [zsum]. rewrite H0, IH; [reflexivity|intros t' Ht'; apply Ho; right; exact Ht'|]. intros [C _]. exact (Ho t (or_introl eq_refl) C).
    + rewrite H0, IH; [reflexivity|exact Hin|exact Hnd'|intros t' Ht'; apply Hother; right; exact Ht'|]. intros [C _]. apply (Hother t (or_introl eq_refl)); [|exact C]. intros ->. contradiction.
  - intros HP. clear -Hsum HP. induction Hsum as [|t m ts ms [_ H0] _ IH]; [reflexivity|]. cbn [zsum]. rewrite H0, IH; [reflexivity|]. tauto.
Qed.

(** ** Running the script *)
Section Run.
  Context {error : Type} (no_file : error) (load : list byte -> error + list face) (save : list face -> list byte) (Hfmt : forall m, load (save m) = inr m).
  Context (NewVoxelMesh : list key -> list face -> Prop) (Hlib : forall l m, List.NoDup l -> NewVoxelMesh l m -> surface_of l m).
  Context (ft : FloatText Q) (workers : nat).
  Notation run := (run_script no_file load save NewVoxelMesh ft workers).

  Lemma run_app l1 l2 d d2 : run d (l1 ++ l2) d2 -> exists d1, run d l1 d1 /\ run d1 l2 d2.
  Proof using.
    revert d. induction l1 as [|x l1 IH]; intros d H; [exists d; split; [constructor|exact H]|]. cbn [app] in H. inversion_clear H as [|? ? ? d1 ? H1 H2].
    destruct (IH _ H2) as (d' & H3 & H4). exists d'. split; [econstructor; eassumption|exact H4].
  Qed.

  Definition is_mesh (b : binvox Q) (m : list face) : Prop := exists f whites cols,
    Permutation whites (elements (white b)) /\ Permutation cols (elements (dom (colors b))) /\ NewVoxelMesh (whites ++ cols) (f (whites ++ cols)) /\ m = ToMesh f b whites cols.

  (** The lines with voxcut: every tile is made from the files that stldice wrote. *)
  Lemma voxcut_lines name rest dim nx ny nz vs d d1 : Forall plain (name :: rest) -> Forall plain vs -> List.NoDup vs ->
    run d (map (voxcut_line (name :: rest) dim nx ny nz) vs) d1 ->
    (forall n, (forall v, In v vs -> n <> tile_stl (name :: rest) dim nx ny nz v) -> d1 n = d n) /\
    (forall v, In v vs -> match voxcut_main ft 0 0 0 0 0 0 (d (tile_file name dim nx ny nz v)) (map d (map (fun a => tile_file a dim nx ny nz v) rest)) with
       | Some b => exists m, is_mesh b m /\ d1 (tile_stl (name :: rest) dim nx ny nz v) = Some (save m)
       | None => d1 (tile_stl (name :: rest) dim nx ny nz v) = d (tile_stl (name :: rest) dim nx ny nz v)
       end).
  Proof using.
    intros Hp Hvs. revert d. induction Hvs as [|v vs Hv _ IH]; intros d Hnd Hrun; cbn [map] in Hrun; inversion_clear Hrun as [|? ? ? d' ? H1 H2]; [split; [reflexivity|intros ? []]|].
    inversion_clear Hnd as [|? ? Hni Hnd'].
    set (S := tile_stl (name :: rest) dim nx ny nz) in *.
    assert (HSinj : forall a b, S a = S b -> a = b) by (intros a b E; unfold S, tile_stl in E; apply app_inv_head, app_inv_tail in E; exact E).
    assert (Hdisj : forall a v' w, tile_file a dim nx ny nz v' <> S w).
    { intros a v' w E. unfold tile_file, S, tile_stl in E. rewrite !app_assoc in E. apply (f_equal (fun l => List.last l x00)) in E.
      change (txt ".stl") with (txt ".st" ++ [x6c]) in E. change (txt ".binvox") with (txt ".binvo" ++ [x78]) in E. rewrite !app_assoc, !last_last in E. discriminate. }
    assert (Hone : (forall n, n <> S v -> d' n = d n) /\
      match voxcut_main ft 0 0 0 0 0 0 (d (tile_file name dim nx ny nz v)) (map d (map (fun a => tile_file a dim nx ny nz v) rest)) with
      | Some b => exists m, is_mesh b m /\ d' (S v) = Some (save m)
      | None => d' (S v) = d (S v)
      end).
    { pose proof (voxcut_words _ name rest dim nx ny nz v eq_refl Hp Hv) as Ew. fold S in Ew. destruct H1 as [r E|ostl b cuts d' e E Hc|prefix names d' e E _ _].
      - unfold voxcut_line in E. discriminate.
      - rewrite E in Ew. injection Ew as -> -> ->. destruct Hc as [Hc|b' f whites cols Hc Hm1 Hm2 Hm3]; rewrite Hc.
        + split; reflexivity.
        + split; [intros n Hn; apply put_file_other, Hn|]. eexists. split; [exists f, whites, cols; split; [exact Hm1|]; split; [exact Hm2|]; split; [exact Hm3|reflexivity]|]. unfold put_file. cbn [fst snd]. apply decide_True. reflexivity.
      - rewrite E in Ew. discriminate. }
    destruct Hone as [Hd' Hone]. destruct (IH d' Hnd' H2) as [IH1 IH2]. split.
    - intros n Hn. rewrite IH1 by (intros w Hw; apply Hn; right; exact Hw). apply Hd', Hn. left. reflexivity.
    - assert (Hstl : forall w, In w vs -> w <> v) by (intros w Hw ->; contradiction).
      intros w [<-|Hw].
      + destruct (voxcut_main ft 0 0 0 0 0 0 (d (tile_file name dim nx ny nz v)) (map d (map (fun a => tile_file a dim nx ny nz v) rest))) as [b|];
          (rewrite IH1; [exact Hone|intros w Hw E; apply HSinj in E; subst w; contradiction]).
      + specialize (IH2 w Hw). rewrite (Hd' (tile_file name dim nx ny nz w)) in IH2 by apply Hdisj.
        assert (Em : map d' (map (fun a => tile_file a dim nx ny nz w) rest) = map d (map (fun a => tile_file a dim nx ny nz w) rest)).
        { rewrite !map_map. apply map_ext. intros a. apply Hd', Hdisj. }
        rewrite Em in IH2. rewrite (Hd' (S w)) in IH2 by (intros E; apply HSinj in E; exact (Hstl w Hw E)). exact IH2.
  Qed.

  Lemma sorted_keys_in v l : In v (sorted_keys l) <-> In v l.
  Proof using. unfold sorted_keys. rewrite <- !elem_of_list_In, (merge_sort_Permutation name_le), elem_of_remove_dups. reflexivity. Qed.
  Lemma sorted_keys_nodup l : List.NoDup (sorted_keys l).
  Proof using. apply NoDup_ListNoDup. unfold sorted_keys. rewrite (merge_sort_Permutation name_le). apply NoDup_remove_dups. Qed.

  Lemma comment_line d d' : run_line no_file load save NewVoxelMesh ft workers d (txt "#!/bin/bash -x") d' -> d' = d.
  Proof using. intros [r E|ostl b cuts d1 e E _|prefix names d1 e E _ _]; [reflexivity|vm_compute in E; discriminate..]. Qed.

  (** stldice on a base and cuts in a directory without old files, then the printed script: the STL file left at the end is the
      surface of what is left over of the base. *)
  Theorem C79_script d0 box bx dim nx ny nz bname base cuts ws suffixes d2 :
    let args := (bname, base) :: cuts in
    let prefix := stlOutPrefix (map fst args) ++ txt "-" ++ show_int dim ++ txt "-" ++ show_int nx ++ txt "-" ++ show_int ny ++ txt "-" ++ show_int nz in
    match box with Some b => b = bx | None => bounding_box base = bx end ->
    good bx dim nx ny nz -> divides dim nx ny nz -> List.NoDup (map fst args) -> Forall proper (map fst args) ->
    (forall name mesh, In (name, mesh) args -> List.NoDup (map taddr mesh)) ->
    (forall n, d0 n <> None -> ~ In x2f n) ->
    (forall name mid, In name (map fst args) -> d0 (name ++ mid ++ txt ".binvox") = None) -> (forall mid, d0 (prefix ++ mid ++ txt ".stl") = None) ->
    stldice_main ft d0 box dim nx ny nz (map (fun a => (fst a, Some (snd a))) args) = (ws, Some suffixes) ->
    run (put_files d0 ws) (script (map fst args) dim nx ny nz suffixes) d2 ->
    (exists g, left_over bx dim nx ny nz base (map snd cuts) g) ->
    exists n bytes m, d2 n = Some bytes /\ load bytes = inr m /\ surrounds (whole bx dim) m (left_over bx dim nx ny nz base (map snd cuts)) /\
      ((exists v v', In v suffixes /\ In v' suffixes /\ v <> v') -> n = prefix ++ txt ".stl") /\
      (forall v, (forall v', In v' suffixes -> v' = v) -> n = prefix ++ v ++ txt ".stl").
  Proof using Hfmt Hlib.
    intros args prefix Hbox Hgood Hdv Hnd Hproper Haddr Hslash Hd0 Hd0' Hrun Hscr (g0 & Hg0). pose proof (proper_plains _ Hproper) as Hplain.
    set (td := tile_dims bx dim nx ny nz). pose proof Hgood as (Hs & Hx & Hy & Hz). fold td in Hx, Hy, Hz.
    set (P := left_over bx dim nx ny nz base (map snd cuts)) in *. set (d := put_files d0 ws) in *.
    assert (Epre : prefix = stlOutPrefix (map fst args) ++ [x2d] ++ common dim nx ny nz) by reflexivity.
    destruct (main_files ft d0 box bx dim nx ny nz args ws suffixes) as (Hfile & Hother & Hsuf); [destruct box; exact Hbox|assumption..| |exact Hrun|].
    { intros name mesh t Hin _. unfold out_file, out_prefix. rewrite <- app_assoc, (app_assoc _ (suffix_of t)). apply (Hd0 name). apply in_map_iff. exists (name, mesh). auto. }
    fold d in Hfile, Hother, Hsuf.
    set (vs := sorted_keys suffixes) in *.
    assert (Hvs : forall v, In v vs <-> In v suffixes) by (intros v; apply sorted_keys_in).
    assert (Hvnd : List.NoDup vs) by apply sorted_keys_nodup.
    assert (Hts : exists ts, vs = map suffix_of ts /\ forall t, In t ts -> in_grid nx ny nz t).
    { assert (H : forall v, In v vs -> exists t, v = suffix_of t /\ in_grid nx ny nz t) by (intros v Hv; apply Hvs, Hsuf in Hv as (? & ? & t & _ & Ht & -> & _); eauto).
      clear -H. induction vs as [|v vs IH]; [exists []; split; [reflexivity|intros ? []]|]. destruct IH as (ts & -> & Ht); [intros w Hw; apply H; right; exact Hw|].
      destruct (H v (or_introl eq_refl)) as (t & -> & Hg). exists (t :: ts). split; [reflexivity|]. intros t' [<-|Hin]; auto. }
    destruct Hts as (ts & Ets & Hgrid).
    assert (Hinj : forall t t', in_grid nx ny nz t -> in_grid nx ny nz t' -> suffix_of t = suffix_of t' -> t = t').
    { intros t t' H1 H2 E. apply (C42_names_distinct [] [] t t' nx ny nz); [assumption..|]. unfold out_file. rewrite E. reflexivity. }
    assert (Hnts : List.NoDup ts) by (apply (NoDup_map_inv suffix_of); rewrite <- Ets; exact Hvnd).
    assert (Hvp : Forall plain vs).
    { rewrite Ets. apply List.Forall_forall. intros v Hv. apply in_map_iff in Hv as (t & <- & Ht). exact (plain_suffix nx ny nz t (Hgrid t Ht)). }
    (* the run *)
    unfold script in Hscr. fold vs in Hscr. change ([txt "#!/bin/bash -x"] ++ ?x) with (txt "#!/bin/bash -x" :: x) in Hscr. inversion_clear Hscr as [|? ? ? dc ? Hc Hscr'].
    apply comment_line in Hc. subst dc. apply run_app in Hscr' as (d1 & Hcuts & Hmerge).
    destruct (voxcut_lines bname (map fst cuts) dim nx ny nz vs d d1 Hplain Hvp Hvnd Hcuts) as [Hrest Htile].
    set (S := tile_stl (bname :: map fst cuts) dim nx ny nz) in *.
    assert (ES : forall v, S v = prefix ++ v ++ txt ".stl") by (intros v; reflexivity).
    assert (Hnone : forall mid, d (prefix ++ mid ++ txt ".stl") = None).
    { intros mid. rewrite Hother; [apply Hd0'|]. intros name t _ _ E. exact (stl_not_binvox _ _ _ _ E). }
    (* what is in the files *)
    assert (Hpart : forall t, In t ts ->
      (exists m, d1 (S (suffix_of t)) = Some (save m) /\ exists b, (0 < vpmm b)%Q /\ (forall k, qpt_eq (world b k) (world (whole bx dim) (tile_voxel td t k))) /\ surrounds b m (filled b) /\
         forall k, filled b k <-> in_grid (kx td) (ky td) (kz td) k /\ P (tile_voxel td t k)) \/
      (d1 (S (suffix_of t)) = None /\ forall k, in_grid (kx td) (ky td) (kz td) k -> ~ P (tile_voxel td t k))).
    { intros t Ht. specialize (Htile (suffix_of t)). rewrite Ets in Htile. specialize (Htile (in_map _ _ _ Ht)).
      pose proof (tile_cut ft d bx dim nx ny nz bname base cuts t Hgood (Hgrid t Ht) Haddr) as HT. fold td P in HT.
      assert (HF : forall name mesh, In (name, mesh) ((bname, base) :: cuts) -> d (out_file (out_prefix name dim nx ny nz) t) = match region_file ft (tile_region bx dim nx ny nz t) mesh with inr o => o | inl _ => None end)
        by (intros name mesh Hin; apply Hfile; [exact Hin|exact (Hgrid t Ht)]).
      specialize (HT HF). destruct (voxcut_main ft 0 0 0 0 0 0 _ _) as [b|].
      - left. destruct Htile as (m & Hm & Hd1). exists m. split; [exact Hd1|]. destruct HT as (Hv & Hcol & Hw & Hf). exists b. split; [exact Hv|]. split; [exact Hw|]. split; [|exact Hf].
        destruct Hm as (f & whites & cols & Hp1 & Hp2 & Hnvm & ->). apply C71_winding; [exact Hv|exact Hp1|exact Hp2|]. apply Hlib; [|exact Hnvm].
        rewrite Hcol, dom_empty_L, elements_empty in Hp2. apply Permutation_sym, Permutation_nil in Hp2. subst cols. rewrite app_nil_r. apply NoDup_ListNoDup. rewrite Hp1. apply NoDup_elements.
      - right. split; [rewrite Htile; apply (Hnone (suffix_of t))|exact HT]. }
    assert (Hcov : forall g, P g -> exists t k, In t ts /\ d1 (S (suffix_of t)) <> None /\ in_grid (kx td) (ky td) (kz td) k /\ g = tile_voxel td t k).
    { intros g HP. pose proof HP as [[Hg Hres] _]. fold td in Hg.
      assert (Hex : exists t k, in_grid nx ny nz t /\ in_grid (kx td) (ky td) (kz td) k /\ g = tile_voxel td t k) by (apply (C42_coverage bx dim nx ny nz g Hs); fold td; [lia..|exact Hg]).
      destruct Hex as (t & k & Ht & Hk & Eg). exists t, k.
      assert (Hin : In t ts).
      { assert (Hv : In (suffix_of t) vs).
        { apply Hvs, Hsuf. exists bname, base, t. split; [left; reflexivity|]. split; [exact Ht|]. split; [reflexivity|].
          destruct (tile_reads ft d bx dim nx ny nz base (out_prefix bname dim nx ny nz) t Hgood (Haddr _ _ (or_introl eq_refl)) Ht (Hfile _ _ t (or_introl eq_refl) Ht)) as [H _].
          apply (H k Hk). fold td. rewrite <- Eg. apply HP. }
        rewrite Ets in Hv. apply in_map_iff in Hv as (t' & E & Ht'). rewrite (Hinj t t' Ht (Hgrid t' Ht') (eq_sym E)). exact Ht'. }
      split; [exact Hin|]. split; [|auto]. destruct (Hpart t Hin) as [(m & -> & _)|[_ C]]; [discriminate|]. exfalso. apply (C k Hk). rewrite <- Eg. exact HP. }
    set (ts' := List.filter (fun t => match d1 (S (suffix_of t)) with Some _ => true | None => false end) ts).
    assert (Hts' : forall t, In t ts' <-> In t ts /\ d1 (S (suffix_of t)) <> None).
    { intros t. unfold ts'. rewrite filter_In. destruct (d1 (S (suffix_of t))); split; intros [? ?]; (split; [assumption|]); congruence. }
    assert (Hnts' : List.NoDup ts') by (apply List.NoDup_filter, Hnts).
    assert (Hsur : forall tt ms, Permutation tt ts' -> Forall2 (fun t m => exists bytes, d1 (S (suffix_of t)) = Some bytes /\ load bytes = inr m) tt ms -> surrounds (whole bx dim) (concat ms) P).
    { intros tt ms Hp Hms. apply (tiles_surround bx dim nx ny nz P tt ms); fold td; [lia..|apply (Permutation_NoDup (Permutation_sym Hp) Hnts')| |].
      - assert (Hin : forall t, In t tt -> In t ts') by (intros t; apply Permutation_in, Hp). clear -Hms Hin Hts' Hpart Hfmt.
        induction Hms as [|t m tt ms (bytes & Hb & Hl) _ IH]; constructor; [|apply IH; intros t' Ht'; apply Hin; right; exact Ht'].
        pose proof (proj1 (Hts' t) (Hin t (or_introl eq_refl))) as [Ht Hne]. destruct (Hpart t Ht) as [(m' & Hd1 & Hb')|[C _]]; [|contradiction].
        rewrite Hd1 in Hb. injection Hb as <-. rewrite Hfmt in Hl. injection Hl as <-. exact Hb'.
      - intros g HP. destruct (Hcov g HP) as (t & k & Ht & Hne & Hk & Eg). exists t, k. split; [|auto]. apply (Permutation_in _ (Permutation_sym Hp)), Hts'. auto. }
    destruct (Hcov g0 Hg0) as (t0 & _ & Ht0 & Hne0 & _ & _).
    assert (Ht0' : In t0 ts') by (apply Hts'; auto).
    destruct (1 <? length vs)%nat eqn:El.
    - apply Nat.ltb_lt in El. inversion_clear Hmerge as [|? ? ? d2' ? Hm Hend]. inversion Hend; subst. clear Hend.
      fold prefix in Hm. assert (Hpp : plain prefix).
      { rewrite Epre. apply plain_app; [|apply plain_app; [intros [E|[]]; discriminate|apply plain_common]].
        unfold stlOutPrefix. destruct (map fst args) as [|a [|a' l]]; [|inversion_clear Hplain; assumption|]; intros H; cbn in H; repeat destruct H as [H|H]; try discriminate; exact H. }
      pose proof (merge_words prefix Hpp) as Ew.
      match type of Hm with run_line _ _ _ _ _ _ _ ?l _ => assert (Eline : l = txt "merge-stl -f -prefix " ++ prefix) by reflexivity; rewrite Eline in Hm end.
      assert (Hnc : forall r, txt "merge-stl -f -prefix " ++ prefix <> x23 :: r) by discriminate. set (line := txt "merge-stl -f -prefix " ++ prefix) in Hm, Ew, Hnc. clear Eline. clearbody line.
      destruct Hm as [r E|ostl b cs d3 e E _|pre names d3 e E Hl Hm]; [destruct (Hnc _ E)|rewrite E in Ew; discriminate|].
      rewrite E in Ew. injection Ew as ->.
      assert (Hparts : stl_parts d1 prefix (map (fun t => S (suffix_of t)) ts')).
      { split.
        - apply NoDup_ListNoDup, NoDup_fmap_2_strong; [|apply NoDup_ListNoDup, Hnts']. intros t t' Ht Ht' E'. rewrite elem_of_list_In in Ht, Ht'. rewrite !ES in E'. apply app_inv_head, app_inv_tail in E'.
          apply Hinj; [apply Hgrid, Hts', Ht|apply Hgrid, Hts', Ht'|exact E'].
        - intros n. split.
          + intros Hn. apply in_map_iff in Hn as (t & <- & Ht). rewrite ES. split; [|split; [exists (suffix_of t); reflexivity|rewrite <- ES; apply Hts', Ht]].
            intros E'. apply app_inv_head in E'. apply (f_equal length) in E'. rewrite app_length in E'. unfold suffix_of in E'. cbn [app length] in E'. lia.
          + intros (Hn & (mid & ->) & Hne). destruct (in_dec (fun x y => decide (x = y)) mid vs) as [Hi|Hi].
            * rewrite Ets in Hi. apply in_map_iff in Hi as (t & <- & Ht). apply in_map_iff. exists t. split; [apply ES|]. apply Hts'. split; [exact Ht|]. rewrite ES. exact Hne.
            * exfalso. apply Hne. rewrite Hrest; [apply Hnone|]. intros v Hv E'. rewrite ES in E'. apply app_inv_head, app_inv_tail in E'. subst v. contradiction. }
      assert (Opre : forallb ordinary prefix = true) by (rewrite Epre; apply ord_app; [apply ord_out, Hproper|apply ord_app; [reflexivity|apply ord_common]]).
      assert (Hdir : GlobProps.in_directory names).
      { intros n Hn. apply (proj2 Hl) in Hn. destruct (in_dec (fun x y => decide (x = y)) n (map S vs)) as [Hi|Hi].
        - apply in_map_iff in Hi as (v & <- & Hv). rewrite Ets in Hv. apply in_map_iff in Hv as (t & <- & Ht). apply ord_slash. rewrite ES. apply ord_app; [exact Opre|]. apply ord_app; [exact (ord_suffix nx ny nz t (Hgrid t Ht))|reflexivity].
        - rewrite Hrest in Hn by (intros v Hv E'; apply Hi, in_map_iff; exists v; split; [symmetry; exact E'|exact Hv]).
          set (outs := flat_map (fun name => map (fun t => out_file (out_prefix name dim nx ny nz) t) (all_tiles nx ny nz)) (map fst args)).
          destruct (in_dec (fun x y => decide (x = y)) n outs) as [Ho|Ho].
          + apply in_flat_map in Ho as (name & Hname & Ho). apply in_map_iff in Ho as (t & <- & Ht). apply in_all_tiles in Ht. apply ord_slash.
            rewrite <- tile_file_of. unfold tile_file. apply List.Forall_forall with (x := name) in Hproper; [|exact Hname]. apply ord_app; [apply Hproper|]. apply ord_app; [reflexivity|]. apply ord_app; [apply ord_common|]. apply ord_app; [exact (ord_suffix nx ny nz t Ht)|reflexivity].
          + apply Hslash. rewrite <- Hother; [exact Hn|]. intros name t Hname Ht E'. apply Ho, in_flat_map. exists name. split; [exact Hname|]. apply in_map_iff. exists t. split; [symmetry; exact E'|apply in_all_tiles, Ht]. }
      apply (GlobProps.C86_stl_plain no_file load save true workers prefix d1 names d3 e (ord_glob _ Opre) Hdir) in Hm.
      pose proof (C67_outcome no_file load save true workers prefix d1 names d3 e _ Hl (or_introl eq_refl) Hparts Hm) as Hend. destruct e.
      2:{ exfalso. destruct Hend as (_ & f & bytes & er & Hif & Hb & Hlo). apply in_map_iff in Hif as (t & <- & Ht). apply Hts' in Ht as [Ht Hne]. destruct (Hpart t Ht) as [(m & Hd1 & _)|[C _]]; [|contradiction].
          rewrite Hd1 in Hb. injection Hb as <-. rewrite Hfmt in Hlo. discriminate. }
      2:{ exfalso. destruct Hend as [C _]. apply map_eq_nil in C. rewrite C in Ht0'. destruct Ht0'. }
      destruct Hend as (_ & forder & ms & Hpo & Hms & Hd2).
      apply Permutation_map_inv in Hpo as (tt & -> & Hpt).
      exists (prefix ++ txt ".stl"), (save (concat ms)), (concat ms). split; [exact Hd2|]. split; [apply Hfmt|]. split.
      { apply (Hsur tt ms (Permutation_sym Hpt)). clear -Hms. remember (map (fun t => S (suffix_of t)) tt) as l eqn:E. revert tt E. induction Hms as [|f m l ms H _ IH]; intros [|t tt] E; try discriminate; constructor.
        - injection E as -> _. exact H.
        - apply IH. injection E as _ ->. reflexivity. }
      split; [reflexivity|]. intros v Hv. exfalso. destruct vs as [|v1 [|v2 l]]; cbn in El; try lia.
      assert (v1 = v) by (apply Hv, Hvs; left; reflexivity). assert (v2 = v) by (apply Hv, Hvs; right; left; reflexivity). subst. inversion_clear Hvnd as [|? ? C _]. apply C. left. reflexivity.
    - apply Nat.ltb_ge in El. inversion Hmerge; subst. clear Hmerge.
      assert (El' : (length ts <= 1)%nat) by (rewrite <- (map_length suffix_of), <- Ets; exact El).
      destruct ts as [|t [|t' l]]; [destruct Ht0| |cbn in El'; lia]. destruct Ht0 as [<-|[]].
      destruct (Hpart t (or_introl eq_refl)) as [(m & Hd1 & _)|[C _]]; [|contradiction].
      exists (prefix ++ suffix_of t ++ txt ".stl"), (save m), m. split; [rewrite <- ES; exact Hd1|]. split; [apply Hfmt|]. split; [|split].
      + rewrite <- (app_nil_r m). change (m ++ []) with (concat [m]). apply (Hsur [t] [m]).
        * apply NoDup_Permutation; [repeat constructor; intros H; inversion H| apply NoDup_ListNoDup, Hnts'|]. intros x. rewrite !elem_of_list_In, Hts'. split; [intros [<-|[]]; split; [left; reflexivity|exact Hne0]|tauto].
        * repeat constructor. exists (save m). split; [exact Hd1|apply Hfmt].
      + intros (v & v' & Hv & Hv' & Hn). exfalso. apply Hn. apply Hvs in Hv, Hv'. rewrite Ets in Hv, Hv'. cbn in Hv, Hv'. destruct Hv as [<-|[]], Hv' as [<-|[]]. reflexivity.
      + intros v Hv. rewrite <- (Hv (suffix_of t)); [reflexivity|]. apply Hvs. rewrite Ets. left. reflexivity.
  Qed.
  Lemma listing_put d names n bytes : listing d names -> exists names', listing (put_file d (n, bytes)) names'.
  Proof using.
    intros [Hnd Hin]. destruct (in_dec (fun x y => decide (x = y)) n names) as [Hi|Hi].
    - exists names. split; [exact Hnd|]. intros n'. unfold put_file. cbn [fst snd]. destruct (decide (n' = n)) as [->|]; [split; [discriminate|intros _; exact Hi]|apply Hin].
    - exists (n :: names). split; [constructor; assumption|]. intros n'. unfold put_file. cbn [fst snd In]. destruct (decide (n' = n)) as [->|Hn]; [split; [discriminate|intros _; left; reflexivity]|].
      rewrite <- Hin. split; [intros [->|H]; [contradiction|exact H]|intros H; right; exact H].
  Qed.

  Lemma listing_files ws : forall d names, listing d names -> exists names', listing (put_files d ws) names'.
  Proof using.
    induction ws as [|[n b] ws IH]; intros d names H; [exists names; exact H|]. destruct (listing_put d names n b H) as (names' & H'). exact (IH _ _ H').
  Qed.

  Lemma run_app_intro d l1 l2 d1 d2 : run d l1 d1 -> run d1 l2 d2 -> run d (l1 ++ l2) d2.
  Proof using. intros H. induction H as [|d line lines d' d'' H1 H2 IH]; intros Hr; [exact Hr|]. cbn [app]. econstructor; [exact H1|exact (IH Hr)]. Qed.

  Lemma voxcut_lines_end name rest dim nx ny nz vs d names : (forall l, exists m, NewVoxelMesh l m) -> Forall plain (name :: rest) -> Forall plain vs -> listing d names ->
    exists d1 names1, run d (map (voxcut_line (name :: rest) dim nx ny nz) vs) d1 /\ listing d1 names1.
  Proof using.
    intros Hnvm Hp Hvs. revert d names. induction Hvs as [|v vs Hv _ IH]; intros d names Hl; [exists d, names; split; [constructor|exact Hl]|].
    assert (H : exists d' names', run_line no_file load save NewVoxelMesh ft workers d (voxcut_line (name :: rest) dim nx ny nz v) d' /\ listing d' names').
    { pose proof (voxcut_words _ name rest dim nx ny nz v eq_refl Hp Hv) as Ew.
      destruct (voxcut_main ft 0 0 0 0 0 0 (d (tile_file name dim nx ny nz v)) (map d (map (fun a => tile_file a dim nx ny nz v) rest))) as [b|] eqn:E.
      - destruct (Hnvm (elements (white b) ++ elements (dom (colors b)))) as (m & Hm).
        destruct (listing_put d names (tile_stl (name :: rest) dim nx ny nz v) (save (ToMesh (fun _ => m) b (elements (white b)) (elements (dom (colors b))))) Hl) as (names' & Hl').
        eexists _, names'. split; [|exact Hl']. eapply run_voxcut; [exact Ew|]. eapply voxcut_saved; [exact E|reflexivity|reflexivity|exact Hm].
      - exists d, names. split; [|exact Hl]. eapply run_voxcut; [exact Ew|]. apply voxcut_fatal, E. }
    destruct H as (d' & names' & Hr & Hl'). destruct (IH d' names' Hl') as (d1 & names1 & Hr1 & Hl1). exists d1, names1. split; [|exact Hl1]. cbn [map]. econstructor; [exact Hr|exact Hr1].
  Qed.

  (** And the script comes to its end. *)
  Theorem C79_ends d0 names0 box bx dim nx ny nz bname base cuts ws suffixes :
    let args := (bname, base) :: cuts in
    (forall l, exists m, NewVoxelMesh l m) -> (1 <= workers)%nat -> listing d0 names0 ->
    match box with Some b => b = bx | None => bounding_box base = bx end ->
    good bx dim nx ny nz -> divides dim nx ny nz -> List.NoDup (map fst args) -> Forall proper (map fst args) ->
    (forall name mesh, In (name, mesh) args -> List.NoDup (map taddr mesh)) ->
    (forall name mid, In name (map fst args) -> d0 (name ++ mid ++ txt ".binvox") = None) ->
    stldice_main ft d0 box dim nx ny nz (map (fun a => (fst a, Some (snd a))) args) = (ws, Some suffixes) ->
    exists d2, run (put_files d0 ws) (script (map fst args) dim nx ny nz suffixes) d2.
  Proof using.
    intros args Hnvm Hw Hl Hbox Hgood Hdv Hnd Hproper Haddr Hd0 Hrun. pose proof (proper_plains _ Hproper) as Hplain.
    destruct (main_files ft d0 box bx dim nx ny nz args ws suffixes) as (_ & _ & Hsuf); [destruct box; exact Hbox|assumption..| |exact Hrun|].
    { intros name mesh t Hin _. unfold out_file, out_prefix. rewrite <- app_assoc, (app_assoc _ (suffix_of t)). apply (Hd0 name). apply in_map_iff. exists (name, mesh). auto. }
    set (vs := sorted_keys suffixes).
    assert (Hvp : Forall plain vs).
    { apply List.Forall_forall. intros v Hv. apply sorted_keys_in, Hsuf in Hv as (? & ? & t & _ & Ht & -> & _). exact (plain_suffix nx ny nz t Ht). }
    destruct (listing_files ws d0 names0 Hl) as (names & Hl1).
    destruct (voxcut_lines_end bname (map fst cuts) dim nx ny nz vs _ names Hnvm Hplain Hvp Hl1) as (d1 & names1 & Hr1 & Hl2).
    assert (H : exists d2, run d1 (if (1 <? length vs)%nat then [txt "merge-stl -f -prefix " ++ stlOutPrefix (map fst args) ++ [x2d] ++ common dim nx ny nz] else []) d2).
    { destruct (1 <? length vs)%nat; [|exists d1; constructor].
      destruct (GlobStl.C86_stl_ends no_file load save true workers (stlOutPrefix (map fst args) ++ [x2d] ++ common dim nx ny nz) d1 names1 Hw) as (d2 & e & Hm).
      exists d2. econstructor; [|constructor]. eapply run_merge; [|exact Hl2|exact Hm].
      apply merge_words. apply plain_app; [|apply plain_app; [intros [C|[]]; discriminate|apply plain_common]].
      unfold stlOutPrefix, args. cbn [map fst]. inversion_clear Hplain. destruct (map fst cuts); [assumption|]. intros C. cbn in C. repeat destruct C as [C|C]; try discriminate; exact C. }
    destruct H as (d2 & Hr2). exists d2. unfold script. fold vs. change ([txt "#!/bin/bash -x"] ++ ?x) with (txt "#!/bin/bash -x" :: x).
    econstructor; [eapply run_comment; reflexivity|]. exact (run_app_intro _ _ _ _ _ Hr1 Hr2).
  Qed.
End Run.
