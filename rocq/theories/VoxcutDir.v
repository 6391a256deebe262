(** C83: voxcut with a window and all its outputs; voxcut-dice over a directory, run directly or as a script; the STL tiles put together. *)
From Verif Require Import Base BaseLemmas BinvoxSpec BinvoxModel Geom VoxelizeModel MeshSpec MeshCells MeshInside MeshNear MeshSolid ManifoldModel VoxcutModel VoxcutProps VoxcutDiceProps StldiceModel StldiceProps
  CmdMergeModel CmdMergeProps CmdStlModel CmdStlProps CmdDiceMesh ToMesh ToMeshWind StldiceScriptModel StldiceScript CmdManifold VoxcutDirModel.
From Coq Require Import ZArith QArith List Bool String Init.Byte Lia Permutation.
From stdpp Require Import base list gmap sets fin_sets.
Import ListNotations.
Open Scope Z_scope.

(** ** Specification *)

(** Voxel [v] is in the tile with corner [t], or in the next layer beyond it. *)
Definition in_tile (size : Z) (t v : key) : Prop :=
  kx t <= kx v <= kx t + size /\ ky t <= ky v <= ky t + size /\ kz t <= kz v <= kz t + size.
(** What remains of the base there. *)
Definition tile_rest (b : binvox Q) (cuts : list (option (binvox Q))) (size : Z) (t v : key) : Prop := remains b cuts v /\ in_tile size t v.

(** An axis on which a voxel belongs to two tiles, and in how many tiles the voxel is. *)
Definition doubled (size a : Z) : bool := (0 <? a) && (a mod size =? 0).
Definition copies (size : Z) (v : key) : Z :=
  (if doubled size (kx v) then 2 else 1) * (if doubled size (ky v) then 2 else 1) * (if doubled size (kz v) then 2 else 1).

(** ** The command line *)
Lemma dec_head fuel : forall n acc, 0 < n -> n < 2 ^ Z.of_nat fuel -> hd x31 (dec_digits fuel n acc) <> x30.
Proof.
  induction fuel as [|fuel IH]; intros n acc Hn Hf; [cbn in Hf; lia|]. cbn [dec_digits].
  destruct (Z.eqb_spec (n / 10) 0) as [E|E].
  - cbn [hd]. assert (Hs : 0 < n < 10). { split; [exact Hn|]. destruct (Z.lt_ge_cases n 10) as [?|G]; [assumption|]. exfalso. assert (10 / 10 <= n / 10) by (apply Z.div_le_mono; lia). change (10 / 10) with 1 in *. lia. }
    assert (C : n = 1 \/ n = 2 \/ n = 3 \/ n = 4 \/ n = 5 \/ n = 6 \/ n = 7 \/ n = 8 \/ n = 9) by lia.
    repeat destruct C as [-> | C]; try (vm_compute; discriminate). subst. vm_compute. discriminate.
  - apply IH; [pose proof (Z.div_pos n 10); lia|]. apply Z.div_lt_upper_bound; [lia|]. rewrite Nat2Z.inj_succ, Z.pow_succ_r in Hf by lia. lia.
Qed.
Lemma flag_int_show n : 0 <= n <= max_int -> flag_int (show_int n) = Some n.
Proof.
  intros Hn. assert (Hd : forallb is_digit (show_int n) = true).
  { unfold show_int. destruct (Z.ltb_spec n 0); [lia|]. apply show_nat_digits. lia. }
  pose proof (atoi_show n Hn) as Ha. destruct (Z.eq_dec n 0) as [->|Hne]; [reflexivity|].
  assert (Hh : hd x31 (show_int n) <> x30).
  { unfold show_int. destruct (Z.ltb_spec n 0); [lia|]. unfold show_nat. apply dec_head; [lia|]. apply show_nat_fuel. lia. }
  unfold flag_int. destruct (show_int n) as [|c l] eqn:E; [rewrite Hd, Ha; reflexivity|]. cbn [hd] in Hh.
  destruct c; try (rewrite Hd, Ha; reflexivity); contradiction.
Qed.

Definition named (l : list (list byte)) : Prop := match l with [] => False | n :: _ => hd x00 n <> x2d end.
Lemma parse_names fl names : named names -> parse_voxcut fl names = Some (fl, names).
Proof. destruct names as [|[|c n] l]; cbn; [intros []|reflexivity|]. intros H. destruct c; try reflexivity; contradiction. Qed.

Lemma p_ob ob os ov sx sy sz cx cy cz v rest : parse_voxcut (Flags ob os ov sx sy sz cx cy cz) (txt "-obinvox" :: v :: rest) = parse_voxcut (Flags v os ov sx sy sz cx cy cz) rest.
Proof. change (txt "-obinvox") with (x2d :: txt "obinvox"). cbn [parse_voxcut]. rewrite decide_True by reflexivity. reflexivity. Qed.
Lemma p_os ob os ov sx sy sz cx cy cz v rest : parse_voxcut (Flags ob os ov sx sy sz cx cy cz) (txt "-ostl" :: v :: rest) = parse_voxcut (Flags ob v ov sx sy sz cx cy cz) rest.
Proof. change (txt "-ostl") with (x2d :: txt "ostl"). cbn [parse_voxcut]. rewrite decide_False by discriminate. rewrite decide_True by reflexivity. reflexivity. Qed.
Lemma p_ov ob os ov sx sy sz cx cy cz v rest : parse_voxcut (Flags ob os ov sx sy sz cx cy cz) (txt "-ovox" :: v :: rest) = parse_voxcut (Flags ob os v sx sy sz cx cy cz) rest.
Proof. change (txt "-ovox") with (x2d :: txt "ovox"). cbn [parse_voxcut]. do 2 rewrite decide_False by discriminate. rewrite decide_True by reflexivity. reflexivity. Qed.
Lemma p_sx ob os ov sx sy sz cx cy cz v n rest : flag_int v = Some n -> parse_voxcut (Flags ob os ov sx sy sz cx cy cz) (txt "-sx" :: v :: rest) = parse_voxcut (Flags ob os ov n sy sz cx cy cz) rest.
Proof. intros E. change (txt "-sx") with (x2d :: txt "sx"). cbn [parse_voxcut]. do 3 rewrite decide_False by discriminate. rewrite E. rewrite decide_True by reflexivity. reflexivity. Qed.
Lemma p_sy ob os ov sx sy sz cx cy cz v n rest : flag_int v = Some n -> parse_voxcut (Flags ob os ov sx sy sz cx cy cz) (txt "-sy" :: v :: rest) = parse_voxcut (Flags ob os ov sx n sz cx cy cz) rest.
Proof. intros E. change (txt "-sy") with (x2d :: txt "sy"). cbn [parse_voxcut]. do 3 rewrite decide_False by discriminate. rewrite E. rewrite decide_False by discriminate. rewrite decide_True by reflexivity. reflexivity. Qed.
Lemma p_sz ob os ov sx sy sz cx cy cz v n rest : flag_int v = Some n -> parse_voxcut (Flags ob os ov sx sy sz cx cy cz) (txt "-sz" :: v :: rest) = parse_voxcut (Flags ob os ov sx sy n cx cy cz) rest.
Proof. intros E. change (txt "-sz") with (x2d :: txt "sz"). cbn [parse_voxcut]. do 3 rewrite decide_False by discriminate. rewrite E. do 2 rewrite decide_False by discriminate. rewrite decide_True by reflexivity. reflexivity. Qed.
Lemma p_cx ob os ov sx sy sz cx cy cz v n rest : flag_int v = Some n -> parse_voxcut (Flags ob os ov sx sy sz cx cy cz) (txt "-cx" :: v :: rest) = parse_voxcut (Flags ob os ov sx sy sz n cy cz) rest.
Proof. intros E. change (txt "-cx") with (x2d :: txt "cx"). cbn [parse_voxcut]. do 3 rewrite decide_False by discriminate. rewrite E. do 3 rewrite decide_False by discriminate. rewrite decide_True by reflexivity. reflexivity. Qed.
Lemma p_cy ob os ov sx sy sz cx cy cz v n rest : flag_int v = Some n -> parse_voxcut (Flags ob os ov sx sy sz cx cy cz) (txt "-cy" :: v :: rest) = parse_voxcut (Flags ob os ov sx sy sz cx n cz) rest.
Proof. intros E. change (txt "-cy") with (x2d :: txt "cy"). cbn [parse_voxcut]. do 3 rewrite decide_False by discriminate. rewrite E. do 4 rewrite decide_False by discriminate. rewrite decide_True by reflexivity. reflexivity. Qed.
Lemma p_cz ob os ov sx sy sz cx cy cz v n rest : flag_int v = Some n -> parse_voxcut (Flags ob os ov sx sy sz cx cy cz) (txt "-cz" :: v :: rest) = parse_voxcut (Flags ob os ov sx sy sz cx cy n) rest.
Proof. intros E. change (txt "-cz") with (x2d :: txt "cz"). cbn [parse_voxcut]. do 3 rewrite decide_False by discriminate. rewrite E. do 5 rewrite decide_False by discriminate. rewrite decide_True by reflexivity. reflexivity. Qed.

Definition out_name (p ext : list byte) (size : Z) (t : key) : list byte := if decide (p = []) then [] else tile_name p ext size t.
Lemma parse_args size pv pb ps names t : named names -> 0 <= size <= max_int -> 0 <= kx t <= max_int -> 0 <= ky t <= max_int -> 0 <= kz t <= max_int ->
  parse_voxcut no_flags (dice_args size pv pb ps names t) =
  Some (Flags (out_name pb (txt ".binvox") size t) (out_name ps (txt ".stl") size t) (out_name pv (txt ".vox") size t) (kx t) (ky t) (kz t) size size size, names).
Proof.
  intros Hn Hs Hx Hy Hz. unfold dice_args, no_flags, out_name. cbn [app].
  rewrite (p_sx _ _ _ _ _ _ _ _ _ _ (kx t)) by (apply flag_int_show; assumption). rewrite (p_sy _ _ _ _ _ _ _ _ _ _ (ky t)) by (apply flag_int_show; assumption).
  rewrite (p_sz _ _ _ _ _ _ _ _ _ _ (kz t)) by (apply flag_int_show; assumption). rewrite (p_cx _ _ _ _ _ _ _ _ _ _ size) by (apply flag_int_show; assumption).
  rewrite (p_cy _ _ _ _ _ _ _ _ _ _ size) by (apply flag_int_show; assumption). rewrite (p_cz _ _ _ _ _ _ _ _ _ _ size) by (apply flag_int_show; assumption).
  destruct (decide (pv = [])), (decide (pb = [])), (decide (ps = [])); cbn [app]; rewrite ?p_ov, ?p_ob, ?p_os; apply parse_names, Hn.
Qed.

Lemma dice_words size pv pb ps names t : 0 <= kx t /\ 0 <= ky t /\ 0 <= kz t -> 0 <= size -> Forall plain names -> plain pv -> plain pb -> plain ps ->
  words (dice_line (dice_args size pv pb ps names t)) = txt "voxcut" :: dice_args size pv pb ps names t.
Proof.
  intros Ht Hs Hp Hpv Hpb Hps. unfold words, dice_line.
  assert (D : forall s, forallb (fun c => negb (bool_decide (c = x20))) s = true -> plain s).
  { intros s H Hin. rewrite forallb_forall in H. apply H in Hin. rewrite bool_decide_true in Hin by reflexivity. discriminate. }
  rewrite split_all; [reflexivity| |apply D; reflexivity].
  assert (Hpad : forall a, 0 <= a -> plain (pad4 a)) by (intros a Ha; apply digits_plain, pad4_digits, Ha).
  assert (Htn : forall p ext, plain p -> plain ext -> plain (tile_name p ext size t)).
  { intros p ext H1 H2. unfold tile_name. repeat (apply plain_app; [first [assumption|apply D; reflexivity|apply Hpad; lia]|]). exact H2. }
  unfold dice_args. rewrite !Forall_app. split; [repeat constructor; first [apply plain_int|apply D; reflexivity]|].
  split; [case_decide; [constructor|]|split; [case_decide; [constructor|]|split; [case_decide; [constructor|]|exact Hp]]].
  all: repeat constructor; [apply D; reflexivity|apply Htn; [assumption|apply D; reflexivity]].
Qed.

(** ** One run of voxcut *)
Definition box_of (size : Z) (t v : key) : Prop := in_region (kx t) (ky t) (kz t) size size size v.
Lemma same_near b b' w d : Scale b' = Scale b -> NX b' = NX b -> NY b' = NY b -> NZ b' = NZ b -> TX b' = TX b -> TY b' = TY b -> TZ b' = TZ b -> near b' w d = near b w d.
Proof. unfold near, vpmm, dim. intros E0 E1 E2 E3 E4 E5 E6. rewrite ?E0, ?E1, ?E2, ?E3, ?E4, ?E5, ?E6. reflexivity. Qed.
Lemma ext_neq (l1 l2 e1 e2 : list byte) : length e1 = length e2 -> e1 <> e2 -> l1 ++ e1 <> l2 ++ e2.
Proof. intros Hl Hn E. apply Hn. apply app_inj_2 in E; [apply E|exact Hl]. Qed.

Section Run.
  Context (save : list face -> list byte) (NewVoxelMesh : list key -> list face -> Prop) (Hlib : forall l m, List.NoDup l -> NewVoxelMesh l m -> surface_of l m).
  Context (ft : FloatText Q) (manifold : bool).
  Notation voxcut_prog := (voxcut_prog save NewVoxelMesh ft manifold).

  (** What the files of tile [t] hold: the binvox file what remains in the box of the tile, moved to the origin; the other two what remains
      in the box and the layer beyond. *)
  Definition binvox_made (b : binvox Q) (cuts : list (option (binvox Q))) (size : Z) (pb : list byte) (d : dir) (t : key) : Prop :=
    pb <> [] -> exists bytes out, d (tile_name pb (txt ".binvox") size t) = Some bytes /\ read ft bytes 0 0 0 0 0 0 = inr out /\
      forall k, k ∈ white out <-> in_grid size size size k /\ remains b cuts (shift_key (kx t) (ky t) (kz t) k).
  Definition stl_made (b : binvox Q) (cuts : list (option (binvox Q))) (size : Z) (ps : list byte) (d : dir) (t : key) : Prop :=
    ps <> [] -> exists m, d (tile_name ps (txt ".stl") size t) = Some (save m) /\
      if manifold then watertight m -> encloses b m (tile_rest b cuts size t) else surrounds b m (tile_rest b cuts size t).
  Definition vox_made (b : binvox Q) (cuts : list (option (binvox Q))) (size : Z) (pv : list byte) (d : dir) (t : key) : Prop :=
    pv <> [] -> exists l1 l2, d (tile_name pv (txt ".vox") size t) = Some (writeVOX l1 l2) /\ Permutation l1 l2 /\ List.NoDup l1 /\
      forall v, In v l1 <-> tile_rest b cuts size t v.
  Definition tile_made b cuts size pv pb ps d t : Prop := binvox_made b cuts size pb d t /\ stl_made b cuts size ps d t /\ vox_made b cuts size pv d t.
  (** [n] is not a file of tile [t]. *)
  Definition no_output (size : Z) (pv pb ps : list byte) (t : key) (n : list byte) : Prop :=
    (pb <> [] -> n <> tile_name pb (txt ".binvox") size t) /\ (ps <> [] -> n <> tile_name ps (txt ".stl") size t) /\ (pv <> [] -> n <> tile_name pv (txt ".vox") size t).

  Lemma mesh_rest b b' cuts size t m : (0 < vpmm b)%Q -> voxcut_mesh NewVoxelMesh manifold b' m -> (forall k, k ∈ white b' <-> tile_rest b cuts size t k) -> colors b' = ∅ ->
    Scale b' = Scale b -> NX b' = NX b -> NY b' = NY b -> NZ b' = NZ b -> TX b' = TX b -> TY b' = TY b -> TZ b' = TZ b ->
    if manifold then watertight m -> encloses b m (tile_rest b cuts size t) else surrounds b m (tile_rest b cuts size t).
  Proof using Hlib.
    intros Hv Hm Hw Hcol Es E1 E2 E3 E4 E5 E6. assert (Hv' : (0 < vpmm b')%Q) by (unfold vpmm, dim in *; rewrite ?Es, ?E1, ?E2, ?E3; exact Hv).
    assert (Hfil : forall k, filled b' k <-> tile_rest b cuts size t k) by (intros k; unfold filled; rewrite Hcol, lookup_empty, Hw; split; [intros [?|[? C]]; [assumption|discriminate]|auto]).
    unfold voxcut_mesh in Hm. destruct manifold.
    - intros Hwt w d Ho Ha. pose proof (encloses_manifold b' m Hv' Hm Hwt w d Ho Ha) as H. rewrite (same_near b b') in H by assumption. cbn zeta in *. rewrite Hfil in H. exact H.
    - destruct Hm as (f & whites & cols & Hp1 & Hp2 & Hnvm & ->). intros w d Hd.
      assert (Hs : surrounds b' (ToMesh f b' whites cols) (filled b')).
      { apply C71_winding; [exact Hv'|exact Hp1|exact Hp2|]. apply Hlib; [|exact Hnvm].
        rewrite Hcol, dom_empty_L, elements_empty in Hp2. apply Permutation_sym, Permutation_nil in Hp2. subst cols. rewrite app_nil_r. apply NoDup_ListNoDup. rewrite Hp1. apply NoDup_elements. }
      specialize (Hs w d Hd). rewrite (same_near b b') in Hs by assumption. cbn zeta in *. rewrite Hfil in Hs. exact Hs.
  Qed.

  Theorem C83_tile d d' e b cuts bname cnames size pv pb ps t :
    well_formed b -> white b <> ∅ -> (0 < vpmm b)%Q -> Forall (fun c => match c with Some c => well_formed c | None => True end) cuts ->
    d bname = file_of ft (Some b) -> map d cnames = map (file_of ft) cuts -> hd x00 bname <> x2d ->
    0 < size <= max_int -> in_grid (NX b) (NY b) (NZ b) t -> ~ (pv = [] /\ pb = [] /\ ps = []) ->
    voxcut_prog d (dice_args size pv pb ps (bname :: cnames) t) d' e ->
    (e = Fatal /\ d' = d /\ aborts b cuts size t) \/
    (e = Finished /\ ~ aborts b cuts size t /\ tile_made b cuts size pv pb ps d' t /\ forall n, no_output size pv pb ps t n -> d' n = d n).
  Proof using Hlib.
    intros Hwf Hne Hv Hcuts Hb Hc Hname Hs Ht Hout Hrun. pose proof Hwf as (_ & M1 & M2 & M3).
    pose proof Ht as Ht'. unfold in_grid, in_region in Ht'.
    pose proof (parse_args size pv pb ps (bname :: cnames) t Hname ltac:(lia) ltac:(lia) ltac:(lia) ltac:(lia)) as Hparse.
    destruct (C38_program ft b cuts (kx t) (ky t) (kz t) size size size Hwf Hne Hcuts) as [HP1 HP2]; [lia..|].
    assert (Hno : ~ (out_name pb (txt ".binvox") size t = [] /\ out_name ps (txt ".stl") size t = [] /\ out_name pv (txt ".vox") size t = [])).
    { unfold out_name. intros (H1 & H2 & H3). apply Hout. destruct (decide (pv = [])), (decide (pb = [])), (decide (ps = [])); auto;
        exfalso; unfold tile_name in H1, H2, H3; first [apply app_eq_nil in H1|apply app_eq_nil in H2|apply app_eq_nil in H3]; tauto. }
    destruct Hrun as [fl names E Hu|fl base cs E Hm|fl base cs b' d2 d3 E _ Hm Hvox Hstl]; rewrite Hparse in E.
    - injection E as <- <-. exfalso. destruct Hu as [Hu|Hu]; [discriminate|]. apply Hno. exact Hu.
    - injection E as <- <- <-. cbn [f_sx f_sy f_sz f_cx f_cy f_cz] in Hm. rewrite Hb, Hc in Hm. left. split; [reflexivity|]. split; [reflexivity|].
      apply HP2 in Hm as [A B]. split; assumption.
    - injection E as <- <- <-. cbn [f_sx f_sy f_sz f_cx f_cy f_cz] in Hm. rewrite Hb, Hc in Hm. right. split; [reflexivity|]. split.
      { intros [A B]. assert (C : voxcut_main ft (kx t) (ky t) (kz t) size size size (file_of ft (Some b)) (map (file_of ft) cuts) = None) by (apply HP2; split; assumption). congruence. }
      pose proof Hm as Hm'. rewrite Hm' in HP1. destruct HP1 as (Hw & Hcol & E1 & E2 & E3 & E4 & E5 & E6 & Es).
      assert (Hw' : forall k, k ∈ white b' <-> tile_rest b cuts size t k).
      { intros k. rewrite Hw. unfold tile_rest, in_tile, in_closed, axis_window. assert (size <> 0) by lia. clear -H Hs. split; intros [? ?]; (split; [assumption|lia]). }
      unfold put_vox, put_stl, put_binvox in *. cbn [f_ob f_os f_ov f_sx f_sy f_sz f_cx f_cy f_cz] in *. unfold out_name in *.
      assert (N1 : forall p q, tile_name p (txt ".vox") size t <> tile_name q (txt ".stl") size t).
      { intros p q. unfold tile_name. rewrite !app_assoc. apply ext_neq; [reflexivity|discriminate]. }
      assert (N2 : forall p q, tile_name p (txt ".binvox") size t <> tile_name q (txt ".stl") size t).
      { intros p q. unfold tile_name. rewrite !app_assoc. change (txt ".binvox") with (txt ".bi" ++ txt "nvox"). rewrite (app_assoc _ (txt ".bi")). apply ext_neq; [reflexivity|discriminate]. }
      assert (N3 : forall p q, tile_name p (txt ".binvox") size t <> tile_name q (txt ".vox") size t).
      { intros p q. unfold tile_name. rewrite !app_assoc. change (txt ".binvox") with (txt ".bi" ++ txt "nvox"). rewrite (app_assoc _ (txt ".bi")). apply ext_neq; [reflexivity|discriminate]. }
      assert (NN : forall p ext, tile_name p ext size t <> []) by (intros p ext C; unfold tile_name in C; apply app_eq_nil in C as [_ C]; discriminate C).
      set (dd := if decide ((if decide (pb = []) then [] else tile_name pb (txt ".binvox") size t) = []) then d
                 else put_file d (if decide (pb = []) then [] else tile_name pb (txt ".binvox") size t, write_file ft b' (kx t) (ky t) (kz t) size size size)) in *.
      assert (Hdd : (pb <> [] -> dd (tile_name pb (txt ".binvox") size t) = Some (write_file ft b' (kx t) (ky t) (kz t) size size size)) /\
                    (forall n, (pb <> [] -> n <> tile_name pb (txt ".binvox") size t) -> dd n = d n)).
      { subst dd. destruct (decide (pb = [])) as [->|Hp]; [rewrite decide_True by reflexivity; split; [intros C; contradiction C; reflexivity|reflexivity]|].
        rewrite decide_False by apply NN. split; [intros _; unfold put_file; cbn [fst snd]; apply decide_True; reflexivity|intros n Hn; apply put_file_other, Hn, Hp]. }
      clearbody dd. destruct Hdd as [Hd1 Hd2].
      assert (Hvx : (pv <> [] -> exists l1 l2, Permutation l1 (elements (white b')) /\ Permutation l2 (elements (white b')) /\ d2 (tile_name pv (txt ".vox") size t) = Some (writeVOX l1 l2)) /\
                    (forall n, (pv <> [] -> n <> tile_name pv (txt ".vox") size t) -> d2 n = dd n)).
      { destruct (decide (pv = [])) as [->|Hp]; [rewrite decide_True in Hvox by reflexivity; subst d2; split; [intros C; contradiction C; reflexivity|reflexivity]|].
        rewrite decide_False in Hvox by apply NN. destruct Hvox as (l1 & l2 & P1 & P2 & ->). split.
        - intros _. exists l1, l2. split; [exact P1|]. split; [exact P2|]. unfold put_file; cbn [fst snd]; apply decide_True; reflexivity.
        - intros n Hn. apply put_file_other, Hn, Hp. }
      clear Hvox. destruct Hvx as [Hv1 Hv2].
      assert (Hst : (ps <> [] -> exists m, voxcut_mesh NewVoxelMesh manifold b' m /\ d3 (tile_name ps (txt ".stl") size t) = Some (save m)) /\
                    (forall n, (ps <> [] -> n <> tile_name ps (txt ".stl") size t) -> d3 n = d2 n)).
      { destruct (decide (ps = [])) as [->|Hp]; [rewrite decide_True in Hstl by reflexivity; subst d3; split; [intros C; contradiction C; reflexivity|reflexivity]|].
        rewrite decide_False in Hstl by apply NN. destruct Hstl as (m & P1 & ->). split.
        - intros _. exists m. split; [exact P1|]. unfold put_file; cbn [fst snd]; apply decide_True; reflexivity.
        - intros n Hn. apply put_file_other, Hn, Hp. }
      clear Hstl. destruct Hst as [Hs1 Hs2].
      split; [split; [|split]|].
      + intros Hp. assert (Eo : voxcut_out ft (kx t) (ky t) (kz t) size size size (file_of ft (Some b)) (map (file_of ft) cuts) = Some (write_file ft b' (kx t) (ky t) (kz t) size size size)) by (unfold voxcut_out; rewrite Hm'; reflexivity).
        destruct (C38_output ft b cuts (kx t) (ky t) (kz t) size size size _ Hwf Hne Hcuts ltac:(lia) ltac:(lia) ltac:(lia) ltac:(lia) ltac:(lia) ltac:(lia) Eo) as (out & Hr & Ho).
        eexists _, out. split; [|split; [exact Hr|]].
        * rewrite Hs2 by (intros _; apply N2). rewrite Hv2 by (intros _; apply N3). apply Hd1, Hp.
        * intros k. rewrite Ho. replace (size =? 0) with false by lia. reflexivity.
      + intros Hp. destruct (Hs1 Hp) as (m & Hmm & Hd3). exists m. split; [exact Hd3|]. apply (mesh_rest b b' cuts size t m); assumption.
      + intros Hp. destruct (Hv1 Hp) as (l1 & l2 & P1 & P2 & Hd). exists l1, l2. split; [rewrite Hs2 by (intros _; apply N1); exact Hd|]. split; [rewrite P1, P2; reflexivity|].
        split; [apply NoDup_ListNoDup; rewrite P1; apply NoDup_elements|]. intros v. rewrite <- Hw', <- elem_of_list_In, P1. apply elem_of_elements.
      + intros n (A & B & C). rewrite Hs2 by exact B. rewrite Hv2 by exact C. apply Hd2, A.
  Qed.

  (** ** voxcut-dice *)
  Lemma made_ext b cuts size pv pb ps t d d' : tile_made b cuts size pv pb ps d t -> (forall n, ~ no_output size pv pb ps t n -> d' n = d n) -> tile_made b cuts size pv pb ps d' t.
  Proof using.
    intros (H1 & H2 & H3) Hd. split; [|split].
    - intros Hp. destruct (H1 Hp) as (bytes & out & E & H). exists bytes, out. rewrite Hd by (intros (C & _); apply (C Hp); reflexivity). auto.
    - intros Hp. destruct (H2 Hp) as (m & E & H). exists m. rewrite Hd by (intros (_ & C & _); apply (C Hp); reflexivity). auto.
    - intros Hp. destruct (H3 Hp) as (l1 & l2 & E & H). exists l1, l2. rewrite Hd by (intros (_ & _ & C); apply (C Hp); reflexivity). auto.
  Qed.
  Lemma no_output_dec size pv pb ps t n : no_output size pv pb ps t n \/ ~ no_output size pv pb ps t n.
  Proof using. unfold no_output. destruct (decide (pb = [])), (decide (ps = [])), (decide (pv = [])), (decide (n = tile_name pb (txt ".binvox") size t)), (decide (n = tile_name ps (txt ".stl") size t)), (decide (n = tile_name pv (txt ".vox") size t)); tauto. Qed.
  Lemma no_output_case size pv pb ps t n : ~ no_output size pv pb ps t n ->
    n = tile_name pb (txt ".binvox") size t \/ n = tile_name ps (txt ".stl") size t \/ n = tile_name pv (txt ".vox") size t.
  Proof using. unfold no_output. destruct (decide (n = tile_name pb (txt ".binvox") size t)), (decide (n = tile_name ps (txt ".stl") size t)), (decide (n = tile_name pv (txt ".vox") size t)); tauto. Qed.
  Lemma ext_apart p q size t t' : tile_name p (txt ".vox") size t <> tile_name q (txt ".stl") size t' /\ tile_name p (txt ".binvox") size t <> tile_name q (txt ".stl") size t' /\
    tile_name p (txt ".binvox") size t <> tile_name q (txt ".vox") size t'.
  Proof using.
    unfold tile_name. rewrite !app_assoc. split; [apply ext_neq; [reflexivity|discriminate]|]. change (txt ".binvox") with (txt ".bi" ++ txt "nvox"). rewrite (app_assoc _ (txt ".bi")).
    split; apply ext_neq; [reflexivity|discriminate|reflexivity|discriminate].
  Qed.
  Lemma outputs_apart nx ny nz size pv pb ps t t' n : tile_corner nx ny nz size t -> tile_corner nx ny nz size t' -> t <> t' -> ~ no_output size pv pb ps t n -> no_output size pv pb ps t' n.
  Proof using.
    intros Ht Ht' Hne Hn. apply no_output_case in Hn.
    destruct (ext_apart pv ps size t t') as (A1 & _ & _), (ext_apart pb ps size t t') as (_ & A2 & _), (ext_apart pb pv size t t') as (_ & _ & A3).
    destruct (ext_apart pv ps size t' t) as (B1 & _ & _), (ext_apart pb ps size t' t) as (_ & B2 & _), (ext_apart pb pv size t' t) as (_ & _ & B3).
    assert (D : forall p ext, tile_name p ext size t <> tile_name p ext size t') by (intros p ext E; apply Hne, (C41_names_distinct p ext size nx ny nz t t' Ht Ht' E)).
    destruct Hn as [-> | [-> | ->]]; (split; [|split]); intros _; first [apply D | assumption | apply not_eq_sym; assumption].
  Qed.

  (** No input of the run is one of its outputs. *)
  Definition inputs_safe nx ny nz size pv pb ps (names : list (list byte)) : Prop := forall t n, tile_corner nx ny nz size t -> In n names -> no_output size pv pb ps t n.

  Section Tiles.
    Context (b : binvox Q) (cuts : list (option (binvox Q))) (bname : list byte) (cnames : list (list byte)) (size : Z) (pv pb ps : list byte).
    Context (Hwf : well_formed b) (Hne : white b <> ∅) (Hv : (0 < vpmm b)%Q) (Hcuts : Forall (fun c => match c with Some c => well_formed c | None => True end) cuts)
      (Hname : hd x00 bname <> x2d) (Hs : 0 < size <= max_int) (Hout : ~ (pv = [] /\ pb = [] /\ ps = [])) (Hsafe : inputs_safe (NX b) (NY b) (NZ b) size pv pb ps (bname :: cnames)).
    Notation corner := (tile_corner (NX b) (NY b) (NZ b) size).
    Notation made := (tile_made b cuts size pv pb ps).

    Lemma step d d' e t : d bname = file_of ft (Some b) -> map d cnames = map (file_of ft) cuts -> corner t -> voxcut_prog d (dice_args size pv pb ps (bname :: cnames) t) d' e ->
      ((e = Fatal /\ d' = d /\ aborts b cuts size t) \/ (e = Finished /\ ~ aborts b cuts size t /\ made d' t /\ forall n, no_output size pv pb ps t n -> d' n = d n)) /\
      d' bname = file_of ft (Some b) /\ map d' cnames = map (file_of ft) cuts.
    Proof using Hlib Hwf Hne Hv Hcuts Hname Hs Hout Hsafe.
      intros Hb Hc Ht Hrun. pose proof (C83_tile d d' e b cuts bname cnames size pv pb ps t Hwf Hne Hv Hcuts Hb Hc Hname Hs (proj1 Ht) Hout Hrun) as H.
      split; [exact H|]. destruct H as [(_ & -> & _)|(_ & _ & _ & Ho)]; [auto|].
      split; [rewrite Ho by (apply Hsafe; [exact Ht|left; reflexivity]); exact Hb|].
      rewrite <- Hc. apply map_ext_in. intros a Ha. apply Ho, Hsafe; [exact Ht|right; exact Ha].
    Qed.

    (** The loop of voxcut-dice that runs voxcut: each tile is made, or the run ends at a tile for which voxcut is fatal. *)
    Theorem C83_dice ts d d' e : d bname = file_of ft (Some b) -> map d cnames = map (file_of ft) cuts -> List.NoDup ts -> (forall t, In t ts -> corner t) ->
      dice_tiles_run save NewVoxelMesh ft manifold size pv pb ps (bname :: cnames) d ts d' e ->
      (forall n, (forall t, In t ts -> no_output size pv pb ps t n) -> d' n = d n) /\
      match e with
      | Finished => forall t, In t ts -> ~ aborts b cuts size t /\ made d' t
      | Fatal => exists done t rest, ts = done ++ t :: rest /\ aborts b cuts size t /\ (forall t', In t' done -> ~ aborts b cuts size t' /\ made d' t') /\
          forall t' n, In t' (t :: rest) -> ~ no_output size pv pb ps t' n -> d' n = d n
      | Crashed => False
      end.
    Proof using Hlib Hwf Hne Hv Hcuts Hname Hs Hout Hsafe.
      intros Hb Hc Hnd Hcor Hrun. induction Hrun as [d|d t ts d' Hp|d t ts d1 d' e Hp _ IH].
      - split; [reflexivity|intros t []].
      - destruct (step d d' Fatal t Hb Hc (Hcor t (or_introl eq_refl)) Hp) as ([(_ & -> & Ha)|(C & _)] & _); [|discriminate]. split; [reflexivity|].
        exists [], t, ts. split; [reflexivity|]. split; [exact Ha|]. split; [intros t' []|reflexivity].
      - destruct (step d d1 Finished t Hb Hc (Hcor t (or_introl eq_refl)) Hp) as ([(C & _)|(_ & Hna & Hm & Ho)] & Hb1 & Hc1); [discriminate|].
        inversion_clear Hnd as [|? ? Hni Hnd']. destruct (IH Hb1 Hc1 Hnd' (fun t' Ht' => Hcor t' (or_intror Ht'))) as [IH1 IH2].
        assert (Hap : forall t' n, In t' ts -> ~ no_output size pv pb ps t' n -> no_output size pv pb ps t n).
        { intros t' n Ht' Hn. apply (outputs_apart (NX b) (NY b) (NZ b) size pv pb ps t' t n); [apply Hcor; right; exact Ht'|apply Hcor; left; reflexivity|intros ->; contradiction|exact Hn]. }
        assert (Hm' : made d' t).
        { apply (made_ext _ _ _ _ _ _ _ d1 d' Hm). intros n Hn. apply IH1. intros t' Ht'. destruct (no_output_dec size pv pb ps t' n) as [?|C]; [assumption|]. exfalso. apply Hn, (Hap t' n Ht' C). }
        split.
        + intros n Hn. rewrite IH1 by (intros t' Ht'; apply Hn; right; exact Ht'). apply Ho, Hn. left. reflexivity.
        + destruct e.
          * intros t' [<-|Ht']; [auto|]. apply IH2, Ht'.
          * destruct IH2 as (done & t2 & rest & -> & Ha & Hd & Hr). exists (t :: done), t2, rest. split; [reflexivity|]. split; [exact Ha|]. split.
            -- intros t' [<-|Ht']; [auto|apply Hd, Ht'].
            -- intros t' n Ht' Hn. rewrite (Hr t' n Ht' Hn). apply Ho, (Hap t' n); [apply in_or_app; right; exact Ht'|exact Hn].
          * destruct IH2.
    Qed.

    (** The printed script goes on after a fatal error: every tile is made for which voxcut is not fatal. *)
    Theorem C83_dry ts d d' : d bname = file_of ft (Some b) -> map d cnames = map (file_of ft) cuts -> List.NoDup ts -> (forall t, In t ts -> corner t) ->
      Forall proper (bname :: cnames) -> forallb ordinary pv = true -> forallb ordinary pb = true -> forallb ordinary ps = true ->
      run_dry save NewVoxelMesh ft manifold d (dice_dry size pv pb ps (bname :: cnames) ts) d' ->
      (forall n, (forall t, In t ts -> no_output size pv pb ps t n) -> d' n = d n) /\
      forall t, In t ts -> (aborts b cuts size t /\ forall n, ~ no_output size pv pb ps t n -> d' n = d n) \/ (~ aborts b cuts size t /\ made d' t).
    Proof using Hlib Hwf Hne Hv Hcuts Hname Hs Hout Hsafe.
      intros Hb Hc Hnd Hcor Hp Hpv Hpb Hps Hrun. apply proper_plains in Hp. apply ord_plain in Hpv, Hpb, Hps.
      assert (Hwords : forall t, corner t -> words (dice_line (dice_args size pv pb ps (bname :: cnames) t)) = txt "voxcut" :: dice_args size pv pb ps (bname :: cnames) t).
      { intros t (Ht & _). unfold in_grid, in_region in Ht. apply dice_words; [lia|lia|assumption..]. }
      unfold dice_dry in Hrun. inversion_clear Hrun as [|? rest ? ? Hrun'|? ? args ? d1 e ? E _ _]; [|vm_compute in E; discriminate E].
      revert d Hb Hc Hrun'. induction ts as [|t ts IH]; intros d Hb Hc Hrun; cbn [map] in Hrun.
      { inversion_clear Hrun. split; [reflexivity|intros t []]. }
      pose proof (Hwords t (Hcor t (or_introl eq_refl))) as Ew.
      assert (Hnc : forall rest, dice_line (dice_args size pv pb ps (bname :: cnames) t) <> x23 :: rest) by (intros rest; unfold dice_line; discriminate).
      set (line := dice_line (dice_args size pv pb ps (bname :: cnames) t)) in *. clearbody line.
      inversion Hrun as [|? rest ? ? Hrun' E1|? ? args ? d1 e ? E Hp1 Hrun']; subst; [destruct (Hnc rest eq_refl)|].
      rewrite E in Ew. injection Ew as ->. clear E Hrun.
      destruct (step d d1 e t Hb Hc (Hcor t (or_introl eq_refl)) Hp1) as (Hst & Hb1 & Hc1).
      inversion_clear Hnd as [|? ? Hni Hnd']. destruct (IH Hnd' (fun t' Ht' => Hcor t' (or_intror Ht')) d1 Hb1 Hc1 Hrun') as [IH1 IH2].
      assert (Hap : forall t' n, In t' ts -> ~ no_output size pv pb ps t' n -> no_output size pv pb ps t n).
      { intros t' n Ht' Hn. apply (outputs_apart (NX b) (NY b) (NZ b) size pv pb ps t' t n); [apply Hcor; right; exact Ht'|apply Hcor; left; reflexivity|intros ->; contradiction|exact Hn]. }
      assert (Hpa : forall n, ~ no_output size pv pb ps t n -> d' n = d1 n).
      { intros n Hn. apply IH1. intros t' Ht'. destruct (no_output_dec size pv pb ps t' n) as [?|C]; [assumption|]. exfalso. apply Hn, (Hap t' n Ht' C). }
      assert (Ho : forall n, no_output size pv pb ps t n -> d1 n = d n) by (destruct Hst as [(_ & -> & _)|(_ & _ & _ & Ho)]; [reflexivity|exact Ho]).
      split.
      - intros n Hn. rewrite IH1 by (intros t' Ht'; apply Hn; right; exact Ht'). apply Ho, Hn. left. reflexivity.
      - intros t' [<-|Ht'].
        + destruct Hst as [(_ & -> & Ha)|(_ & Hna & Hm & _)]; [left; auto|right]. split; [exact Hna|]. exact (made_ext _ _ _ _ _ _ _ d1 d' Hm Hpa).
        + destruct (IH2 t' Ht') as [[Ha Hn]|H]; [left|right; exact H]. split; [exact Ha|]. intros n Hno. rewrite (Hn n Hno). apply Ho, (Hap t' n Ht' Hno).
    Qed.
  End Tiles.
End Run.

(** voxcut-dice up to its loop: no output asked for, or a size larger than the model on every axis, is a fatal error; otherwise it comes to
    the corners of the tiles, each once. *)
Theorem C83_corners ft fuel size pv pb ps b : well_formed b -> white b <> ∅ -> 0 < size -> NX b <= Z.of_nat fuel -> NY b <= Z.of_nat fuel -> NZ b <= Z.of_nat fuel ->
  match dice_corners ft fuel size pv pb ps (file_of ft (Some b)) with
  | None => (pv = [] /\ pb = [] /\ ps = []) \/ (NX b < size /\ NY b < size /\ NZ b < size)
  | Some ts => ~ (pv = [] /\ pb = [] /\ ps = []) /\ ~ (NX b < size /\ NY b < size /\ NZ b < size) /\
      List.NoDup ts /\ forall t, In t ts <-> tile_corner (NX b) (NY b) (NZ b) size t
  end.
Proof.
  intros Hwf Hne Hs Hx Hy Hz. unfold dice_corners. case_decide as Hd; [left; exact Hd|].
  destruct (read_model ft b 0 0 0 1 1 1 Hwf) as [_ Hread]; [lia..|].
  destruct (white_ne_ex b Hne) as [k0 Hk0]. pose proof (wf_pos b k0 Hwf Hk0) as Hpos.
  destruct Hread as (b0 & Hread & _ & Hdim & _).
  { unfold opens. cbv zeta. rewrite !decide_False by exact Hne. lia. }
  rewrite Hread. destruct (Hdim Hne) as (-> & -> & ->).
  destruct (_ && _) eqn:Hbig; [right; lia|].
  destruct (C41_tiles size (NX b) (NY b) (NZ b) fuel Hs Hx Hy Hz) as (xs & ys & zs & -> & -> & -> & Hnd & Hts).
  split; [exact Hd|]. split; [lia|]. auto.
Qed.
Print Assumptions C83_corners.
Print Assumptions C83_tile.
Print Assumptions C83_dice.
Print Assumptions C83_dry.
