(** C64, continued: merge-binvox on files that the binvox writer made of parts of one model. *)
From Verif Require Import Base BaseLemmas BinvoxSpec BinvoxModel BinvoxProps Geom VshellModel VshellSpec VshellBits VshellMerge
  VshellProofs VshellGeom VshellProps VshellCodec VshellCodecSpec VshellCodecProps StldiceModel CmdMergeModel CmdMergeProps.
From Coq Require Import ZArith QArith List Bool String Init.Byte Lia Lqa.
From stdpp Require Import base list gmap sets fin_sets sorting.
Import ListNotations.
Open Scope Z_scope.

(** ** Specification vocabulary *)

(** The file [f] can be read, as the model [b]. *)
Definition reads_as ft (d : dir) (f : list byte) (b : binvox Q) : Prop :=
  exists bytes, d f = Some bytes /\ read ft bytes 0 0 0 0 0 0 = inr b.

(** Voxel [k] of [b] is where voxel [k + o] of [b0] is. *)
Definition at_offset (b0 b : binvox Q) (o : key) : Prop :=
  forall k, qpt_eq (world b k) (world b0 (move k o)).

(** Voxel [k] of the common grid belongs to some part. *)
Definition in_parts (tiles : list (binvox Q * key)) (k : key) : Prop :=
  exists b o j, In (b, o) tiles /\ j ∈ model_of b /\ k = move j o.

(** ** One step *)

Definition tiles_set (tiles : list (binvox Q * key)) : gset key := ⋃ (map (fun t => displaced (model_of (fst t)) (snd t)) tiles).

Lemma elem_of_displaced M d k : k ∈ displaced M d <-> exists j, j ∈ M /\ k = move j d.
Proof. unfold displaced. rewrite elem_of_map. split; intros (j & H1 & H2); eauto. Qed.

Lemma elem_of_tiles tiles k : k ∈ tiles_set tiles <-> in_parts tiles k.
Proof.
  unfold tiles_set, in_parts. rewrite elem_of_union_list. split.
  - intros (X & HX & Hk). apply elem_of_list_In, in_map_iff in HX as ([b o] & <- & Hin). apply elem_of_displaced in Hk as (j & Hj & ->). exists b, o, j. auto.
  - intros (b & o & j & Hin & Hj & ->). exists (displaced (model_of b) o). split.
    + apply elem_of_list_In, in_map_iff. exists (b, o). auto.
    + apply elem_of_displaced. eauto.
Qed.

Lemma tiles_set_snoc tiles b o : tiles_set (tiles ++ [(b, o)]) = tiles_set tiles ∪ displaced (model_of b) o.
Proof. unfold tiles_set. rewrite map_app, union_list_app_L. f_equal. apply union_empty_r_L. Qed.

(** What holds of the shell after the parts [tiles]. *)
Record inv (b0 : binvox Q) (tiles : list (binvox Q * key)) (vs : vshell) : Prop := {
  inv_sound : sound_shell (tiles_set tiles) (Voxels vs);
  inv_tx : sTX vs = TX b0; inv_ty : sTY vs = TY b0; inv_tz : sTZ vs = TZ b0;
  inv_vpmm : (shell_vpmm vs == vpmm b0)%Q;
  inv_dim : 0 < sdim (sNX vs) (sNY vs) (sNZ vs);
  inv_keys : forall k, k ∈ tiles_set tiles -> kx k < sNX vs /\ ky k < sNY vs /\ kz k < sNZ vs;
  inv_bits : forall b o j p n, In (b, o) tiles -> j ∈ model_of b -> is_offset p -> move j p ∈ model_of b ->
    (move j o, n) ∈ Voxels vs -> Z.testbit n (offset_bit p) = true }.

Lemma at_offset_aligned b0 b o vs : (0 < vpmm b0)%Q -> at_offset b0 b o ->
  sTX vs = TX b0 -> sTY vs = TY b0 -> sTZ vs = TZ b0 -> (shell_vpmm vs == vpmm b0)%Q -> aligned vs b o.
Proof.
  intros Hv Ha Hx Hy Hz Hs.
  assert (Hres : (vpmm b == vpmm b0)%Q).
  { pose proof (Ha (0, 0, 0)) as H0. pose proof (Ha (1, 0, 0)) as H1. unfold qpt_eq, world, move, kx, ky, kz in H0, H1. cbn [fst snd] in H0, H1.
    destruct H0 as (H0 & _), H1 as (H1 & _). rewrite inject_Z_plus in H1.
    assert (E : (/ vpmm b == / vpmm b0)%Q).
    { unfold Qdiv in H0, H1. set (i := (/ vpmm b)%Q) in *. set (i0 := (/ vpmm b0)%Q) in *. rewrite (inject_Z_plus 0) in H0.
      change (inject_Z 0) with 0%Q in *. change (inject_Z 1) with 1%Q in *. lra. }
    rewrite <- (Qinv_involutive (vpmm b)), E. apply Qinv_involutive. }
  pose proof (Ha (0, 0, 0)) as H0. unfold qpt_eq, world, move, kx, ky, kz in H0. cbn [fst snd] in H0. destruct H0 as (H1 & H2 & H3).
  rewrite !inject_Z_plus in H1, H2, H3. change (inject_Z 0) with 0%Q in *.
  unfold aligned. rewrite Hs, Hx, Hy, Hz. split; [exact Hres|]. split; [exact Hv|].
  assert (G : forall t t0 z, (t + 0 / vpmm b == t0 + (0 + z) / vpmm b0)%Q -> ((t - t0) * vpmm b0 == z)%Q).
  { intros t t0 z H. assert (E : (t == t0 + z / vpmm b0)%Q).
    { unfold Qdiv in *. rewrite Qmult_0_l in H. rewrite Qplus_0_r in H. rewrite H. ring. }
    rewrite E. field. intros E2. rewrite E2 in Hv. apply (Qlt_irrefl 0), Hv. }
  split; [|split]; apply G; assumption.
Qed.

Lemma sound_shell_of_empty : sound_shell ∅ [].
Proof. apply exact_is_sound, exact_shell_empty. Qed.

(** Adding the next part, or the first part to the empty shell of its size. *)
Lemma inv_step b0 tiles vs b o e : inv b0 tiles vs -> (0 < vpmm b0)%Q -> at_offset b0 b o -> key_nonneg o ->
  (tiles = [] -> o = (0, 0, 0)) -> (tiles <> [] -> exists k, k ∈ tiles_set tiles) ->
  iterates (e_white e) (white b) -> iterates (e_color e) (dom (colors b)) -> iterates (e_order e) (displaced (model_of b) o) ->
  (forall j, j ∈ model_of b -> ~ in_parts tiles (move j o)) ->
  exists vs', vs_Add (e_grow e) (e_cap e) (e_white e) (e_color e) (e_order e) vs (Some b) = (vs', Done) /\ inv b0 (tiles ++ [(b, o)]) vs'.
Proof.
  intros Hinv Hv Ha Hnn Hfirst Hne Hw Hc Ho Hdis. destruct Hinv as [Hs Hx Hy Hz Hvp Hdim Hkeys Hbits].
  pose proof (at_offset_aligned b0 b o vs Hv Ha Hx Hy Hz Hvp) as Hal.
  assert (Hdisp : new_disp vs b = o /\ old_disp vs b = (0, 0, 0)).
  { pose proof (aligned_shift _ _ _ Hal) as Hsh. unfold new_disp, old_disp. destruct (Voxels vs) as [|v l] eqn:EV.
    - split; [|reflexivity]. destruct tiles as [|t ts]; [symmetry; auto|]. destruct Hne as (k & Hk); [discriminate|].
      apply sound_shell_nil in Hs. rewrite Hs in Hk. exfalso. exact (not_elem_of_empty _ Hk).
    - rewrite Hsh. rewrite !decide_True by exact Hnn. auto. }
  destruct Hdisp as [Hnd Hod].
  assert (Hord : orders_ok (e_white e) (e_color e) (e_order e) vs b).
  { split; [exact Hw|]. split; [exact Hc|rewrite Hnd; exact Ho]. }
  assert (Hcomp : compatible vs b) by (eapply aligned_compatible, Hal).
  destruct (Add_added (e_grow e) (e_cap e) _ _ _ vs b Hord Hcomp) as (vs' & E & Had). exists vs'. split; [exact E|].
  destruct Had as [Hvox Hnx Hny Hnz Hnew _ Hvpm Htx Hty Htz]. rewrite Hnd, Hod, displaced_voxels_zero in Hvox. rewrite Hnd in Hnew.
  assert (HM : forall k, k ∈ tiles_set tiles -> k ∈ displaced (model_of b) o -> False).
  { intros k H1 H2. apply elem_of_displaced in H2 as (j & Hj & ->). apply (Hdis j Hj), elem_of_tiles, H1. }
  destruct (add_voxels_sound (e_grow e) (e_cap e) (tiles_set tiles) (displaced (model_of b) o) (e_order e) (Voxels vs) Ho HM Hs)
    as (V & EV & HV & HVn & HVo).
  rewrite EV in Hvox. injection Hvox as ->. rewrite sdim_max in Hdim.
  assert (HT : forall t t0 oo, ((t - t0) * shell_vpmm vs == inject_Z oo)%Q -> 0 <= oo -> Qltb t t0 = false).
  { intros t t0 oo Heq Hoo. destruct (Qltb t t0) eqn:El; [|reflexivity]. apply Qltb_true in El.
    apply Qnonneg_inject in Hoo. rewrite <- Heq, Hvp in Hoo. exfalso. assert (0 < (t0 - t) * vpmm b0)%Q by (apply Qmult_lt_0_compat; lra). lra. }
  destruct Hal as (_ & _ & A1 & A2 & A3). destruct Hnn as (N1 & N2 & N3).
  rewrite (HT _ _ _ A1 N1) in Htx. rewrite (HT _ _ _ A2 N2) in Hty. rewrite (HT _ _ _ A3 N3) in Htz.
  split.
  - rewrite tiles_set_snoc. exact HV.
  - rewrite <- Hx, Htx. destruct (Voxels vs); reflexivity.
  - rewrite <- Hy, Hty. destruct (Voxels vs); reflexivity.
  - rewrite <- Hz, Htz. destruct (Voxels vs); reflexivity.
  - rewrite Hvpm by (rewrite sdim_max; exact Hdim). exact Hvp.
  - rewrite sdim_max. lia.
  - intros k Hk. rewrite tiles_set_snoc in Hk. apply elem_of_union in Hk as [Hk|Hk]; [|apply Hnew, Hk]. apply Hkeys in Hk. lia.
  - intros b1 o1 j p n Hin Hj Hp Hjp Hn. apply in_app_iff in Hin as [Hin|[Hin|[]]].
    + destruct (HVo (move j o1) n Hn) as (n0 & Hn0 & Hsub).
      { apply elem_of_tiles. exists b1, o1, j. auto. }
      apply Hsub. exact (Hbits b1 o1 j p n0 Hin Hj Hp Hjp Hn0).
    + injection Hin as <- <-. assert (Hjo : move j o ∈ displaced (model_of b) o) by (apply elem_of_displaced; eauto).
      destruct (HVn (move j o) n Hn Hjo) as [_ Hex]. apply Hex. exists p. split; [exact Hp|]. split; [reflexivity|].
      apply elem_of_union. right. rewrite move_add. apply elem_of_displaced. eauto.
Qed.

(** ** The command *)

Definition tile_ok (b0 : binvox Q) (t : binvox Q * key) : Prop :=
  (forall k, k ∈ model_of (fst t) -> in_grid (NX (fst t)) (NY (fst t)) (NZ (fst t)) k) /\ at_offset b0 (fst t) (snd t) /\ key_nonneg (snd t).

Definition tile_env (e : env) (t : binvox Q * key) : Prop :=
  iterates (e_white e) (white (fst t)) /\ iterates (e_color e) (dom (colors (fst t))) /\ iterates (e_order e) (displaced (model_of (fst t)) (snd t)).

Definition apart (tiles : list (binvox Q * key)) : Prop :=
  forall i j t u k l, tiles !! i = Some t -> tiles !! j = Some u -> k ∈ model_of (fst t) -> l ∈ model_of (fst u) ->
    move k (snd t) = move l (snd u) -> i = j.

Lemma sound_mask_range M k n : sound_mask M k n -> 0 <= n < 2 ^ 32 - 1.
Proof.
  intros [H0 H]. split; [exact H0|]. assert (Hn : n < 2 ^ 27); [|lia].
  destruct (Z.eq_dec n 0) as [->|Hne]; [lia|]. apply Z.log2_lt_pow2; [lia|].
  destruct (H (Z.log2 n)) as (o & Ho & E & _); [apply Z.bit_log2; lia|]. apply offset_bit_range in Ho. lia.
Qed.

Lemma move_nonneg k o : key_nonneg k -> key_nonneg o -> key_nonneg (move k o).
Proof. unfold key_nonneg, move, kx, ky, kz. destruct k as [[? ?] ?], o as [[? ?] ?]. cbn. lia. Qed.

Lemma merge_tiles ft d es b0 tiles files : (0 < vpmm b0)%Q -> Forall (tile_ok b0) tiles -> apart tiles ->
  (forall i t, tiles !! i = Some t -> tile_env (es i) t) ->
  Forall2 (fun f t => reads_as ft d f (fst t)) files tiles ->
  forall pre rest, tiles = pre ++ rest -> (exists k, k ∈ tiles_set pre) -> forall vs, inv b0 pre vs ->
  exists vs', merge_files ft d (fun i => es (length pre + i)%nat) (Some vs) (List.skipn (length pre) files) = inr (Some vs') /\ inv b0 tiles vs'.
Proof.
  intros Hv Hok Hap Henv Hf pre rest. revert pre. induction rest as [|[b o] rest IH]; intros pre Et Hpre vs Hinv.
  - rewrite app_nil_r in Et. subst pre. exists vs. split; [|exact Hinv].
    assert (E : List.skipn (length tiles) files = []) by (apply skipn_all2; rewrite (Forall2_length _ _ _ Hf); lia). rewrite E. reflexivity.
  - assert (Hi : tiles !! length pre = Some (b, o)) by (rewrite Et; apply list_lookup_middle; reflexivity).
    destruct (Forall2_lookup_r _ _ _ _ _ Hf Hi) as (f & Hfi & (bytes & Hd & Hr)). cbn [fst] in Hr.
    assert (Esk : List.skipn (length pre) files = f :: List.skipn (S (length pre)) files) by (apply drop_S, Hfi).
    rewrite Esk. cbn [merge_files]. rewrite Hd.
    assert (Ht : tile_ok b0 (b, o)) by (eapply Forall_lookup_1; eassumption). destruct Ht as (_ & Ha & Hnn). cbn [fst snd] in *.
    rewrite Hr. rewrite Nat.add_0_r. destruct (Henv _ _ Hi) as (E1 & E2 & E3). cbn [fst snd] in *.
    destruct (inv_step b0 pre vs b o (es (length pre)) Hinv Hv Ha Hnn) as (vs' & E & Hinv'); [|..].
    + intros ->. destruct Hpre as (k & Hk). exfalso. exact (not_elem_of_empty _ Hk).
    + intros _. exact Hpre.
    + exact E1.
    + exact E2.
    + exact E3.
    + intros j Hj (b1 & o1 & j1 & Hin & Hj1 & Hm). apply elem_of_list_In, elem_of_list_lookup in Hin as (i & Hin).
      assert (Hin' : tiles !! i = Some (b1, o1)) by (rewrite Et; apply lookup_app_l_Some, Hin). pose proof (lookup_lt_Some _ _ _ Hin).
      pose proof (Hap _ _ _ _ j j1 Hi Hin' Hj Hj1 Hm). lia.
    + rewrite E. destruct (IH (pre ++ [(b, o)])) with (vs := vs') as (vs2 & Em & Hinv2).
      * rewrite <- app_assoc. exact Et.
      * destruct Hpre as (k & Hk). exists k. rewrite tiles_set_snoc. apply elem_of_union. auto.
      * exact Hinv'.
      * exists vs2. split; [|exact Hinv2]. rewrite app_length in Em. cbn [length] in Em. rewrite Nat.add_1_r in Em.
        rewrite <- Em. apply merge_files_ext. intros i. f_equal. lia.
Qed.

(** The files, in the order of their names, hold parts of one model: all of the resolution of the first
    one, whole voxels away from it on the positive side, and no two with a voxel in common.  Then the run
    succeeds, and the output is the shell of all the parts, every voxel at its place. *)
Theorem C64_merges ft force prefix d names es files b0 rest :
  let tiles := (b0, (0, 0, 0)) :: rest in
  listing d names -> matching d prefix (txt ".binvox") files ->
  Forall2 (fun f t => reads_as ft d f (fst t)) files tiles ->
  (0 < vpmm b0)%Q -> (exists k, k ∈ white b0) -> Forall (tile_ok b0) tiles -> apart tiles -> (forall i t, tiles !! i = Some t -> tile_env (es i) t) ->
  exists vs M, merge_binvox ft force prefix d names es = (put_file d (prefix ++ txt ".vsh", swrite_file ft vs 0 0 0 0 0 0), Finished) /\
    (forall k, k ∈ M <-> in_parts tiles k) /\ sound_shell M (Voxels vs) /\
    (forall b o k, In (b, o) tiles -> qpt_eq (shell_world vs (move k o)) (world b k)) /\
    (forall k, k ∈ M -> in_grid (sNX vs) (sNY vs) (sNZ vs) k) /\
    (sNX vs <= max_int -> sNY vs <= max_int -> sNZ vs <= max_int ->
     no_long_run (fun i => mask_at (Voxels vs) (nth_voxel (sNY vs) (sNZ vs) i)) (sNX vs * sNY vs * sNZ vs) ->
     exists vs', sread ft (swrite_file ft vs 0 0 0 0 0 0) 0 0 0 0 0 0 = inr vs' /\
       (forall k, qpt_eq (shell_world vs' k) (shell_world vs k)) /\
       (forall k, k ∈ map fst (Voxels vs') -> k ∈ M) /\
       (forall k n, (k, n) ∈ Voxels vs' -> sound_mask M k n) /\
       (forall b o k p, In (b, o) tiles -> k ∈ model_of b -> is_offset p -> move k p ∈ model_of b ->
          ~ enclosed M (move k o) -> move k o ∈ map fst (Voxels vs'))).
Proof.
  intros tiles Hl Hm Hf Hv (k0 & Hk0) Hok Hap Henv.
  assert (Hk0m : k0 ∈ model_of b0) by (unfold model_of; apply elem_of_union; auto).
  unfold merge_binvox. rewrite (binvox_inputs force d names prefix files Hl Hm).
  assert (Hmerge : exists vs, merge_files ft d es None files = inr (Some vs) /\ inv b0 tiles vs).
  { pose proof (Forall_cons_1 _ _ _ Hok) as [(Hp0 & _ & _) _]. cbn [fst] in Hp0. destruct (Henv 0%nat _ eq_refl) as (E1 & E2 & E3). cbn [fst snd] in *.
    inversion Hf as [|f ? files' ? (bytes & Hd & Hr) Hf' Ef]. cbn [fst] in Hr.
    assert (Hgrid : 0 < NX b0 /\ 0 < NY b0 /\ 0 < NZ b0).
    { pose proof (Hp0 k0 Hk0m) as Hg. unfold in_grid, in_region in Hg. lia. }
    set (vs0 := VShell (NX b0) (NY b0) (NZ b0) (TX b0) (TY b0) (TZ b0) (Scale b0) []).
    assert (Hvp0 : (shell_vpmm vs0 == vpmm b0)%Q).
    { unfold shell_vpmm, svpmm, vpmm. subst vs0. cbn [sNX sNY sNZ sScale].
      assert (Ed : sdim (NX b0) (NY b0) (NZ b0) = dim b0) by (rewrite sdim_max, dim_max; reflexivity). rewrite Ed. reflexivity. }
    assert (Hinv0 : inv b0 [] vs0).
    { split.
      - exact sound_shell_of_empty.
      - reflexivity.
      - reflexivity.
      - reflexivity.
      - exact Hvp0.
      - subst vs0. cbn [sNX sNY sNZ]. rewrite sdim_max. lia.
      - intros k Hk. exfalso. exact (not_elem_of_empty _ Hk).
      - intros ? ? ? ? ? []. }
    destruct (inv_step b0 [] vs0 b0 (0,0,0) (Env (e_grow (es O)) 0 (e_white (es O)) (e_color (es O)) (e_order (es O))) Hinv0 Hv) as (vs1 & Es & Hinv1).
    - intros k. rewrite move_zero. unfold qpt_eq, world. repeat split; reflexivity.
    - unfold key_nonneg, kx, ky, kz. cbn. lia.
    - reflexivity.
    - intros Hc0. contradiction.
    - exact E1.
    - exact E2.
    - exact E3.
    - intros j _ (? & ? & ? & [] & _).
    - cbn [e_grow e_cap e_white e_color e_order] in Es.
      destruct (merge_tiles ft d es b0 tiles (f :: files') Hv Hok Hap Henv) with (pre := [(b0, (0,0,0))]) (rest := rest) (vs := vs1) as (vs' & Em & Hi').
      + rewrite Ef. exact Hf.
      + reflexivity.
      + exists k0. apply elem_of_tiles. exists b0, (0,0,0), k0. split; [left; reflexivity|]. split; [exact Hk0m|rewrite move_zero; reflexivity].
      + exact Hinv1.
      + exists vs'. split; [|exact Hi']. cbn [merge_files]. rewrite Hd, Hr.
        assert (En : vs_New (e_grow (es O)) (e_white (es O)) (e_color (es O)) (e_order (es O)) b0 = (vs1, Done)).
        { unfold vs_New. rewrite decide_True; [exact Es|].           assert (size (white b0) <> 0%nat); [|lia]. intros Hz0. apply size_empty_inv in Hz0. specialize (Hz0 k0). apply Hz0 in Hk0. exact (not_elem_of_empty _ Hk0). }
        rewrite En. exact Em. }
  destruct Hmerge as (vs & Em & Hinv). rewrite Em. exists vs, (tiles_set tiles). split; [reflexivity|].
  split; [apply elem_of_tiles|]. destruct Hinv as [Hs Hx Hy Hz Hvp Hdim Hkeys Hbits]. split; [exact Hs|].
  assert (Hw : forall b o k, In (b, o) tiles -> qpt_eq (shell_world vs (move k o)) (world b k)).
  { intros b o k Hin. rewrite List.Forall_forall in Hok. destruct (Hok _ Hin) as (_ & Ha & _). specialize (Ha k). cbn [fst snd] in Ha.
    unfold qpt_eq, shell_world, world in *. rewrite Hvp, Hx, Hy, Hz. destruct Ha as (-> & -> & ->). repeat split; reflexivity. }
  split; [exact Hw|].
  assert (Hg : forall k, k ∈ tiles_set tiles -> in_grid (sNX vs) (sNY vs) (sNZ vs) k).
  { intros k Hk. pose proof (Hkeys k Hk) as Hlt. apply elem_of_tiles in Hk as (b & o & j & Hin & Hj & ->). rewrite List.Forall_forall in Hok.
    destruct (Hok _ Hin) as (Hgr & _ & Hnn). cbn [fst snd] in *. specialize (Hgr j Hj).
    assert (Hjn : key_nonneg j) by (unfold in_grid, in_region in Hgr; unfold key_nonneg; lia).
    pose proof (move_nonneg j o Hjn Hnn) as Hmn. unfold key_nonneg in Hmn. unfold in_grid, in_region. lia. }
  split; [exact Hg|]. intros Dx Dy Dz Hrun. destruct Hs as (Snd & Sin & Sout & Smask).
  assert (Hne : Voxels vs <> []).
  { intros E. assert (H : sound_shell (tiles_set tiles) []) by (rewrite <- E; split; [|split; [|split]]; assumption).
    apply sound_shell_nil in H.
    assert (Hk' : k0 ∈ tiles_set tiles) by (apply elem_of_tiles; exists b0, (0,0,0), k0; split; [left; reflexivity|]; split; [exact Hk0m|rewrite move_zero; reflexivity]).
    rewrite H in Hk'. exact (not_elem_of_empty _ Hk'). }
  destruct (C23_round_trip ft vs Hne Snd) as (vox & Hr & Hperm); [|assumption..|].
  { intros k n Hk. split; [apply Hg, Sin; eapply in_keys, Hk|]. pose proof (sound_mask_range _ _ _ (Smask k n Hk)). lia. }
  eexists. split; [exact Hr|]. split; [|split; [|split]].
  - intros k. unfold qpt_eq, shell_world, shell_vpmm. cbn [sNX sNY sNZ sTX sTY sTZ sScale]. repeat split; reflexivity.
  - cbn [Voxels]. intros k Hk. apply Sin. apply keys_in in Hk as (n & Hk). rewrite Hperm in Hk. apply elem_of_list_filter in Hk as [_ Hk]. eapply in_keys, Hk.
  - cbn [Voxels]. intros k n Hk. apply Smask. rewrite Hperm in Hk. apply elem_of_list_filter in Hk as [_ Hk]. exact Hk.
  - cbn [Voxels]. intros b o k p Hin Hk Hp Hkp Henc.
    assert (HM : move k o ∈ tiles_set tiles) by (apply elem_of_tiles; exists b, o, k; auto).
    pose proof (Sout _ HM Henc) as Hkey. apply keys_in in Hkey as (n & Hn). apply (in_keys _ _ n). rewrite Hperm. apply elem_of_list_filter. split; [|exact Hn].
    cbn [snd]. pose proof (sound_mask_range _ _ _ (Smask _ _ Hn)) as Hrange. pose proof (Hbits b o k p n Hin Hk Hp Hkp Hn) as Hbit.
    intros [->|Hb]; [rewrite Z.bits_0 in Hbit; discriminate|lia].
Qed.
Print Assumptions C64_merges.

(** ** Parts without voxels *)

(** A first file without voxels leaves the shell empty but fixes its origin: the voxels of the next file
    are counted from the origin of the first one, wherever their own origin is.  (With dimensions 0 the
    scale written would be infinite, which is outside the model, hence the hypothesis on NX.) *)
Theorem C64_empty_first ft force prefix d names es f0 f1 b0 b1 :
  listing d names -> matching d prefix (txt ".binvox") [f0; f1] -> reads_as ft d f0 b0 -> reads_as ft d f1 b1 ->
  white b0 = ∅ -> 0 < NX b0 -> tile_env (es 1%nat) (b1, (0, 0, 0)) ->
  exists vs, merge_binvox ft force prefix d names es = (put_file d (prefix ++ txt ".vsh", swrite_file ft vs 0 0 0 0 0 0), Finished) /\
    exact_shell (model_of b1) (Voxels vs) /\ sTX vs = TX b0 /\ sTY vs = TY b0 /\ sTZ vs = TZ b0.
Proof.
  intros Hl Hm (y0 & D0 & R0) (y1 & D1 & R1) Hw _ (E1 & E2 & E3). cbn [fst snd] in *. rewrite displaced_zero in E3.
  unfold merge_binvox. rewrite (binvox_inputs force d names prefix _ Hl Hm). cbn [merge_files]. rewrite D0, R0.
  assert (En : forall g w c o, vs_New g w c o b0 = (VShell (NX b0) (NY b0) (NZ b0) (TX b0) (TY b0) (TZ b0) (Scale b0) [], Done)).
  { intros. unfold vs_New. rewrite decide_False; [reflexivity|]. rewrite Hw, size_empty. lia. }
  rewrite En, D1, R1. set (vs0 := VShell _ _ _ _ _ _ _ _).
  assert (Hord : orders_ok (e_white (es 1%nat)) (e_color (es 1%nat)) (e_order (es 1%nat)) vs0 b1).
  { split; [exact E1|]. split; [exact E2|]. unfold new_disp. subst vs0. cbn [Voxels]. rewrite displaced_zero. exact E3. }
  destruct (C16_add_to_empty (e_grow (es 1%nat)) (e_cap (es 1%nat)) _ _ _ vs0 b1 eq_refl Hord) as (vs & E & Hs).
  destruct (Add_added (e_grow (es 1%nat)) (e_cap (es 1%nat)) _ _ _ vs0 b1 Hord (or_introl eq_refl)) as (vs' & E' & [_ _ _ _ _ _ _ Hx Hy Hz]).
  rewrite E in E'. injection E' as <-. rewrite E. exists vs. split; [reflexivity|]. split; [exact Hs|]. auto.
Qed.

Lemma merge_files_app ft d l1 : forall es v l2 v', merge_files ft d es v l1 = inr v' ->
  merge_files ft d es v (l1 ++ l2) = merge_files ft d (fun i => es (length l1 + i)%nat) v' l2.
Proof.
  induction l1 as [|f l1 IH]; intros es v l2 v' H.
  - cbn in H. injection H as ->. reflexivity.
  - cbn [app merge_files] in *. destruct (d f); [|discriminate]. destruct (read ft _ 0 0 0 0 0 0); [discriminate|].
    destruct (match v with Some _ => _ | None => _ end) as [vs' []]; [|discriminate..]. exact (IH _ _ _ _ H).
Qed.

(** A later file that the binvox writer made of a model without voxels stops the run: its dimensions are
    zero, and so is its resolution. *)
Theorem C64_empty_later ft force prefix d names es f0 f1 files b0 b1 :
  listing d names -> matching d prefix (txt ".binvox") (f0 :: f1 :: files) -> reads_as ft d f0 b0 ->
  d f1 = Some (write_file ft b1 0 0 0 0 0 0) -> white b1 = ∅ -> (0 < Scale b1)%Q ->
  (exists k, k ∈ white b0) -> (forall k, k ∈ model_of b0 -> in_grid (NX b0) (NY b0) (NZ b0) k) -> (1 <= vpmm b0)%Q ->
  tile_env (es 0%nat) (b0, (0, 0, 0)) ->
  merge_binvox ft force prefix d names es = (d, Fatal).
Proof.
  intros Hl Hm (y0 & D0 & R0) D1 Hw Hsc (k0 & Hk0) Hin Hv (E1 & E2 & E3). cbn [fst snd] in *. rewrite displaced_zero in E3.
  unfold merge_binvox. rewrite (binvox_inputs force d names prefix _ Hl Hm). cbn [merge_files]. rewrite D0, R0.
  set (vs0 := VShell (NX b0) (NY b0) (NZ b0) (TX b0) (TY b0) (TZ b0) (Scale b0) []).
  assert (Hord : orders_ok (e_white (es 0%nat)) (e_color (es 0%nat)) (e_order (es 0%nat)) vs0 b0).
  { split; [exact E1|]. split; [exact E2|]. unfold new_disp. subst vs0. cbn [Voxels]. rewrite displaced_zero. exact E3. }
  destruct (C16_add_to_empty (e_grow (es 0%nat)) 0 _ _ _ vs0 b0 eq_refl Hord) as (vs & E & Hs).
  destruct (Add_added (e_grow (es 0%nat)) 0 _ _ _ vs0 b0 Hord (or_introl eq_refl)) as (vs' & E' & [_ _ _ _ _ _ Hvp _ _ _]).
  rewrite E in E'. injection E' as <-.
  assert (En : vs_New (e_grow (es 0%nat)) (e_white (es 0%nat)) (e_color (es 0%nat)) (e_order (es 0%nat)) b0 = (vs, Done)).
  { unfold vs_New. rewrite decide_True; [exact E|]. assert (size (white b0) <> 0%nat); [|lia]. intros H. apply size_empty_inv in H. apply H in Hk0. exact (not_elem_of_empty _ Hk0). }
  assert (Hk0m : k0 ∈ model_of b0) by (unfold model_of; apply elem_of_union; auto).
  assert (Hvpm : (shell_vpmm vs == vpmm b0)%Q).
  { rewrite Hvp.
    - unfold shell_vpmm, svpmm, vpmm. subst vs0. cbn [sNX sNY sNZ sScale].
      assert (Ed : sdim (NX b0) (NY b0) (NZ b0) = dim b0) by (rewrite sdim_max, dim_max; reflexivity). rewrite Ed. reflexivity.
    - pose proof (Hin k0 Hk0m) as Hg. unfold in_grid, in_region in Hg. subst vs0. cbn [sNX sNY sNZ]. rewrite sdim_max. lia. }
  rewrite En, D1, (C12_empty_model_round_trip Q ft b1 0 0 0 0 0 0 Hw). set (b1' := BinVOX _ _ _ _ _ _ _ _ _).
  destruct (C21_add_outcome (e_grow (es 1%nat)) (e_cap (es 1%nat)) (e_white (es 1%nat)) (e_color (es 1%nat)) (e_order (es 1%nat)) vs (Some b1')) as [HF _].
  rewrite HF; [reflexivity|..].
  - intros Hnil. apply exact_is_sound in Hs. rewrite Hnil in Hs. apply sound_shell_nil in Hs. rewrite Hs in Hk0m. exact (not_elem_of_empty _ Hk0m).
  - assert (E0 : trunc (vpmm b1') = 0).
    { rewrite (trunc_proper _ (inject_Z 0)); [apply trunc_inject_eq; reflexivity|]. unfold vpmm. subst b1'. cbn [Scale].
      destruct (Qle_bool (Scale b1) 0) eqn:Eq; [apply Qle_bool_iff in Eq; lra|]. unfold dim. cbn. unfold Qdiv. apply Qmult_0_l. }
    rewrite E0. rewrite (trunc_proper _ _ Hvpm). pose proof (trunc_bounds (vpmm b0) ltac:(lra)) as [_ H]. intros Ez. rewrite Ez in H. change (inject_Z 0) with 0%Q in H. lra.
Qed.
Print Assumptions C64_empty_later.
