(** Properties of cmd/voxcut: C38, C39 and C40. *)
From Verif Require Import Base BaseLemmas BinvoxModel BinvoxSpec BinvoxLemmas BinvoxProofs BinvoxProps FloatTextQ Geom VoxelizeModel VoxelizeSlice VoxcutModel.
From Coq Require Import ZArith QArith List Lia Lqa Bool String Permutation Init.Byte.
From stdpp Require Import base list gmap sets fin_sets.
Import ListNotations.
Open Scope Z_scope.

(** ** Lemmas *)

Lemma clampq_pos x : qlt 0 (clampq x 0 1) = qlt 0 x.
Proof.
  apply eq_true_iff_eq. rewrite !qlt_iff. unfold clampq.
  destruct (qlt x 0) eqn:H1; [apply qlt_iff in H1; lra|].
  destruct (qlt 1 x) eqn:H2; [apply qlt_iff in H2; lra|]. reflexivity.
Qed.

(** When a voxel of colour [vc] survives a cut by a voxel of colour [c]. *)
Definition survives (vc c : color Q) : Prop :=
  (0 < cA vc)%Q /\ ((cA c * cR c < cR vc)%Q \/ (cA c * cG c < cG vc)%Q \/ (cA c * cB c < cB vc)%Q).

Lemma keep_voxel_iff cut v vc : keep_voxel cut v vc = true <->
  match get_voxel whiteQ cut v with None => True | Some c => survives vc c end.
Proof.
  unfold keep_voxel, survives. destruct (get_voxel whiteQ cut v) as [c|]; [|easy].
  cbv zeta. rewrite !clampq_pos, andb_true_iff, !orb_true_iff, !qlt_iff.
  split; (intros [H H']; split; [exact H|]; intuition lra).
Qed.

Lemma foldl_key_step cut l : forall m k, k ∈ foldl (key_step cut) m l <->
  k ∈ m \/ exists vc, In (k, vc) l /\ keep_voxel cut k vc = true.
Proof.
  induction l as [|[v c] l IH]; intros m k; cbn [foldl].
  - split; [auto|]. intros [H|(vc & [] & _)]. exact H.
  - rewrite IH. unfold key_step. cbn [fst snd]. destruct (keep_voxel cut v c) eqn:Hk.
    + rewrite elem_of_union, elem_of_singleton. split.
      * intros [[->|H]|(vc & H & H')]; [right; exists c; split; [left; reflexivity|exact Hk]|left; exact H|right; exists vc; split; [right; exact H|exact H']].
      * intros [H|(vc & [[= <- <-]|H] & H')]; [auto|auto|right; eauto].
    + split.
      * intros [H|(vc & H & H')]; [auto|]. right. exists vc. split; [right; exact H|exact H'].
      * intros [H|(vc & [[= <- <-]|H] & H')]; [auto|congruence|right; eauto].
Qed.

Lemma voxcut_elem base cut whites cols k :
  Permutation whites (elements (white base)) -> Permutation cols (map_to_list (colors base)) ->
  k ∈ foldl (key_step cut) (foldl (key_step cut) ∅ (map (fun v => (v, whiteQ)) whites)) cols <->
  (k ∈ white base /\ keep_voxel cut k whiteQ = true) \/
  exists vc, colors base !! k = Some vc /\ keep_voxel cut k vc = true.
Proof.
  intros Hw Hc. rewrite !foldl_key_step.
  assert (E1 : forall vc, In (k, vc) (map (fun v => (v, whiteQ)) whites) <-> k ∈ white base /\ vc = whiteQ).
  { intros vc. rewrite in_map_iff. split.
    - intros (v & [= -> <-] & Hv). split; [|reflexivity]. apply elem_of_elements. rewrite <- Hw. apply elem_of_list_In, Hv.
    - intros [H ->]. exists k. split; [reflexivity|]. apply elem_of_list_In. rewrite Hw. apply elem_of_elements, H. }
  assert (E2 : forall vc, In (k, vc) cols <-> colors base !! k = Some vc).
  { intros vc. rewrite <- elem_of_list_In, Hc. apply elem_of_map_to_list. }
  split.
  - intros [[H|(vc & H & H')]|(vc & H & H')].
    + apply elem_of_empty in H. contradiction.
    + apply E1 in H as [H ->]. auto.
    + apply E2 in H. eauto.
  - intros [[H H']|(vc & H & H')].
    + left. right. exists whiteQ. split; [apply E1; auto|exact H'].
    + right. exists vc. split; [apply E2, H|exact H'].
Qed.

Lemma white_size0 b : size (white b) = 0%nat <-> white (F:=Q) b = ∅.
Proof. split; [intros H; apply leibniz_equiv, size_empty_iff, H|intros ->; apply size_empty]. Qed.

(** ** C38: voxcut subtracts *)

(** Every outcome of voxcut, whatever the order in which the maps are visited. *)
Theorem C38_outcome base cut r : voxcut_run base cut r ->
  (white cut = ∅ -> r = Some (White base)) /\
  (white cut <> ∅ -> white base = ∅ -> r = None) /\
  (white cut <> ∅ -> white base <> ∅ -> exists w, r = Some (Some w) /\ forall k, k ∈ w <->
     exists vc, ((k ∈ white base /\ vc = whiteQ) \/ colors base !! k = Some vc) /\
       forall c, get_voxel whiteQ cut k = Some c -> survives vc c).
Proof.
  intros (whites & cols & Hw & Hc & ->). unfold voxcut. repeat split.
  - intros H. rewrite decide_True by (apply white_size0, H). reflexivity.
  - intros H1 H2. rewrite decide_False by (rewrite white_size0; exact H1).
    rewrite decide_True by (apply white_size0, H2). reflexivity.
  - intros H1 H2. rewrite decide_False by (rewrite white_size0; exact H1).
    rewrite decide_False by (rewrite white_size0; exact H2). eexists. split; [reflexivity|]. intros k.
    rewrite (voxcut_elem base cut whites cols k Hw Hc).
    assert (E : forall vc, keep_voxel cut k vc = true <-> forall c, get_voxel whiteQ cut k = Some c -> survives vc c).
    { intros vc. rewrite keep_voxel_iff. destruct (get_voxel whiteQ cut k) as [c|].
      - split; [intros H c' [= <-]; exact H|intros H; apply H; reflexivity].
      - split; [intros _ c' [=]|easy]. }
    split.
    + intros [[H H']|(vc & H & H')]; eexists; (split; [|apply E, H']); eauto.
    + intros (vc & [[H ->]|H] & H').
      * left. split; [exact H|apply E, H'].
      * right. exists vc. split; [exact H|apply E, H'].
Qed.
Print Assumptions C38_outcome.

Lemma not_survives_white : ~ survives whiteQ whiteQ.
Proof. unfold survives, whiteQ. cbn [cA cR cG cB]. lra. Qed.

(** Black and white models: the set difference. *)
Theorem C38_subtract base cut r : voxcut_run base cut r -> colors base = ∅ -> white base <> ∅ -> colors cut = ∅ ->
  exists w, r = Some w /\ default ∅ w = white base ∖ white cut.
Proof.
  intros Hr Hcb Hb Hcc. destruct (C38_outcome base cut r Hr) as (H1 & H2 & H3).
  destruct (decide (white cut = ∅)) as [He|Hne].
  - exists (White base). split; [auto|]. change (default ∅ (White base)) with (white base). rewrite He. set_solver.
  - destruct (H3 Hne Hb) as (w & -> & Hw). exists (Some w). split; [reflexivity|]. cbn.
    apply leibniz_equiv, set_equiv. intros k. rewrite Hw, elem_of_difference. split.
    + intros (vc & [[Hk ->]|Hk] & Hs).
      * split; [exact Hk|]. intros Hin. apply not_survives_white, Hs. unfold get_voxel. rewrite decide_True by exact Hin. reflexivity.
      * rewrite Hcb, lookup_empty in Hk. discriminate.
    + intros [Hk Hn]. exists whiteQ. split; [auto|]. intros c. unfold get_voxel. rewrite decide_False by exact Hn.
      rewrite Hcc, lookup_empty. discriminate.
Qed.
Print Assumptions C38_subtract.

(** There is an execution, and the map order does not matter. *)
Theorem C38_deterministic base cut : exists r, voxcut_run base cut r /\ forall r', voxcut_run base cut r' -> r' = r.
Proof.
  exists (voxcut base cut (elements (white base)) (map_to_list (colors base))). split.
  { exists (elements (white base)), (map_to_list (colors base)). auto. }
  intros r' (whites & cols & Hw & Hc & ->). unfold voxcut. case_decide; [reflexivity|]. case_decide; [reflexivity|].
  do 2 f_equal. apply leibniz_equiv, set_equiv. intros k. rewrite (voxcut_elem base cut whites cols k Hw Hc). rewrite (voxcut_elem base cut _ _ k (Permutation_refl _) (Permutation_refl _)). reflexivity.
Qed.
Print Assumptions C38_deterministic.

(** The two colour rules the white case hides: a red voxel survives a cut by a green one, an opaque
    grey voxel does not survive a white one. *)
Example C38_color_survives : survives (Color 1%Q 0%Q 0%Q 1%Q) (Color 0%Q 1%Q 0%Q 1%Q) /\ ~ survives (Color (1#2) (1#2) (1#2) 1%Q) whiteQ.
Proof. unfold survives, whiteQ. cbn [cA cR cG cB]. split; [|lra]. split; [lra|]. left. lra. Qed.

(** *** The program: base and cuts read from files, the result written *)

Definition well_formed (b : binvox Q) : Prop :=
  (forall k, k ∈ white b -> in_grid (NX b) (NY b) (NZ b) k) /\
  0 <= NX b <= max_int /\ 0 <= NY b <= max_int /\ 0 <= NZ b <= max_int.

(** A file: absent, or a model written whole. *)
Definition file_of (ft : FloatText Q) (m : option (binvox Q)) : option (list byte) :=
  match m with None => None | Some b => Some (write_file ft b 0 0 0 0 0 0) end.

(** [k] is in the closed window [start, start + count]; count 0 means everything. *)
Definition axis_window (s c k : Z) : Prop := s <= k /\ (c = 0 \/ k <= s + c).
Definition in_closed (sx sy sz cx cy cz : Z) (k : key) : Prop :=
  axis_window sx cx (kx k) /\ axis_window sy cy (ky k) /\ axis_window sz cz (kz k).

(** What should remain of the base. *)
Definition remains (b : binvox Q) (cuts : list (option (binvox Q))) (k : key) : Prop :=
  k ∈ white b /\ forall c, In (Some c) cuts -> k ∉ white c.

(** The cut file can be opened with that start: it exists and the start lies within the dimensions in
    its header (0 0 0 for an empty model). *)
Definition opens (sx sy sz : Z) (c : binvox Q) : Prop :=
  let d n := if decide (white c = ∅) then 0 else n in sx <= d (NX c) /\ sy <= d (NY c) /\ sz <= d (NZ c).

Lemma wf_pos b k : well_formed b -> k ∈ white b -> 0 < NX b /\ 0 < NY b /\ 0 < NZ b.
Proof. intros [H _] Hk. apply H in Hk. unfold in_grid, in_region in Hk. lia. Qed.

Lemma white_ne_ex (b : binvox Q) : white b <> ∅ -> exists k, k ∈ white b.
Proof. intros H. apply set_choose_L in H. exact H. Qed.

Lemma read_model ft b sx sy sz cx cy cz : well_formed b -> 0 <= sx -> 0 <= sy -> 0 <= sz -> 0 <= cx -> 0 <= cy -> 0 <= cz ->
  (~ opens sx sy sz b -> read_file ft (file_of ft (Some b)) sx sy sz cx cy cz = None) /\
  (opens sx sy sz b -> exists b', read_file ft (file_of ft (Some b)) sx sy sz cx cy cz = Some b' /\ Colors b' = None /\
     (white b <> ∅ -> NX b' = NX b /\ NY b' = NY b /\ NZ b' = NZ b) /\ TX b' = TX b /\ TY b' = TY b /\ TZ b' = TZ b /\ Scale b' = Scale b /\
     forall k, k ∈ white b' <-> k ∈ white b /\ in_closed sx sy sz cx cy cz k).
Proof.
  intros Hwf Hx Hy Hz Hcx Hcy Hcz. unfold opens, file_of, read_file.
  destruct (decide (white b = ∅)) as [He|Hne].
  - unfold write_file. rewrite write_empty by exact He. cbn [fst concat]. split.
    + intros Hn. rewrite read_bad_start by (unfold max_int; lia). reflexivity.
    + intros Hn. rewrite read_with_header by (unfold max_int; lia). cbn [read_data]. eexists. split; [reflexivity|].
      cbn. split; [reflexivity|]. split; [intros; contradiction|]. repeat (split; [reflexivity|]). intros k. rewrite He. set_solver.
  - destruct (white_ne_ex b Hne) as [k0 Hk0]. pose proof (wf_pos b k0 Hwf Hk0) as Hpos. destruct Hwf as (Hin & Hmx & Hmy & Hmz). split.
    + intros Hn. unfold write_file, write. rewrite decide_False by (rewrite white_size0; exact Hne). cbn [fst concat].
      unfold default_dim. cbn [Z.eqb].
      rewrite read_bad_start by lia. reflexivity.
    + intros Hn. destruct (C09_windowed_read Q ft b sx sy sz cx cy cz) as (vs & -> & Hvs); [eauto|exact Hin|lia..|].
      eexists. split; [reflexivity|]. cbn. split; [reflexivity|]. repeat (split; [easy|]). intros k. rewrite Hvs.
      split; intros [Hk Hr]; (split; [exact Hk|]); apply Hin in Hk; unfold in_grid, in_region, in_closed, axis_window, clip in *;
        destruct (Z.eqb_spec cx 0), (Z.eqb_spec cy 0), (Z.eqb_spec cz 0);
        destruct (Z.gtb_spec cx (NX b)), (Z.gtb_spec cy (NY b)), (Z.gtb_spec cz (NZ b)); cbn [orb] in *; lia.
Qed.

Lemma opens_dec sx sy sz cuts : (exists c, In (Some c) cuts /\ opens sx sy sz c) \/ ~ (exists c, In (Some c) cuts /\ opens sx sy sz c).
Proof.
  induction cuts as [|f cuts IH]; [right; intros (c & [] & _)|].
  destruct IH as [(c & Hc & Ho)|IH]; [left; exists c; split; [right; exact Hc|exact Ho]|].
  assert (D : (exists c, f = Some c /\ opens sx sy sz c) \/ ~ (exists c, f = Some c /\ opens sx sy sz c)).
  { destruct f as [c|]; [|right; intros (c & [=] & _)].
    assert (Hdec : opens sx sy sz c \/ ~ opens sx sy sz c) by (unfold opens; case_decide; lia).
    destruct Hdec as [H|H]; [left; eauto|right; intros (c' & [= <-] & H'); contradiction]. }
  destruct D as [(c & -> & Ho)|D]; [left; exists c; split; [left; reflexivity|exact Ho]|].
  right. intros (c & [->|Hc] & Ho); eauto.
Qed.

Lemma cut_loop_spec ft sx sy sz cx cy cz cuts : 0 <= sx -> 0 <= sy -> 0 <= sz -> 0 <= cx -> 0 <= cy -> 0 <= cz ->
  Forall (fun c => match c with Some c => well_formed c | None => True end) cuts ->
  forall base, Colors base = None -> (forall k, k ∈ white base -> in_closed sx sy sz cx cy cz k) ->
  match cut_loop ft sx sy sz cx cy cz base (map (file_of ft) cuts) with
  | Some b' => (forall k, k ∈ white b' <-> remains base cuts k) /\ Colors b' = None /\ NX b' = NX base /\ NY b' = NY base /\ NZ b' = NZ base /\
      TX b' = TX base /\ TY b' = TY base /\ TZ b' = TZ base /\ Scale b' = Scale base /\
      ((exists c, In (Some c) cuts /\ opens sx sy sz c) -> white b' <> ∅)
  | None => (exists c, In (Some c) cuts /\ opens sx sy sz c) /\ forall k, ~ remains base cuts k
  end.
Proof.
  intros Hx Hy Hz Hcx Hcy Hcz Hwf. induction Hwf as [|f cuts Hf Hwf IH]; intros base Hcol Hwin; cbn [map cut_loop].
  - split; [|repeat (split; [auto|]); intros (c & [] & _)]. intros k. unfold remains. split; [intros H; split; [exact H|intros c []]|tauto].
  - assert (Hskip : forall f, cut_step ft sx sy sz cx cy cz base (file_of ft f) = Some base -> (forall c, f = Some c -> ~ opens sx sy sz c) ->
       (forall c, f = Some c -> well_formed c) ->
       match cut_loop ft sx sy sz cx cy cz base (map (file_of ft) cuts) with
       | Some b' => (forall k, k ∈ white b' <-> remains base (f :: cuts) k) /\ Colors b' = None /\ NX b' = NX base /\ NY b' = NY base /\ NZ b' = NZ base /\
           TX b' = TX base /\ TY b' = TY base /\ TZ b' = TZ base /\ Scale b' = Scale base /\
           ((exists c, In (Some c) (f :: cuts) /\ opens sx sy sz c) -> white b' <> ∅)
       | None => (exists c, In (Some c) (f :: cuts) /\ opens sx sy sz c) /\ forall k, ~ remains base (f :: cuts) k
       end).
    { intros f' Hstep Hno Hwf'. specialize (IH base Hcol Hwin).
      assert (Hrem : forall k, remains base (f' :: cuts) k <-> remains base cuts k).
      { intros k. unfold remains. split.
        - intros [H H']. split; [exact H|]. intros c Hc. apply H'. right. exact Hc.
        - intros [H H']. split; [exact H|]. intros c [Hc|Hc]; [|apply H', Hc]. intros Hk.
          apply (Hno c Hc). apply Hwin in H. assert (Hg := Hk). apply (Hwf' c Hc) in Hg.
          unfold opens. cbv zeta. rewrite !decide_False by set_solver. unfold in_closed, axis_window, in_grid, in_region in *. lia. }
      assert (Hex : (exists c, In (Some c) (f' :: cuts) /\ opens sx sy sz c) <-> (exists c, In (Some c) cuts /\ opens sx sy sz c)).
      { split.
        - intros (c & [Hc|Hc] & Ho); [exfalso; exact (Hno c Hc Ho)|eauto].
        - intros (c & Hc & Ho). exists c. split; [right; exact Hc|exact Ho]. }
      destruct (cut_loop _ _ _ _ _ _ _ _ _) as [b'|].
      - destruct IH as (IH & IH'). split; [intros k; rewrite IH; symmetry; apply Hrem|]. rewrite Hex. exact IH'.
      - rewrite Hex. split; [apply IH|]. intros k. rewrite Hrem. apply IH. }
    destruct f as [c|].
    2: { assert (Hs : cut_step ft sx sy sz cx cy cz base (file_of ft None) = Some base) by reflexivity.
         rewrite Hs. apply Hskip; [exact Hs|discriminate|discriminate]. }
    destruct (read_model ft c sx sy sz cx cy cz Hf Hx Hy Hz Hcx Hcy Hcz) as [Hcl Hop].
    assert (Hdec : opens sx sy sz c \/ ~ opens sx sy sz c) by (unfold opens; case_decide; lia).
    destruct Hdec as [Ho|Ho].
    2: { assert (Hs : cut_step ft sx sy sz cx cy cz base (file_of ft (Some c)) = Some base).
         { unfold cut_step. rewrite (Hcl Ho). reflexivity. }
         rewrite Hs. apply Hskip; [exact Hs|intros c' [= <-]; exact Ho|intros c' [= <-]; exact Hf]. }
    clear Hskip Hcl. destruct (Hop Ho) as (c' & Hread & Hc'col & _ & _ & _ & _ & _ & Hc'). unfold cut_step. rewrite Hread.
    set (v := voxcut base c' _ _).
    assert (Hrun : voxcut_run base c' v) by (eexists _, _; repeat split; reflexivity).
    assert (Hcb : colors base = ∅) by (unfold colors; rewrite Hcol; reflexivity).
    assert (Hcc : colors c' = ∅) by (unfold colors; rewrite Hc'col; reflexivity).
    assert (Hrem : forall k, remains base (Some c :: cuts) k <-> k ∈ white base ∖ white c' /\ forall c, In (Some c) cuts -> k ∉ white c).
    { intros k. unfold remains. rewrite elem_of_difference, Hc'. split.
      - intros [H H']. split; [split; [exact H|]|].
        + intros [Hk _]. exact (H' c (or_introl eq_refl) Hk).
        + intros d Hd. apply H'. right. exact Hd.
      - intros [[H Hn] H']. split; [exact H|]. intros d [[= <-]|Hd]; [|apply H', Hd]. intros Hk. apply Hn. split; [exact Hk|apply Hwin, H]. }
    assert (Hex : exists c0, In (Some c0) (Some c :: cuts) /\ opens sx sy sz c0) by (exists c; split; [left; reflexivity|exact Ho]).
    destruct (decide (white base = ∅)) as [He|Hne].
    { assert (Hnone : v = None \/ exists w, v = Some w /\ default ∅ w = white base).
      { destruct (C38_outcome _ _ _ Hrun) as (H1 & H2 & _). destruct (decide (white c' = ∅)) as [He'|Hne']; [|left; auto].
        right. exists (White base). split; [auto|reflexivity]. }
      destruct Hnone as [->|(w & -> & Hw)].
      - split; [exact Hex|]. intros k. rewrite Hrem, He. set_solver.
      - rewrite decide_True; [|rewrite white_size0; unfold white at 1, set_white; cbn [White]; rewrite Hw; exact He].
        split; [exact Hex|]. intros k. rewrite Hrem, He. set_solver. }
    destruct (C38_subtract _ _ _ Hrun Hcb Hne Hcc) as (w & -> & Hw).
    assert (Hsw : white (set_white base w) = white base ∖ white c') by (unfold white at 1, set_white; cbn [White]; exact Hw).
    case_decide as Hsz.
    + apply white_size0 in Hsz. rewrite Hsw in Hsz. split; [exact Hex|]. intros k. rewrite Hrem, Hsz. set_solver.
    + rewrite white_size0, Hsw in Hsz. specialize (IH (set_white base w) Hcol).
      rewrite Hsw in IH. specialize (IH ltac:(intros k Hk; apply Hwin; set_solver)).
      assert (Hrem2 : forall k, remains (set_white base w) cuts k <-> remains base (Some c :: cuts) k).
      { intros k. rewrite Hrem. unfold remains. rewrite Hsw. reflexivity. }
      destruct (cut_loop _ _ _ _ _ _ _ _ _) as [b'|].
      * destruct IH as (IH & E0 & E1 & E2 & E3 & E4 & E5 & E6 & E7 & E8). cbn [set_white NX NY NZ TX TY TZ Scale] in *.
        split; [intros k; rewrite IH; apply Hrem2|]. repeat (split; [assumption|]). intros _.
        destruct (opens_dec sx sy sz cuts) as [Hd|Hd]; [apply E8, Hd|].
        (* no later cut opens: nothing more is removed *)
        intros Hemp. apply Hsz. apply leibniz_equiv, set_equiv. intros k. split; [|set_solver]. intros Hk. exfalso.
        assert (Hin : k ∈ white b'); [|rewrite Hemp in Hin; set_solver].
        apply IH. unfold remains. rewrite Hsw. split; [exact Hk|]. intros d Hdin Hdk. apply Hd. exists d. split; [exact Hdin|].
        assert (Hkb : k ∈ white base) by set_solver. apply Hwin in Hkb.
        rewrite List.Forall_forall in Hwf. specialize (Hwf _ Hdin). cbn in Hwf. assert (Hg := Hdk). apply Hwf in Hg.
        unfold opens. cbv zeta. rewrite !decide_False by set_solver. unfold in_closed, axis_window, in_grid, in_region in *. lia.
      * split; [exact Hex|]. intros k. rewrite <- Hrem2. apply IH.
Qed.

(** The model in memory after all cuts: what remains of the base in the closed window; missing or
    unreadable cut files are skipped. *)
Theorem C38_program ft b cuts sx sy sz cx cy cz :
  well_formed b -> white b <> ∅ -> Forall (fun c => match c with Some c => well_formed c | None => True end) cuts ->
  0 <= sx <= NX b -> 0 <= sy <= NY b -> 0 <= sz <= NZ b -> 0 <= cx -> 0 <= cy -> 0 <= cz ->
  match voxcut_main ft sx sy sz cx cy cz (file_of ft (Some b)) (map (file_of ft) cuts) with
  | Some b' => (forall k, k ∈ white b' <-> remains b cuts k /\ in_closed sx sy sz cx cy cz k) /\ colors b' = ∅ /\
      NX b' = NX b /\ NY b' = NY b /\ NZ b' = NZ b /\ TX b' = TX b /\ TY b' = TY b /\ TZ b' = TZ b /\ Scale b' = Scale b
  | None => True
  end /\
  (voxcut_main ft sx sy sz cx cy cz (file_of ft (Some b)) (map (file_of ft) cuts) = None <->
   (exists c, In (Some c) cuts /\ opens sx sy sz c) /\ ~ exists k, remains b cuts k /\ in_closed sx sy sz cx cy cz k).
Proof.
  intros Hwf Hne Hcuts Hx Hy Hz Hcx Hcy Hcz. unfold voxcut_main.
  destruct (read_model ft b sx sy sz cx cy cz Hwf) as [_ Hread]; [lia..|].
  destruct Hread as (b0 & Hread & Hcol & Hdim & Htx & Hty & Htz & Hsc & Hw).
  { unfold opens. cbv zeta. rewrite !decide_False by exact Hne. lia. }
  rewrite Hread. destruct (Hdim Hne) as (Hnx & Hny & Hnz).
  pose proof (cut_loop_spec ft sx sy sz cx cy cz cuts) as H. do 6 (specialize (H ltac:(lia))). specialize (H Hcuts b0 Hcol).
  specialize (H ltac:(intros k Hk; apply Hw, Hk)).
  assert (Hrem : forall k, remains b0 cuts k <-> remains b cuts k /\ in_closed sx sy sz cx cy cz k).
  { intros k. unfold remains. rewrite Hw. tauto. }
  destruct (cut_loop _ _ _ _ _ _ _ _ _) as [b'|].
  - destruct H as (H & E0 & E1 & E2 & E3 & E4 & E5 & E6 & E7 & E8). split.
    + split; [intros k; rewrite H; apply Hrem|]. split; [unfold colors; rewrite E0; reflexivity|]. repeat split; congruence.
    + split; [discriminate|]. intros [Hex Hno]. exfalso. destruct (white_ne_ex b' (E8 Hex)) as [k Hk].
      apply Hno. exists k. apply Hrem, H, Hk.
  - split; [exact I|]. split; [intros _|reflexivity]. destruct H as [Hex H]. split; [exact Hex|]. intros (k & Hk). apply (H k), Hrem, Hk.
Qed.
Print Assumptions C38_program.

(** The file written: read back whole, it holds exactly what remains of the base in the window
    [start, start + count), moved to the origin. *)
Theorem C38_output ft b cuts sx sy sz cx cy cz file :
  well_formed b -> white b <> ∅ -> Forall (fun c => match c with Some c => well_formed c | None => True end) cuts ->
  0 <= sx <= NX b -> 0 <= sy <= NY b -> 0 <= sz <= NZ b -> 0 <= cx <= max_int -> 0 <= cy <= max_int -> 0 <= cz <= max_int ->
  voxcut_out ft sx sy sz cx cy cz (file_of ft (Some b)) (map (file_of ft) cuts) = Some file ->
  exists out, read ft file 0 0 0 0 0 0 = inr out /\ forall k, k ∈ white out <->
    in_grid (if cx =? 0 then NX b else cx) (if cy =? 0 then NY b else cy) (if cz =? 0 then NZ b else cz) k /\
    remains b cuts (shift_key sx sy sz k).
Proof.
  intros Hwf Hne Hcuts Hx Hy Hz Hcx Hcy Hcz. unfold voxcut_out.
  pose proof (C38_program ft b cuts sx sy sz cx cy cz Hwf Hne Hcuts) as H. do 6 (specialize (H ltac:(lia))).
  destruct (voxcut_main _ _ _ _ _ _ _ _ _) as [b'|]; [|discriminate]. intros [= <-].
  destruct H as [(H & _ & Hnx & Hny & Hnz & _) _].
  destruct (white_ne_ex b Hne) as [k0 Hk0]. pose proof (wf_pos b k0 Hwf Hk0) as Hpos.
  assert (Hwin : forall k, in_grid (if cx =? 0 then NX b else cx) (if cy =? 0 then NY b else cy) (if cz =? 0 then NZ b else cz) k ->
    in_closed sx sy sz cx cy cz (shift_key sx sy sz k)).
  { intros k. unfold in_grid, in_region, in_closed, axis_window, shift_key. cbn [kx ky kz fst snd].
    destruct (Z.eqb_spec cx 0), (Z.eqb_spec cy 0), (Z.eqb_spec cz 0); unfold kx, ky, kz; cbn [fst snd]; lia. }
  destruct (decide (white b' = ∅)) as [He|Hne'].
  - rewrite C12_empty_model_round_trip by exact He. eexists. split; [reflexivity|]. intros k. unfold white at 1. cbn [White default].
    split; [set_solver|]. intros [Hg Hr]. exfalso. assert (Hin : shift_key sx sy sz k ∈ white b') by (apply H; split; [exact Hr|apply Hwin, Hg]).
    rewrite He in Hin. set_solver.
  - destruct Hwf as (_ & Hmx & Hmy & Hmz).
    destruct (C02_region_write_exact Q ft b' sx sy sz cx cy cz) as (vs & -> & Hvs).
    + apply white_ne_ex, Hne'.
    + rewrite Hnx. destruct (Z.eqb_spec cx 0); lia.
    + rewrite Hny. destruct (Z.eqb_spec cy 0); lia.
    + rewrite Hnz. destruct (Z.eqb_spec cz 0); lia.
    + eexists. split; [reflexivity|]. intros k. unfold white at 1. cbn [White default]. rewrite Hvs, Hnx, Hny, Hnz, H.
      split; [tauto|]. intros [Hg Hr]. split; [exact Hg|]. split; [exact Hr|apply Hwin, Hg].
Qed.
Print Assumptions C38_output.

(** Non-vacuity: a 3x2x1 base cut by two models (one of them missing), window [1,3) on x. *)
Definition ex_base : binvox Q := BinVOX 3 2 1 0%Q 0%Q 0%Q 3%Q (Some (list_to_set [(0,0,0); (1,0,0); (2,0,0); (1,1,0)])) None.
Definition ex_cut : binvox Q := BinVOX 3 2 1 0%Q 0%Q 0%Q 3%Q (Some (list_to_set [(1,0,0); (0,1,0)])) None.

Lemma ex_wf (l : list key) nx ny nz : forallb (fun k => (0 <=? kx k) && (kx k <? nx) && (0 <=? ky k) && (ky k <? ny) && (0 <=? kz k) && (kz k <? nz)) l = true ->
  0 <= nx <= max_int -> 0 <= ny <= max_int -> 0 <= nz <= max_int ->
  forall tx ty tz sc, well_formed (BinVOX nx ny nz tx ty tz sc (Some (list_to_set l)) None).
Proof.
  intros H Hx Hy Hz tx ty tz sc. split; [|auto]. intros k Hk. unfold white in Hk. cbn [White default] in Hk. apply elem_of_list_to_set in Hk.
  rewrite forallb_forall in H. apply elem_of_list_In in Hk. apply H in Hk. unfold in_grid, in_region. cbn. lia.
Qed.

Example C38_output_ex : exists file out, well_formed ex_base /\ well_formed ex_cut /\ white ex_base <> ∅ /\
  voxcut_out qtext 1 0 0 2 2 1 (file_of qtext (Some ex_base)) (map (file_of qtext) [None; Some ex_cut]) = Some file /\
  read qtext file 0 0 0 0 0 0 = inr out /\ elements (white out) = [(1,0,0); (0,1,0)].
Proof.
  eexists. eexists. split; [apply ex_wf; [reflexivity|unfold max_int; lia..]|]. split; [apply ex_wf; [reflexivity|unfold max_int; lia..]|].
  split; [intros H; assert (H' : (0,0,0) ∈ white ex_base) by (apply (bool_decide_unpack _); vm_compute; exact I); rewrite H in H'; set_solver|].
  split; [vm_compute; reflexivity|]. split; vm_compute; reflexivity.
Qed.

Example C38_fails_ex : voxcut_main qtext 0 0 0 1 1 1 (file_of qtext (Some ex_cut)) [file_of qtext (Some ex_base)] <> None /\
  voxcut_main qtext 1 0 0 1 0 0 (file_of qtext (Some ex_cut)) [file_of qtext (Some ex_base)] = None.
Proof. split; vm_compute; [discriminate|reflexivity]. Qed.

(** ** C39: translations are ignored *)

Definition moved (b : binvox Q) (tx ty tz : Q) : binvox Q := BinVOX (NX b) (NY b) (NZ b) tx ty tz (Scale b) (White b) (Colors b).

Theorem C39_translation_ignored base cut tx ty tz tx' ty' tz' r :
  voxcut_run (moved base tx ty tz) (moved cut tx' ty' tz') r <-> voxcut_run base cut r.
Proof. unfold voxcut_run. reflexivity. Qed.
Print Assumptions C39_translation_ignored.

(** The world cell of voxel [k] of a model with translation t and voxel side 1/vpmm. *)
Definition in_cell (b : binvox Q) (k : key) (p : Q * Q * Q) : Prop :=
  let side := (1 / vpmm b)%Q in let '(x, y, z) := p in
  (TX b + inject_Z (kx k) * side <= x)%Q /\ (x < TX b + inject_Z (kx k + 1) * side)%Q /\
  (TY b + inject_Z (ky k) * side <= y)%Q /\ (y < TY b + inject_Z (ky k + 1) * side)%Q /\
  (TZ b + inject_Z (kz k) * side <= z)%Q /\ (z < TZ b + inject_Z (kz k + 1) * side)%Q.

Definition solid (b : binvox Q) (w : gset key) (p : Q * Q * Q) : Prop := exists k, k ∈ w /\ in_cell b k p.

Lemma cell_axis t s i j x : (0 < s)%Q -> (t + inject_Z i * s <= x)%Q -> (x < t + inject_Z (i + 1) * s)%Q ->
  (t + inject_Z j * s <= x)%Q -> (x < t + inject_Z (j + 1) * s)%Q -> i = j.
Proof.
  intros Hs H1 H2 H3 H4. rewrite inject_Z_plus in H2, H4.
  destruct (Z.lt_trichotomy i j) as [H|[H|H]]; [|exact H|]; exfalso.
  - assert (Hq : (inject_Z i + inject_Z 1 <= inject_Z j)%Q) by (rewrite <- inject_Z_plus, <- Zle_Qle; lia). nra.
  - assert (Hq : (inject_Z j + inject_Z 1 <= inject_Z i)%Q) by (rewrite <- inject_Z_plus, <- Zle_Qle; lia). nra.
Qed.

Lemma in_cell_inj b k j p : (0 < vpmm b)%Q -> in_cell b k p -> in_cell b j p -> k = j.
Proof.
  intros Hv. assert (Hs : (0 < 1 / vpmm b)%Q) by (unfold Qdiv; rewrite Qmult_1_l; apply Qinv_lt_0_compat, Hv).
  unfold in_cell. set (s := (1 / vpmm b)%Q) in *. clearbody s. destruct p as [[x y] z].
  intros (H1 & H2 & H3 & H4 & H5 & H6) (G1 & G2 & G3 & G4 & G5 & G6).
  destruct k as [[k1 k2] k3], j as [[j1 j2] j3]. unfold kx, ky, kz in *. cbn [fst snd] in *.
  apply key_eq; eapply cell_axis; eauto.
Qed.

Lemma in_cell_same b c k p : (vpmm b == vpmm c)%Q -> (TX b == TX c)%Q -> (TY b == TY c)%Q -> (TZ b == TZ c)%Q -> in_cell b k p <-> in_cell c k p.
Proof.
  intros Hv Hx Hy Hz. unfold in_cell. destruct p as [[x y] z]. cbv zeta. rewrite Hv, Hx, Hy, Hz. reflexivity.
Qed.

(** When the two grids coincide, voxcut subtracts the solids. *)
Theorem C39_same_grid base cut w : voxcut_run base cut (Some w) -> colors base = ∅ -> colors cut = ∅ -> white base <> ∅ ->
  (0 < vpmm base)%Q -> (vpmm base == vpmm cut)%Q -> (TX base == TX cut)%Q -> (TY base == TY cut)%Q -> (TZ base == TZ cut)%Q ->
  forall p, solid base (default ∅ w) p <-> solid base (white base) p /\ ~ solid cut (white cut) p.
Proof.
  intros Hr Hcb Hcc Hne Hpos Hv Hx Hy Hz p. destruct (C38_subtract base cut _ Hr Hcb Hne Hcc) as (w' & [= <-] & Hw). rewrite Hw. unfold solid. split.
  - intros (k & Hk & Hc). apply elem_of_difference in Hk as [Hk Hn]. split; [eauto|]. intros (j & Hj & Hc').
    apply Hn. apply (in_cell_same base cut j p Hv Hx Hy Hz) in Hc'. rewrite (in_cell_inj base k j p Hpos Hc Hc'). exact Hj.
  - intros [(k & Hk & Hc) Hn]. exists k. split; [|exact Hc]. apply elem_of_difference. split; [exact Hk|]. intros Hin. apply Hn.
    exists k. split; [exact Hin|]. apply (in_cell_same base cut k p Hv Hx Hy Hz), Hc.
Qed.
Print Assumptions C39_same_grid.

Example C39_same_grid_ex : voxcut_run ex_base ex_cut (voxcut ex_base ex_cut (elements (white ex_base)) []) /\ (0 < vpmm ex_base)%Q /\ (vpmm ex_base == vpmm ex_cut)%Q.
Proof. split; [eexists _, _; split; [reflexivity|split; [|reflexivity]]; reflexivity|]. split; reflexivity. Qed.

(** When they do not, both errors happen: a cut far away removes voxels it does not touch, and a cut
    that covers the base in space does not touch it. *)
Theorem C39_world_space_refuted :
  (exists base cut w, voxcut_run base cut (Some w) /\ (0 < vpmm base)%Q /\ (vpmm base == vpmm cut)%Q /\ colors base = ∅ /\ colors cut = ∅ /\
     well_formed base /\ well_formed cut /\
     exists p, solid base (white base) p /\ ~ solid cut (white cut) p /\ ~ solid base (default ∅ w) p) /\
  (exists base cut w, voxcut_run base cut (Some w) /\ (0 < vpmm base)%Q /\ (vpmm base == vpmm cut)%Q /\ colors base = ∅ /\ colors cut = ∅ /\
     well_formed base /\ well_formed cut /\
     exists p, solid base (white base) p /\ solid cut (white cut) p /\ solid base (default ∅ w) p).
Proof.
  set (mkb t l := BinVOX 2 1 1 t 0%Q 0%Q 2%Q (Some (list_to_set l)) None : binvox Q).
  assert (Hwf : forall t l, forallb (fun k => (0 <=? kx k) && (kx k <? 2) && (0 <=? ky k) && (ky k <? 1) && (0 <=? kz k) && (kz k <? 1)) l = true ->
    well_formed (mkb t l)) by (intros t l H; apply ex_wf; [exact H|unfold max_int; lia..]).
  split.
  - exists (mkb 0%Q [(0,0,0)]), (mkb 5%Q [(0,0,0)]), (Some ∅). split; [eexists _, _; split; [reflexivity|split; [reflexivity|vm_compute; reflexivity]]|].
    split; [reflexivity|]. split; [reflexivity|]. split; [reflexivity|]. split; [reflexivity|]. split; [apply Hwf; reflexivity|]. split; [apply Hwf; reflexivity|].
    exists (0%Q, 0%Q, 0%Q). split; [|split].
    + exists (0,0,0). split; [apply (bool_decide_unpack _); vm_compute; exact I|]. vm_compute. intuition discriminate.
    + intros (k & Hk & Hc). assert (Hk0 : k = (0,0,0)) by (unfold white in Hk; cbn in Hk; set_solver). subst k. vm_compute in Hc. destruct Hc as [Hc _]. apply Hc. reflexivity.
    + intros (k & Hk & _). cbn in Hk. set_solver.
  - exists (mkb 1%Q [(0,0,0)]), (mkb 0%Q [(1,0,0)]), (Some ({[(0,0,0)]} ∪ ∅)). split; [eexists _, _; split; [reflexivity|split; [reflexivity|vm_compute; reflexivity]]|].
    split; [reflexivity|]. split; [reflexivity|]. split; [reflexivity|]. split; [reflexivity|]. split; [apply Hwf; reflexivity|]. split; [apply Hwf; reflexivity|].
    exists (1%Q, 0%Q, 0%Q). split; [|split].
    + exists (0,0,0). split; [apply (bool_decide_unpack _); vm_compute; exact I|]. vm_compute. intuition discriminate.
    + exists (1,0,0). split; [apply (bool_decide_unpack _); vm_compute; exact I|]. vm_compute. intuition discriminate.
    + exists (0,0,0). split; [cbn; set_solver|]. vm_compute. intuition discriminate.
Qed.
Print Assumptions C39_world_space_refuted.

(** ** C40: the .vox file *)

(** The little endian int32 at offset [off] of a file. *)
Definition i32_at (off : nat) (file : list byte) : option Z :=
  match drop off file with
  | a :: b :: c :: d :: _ =>
      let u := b2z a + 256 * b2z b + 65536 * b2z c + 16777216 * b2z d in
      Some (if u <? 2 ^ 31 then u else u - 2 ^ 32)
  | _ => None
  end.

Definition text_at (off len : nat) (file : list byte) : list byte := take len (drop off file).

Lemma le32_read z rest : - 2 ^ 31 <= z < 2 ^ 31 -> i32_at 0 (le32 z ++ rest) = Some z.
Proof.
  intros Hz. unfold i32_at, le32. cbn [drop app]. rewrite !b2z_z2b.
  set (u := _ + _). assert (Hu : u = z mod 2 ^ 32).
  { subst u. assert (E : z = (z mod 256) + 256 * ((z / 256) mod 256) + 65536 * ((z / 65536) mod 256) + 16777216 * ((z / 16777216) mod 256) + 2 ^ 32 * (z / 2 ^ 32)).
    { replace (z / 65536) with (z / 256 / 256) by (rewrite Z.div_div by lia; reflexivity).
      replace (z / 16777216) with (z / 256 / 256 / 256) by (rewrite !Z.div_div by lia; reflexivity).
      replace (z / 2 ^ 32) with (z / 256 / 256 / 256 / 256) by (rewrite !Z.div_div by lia; reflexivity).
      set (a := z / 256). set (b := a / 256). set (c := b / 256).
      pose proof (Z.div_mod z 256). pose proof (Z.div_mod a 256). pose proof (Z.div_mod b 256). pose proof (Z.div_mod c 256). subst a b c. lia. }
    pose proof (Z.mod_pos_bound z 256 ltac:(lia)). pose proof (Z.mod_pos_bound (z / 256) 256 ltac:(lia)).
    pose proof (Z.mod_pos_bound (z / 65536) 256 ltac:(lia)). pose proof (Z.mod_pos_bound (z / 16777216) 256 ltac:(lia)).
    apply (Z.mod_unique z (2 ^ 32) (z / 2 ^ 32)); lia. }
  rewrite Hu. destruct (Z.ltb_spec (z mod 2 ^ 32) (2 ^ 31)) as [H|H].
  - f_equal. destruct (Z_lt_le_dec z 0) as [Hneg|Hnn]; [|apply Z.mod_small; lia].
    rewrite <- (Z.mod_add z 1) in H by lia. rewrite Z.mod_small in H by lia. lia.
  - f_equal. destruct (Z_lt_le_dec z 0) as [Hneg|Hnn]; [|rewrite Z.mod_small in H by lia; lia].
    rewrite <- (Z.mod_add z 1) by lia. rewrite Z.mod_small by lia. lia.
Qed.

Lemma i32_at_app off pre l : length pre = off -> i32_at off (pre ++ l) = i32_at 0 l.
Proof. intros <-. unfold i32_at. rewrite drop_app. reflexivity. Qed.

Lemma vox_max_spec l : forall mx my mz, let '(a, b, c) := foldl (fun '(mx, my, mz) v =>
           (if kx v >? mx then kx v else mx, if ky v >? my then ky v else my, if kz v >? mz then kz v else mz)) (mx, my, mz) l in
  mx <= a /\ my <= b /\ mz <= c /\ (forall v, In v l -> kx v <= a /\ ky v <= b /\ kz v <= c) /\
  (a = mx \/ exists v, In v l /\ kx v = a) /\ (b = my \/ exists v, In v l /\ ky v = b) /\ (c = mz \/ exists v, In v l /\ kz v = c).
Proof.
  induction l as [|v l IH]; intros mx my mz; cbn [foldl].
  - split; [lia|]. split; [lia|]. split; [lia|]. split; [intros v []|auto].
  - specialize (IH (if kx v >? mx then kx v else mx) (if ky v >? my then ky v else my) (if kz v >? mz then kz v else mz)).
    destruct (foldl _ _ l) as [[a b] c]. destruct IH as (H1 & H2 & H3 & H4 & H5 & H6 & H7).
    destruct (Z.gtb_spec (kx v) mx), (Z.gtb_spec (ky v) my), (Z.gtb_spec (kz v) mz);
    (split; [lia|]; split; [lia|]; split; [lia|]; split;
      [intros u [<-|Hu]; [lia|apply H4, Hu]|]; split; [|split];
      [destruct H5 as [H5|(u & Hu & H5)]|destruct H6 as [H6|(u & Hu & H6)]|destruct H7 as [H7|(u & Hu & H7)]];
      first [left; lia | right; exists u; split; [right; exact Hu|assumption] | right; exists v; split; [left; reflexivity|lia]]).
Qed.

Lemma vox_voxels_length l : length (concat (map vox_voxel l)) = (16 * length l)%nat.
Proof. induction l as [|v l IH]; [reflexivity|]. cbn [map concat]. rewrite app_length, IH. cbn. lia. Qed.

(** The layout: two chunk sizes are wrong. *)
Theorem C40_chunk_sizes (m : gset key) l1 l2 : Permutation l1 (elements m) -> Permutation l2 (elements m) ->
  let n := Z.of_nat (size m) in let file := writeVOX l1 l2 in 4 * n + 16 < 2 ^ 31 ->
  text_at 0 4 file = txt "VOX " /\ i32_at 4 file = Some 150 /\
  (* MAIN: declared and actual number of bytes of its children *)
  text_at 8 4 file = txt "MAIN" /\ i32_at 12 file = Some 0 /\ i32_at 16 file = Some (4 * n + 16) /\ Z.of_nat (length (drop 20 file)) = 16 * n + 40 /\
  (* SIZE: correct *)
  text_at 20 4 file = txt "SIZE" /\ i32_at 24 file = Some 12 /\ i32_at 28 file = Some 0 /\
  (* XYZI: declared and actual number of bytes of its content *)
  text_at 44 4 file = txt "XYZI" /\ i32_at 48 file = Some (4 * n + 4) /\ i32_at 52 file = Some 0 /\ Z.of_nat (length (drop 56 file)) = 16 * n + 4 /\
  i32_at 56 file = Some n.
Proof.
  intros H1 H2 n file Hn.
  assert (L1 : Z.of_nat (length l1) = n) by (subst n; rewrite H1; reflexivity).
  assert (L2 : length (concat (map vox_voxel l2)) = (16 * size m)%nat) by (rewrite vox_voxels_length, H2; reflexivity).
  subst file. unfold writeVOX. rewrite L1. destruct (vox_max l1) as [[mx my] mz].
  set (d := concat (map vox_voxel l2)) in *. clearbody d. assert (Hn0 : 0 <= n) by (subst n; lia).
  assert (G : forall off z pre rest, length pre = off -> - 2 ^ 31 <= z < 2 ^ 31 -> i32_at off (pre ++ le32 z ++ rest) = Some z).
  { intros off z pre rest Hl Hz. rewrite i32_at_app by exact Hl. apply le32_read, Hz. }
  assert (D : forall off (pre rest : list byte) z, length pre = off -> Z.of_nat (length rest) = z -> Z.of_nat (length (drop off (pre ++ rest))) = z) by (intros off pre rest z <- <-; rewrite drop_app; reflexivity).
  unfold vox_header, vox_chunk. repeat rewrite <- app_assoc.
  split; [reflexivity|].
  split; [apply (G 4%nat 150 (txt "VOX ")); [reflexivity|lia]|].
  split; [reflexivity|].
  split; [apply (G 12%nat 0 (txt "VOX " ++ le32 150 ++ txt "MAIN")); [reflexivity|lia]|].
  split; [replace (4 * n + 16) with (12 + n * 4 + 4) by lia; apply (G 16%nat (12 + n * 4 + 4) (txt "VOX " ++ le32 150 ++ txt "MAIN" ++ le32 0)); [reflexivity|lia]|].
  split; [apply (D 20%nat (txt "VOX " ++ le32 150 ++ txt "MAIN" ++ le32 0 ++ le32 (12 + n * 4 + 4))); [reflexivity|]; repeat rewrite app_length; rewrite L2; cbn [length le32 txt]; subst n; cbn; lia|].
  split; [reflexivity|].
  split; [apply (G 24%nat 12 (txt "VOX " ++ le32 150 ++ txt "MAIN" ++ le32 0 ++ le32 (12 + n * 4 + 4) ++ txt "SIZE")); [reflexivity|lia]|].
  split; [apply (G 28%nat 0 (txt "VOX " ++ le32 150 ++ txt "MAIN" ++ le32 0 ++ le32 (12 + n * 4 + 4) ++ txt "SIZE" ++ le32 12)); [reflexivity|lia]|].
  split; [reflexivity|].
  set (p := txt "VOX " ++ le32 150 ++ txt "MAIN" ++ le32 0 ++ le32 (12 + n * 4 + 4) ++ txt "SIZE" ++ le32 12 ++ le32 0 ++ le32 mx ++ le32 my ++ le32 mz ++ txt "XYZI").
  split; [replace (4 * n + 4) with (n * 4 + 4) by lia; apply (G 48%nat (n * 4 + 4) p); [reflexivity|lia]|].
  split; [apply (G 52%nat 0 (p ++ le32 (n * 4 + 4))); [reflexivity|lia]|].
  split; [apply (D 56%nat (p ++ le32 (n * 4 + 4) ++ le32 0)); [reflexivity|]; rewrite app_length, L2; subst n; cbn; lia|].
  apply (G 56%nat n (p ++ le32 (n * 4 + 4) ++ le32 0)); [reflexivity|lia].
Qed.
Print Assumptions C40_chunk_sizes.

(** The sizes of MAIN never fit, those of XYZI only for the empty model. *)
Theorem C40_sizes_never_consistent (m : gset key) l1 l2 : Permutation l1 (elements m) -> Permutation l2 (elements m) ->
  let file := writeVOX l1 l2 in 4 * Z.of_nat (size m) + 16 < 2 ^ 31 ->
  i32_at 16 file <> Some (Z.of_nat (length (drop 20 file))) /\
  (i32_at 48 file = Some (Z.of_nat (length (drop 56 file))) <-> m = ∅).
Proof.
  intros H1 H2 file Hn. destruct (C40_chunk_sizes m l1 l2 H1 H2 Hn) as (_ & _ & _ & _ & A & B & _ & _ & _ & _ & C & _ & D & _).
  fold file in A, B, C, D. rewrite A, B, C, D. split.
  - intros [= H]. lia.
  - split.
    + intros [= H]. apply leibniz_equiv, size_empty_iff. lia.
    + intros ->. rewrite size_empty. reflexivity.
Qed.
Print Assumptions C40_sizes_never_consistent.

(** The SIZE chunk holds the largest coordinates, not the dimensions; each voxel of the model is one
    16-byte record. *)
Theorem C40_size_is_max (m : gset key) l1 l2 : Permutation l1 (elements m) -> Permutation l2 (elements m) -> m <> ∅ ->
  (forall k, k ∈ m -> in_grid (2 ^ 31) (2 ^ 31) (2 ^ 31) k) ->
  exists mx my mz, i32_at 32 (writeVOX l1 l2) = Some mx /\ i32_at 36 (writeVOX l1 l2) = Some my /\ i32_at 40 (writeVOX l1 l2) = Some mz /\
    (forall k, k ∈ m -> kx k <= mx /\ ky k <= my /\ kz k <= mz) /\
    (exists k, k ∈ m /\ kx k = mx) /\ (exists k, k ∈ m /\ ky k = my) /\ (exists k, k ∈ m /\ kz k = mz).
Proof.
  intros H1 H2 Hne Hg. pose proof (vox_max_spec l1 0 0 0) as Hm. unfold writeVOX. fold (vox_max l1) in Hm |- *.
  destruct (vox_max l1) as [[mx my] mz]. destruct Hm as (A1 & A2 & A3 & A4 & A5 & A6 & A7).
  assert (E : forall k, In k l1 <-> k ∈ m) by (intros k; rewrite <- elem_of_list_In, H1; apply elem_of_elements).
  apply set_choose_L in Hne as [k0 Hk0]. pose proof (A4 k0 (proj2 (E k0) Hk0)) as B. pose proof (Hg k0 Hk0) as B'. unfold in_grid, in_region in B'.
  assert (C1 : exists k, k ∈ m /\ kx k = mx).
  { destruct A5 as [A5|(v & Hv & A5)]; [exists k0; split; [exact Hk0|lia]|exists v; split; [apply E, Hv|exact A5]]. }
  assert (C2 : exists k, k ∈ m /\ ky k = my).
  { destruct A6 as [A6|(v & Hv & A6)]; [exists k0; split; [exact Hk0|lia]|exists v; split; [apply E, Hv|exact A6]]. }
  assert (C3 : exists k, k ∈ m /\ kz k = mz).
  { destruct A7 as [A7|(v & Hv & A7)]; [exists k0; split; [exact Hk0|lia]|exists v; split; [apply E, Hv|exact A7]]. }
  assert (D1 : mx < 2 ^ 31) by (destruct C1 as (k & Hk & <-); apply Hg in Hk; unfold in_grid, in_region in Hk; lia).
  assert (D2 : my < 2 ^ 31) by (destruct C2 as (k & Hk & <-); apply Hg in Hk; unfold in_grid, in_region in Hk; lia).
  assert (D3 : mz < 2 ^ 31) by (destruct C3 as (k & Hk & <-); apply Hg in Hk; unfold in_grid, in_region in Hk; lia).
  exists mx, my, mz. unfold vox_header, vox_chunk. repeat rewrite <- app_assoc.
  set (N := 12 + _ + 4).
  assert (G : forall off z pre rest, length pre = off -> - 2 ^ 31 <= z < 2 ^ 31 -> i32_at off (pre ++ le32 z ++ rest) = Some z).
  { intros off z pre rest Hl Hz. rewrite i32_at_app by exact Hl. apply le32_read, Hz. }
  set (p := txt "VOX " ++ le32 150 ++ txt "MAIN" ++ le32 0 ++ le32 N ++ txt "SIZE" ++ le32 12 ++ le32 0).
  split; [apply (G 32%nat mx p); [reflexivity|lia]|].
  split; [apply (G 36%nat my (p ++ le32 mx)); [reflexivity|lia]|].
  split; [apply (G 40%nat mz (p ++ le32 mx ++ le32 my)); [reflexivity|lia]|].
  split; [intros k Hk; apply A4, E, Hk|auto].
Qed.
Print Assumptions C40_size_is_max.

Lemma record_at l2 : forall pre i k, nth_error l2 i = Some k -> in_grid (2 ^ 31) (2 ^ 31) (2 ^ 31) k ->
  let file := pre ++ concat (map vox_voxel l2) in let o := (length pre + 16 * i)%nat in
  i32_at o file = Some (kx k) /\ i32_at (o + 4) file = Some (ky k) /\ i32_at (o + 8) file = Some (kz k) /\ i32_at (o + 12) file = Some 1.
Proof.
  induction l2 as [|v l IH]; intros pre i k Hi Hk; [destruct i; discriminate|]. cbn [map concat]. destruct i as [|i].
  - injection Hi as ->. cbv zeta. replace (length pre + 16 * 0)%nat with (length pre) by lia.
    unfold in_grid, in_region in Hk. unfold vox_voxel. repeat rewrite <- app_assoc.
    split; [rewrite i32_at_app by reflexivity; apply le32_read; lia|].
    split; [rewrite app_assoc, i32_at_app by (rewrite app_length; reflexivity); apply le32_read; lia|].
    split; [rewrite app_assoc, app_assoc, i32_at_app by (rewrite !app_length; cbn; lia); apply le32_read; lia|].
    rewrite app_assoc, app_assoc, app_assoc, i32_at_app by (rewrite !app_length; cbn; lia); apply le32_read; lia.
  - cbn in Hi. specialize (IH (pre ++ vox_voxel v) i k Hi Hk). cbv zeta in IH. rewrite app_length in IH. cbn [length vox_voxel le32 app] in IH.
    rewrite <- app_assoc in IH. cbv zeta. replace (length pre + 16 * S i)%nat with (length pre + 16 + 16 * i)%nat by lia. exact IH.
Qed.

Theorem C40_records (m : gset key) l1 l2 : Permutation l1 (elements m) -> Permutation l2 (elements m) ->
  (forall k, k ∈ m -> in_grid (2 ^ 31) (2 ^ 31) (2 ^ 31) k) ->
  forall k, k ∈ m <-> exists i, (i < size m)%nat /\ let o := (60 + 16 * i)%nat in let f := writeVOX l1 l2 in
    i32_at o f = Some (kx k) /\ i32_at (o + 4) f = Some (ky k) /\ i32_at (o + 8) f = Some (kz k) /\ i32_at (o + 12) f = Some 1.
Proof.
  intros H1 H2 Hg k.
  assert (Hf : exists pre, length pre = 60%nat /\ writeVOX l1 l2 = pre ++ concat (map vox_voxel l2)).
  { unfold writeVOX. destruct (vox_max l1) as [[mx my] mz]. unfold vox_header, vox_chunk.
    repeat rewrite app_assoc. eexists. split; [|reflexivity]. reflexivity. }
  destruct Hf as (pre & Hl & ->).
  assert (E : forall k, In k l2 <-> k ∈ m) by (intros j; rewrite <- elem_of_list_In, H2; apply elem_of_elements).
  assert (L : length l2 = size m) by (rewrite H2; reflexivity).
  split.
  - intros Hk. apply E in Hk as Hk'. apply In_nth_error in Hk' as (i & Hi). exists i. split.
    + rewrite <- L. apply nth_error_Some. congruence.
    + rewrite <- Hl. apply (record_at l2 pre i k Hi (Hg k Hk)).
  - intros (i & Hi & Hrec). rewrite <- L in Hi. destruct (nth_error l2 i) as [j|] eqn:Hj; [|apply nth_error_None in Hj; lia].
    assert (Hjm : j ∈ m) by (apply E; eapply nth_error_In; exact Hj).
    pose proof (record_at l2 pre i j Hj (Hg j Hjm)) as Hr. cbv zeta in Hr, Hrec. rewrite Hl in Hr.
    destruct Hr as (A & B & C & _), Hrec as (A' & B' & C' & _). rewrite A' in A. rewrite B' in B. rewrite C' in C.
    replace k with j; [exact Hjm|]. injection A as A. injection B as B. injection C as C.
    destruct k as [[k1 k2] k3], j as [[j1 j2] j3]. unfold kx, ky, kz in *. cbn [fst snd] in *. apply key_eq; congruence.
Qed.
Print Assumptions C40_records.

Example C40_ex : let m := {[(0,0,0); (2,1,0)]} : gset key in
  length (writeVOX (elements m) (elements m)) = 92%nat /\ i32_at 16 (writeVOX (elements m) (elements m)) = Some 24 /\ i32_at 32 (writeVOX (elements m) (elements m)) = Some 2.
Proof. vm_compute. repeat split. Qed.
