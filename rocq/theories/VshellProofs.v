(** From the characterisation of the Add loop to the shell specifications. *)
From Verif Require Import Base BaseLemmas BinvoxModel Geom VshellModel VshellSpec VshellBits VshellMerge.
From Coq Require Import ZArith QArith List Lia Bool.
From stdpp Require Import base list gmap sets fin_sets.
Import ListNotations.
Open Scope Z_scope.

Lemma in_keys (vs : list svox) k n : (k, n) ∈ vs -> k ∈ map fst vs.
Proof. intros H. apply elem_of_list_fmap. exists (k, n). auto. Qed.

Lemma keys_in (vs : list svox) k : k ∈ map fst vs -> exists n, (k, n) ∈ vs.
Proof. intros H. apply elem_of_list_fmap in H as ([k' n] & -> & H). exists n. exact H. Qed.

Lemma in_updated T vs k n : (k, n) ∈ map (updated T) vs ->
  exists n0, (k, n0) ∈ vs /\ n = snd (updated T (k, n0)).
Proof.
  intros H. apply elem_of_list_fmap in H as ([k' n'] & E & H).
  apply pair_equal_spec in E as [-> ->]. exists n'. split; [exact H|reflexivity].
Qed.

Lemma filter_keys_NoDup (P : svox -> Prop) `{!forall v, Decision (P v)} (l : list svox) :
  NoDup (map fst l) -> NoDup (map fst (filter P l)).
Proof.
  induction l as [|v l IH]; [intros; constructor|]. cbn [map]. rewrite NoDup_cons. intros [Hv Hl].
  rewrite filter_cons. destruct (decide (P v)); [|apply IH, Hl].
  cbn [map]. apply NoDup_cons. split; [|apply IH, Hl].
  intros Hin. apply Hv. apply elem_of_list_fmap in Hin as (w & E & Hw).
  apply elem_of_list_filter in Hw as [_ Hw]. apply elem_of_list_fmap. eauto.
Qed.

Lemma exact_is_sound M V : exact_shell M V -> sound_shell M V.
Proof.
  intros (Hnd & Hk & Hm). split; [exact Hnd|]. split; [intros k H; apply Hk, H|].
  split; [intros k H1 H2; apply Hk; auto|]. intros k n H. apply exact_sound, Hm, H.
Qed.

Lemma not_enclosed M k : ~ enclosed M k -> exists o, is_offset o /\ move k o ∉ M.
Proof.
  intros Hne.
  destruct (decide (Forall (fun o => move k o ∈ M) (filter (fun o => o <> (0, 0, 0)) offsets))) as [Hall|Hall].
  - exfalso. apply Hne. intros o Ho. rewrite Forall_forall in Hall. apply Hall.
    destruct Ho as (? & ? & ? & ?). apply elem_of_list_filter. split; [assumption|].
    eapply elem_of_list_lookup_2, offsets_lookup; assumption.
  - apply not_Forall_Exists in Hall; [|apply _].
    apply Exists_exists in Hall as (o & Hp & Hp'). cbn in Hp'. exists o. split; [|exact Hp'].
    apply elem_of_list_filter in Hp as [Hz Hp]. apply elem_of_list_lookup in Hp as [p Hp].
    apply offsets_range in Hp as (? & ? & ?). unfold is_offset. auto.
Qed.

Section Merge.
  Context (grow : nat -> nat) (cap : nat) (M L : gset key) (order : list key) (vs : list svox).
  Context (Hord : iterates order L).
  Context (Hdisj : forall k, k ∈ M -> k ∈ L -> False).

  Lemma touched_sound T k n :
    NoDup (map fst vs) ->
    (forall p, p ∈ T -> p ∈ touches L vs order) ->
    (k, n) ∈ vs -> sound_mask M k n -> sound_mask (M ∪ L) k (snd (updated T (k, n))).
  Proof.
    intros Hnd HT Hin [H0 Hs]. split; [apply updated_nonneg; exact H0|].
    intros i Hi. apply updated_bits in Hi as [Hi|(d & Hd & Hi)].
    - apply Hs in Hi as (o & Ho & E & Hm). exists o. rewrite elem_of_union. auto.
    - cbn [fst] in *. apply diffKeys_bits in Hi as (o & Ho & -> & ->). exists o.
      split; [exact Ho|]. split; [reflexivity|].
      apply HT, elem_touches in Hd as (Hd & _); [|exact Hnd].
      apply elem_of_union. right. apply Hord, Hd.
  Qed.

  Lemma sound_shell_keys_in :
    sound_shell M vs -> forall k o, is_offset o -> k ∈ L -> move k o ∈ M -> move k o ∈ map fst vs.
  Proof.
    intros (_ & _ & Hc & _) k o Ho Hk Hm. apply Hc; [exact Hm|].
    intros He. specialize (He (opposite o) (is_offset_opposite o Ho)). rewrite move_opposite in He.
    exact (Hdisj _ He Hk).
  Qed.

  (** New voxels get the exact mask, even when the old shell is only sound. *)
  Lemma fresh_exact k n :
    sound_shell M vs -> (k, n) ∈ appended L vs order ->
    exact_mask (M ∪ L) k n /\ k ∈ L /\ ~ enclosed (M ∪ L) k.
  Proof.
    intros Hs Hin. pose proof Hs as (Hnd & Hk & Hc & _).
    apply elem_appended in Hin as (Hko & He & Hne); [|exact Hnd].
    apply Hord in Hko.
    assert (HE : exact_mask (M ∪ L) k n).
    { destruct He as [H0 Hb]. split; [exact H0|]. intros i. rewrite Hb.
      split; intros (o & Ho & -> & Hm); exists o; (split; [exact Ho|]); (split; [reflexivity|]);
        apply elem_of_union in Hm as [Hm|Hm]; apply elem_of_union; auto.
      - left. apply elem_of_list_to_set, Hk in Hm. exact Hm.
      - right. apply elem_of_list_to_set.
        apply (sound_shell_keys_in Hs k o Ho Hko Hm). }
    split; [exact HE|]. split; [exact Hko|]. intros Hen. apply Hne.
    apply (exact_mask_all _ _ _ HE), Hen.
  Qed.

  Lemma fresh_complete k :
    sound_shell M vs -> k ∈ L -> ~ enclosed (M ∪ L) k -> k ∈ map fst (appended L vs order).
  Proof.
    intros Hs HkL Hen. pose proof Hs as (Hnd & Hk & Hc & _).
    destruct (findNeighbors L k (build_old vs)) as [n tc] eqn:Ef.
    apply (in_keys _ k n).
    unfold appended. apply elem_of_list_filter. cbn [snd]. split.
    - intros ->. apply Hen. apply findNeighbors_spec in Ef as [He _].
      pose proof (proj1 (exact_mask_all _ _ _ He) eq_refl) as Henc.
      intros o Ho. specialize (Henc o Ho). rewrite elem_of_union, elem_of_dom, build_old_dom in Henc by exact Hnd.
      apply elem_of_union. destruct Henc as [|H]; [auto|]. apply Hk in H. auto.
    - apply elem_of_list_fmap. exists k. rewrite Ef. split; [reflexivity|]. apply Hord, HkL.
  Qed.

  Lemma keys_app_NoDup T0 :
    NoDup (map fst vs) -> (forall k, k ∈ map fst vs -> k ∈ M) ->
    NoDup (map fst (map (updated T0) vs ++ appended L vs order)).
  Proof.
    intros Hnd Hk. rewrite map_app, map_updated_fst. apply NoDup_app. split; [exact Hnd|].
    split; [|apply fresh_keys_NoDup, Hord].
    intros k Hin Hin'. apply keys_in in Hin' as [n Hin'].
    apply elem_appended in Hin' as (Ho & _); [|exact Hnd]. apply Hord in Ho. apply Hk in Hin.
    exact (Hdisj _ Hin Ho).
  Qed.

  (** In the result: a voxel of the old shell, with a mask that kept its bits and grew soundly, or a
      new voxel with its exact mask. *)
  Lemma add_voxels_sound :
    sound_shell M vs ->
    exists vs', add_voxels grow cap L order vs = Some vs' /\ sound_shell (M ∪ L) vs' /\
      (forall k n, (k, n) ∈ vs' -> k ∈ L -> exact_mask (M ∪ L) k n) /\
      (forall k n, (k, n) ∈ vs' -> k ∈ M -> exists n0, (k, n0) ∈ vs /\
          forall i, Z.testbit n0 i = true -> Z.testbit n i = true).
  Proof.
    intros Hs. pose proof Hs as (Hnd & Hk & Hc & Hm).
    destruct (add_voxels_spec grow cap L order vs Hnd (proj1 Hord)) as (T0 & T1 & R & HT & _ & HR & ->).
    eexists. split; [reflexivity|].
    assert (HT0 : forall p, p ∈ T0 -> p ∈ touches L vs order).
    { intros p Hp. rewrite HT. apply elem_of_app. auto. }
    assert (HRs : forall ck, ck ∈ R -> enclosed (M ∪ L) ck).
    { intros ck Hck. apply HR in Hck as (d & n & _ & Hn & Ha).
      apply sound_mask_all. rewrite <- Ha. apply touched_sound; auto. }
    split; [|split].
    - split; [|split; [|split]].
      + apply filter_keys_NoDup, keys_app_NoDup; assumption.
      + intros k Hin. apply keys_in in Hin as [n Hin].
        apply elem_of_list_filter in Hin as [_ Hin].
        apply elem_of_union. apply elem_of_app in Hin as [Hin|Hin].
        * apply in_updated in Hin as (n0 & Hin & _).
          left. apply Hk. eapply in_keys, Hin.
        * apply elem_appended in Hin as (Ho & _); [|exact Hnd]. apply Hord in Ho. auto.
      + intros k Hin Hen.
        assert (Hnr : k ∉ R) by (intros H; apply Hen, HRs, H).
        destruct (decide (k ∈ L)) as [HkL|HkL].
        * pose proof (fresh_complete k Hs HkL Hen) as Hf.
          apply keys_in in Hf as [n Hf]. apply (in_keys _ k n).
          apply elem_of_list_filter. split; [exact Hnr|].
          apply elem_of_app. auto.
        * assert (HkM : k ∈ M) by (apply elem_of_union in Hin as [|]; [assumption|contradiction]).
          assert (Hkv : k ∈ map fst vs).
          { apply Hc; [exact HkM|]. intros He. apply Hen. intros o Ho. apply elem_of_union. left. apply He, Ho. }
          apply keys_in in Hkv as [n Hv]. apply elem_of_list_fmap. exists (updated T0 (k, n)).
          split; [reflexivity|]. apply elem_of_list_filter. split; [exact Hnr|].
          apply elem_of_app. left. apply elem_of_list_fmap. eauto.
      + intros k n Hin. apply elem_of_list_filter in Hin as [_ Hin].
        apply elem_of_app in Hin as [Hin|Hin].
        * apply in_updated in Hin as (n0 & Hin & ->).
          exact (touched_sound T0 k n0 Hnd HT0 Hin (Hm _ _ Hin)).
        * apply exact_sound. apply (fresh_exact k n Hs Hin).
    - intros k n Hin HkL. apply elem_of_list_filter in Hin as [_ Hin].
      apply elem_of_app in Hin as [Hin|Hin].
      + exfalso. apply in_updated in Hin as (n0 & Hin & _).
        apply (Hdisj k); [apply Hk; eapply in_keys, Hin|exact HkL].
      + apply (fresh_exact k n Hs Hin).
    - intros k n Hin HkM. apply elem_of_list_filter in Hin as [_ Hin].
      apply elem_of_app in Hin as [Hin|Hin].
      + apply in_updated in Hin as (n0 & Hin & ->). exists n0. split; [exact Hin|]. intros i Hi.
        apply updated_bits. left. exact Hi.
      + exfalso. apply elem_appended in Hin as (Ho & _); [|exact Hnd]. apply Hord in Ho.
        exact (Hdisj k HkM Ho).
  Qed.

  (** Old masks after all updates are exact. *)
  Lemma touched_exact k n :
    exact_shell M vs -> (k, n) ∈ vs ->
    exact_mask (M ∪ L) k (snd (updated (touches L vs order) (k, n))).
  Proof.
    intros (Hnd & Hk & Hm) Hin. pose proof (Hm _ _ Hin) as [H0 He].
    assert (HkM : k ∈ M) by (apply Hk; eapply in_keys, Hin).
    split; [apply updated_nonneg; exact H0|].
    intros i. rewrite updated_bits. cbn [fst snd]. split.
    - intros [Hi|(d & Hd & Hi)].
      + apply He in Hi as (o & Ho & -> & Hi). exists o. rewrite elem_of_union. auto.
      + apply diffKeys_bits in Hi as (o & Ho & -> & ->). exists o. split; [exact Ho|]. split; [reflexivity|].
        apply elem_touches in Hd as (Hd & _); [|exact Hnd]. apply elem_of_union. right. apply Hord, Hd.
    - intros (o & Ho & -> & Hi). apply elem_of_union in Hi as [Hi|Hi].
      + left. apply He. eauto.
      + right. exists (move k o). split.
        * apply elem_touches; [exact Hnd|]. split; [apply Hord, Hi|]. split; [exact (Hdisj k HkM)|].
          split; [eapply in_keys, Hin|]. exists o. auto.
        * apply diffKeys_bits. exists o. auto.
  Qed.

  (** The set of voxels kept is exact whatever the slice capacity. *)
  Lemma add_voxels_keys_exact vs' :
    exact_shell M vs -> add_voxels grow cap L order vs = Some vs' ->
    forall k, k ∈ map fst vs' <-> k ∈ M ∪ L /\ ~ enclosed (M ∪ L) k.
  Proof.
    intros He E k. pose proof (exact_is_sound M vs He) as Hs.
    destruct (add_voxels_sound Hs) as (vs'' & E' & (_ & Hin & Hcomp & _) & _ & _).
    rewrite E in E'. injection E' as <-. split; [|intros [H1 H2]; apply Hcomp; assumption].
    intros Hk. split; [apply Hin, Hk|]. intros Hen.
    pose proof He as (Hnd & Hkv & Hm).
    destruct (add_voxels_spec grow cap L order vs Hnd (proj1 Hord)) as (T0 & T1 & R & HT & _ & HR & E2).
    rewrite E in E2. injection E2 as ->.
    apply keys_in in Hk as [n Hk]. apply elem_of_list_filter in Hk as [HnR Hk]. cbn [fst] in HnR.
    apply elem_of_app in Hk as [Hk|Hk].
    - apply in_updated in Hk as (n' & Hk & _).
      apply HnR. apply HR.
      assert (Hne : k ∈ M /\ ~ enclosed M k) by (apply Hkv; eapply in_keys, Hk).
      destruct Hne as [HkM Hne].
      destruct (not_enclosed _ _ Hne) as (o & Ho & Hno).
      exists (move k o), n'. split; [|split; [exact Hk|]].
      + apply elem_touches; [exact Hnd|]. pose proof (Hen o Ho) as Hu.
        apply elem_of_union in Hu as [Hu|Hu]; [contradiction|].
        split; [apply Hord, Hu|]. split; [exact (Hdisj k HkM)|].
        split; [eapply in_keys, Hk|]. exists o. auto.
      + eapply exact_mask_all; [|exact Hen]. apply touched_exact; assumption.
    - apply fresh_exact in Hk as (_ & _ & Hc); [contradiction|exact Hs].
  Qed.

  (** With enough room in the slice everything is exact. *)
  Lemma add_voxels_exact :
    exact_shell M vs -> (length vs + length order <= cap)%nat \/ vs = [] ->
    exists vs', add_voxels grow cap L order vs = Some vs' /\ exact_shell (M ∪ L) vs'.
  Proof.
    intros He Hcap. pose proof (exact_is_sound M vs He) as Hs.
    destruct (add_voxels_sound Hs) as (vs' & E & (Hnd' & _) & Hnew & _).
    exists vs'. split; [exact E|]. split; [exact Hnd'|].
    split; [apply (add_voxels_keys_exact vs' He E)|].
    intros k n Hin.
    pose proof He as (Hnd & Hkv & Hm).
    destruct (add_voxels_spec grow cap L order vs Hnd (proj1 Hord)) as (T0 & T1 & R & HT & Hc & HR & E2).
    rewrite E in E2. injection E2 as ->.
    apply elem_of_list_filter in Hin as [_ Hin]. apply elem_of_app in Hin as [Hin|Hin].
    - destruct Hcap as [Hcap| ->]; [|inversion Hin].
      rewrite (Hc Hcap), app_nil_r in HT. subst T0.
      apply in_updated in Hin as (n' & Hin & ->).
      exact (touched_exact k n' He Hin).
    - apply (fresh_exact k n Hs Hin).
  Qed.
End Merge.

(** Two exact shells of the same model hold the same voxels. *)
Lemma exact_shell_unique M vs vs' : exact_shell M vs -> exact_shell M vs' -> vs ≡ₚ vs'.
Proof.
  intros (Hnd & Hk & Hm) (Hnd' & Hk' & Hm').
  apply NoDup_Permutation.
  - apply NoDup_fmap_1 in Hnd. exact Hnd.
  - apply NoDup_fmap_1 in Hnd'. exact Hnd'.
  - assert (G : forall V V' : list svox,
      (forall k, k ∈ map fst V <-> k ∈ M /\ ~ enclosed M k) -> (forall k n, (k, n) ∈ V -> exact_mask M k n) ->
      (forall k, k ∈ map fst V' <-> k ∈ M /\ ~ enclosed M k) -> (forall k n, (k, n) ∈ V' -> exact_mask M k n) ->
      forall v, v ∈ V -> v ∈ V').
    { intros V V' H1 H2 H3 H4 [k n] Hv.
      assert (Hkk : k ∈ map fst V') by (apply H3, H1; eapply in_keys, Hv).
      apply keys_in in Hkk as [n' Hin].
      replace n with n'; [exact Hin|]. eapply exact_mask_unique; eauto. }
    intros v. split; apply G; assumption.
Qed.

(** A non-empty finite model has a non-empty shell. *)
Lemma sound_shell_nil M : sound_shell M [] -> M = ∅.
Proof.
  intros (_ & _ & Hc & _).
  destruct (decide (M = ∅)) as [|Hne]; [assumption|]. exfalso.
  assert (Hmax : exists k, k ∈ M /\ forall k', k' ∈ M -> kx k' <= kx k).
  { clear Hc. revert Hne. induction M as [|k M Hk IH] using set_ind_L; [done|]. intros _.
    destruct (decide (M = ∅)) as [-> |HM].
    - exists k. split; [set_solver|]. intros k' H. assert (k' = k) by set_solver. subst. lia.
    - destruct (IH HM) as (m & Hm & Hmx).
      destruct (decide (kx m <= kx k)).
      + exists k. split; [set_solver|]. intros k' H. apply elem_of_union in H as [H|H].
        * apply elem_of_singleton in H. subst. lia.
        * apply Hmx in H. lia.
      + exists m. split; [set_solver|]. intros k' H. apply elem_of_union in H as [H|H].
        * apply elem_of_singleton in H. subst. lia.
        * apply Hmx in H. lia. }
  destruct Hmax as (k & Hk & Hmx).
  assert (Hin : k ∈ map fst ([] : list svox)).
  { apply Hc; [exact Hk|]. intros He.
    assert (Ho : is_offset (1, 0, 0)) by (unfold is_offset, kx, ky, kz; cbn; split; [lia|]; split; [lia|]; split; [lia|congruence]).
    apply He, Hmx in Ho. unfold move, kx in Ho. cbn in Ho. lia. }
  inversion Hin.
Qed.

Lemma sound_shell_empty_iff M vs : sound_shell M vs -> (vs = [] <-> M = ∅).
Proof.
  intros Hs. split.
  - intros ->. apply sound_shell_nil, Hs.
  - intros ->. destruct Hs as (_ & Hk & _). destruct vs as [|v vs]; [reflexivity|].
    exfalso. specialize (Hk (fst v) ltac:(left)). exact (not_elem_of_empty _ Hk).
Qed.

(** ** Moving a whole shell *)

Lemma move_add k d o : move (move k d) o = move (move k o) d.
Proof. destruct k as [[a b] c], d as [[x y] z], o as [[u v] w]. unfold move, kx, ky, kz. cbn. apply key_eq; lia. Qed.

Lemma move_inj k k' d : move k d = move k' d -> k = k'.
Proof.
  destruct k as [[a b] c], d as [[x y] z], k' as [[a' b'] c']. unfold move, kx, ky, kz. cbn.
  intros [= E1 E2 E3]. apply key_eq; lia.
Qed.

Lemma elem_displaced M d k : move k d ∈ displaced M d <-> k ∈ M.
Proof.
  unfold displaced. rewrite elem_of_map. split.
  - intros (k' & E & H). apply move_inj in E. subst. exact H.
  - intros H. exists k. auto.
Qed.

Lemma displaced_inv M d k : k ∈ displaced M d -> exists k0, k = move k0 d /\ k0 ∈ M.
Proof. unfold displaced. rewrite elem_of_map. intros (k' & E & H). eauto. Qed.

Lemma enclosed_displaced M d k : enclosed (displaced M d) (move k d) <-> enclosed M k.
Proof.
  split; intros H o Ho; specialize (H o Ho).
  - rewrite move_add in H. apply elem_displaced in H. exact H.
  - rewrite move_add. apply elem_displaced, H.
Qed.

Definition displaced_voxels (vs : list svox) (d : key) : list svox :=
  map (fun w => (add_key (fst w) d, snd w)) vs.

Lemma displaced_sound_mask M d k n : sound_mask M k n -> sound_mask (displaced M d) (move k d) n.
Proof.
  intros [H0 H]. split; [exact H0|]. intros i Hi. apply H in Hi as (o & Ho & E & Hm).
  exists o. split; [exact Ho|]. split; [exact E|]. rewrite move_add. apply elem_displaced, Hm.
Qed.

Lemma displaced_exact_mask M d k n : exact_mask M k n -> exact_mask (displaced M d) (move k d) n.
Proof.
  intros [H0 H]. split; [exact H0|]. intros i. rewrite H. split.
  - intros (o & Ho & E & Hm). exists o. split; [exact Ho|]. split; [exact E|]. rewrite move_add. apply elem_displaced, Hm.
  - intros (o & Ho & E & Hm). exists o. split; [exact Ho|]. split; [exact E|]. rewrite move_add in Hm.
    apply elem_displaced in Hm. exact Hm.
Qed.

Lemma displaced_keys vs d k : k ∈ map fst (displaced_voxels vs d) <-> exists k0, k = move k0 d /\ k0 ∈ map fst vs.
Proof.
  unfold displaced_voxels. rewrite map_map. cbn. split.
  - intros H. apply elem_of_list_fmap in H as (w & -> & H). exists (fst w).
    split; [reflexivity|]. apply elem_of_list_fmap. eauto.
  - intros (k0 & -> & H). apply elem_of_list_fmap in H as (w & -> & H).
    apply elem_of_list_fmap. exists w. auto.
Qed.

Lemma displaced_NoDup vs d : NoDup (map fst vs) -> NoDup (map fst (displaced_voxels vs d)).
Proof.
  intros H. unfold displaced_voxels. rewrite map_map. cbn.
  replace (map (fun x : svox => add_key (fst x) d) vs) with ((fun k => move k d) <$> map fst vs)
    by (symmetry; rewrite <- (map_map fst (fun k => move k d)); reflexivity).
  apply NoDup_fmap_2_strong; [|exact H]. intros x y _ _ E. eapply move_inj, E.
Qed.

Lemma displaced_in vs d k n : (k, n) ∈ displaced_voxels vs d -> exists k0, k = move k0 d /\ (k0, n) ∈ vs.
Proof.
  intros H. apply elem_of_list_fmap in H as ([k0 n0] & E & H). apply pair_equal_spec in E as [-> ->].
  exists k0. auto.
Qed.

Lemma displaced_sound_shell M vs d : sound_shell M vs -> sound_shell (displaced M d) (displaced_voxels vs d).
Proof.
  intros (Hnd & Hk & Hc & Hm). split; [apply displaced_NoDup, Hnd|]. split; [|split].
  - intros k H. apply displaced_keys in H as (k0 & -> & H). apply elem_displaced, Hk, H.
  - intros k H He. apply displaced_inv in H as (k0 & -> & H). apply displaced_keys. exists k0.
    split; [reflexivity|]. apply Hc; [exact H|]. intros H1. apply He, enclosed_displaced, H1.
  - intros k n H. apply displaced_in in H as (k0 & -> & H). apply displaced_sound_mask, Hm, H.
Qed.

Lemma displaced_exact_shell M vs d : exact_shell M vs -> exact_shell (displaced M d) (displaced_voxels vs d).
Proof.
  intros (Hnd & Hk & Hm). split; [apply displaced_NoDup, Hnd|]. split.
  - intros k. rewrite displaced_keys. split.
    + intros (k0 & -> & H). apply Hk in H as [H1 H2]. split; [apply elem_displaced, H1|].
      rewrite enclosed_displaced. exact H2.
    + intros [H1 H2]. apply displaced_inv in H1 as (k0 & -> & H1). exists k0. split; [reflexivity|].
      apply Hk. split; [exact H1|]. intros H. apply H2, enclosed_displaced, H.
  - intros k n H. apply displaced_in in H as (k0 & -> & H). apply displaced_exact_mask, Hm, H.
Qed.

Lemma move_zero k : move k (0, 0, 0) = k.
Proof. destruct k as [[a b] c]. unfold move, kx, ky, kz. cbn. apply key_eq; lia. Qed.

Lemma displaced_zero M : displaced M (0, 0, 0) = M.
Proof.
  apply set_eq. intros k. rewrite <- (move_zero k) at 1. apply elem_displaced.
Qed.

Lemma displaced_union M N d : displaced (M ∪ N) d = displaced M d ∪ displaced N d.
Proof. unfold displaced. apply set_map_union_L. Qed.
