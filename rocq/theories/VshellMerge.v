(** What Add computes, for every iteration order, slice capacity and growth policy. *)
From Verif Require Import Base BaseLemmas BinvoxModel Geom VshellModel VshellSpec VshellBits.
From Coq Require Import ZArith QArith List Lia Bool.
From stdpp Require Import base list gmap sets fin_sets.
Import ListNotations.
Open Scope Z_scope.

(** ** build_old *)

Lemma build_old_gen (vs : list svox) (f : nat -> nat) (m : gmap key nat) k :
  NoDup (map fst vs) ->
  fold_left (fun m iv => <[fst (snd iv) := fst iv]> m) (imap (fun i v => (f i, v)) vs) m !! k =
  match list_find (fun v => fst v = k) vs with
  | Some (i, _) => Some (f i)
  | None => m !! k
  end.
Proof.
  revert f m. induction vs as [|v vs IH]; intros f m Hnd; [reflexivity|].
  cbn [map] in Hnd. apply NoDup_cons in Hnd as [Hv Hnd].
  rewrite imap_cons. cbn [fold_left fst snd].
  change (imap ((λ (i : nat) v0, (f i, v0)) ∘ S) vs) with (imap (λ (i : nat) v0, ((f ∘ S) i, v0)) vs).
  rewrite (IH (f ∘ S)) by exact Hnd. cbn [list_find].
  destruct (decide (fst v = k)) as [E|E].
  - destruct (list_find (fun v0 => fst v0 = k) vs) as [[i w]|] eqn:El.
    + apply list_find_Some in El as (Hi & Hk & _). subst k. exfalso. apply Hv.
      apply elem_of_list_fmap. exists w. split; [congruence|]. eapply elem_of_list_lookup_2, Hi.
    + subst k. apply lookup_insert.
  - destruct (list_find (fun v0 => fst v0 = k) vs) as [[i w]|]; cbn; [reflexivity|].
    apply lookup_insert_ne, E.
Qed.

Lemma build_old_lookup vs k i :
  NoDup (map fst vs) ->
  build_old vs !! k = Some i <-> exists n, vs !! i = Some (k, n).
Proof.
  intros Hnd. unfold build_old.
  rewrite (build_old_gen vs (fun i => i) ∅ k Hnd), lookup_empty.
  destruct (list_find (fun v => fst v = k) vs) as [[j w]|] eqn:El.
  - apply list_find_Some in El as (Hj & Hk & _). cbn in Hk. subst k.
    split.
    + intros [= <-]. exists (snd w). rewrite Hj. destruct w; reflexivity.
    + intros [n Hn]. f_equal.
      eapply (NoDup_lookup (map fst vs)); [exact Hnd| |].
      * rewrite list_lookup_fmap, Hj. reflexivity.
      * rewrite list_lookup_fmap, Hn. reflexivity.
  - split; [discriminate|]. intros [n Hn]. apply list_find_None in El.
    rewrite Forall_forall in El. exfalso. apply (El (k, n)); [|reflexivity].
    eapply elem_of_list_lookup_2, Hn.
Qed.

Lemma build_old_dom vs k : NoDup (map fst vs) -> is_Some (build_old vs !! k) <-> k ∈ map fst vs.
Proof.
  intros Hnd. split.
  - intros [i Hi]. apply build_old_lookup in Hi as [n Hn]; [|exact Hnd].
    apply elem_of_list_fmap. exists (k, n). split; [reflexivity|]. eapply elem_of_list_lookup_2, Hn.
  - intros Hk. apply elem_of_list_fmap in Hk as ([k' n] & -> & Hin).
    apply elem_of_list_lookup in Hin as [i Hi]. exists i. apply build_old_lookup; [exact Hnd|].
    exists n. exact Hi.
Qed.

(** ** Mask updates *)

(** The voxel [v] after the updates [T]: pairs (old key, new key). *)
Definition updated (T : list (key * key)) (v : svox) : svox :=
  (fst v, fold_left (fun n p => if decide (fst p = fst v) then Z.lor n (diffKeys (fst p) (snd p)) else n)
            T (snd v)).

Lemma updated_snoc T p v :
  updated (T ++ [p]) v =
  (fst v, if decide (fst p = fst v) then Z.lor (snd (updated T v)) (diffKeys (fst p) (snd p))
          else snd (updated T v)).
Proof. unfold updated. rewrite fold_left_app. reflexivity. Qed.

Lemma updated_bits T v i :
  Z.testbit (snd (updated T v)) i = true <->
  Z.testbit (snd v) i = true \/ exists d, (fst v, d) ∈ T /\ Z.testbit (diffKeys (fst v) d) i = true.
Proof.
  induction T as [|p T IH] using rev_ind.
  - cbn. split; [auto|]. intros [|(d & H & _)]; [assumption|inversion H].
  - rewrite updated_snoc. cbn [snd]. destruct p as [ck d]. cbn [fst snd].
    destruct (decide (ck = fst v)) as [E|E].
    + rewrite Z.lor_spec, orb_true_iff, IH. subst ck. split.
      * intros [[H|(d' & H & H')]|H]; [auto| |].
        -- right. exists d'. rewrite elem_of_app. auto.
        -- right. exists d. rewrite elem_of_app, elem_of_list_singleton. auto.
      * intros [H|(d' & H & H')]; [auto|].
        apply elem_of_app in H as [H|H]; [left; right; exists d'; auto|].
        apply elem_of_list_singleton in H. injection H as ->. auto.
    + rewrite IH. split.
      * intros [|(d' & H & H')]; [auto|]. right. exists d'. rewrite elem_of_app. auto.
      * intros [|(d' & H & H')]; [auto|]. right. exists d'.
        apply elem_of_app in H as [H|H]; [auto|].
        apply elem_of_list_singleton in H. injection H as Hk _. congruence.
Qed.

Lemma diffKeys_bits k d i :
  Z.testbit (diffKeys k d) i = true <-> exists o, is_offset o /\ d = move k o /\ i = offset_bit o.
Proof.
  split.
  - intros H.
    assert (Hd : {o | is_offset o /\ d = move k o} + {forall o, is_offset o -> d <> move k o}).
    { destruct d as [[a b] c], k as [[a' b'] c'].
      pose (o := (a - a', b - b', c - c') : key).
      assert (Hdec : {is_offset o} + {~ is_offset o}).
      { unfold is_offset.
        destruct (decide (-1 <= kx o <= 1)); [|right; tauto].
        destruct (decide (-1 <= ky o <= 1)); [|right; tauto].
        destruct (decide (-1 <= kz o <= 1)); [|right; tauto].
        destruct (decide (o = (0,0,0))); [right; tauto|left; tauto]. }
      destruct Hdec as [Ho|Ho].
      - left. exists o. split; [exact Ho|]. unfold o, move, kx, ky, kz; cbn. apply key_eq; lia.
      - right. intros o' Ho' E. apply Ho. replace o with o'; [exact Ho'|].
        destruct o' as [[x y] z]. unfold o, move, kx, ky, kz in *; cbn in E.
        injection E as E1 E2 E3. apply key_eq; lia. }
    destruct Hd as [(o & Ho & ->)|Hfar].
    + exists o. split; [exact Ho|]. split; [reflexivity|].
      rewrite diffKeys_move in H by exact Ho.
      destruct (Z.lt_decidable i 0) as [Hi|Hi]; [rewrite Z.testbit_neg_r in H by exact Hi; discriminate|].
      rewrite Z.pow2_bits_eqb in H by (apply offset_bit_range; exact Ho).
      apply Z.eqb_eq in H. auto.
    + rewrite diffKeys_far in H by exact Hfar. rewrite Z.testbit_0_l in H. discriminate.
  - intros (o & Ho & -> & ->). rewrite diffKeys_move by exact Ho.
    apply Z.pow2_bits_true, offset_bit_range, Ho.
Qed.

Lemma lor_all_diff k d : Z.lor allNeighbors (diffKeys k d) = allNeighbors.
Proof.
  apply Z.bits_inj. intros i. rewrite Z.lor_spec.
  destruct (Z.testbit (diffKeys k d) i) eqn:E; [|apply orb_false_r].
  apply diffKeys_bits in E as (o & Ho & _ & ->).
  rewrite orb_true_r. symmetry. apply testbit_all, offset_bit_range, Ho.
Qed.

Lemma diffKeys_nonneg k d : 0 <= diffKeys k d.
Proof.
  unfold diffKeys.
  repeat match goal with |- context [if ?b then _ else _] => destruct b end; try lia;
  vm_compute; discriminate.
Qed.

Lemma updated_nonneg T v : 0 <= snd v -> 0 <= snd (updated T v).
Proof.
  intros H. induction T as [|p T IH] using rev_ind; [exact H|].
  rewrite updated_snoc. cbn [snd]. destruct (decide _); [|exact IH].
  apply Z.lor_nonneg. split; [exact IH|apply diffKeys_nonneg].
Qed.

Lemma updated_fst T v : fst (updated T v) = fst v.
Proof. reflexivity. Qed.

Lemma map_updated_fst T vs : map fst (map (updated T) vs) = map fst vs.
Proof. rewrite map_map. apply map_ext. reflexivity. Qed.

Lemma poke_updated T vs i ck d n :
  NoDup (map fst vs) -> vs !! i = Some (ck, n) ->
  alter (fun v => (fst v, Z.lor (snd v) (diffKeys ck d))) i (map (updated T) vs)
  = map (updated (T ++ [(ck, d)])) vs.
Proof.
  intros Hnd Hi. apply list_eq. intros j.
  destruct (decide (i = j)) as [<-|Hne].
  - rewrite list_lookup_alter, !list_lookup_fmap, Hi. cbn [fmap option_fmap option_map].
    rewrite updated_snoc. cbn [fst snd]. rewrite decide_True by reflexivity. reflexivity.
  - rewrite list_lookup_alter_ne by exact Hne. rewrite !list_lookup_fmap.
    destruct (vs !! j) as [w|] eqn:Hj; [|reflexivity]. cbn. f_equal.
    rewrite updated_snoc. cbn [fst snd].
    rewrite decide_False; [reflexivity|]. intros E. apply Hne.
    eapply (NoDup_lookup (map fst vs)); [exact Hnd| |].
    + rewrite list_lookup_fmap, Hi. reflexivity.
    + rewrite list_lookup_fmap, Hj. cbn. congruence.
Qed.

(** ** The loop invariant *)

Definition inv (vs : list svox) (cap : nat) (T : list (key * key)) (B : list svox) (st : add_state) : Prop :=
  let '(c, R) := st in
  c_old c = map (updated T) vs /\
  (exists T0 T1, T = T0 ++ T1 /\ c_cur c = map (updated T0) vs ++ B /\ (c_shared c = true -> T1 = [])) /\
  (forall ck, ck ∈ R <-> exists d n, (ck, d) ∈ T /\ (ck, n) ∈ vs /\ snd (updated T (ck, n)) = allNeighbors) /\
  ((length vs + length B <= cap)%nat -> c_shared c = true /\ c_cap c = cap).

Lemma alter_app_l {A} (f : A -> A) i l1 l2 :
  (i < length l1)%nat -> alter f i (l1 ++ l2) = alter f i l1 ++ l2.
Proof.
  revert i. induction l1 as [|x l1 IH]; intros i Hi; cbn [length] in Hi; [lia|].
  destruct i as [|i]; [reflexivity|].
  change (x :: alter f i (l1 ++ l2) = x :: alter f i l1 ++ l2).
  rewrite IH by lia. reflexivity.
Qed.

Lemma touch_inv vs cap T B st k ck :
  NoDup (map fst vs) -> ck ∈ map fst vs ->
  inv vs cap T B st -> inv vs cap (T ++ [(ck, k)]) B (touch (build_old vs) k st ck).
Proof.
  intros Hnd Hck. destruct st as [c R]. intros (Hold & (T0 & T1 & HT & Hcur & Hsh) & HR & Hcap).
  destruct (proj2 (build_old_dom vs ck Hnd) Hck) as [i Hi].
  unfold touch. rewrite Hi.
  pose proof Hi as Hi2. apply build_old_lookup in Hi2 as [n Hn]; [|exact Hnd].
  set (c' := poke i _ c).
  assert (Hold' : c_old c' = map (updated (T ++ [(ck, k)])) vs).
  { unfold c', poke. cbn [c_old]. rewrite Hold. eapply poke_updated; eauto. }
  assert (Hcur' : exists T0' T1', T ++ [(ck, k)] = T0' ++ T1' /\ c_cur c' = map (updated T0') vs ++ B /\
                    (c_shared c' = true -> T1' = [])).
  { unfold c', poke. cbn [c_cur c_shared]. destruct (c_shared c) eqn:Es.
    - specialize (Hsh eq_refl). subst T1. rewrite app_nil_r in HT. subst T0.
      exists (T ++ [(ck, k)]), []. split; [symmetry; apply app_nil_r|]. split; [|reflexivity].
      rewrite Hcur. rewrite alter_app_l.
      + f_equal. eapply poke_updated; eauto.
      + rewrite map_length. eapply lookup_lt_Some, Hn.
    - exists T0, (T1 ++ [(ck, k)]). split; [rewrite HT; symmetry; apply app_assoc|].
      split; [exact Hcur|discriminate]. }
  assert (Hcap' : (length vs + length B <= cap)%nat -> c_shared c' = true /\ c_cap c' = cap).
  { intros H. apply Hcap in H. exact H. }
  rewrite Hold'. rewrite list_lookup_fmap, Hn. cbn [fmap option_fmap option_map].
  assert (Huniq : forall n', (ck, n') ∈ vs -> n' = n).
  { intros n' Hin. apply elem_of_list_lookup in Hin as [j Hj].
    assert (j = i).
    { eapply (NoDup_lookup (map fst vs)); [exact Hnd| |]; rewrite list_lookup_fmap.
      - rewrite Hj. reflexivity.
      - rewrite Hn. reflexivity. }
    subst j. congruence. }
  assert (Hinn : (ck, n) ∈ vs) by (eapply elem_of_list_lookup_2, Hn).
  assert (Hmono : forall x m, snd (updated T (x, m)) = allNeighbors ->
                    snd (updated (T ++ [(ck, k)]) (x, m)) = allNeighbors).
  { intros x m H. rewrite updated_snoc. cbn [snd fst]. destruct (decide _); [|exact H].
    rewrite H. apply lor_all_diff. }
  destruct (Z.eqb_spec (snd (updated (T ++ [(ck, k)]) (ck, n))) allNeighbors) as [E|E].
  - split; [exact Hold'|]. split; [exact Hcur'|]. split; [|exact Hcap'].
    intros x. rewrite elem_of_union, elem_of_singleton, HR. split.
    + intros [-> | (d & m & Hd & Hm & Ha)].
      * exists k, n. rewrite elem_of_app, elem_of_list_singleton. auto.
      * exists d, m. rewrite elem_of_app. auto.
    + intros (d & m & Hd & Hm & Ha).
      destruct (decide (x = ck)) as [|Hx]; [auto|]. right. exists d, m.
      apply elem_of_app in Hd as [Hd|Hd];
        [|apply elem_of_list_singleton in Hd; injection Hd as ? _; congruence].
      split; [exact Hd|]. split; [exact Hm|].
      rewrite updated_snoc in Ha. cbn [fst snd] in Ha.
      rewrite decide_False in Ha by congruence. exact Ha.
  - split; [exact Hold'|]. split; [exact Hcur'|]. split; [|exact Hcap'].
    intros x. rewrite HR. split.
    + intros (d & m & Hd & Hm & Ha). exists d, m. rewrite elem_of_app. auto.
    + intros (d & m & Hd & Hm & Ha).
      destruct (decide (x = ck)) as [-> |Hx].
      * rewrite (Huniq m Hm) in Ha. congruence.
      * exists d, m.
        apply elem_of_app in Hd as [Hd|Hd];
          [|apply elem_of_list_singleton in Hd; injection Hd as ? _; congruence].
        split; [exact Hd|]. split; [exact Hm|].
        rewrite updated_snoc in Ha. cbn [fst snd] in Ha.
        rewrite decide_False in Ha by congruence. exact Ha.
Qed.

Lemma touch_fold_inv vs cap k cks : NoDup (map fst vs) -> forall T B st,
  (forall ck, ck ∈ cks -> ck ∈ map fst vs) ->
  inv vs cap T B st ->
  inv vs cap (T ++ map (fun ck => (ck, k)) cks) B (fold_left (touch (build_old vs) k) cks st).
Proof.
  intros Hnd. induction cks as [|ck cks IH]; intros T B st Hin Hi.
  - cbn. rewrite app_nil_r. exact Hi.
  - cbn [fold_left map].
    replace (T ++ (ck, k) :: map (fun ck => (ck, k)) cks) with
      ((T ++ [(ck, k)]) ++ map (fun ck => (ck, k)) cks) by (rewrite <- app_assoc; reflexivity).
    apply IH; [intros; apply Hin; right; assumption|].
    apply touch_inv; [exact Hnd|apply Hin; left|exact Hi].
Qed.

Lemma push_inv vs cap T B c R grow v :
  inv vs cap T B (c, R) -> inv vs cap T (B ++ [v]) (push grow v c, R).
Proof.
  intros (Hold & (T0 & T1 & HT & Hcur & Hsh) & HR & Hcap).
  unfold push. destruct (Nat.ltb_spec (length (c_cur c)) (c_cap c)) as [Hlt|Hge]; cbn [c_old c_cur c_shared c_cap].
  - split; [exact Hold|]. split.
    + exists T0, T1. split; [exact HT|]. split; [|exact Hsh]. cbn. rewrite Hcur, app_assoc. reflexivity.
    + split; [exact HR|]. cbn. rewrite app_length. cbn. intros H. apply Hcap. lia.
  - split; [exact Hold|]. split.
    + exists T0, T1. split; [exact HT|]. split; [|discriminate]. cbn. rewrite Hcur, app_assoc. reflexivity.
    + split; [exact HR|]. cbn. rewrite app_length. cbn. intros H. exfalso.
      destruct (Hcap ltac:(lia)) as [_ Hc]. rewrite Hcur, app_length, map_length in Hge. lia.
Qed.

(** The voxels that Add appends. *)
Definition appended (lookup : gset key) (vs : list svox) (order : list key) : list svox :=
  filter (fun v => snd v <> allNeighbors)
    (map (fun d => (d, fst (findNeighbors lookup d (build_old vs)))) order).

(** The mask updates it makes. *)
Definition touches (lookup : gset key) (vs : list svox) (order : list key) : list (key * key) :=
  concat (map (fun d => map (fun ck => (ck, d)) (snd (findNeighbors lookup d (build_old vs)))) order).

Lemma order_inv vs cap grow lookup order : NoDup (map fst vs) -> forall T B st,
  inv vs cap T B st ->
  inv vs cap (T ++ touches lookup vs order) (B ++ appended lookup vs order)
    (fold_left (add_key_step grow lookup (build_old vs)) order st).
Proof.
  intros Hnd. induction order as [|d order IH]; intros T B st Hi.
  - unfold touches, appended. cbn. rewrite !app_nil_r. exact Hi.
  - cbn [fold_left]. unfold add_key_step at 2.
    destruct (findNeighbors lookup d (build_old vs)) as [n tc] eqn:Ef.
    assert (Htc : forall ck, ck ∈ tc -> ck ∈ map fst vs).
    { intros ck Hck. apply (findNeighbors_spec _ _ _ _ _ Ef) in Hck as (_ & H & _).
      apply build_old_dom; assumption. }
    pose proof (touch_fold_inv vs cap d tc Hnd T B st Htc Hi) as H1.
    destruct (fold_left (touch (build_old vs) d) tc st) as [c R].
    assert (HT : T ++ touches lookup vs (d :: order) =
                 (T ++ map (fun ck => (ck, d)) tc) ++ touches lookup vs order).
    { unfold touches. cbn [map concat]. rewrite Ef. cbn [snd]. apply app_assoc. }
    rewrite HT.
    unfold appended. cbn [map]. rewrite filter_cons. rewrite Ef. cbn [fst snd].
    destruct (Z.eqb_spec n allNeighbors) as [E|E].
    + rewrite decide_False by (intros HH; exact (HH E)). apply IH. exact H1.
    + rewrite decide_True by exact E.
      replace (B ++ (d, n) :: _) with ((B ++ [(d, n)]) ++ appended lookup vs order)
        by (rewrite <- app_assoc; reflexivity).
      apply IH. apply push_inv, H1.
Qed.

Lemma elem_touches lookup vs order ck d :
  NoDup (map fst vs) ->
  (ck, d) ∈ touches lookup vs order <->
  d ∈ order /\ ck ∉ lookup /\ ck ∈ map fst vs /\ exists o, is_offset o /\ d = move ck o.
Proof.
  intros Hnd. unfold touches. rewrite elem_of_list_In, in_concat. split.
  - intros (l & Hl & Hin). apply in_map_iff in Hl as (d' & <- & Hd').
    apply in_map_iff in Hin as (ck' & E & Hin). injection E as -> ->.
    destruct (findNeighbors lookup d (build_old vs)) as [n tc] eqn:Ef. cbn [snd] in Hin.
    rewrite <- elem_of_list_In in Hin, Hd'. split; [exact Hd'|].
    apply (findNeighbors_spec _ _ _ _ _ Ef) in Hin as (H1 & H2 & o & Ho & ->).
    split; [exact H1|]. split; [apply build_old_dom; assumption|].
    exists (opposite o). split; [apply is_offset_opposite, Ho|]. symmetry. apply move_opposite.
  - intros (Hd & Hck & Hvs & o & Ho & Hm).
    eexists. split.
    + apply in_map_iff. exists d. split; [reflexivity|]. apply elem_of_list_In, Hd.
    + apply in_map_iff. exists ck. split; [reflexivity|].
      destruct (findNeighbors lookup d (build_old vs)) as [n tc] eqn:Ef. cbn [snd].
      apply elem_of_list_In, (findNeighbors_spec _ _ _ _ _ Ef).
      split; [exact Hck|]. split; [apply build_old_dom; assumption|].
      exists (opposite o). split; [apply is_offset_opposite, Ho|]. subst d. symmetry. apply move_opposite.
Qed.

Lemma elem_appended lookup vs order k n :
  NoDup (map fst vs) -> (k, n) ∈ appended lookup vs order <->
  k ∈ order /\ exact_mask (lookup ∪ list_to_set (map fst vs)) k n /\ n <> allNeighbors.
Proof.
  intros Hnd. unfold appended. rewrite elem_of_list_filter. cbn [snd].
  assert (Hdom : dom (build_old vs) =@{gset key} list_to_set (map fst vs)).
  { apply set_eq. intros x. rewrite elem_of_dom, elem_of_list_to_set. apply build_old_dom, Hnd. }
  split.
  - intros [Hn Hin]. apply elem_of_list_fmap in Hin as (d & E & Hd). apply pair_equal_spec in E as [-> ->].
    split; [exact Hd|]. split; [|exact Hn].
    destruct (findNeighbors lookup d (build_old vs)) as [m tc] eqn:Ef. cbn [fst].
    apply findNeighbors_spec in Ef as [He _]. rewrite Hdom in He. exact He.
  - intros (Hk & He & Hn). split; [exact Hn|]. apply elem_of_list_fmap. exists k. split; [|exact Hk].
    destruct (findNeighbors lookup k (build_old vs)) as [m tc] eqn:Ef. cbn [fst].
    apply findNeighbors_spec in Ef as [He' _]. rewrite Hdom in He'.
    f_equal. eapply exact_mask_unique; eauto.
Qed.

Lemma fresh_keys_NoDup lookup vs order : NoDup order -> NoDup (map fst (appended lookup vs order)).
Proof.
  intros Hnd. unfold appended. induction order as [|d order IH]; [constructor|].
  apply NoDup_cons in Hnd as [Hd Hnd]. cbn [map]. rewrite filter_cons.
  destruct (decide _); [|apply IH, Hnd].
  cbn [map fst]. apply NoDup_cons. split; [|apply IH, Hnd].
  intros Hin. apply elem_of_list_fmap in Hin as (v & E & Hin).
  apply elem_of_list_filter in Hin as [_ Hin]. apply elem_of_list_fmap in Hin as (d' & -> & Hd').
  cbn in E. subst d'. contradiction.
Qed.

(** ** Main characterisation *)

Lemma add_voxels_spec grow cap lookup order vs :
  NoDup (map fst vs) -> NoDup order ->
  exists T0 T1 R,
    touches lookup vs order = T0 ++ T1 /\
    ((length vs + length order <= cap)%nat -> T1 = []) /\
    (forall ck, ck ∈ R <-> exists d n, (ck, d) ∈ touches lookup vs order /\ (ck, n) ∈ vs /\
        snd (updated (touches lookup vs order) (ck, n)) = allNeighbors) /\
    add_voxels grow cap lookup order vs =
      Some (filter (fun v => fst v ∉ (R : gset key)) (map (updated T0) vs ++ appended lookup vs order)).
Proof.
  intros Hnd Hno. unfold add_voxels.
  assert (H0 : inv vs cap [] [] (Cells vs vs cap true, ∅)).
  { assert (Hid : map (updated []) vs = vs).
    { clear. induction vs as [|[k n] vs IH]; [reflexivity|]. cbn [map]. rewrite IH. reflexivity. }
    split; [symmetry; exact Hid|]. split.
    - exists [], []. split; [reflexivity|]. split; [|reflexivity]. rewrite Hid, app_nil_r. reflexivity.
    - split; [|auto]. intros ck. split; [intros H; exfalso; set_solver|].
      intros (d & n & H & _). inversion H. }
  pose proof (order_inv vs cap grow lookup order Hnd [] [] _ H0) as H.
  cbn [app] in H.
  destruct (fold_left _ order _) as [c R].
  destruct H as (Hold & (T0 & T1 & HT & Hcur & Hsh) & HR & Hcap).
  exists T0, T1, R. split; [exact HT|]. split.
  { intros Hl. apply Hsh, Hcap.
    assert (length (appended lookup vs order) <= length order)%nat; [|lia].
    unfold appended. etransitivity; [apply filter_length|]. rewrite map_length. reflexivity. }
  split; [exact HR|].
  destruct (decide (0 < size R)%nat) as [Hs|Hs].
  - destruct (Nat.ltb_spec (length (c_cur c)) (size R)) as [Hlt|Hge].
    + exfalso. assert (Hsub : R ⊆ list_to_set (map fst vs)).
      { intros ck Hck. apply HR in Hck as (d & n & _ & Hn & _). apply elem_of_list_to_set.
        apply elem_of_list_fmap. exists (ck, n). auto. }
      apply subseteq_size in Hsub.
      rewrite size_list_to_set in Hsub by exact Hnd.
      rewrite map_length in Hsub. rewrite Hcur, app_length, map_length in Hlt. lia.
    + rewrite Hcur. reflexivity.
  - f_equal. rewrite Hcur. symmetry.
    assert (HE : forall l : list svox, filter (fun v => fst v ∉ R) l = l).
    { induction l as [|v l IH]; [reflexivity|]. rewrite filter_cons, decide_True, IH; [reflexivity|].
      intros Hv. apply Hs. assert (size R <> 0)%nat; [|lia]. intros Hz.
      apply size_empty_inv in Hz. rewrite Hz in Hv. exact (not_elem_of_empty _ Hv). }
    apply HE.
Qed.
