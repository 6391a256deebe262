(** C49, C50: the pool of agents and the archives of the distributed stl2svx. *)
From Verif Require Import MasterModel.
From Coq Require Import List Lia Bool PeanoNat.
From stdpp Require Import base list gmap sets relations.
Import ListNotations.

Section Props.
  Context {addr png request entry : Type} `{Countable addr}.
  Context (slices_of : request -> nat) (manifest_of : request -> entry) (blanks_of : request -> list entry)
    (slice_of : request -> nat -> png -> entry).
  Notation master := (@master addr png request entry _ _).
  Notation label := (@label addr png request).
  Notation job := (@job addr png request entry).
  Notation phase := (@phase addr png entry).
  Notation slice := (@slice addr png).
  Notation step := (step slices_of manifest_of blanks_of slice_of).
  Notation trace := (trace slices_of manifest_of blanks_of slice_of).
  Notation init := (@master_init addr png request entry _ _).

  (** ** Phases after a step *)

  Definition up_slice (z : nat) (s : slice) (p : phase) : phase := match p with JRun ss => JRun (<[z := s]> ss) | p => p end.

  Lemma ph_set_slice z s b : ph (set_slice z s b : job) = up_slice z s (ph b).
  Proof. unfold set_slice, up_slice. destruct (ph b) eqn:E; cbn; congruence. Qed.
  Lemma ph_zip_add es b : ph (zip_add es b : job) = ph b.
  Proof. unfold zip_add. destruct (closed b); reflexivity. Qed.

  Lemma phs_add_cur c es (js : list job) i : ph <$> (add_cur c es js !! i) = ph <$> (js !! i).
  Proof.
    unfold add_cur. destruct c as [k|]; [|reflexivity]. destruct (decide (k = i)) as [->|Hn]; [|rewrite list_lookup_alter_ne by exact Hn; reflexivity].
    rewrite list_lookup_alter. destruct (js !! i) as [b|]; [|reflexivity]. cbn. rewrite ph_zip_add. reflexivity.
  Qed.

  Lemma slice_at_ph (m : master) j z s : slice_at m j z s <-> exists ss, ph <$> (jobs m !! j) = Some (JRun ss) /\ ss !! z = Some s.
  Proof.
    unfold slice_at. split.
    - intros (b & ss & E & Hp & Hz). exists ss. rewrite E. cbn. rewrite Hp. auto.
    - intros (ss & E & Hz). destruct (jobs m !! j) as [b|]; [|discriminate]. cbn in E. injection E as E. eauto.
  Qed.

  Lemma slice_at_det (m : master) j z s s' : slice_at m j z s -> slice_at m j z s' -> s = s'.
  Proof. rewrite !slice_at_ph. intros (ss & E & Hz) (ss' & E' & Hz'). congruence. Qed.

  (** A step that changes one slice and no other phase. *)
  Lemma slice_at_update i i' c c' (js js' : list job) j z s s' :
    slice_at (Master i c js) j z s ->
    (forall k, ph <$> (js' !! k) = ph <$> (alter (set_slice z s') j js !! k)) ->
    forall k y x, slice_at (Master i' c' js') k y x <-> (k = j /\ y = z /\ x = s') \/ ((k <> j \/ y <> z) /\ slice_at (Master i c js) k y x).
  Proof.
    intros Hat Hph k y x. rewrite !slice_at_ph in *. destruct Hat as (ss & E & Hz). cbn [jobs] in *. rewrite Hph. clear Hph.
    destruct (decide (k = j)) as [->|Hk].
    - rewrite list_lookup_alter. destruct (js !! j) as [b|] eqn:Eb; [|discriminate]. cbn in E |- *. injection E as E. rewrite ph_set_slice, E. cbn [up_slice].
      destruct (decide (y = z)) as [->|Hy].
      + split.
        * intros (ss' & [= <-] & Hx). rewrite list_lookup_insert in Hx by (eapply lookup_lt_Some; exact Hz). left. injection Hx as ->. auto.
        * intros [(_ & _ & ->)|([[]|[]] & _)]; try reflexivity. exists (<[z:=s']> ss). split; [reflexivity|]. apply list_lookup_insert. eapply lookup_lt_Some; exact Hz.
      + split.
        * intros (ss' & [= <-] & Hx). rewrite list_lookup_insert_ne in Hx by congruence. right. split; [right; exact Hy|]. eauto.
        * intros [(_ & ? & _)|(_ & ss' & [= <-] & Hx)]; [contradiction|]. eexists. split; [reflexivity|]. rewrite list_lookup_insert_ne by congruence. exact Hx.
    - rewrite list_lookup_alter_ne by congruence. split; [intros Hx; right; split; [left; exact Hk|exact Hx]|]. intros [(? & _)|[_ Hx]]; [contradiction|exact Hx].
  Qed.

  (** Changes of a phase that has, before and after, no busy slice. *)
  Definition held (s : slice) : option addr := match s with SDial a | SCall a | SBack a _ => Some a | _ => None end.
  Definition holds (m : master) (j z : nat) (a : addr) : Prop := exists s, slice_at m j z s /\ held s = Some a.

  Definition unheld (p : phase) : Prop := match p with JRun ss => Forall (fun s => held s = None) ss | _ => True end.

  Lemma holds_phase i i' c c' (js js' : list job) j b p' :
    js !! j = Some b -> unheld (ph b) -> unheld p' ->
    (forall k, ph <$> (js' !! k) = ph <$> (alter (set_phase p') j js !! k)) ->
    forall k y a, holds (Master i' c' js') k y a <-> holds (Master i c js) k y a.
  Proof.
    intros Hb Hu Hu' Hph k y a. unfold holds. split; intros (s & Hs & Hh).
    - exists s. split; [|exact Hh]. rewrite slice_at_ph in *. destruct Hs as (ss & E & Hz). cbn [jobs] in *. rewrite Hph in E.
      destruct (decide (k = j)) as [->|Hk]; [|rewrite list_lookup_alter_ne in E by congruence; eauto].
      rewrite list_lookup_alter, Hb in E. cbn in E. injection E as ->. cbn in Hu'. rewrite Forall_forall in Hu'. apply elem_of_list_lookup_2 in Hz. rewrite (Hu' _ Hz) in Hh. discriminate.
    - exists s. split; [|exact Hh]. rewrite slice_at_ph in *. destruct Hs as (ss & E & Hz). cbn [jobs] in *.
      destruct (decide (k = j)) as [->|Hk].
      + rewrite Hb in E. cbn in E. injection E as E. rewrite E in Hu. cbn in Hu. rewrite Forall_forall in Hu. apply elem_of_list_lookup_2 in Hz. rewrite (Hu _ Hz) in Hh. discriminate.
      + exists ss. rewrite Hph. rewrite list_lookup_alter_ne by congruence. auto.
  Qed.

  (** What a step does to idle agents and holders. *)
  Inductive effect (m : master) : label -> master -> Prop :=
  | e_register a m' : idle m' = {[a]} ∪ idle m -> (forall k y b, holds m' k y b <-> holds m k y b) -> effect m (LRegister a) m'
  | e_none l m' : match l with LRegister _ | LDialFail _ _ | LCallErr _ _ | LAssign _ _ _ | LBack _ _ => False | _ => True end -> idle m' = idle m -> (forall k y b, holds m' k y b <-> holds m k y b) -> effect m l m'
  | e_assign j z a m' : a ∈ idle m -> idle m' = idle m ∖ {[a]} -> (forall b, ~ holds m j z b) ->
      (forall k y b, holds m' k y b <-> holds m k y b \/ k = j /\ y = z /\ b = a) -> effect m (LAssign j z a) m'
  | e_lose l j z a m' : (l = LDialFail j z \/ l = LCallErr j z) -> holds m j z a -> idle m' = idle m ->
      (forall k y b, holds m' k y b <-> holds m k y b /\ (k <> j \/ y <> z)) -> effect m l m'
  | e_back j z a m' : holds m j z a -> idle m' = {[a]} ∪ idle m ->
      (forall k y b, holds m' k y b <-> holds m k y b /\ (k <> j \/ y <> z)) -> effect m (LBack j z) m'.

  Lemma holds_update i i' c c' (js js' : list job) j z s s' :
    slice_at (Master i c js) j z s ->
    (forall k, ph <$> (js' !! k) = ph <$> (alter (set_slice z s') j js !! k)) ->
    forall k y b, holds (Master i' c' js') k y b <-> (k = j /\ y = z /\ held s' = Some b) \/ ((k <> j \/ y <> z) /\ holds (Master i c js) k y b).
  Proof.
    intros Hat Hph k y b. pose proof (slice_at_update i i' c c' js js' j z s s' Hat Hph) as U. unfold holds. split.
    - intros (x & Hx & Hh). apply U in Hx as [(-> & -> & ->)|[Hn Hx]]; [left; auto|right; split; [exact Hn|eauto]].
    - intros [(-> & -> & Hh)|[Hn (x & Hx & Hh)]].
      + exists s'. split; [apply U; left; auto|exact Hh].
      + exists x. split; [apply U; right; auto|exact Hh].
  Qed.

  Lemma holds_at (m : master) j z s : slice_at m j z s -> forall b, holds m j z b <-> held s = Some b.
  Proof. intros Hs b. split; [intros (s' & Hs' & Hh); rewrite (slice_at_det _ _ _ _ _ Hs Hs'); exact Hh|intros Hh; exists s; auto]. Qed.

  Lemma step_effect (m : master) l m' : step m l m' -> effect m l m'.
  Proof.
    intros Hs. destruct m as [i c js]. destruct Hs; cbn [idle cur jobs] in *.
    - apply e_register; [reflexivity|]. intros. unfold holds. cbn [jobs]. setoid_rewrite slice_at_ph. cbn [jobs]. reflexivity.
    - apply e_none; [exact I|reflexivity|]. intros k y b. unfold holds. setoid_rewrite slice_at_ph. cbn [jobs]. split.
      + intros (s & (ss & E & Hz) & Hh). exists s. split; [|exact Hh]. exists ss. split; [|exact Hz].
        destruct (js !! k) as [x|] eqn:Ek; [rewrite lookup_app_l in E by (eapply lookup_lt_Some; exact Ek); rewrite Ek in E; exact E|].
        apply lookup_ge_None in Ek. rewrite lookup_app_r in E by exact Ek. destruct (k - length js) as [|[|n]]; cbn in E; discriminate.
      + intros (s & (ss & E & Hz) & Hh). exists s. split; [|exact Hh]. exists ss. split; [|exact Hz].
        destruct (js !! k) as [x|] eqn:Ek; [|discriminate]. rewrite lookup_app_l by (eapply lookup_lt_Some; exact Ek). rewrite Ek. exact E.
    - destruct H0 as [Hb Hp]. apply e_none; [exact I|reflexivity|]. apply (holds_phase _ _ _ _ js _ j b JManifest Hb); [rewrite Hp; exact I|exact I|reflexivity].
    - destruct H0 as [Hb Hp]. apply e_none; [exact I|reflexivity|]. apply (holds_phase _ _ _ _ js _ j b JBlanks Hb); [rewrite Hp; exact I|exact I|].
      intros k. apply phs_add_cur.
    - destruct H0 as [Hb Hp]. apply e_none; [exact I|reflexivity|].
      apply (holds_phase _ _ _ _ js _ j b (JRun (replicate (slices_of (req b)) SWait)) Hb); [rewrite Hp; exact I| |].
      + cbn. apply Forall_replicate. reflexivity.
      + intros k. apply phs_add_cur.
    - apply e_assign; [assumption|reflexivity| |].
      + intros b Hh. apply (holds_at _ _ _ _ H0) in Hh. discriminate.
      + intros k y b. rewrite (holds_update i (i ∖ {[a]}) c c js (alter (set_slice z (SDial a)) j js) j z SWait (SDial a) H0 (fun _ => eq_refl)). cbn [held]. split.
        * intros [(-> & -> & [= ->])|[Hn Hh]]; [right; auto|left; exact Hh].
        * intros [Hh|(-> & -> & ->)]; [right; split; [|exact Hh]|left; auto].
          destruct (decide (k = j)) as [->|]; [|left; assumption]. destruct (decide (y = z)) as [->|]; [|right; assumption]. apply (holds_at _ _ _ _ H0) in Hh. discriminate.
    - apply (e_lose _ _ j z a); [left; reflexivity|apply (holds_at _ _ _ _ H0); reflexivity|reflexivity|].
      intros k y b. rewrite (holds_update i i c c js (alter (set_slice z SWait) j js) j z (SDial a) SWait H0 (fun _ => eq_refl)). cbn [held].
      split; [intros [(_ & _ & [=])|[Hn Hh]]; auto|intros [Hh Hn]; right; auto].
    - apply e_none; [exact I|reflexivity|]. intros k y b.
      rewrite (holds_update i i c c js (alter (set_slice z (SCall a)) j js) j z (SDial a) (SCall a) H0 (fun _ => eq_refl)). pose proof (holds_at _ _ _ _ H0) as Hh. cbn [held] in *. split.
      + intros [(-> & -> & E)|[Hn E]]; [apply Hh; exact E|exact E].
      + intros E. destruct (decide (k = j /\ y = z)) as [[-> ->]|Hn]; [left; apply Hh in E; auto|right; split; [|exact E]]. destruct (decide (k = j)); [right|left]; tauto.
    - apply (e_lose _ _ j z a); [right; reflexivity|apply (holds_at _ _ _ _ H0); reflexivity|reflexivity|].
      intros k y b. rewrite (holds_update i i c c js (alter (set_slice z SEnd) j js) j z (SCall a) SEnd H0 (fun _ => eq_refl)). cbn [held].
      split; [intros [(_ & _ & [=])|[Hn Hh]]; auto|intros [Hh Hn]; right; auto].
    - apply e_none; [exact I|reflexivity|]. intros k y b.
      rewrite (holds_update i i c c js (alter (set_slice z (SBack a p)) j js) j z (SCall a) (SBack a p) H0 (fun _ => eq_refl)). pose proof (holds_at _ _ _ _ H0) as Hh. cbn [held] in *. split.
      + intros [(-> & -> & E)|[Hn E]]; [apply Hh; exact E|exact E].
      + intros E. destruct (decide (k = j /\ y = z)) as [[-> ->]|Hn]; [left; apply Hh in E; auto|right; split; [|exact E]]. destruct (decide (k = j)); [right|left]; tauto.
    - apply (e_back _ j z a); [apply (holds_at _ _ _ _ H0); reflexivity|reflexivity|].
      intros k y b. rewrite (holds_update i ({[a]} ∪ i) c c js (alter (set_slice z (SWrite p)) j js) j z (SBack a p) (SWrite p) H0 (fun _ => eq_refl)). cbn [held].
      split; [intros [(_ & _ & [=])|[Hn Hh]]; auto|intros [Hh Hn]; right; auto].
    - apply e_none; [exact I|reflexivity|]. intros k y x.
      rewrite (holds_update i i c c js (add_cur c [slice_of (req b) z p] (alter (set_slice z SEnd) j js)) j z (SWrite p) SEnd H0 (fun k => phs_add_cur _ _ _ k)).
      pose proof (holds_at _ _ _ _ H0) as Hh. cbn [held] in *. split.
      + intros [(-> & -> & E)|[Hn E]]; [discriminate|exact E].
      + intros E. destruct (decide (k = j /\ y = z)) as [[-> ->]|Hn]; [apply Hh in E; discriminate|right; split; [|exact E]]. destruct (decide (k = j)); [right|left]; tauto.
    - destruct H0 as [Hb Hp]. apply e_none; [exact I|reflexivity|].
      apply (holds_phase _ _ _ _ js _ j b (JReturned RError) Hb); [rewrite Hp|exact I|reflexivity].
      cbn. apply Forall_forall. intros s Hin. rewrite forallb_forall in H1. apply elem_of_list_In in Hin. specialize (H1 s Hin). destruct s; try discriminate. reflexivity.
    - destruct H0 as [Hb Hp]. apply e_none; [exact I|reflexivity|].
      apply (holds_phase _ _ _ _ js _ j b (JReturned (ROk (buf b') (closed b'))) Hb); [rewrite Hp|exact I|].
      + cbn. apply Forall_forall. intros s Hin. rewrite forallb_forall in H1. apply elem_of_list_In in Hin. specialize (H1 s Hin). destruct s; try discriminate. reflexivity.
      + intros k. subst js0. destruct (decide (k = j)) as [->|Hk].
        * rewrite !list_lookup_alter. cbn [jobs] in Hb, H5. rewrite H5, Hb. reflexivity.
        * rewrite (list_lookup_alter_ne _ _ j k) by congruence. rewrite (list_lookup_alter_ne _ js j k) by congruence.
          destruct (decide (k = i0)) as [->|Hi]; [|rewrite list_lookup_alter_ne by congruence; reflexivity].
          rewrite list_lookup_alter. destruct (js !! i0); reflexivity.
  Qed.

  (** ** C49 *)

  (** A history in which no agent registers while it has a slice to do. *)
  Inductive honest : list label -> master -> Prop :=
  | h_nil : honest [] init
  | h_snoc t l m1 m2 : honest t m1 -> step m1 l m2 -> (forall a, l = LRegister a -> forall j z, ~ holds m1 j z a) -> honest (t ++ [l]) m2.

  Lemma honest_inv t m : honest t m ->
    (forall j z a, holds m j z a -> a ∉ idle m) /\
    (forall j z j' z' a, holds m j z a -> holds m j' z' a -> j = j' /\ z = z').
  Proof.
    induction 1 as [|t l m1 m2 _ [I1 I2] Hs Hreg].
    - split; [intros j z a (s & (b & ss & E & _) & _); discriminate E|intros j z j' z' a (s & (b & ss & E & _) & _); discriminate E].
    - apply step_effect in Hs. destruct Hs as [a m' Ei Hh|l m' Hl Ei Hh|j0 z0 a0 m' Ha Ei Hn Hh|l j0 z0 a0 m' Hl Ha Ei Hh|j0 z0 a0 m' Ha Ei Hh].
      + split.
        * intros j z b Hb. apply Hh in Hb. rewrite Ei. intros Hin. apply elem_of_union in Hin as [Hin|Hin]; [|exact (I1 _ _ _ Hb Hin)].
          apply elem_of_singleton in Hin as ->. exact (Hreg a eq_refl j z Hb).
        * intros j z j' z' b Hb Hb'. apply Hh in Hb, Hb'. eauto.
      + split; [intros j z b Hb; rewrite Ei; apply Hh in Hb; eauto|intros j z j' z' b Hb Hb'; apply Hh in Hb, Hb'; eauto].
      + split.
        * intros j z b Hb. rewrite Ei. apply Hh in Hb as [Hb|(-> & -> & ->)]; [specialize (I1 _ _ _ Hb); set_solver|set_solver].
        * intros j z j' z' b Hb Hb'. apply Hh in Hb, Hb'. destruct Hb as [Hb|(-> & -> & ->)], Hb' as [Hb'|(-> & -> & E)]; auto; try (exact (I2 _ _ _ _ _ Hb Hb')).
          -- subst b. destruct (I1 _ _ _ Hb Ha).
          -- destruct (I1 _ _ _ Hb' Ha).
      + split; [intros j z b Hb; rewrite Ei; apply Hh in Hb as [Hb _]; eauto|intros j z j' z' b Hb Hb'; apply Hh in Hb as [Hb _], Hb' as [Hb' _]; eauto].
      + split.
        * intros j z b Hb. rewrite Ei. apply Hh in Hb as [Hb Hne]. intros Hin. apply elem_of_union in Hin as [Hin|Hin]; [|exact (I1 _ _ _ Hb Hin)].
          apply elem_of_singleton in Hin as ->. destruct (I2 _ _ _ _ _ Hb Ha). tauto.
        * intros j z j' z' b Hb Hb'. apply Hh in Hb as [Hb _], Hb' as [Hb' _]. eauto.
  Qed.

  (** No agent runs two slices at a time, and none that runs one is in the pool. *)
  Theorem C49_exclusive t m : honest t m ->
    (forall j z j' z' a, slice_at m j z (SCall a) -> slice_at m j' z' (SCall a) -> j = j' /\ z = z') /\
    (forall j z a, slice_at m j z (SCall a) -> a ∉ idle m).
  Proof.
    intros Hh. apply honest_inv in Hh as [I1 I2]. split.
    - intros j z j' z' a H1 H2. apply (I2 j z j' z' a); eexists; split; [exact H1| |exact H2|]; reflexivity.
    - intros j z a H1. apply (I1 j z). eexists. split; [exact H1|reflexivity].
  Qed.

  (** Only agents that have registered get work, and are ever idle. *)
  Theorem C49_registered t m : trace init t m ->
    (forall a, a ∈ idle m -> In (LRegister a) t) /\ (forall j z a, holds m j z a -> In (LRegister a) t).
  Proof.
    induction 1 as [|t l m1 m2 _ [I1 I2] Hs]; [split; [set_solver|intros j z a (s & (b & ss & E & _) & _); discriminate E]|].
    apply step_effect in Hs. setoid_rewrite in_app_iff.
    destruct Hs as [a m' Ei Hh|l m' Hl Ei Hh|j0 z0 a0 m' Ha Ei Hn Hh|l j0 z0 a0 m' Hl Ha Ei Hh|j0 z0 a0 m' Ha Ei Hh]; rewrite Ei; split.
    - intros b Hb. apply elem_of_union in Hb as [Hb|Hb]; [apply elem_of_singleton in Hb as ->; right; left; reflexivity|left; auto].
    - intros j z b Hb. apply Hh in Hb. left. eauto.
    - auto.
    - intros j z b Hb. apply Hh in Hb. left. eauto.
    - intros b Hb. left. apply I1. set_solver.
    - intros j z b Hb. apply Hh in Hb as [Hb|(-> & -> & ->)]; left; [eauto|]. apply I1, Ha.
    - auto.
    - intros j z b Hb. apply Hh in Hb as [Hb _]. left. eauto.
    - intros b Hb. left. apply elem_of_union in Hb as [Hb|Hb]; [apply elem_of_singleton in Hb as ->; eauto|auto].
    - intros j z b Hb. apply Hh in Hb as [Hb _]. left. eauto.
  Qed.
End Props.
Print Assumptions C49_exclusive.
Print Assumptions C49_registered.
