(** C50: what a NewJob of the distributed stl2svx returns. *)
From Verif Require Import MasterModel MasterProps.
From Coq Require Import List Lia Bool PeanoNat.
From stdpp Require Import base list gmap sets relations.
Import ListNotations.

Section Jobs.
  Context {addr png request entry : Type} `{Countable addr}.
  Context (slices_of : request -> nat) (manifest_of : request -> entry) (blanks_of : request -> list entry)
    (slice_of : request -> nat -> png -> entry).
  Notation master := (@master addr png request entry _ _).
  Notation label := (@label addr png request).
  Notation job := (@job addr png request entry).
  Notation phase := (@phase addr png entry).
  Notation slice := (@slice addr png).
  Notation step := (step slices_of manifest_of blanks_of slice_of).
  Notation trace := (trace slices_of manifest_of blanks_of slice_of).
  Notation init := (@master_init addr png request entry _ _).
  Notation step_effect := (step_effect slices_of manifest_of blanks_of slice_of).

  (** A job that is using the zip file. *)
  Definition active (p : phase) : Prop := match p with JManifest | JBlanks | JRun _ => True | _ => False end.

  (** A history in which no NewJob begins while another one is under way. *)
  Inductive one_at_a_time : list label -> master -> Prop :=
  | o_nil : one_at_a_time [] init
  | o_snoc t l m1 m2 : one_at_a_time t m1 -> step m1 l m2 ->
      (forall j, l = LSet j -> forall i b, jobs m1 !! i = Some b -> ~ active (ph b)) -> one_at_a_time (t ++ [l]) m2.

  Definition archive (q : request) (l : list (nat * png)) : list entry :=
    manifest_of q :: blanks_of q ++ map (fun zp => slice_of q (fst zp) (snd zp)) l.

  (** What the history and the list of written slices say about slice z of job j, by its state. *)
  Definition never (t : list label) (j z : nat) : Prop := (forall p, ~ In (LCallOk j z p) t) /\ ~ In (LCallErr j z) t.
  Definition succeeded (t : list label) (j z : nat) (p : png) : Prop := (forall p', In (LCallOk j z p') t <-> p' = p) /\ ~ In (LCallErr j z) t.
  Definition failed (t : list label) (j z : nat) : Prop := (forall p, ~ In (LCallOk j z p) t) /\ In (LCallErr j z) t.

  Definition slice_log (t : list label) (l : list (nat * png)) (j z : nat) (s : slice) : Prop :=
    match s with
    | SEnd => (exists p, succeeded t j z p /\ forall p', In (z, p') l <-> p' = p) \/ failed t j z /\ forall p, ~ In (z, p) l
    | SBack _ p | SWrite p => succeeded t j z p /\ forall p', ~ In (z, p') l
    | _ => never t j z /\ forall p, ~ In (z, p) l
    end.

  Definition jinv (t : list label) (c : option nat) (j : nat) (b : job) : Prop :=
    match ph b with
    | JSet => buf b = [] /\ closed b = false /\ (forall z, never t j z)
    | JManifest => c = Some j /\ buf b = [] /\ closed b = false /\ (forall z, never t j z)
    | JBlanks => c = Some j /\ buf b = [manifest_of (req b)] /\ closed b = false /\ (forall z, never t j z)
    | JRun ss => c = Some j /\ closed b = false /\ length ss = slices_of (req b) /\
        exists l, buf b = archive (req b) l /\ List.NoDup (map fst l) /\
          forall z, match ss !! z with Some s => slice_log t l j z s | None => never t j z /\ forall p, ~ In (z, p) l end
    | JReturned r => exists l, r = ROk (archive (req b) l) true /\ List.NoDup (map fst l) /\
        (forall z p, In (z, p) l <-> In (LCallOk j z p) t) /\
        (forall z, z < slices_of (req b) -> (In (LCallErr j z) t <-> forall p, ~ In (z, p) l)) /\
        (forall z p, In (z, p) l -> z < slices_of (req b))
    end.

  Definition same_at (t t' : list label) (j z : nat) : Prop :=
    (forall p, In (LCallOk j z p) t <-> In (LCallOk j z p) t') /\ (In (LCallErr j z) t <-> In (LCallErr j z) t').
  Definition same_calls (t t' : list label) (j : nat) : Prop := forall z, same_at t t' j z.

  Lemma never_same t t' j z : same_at t t' j z -> never t j z -> never t' j z.
  Proof. intros [S1 S2] [N1 N2]. split; [intros p Hp; apply (N1 p), S1, Hp|intros He; apply N2, S2, He]. Qed.
  Lemma succeeded_same t t' j z p : same_at t t' j z -> succeeded t j z p -> succeeded t' j z p.
  Proof. intros [S1 S2] [N1 N2]. split; [intros p'; rewrite <- S1; apply N1|intros He; apply N2, S2, He]. Qed.
  Lemma failed_same t t' j z : same_at t t' j z -> failed t j z -> failed t' j z.
  Proof. intros [S1 S2] [N1 N2]. split; [intros p Hp; apply (N1 p), S1, Hp|apply S2, N2]. Qed.

  Lemma slice_log_same t t' l j z s : same_at t t' j z -> slice_log t l j z s -> slice_log t' l j z s.
  Proof.
    intros S. destruct s; cbn [slice_log]; try (intros [N Hl]; split; [|exact Hl]; (eapply never_same, N || eapply succeeded_same, N); exact S).
    intros [(p & N & Hl)|[N Hl]]; [left; exists p; split; [eapply succeeded_same, N; exact S|exact Hl]|right; split; [eapply failed_same, N; exact S|exact Hl]].
  Qed.

  Lemma jinv_same t t' c j b : same_calls t t' j -> jinv t c j b -> jinv t' c j b.
  Proof.
    intros S. unfold jinv. destruct (ph b) as [| | |ss|r].
    - intros (H1 & H2 & H3). split; [exact H1|]. split; [exact H2|]. intros z. eapply never_same, H3. exact (S _).
    - intros (H1 & H2 & H3 & H4). do 3 (split; [assumption|]). intros z. eapply never_same, H4. exact (S _).
    - intros (H1 & H2 & H3 & H4). do 3 (split; [assumption|]). intros z. eapply never_same, H4. exact (S _).
    - intros (H1 & H2 & H3 & l & H4 & H5 & H6). do 3 (split; [assumption|]). exists l. do 2 (split; [assumption|]). intros z. specialize (H6 z).
      destruct (ss !! z); [eapply slice_log_same, H6; exact (S _)|destruct H6 as [H6 H7]; split; [eapply never_same, H6; exact (S _)|exact H7]].
    - intros (l & H1 & H2 & H3 & H4 & H5). pose proof (fun z => proj1 (S z)) as S1. pose proof (fun z => proj2 (S z)) as S2. exists l. do 2 (split; [assumption|]).
      split; [intros z p; rewrite <- S1; apply H3|]. split; [intros z Hz; rewrite <- S2; apply H4, Hz|exact H5].
  Qed.

  Definition call_of (l : label) : option nat := match l with LCallOk j _ _ | LCallErr j _ => Some j | _ => None end.

  Lemma same_snoc t l j : call_of l <> Some j -> same_calls t (t ++ [l]) j.
  Proof.
    intros Hc z. split; intros; rewrite in_app_iff; (split; [left; assumption|]); (intros [Hin|[->|[]]]; [exact Hin|]); cbn in Hc; congruence.
  Qed.

  Lemma same_call_ne t l j z : (forall p, l <> LCallOk j z p) -> l <> LCallErr j z -> same_at t (t ++ [l]) j z.
  Proof. intros Hc He. split; [intros p|]; rewrite in_app_iff; (split; [left; assumption|]); (intros [Hin|[->|[]]]; [exact Hin|]); [destruct (Hc p eq_refl)|destruct (He eq_refl)]. Qed.

  Lemma jinv_cur t c c' j b : ~ active (ph b) -> jinv t c j b -> jinv t c' j b.
  Proof. unfold jinv. destruct (ph b); cbn; tauto. Qed.

  Lemma jinv_active t c j b : active (ph b) -> jinv t c j b -> c = Some j /\ closed b = false.
  Proof. unfold jinv. destruct (ph b); cbn; try tauto. Qed.

  Definition minv (t : list label) (m : master) : Prop :=
    (forall j b, jobs m !! j = Some b -> jinv t (cur m) j b) /\ (forall j z, jobs m !! j = None -> never t j z).

  (** The common shape: job [j], which is active, changes; the writer is its own. *)
  Lemma minv_alter t l i i' c (js : list job) j b b' :
    minv t (Master i c js) -> js !! j = Some b -> (forall k, k <> j -> call_of l <> Some k) ->
    jinv (t ++ [l]) c j b' -> minv (t ++ [l]) (Master i' c (<[j := b']> js)).
  Proof.
    intros [I1 I2] Hb Hc Hj. cbn [jobs cur] in *. split; cbn [jobs cur].
    - intros k x Hx. destruct (decide (k = j)) as [->|Hk].
      + rewrite list_lookup_insert in Hx by (eapply lookup_lt_Some; exact Hb). injection Hx as <-. exact Hj.
      + rewrite list_lookup_insert_ne in Hx by congruence. eapply jinv_same, I1, Hx. apply same_snoc, Hc, Hk.
    - intros k z Hk. assert (k <> j) by (intros ->; apply lookup_ge_None in Hk; rewrite insert_length in Hk; apply lookup_lt_Some in Hb; lia).
      rewrite list_lookup_insert_ne in Hk by congruence. eapply never_same, I2, Hk. apply same_snoc, Hc. assumption.
  Qed.

  Lemma alter_insert {A} (f : A -> A) j (js : list A) b : js !! j = Some b -> alter f j js = <[j := f b]> js.
  Proof. intros Hb. apply list_eq. intros k. destruct (decide (k = j)) as [->|Hk].
    - rewrite list_lookup_alter, list_lookup_insert, Hb by (eapply lookup_lt_Some; exact Hb). reflexivity.
    - rewrite list_lookup_alter_ne, list_lookup_insert_ne by congruence. reflexivity.
  Qed.

  Lemma add_cur_own es j (js : list job) b : (j < length js) -> closed b = false ->
    add_cur (Some j) es (<[j := b]> js) = <[j := Job (req b) (ph b) (buf b ++ es) false]> js.
  Proof.
    intros Hl Hc. unfold add_cur. rewrite (alter_insert _ _ _ b) by (apply list_lookup_insert, Hl). rewrite list_insert_insert. unfold zip_add. rewrite Hc. reflexivity.
  Qed.

  Lemma slice_at_job (m : master) j z s : slice_at m j z s -> exists b ss, jobs m !! j = Some b /\ ph b = JRun ss /\ ss !! z = Some s.
  Proof. exact (fun h => h). Qed.

  (** The invariant when slice z of a running job goes from s to s'. *)
  Lemma jinv_slice t lab c j b ss z s s' :
    jinv t c j b -> ph b = JRun ss -> ss !! z = Some s ->
    (forall l, slice_log t l j z s -> slice_log (t ++ [lab]) l j z s') ->
    (forall y, y <> z -> same_at t (t ++ [lab]) j y) ->
    jinv (t ++ [lab]) c j (set_slice z s' b).
  Proof.
    intros Hj Hp Hz Hlog Hoth. unfold set_slice. rewrite Hp. unfold jinv in *. cbn [set_phase ph req buf closed]. rewrite Hp in Hj.
    destruct Hj as (H1 & H2 & H3 & l & H4 & H5 & H6). split; [exact H1|]. split; [exact H2|]. split; [rewrite insert_length; exact H3|].
    exists l. split; [exact H4|]. split; [exact H5|].
    assert (Hsame : forall y, y <> z -> forall x, slice_log t l j y x -> slice_log (t ++ [lab]) l j y x).
    { intros y Hy x. apply slice_log_same, Hoth, Hy. }
    intros y. destruct (decide (y = z)) as [->|Hy].
    - rewrite list_lookup_insert by (eapply lookup_lt_Some; exact Hz). apply Hlog. specialize (H6 z). rewrite Hz in H6. exact H6.
    - rewrite list_lookup_insert_ne by congruence. specialize (H6 y). destruct (ss !! y) as [x|]; [apply Hsame; assumption|].
      (* an absent slice has the log of a waiting one *)
      apply (Hsame y Hy SWait). exact H6.
  Qed.

  Lemma minv_step t m l m' : minv t m -> step m l m' ->
    (forall j, l = LSet j -> forall i b, jobs m !! i = Some b -> ~ active (ph b)) -> minv (t ++ [l]) m'.
  Proof.
    intros Hi Hs Hset. pose proof Hi as [I1 I2]. destruct m as [i c js].
    assert (Hslice : forall i' lab j z s s', minv t (Master i c js) -> slice_at (Master i c js) j z s ->
      (forall k, k <> j -> call_of lab <> Some k) ->
      (forall lg, slice_log t lg j z s -> slice_log (t ++ [lab]) lg j z s') ->
      (forall y, y <> z -> same_at t (t ++ [lab]) j y) ->
      minv (t ++ [lab]) (Master i' c (alter (set_slice z s') j js))).
    { intros i' lab j z s s' Hi' (b & ss & Hb & Hp & Hz) Hc Hlog Hoth. cbn [jobs] in Hb. rewrite (alter_insert _ _ _ b Hb). apply (minv_alter t lab i i' c js j b _ Hi' Hb Hc).
      apply (jinv_slice t lab c j b ss z s s'); auto. }
    destruct Hs; cbn [idle cur jobs] in *.
    - split; cbn [jobs cur]; [intros k x Hx; eapply jinv_same, I1, Hx; apply same_snoc; discriminate|intros k z Hk; eapply never_same, I2, Hk; apply same_snoc; discriminate].
    - split; cbn [jobs cur].
      + intros k x Hx. destruct (decide (k < length js)) as [Hk|Hk].
        * rewrite lookup_app_l in Hx by exact Hk. eapply jinv_same, I1, Hx. apply same_snoc. discriminate.
        * rewrite lookup_app_r in Hx by lia. destruct (k - length js) as [|[|n]] eqn:Ek; try discriminate. injection Hx as <-.
          unfold jinv. cbn [ph buf closed]. split; [reflexivity|]. split; [reflexivity|]. intros z. eapply (never_same t); [apply same_snoc; discriminate|]. apply I2. apply lookup_ge_None. lia.
      + intros k z Hk. eapply (never_same t); [apply same_snoc; discriminate|]. apply I2. apply lookup_ge_None. apply lookup_ge_None in Hk. rewrite app_length in Hk. cbn in Hk. lia.
    - destruct H0 as [Hb Hp]. rewrite (alter_insert _ _ _ b Hb). pose proof (I1 j b Hb) as Hj.
      apply (minv_alter t _ i i (Some j) js j b).
      + split; cbn [jobs cur]; [|exact I2]. intros k x Hx. apply (jinv_cur t c); [eapply Hset; [reflexivity|exact Hx]|apply I1, Hx].
      + exact Hb.
      + discriminate.
      + unfold jinv in *. rewrite Hp in Hj. cbn [set_phase ph buf closed]. destruct Hj as (H1 & H2 & H3). do 3 (split; [auto|]). intros z. eapply (never_same t); [apply same_snoc; discriminate|apply H3].
    - destruct H0 as [Hb Hp]. rewrite (alter_insert _ _ _ b Hb). pose proof (I1 j b Hb) as Hj. cbn [jobs] in Hb. unfold jinv in Hj. rewrite Hp in Hj. destruct Hj as (-> & H2 & H3 & H4).
      rewrite add_cur_own by (exact H3 || (eapply lookup_lt_Some; exact Hb)). apply (minv_alter t _ i i (Some j) js j b _ Hi Hb); [discriminate|].
      unfold jinv. cbn [set_phase ph buf closed req]. split; [reflexivity|]. split; [rewrite H2; reflexivity|]. split; [reflexivity|]. intros z. eapply (never_same t); [apply same_snoc; discriminate|apply H4].
    - destruct H0 as [Hb Hp]. rewrite (alter_insert _ _ _ b Hb). pose proof (I1 j b Hb) as Hj. cbn [jobs] in Hb. unfold jinv in Hj. rewrite Hp in Hj. destruct Hj as (-> & H2 & H3 & H4).
      rewrite add_cur_own by (exact H3 || (eapply lookup_lt_Some; exact Hb)). apply (minv_alter t _ i i (Some j) js j b _ Hi Hb); [discriminate|].
      unfold jinv. cbn [set_phase ph buf closed req]. split; [reflexivity|]. split; [reflexivity|]. split; [apply replicate_length|].
      exists []. split; [rewrite H2; unfold archive; cbn; rewrite app_nil_r; reflexivity|]. split; [constructor|]. intros z.
      assert (G : never (t ++ [LBlanks j]) j z /\ forall p : png, ~ In (z, p) []) by (split; [eapply (never_same t); [apply same_snoc; discriminate|apply H4]|intros p []]).
      destruct (replicate (slices_of (req b)) SWait !! z) as [s|] eqn:Es; [|exact G]. apply lookup_replicate in Es as [-> _]. exact G.
    - eapply Hslice; [exact Hi|exact H0|discriminate| |intros y Hy; apply same_snoc; discriminate].
      intros lg Hl. apply (slice_log_same t _ lg j z SWait); [apply same_snoc; discriminate|exact Hl].
    - eapply Hslice; [exact Hi|exact H0|discriminate| |intros y Hy; apply same_snoc; discriminate].
      intros lg Hl. apply (slice_log_same t _ lg j z SWait); [apply same_snoc; discriminate|exact Hl].
    - eapply Hslice; [exact Hi|exact H0|discriminate| |intros y Hy; apply same_snoc; discriminate].
      intros lg Hl. apply (slice_log_same t _ lg j z SWait); [apply same_snoc; discriminate|exact Hl].
    - eapply Hslice; [exact Hi|exact H0|cbn; congruence| |intros y Hy; apply same_call_ne; [congruence|congruence]].
      intros lg [[N1 N2] Hl]. right. split; [|exact Hl]. split; [|apply in_app_iff; right; left; reflexivity].
      intros p Hin. apply in_app_iff in Hin as [Hin|[Hin|[]]]; [exact (N1 p Hin)|discriminate].
    - eapply Hslice; [exact Hi|exact H0|cbn; congruence| |intros y Hy; apply same_call_ne; [congruence|congruence]].
      intros lg [[N1 N2] Hl]. split; [|exact Hl]. split.
      + intros p'. rewrite in_app_iff. split; [intros [Hin|[[= <-]|[]]]; [destruct (N1 p' Hin)|reflexivity]|intros ->; right; left; reflexivity].
      + intros Hin. apply in_app_iff in Hin as [Hin|[Hin|[]]]; [exact (N2 Hin)|discriminate].
    - eapply Hslice; [exact Hi|exact H0|discriminate| |intros y Hy; apply same_snoc; discriminate].
      intros lg Hl. apply (slice_log_same t _ lg j z (SWrite p)); [apply same_snoc; discriminate|exact Hl].
    - destruct H0 as (b0 & ss & Hb & Hp & Hz). cbn [jobs] in Hb. rewrite Hb in H1. injection H1 as ->. rewrite (alter_insert _ _ _ b Hb). pose proof (I1 j b Hb) as Hj.
      unfold jinv in Hj. rewrite Hp in Hj. destruct Hj as (-> & H2 & H3 & lg & H4 & H5 & H6).
      assert (Hset' : set_slice z SEnd b = Job (req b) (JRun (<[z:=SEnd]> ss)) (buf b) false) by (unfold set_slice; rewrite Hp; unfold set_phase; rewrite H2; reflexivity).
      rewrite Hset'. rewrite add_cur_own by (reflexivity || (eapply lookup_lt_Some; exact Hb)). cbn [req ph buf].
      apply (minv_alter t _ i i (Some j) js j b _ Hi Hb); [discriminate|].
      pose proof (H6 z) as Hlz. rewrite Hz in Hlz. destruct Hlz as [Hsucc Hnot].
      assert (Hsame : same_calls t (t ++ [LWrite j z]) j) by (apply same_snoc; discriminate).
      unfold jinv. cbn [ph buf closed req]. split; [reflexivity|]. split; [reflexivity|]. split; [rewrite insert_length; exact H3|].
      exists (lg ++ [(z, p)]). split; [rewrite H4; unfold archive; rewrite map_app; cbn [map fst snd]; cbn [app]; rewrite <- ?app_assoc; reflexivity|].
      assert (Hnz : ~ In z (map fst lg)) by (intros Hin; apply in_map_iff in Hin as ([z' p'] & Ez & Hin); cbn in Ez; subst z'; exact (Hnot p' Hin)).
      split.
      { rewrite map_app. apply NoDup_ListNoDup. apply NoDup_app. split; [apply NoDup_ListNoDup, H5|]. split; [|apply NoDup_singleton].
        intros x Hx. cbn. intros Hx'. apply elem_of_list_singleton in Hx' as ->. apply Hnz, elem_of_list_In, Hx. }
      intros y. destruct (decide (y = z)) as [->|Hy].
      + rewrite list_lookup_insert by (eapply lookup_lt_Some; exact Hz). left. exists p. split; [eapply succeeded_same; [apply Hsame|eassumption]|].
        intros p'. rewrite in_app_iff. split; [intros [Hin|[[= <-]|[]]]; [destruct (Hnot p' Hin)|reflexivity]|intros ->; right; left; reflexivity].
      + rewrite list_lookup_insert_ne by congruence. specialize (H6 y).
        assert (Hin : forall p', In (y, p') (lg ++ [(z, p)]) <-> In (y, p') lg) by (intros p'; rewrite in_app_iff; split; [intros [?|[[= -> _]|[]]]; [assumption|contradiction]|auto]).
        assert (G : forall s, slice_log t lg j y s -> slice_log (t ++ [LWrite j z]) (lg ++ [(z, p)]) j y s).
        { intros s Hs. apply (slice_log_same t _ lg j y s (Hsame y)) in Hs. destruct s; cbn [slice_log] in *; setoid_rewrite Hin; exact Hs. }
        destruct (ss !! y) as [s|]; [apply G, H6|apply (G SWait), H6].
    - (* a second Close: impossible here *)
      exfalso. destruct H0 as [Hb Hp]. pose proof (I1 j b Hb) as Hj. cbn [jobs] in Hb. unfold jinv in Hj. rewrite Hp in Hj. destruct Hj as (-> & H5 & _). injection H2 as <-. congruence.
    - destruct H0 as [Hb Hp]. pose proof (I1 j b Hb) as Hj. cbn [jobs] in Hb. unfold jinv in Hj. rewrite Hp in Hj. destruct Hj as (-> & H6 & H7 & lg & H8 & H9 & H10). injection H2 as <-.
      subst js0. rewrite (alter_insert _ j js b Hb) in *. rewrite list_lookup_insert in H5 by (eapply lookup_lt_Some; exact Hb). injection H5 as <-. cbn [buf closed].
      rewrite (alter_insert _ _ _ (Job (req b) (ph b) (buf b) true)) by (apply list_lookup_insert; eapply lookup_lt_Some; exact Hb). rewrite list_insert_insert.
      apply (minv_alter t _ i i (Some j) js j b _ Hi Hb); [discriminate|].
      assert (Hend : forall z s, ss !! z = Some s -> s = SEnd).
      { intros z s Hz. rewrite forallb_forall in H1. apply elem_of_list_lookup_2, elem_of_list_In in Hz. specialize (H1 s Hz). destruct s; try discriminate. reflexivity. }
      apply (jinv_same t); [apply same_snoc; discriminate|].
      unfold jinv. cbn [set_phase ph buf closed req]. exists lg. split; [rewrite H8; reflexivity|]. split; [exact H9|]. split; [|split].
      + intros z p. specialize (H10 z). destruct (ss !! z) as [s|] eqn:Ez.
        * rewrite (Hend z s Ez) in H10. destruct H10 as [(p0 & [Hs _] & Hl)|[[Hn _] Hl]]; [rewrite Hs, Hl; reflexivity|]. split; [intros Hin; destruct (Hl p Hin)|intros Hin; destruct (Hn p Hin)].
        * destruct H10 as [[Hn _] Hl]. split; [intros Hin; destruct (Hl p Hin)|intros Hin; destruct (Hn p Hin)].
      + intros z Hz. rewrite <- H7 in Hz. apply lookup_lt_is_Some in Hz as [s Ez]. specialize (H10 z). rewrite Ez, (Hend z s Ez) in H10.
        destruct H10 as [(p0 & [_ Hs] & Hl)|[[_ Hn] Hl]]; [|tauto]. split; [tauto|]. intros Hno. destruct (Hno p0). apply Hl. reflexivity.
      + intros z p Hin. specialize (H10 z). destruct (ss !! z) as [s|] eqn:Ez; [rewrite <- H7; eapply lookup_lt_Some; exact Ez|]. destruct H10 as [_ Hl]. destruct (Hl p Hin).
  Qed.

  Lemma one_inv t m : one_at_a_time t m -> minv t m.
  Proof.
    induction 1 as [|t l m1 m2 _ IH Hs Hset]; [|eapply minv_step; eauto].
    split; [intros j b Hb; discriminate Hb|]. intros j z _. split; [intros p []|intros []].
  Qed.

  (** One at a time, every NewJob that returns does so without an error, and with a zip file that has
      the manifest, the blank images, and exactly the slices whose SliceJob call succeeded. *)
  Theorem C50_archive t m j b r : one_at_a_time t m -> jobs m !! j = Some b -> ph b = JReturned r ->
    exists l, r = ROk (manifest_of (req b) :: blanks_of (req b) ++ map (fun zp => slice_of (req b) (fst zp) (snd zp)) l) true /\
      List.NoDup (map fst l) /\ (forall z p, In (z, p) l <-> In (LCallOk j z p) t) /\
      (forall z, z < slices_of (req b) -> (In (LCallErr j z) t <-> forall p, ~ In (z, p) l)) /\
      (forall z p, In (z, p) l -> z < slices_of (req b)).
  Proof. intros Ho Hb Hp. apply one_inv in Ho as [I1 _]. pose proof (I1 j b Hb) as Hj. unfold jinv in Hj. rewrite Hp in Hj. exact Hj. Qed.

  (** ** The pool *)

  Definition losses (t : list label) : nat := length (List.filter (fun l => match l with LDialFail _ _ | LCallErr _ _ => true | _ => false end) t).
  Definition registers (t : list label) : nat := length (List.filter (fun l => match l with LRegister _ => true | _ => false end) t).

  Lemma losses_snoc t l : losses (t ++ [l]) = losses t + match l with LDialFail _ _ | LCallErr _ _ => 1 | _ => 0 end.
  Proof. unfold losses. rewrite List.filter_app, app_length. destruct l; reflexivity. Qed.
  Lemma registers_snoc t l : registers (t ++ [l]) = registers t + match l with LRegister _ => 1 | _ => 0 end.
  Proof. unfold registers. rewrite List.filter_app, app_length. destruct l; reflexivity. Qed.

  (** The agents in the pool, those at work and those lost by a failure are no more than the
      registrations: an agent whose dialling or call failed never comes back by itself. *)
  Theorem C50_agents t m : trace init t m ->
    exists L, List.NoDup (map fst L) /\ (forall j z a, holds m j z a <-> In ((j, z), a) L) /\
      size (idle m) + length L + losses t <= registers t.
  Proof.
    induction 1 as [|t l m1 m2 _ (L & N & HL & Hc) Hs].
    - exists []. split; [constructor|]. split; [intros j z a; split; [intros (s & (b & ss & E & _) & _); discriminate E|intros []]|]. cbn. rewrite size_empty. lia.
    - rewrite losses_snoc, registers_snoc. apply step_effect in Hs.
      destruct Hs as [a m' Ei Hh|l m' Hl Ei Hh|j0 z0 a0 m' Ha Ei Hn Hh|l j0 z0 a0 m' Hl Ha Ei Hh|j0 z0 a0 m' Ha Ei Hh].
      + exists L. split; [exact N|]. split; [intros j z b; rewrite Hh; apply HL|]. rewrite Ei. pose proof (size_union_alt {[a]} (idle m1)) as Hsz. rewrite size_singleton in Hsz.
        assert (size (idle m1 ∖ {[a]}) <= size (idle m1)) by (apply subseteq_size; set_solver). lia.
      + exists L. split; [exact N|]. split; [intros ? ? b; rewrite Hh; apply HL|]. rewrite Ei. destruct l; try destruct Hl; lia.
      + exists (((j0, z0), a0) :: L). split; [|split].
        * cbn. constructor; [|exact N]. intros Hin. apply in_map_iff in Hin as ([[j z] a] & E & Hin). cbn in E. injection E as -> ->. apply HL in Hin. exact (Hn a Hin).
        * intros j z b. rewrite Hh, HL. cbn. split; [intros [?|(-> & -> & ->)]; auto|intros [[= -> -> ->]|?]; auto].
        * rewrite Ei. rewrite size_difference by set_solver. rewrite size_singleton. cbn [length].
          assert (size (idle m1) <> 0) by (intros E; apply size_empty_inv in E; set_solver). lia.
      + pose proof Ha as Hin. apply HL, in_split in Hin as (L1 & L2 & ->). exists (L1 ++ L2). rewrite map_app in N. cbn in N.
        pose proof (List.NoDup_remove _ _ _ N) as [N' Hni]. rewrite <- map_app in N', Hni. split; [exact N'|]. split.
        * intros j z b. rewrite Hh, HL, !in_app_iff. cbn. split.
          -- intros [[?|[[= <- <- <-]|?]] Hne]; auto. tauto.
          -- intros Hin. split; [tauto|]. destruct (decide (j = j0)) as [->|]; [|left; assumption]. right. intros ->. apply Hni. apply in_map_iff.
             exists ((j0, z0), b). split; [reflexivity|apply in_app_iff; exact Hin].
        * rewrite Ei. rewrite app_length in Hc |- *. cbn in Hc. destruct Hl as [->| ->]; lia.
      + pose proof Ha as Hin. apply HL, in_split in Hin as (L1 & L2 & ->). exists (L1 ++ L2). rewrite map_app in N. cbn in N.
        pose proof (List.NoDup_remove _ _ _ N) as [N' Hni]. rewrite <- map_app in N', Hni. split; [exact N'|]. split.
        * intros j z b. rewrite Hh, HL, !in_app_iff. cbn. split.
          -- intros [[?|[[= <- <- <-]|?]] Hne]; auto. tauto.
          -- intros Hin. split; [tauto|]. destruct (decide (j = j0)) as [->|]; [|left; assumption]. right. intros ->. apply Hni. apply in_map_iff.
             exists ((j0, z0), b). split; [reflexivity|apply in_app_iff; exact Hin].
        * rewrite Ei. rewrite app_length in Hc |- *. cbn in Hc. pose proof (size_union_alt {[a0]} (idle m1)) as Hsz. rewrite size_singleton in Hsz.
          assert (size (idle m1 ∖ {[a0]}) <= size (idle m1)) by (apply subseteq_size; set_solver). lia.
  Qed.

  (** Once as many agents are lost as have registered, a slice that waits waits for ever (unless an
      agent registers), and its NewJob does not return. *)
  Inductive continues : master -> list label -> master -> Prop :=
  | c_nil m : continues m [] m
  | c_cons m1 l m2 t m3 : step m1 l m2 -> continues m2 t m3 -> continues m1 (l :: t) m3.

  Lemma trace_continues t m t' m' : trace init t m -> continues m t' m' -> trace init (t ++ t') m'.
  Proof.
    intros Ht Hc. revert t Ht. induction Hc as [m|m1 l m2 t' m3 Hs _ IH]; intros t Ht; [rewrite app_nil_r; exact Ht|].
    replace (t ++ l :: t') with ((t ++ [l]) ++ t') by (rewrite <- app_assoc; reflexivity). apply IH. eapply t_snoc; eassumption.
  Qed.

  (** Other steps than its own do not move a slice. *)
  Lemma waiting_step (m : master) l m' j z : step m l m' -> slice_at m j z SWait -> (forall a, l <> LAssign j z a) -> slice_at m' j z SWait.
  Proof.
    intros Hs Hw Hn. destruct m as [i c js].
    assert (U : forall i' c' (js' : list job) k y s s', slice_at (Master i c js) k y s -> s <> SWait -> (forall n, ph <$> (js' !! n) = ph <$> (alter (set_slice y s') k js !! n)) -> slice_at (Master i' c' js') j z SWait).
    { intros i' c' js' k y s s' Hk Hne Hph. apply (slice_at_update i i' c c' js js' k y s s' Hk Hph). right. split; [|exact Hw].
      destruct (decide (j = k)) as [->|]; [|left; assumption]. right. intros ->. apply Hne. eapply slice_at_det; eassumption. }
    assert (V : forall i' c' (js' : list job) k b p', js !! k = Some b -> (forall ss, ph b = JRun ss -> forallb is_end ss = true) ->
      (forall n, ph <$> (js' !! n) = ph <$> (alter (set_phase p') k js !! n)) -> slice_at (Master i' c' js') j z SWait).
    { intros i' c' js' k b p' Hb He Hph. rewrite slice_at_ph in *. destruct Hw as (ss & E & Hz). exists ss. split; [|exact Hz]. cbn [jobs] in *. rewrite Hph.
      destruct (decide (j = k)) as [->|Hk]; [|rewrite list_lookup_alter_ne by congruence; exact E].
      exfalso. rewrite Hb in E. cbn in E. injection E as E. specialize (He ss E). rewrite forallb_forall in He. apply elem_of_list_lookup_2, elem_of_list_In in Hz. specialize (He _ Hz). discriminate. }
    destruct Hs; cbn [idle cur jobs] in *.
    - rewrite slice_at_ph in *. exact Hw.
    - rewrite slice_at_ph in *. destruct Hw as (ss & E & Hz). exists ss. split; [|exact Hz]. cbn [jobs] in *. destruct (js !! j) as [b|] eqn:Eb; [|discriminate].
      rewrite lookup_app_l by (eapply lookup_lt_Some; exact Eb). rewrite Eb. exact E.
    - destruct H0 as [Hb Hp]. eapply (V _ _ _ j0 b); [exact Hb|intros ss E; congruence|reflexivity].
    - destruct H0 as [Hb Hp]. eapply (V _ _ _ j0 b); [exact Hb|intros ss E; congruence|intros n; apply phs_add_cur].
    - destruct H0 as [Hb Hp]. eapply (V _ _ _ j0 b); [exact Hb|intros ss E; congruence|intros n; apply phs_add_cur].
    - assert (Hne : j <> j0 \/ z <> z0).
      { destruct (decide (j = j0)) as [->|]; [|left; assumption]. right. intros ->. exact (Hn a eq_refl). }
      apply (slice_at_update i (i ∖ {[a]}) c c js (alter (set_slice z0 (SDial a)) j0 js) j0 z0 SWait (SDial a) H0 (fun _ => eq_refl)). right. split; [exact Hne|exact Hw].
    - eapply (U _ _ _ j0 z0); [exact H0|discriminate|reflexivity].
    - eapply (U _ _ _ j0 z0); [exact H0|discriminate|reflexivity].
    - eapply (U _ _ _ j0 z0); [exact H0|discriminate|reflexivity].
    - eapply (U _ _ _ j0 z0); [exact H0|discriminate|reflexivity].
    - eapply (U _ _ _ j0 z0); [exact H0|discriminate|reflexivity].
    - eapply (U _ _ _ j0 z0); [exact H0|discriminate|intros n; apply phs_add_cur].
    - destruct H0 as [Hb Hp]. eapply (V _ _ _ j0 b); [exact Hb|intros ss' E; congruence|reflexivity].
    - destruct H0 as [Hb Hp]. eapply (V _ _ _ j0 b _ Hb); [intros ss' E; congruence|]. intros k. subst js0. destruct (decide (k = j0)) as [->|Hk].
      + rewrite !list_lookup_alter. cbn [jobs] in Hb, H5. rewrite H5, Hb. reflexivity.
      + rewrite (list_lookup_alter_ne _ _ j0 k) by congruence. rewrite (list_lookup_alter_ne _ js j0 k) by congruence.
        destruct (decide (k = i0)) as [->|Hi]; [|rewrite list_lookup_alter_ne by congruence; reflexivity].
        rewrite list_lookup_alter. destruct (js !! i0); reflexivity.
  Qed.

  Theorem C50_stuck t m j z t' m' : trace init t m -> registers t <= losses t -> slice_at m j z SWait ->
    continues m t' m' -> (forall a, ~ In (LRegister a) t') -> slice_at m' j z SWait.
  Proof.
    intros Ht Hl Hw Hc. revert t Ht Hl Hw. induction Hc as [m|m1 l m2 t' m3 Hs _ IH]; intros t Ht Hl Hw Hn; [exact Hw|].
    apply (IH (t ++ [l])).
    - eapply t_snoc; eassumption.
    - rewrite losses_snoc, registers_snoc. destruct l; try lia. destruct (Hn a). left. reflexivity.
    - eapply waiting_step; [exact Hs|exact Hw|]. intros a ->. destruct (C50_agents t m1 Ht) as (L & _ & _ & Hsz).
      inversion Hs; subst. assert (size (idle m1) <> 0) by (intros E; apply size_empty_inv in E; set_solver). lia.
    - intros a Ha. apply (Hn a). right. exact Ha.
  Qed.

  (** Without losses, one registered agent is enough for the master never to be stuck. *)
  Lemma kept t m : trace init t m -> losses t = 0 -> forall a, In (LRegister a) t -> a ∈ idle m \/ exists j z, holds m j z a.
  Proof.
    induction 1 as [|t l m1 m2 _ IH Hs]; [intros _ a []|]. rewrite losses_snoc. intros Hl a Ha. apply step_effect in Hs.
    assert (Hold : In (LRegister a) t -> a ∈ idle m1 \/ exists j z, holds m1 j z a) by (apply IH; lia).
    destruct Hs as [a' m' Ei Hh|l m' Hn Ei Hh|j0 z0 a0 m' Ha0 Ei Hn Hh|l j0 z0 a0 m' Hn Ha0 Ei Hh|j0 z0 a0 m' Ha0 Ei Hh]; rewrite Ei; apply in_app_iff in Ha.
    - destruct Ha as [Ha|[[= ->]|[]]]; [|left; set_solver]. destruct (Hold Ha) as [Hi|(j & z & Hi)]; [left; set_solver|right; exists j, z; apply Hh, Hi].
    - destruct Ha as [Ha|[->|[]]]; [|destruct Hn]. destruct (Hold Ha) as [Hi|(j & z & Hi)]; [left; exact Hi|right; exists j, z; apply Hh, Hi].
    - destruct Ha as [Ha|[[=]|[]]]. destruct (decide (a = a0)) as [->|Hne]; [right; exists j0, z0; apply Hh; right; auto|].
      destruct (Hold Ha) as [Hi|(j & z & Hi)]; [left; set_solver|right; exists j, z; apply Hh; left; exact Hi].
    - destruct Hn as [->| ->]; lia.
    - destruct Ha as [Ha|[[=]|[]]]. destruct (Hold Ha) as [Hi|(j & z & Hi)]; [left; set_solver|].
      destruct (decide (j = j0 /\ z = z0)) as [[-> ->]|Hne]; [|right; exists j, z; apply Hh; split; [exact Hi|destruct (decide (j = j0)); [right|left]; tauto]].
      left. destruct Hi as (s & Hs & E), Ha0 as (s0 & Hs0 & E0). rewrite (slice_at_det _ _ _ _ _ Hs Hs0) in E. assert (a = a0) by congruence. set_solver.
  Qed.

  (** m.zipFile is set once a job has passed that statement. *)
  Definition cur_ok (m : master) : Prop :=
    (forall i, cur m = Some i -> i < length (jobs m)) /\ (forall j b, jobs m !! j = Some b -> ph b <> JSet -> cur m <> None).

  Lemma phase_alter (js js' : list job) : length js' = length js -> (forall k, ph <$> (js' !! k) = ph <$> (js !! k) \/ exists b, js !! k = Some b /\ ph b <> JSet) ->
    forall j b, js' !! j = Some b -> ph b <> JSet -> exists b', js !! j = Some b' /\ ph b' <> JSet.
  Proof.
    intros Hl Hk j b Hb Hp. destruct (Hk j) as [E|E]; [|exact E]. rewrite Hb in E. cbn in E. destruct (js !! j) as [b'|]; [|discriminate]. cbn in E. injection E as E. exists b'. split; [reflexivity|congruence].
  Qed.

  Lemma add_cur_length c es (js : list job) : length (add_cur c es js) = length js.
  Proof. unfold add_cur. destruct c; [apply alter_length|reflexivity]. Qed.

  Lemma cur_ok_trace t m : trace init t m -> cur_ok m.
  Proof.
    induction 1 as [|t l m1 m2 _ [I1 I2] Hs]; [split; [discriminate|intros j b Hb; discriminate Hb]|]. destruct m1 as [i c js].
    assert (Hslice : forall i' (js' : list job) k z s, slice_at (Master i c js) k z s -> length js' = length js -> (forall n, n <> k -> ph <$> (js' !! n) = ph <$> (js !! n)) -> cur_ok (Master i' c js')).
    { intros i' js' k z s (b & ss & Hb & Hp & _) Hl Hph. cbn [jobs cur] in *. split; cbn [jobs cur]; [rewrite Hl; exact I1|].
      intros n x Hx Hnp. destruct (phase_alter js js' Hl) with (j := n) (b := x) as (x' & Hx' & Hp'); [|exact Hx|exact Hnp|exact (I2 n x' Hx' Hp')].
      intros y. destruct (decide (y = k)) as [->|Hy]; [right; exists b; split; [exact Hb|congruence]|left; apply Hph, Hy]. }
    assert (Hphase : forall i' (js' : list job) k b, js !! k = Some b -> ph b <> JSet -> length js' = length js -> (forall n, n <> k -> ph <$> (js' !! n) = ph <$> (js !! n)) -> cur_ok (Master i' c js')).
    { intros i' js' k b Hb Hp Hl Hph. cbn [jobs cur] in *. split; cbn [jobs cur]; [rewrite Hl; exact I1|].
      intros n x Hx Hnp. destruct (phase_alter js js' Hl) with (j := n) (b := x) as (x' & Hx' & Hp'); [|exact Hx|exact Hnp|exact (I2 n x' Hx' Hp')].
      intros y. destruct (decide (y = k)) as [->|Hy]; [right; exists b; auto|left; apply Hph, Hy]. }
    assert (Hne : forall (f : job -> job) k n, n <> k -> ph <$> (alter f k js !! n) = ph <$> (js !! n)) by (intros f k n Hn; rewrite list_lookup_alter_ne by congruence; reflexivity).
    assert (Hne2 : forall es f k (n : nat), n <> k -> ph <$> (add_cur c es (alter f k js) !! n) = ph <$> (js !! n)) by (intros es f k n Hn; rewrite phs_add_cur; apply Hne, Hn).
    destruct Hs; cbn [idle cur jobs] in *.
    - split; [exact I1|exact I2].
    - split; cbn [jobs cur]; [intros k Hk; rewrite app_length; specialize (I1 k Hk); lia|]. intros j b Hb Hp. destruct (decide (j < length js)) as [Hj|Hj].
      + rewrite lookup_app_l in Hb by exact Hj. eauto.
      + rewrite lookup_app_r in Hb by lia. destruct (j - length js) as [|[|n]]; try discriminate. injection Hb as <-. cbn in Hp. congruence.
    - destruct H0 as [Hb Hp]. split; cbn [jobs cur]; [intros k [= <-]; rewrite alter_length; eapply lookup_lt_Some; exact Hb|discriminate].
    - destruct H0 as [Hb Hp]. eapply (Hphase _ _ j b Hb); [congruence|rewrite add_cur_length, alter_length; reflexivity|intros; apply Hne2; assumption].
    - destruct H0 as [Hb Hp]. eapply (Hphase _ _ j b Hb); [congruence|rewrite add_cur_length, alter_length; reflexivity|intros; apply Hne2; assumption].
    - eapply Hslice; [exact H0|apply alter_length|apply Hne].
    - eapply Hslice; [exact H0|apply alter_length|apply Hne].
    - eapply Hslice; [exact H0|apply alter_length|apply Hne].
    - eapply Hslice; [exact H0|apply alter_length|apply Hne].
    - eapply Hslice; [exact H0|apply alter_length|apply Hne].
    - eapply Hslice; [exact H0|apply alter_length|apply Hne].
    - eapply Hslice; [exact H0|rewrite add_cur_length, alter_length; reflexivity|intros; apply Hne2; assumption].
    - destruct H0 as [Hb Hp]. eapply (Hphase _ _ j b Hb); [congruence|apply alter_length|apply Hne].
    - destruct H0 as [Hb Hp]. eapply (Hphase _ _ j b Hb); [congruence|subst js0; rewrite !alter_length; reflexivity|].
      intros n Hn. subst js0. rewrite list_lookup_alter_ne by congruence. destruct (decide (n = i0)) as [->|Hi]; [|rewrite list_lookup_alter_ne by congruence; reflexivity].
      rewrite list_lookup_alter. destruct (js !! i0); reflexivity.
  Qed.

  (** A step of the master's own: not a request from outside. *)
  Definition internal (l : label) : Prop := match l with LRegister _ | LNew _ => False | _ => True end.

  Lemma busy_step (m : master) j z s : png -> slice_at m j z s -> s <> SWait -> s <> SEnd -> exists l m', step m l m' /\ internal l.
  Proof.
    intros p0 Hs Hw He. pose proof Hs as (b & ss & Hb & _). destruct s as [|a|a|a p|p|]; try congruence; do 2 eexists; split.
    - eapply st_dial_ok, Hs.
    - exact I.
    - eapply (st_call_ok _ _ _ _ _ _ _ _ p0), Hs.
    - exact I.
    - eapply st_back, Hs.
    - exact I.
    - eapply st_write; eassumption.
    - exact I.
  Qed.

  Theorem C50_progress t m j b (p0 : png) : trace init t m -> losses t = 0 -> (exists a, In (LRegister a) t) ->
    jobs m !! j = Some b -> (forall r, ph b <> JReturned r) -> exists l m', step m l m' /\ internal l.
  Proof.
    intros Ht Hl (a & Ha) Hb Hr. destruct (ph b) as [| | |ss|r] eqn:Hp; [..|destruct (Hr r eq_refl)].
    - do 2 eexists. split; [eapply (st_set _ _ _ _ _ j b); split; [exact Hb|exact Hp]|exact I].
    - do 2 eexists. split; [eapply (st_manifest _ _ _ _ _ j b); split; [exact Hb|exact Hp]|exact I].
    - do 2 eexists. split; [eapply (st_blanks _ _ _ _ _ j b); split; [exact Hb|exact Hp]|exact I].
    - destruct (forallb is_end ss) eqn:Ee.
      + destruct (cur_ok_trace t m Ht) as [C1 C2]. assert (Hc : cur m <> None) by (apply (C2 j b Hb); congruence).
        destruct (cur m) as [i|] eqn:Ec; [|congruence]. destruct (lookup_lt_is_Some_2 (jobs m) i (C1 i eq_refl)) as [c Hi].
        destruct (closed c) eqn:Ecl.
        * do 2 eexists. split; [eapply (st_finish_err _ _ _ _ _ j b ss i c); [split; [exact Hb|exact Hp]|assumption..]|exact I].
        * destruct (lookup_lt_is_Some_2 (alter (fun c => Job (req c) (ph c) (buf c) true) i (jobs m)) j) as [b' Hb']; [rewrite alter_length; eapply lookup_lt_Some; exact Hb|].
          do 2 eexists. split; [eapply (st_finish_ok _ _ _ _ _ j b ss i c b'); [split; [exact Hb|exact Hp]|assumption..]|exact I].
      + assert (Hex : exists z s, ss !! z = Some s /\ s <> SEnd).
        { assert (G : ~ Forall (fun s => s = SEnd) ss).
          { intros G. assert (forallb is_end ss = true); [|congruence]. apply forallb_forall. intros s Hs. rewrite List.Forall_forall in G. rewrite (G s Hs). reflexivity. }
          assert (Hd : forall s : slice, {s = SEnd} + {s <> SEnd}) by (intros []; (left; reflexivity) || (right; discriminate)).
          apply neg_Forall_Exists_neg, Exists_exists in G as (s & Hs & Hn); [|exact Hd]. apply elem_of_list_lookup in Hs as [z Hz]. eauto. }
        destruct Hex as (z & s & Hz & Hn).
        assert (Hat : slice_at m j z s) by (exists b, ss; auto).
        destruct s as [|a'|a'|a' p|p|]; try (eapply (busy_step m j z _ p0 Hat); discriminate); [|congruence].
        destruct (kept t m Ht Hl a Ha) as [Hi|(j' & z' & s' & Hs' & Hh)].
        * do 2 eexists. split; [eapply st_assign; eassumption|exact I].
        * eapply (busy_step m j' z' s' p0 Hs'); intros ->; discriminate.
  Qed.

  (** And, again without losses, there is an end to its steps: five for each slice and four for each job. *)
  Definition swork (s : slice) : nat := match s with SWait => 5 | SDial _ => 4 | SCall _ => 3 | SBack _ _ => 2 | SWrite _ => 1 | SEnd => 0 end.
  Definition jwork (b : job) : nat :=
    match ph b with
    | JSet => 4 + 5 * slices_of (req b) | JManifest => 3 + 5 * slices_of (req b) | JBlanks => 2 + 5 * slices_of (req b)
    | JRun ss => 1 + sum_list (swork <$> ss) | JReturned _ => 0
    end.
  Definition work (m : master) : nat := sum_list (jwork <$> jobs m).

  Lemma sum_insert {A} (f : A -> nat) (l : list A) j x y : l !! j = Some x -> sum_list (f <$> <[j := y]> l) + f x = sum_list (f <$> l) + f y.
  Proof.
    revert j. induction l as [|a l IH]; intros [|j] E; try discriminate.
    - injection E as ->. csimpl. lia.
    - specialize (IH j E). csimpl. lia.
  Qed.

  Lemma jwork_zip es b : jwork (zip_add es b) = jwork b.
  Proof. unfold zip_add, jwork. destruct (closed b); reflexivity. Qed.

  Lemma work_add_cur c es (js : list job) : sum_list (jwork <$> add_cur c es js) = sum_list (jwork <$> js).
  Proof.
    unfold add_cur. destruct c as [k|]; [|reflexivity]. destruct (js !! k) as [b|] eqn:Eb.
    - rewrite (alter_insert _ _ _ b Eb). pose proof (sum_insert jwork js k b (zip_add es b) Eb) as E. rewrite jwork_zip in E. lia.
    - f_equal. f_equal. apply list_eq. intros n. destruct (decide (n = k)) as [->|Hn]; [rewrite list_lookup_alter, Eb; reflexivity|rewrite list_lookup_alter_ne by congruence; reflexivity].
  Qed.

  Lemma work_phase (js : list job) j b p : js !! j = Some b -> jwork (set_phase p b) < jwork b -> sum_list (jwork <$> alter (set_phase p) j js) < sum_list (jwork <$> js).
  Proof. intros Hb Hl. rewrite (alter_insert _ _ _ b Hb). pose proof (sum_insert jwork js j b (set_phase p b) Hb). lia. Qed.

  Lemma work_slice (m : master) j z s s' : slice_at m j z s -> swork s' < swork s -> sum_list (jwork <$> alter (set_slice z s') j (jobs m)) < work m.
  Proof.
    intros (b & ss & Hb & Hp & Hz) Hl. unfold work. rewrite (alter_insert _ _ _ b Hb). pose proof (sum_insert jwork (jobs m) j b (set_slice z s' b) Hb) as E.
    assert (jwork (set_slice z s' b) < jwork b); [|lia]. unfold set_slice, jwork. rewrite Hp. cbn [set_phase ph]. pose proof (sum_insert swork ss z s s' Hz). lia.
  Qed.

  Lemma work_step (m : master) l m' : step m l m' ->
    match l with
    | LRegister _ => work m' = work m
    | LNew r => work m' = work m + 4 + 5 * slices_of r
    | LDialFail _ _ => True
    | _ => work m' < work m
    end.
  Proof.
    intros Hs. destruct m as [i c js]. destruct Hs; cbn [idle cur jobs] in *; unfold work; cbn [jobs].
    - reflexivity.
    - assert (E : forall l1 l2, sum_list (l1 ++ l2) = sum_list l1 + sum_list l2) by (induction l1 as [|x l1 IHl]; intros l2; cbn; [reflexivity|rewrite IHl; lia]).
      rewrite fmap_app, E. cbn. lia.
    - destruct H0 as [Hb Hp]. apply (work_phase js j b _ Hb). unfold jwork. rewrite Hp. cbn. lia.
    - destruct H0 as [Hb Hp]. rewrite work_add_cur. apply (work_phase js j b _ Hb). unfold jwork. rewrite Hp. cbn. lia.
    - destruct H0 as [Hb Hp]. rewrite work_add_cur. apply (work_phase js j b _ Hb). unfold jwork. rewrite Hp. cbn [set_phase ph].
      assert (E : sum_list (swork <$> replicate (slices_of (req b)) SWait) = 5 * slices_of (req b)) by (induction (slices_of (req b)) as [|n IH]; [reflexivity|]; cbn in *; lia). lia.
    - apply (work_slice _ j z _ _ H0). cbn. lia.
    - exact I.
    - apply (work_slice _ j z _ _ H0). cbn. lia.
    - apply (work_slice _ j z _ _ H0). cbn. lia.
    - apply (work_slice _ j z _ _ H0). cbn. lia.
    - apply (work_slice _ j z _ _ H0). cbn. lia.
    - rewrite work_add_cur. apply (work_slice _ j z _ _ H0). cbn. lia.
    - destruct H0 as [Hb Hp]. apply (work_phase js j b _ Hb). unfold jwork. rewrite Hp. cbn. lia.
    - destruct H0 as [Hb Hp]. subst js0. cbn [jobs] in *.
      assert (E : sum_list (jwork <$> alter (fun c => Job (req c) (ph c) (buf c) true) i0 js) = sum_list (jwork <$> js)).
      { rewrite (alter_insert _ _ _ _ H3). pose proof (sum_insert jwork js i0 c0 (Job (req c0) (ph c0) (buf c0) true) H3) as E. change (jwork (Job (req c0) (ph c0) (buf c0) true)) with (jwork c0) in E. lia. }
      rewrite <- E. apply (work_phase _ j b' _ H5). destruct (decide (j = i0)) as [->|Hn].
      + rewrite list_lookup_alter, Hb in H5. injection H5 as <-. unfold jwork. cbn [set_phase ph]. rewrite Hp. lia.
      + rewrite list_lookup_alter_ne in H5 by congruence. rewrite Hb in H5. injection H5 as <-. unfold jwork. cbn [set_phase ph]. rewrite Hp. lia.
  Qed.

  Definition internals (t : list label) : nat := length (List.filter (fun l => match l with LRegister _ | LNew _ => false | _ => true end) t).
  Definition demand (t : list label) : nat := sum_list ((fun l => match l with LNew r => 4 + 5 * slices_of r | _ => 0 end) <$> t).

  Theorem C50_terminates t m : trace init t m -> (forall j z, ~ In (LDialFail j z) t) -> internals t <= demand t.
  Proof.
    intros Ht Hn. assert (G : internals t + work m <= demand t); [|lia]. induction Ht as [|t l m1 m2 Ht IH Hs]; [reflexivity|].
    assert (IH' : internals t + work m1 <= demand t) by (apply IH; intros j z Hin; apply (Hn j z), in_app_iff; left; exact Hin). clear IH.
    unfold internals, demand in *. rewrite List.filter_app, app_length, fmap_app.
    assert (E : forall l1 l2, sum_list (l1 ++ l2) = sum_list l1 + sum_list l2) by (induction l1 as [|x l1 IHl]; intros l2; cbn; [reflexivity|rewrite IHl; lia]).
    rewrite E. pose proof (work_step m1 l m2 Hs) as W. destruct l; cbn in *; try lia. exfalso. apply (Hn j z), in_app_iff. right. left. reflexivity.
  Qed.
End Jobs.
Print Assumptions C50_archive.
Print Assumptions C50_agents.
Print Assumptions C50_stuck.
Print Assumptions C50_progress.
Print Assumptions C50_terminates.
