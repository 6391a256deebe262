(** Fork-join concurrency: goroutines joined by [sync.WaitGroup]s that write one shared map under one
    [sync.Mutex].  The pattern of Voxelize and floodFill (binvox/voxelize.go:46-71, 260-305).

    Threads have names; each runs a straight-line program of atomic actions, and a schedule is any
    sequence of steps.  A [WaitGroup] is named by the thread that owns it. *)
From Coq Require Import List Lia Arith Bool.
From stdpp Require Import base list gmap sets fin_sets functions relations.
Import ListNotations.

Section FJ.
  Context {T K : Type} `{EqDecision T} `{Countable K}.

  (** One atomic action of a goroutine. *)
  Inductive act :=
  | ALock              (* mu.Lock() *)
  | APut (k : K)       (* voxels[k] = struct{}{} *)
  | AUnlock            (* mu.Unlock() *)
  | AAdd (w : T)       (* wg.Add(1) *)
  | ASpawn (c : T)     (* go func() ... *)
  | AWait (w : T)      (* wg.Wait() *)
  | ADone (w : T)      (* wg.Done() *)
  | ARead.             (* result = voxels *)

  Context (code : T -> list act).

  Record fj := FJ {
    rem : T -> list act;        (* what is left of each goroutine's program *)
    started : T -> bool;
    cnt : T -> nat;             (* WaitGroup counters *)
    owner : option T;           (* who holds the mutex *)
    val : gset K;               (* the shared map *)
    result : option (gset K)    (* what the caller got *)
  }.

  Definition pop (t : T) (p : list act) (s : fj) : fj :=
    FJ (<[t := p]> (rem s)) (started s) (cnt s) (owner s) (val s) (result s).

  (** One step of one started goroutine. *)
  Inductive fstep : fj -> fj -> Prop :=
  | f_lock t p s : started s t = true -> rem s t = ALock :: p -> owner s = None ->
      fstep s (FJ (<[t := p]> (rem s)) (started s) (cnt s) (Some t) (val s) (result s))
  | f_put t p k s : started s t = true -> rem s t = APut k :: p ->
      fstep s (FJ (<[t := p]> (rem s)) (started s) (cnt s) (owner s) ({[k]} ∪ val s) (result s))
  | f_unlock t p s : started s t = true -> rem s t = AUnlock :: p -> is_Some (owner s) ->
      fstep s (FJ (<[t := p]> (rem s)) (started s) (cnt s) None (val s) (result s))
  | f_add t p w s : started s t = true -> rem s t = AAdd w :: p ->
      fstep s (FJ (<[t := p]> (rem s)) (started s) (<[w := S (cnt s w)]> (cnt s)) (owner s) (val s) (result s))
  | f_spawn t p c s : started s t = true -> rem s t = ASpawn c :: p ->
      fstep s (FJ (<[t := p]> (rem s)) (<[c := true]> (started s)) (cnt s) (owner s) (val s) (result s))
  | f_wait t p w s : started s t = true -> rem s t = AWait w :: p -> cnt s w = 0 ->
      fstep s (FJ (<[t := p]> (rem s)) (started s) (cnt s) (owner s) (val s) (result s))
  | f_done t p w n s : started s t = true -> rem s t = ADone w :: p -> cnt s w = S n ->
      fstep s (FJ (<[t := p]> (rem s)) (started s) (<[w := n]> (cnt s)) (owner s) (val s) (result s))
  | f_read t p s : started s t = true -> rem s t = ARead :: p ->
      fstep s (FJ (<[t := p]> (rem s)) (started s) (cnt s) (owner s) (val s) (Some (val s))).

  Definition finit (main : T) : fj :=
    FJ code (fun t => bool_decide (t = main)) (fun _ => 0) None ∅ None.

  (** Two goroutines are about to touch the shared map at the same time. *)
  Definition touches (p : list act) : Prop :=
    match p with APut _ :: _ | ARead :: _ => True | _ => False end.
  Definition race (s : fj) : Prop :=
    exists t u, t <> u /\ started s t = true /\ started s u = true /\
      touches (rem s t) /\ touches (rem s u).

  (** A goroutine would panic: [wg.Done] below zero, or unlocking an unlocked mutex. *)
  Definition panics (s : fj) : Prop :=
    exists t p, started s t = true /\
      ((exists w, rem s t = ADone w :: p /\ cnt s w = 0) \/ (rem s t = AUnlock :: p /\ owner s = None)).

  (** ** The tree-shaped programs *)
  Context (tids : list T) (main : T).
  Context (kids : T -> list T) (leaf : T -> bool) (puts : T -> list K) (parent : T -> T) (rank : T -> nat).

  Definition spawns (t : T) (cs : list T) : list act := flat_map (fun c => [AAdd t; ASpawn c]) cs.
  Definition lockputs (ks : list K) : list act := flat_map (fun k => [ALock; APut k; AUnlock]) ks.
  Definition last_act (t : T) : act := if decide (t = main) then ARead else ADone (parent t).

  Record tree : Prop := {
    tr_code : forall t, In t tids -> code t =
      spawns t (kids t) ++ (if leaf t then [] else [AWait t]) ++ lockputs (puts t) ++ [last_act t];
    tr_nodup : NoDup tids;
    tr_main : In main tids;
    tr_kids : forall t c, In t tids -> In c (kids t) -> In c tids /\ parent c = t /\ c <> main /\ rank c < rank t;
    tr_kids_nodup : forall t, In t tids -> NoDup (kids t);
    tr_parent : forall c, In c tids -> c <> main -> In (parent c) tids /\ In c (kids (parent c));
    tr_leaf : forall t, In t tids -> leaf t = true -> kids t = []
  }.

  (** ** The invariant *)
  Inductive pos := PKids (ks : list T) | PSp (c : T) (ks : list T)
    | PPuts (qs : list K) | PHold (q : K) (qs : list K) | PRel (qs : list K) | PEnd.

  Definition tailp (t : T) (qs : list K) : list act := lockputs qs ++ [last_act t].

  Definition render (t : T) (p : pos) : list act :=
    match p with
    | PKids ks => spawns t ks ++ AWait t :: tailp t (puts t)
    | PSp c ks => ASpawn c :: spawns t ks ++ AWait t :: tailp t (puts t)
    | PPuts qs => tailp t qs
    | PHold q qs => APut q :: AUnlock :: tailp t qs
    | PRel qs => AUnlock :: tailp t qs
    | PEnd => []
    end.

  Definition start (t : T) : pos := if leaf t then PPuts (puts t) else PKids (kids t).

  Definition unspawned (p : pos) : list T :=
    match p with PKids ks => ks | PSp c ks => c :: ks | _ => [] end.
  Definition pend (t : T) (p : pos) : list K :=
    match p with PKids _ | PSp _ _ => puts t | PPuts qs => qs | PHold q qs => q :: qs | PRel qs => qs | PEnd => [] end.
  Definition early (p : pos) : Prop := match p with PKids _ | PSp _ _ => True | _ => False end.
  Definition holds (p : pos) : Prop := match p with PHold _ _ | PRel _ => True | _ => False end.
  Definition is_sp (p : pos) : nat := match p with PSp _ _ => 1 | _ => 0 end.
  Definition is_end (p : pos) : bool := match p with PEnd => true | _ => false end.

  Definition live (s : fj) (ps : T -> pos) (c : T) : nat :=
    if started s c && negb (is_end (ps c)) then 1 else 0.
  Definition nlive (s : fj) (ps : T -> pos) (cs : list T) : nat := list_sum (map (live s ps) cs).

  Record Inv (s : fj) (ps : T -> pos) : Prop := {
    i_rem : forall t, In t tids -> rem s t = render t (ps t);
    i_main : started s main = true;
    i_started : forall c, In c tids -> c <> main -> (started s c = false <-> In c (unspawned (ps (parent c))));
    i_fresh : forall c, In c tids -> started s c = false -> ps c = start c;
    i_cnt : forall t, In t tids -> cnt s t = nlive s ps (kids t) + is_sp (ps t);
    i_late : forall t, In t tids -> ~ early (ps t) -> forall c, In c (kids t) -> ps c = PEnd;
    i_owner : forall t, In t tids -> (owner s = Some t <-> holds (ps t));
    i_owner_in : forall t, owner s = Some t -> In t tids;
    i_val : forall k, (k ∈ val s \/ exists t, In t tids /\ In k (pend t (ps t))) <-> exists t, In t tids /\ In k (puts t);
    i_result : match result s with
               | None => ps main <> PEnd
               | Some V => ps main = PEnd /\ V = val s
               end;
    i_unsp : forall t, In t tids -> NoDup (unspawned (ps t)) /\ forall c, In c (unspawned (ps t)) -> In c (kids t);
    i_in : forall t, started s t = true -> In t tids
  }.

  Context (Htree : tree).

  Lemma start_not_end t : start t <> PEnd.
  Proof. unfold start. destruct (leaf t); discriminate. Qed.

  Lemma nlive_ext s ps s' ps' cs : (forall c, In c cs -> live s ps c = live s' ps' c) ->
    nlive s ps cs = nlive s' ps' cs.
  Proof. intros He. unfold nlive. f_equal. apply map_ext_in, He. Qed.

  Lemma nlive_change s ps s' ps' cs c : NoDup cs -> In c cs ->
    (forall d, In d cs -> d <> c -> live s ps d = live s' ps' d) ->
    nlive s ps cs + live s' ps' c = nlive s' ps' cs + live s ps c.
  Proof.
    induction cs as [|d cs IH]; intros Hn Hc He; [destruct Hc|].
    inversion Hn as [|? ? Hd Hn']; subst. unfold nlive in *. cbn [map list_sum foldr].
    change (foldr Init.Nat.add 0 ?l) with (list_sum l).
    destruct (decide (d = c)) as [->|Hne].
    - assert (E : map (live s ps) cs = map (live s' ps') cs).
      { apply map_ext_in. intros a Ha. apply He; [right; exact Ha|]. intros ->. apply Hd, elem_of_list_In, Ha. }
      rewrite E. lia.
    - destruct Hc as [->|Hc]; [congruence|].
      specialize (IH Hn' Hc (fun d0 Hd0 Hne0 => He d0 (or_intror Hd0) Hne0)).
      rewrite (He d (or_introl eq_refl) Hne). lia.
  Qed.

  Lemma nlive_pos s ps cs c : In c cs -> live s ps c <= nlive s ps cs.
  Proof.
    unfold nlive. induction cs as [|d cs IH]; intros Hc; [destruct Hc|]. cbn [map list_sum foldr].
    change (foldr Init.Nat.add 0 ?l) with (list_sum l). destruct Hc as [->|Hc]; [lia|]. specialize (IH Hc). lia.
  Qed.

  Lemma kid_parent w c : In w tids -> In c (kids w) -> parent c = w.
  Proof. intros Hw Hc. apply (tr_kids Htree w c Hw Hc). Qed.

  Lemma kid_in w c : In w tids -> In c (kids w) -> In c tids /\ c <> main /\ c <> w.
  Proof.
    intros Hw Hc. destruct (tr_kids Htree w c Hw Hc) as (H1 & _ & H2 & H3).
    repeat split; auto. intros ->. lia.
  Qed.

  Lemma Inv_init : Inv (finit main) start.
  Proof.
    constructor; cbn [finit rem started cnt owner val result].
    - intros t Ht. rewrite (tr_code Htree t Ht). unfold start, render, tailp.
      destruct (leaf t) eqn:El; [|reflexivity]. rewrite (tr_leaf Htree t Ht El). reflexivity.
    - apply bool_decide_eq_true. reflexivity.
    - intros c Hc Hne. rewrite bool_decide_eq_false. destruct (tr_parent Htree c Hc Hne) as [Hp Hk].
      assert (El : leaf (parent c) = false).
      { destruct (leaf (parent c)) eqn:E; [|reflexivity]. rewrite (tr_leaf Htree _ Hp E) in Hk. destruct Hk. }
      unfold start. rewrite El. cbn [unspawned]. tauto.
    - reflexivity.
    - intros t Ht. assert (E : is_sp (start t) = 0) by (unfold start; destruct (leaf t); reflexivity).
      rewrite E. unfold nlive. symmetry. 
      assert (En : forall cs, (forall c, In c cs -> c <> main) ->
        list_sum (map (live (finit main) start) cs) = 0).
      { induction cs as [|c cs IH]; intros Hc; [reflexivity|]. cbn [map list_sum foldr].
        change (foldr Init.Nat.add 0 ?l) with (list_sum l).
        rewrite IH by (intros; apply Hc; right; assumption).
        unfold live. cbn [finit started]. rewrite bool_decide_eq_false_2 by (apply Hc; left; reflexivity).
        reflexivity. }
      rewrite En; [reflexivity|]. intros c Hc. apply (kid_in t c Ht Hc).
    - intros t Ht Hl c Hc. exfalso. unfold start in Hl. destruct (leaf t) eqn:E; [|apply Hl; exact I].
      rewrite (tr_leaf Htree t Ht E) in Hc. destruct Hc.
    - intros t Ht. split; [discriminate|]. unfold start. destruct (leaf t); intros [].
    - discriminate.
    - intros k. assert (E : forall t, pend t (start t) = puts t) by (intros t; unfold start; destruct (leaf t); reflexivity).
      setoid_rewrite E. set_solver.
    - apply start_not_end.
    - intros t Ht. unfold start. destruct (leaf t); cbn [unspawned].
      + split; [constructor|intros c []].
      + split; [apply (tr_kids_nodup Htree t Ht)|auto].
    - intros t Ht. apply bool_decide_eq_true in Ht as ->. apply (tr_main Htree).
  Qed.

  (** What a step can be, in terms of positions. *)
  Inductive move (s : fj) (ps : T -> pos) (t : T) : fj -> pos -> Prop :=
  | m_add c ks : ps t = PKids (c :: ks) ->
      move s ps t (FJ (<[t := render t (PSp c ks)]> (rem s)) (started s) (<[t := S (cnt s t)]> (cnt s)) (owner s) (val s) (result s)) (PSp c ks)
  | m_wait : ps t = PKids [] -> cnt s t = 0 ->
      move s ps t (FJ (<[t := render t (PPuts (puts t))]> (rem s)) (started s) (cnt s) (owner s) (val s) (result s)) (PPuts (puts t))
  | m_spawn c ks : ps t = PSp c ks ->
      move s ps t (FJ (<[t := render t (PKids ks)]> (rem s)) (<[c := true]> (started s)) (cnt s) (owner s) (val s) (result s)) (PKids ks)
  | m_lock q qs : ps t = PPuts (q :: qs) -> owner s = None ->
      move s ps t (FJ (<[t := render t (PHold q qs)]> (rem s)) (started s) (cnt s) (Some t) (val s) (result s)) (PHold q qs)
  | m_put q qs : ps t = PHold q qs ->
      move s ps t (FJ (<[t := render t (PRel qs)]> (rem s)) (started s) (cnt s) (owner s) ({[q]} ∪ val s) (result s)) (PRel qs)
  | m_unlock qs : ps t = PRel qs ->
      move s ps t (FJ (<[t := render t (PPuts qs)]> (rem s)) (started s) (cnt s) None (val s) (result s)) (PPuts qs)
  | m_done n : ps t = PPuts [] -> t <> main -> cnt s (parent t) = S n ->
      move s ps t (FJ (<[t := []]> (rem s)) (started s) (<[parent t := n]> (cnt s)) (owner s) (val s) (result s)) PEnd
  | m_read : ps t = PPuts [] -> t = main ->
      move s ps t (FJ (<[t := []]> (rem s)) (started s) (cnt s) (owner s) (val s) (Some (val s))) PEnd.

  Ltac shape Hrem Hr t ps :=
    rewrite Hr in Hrem; symmetry in Hrem; destruct (ps t) as [[|c' ks]|c' ks|[|q qs]|q qs|qs|] eqn:Ep;
    cbn [render spawns flat_map app tailp lockputs] in Hrem; try discriminate Hrem;
    try match type of Hrem with
        | [last_act t] = _ => unfold last_act in Hrem; destruct (decide (t = main)) as [Em|Em]; try discriminate Hrem
        end.

  Lemma step_move s ps s' : Inv s ps -> fstep s s' ->
    exists t p', In t tids /\ started s t = true /\ move s ps t s' p'.
  Proof.
    intros Hi Hs.
    assert (Hgo : forall t, started s t = true -> In t tids /\ rem s t = render t (ps t)).
    { intros t Ht. pose proof (i_in _ _ Hi t Ht). split; [assumption|]. apply (i_rem _ _ Hi); assumption. }
    destruct Hs as [t p s Ht Hr Ho|t p k s Ht Hr|t p s Ht Hr Ho|t p w s Ht Hr|t p c s Ht Hr|t p w s Ht Hr Hc|t p w n s Ht Hr Hc|t p s Ht Hr];
      destruct (Hgo t Ht) as [Hin Hrem]; shape Hrem Hr t ps; exists t; injection Hrem as; subst;
      (eexists; split; [exact Hin|split; [exact Ht|]]).
    - apply (m_lock s ps t q qs); assumption.
    - apply (m_put s ps t k qs); assumption.
    - apply (m_unlock s ps t qs); assumption.
    - apply (m_add s ps w c' ks); assumption.
    - apply (m_spawn s ps t c ks); assumption.
    - apply (m_wait s ps w); assumption.
    - apply (m_done s ps t); assumption.
    - apply (m_read s ps main); [assumption|reflexivity].
  Qed.

  Lemma up_ind (P : T -> Prop) :
    P main -> (forall c, In c tids -> c <> main -> P (parent c) -> P c) -> forall c, In c tids -> P c.
  Proof.
    intros Hm Hs.
    set (M := list_max (map rank tids)).
    assert (Hb : forall c, In c tids -> rank c <= M).
    { intros c Hc. unfold M. pose proof (proj1 (list_max_le (map rank tids) _) (le_n _)) as Hf.
      rewrite List.Forall_forall in Hf. apply Hf, in_map, Hc. }
    assert (Hn : forall n c, M - rank c <= n -> In c tids -> P c).
    { induction n as [|n IH]; intros c Hn Hc; destruct (decide (c = main)) as [->|Hne]; auto.
      - exfalso. destruct (tr_parent Htree c Hc Hne) as [Hp Hk].
        pose proof (tr_kids Htree _ _ Hp Hk) as (_ & _ & _ & Hr). pose proof (Hb _ Hp). lia.
      - destruct (tr_parent Htree c Hc Hne) as [Hp Hk].
        pose proof (tr_kids Htree _ _ Hp Hk) as (_ & _ & _ & Hr). pose proof (Hb _ Hp).
        apply Hs; auto. apply IH; [lia|exact Hp]. }
    intros c Hc. apply (Hn (M - rank c)); [lia|exact Hc].
  Qed.

  Lemma all_end s ps : Inv s ps -> ~ early (ps main) -> forall c, In c tids -> c <> main -> ps c = PEnd.
  Proof.
    intros Hi Hm.
    assert (Hx : forall c, In c tids -> (c = main \/ ps c = PEnd) /\ ~ early (ps c)).
    { apply up_ind.
      - split; [left; reflexivity|exact Hm].
      - intros c Hc Hne [_ Hp]. destruct (tr_parent Htree c Hc Hne) as [Hpi Hk].
        pose proof (i_late _ _ Hi _ Hpi Hp c Hk) as E. rewrite E. split; [right; reflexivity|intros []]. }
    intros c Hc Hne. destruct (Hx c Hc) as [[?|?] _]; [congruence|assumption].
  Qed.

  Lemma live_same s ps s' t p' : started s' = started s -> is_end p' = is_end (ps t) ->
    forall c, live s ps c = live s' (<[t := p']> ps) c.
  Proof.
    intros Hs He c. unfold live. rewrite Hs. destruct (decide (c = t)) as [->|Hne].
    - rewrite fn_lookup_insert, He. reflexivity.
    - rewrite fn_lookup_insert_ne by congruence. reflexivity.
  Qed.

  Lemma move_not_end s ps t s' p' : move s ps t s' p' -> ps t <> PEnd.
  Proof. destruct 1; congruence. Qed.

  Lemma move_rem s ps t s' p' : move s ps t s' p' -> rem s' = <[t := render t p']> (rem s).
  Proof. destruct 1; reflexivity. Qed.

  (** Moves that change neither who is started nor who is alive. *)
  Lemma move_quiet s ps t s' p' : move s ps t s' p' ->
    (started s' = started s /\ unspawned p' = unspawned (ps t)) \/
    exists c ks, ps t = PSp c ks /\ p' = PKids ks /\ started s' = <[c := true]> (started s) /\ cnt s' = cnt s.
  Proof. destruct 1 as [c ks E|E|c ks E|q qs E|q qs E|qs E|n E|E]; rewrite E; eauto 8. Qed.

  Lemma move_late s ps t s' p' : move s ps t s' p' -> ~ early p' -> 
    ~ early (ps t) \/ (ps t = PKids [] /\ cnt s t = 0).
  Proof.
    destruct 1 as [c ks E|E|c ks E|q qs E|q qs E|qs E|n E|E]; rewrite E; intros He; cbn in *; auto; exfalso; auto.
  Qed.

  (** How the counters move. *)
  Lemma move_cnt s ps t s' p' : move s ps t s' p' ->
    (cnt s' = cnt s /\ is_sp p' = is_sp (ps t) /\ is_end p' = is_end (ps t)) \/
    (cnt s' = <[t := S (cnt s t)]> (cnt s) /\ is_sp p' = 1 /\ is_sp (ps t) = 0 /\ is_end p' = is_end (ps t)) \/
    (exists c ks, ps t = PSp c ks /\ p' = PKids ks) \/
    (exists n, t <> main /\ p' = PEnd /\ ps t = PPuts [] /\ cnt s (parent t) = S n /\ cnt s' = <[parent t := n]> (cnt s)) \/
    (t = main /\ p' = PEnd /\ ps t = PPuts [] /\ cnt s' = cnt s).
  Proof.
    destruct 1 as [c ks E|E Hc|c ks E|q qs E Ho|q qs E|qs E|n E Hn Hc|E Hn]; rewrite E; cbn [cnt];
      [right; left|left|right; right; left; eauto|left|left|left|right; right; right; left; eauto 10|right; right; right; right]; auto.
  Qed.

  Lemma Inv_cnt s ps t s' p' : Inv s ps -> In t tids -> started s t = true -> move s ps t s' p' ->
    forall w, In w tids -> cnt s' w = nlive s' (<[t := p']> ps) (kids w) + is_sp ((<[t := p']> ps) w).
  Proof.
    intros Hi Ht Hst Hm w Hw. pose proof (i_cnt _ _ Hi w Hw) as Hc.
    destruct (move_cnt _ _ _ _ _ Hm) as [(Ec & Es & Ee)|[(Ec & Es & Es0 & Ee)|[(c & ks & Ep & ->)|[(n & Hne & -> & Ep & En & Ec)|(-> & -> & Ep & Ec)]]]].
    - (* nothing *)
      assert (Eq : started s' = started s).
      { destruct (move_quiet _ _ _ _ _ Hm) as [[? _]|(c & ks & E1 & E2 & _)]; [assumption|].
        rewrite E1, E2 in Es. discriminate. }
      rewrite Ec, Hc. rewrite (nlive_ext s ps s' (<[t := p']> ps)) by (intros c _; apply live_same; assumption).
      f_equal. destruct (decide (w = t)) as [->|Hne]; [rewrite fn_lookup_insert; auto|].
      rewrite fn_lookup_insert_ne by congruence. reflexivity.
    - assert (Eq : started s' = started s).
      { destruct (move_quiet _ _ _ _ _ Hm) as [[? _]|(c & ks & E1 & E2 & _)]; [assumption|].
        rewrite E1 in Es0. discriminate. }
      rewrite (nlive_ext s ps s' (<[t := p']> ps)) in Hc by (intros c _; apply live_same; assumption).
      rewrite Ec. destruct (decide (w = t)) as [->|Hne]; [rewrite !fn_lookup_insert; lia|].
      rewrite !fn_lookup_insert_ne by congruence. lia.
    - (* spawn *)
      destruct (move_quiet _ _ _ _ _ Hm) as [[_ E]|(c1 & ks1 & E1 & E2 & Es & Ec)].
      { rewrite Ep in E. apply (f_equal length) in E. cbn in E. lia. }
      rewrite Ep in E1. injection E1 as <- <-.
      assert (Hk : In c (kids t)) by (apply (i_unsp _ _ Hi _ Ht); rewrite Ep; left; reflexivity).
      destruct (kid_in _ _ Ht Hk) as (Hct & Hcm & Hcne).
      assert (Hcf : started s c = false).
      { apply (i_started _ _ Hi c Hct Hcm). rewrite (kid_parent _ _ Ht Hk), Ep. left; reflexivity. }
      assert (Hl0 : live s ps c = 0) by (unfold live; rewrite Hcf; reflexivity).
      assert (Hl1 : live s' (<[t := PKids ks]> ps) c = 1).
      { unfold live. rewrite Es, fn_lookup_insert, fn_lookup_insert_ne by congruence.
        rewrite (i_fresh _ _ Hi c Hct Hcf). pose proof (start_not_end c). destruct (start c); reflexivity || congruence. }
      assert (Hld : forall d, d <> c -> live s ps d = live s' (<[t := PKids ks]> ps) d).
      { intros d Hd. unfold live. rewrite Es, fn_lookup_insert_ne by congruence.
        destruct (decide (d = t)) as [->|Hdt]; [rewrite fn_lookup_insert, Ep; reflexivity|].
        rewrite fn_lookup_insert_ne by congruence. reflexivity. }
      rewrite Ec, Hc. destruct (decide (w = t)) as [->|Hne].
      + rewrite fn_lookup_insert, Ep. cbn [is_sp].
        pose proof (nlive_change s ps s' (<[t := PKids ks]> ps) (kids t) c (tr_kids_nodup Htree t Ht) Hk (fun d _ => Hld d)). lia.
      + rewrite fn_lookup_insert_ne by congruence. f_equal. apply nlive_ext. intros d Hd. apply Hld.
        intros ->. apply Hne. rewrite <- (kid_parent _ _ Hw Hd). apply (kid_parent _ _ Ht Hk).
    - (* done *)
      assert (Es : started s' = started s) by (inversion Hm; reflexivity || congruence).
      destruct (tr_parent Htree t Ht Hne) as [Hp Hk].
      assert (Hl0 : live s ps t = 1) by (unfold live; rewrite Hst, Ep; reflexivity).
      assert (Hl1 : live s' (<[t := PEnd]> ps) t = 0).
      { unfold live. rewrite fn_lookup_insert, andb_false_r. reflexivity. }
      assert (Hld : forall d, d <> t -> live s ps d = live s' (<[t := PEnd]> ps) d).
      { intros d Hd. unfold live. rewrite Es, fn_lookup_insert_ne by congruence. reflexivity. }
      assert (Hsp : is_sp ((<[t := PEnd]> ps) w) = is_sp (ps w)).
      { destruct (decide (w = t)) as [->|Hd]; [rewrite fn_lookup_insert, Ep; reflexivity|].
        rewrite fn_lookup_insert_ne by congruence. reflexivity. }
      rewrite Ec, Hsp. destruct (decide (w = parent t)) as [->|Hwp].
      + rewrite fn_lookup_insert.
        pose proof (nlive_change s ps s' (<[t := PEnd]> ps) _ t (tr_kids_nodup Htree _ Hp) Hk (fun d _ => Hld d)). lia.
      + rewrite fn_lookup_insert_ne by congruence. rewrite Hc. f_equal. apply nlive_ext. intros d Hd. apply Hld.
        intros ->. apply Hwp. symmetry. apply (kid_parent _ _ Hw Hd).
    - assert (Es : started s' = started s) by (inversion Hm; reflexivity || congruence).
      rewrite Ec, Hc. f_equal.
      + apply nlive_ext. intros d Hd. destruct (kid_in _ _ Hw Hd) as (_ & Hdm & _).
        unfold live. rewrite Es, fn_lookup_insert_ne by congruence. reflexivity.
      + destruct (decide (w = main)) as [->|Hd]; [rewrite fn_lookup_insert, Ep; reflexivity|].
        rewrite fn_lookup_insert_ne by congruence. reflexivity.
  Qed.

  Lemma Inv_move s ps t s' p' : Inv s ps -> In t tids -> started s t = true -> move s ps t s' p' ->
    Inv s' (<[t := p']> ps).
  Proof.
    intros Hi Ht Hst Hm. constructor.
    - intros u Hu. rewrite (move_rem _ _ _ _ _ Hm). destruct (decide (u = t)) as [->|Hne].
      + rewrite !fn_lookup_insert. reflexivity.
      + rewrite !fn_lookup_insert_ne by congruence. apply (i_rem _ _ Hi), Hu.
    - destruct (move_quiet _ _ _ _ _ Hm) as [[-> _]|(c & ks & _ & _ & -> & _)]; [apply (i_main _ _ Hi)|].
      destruct (decide (main = c)) as [<-|Hne]; [apply fn_lookup_insert|].
      rewrite fn_lookup_insert_ne by congruence. apply (i_main _ _ Hi).
    - intros c Hc Hne. destruct (move_quiet _ _ _ _ _ Hm) as [[-> Eu]|(c0 & ks & Hp & -> & -> & _)].
      + rewrite (i_started _ _ Hi c Hc Hne). destruct (decide (parent c = t)) as [E|E].
        * rewrite E, fn_lookup_insert, Eu. reflexivity.
        * rewrite fn_lookup_insert_ne by congruence. reflexivity.
      + destruct (i_unsp _ _ Hi _ Ht) as [Hnd Hku]. rewrite Hp in Hnd, Hku. cbn [unspawned] in Hnd, Hku.
        inversion Hnd as [|? ? Hn0 Hn1]; subst. rewrite elem_of_list_In in Hn0.
        pose proof (kid_parent _ _ Ht (Hku c0 (or_introl eq_refl))) as Hpc.
        pose proof (i_started _ _ Hi c Hc Hne) as Hx.
        destruct (decide (c = c0)) as [->|Hcc].
        * rewrite fn_lookup_insert, Hpc, fn_lookup_insert. cbn [unspawned]. split; [discriminate|tauto].
        * rewrite fn_lookup_insert_ne by congruence. rewrite Hx.
          destruct (decide (parent c = t)) as [E|E].
          -- rewrite E, fn_lookup_insert, Hp. cbn [unspawned]. cbn. intuition congruence.
          -- rewrite fn_lookup_insert_ne by congruence. reflexivity.
    - intros c Hc Hf.
      assert (Hf' : started s c = false).
      { destruct (move_quiet _ _ _ _ _ Hm) as [[E _]|(c0 & ks & _ & _ & E & _)]; rewrite E in Hf; [exact Hf|].
        destruct (decide (c = c0)) as [->|Hne]; [rewrite fn_lookup_insert in Hf; discriminate|].
        rewrite fn_lookup_insert_ne in Hf by congruence. exact Hf. }
      rewrite fn_lookup_insert_ne by congruence. apply (i_fresh _ _ Hi c Hc Hf').
    - apply (Inv_cnt s ps t s' p' Hi Ht Hst Hm).
    - intros u Hu He c Hc. destruct (decide (c = t)) as [->|Hct].
      + exfalso. destruct (kid_in _ _ Hu Hc) as (_ & _ & Hne).
        rewrite fn_lookup_insert_ne in He by congruence.
        apply (move_not_end _ _ _ _ _ Hm). apply (i_late _ _ Hi u Hu He t Hc).
      + rewrite fn_lookup_insert_ne by congruence. destruct (decide (u = t)) as [->|Hut].
        * rewrite fn_lookup_insert in He. destruct (move_late _ _ _ _ _ Hm He) as [Hl|[Ep Ec]].
          -- apply (i_late _ _ Hi t Ht Hl c Hc).
          -- pose proof (i_cnt _ _ Hi t Ht) as Hn. rewrite Ec, Ep in Hn.
             pose proof (nlive_pos s ps (kids t) c Hc) as Hl.
             destruct (kid_in _ _ Ht Hc) as (Hci & Hcm & _).
             unfold live in Hl. destruct (started s c) eqn:Es.
             ++ destruct (ps c) eqn:E; cbn in Hl; lia || reflexivity.
             ++ apply (i_started _ _ Hi c Hci Hcm) in Es. rewrite (kid_parent _ _ Ht Hc), Ep in Es. destruct Es.
        * rewrite fn_lookup_insert_ne in He by congruence. apply (i_late _ _ Hi u Hu He c Hc).
    - intros u Hu. pose proof (i_owner _ _ Hi u Hu) as Hou. pose proof (i_owner _ _ Hi t Ht) as Hot.
      destruct (decide (u = t)) as [->|Hne].
      + rewrite fn_lookup_insert.
        destruct Hm as [c ks E|E Hc|c ks E|q qs E Ho|q qs E|qs E|n E Hn Hc|E Hn]; rewrite E in Hot; cbn in *; intuition congruence.
      + rewrite fn_lookup_insert_ne by congruence.
        destruct Hm as [c ks E|E Hc|c ks E|q qs E Ho|q qs E|qs E|n E Hn Hc|E Hn]; rewrite E in Hot; cbn in *; intuition congruence.
    - intros u Hu. destruct Hm as [c ks E|E Hc|c ks E|q qs E Ho|q qs E|qs E|n E Hn Hc|E Hn]; cbn in Hu; try (apply (i_owner_in _ _ Hi), Hu); try discriminate.
      injection Hu as <-. exact Ht.
    - intros k. rewrite <- (i_val _ _ Hi k).
      assert (Hgen : forall (V : gset K),
        (forall k, (k ∈ V \/ In k (pend t p')) <-> (k ∈ val s \/ In k (pend t (ps t)))) -> 
        (k ∈ V \/ exists u, In u tids /\ In k (pend u ((<[t:=p']> ps) u))) <->
        (k ∈ val s \/ exists u, In u tids /\ In k (pend u (ps u)))).
      { intros V HV. specialize (HV k). split; (intros [Hv|(u & Hu & Hk)]; 
          [|destruct (decide (u = t)) as [->|Hne]; [|rewrite ?fn_lookup_insert_ne in Hk by congruence]]).
        - destruct (proj1 HV (or_introl Hv)) as [?|?]; eauto.
        - rewrite fn_lookup_insert in Hk. destruct (proj1 HV (or_intror Hk)) as [?|?]; eauto.
        - eauto.
        - destruct (proj2 HV (or_introl Hv)) as [?|?]; [eauto|]. right. exists t. rewrite fn_lookup_insert. auto.
        - destruct (proj2 HV (or_intror Hk)) as [?|?]; [eauto|]. right. exists t. rewrite fn_lookup_insert. auto.
        - right. exists u. rewrite fn_lookup_insert_ne by congruence. auto. }
      apply Hgen. clear Hgen k. intros k.
      destruct Hm as [c ks E|E Hc|c ks E|q qs E Ho|q qs E|qs E|n E Hn Hc|E Hn]; rewrite E; cbn [val pend In]; try tauto.
      rewrite elem_of_union, elem_of_singleton. split; intuition congruence.
    - pose proof (i_result _ _ Hi) as Hr. pose proof (move_not_end _ _ _ _ _ Hm) as Hte.
      destruct (decide (main = t)) as [Em|Em].
      + rewrite <- Em in *. rewrite fn_lookup_insert.
        destruct (result s) as [V|] eqn:ER; [destruct Hr; congruence|].
        destruct Hm as [c ks E|E Hc|c ks E|q qs E Ho|q qs E|qs E|n E Hn Hc|E Hn]; cbn [result]; rewrite ?ER; try discriminate.
        * congruence.
        * split; reflexivity.
      + rewrite fn_lookup_insert_ne by congruence.
        destruct (result s) as [V|] eqn:ER.
        * destruct Hr as [Hr _]. exfalso. apply Hte. apply (all_end s ps Hi); [rewrite Hr; intros []|exact Ht|congruence].
        * destruct Hm as [c ks E|E Hc|c ks E|q qs E Ho|q qs E|qs E|n E Hn Hc|E Hn]; cbn [result]; rewrite ?ER; try exact Hr.
          congruence.
    - intros u Hu. destruct (decide (u = t)) as [->|Hne]; [|rewrite fn_lookup_insert_ne by congruence; apply (i_unsp _ _ Hi u Hu)].
      rewrite fn_lookup_insert. pose proof (i_unsp _ _ Hi t Ht) as [H1 H2].
      destruct (move_quiet _ _ _ _ _ Hm) as [[_ ->]|(c0 & ks & Hp & -> & _ & _)]; [split; assumption|].
      rewrite Hp in H1, H2. cbn [unspawned] in *. inversion H1; subst. split; [assumption|]. intros c Hc. apply H2. right. exact Hc.
    - intros u Hu. destruct (move_quiet _ _ _ _ _ Hm) as [[E _]|(c0 & ks & Hp & _ & E & _)]; rewrite E in Hu.
      + apply (i_in _ _ Hi), Hu.
      + destruct (decide (u = c0)) as [->|Hne].
        * apply (kid_in t c0 Ht). apply (i_unsp _ _ Hi t Ht). rewrite Hp. left. reflexivity.
        * rewrite fn_lookup_insert_ne in Hu by congruence. apply (i_in _ _ Hi), Hu.
  Qed.

  Lemma Inv_step s ps s' : Inv s ps -> fstep s s' -> exists ps', Inv s' ps'.
  Proof.
    intros Hi Hs. destruct (step_move _ _ _ Hi Hs) as (t & p' & Ht & Hst & Hm).
    eexists. apply (Inv_move s ps t s' p'); assumption.
  Qed.

  Lemma Inv_rtc s s' : rtc fstep s s' -> forall ps, Inv s ps -> exists ps', Inv s' ps'.
  Proof.
    induction 1 as [s|s s1 s2 Hs _ IH]; intros ps Hi; [eauto|].
    destruct (Inv_step _ _ _ Hi Hs) as [ps1 Hi1]. apply (IH ps1 Hi1).
  Qed.

  Lemma Inv_reach s : rtc fstep (finit main) s -> exists ps, Inv s ps.
  Proof. intros Hr. apply (Inv_rtc _ _ Hr start), Inv_init. Qed.

  (** ** What every schedule gives *)
  Theorem fj_result s V : rtc fstep (finit main) s -> result s = Some V ->
    forall k, k ∈ V <-> exists t, In t tids /\ In k (puts t).
  Proof.
    intros Hr HV k. destruct (Inv_reach s Hr) as [ps Hi].
    pose proof (i_result _ _ Hi) as Hres. rewrite HV in Hres. destruct Hres as [Hm ->].
    rewrite <- (i_val _ _ Hi k). split; [auto|]. intros [Hk|(t & Ht & Hk)]; [exact Hk|]. exfalso.
    destruct (decide (t = main)) as [->|Hne]; [rewrite Hm in Hk; destruct Hk|].
    rewrite (all_end s ps Hi) in Hk by (assumption || (rewrite Hm; intros [])). destruct Hk.
  Qed.

  Theorem fj_norace s : rtc fstep (finit main) s -> ~ race s.
  Proof.
    intros Hr (t & u & Hne & Ht & Hu & Htt & Htu). destruct (Inv_reach s Hr) as [ps Hi].
    pose proof (i_in _ _ Hi t Ht) as It. pose proof (i_in _ _ Hi u Hu) as Iu.
    assert (Hx : forall x, In x tids -> touches (rem s x) -> holds (ps x) \/ (x = main /\ ps x = PPuts [])).
    { intros x Ix Hx. rewrite (i_rem _ _ Hi x Ix) in Hx. destruct (ps x) as [[|c' ks]|c' ks|[|q qs]|q qs|qs|]; cbn in Hx; try (destruct Hx; fail); auto.
      - unfold last_act in Hx. destruct (decide (x = main)); [auto|destruct Hx]. }
    assert (Hmain : forall x, In x tids -> x <> main -> ps main = PPuts [] -> ~ holds (ps x)).
    { intros x Ix Hxm Hm. rewrite (all_end s ps Hi) by (assumption || (rewrite Hm; intros [])). intros []. }
    destruct (Hx t It Htt) as [H1|[-> H1]], (Hx u Iu Htu) as [H2|[-> H2]].
    - apply (i_owner _ _ Hi) in H1, H2; [congruence|assumption..].
    - apply (Hmain t It Hne H2 H1).
    - apply (Hmain u Iu (not_eq_sym Hne) H1 H2).
    - congruence.
  Qed.

  Theorem fj_nopanic s : rtc fstep (finit main) s -> ~ panics s.
  Proof.
    intros Hr (t & p & Ht & Hp). destruct (Inv_reach s Hr) as [ps Hi].
    pose proof (i_in _ _ Hi t Ht) as It. destruct Hp as [(w & Hr1 & Hc)|[Hr1 Ho]]; rewrite (i_rem _ _ Hi t It) in Hr1.
    - destruct (ps t) as [[|c' ks]|c' ks|[|q qs]|q qs|qs|] eqn:Ep; cbn [render spawns flat_map app tailp lockputs] in Hr1; try discriminate.
      unfold last_act in Hr1. destruct (decide (t = main)); [discriminate|]. injection Hr1 as <- _.
      destruct (tr_parent Htree t It n) as [Hpi Hk]. pose proof (i_cnt _ _ Hi _ Hpi) as Hn.
      pose proof (nlive_pos s ps _ t Hk) as Hl. unfold live in Hl. rewrite Ht, Ep in Hl. cbn in Hl. lia.
    - destruct (ps t) as [[|c' ks]|c' ks|[|q qs]|q qs|qs|] eqn:Ep; cbn [render spawns flat_map app tailp lockputs] in Hr1; try discriminate.
      + unfold last_act in Hr1. destruct (decide (t = main)); discriminate.
      + assert (Hh : holds (ps t)) by (rewrite Ep; exact I). apply (i_owner _ _ Hi t It) in Hh. congruence.
  Qed.

  (** A goroutine that is not at its end can move, unless it waits for the mutex or for a child. *)
  Lemma can_move s ps t : Inv s ps -> In t tids -> started s t = true -> (forall s', ~ fstep s s') ->
    ps t = PEnd \/ (exists q qs, ps t = PPuts (q :: qs) /\ is_Some (owner s)) \/
    (exists c, In c (kids t) /\ started s c = true /\ ps c <> PEnd).
  Proof.
    intros Hi It Ht Hno. pose proof (i_rem _ _ Hi t It) as Hrem.
    destruct (ps t) as [[|c' ks]|c' ks|[|q qs]|q qs|qs|] eqn:Ep; cbn [render spawns flat_map app tailp lockputs] in Hrem.
    - destruct (cnt s t) as [|n] eqn:Ec.
      + exfalso. eapply Hno. eapply f_wait; eassumption.
      + right. right. pose proof (i_cnt _ _ Hi t It) as Hn. rewrite Ec, Ep in Hn. cbn in Hn.
        assert (Hex : forall cs, 0 < nlive s ps cs -> exists c, In c cs /\ started s c = true /\ ps c <> PEnd).
        { induction cs as [|c cs IHc]; cbn; [lia|]. intros Hl.
          change (foldr Init.Nat.add 0 ?l) with (list_sum l) in Hl. fold (nlive s ps cs) in Hl.
          unfold live at 1 in Hl. destruct (started s c) eqn:Es, (is_end (ps c)) eqn:Ee; cbn [andb negb] in Hl.
          - destruct IHc as (d & ? & ? & ?); [lia|]. eauto.
          - exists c. split; [auto|]. split; [exact Es|]. intros E. rewrite E in Ee. discriminate.
          - destruct IHc as (d & ? & ? & ?); [lia|]. eauto.
          - destruct IHc as (d & ? & ? & ?); [lia|]. eauto. }
        apply Hex. lia.
    - exfalso. eapply Hno. eapply f_add; eassumption.
    - exfalso. eapply Hno. eapply f_spawn; eassumption.
    - exfalso. unfold last_act in Hrem. destruct (decide (t = main)).
      + eapply Hno. eapply f_read; eassumption.
      + destruct (cnt s (parent t)) as [|n'] eqn:Ec; [|eapply Hno; eapply f_done; eassumption].
        destruct (tr_parent Htree t It n) as [Hpi Hk]. pose proof (i_cnt _ _ Hi _ Hpi) as Hn.
        pose proof (nlive_pos s ps _ t Hk) as Hl. unfold live in Hl. rewrite Ht, Ep in Hl. cbn in Hl. lia.
    - destruct (owner s) as [u|] eqn:Eo; [right; left; eauto|].
      exfalso. eapply Hno. eapply f_lock; eassumption.
    - exfalso. eapply Hno. eapply f_put; eassumption.
    - exfalso. assert (Hh : holds (ps t)) by (rewrite Ep; exact I). apply (i_owner _ _ Hi t It) in Hh.
      eapply Hno. eapply f_unlock; eauto.
    - left. reflexivity.
  Qed.

  Theorem fj_progress s : rtc fstep (finit main) s -> (forall s', ~ fstep s s') ->
    is_Some (result s) /\ owner s = None /\ forall t, In t tids -> rem s t = [] /\ started s t = true.
  Proof.
    intros Hr Hno. destruct (Inv_reach s Hr) as [ps Hi].
    assert (Ho : owner s = None).
    { destruct (owner s) as [u|] eqn:Eo; [|reflexivity]. exfalso.
      pose proof (i_owner_in _ _ Hi u Eo) as Iu. pose proof (proj1 (i_owner _ _ Hi u Iu) Eo) as Hh.
      assert (Hu : started s u = true).
      { destruct (started s u) eqn:Es; [reflexivity|]. rewrite (i_fresh _ _ Hi u Iu Es) in Hh.
        unfold start in Hh. destruct (leaf u); destruct Hh. }
      pose proof (i_rem _ _ Hi u Iu) as Hrem. destruct (ps u) eqn:Ep; try (destruct Hh; fail); cbn in Hrem.
      - eapply Hno. eapply f_put; eassumption.
      - eapply Hno. eapply f_unlock; eauto. }
    assert (Hdown : forall n t, rank t <= n -> In t tids -> started s t = true -> ps t = PEnd).
    { induction n as [|n IH]; intros t Hn It Ht;
        destruct (can_move s ps t Hi It Ht Hno) as [He|[(q & qs & _ & [u Hu])|(c & Hc & Hsc & Hce)]]; auto; try congruence.
      - pose proof (tr_kids Htree t c It Hc) as (_ & _ & _ & Hrk). lia.
      - exfalso. apply Hce. pose proof (tr_kids Htree t c It Hc) as (Hci & _ & _ & Hrk). apply IH; [lia|assumption..]. }
    assert (Hall : forall t, In t tids -> started s t = true /\ ps t = PEnd).
    { apply up_ind.
      - pose proof (i_main _ _ Hi) as Hm. split; [exact Hm|]. apply (Hdown (rank main)); [lia|apply (tr_main Htree)|exact Hm].
      - intros c Hc Hne [_ Hp].
        assert (Hs : started s c = true).
        { destruct (started s c) eqn:Es; [reflexivity|]. apply (i_started _ _ Hi c Hc Hne) in Es. rewrite Hp in Es. destruct Es. }
        split; [exact Hs|]. apply (Hdown (rank c)); [lia|assumption..]. }
    repeat split.
    - pose proof (i_result _ _ Hi) as Hres. destruct (result s); [eauto|]. exfalso. apply Hres, Hall, (tr_main Htree).
    - exact Ho.
    - rewrite (i_rem _ _ Hi t H0). destruct (Hall t H0) as [_ ->]. reflexivity.
    - apply Hall, H0.
  Qed.

  (** Every schedule is finite. *)
  Definition fmeasure (s : fj) : nat := list_sum (map (fun t => length (rem s t)) tids).

  Lemma fmeasure_step s ps s' : Inv s ps -> fstep s s' -> fmeasure s' < fmeasure s.
  Proof.
    intros Hi Hs.
    assert (Hx : exists t a p, In t tids /\ rem s t = a :: p /\ rem s' = <[t := p]> (rem s)).
    { destruct Hs as [t p s Ht Hr Ho|t p k s Ht Hr|t p s Ht Hr Ho|t p w s Ht Hr|t p c s Ht Hr|t p w s Ht Hr Hc|t p w n s Ht Hr Hc|t p s Ht Hr];
        exists t; do 2 eexists; (split; [apply (i_in _ _ Hi t Ht)|]); (split; [exact Hr|reflexivity]). }
    destruct Hx as (t & a & p & It & Hr & Hr'). unfold fmeasure. rewrite Hr'.
    pose proof (tr_nodup Htree) as Hn. revert It Hn. clear - Hr. induction tids as [|u us IH]; intros It Hn; [destruct It|].
    inversion Hn as [|? ? Hu Hn']; subst. cbn [map list_sum foldr].
    change (foldr Init.Nat.add 0 ?l) with (list_sum l).
    destruct (decide (u = t)) as [->|Hne].
    - rewrite fn_lookup_insert, Hr. cbn [length].
      assert (E : map (fun t0 => length ((<[t := p]> (rem s)) t0)) us = map (fun t0 => length (rem s t0)) us).
      { apply map_ext_in. intros b Hb. rewrite fn_lookup_insert_ne; [reflexivity|]. intros ->. apply Hu, elem_of_list_In, Hb. }
      rewrite E. lia.
    - rewrite fn_lookup_insert_ne by congruence. destruct It as [->|It]; [congruence|]. specialize (IH It Hn'). lia.
  Qed.

  Theorem fj_terminates s n : nsteps fstep n (finit main) s -> n <= fmeasure (finit main).
  Proof.
    assert (Hg : forall n s0 ps, Inv s0 ps -> nsteps fstep n s0 s -> n <= fmeasure s0).
    { clear n. induction n as [|n IH]; intros s0 ps Hi Hn; [lia|].
      inversion Hn as [|? ? s1 ? Hs Hn']; subst. destruct (Inv_step _ _ _ Hi Hs) as [ps1 Hi1].
      pose proof (fmeasure_step _ _ _ Hi Hs). specialize (IH s1 ps1 Hi1 Hn'). lia. }
    apply (Hg n (finit main) start), Inv_init.
  Qed.
End FJ.
