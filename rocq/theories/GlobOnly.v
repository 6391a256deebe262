(** C86, completed: every prefix with a metacharacter gives a wrong result in some directory. *)
From Verif Require Import Base BaseLemmas BinvoxModel Geom VshellModel VshellCodec StldiceModel CmdMergeModel CmdMergeProps StlMerge CmdStlModel GlobModel GlobProps.
From Coq Require Import ZArith QArith List Bool String Init.Byte Lia.
From stdpp Require Import base list gmap sets sorting relations.
Import ListNotations.
Open Scope Z_scope.
#[local] Open Scope byte_scope.

(** How many characters a pattern needs at least. *)
Fixpoint needs (ts : list term) : nat := match ts with [] => 0%nat | TStar :: ts => needs ts | _ :: ts => S (needs ts) end.

Lemma needs_lits p : needs (map TLit p) = length p.
Proof. induction p as [|c p IH]; [reflexivity|]. cbn. rewrite IH. reflexivity. Qed.

Lemma omap_some {A B} (f : A -> B) o y : option_map f o = Some y -> exists x, o = Some x /\ y = f x.
Proof. destruct o; [|discriminate]. intros H. injection H as <-. eauto. Qed.

Lemma open_end r ext ts neg rs first : ~ List.In "]" ext -> (r = "*" :: ext \/ r = ext) -> parse (InClass neg rs first) r = Some ts -> False.
Proof. intros He Hr H. rewrite parse_open in H; [discriminate H|]. destruct Hr as [-> | ->]; [|exact He]. intros [X|X]; [discriminate X|contradiction]. Qed.

Lemma needs_le ext : plain ext -> ~ List.In "]" ext -> forall k r, (length r <= k)%nat ->
  (forall ts, parse Outside (r ++ "*" :: ext) = Some ts -> (needs ts <= length r + length ext)%nat) /\
  (forall neg rs first ts, parse (InClass neg rs first) (r ++ "*" :: ext) = Some ts -> (needs ts <= length r + length ext)%nat).
Proof.
  intros Hp He. assert (Ee : parse Outside ext = Some (map TLit ext)).
  { pose proof (parse_plain ext [] Hp) as E. rewrite app_nil_r in E. rewrite E. cbn [parse option_map]. rewrite app_nil_r. reflexivity. }
  induction k as [|k IH]; intros r Hk.
  - destruct r; [|cbn in Hk; lia]. split.
    + intros ts H. cbn [app] in H. rewrite parse_tail in H by exact Hp. injection H as <-. cbn [needs length]. rewrite needs_lits. lia.
    + intros neg rs first ts H. exfalso. eapply open_end; [exact He|left; reflexivity|exact H].
  - destruct r as [|c r].
    { split.
      + intros ts H. cbn [app] in H. rewrite parse_tail in H by exact Hp. injection H as <-. cbn [needs length]. rewrite needs_lits. lia.
      + intros neg rs first ts H. exfalso. eapply open_end; [exact He|left; reflexivity|exact H]. }
    cbn [length] in Hk. assert (Hk' : (length r <= k)%nat) by lia. destruct (IH r Hk') as [IO IC]. cbn [app length]. split.
    + intros ts H. cbn [parse] in H. destruct (Byte.eqb c "*"); [apply omap_some in H as (x & H & ->); apply IO in H; cbn [needs]; lia|].
      destruct (Byte.eqb c "?"); [apply omap_some in H as (x & H & ->); apply IO in H; cbn [needs]; lia|].
      destruct (Byte.eqb c "\").
      { destruct r as [|e r]; cbn [app] in H; apply omap_some in H as (x & H & ->); cbn [needs length] in *.
        - rewrite Ee in H. injection H as <-. rewrite needs_lits. lia.
        - apply (IH r) in H; lia. }
      destruct (Byte.eqb c "["); [|apply omap_some in H as (x & H & ->); apply IO in H; cbn [needs]; lia].
      destruct r as [|e r]; cbn [app] in H.
      { exfalso. destruct (Byte.eqb "*" "^"); (eapply open_end; [exact He| |exact H]); [right|left]; reflexivity. }
      cbn [length] in *. destruct (Byte.eqb e "^").
      * apply (IH r) in H; lia.
      * apply (IC false [] None) in H. lia.
    + assert (G : forall neg rs first ts,
        (if Byte.eqb c "]" then match all_ranges rs first with [] => None | rs' => option_map (cons (TClass neg rs')) (parse Outside (r ++ "*" :: ext)) end
         else if Byte.eqb c "-" then None
         else if Byte.eqb c "\" then match r ++ "*" :: ext with [] => None | e :: p'' => parse (InClass neg (all_ranges rs first) (Some e)) p'' end
         else parse (InClass neg (all_ranges rs first) (Some c)) (r ++ "*" :: ext)) = Some ts -> (needs ts <= S (length r) + length ext)%nat).
      { intros neg rs first ts H. destruct (Byte.eqb c "]").
        { destruct (all_ranges rs first); [discriminate H|]. apply omap_some in H as (x & H & ->). apply IO in H. cbn [needs]. lia. }
        destruct (Byte.eqb c "-"); [discriminate H|]. destruct (Byte.eqb c "\").
        - destruct r as [|e r]; cbn [app] in H; [exfalso; eapply open_end; [exact He|right; reflexivity|exact H]|]. cbn [length] in *. apply (IH r) in H; lia.
        - apply IC in H. lia. }
      intros neg rs first ts H. cbn [parse] in H. destruct first as [lo|]; [|exact (G _ _ None _ H)]. destruct (Byte.eqb c "-") eqn:Ec.
      2:{ exact (G neg rs (Some lo) ts H). }
      destruct r as [|h r]; cbn [app] in H.
      { replace (Byte.eqb "*" "-" || Byte.eqb "*" "]") with false in H by reflexivity. replace (Byte.eqb "*" "\") with false in H by reflexivity.
        exfalso. eapply open_end; [exact He|right; reflexivity|exact H]. }
      cbn [length] in *. destruct (Byte.eqb h "-" || Byte.eqb h "]"); [discriminate H|]. destruct (Byte.eqb h "\").
      * destruct r as [|e r]; cbn [app] in H; [exfalso; eapply open_end; [exact He|right; reflexivity|exact H]|]. cbn [length] in *. apply (IH r) in H; lia.
      * apply (IH r) in H; lia.
Qed.

(** Characters that may make a pattern shorter than its text. *)
Definition shortens (c : byte) : bool := Byte.eqb c "*" || Byte.eqb c "[" || Byte.eqb c "\".

Lemma needs_lt ext prefix ts : plain ext -> ~ List.In "]" ext -> existsb shortens prefix = true -> parse Outside (prefix ++ "*" :: ext) = Some ts ->
  (needs ts < length prefix + length ext)%nat \/ exists p, prefix = p ++ ["\"] /\ existsb shortens p = false.
Proof.
  intros Hp He. pose proof (needs_le ext Hp He) as B. revert ts. induction prefix as [|c r IH]; [discriminate|]. intros ts Hs H. cbn [existsb] in Hs. cbn [app length].
  cbn [app parse] in H. unfold shortens in Hs at 1. destruct (Byte.eqb c "*") eqn:E1; [left; apply omap_some in H as (x & H & ->); apply (B (length r) r) in H; [cbn [needs]; lia|lia]|].
  assert (G : option_map (cons (if Byte.eqb c "?" then TAny else TLit c)) (parse Outside (r ++ "*" :: ext)) = Some ts -> Byte.eqb c "[" = false -> Byte.eqb c "\" = false ->
    (needs ts < S (length r) + length ext)%nat \/ exists p, c :: r = p ++ ["\"] /\ existsb shortens p = false).
  { intros X X1 X2. rewrite X1, X2 in Hs. apply omap_some in X as (x & X & ->). destruct (IH x Hs X) as [L|(p & -> & L)].
    - left. destruct (Byte.eqb c "?"); cbn [needs]; lia.
    - right. exists (c :: p). split; [reflexivity|]. cbn [existsb]. unfold shortens at 1. rewrite E1, X1, X2, L. reflexivity. }
  destruct (Byte.eqb c "?") eqn:E2.
  { apply eqb_true in E2. subst c. apply G; [exact H|reflexivity|reflexivity]. }
  destruct (Byte.eqb c "\") eqn:E3.
  { apply eqb_true in E3. subst c. destruct r as [|e r]; cbn [app] in H; [right; exists []; auto|].
    left. apply omap_some in H as (x & H & ->). cbn [length needs] in *. apply (B (length r) r) in H; lia. }
  destruct (Byte.eqb c "[") eqn:E4.
  { left. destruct r as [|e r]; cbn [app] in H.
    - exfalso. destruct (Byte.eqb "*" "^"); (eapply open_end; [exact He| |exact H]); [right|left]; reflexivity.
    - cbn [length]. destruct (Byte.eqb e "^").
      + apply (B (length r) r) in H; lia.
      + change (e :: r ++ "*" :: ext) with ((e :: r) ++ "*" :: ext) in H. apply (B (S (length r)) (e :: r)) in H; cbn [length] in *; lia. }
  apply G; [exact H|reflexivity|reflexivity].
Qed.

(** Every term but * that a character other than the slash can match. *)
Definition every_byte : list byte := map z2b (seqZ 0 256).
Definition possible (t : term) : bool := match t with TStar => true | _ => existsb (fun c => negb (Byte.eqb c "/") && term_matches t c) every_byte end.
Lemma every_byte_all c : List.In c every_byte.
Proof. unfold every_byte. rewrite <- (z2b_b2z c). apply in_map, elem_of_list_In, elem_of_seqZ. destruct c; vm_compute; split; congruence. Qed.

Lemma shortest ts : forallb possible ts = true -> exists n, match_terms ts n = true /\ length n = needs ts /\ ~ List.In "/" n.
Proof.
  induction ts as [|t ts IH]; intros H; [exists []; auto|]. cbn [forallb] in H. apply andb_true_iff in H as [Ht H]. destruct (IH H) as (n & Hm & Hl & Hs).
  assert (G : t <> TStar -> exists n, match_terms (t :: ts) n = true /\ length n = needs (t :: ts) /\ ~ List.In "/" n).
  { intros Nt. assert (Hc : exists c, c <> "/" /\ term_matches t c = true).
    { destruct t; [contradiction|..]; cbn [possible] in Ht; apply existsb_exists in Ht as (c1 & _ & Hc); apply andb_true_iff in Hc as [H1 H2]; exists c1; (split; [intros ->; discriminate H1|exact H2]). }
    destruct Hc as (c & Hc & Hm'). exists (c :: n). split; [apply match_one; eauto|]. split.
    - destruct t; [contradiction|..]; cbn [length needs]; rewrite Hl; reflexivity.
    - intros [X|X]; [apply Hc; exact X|contradiction]. }
  destruct t; [|apply G; discriminate..]. exists n. split; [|auto]. apply match_star. exists [], n. split; [reflexivity|]. split; [intros []|exact Hm].
Qed.
Lemma impossible ts n : forallb possible ts = false -> ~ List.In "/" n -> match_terms ts n = false.
Proof.
  revert n. induction ts as [|t ts IH]; intros n H Hs; [discriminate H|]. cbn [forallb] in H. destruct (match_terms (t :: ts) n) eqn:Em; [|reflexivity]. exfalso.
  assert (G : t <> TStar -> False).
  { intros Nt. apply match_one in Em as (c & r & -> & Hc & Hm); [|exact Nt]. destruct (possible t) eqn:Ep.
    - rewrite (IH r H) in Hm; [discriminate Hm|]. intros X. apply Hs. right. exact X.
    - assert (X : existsb (fun c => negb (Byte.eqb c "/") && term_matches t c) every_byte = true).
      { apply existsb_exists. exists c. split; [apply every_byte_all|]. rewrite Hc, eqb_ne; [reflexivity|]. intros ->. apply Hs. left. reflexivity. }
      destruct t; [contradiction|..]; cbn [possible] in Ep; congruence. }
  destruct t; [|apply G; discriminate..]. cbn [possible andb] in H. apply match_star in Em as (a & b0 & -> & _ & Hm). rewrite (IH b0 H) in Hm; [discriminate Hm|].
  intros X. apply Hs. apply in_or_app. right. exact X.
Qed.

Lemma match_aligned p ts r : existsb shortens p = false -> match_terms (map wild_term p ++ ts) (p ++ r) = true -> match_terms ts r = true.
Proof.
  induction p as [|c p IH]; intros Hs H; [exact H|]. cbn [existsb] in Hs. apply orb_false_iff in Hs as [H1 H2]. unfold shortens in H1. apply orb_false_iff in H1 as [H1 _]. apply orb_false_iff in H1 as [H1 _].
  cbn [map app] in H. unfold wild_term in H at 1. rewrite H1 in H. apply match_one in H; [|destruct (Byte.eqb c "?"); discriminate]. destruct H as (c' & r' & E & _ & H). injection E as <- <-. apply IH; assumption.
Qed.

(** For every prefix with *, ?, [ or \ in it there is a directory with one file in which the command does not take the right files: the
    one whose name begins with the prefix and ends with the extension, and no other. *)
Theorem C86_only_plain prefix ext : ~ List.In "/" prefix -> plain ext -> ~ List.In "]" ext -> ~ List.In "/" ext ->
  (exists c, List.In c prefix /\ (c = "*" \/ c = "?" \/ c = "[" \/ c = "\")) ->
  exists n, in_directory [n] /\ filepath_Glob [n] (prefix ++ "*" :: ext) <> Some (Glob [n] prefix ext).
Proof.
  intros Hsl Hp He Hse Hm.
  assert (D : forall n, ~ List.In "/" n -> in_directory [n]) by (intros n H m [<-|[]]; exact H).
  destruct (parse Outside (prefix ++ "*" :: ext)) as [ts|] eqn:E.
  2:{ exists []. split; [apply D; intros []|]. unfold filepath_Glob. rewrite E. discriminate. }
  assert (G : forall n, ~ List.In "/" n -> match_terms ts n <> matches prefix ext n -> exists n, in_directory [n] /\ filepath_Glob [n] (prefix ++ "*" :: ext) <> Some (Glob [n] prefix ext)).
  { intros n Hn Hd. exists n. split; [apply D, Hn|]. unfold filepath_Glob, Glob. rewrite E. intros X. injection X as X. apply Hd. apply eq_true_iff_eq.
    assert (Y : List.In n (merge_sort name_le (filter (fun n => match_terms ts n = true) [n])) <-> List.In n (merge_sort name_le (filter (fun n => matches prefix ext n = true) [n]))) by (rewrite X; reflexivity).
    rewrite <- !elem_of_list_In, !merge_sort_Permutation, !elem_of_list_filter in Y. assert (n ∈ [n]) by (left; reflexivity). tauto. }
  assert (Own : ~ List.In "/" (prefix ++ ext)) by (intros X; apply in_app_or in X as [X|X]; contradiction).
  destruct (existsb shortens prefix) eqn:Es.
  - destruct (needs_lt ext prefix ts Hp He Es E) as [L|(p & -> & Hp')].
    + destruct (forallb possible ts) eqn:Ef.
      * destruct (shortest ts Ef) as (n & H1 & H2 & H3). apply (G n H3). rewrite H1. intros X. symmetry in X. apply matches_spec in X as (mid & ->). rewrite !app_length in H2. lia.
      * apply (G (prefix ++ ext) Own). rewrite (impossible ts _ Ef Own). intros X. symmetry in X. apply not_true_iff_false in X. apply X, matches_spec. exists []. reflexivity.
    + apply (G ((p ++ ["\"]) ++ ext) Own). assert (Ets : ts = map wild_term p ++ TLit "*" :: map TLit ext).
      { rewrite <- app_assoc in E. rewrite parse_wild in E.
        2:{ intros c Hc. assert (X : shortens c = false) by (destruct (shortens c) eqn:Y; [|reflexivity]; rewrite <- Hp'; symmetry; apply existsb_exists; eauto). split; intros ->; discriminate X. }
        change (parse Outside (["\"] ++ "*" :: ext)) with (option_map (cons (TLit "*")) (parse Outside ext)) in E.
        pose proof (parse_plain ext [] Hp) as Ep. rewrite app_nil_r in Ep. rewrite Ep in E. cbn [parse option_map] in E. rewrite app_nil_r in E. injection E as <-. reflexivity. }
      intros X. assert (Y : matches (p ++ ["\"]) ext ((p ++ ["\"]) ++ ext) = true) by (apply matches_spec; exists []; reflexivity). rewrite Y in X. rewrite Ets, <- app_assoc in X.
      apply match_aligned in X; [|exact Hp']. discriminate X.
  - assert (Hw : wild prefix).
    { intros c Hc. assert (X : shortens c = false) by (destruct (shortens c) eqn:Y; [|reflexivity]; rewrite <- Es; symmetry; apply existsb_exists; eauto). split; intros ->; discriminate X. }
    destruct Hm as (c & Hc & Hm). destruct (C86_foreign prefix ext Hw) as (n & H1 & H2 & H3); [|exact Hp|].
    { destruct (Hw c Hc). destruct Hm as [-> |[-> |[-> | ->]]]; [left; exact Hc|right; exact Hc|contradiction|contradiction]. }
    assert (Hn : ~ List.In "/" n) by (intros X; apply H2 in X as [X|X]; contradiction). apply (G n Hn).
    destruct (H3 [n] (or_introl eq_refl)) as (found & Ef & Hf). unfold filepath_Glob in Ef. rewrite E in Ef. injection Ef as <-.
    rewrite <- elem_of_list_In, merge_sort_Permutation, elem_of_list_filter in Hf. destruct Hf as [Hf _]. rewrite Hf. intros X. symmetry in X. apply matches_spec in X as (mid & X). apply H1. eauto.
Qed.
Print Assumptions C86_only_plain.

(** ** Classes with ranges, and negated classes *)
(** An item of a class: one character, or a range of characters. *)
Inductive item := One (c : byte) | Range (lo hi : byte).
Definition item_text (i : item) : list byte := match i with One c => [c] | Range lo hi => [lo; "-"; hi] end.
Definition in_item (i : item) (c : byte) : Prop := match i with One d => c = d | Range lo hi => (b2z lo <= b2z c <= b2z hi)%Z end.
Definition ordinary (c : byte) : Prop := c <> "]" /\ c <> "\" /\ c <> "-".
Definition item_ok (i : item) : Prop := match i with One c => ordinary c | Range lo hi => ordinary lo /\ ordinary hi end.

Lemma in_class_range c rs first : existsb (in_range c) (all_ranges rs first) = true <-> existsb (in_range c) rs = true \/ first = Some c.
Proof.
  destruct first as [d|]; cbn [all_ranges existsb].
  - rewrite orb_true_iff, in_range_one. split; intros [H|H]; auto.
    + subst d. auto.
    + left. injection H as ->. reflexivity.
  - split; [auto|]. intros [H|H]; [exact H|discriminate H].
Qed.

Lemma parse_items neg items q : List.Forall item_ok items -> forall rs first, (items <> [] \/ all_ranges rs first <> []) ->
  exists R, parse (InClass neg rs first) (flat_map item_text items ++ "]" :: q) = option_map (cons (TClass neg R)) (parse Outside q) /\
    forall c, existsb (in_range c) R = true <-> existsb (in_range c) (all_ranges rs first) = true \/ exists i, List.In i items /\ in_item i c.
Proof.
  induction items as [|i items IH]; intros Ho rs first Hne.
  - destruct (parse_class neg [] q ltac:(intros c []) rs first) as (R & E & HR); [destruct Hne as [Hne|Hne]; [contradiction|right; exact Hne]|].
    exists R. split; [exact E|]. intros c. rewrite HR. split; (intros [H|H]; [left; exact H|]); [destruct H|destruct H as (? & [] & _)].
  - inversion Ho as [|? ? Hi Ho']. subst. destruct i as [d|lo hi]; cbn [item_ok] in Hi.
    + destruct Hi as (H1 & H2 & H3). destruct (IH Ho' (all_ranges rs first) (Some d)) as (R & E & HR); [right; discriminate|]. exists R. split.
      * cbn [flat_map item_text app parse]. rewrite !eqb_ne by assumption. rewrite <- E. destruct first; reflexivity.
      * intros c. rewrite HR, in_class_range. split.
        -- intros [[H|H]|(j & Hj & Hc)]; [left; exact H|injection H as ->; right; exists (One c); split; [left; reflexivity|reflexivity]|right; exists j; split; [right; exact Hj|exact Hc]].
        -- intros [H|(j & [<-|Hj] & Hc)]; [left; left; exact H|left; right; cbn in Hc; subst d; reflexivity|right; eauto].
    + destruct Hi as ((H1 & H2 & H3) & (G1 & G2 & G3)). destruct (IH Ho' ((lo, hi) :: all_ranges rs first) None) as (R & E & HR); [right; discriminate|]. exists R. split.
      * cbn [flat_map item_text app parse]. rewrite (eqb_ne lo "-"), (eqb_ne lo "]"), (eqb_ne lo "\") by assumption. replace (Byte.eqb "-" "-") with true by reflexivity.
        rewrite (eqb_ne hi "-"), (eqb_ne hi "]"), (eqb_ne hi "\") by assumption. cbn [orb]. rewrite <- E. destruct first; reflexivity.
      * intros c. rewrite HR. cbn [all_ranges existsb]. rewrite orb_true_iff. unfold in_range at 1. cbn [fst snd]. rewrite andb_true_iff, !Z.leb_le. split.
        -- intros [[H|H]|(j & Hj & Hc)]; [right; exists (Range lo hi); split; [left; reflexivity|exact H]|left; exact H|right; exists j; split; [right; exact Hj|exact Hc]].
        -- intros [H|(j & [<-|Hj] & Hc)]; [left; right; exact H|left; left; exact Hc|right; eauto].
Qed.

(** The text of a class, with a caret in front if it is negated. *)
Definition class_of (negated : bool) (items : list item) : list byte := "[" :: (if negated then ["^"] else []) ++ flat_map item_text items ++ ["]"].

(** With a class in the prefix, exactly the files are taken that have in its place one of its characters, or none of them if it is negated. *)
Theorem C86_class_any names p negated items q ext : plain p -> items <> [] -> List.Forall item_ok items ->
  (negated = false -> List.hd "a" (flat_map item_text items) <> "^") -> plain q -> plain ext -> in_directory names ->
  exists found, filepath_Glob names ((p ++ class_of negated items ++ q) ++ "*" :: ext) = Some found /\
    finds names (fun n => exists c mid, (if negated then ~ exists i, List.In i items /\ in_item i c else exists i, List.In i items /\ in_item i c) /\ n = p ++ c :: q ++ mid ++ ext) found.
Proof.
  intros Hp Hne Ho Hd Hq He Hn. unfold filepath_Glob, class_of.
  replace ((p ++ ("[" :: (if negated then ["^"] else []) ++ flat_map item_text items ++ ["]"]) ++ q) ++ "*" :: ext)
    with (p ++ "[" :: (if negated then ["^"] else []) ++ flat_map item_text items ++ "]" :: q ++ "*" :: ext)
    by (destruct negated; cbn [app]; rewrite <- !app_assoc; cbn [app]; rewrite <- !app_assoc; reflexivity).
  rewrite parse_plain by exact Hp. destruct (parse_items negated items (q ++ "*" :: ext) Ho [] None) as (R & E & HR); [left; exact Hne|].
  assert (Ep : parse Outside ("[" :: (if negated then ["^"] else []) ++ flat_map item_text items ++ "]" :: q ++ "*" :: ext) = parse (InClass negated [] None) (flat_map item_text items ++ "]" :: q ++ "*" :: ext)).
  { destruct negated; [reflexivity|]. destruct items as [|i items]; [contradiction|]. specialize (Hd eq_refl).
    assert (G : forall c r, c <> "^" -> parse Outside ("[" :: c :: r) = parse (InClass false [] None) (c :: r)).
    { intros c r Hc. cbn [parse]. replace (Byte.eqb "[" "*") with false by reflexivity. rewrite (eqb_ne c "^") by exact Hc. reflexivity. }
    destruct i as [d|lo hi]; cbn [flat_map item_text app List.hd] in *; apply G; exact Hd. }
  rewrite Ep, E. rewrite parse_plain by exact Hq. rewrite parse_tail by exact He. cbn [option_map]. eexists. split; [reflexivity|].
  assert (T : forall c, term_matches (TClass negated R) c = true <-> (if negated then ~ exists i, List.In i items /\ in_item i c else exists i, List.In i items /\ in_item i c)).
  { intros c. cbn [term_matches]. specialize (HR c). cbn [all_ranges existsb] in HR. destruct (existsb (in_range c) R) eqn:Ex, negated; cbn [xorb]; split; intros H; try reflexivity; try discriminate H.
    - exfalso. apply H. destruct (proj1 HR eq_refl) as [X|X]; [discriminate X|exact X].
    - destruct (proj1 HR eq_refl) as [X|X]; [discriminate X|exact X].
    - intros X. discriminate (proj2 HR (or_intror X)).
    - discriminate (proj2 HR (or_intror H)). }
  apply finds_glob. intros n Hi. rewrite match_lits. split.
  - intros (r & -> & H). apply match_one in H as (c & r' & -> & Hc & H); [|discriminate]. apply match_lits in H as (r2 & -> & H). apply match_tail in H as (mid & -> & _).
    exists c, mid. split; [apply T, Hc|reflexivity].
  - intros (c & mid & Hc & ->). eexists. split; [reflexivity|]. apply match_one; [discriminate|]. exists c, (q ++ mid ++ ext). split; [reflexivity|]. split; [apply T, Hc|].
    apply match_lits. eexists. split; [reflexivity|]. apply match_tail. exists mid. split; [reflexivity|]. intros Hsl. apply (Hn _ Hi).
    apply in_or_app. right. right. apply in_or_app. right. apply in_or_app. left. exact Hsl.
Qed.
Print Assumptions C86_class_any.
Example C86_class_any_example : class_of true [Range "0" "5"; One "x"] = txt "[^0-5x]" /\ List.Forall item_ok [Range "0" "5"; One "x"] /\
  filepath_Glob [txt "a3.stl"; txt "a7.stl"; txt "ax.stl"] (txt "a[^0-5x]*.stl") = Some [txt "a7.stl"].
Proof. split; [reflexivity|]. split; [|vm_compute; reflexivity]. repeat constructor; discriminate. Qed.
