(** C86: which files merge-binvox and merge-stl take, for any prefix. *)
From Verif Require Import Base BaseLemmas BinvoxModel Geom VshellModel VshellCodec StldiceModel CmdMergeModel CmdMergeProps StlMerge CmdStlModel GlobModel.
From Coq Require Import ZArith QArith List Bool String Init.Byte Lia.
From stdpp Require Import base list gmap sets sorting relations.
Import ListNotations.
Open Scope Z_scope.
#[local] Open Scope byte_scope.

(** ** Specification *)
(** Text that stands for itself in a pattern. *)
Definition plain (p : list byte) : Prop := forall c, List.In c p -> c <> "*" /\ c <> "?" /\ c <> "[" /\ c <> "\".
(** The names in a directory have no slash in them. *)
Definition in_directory (names : list (list byte)) : Prop := forall n, List.In n names -> ~ List.In "/" n.
(** [found] are, in order, the names among [names] with the property [P]. *)
Definition finds (names : list (list byte)) (P : list byte -> Prop) (found : list (list byte)) : Prop :=
  forall n, List.In n found <-> List.In n names /\ P n.

(** ** Reading patterns *)
Lemma eqb_ne a b : a <> b -> Byte.eqb a b = false.
Proof. intros H. destruct (Byte.eqb a b) eqn:E; [|reflexivity]. apply Byte.byte_dec_bl in E. contradiction. Qed.
Lemma eqb_refl a : Byte.eqb a a = true.
Proof. apply Byte.byte_dec_lb. reflexivity. Qed.
Lemma eqb_true a b : Byte.eqb a b = true <-> a = b.
Proof. split; [apply Byte.byte_dec_bl|intros ->; apply eqb_refl]. Qed.

Lemma omap_id {A} (o : option A) : option_map (fun x => x) o = o.
Proof. destruct o; reflexivity. Qed.
Lemma omap_omap {A B C} (f : B -> C) (g : A -> B) o : option_map f (option_map g o) = option_map (fun x => f (g x)) o.
Proof. destruct o; reflexivity. Qed.

Lemma parse_plain p q : plain p -> parse Outside (p ++ q) = option_map (fun ts => map TLit p ++ ts) (parse Outside q).
Proof.
  induction p as [|c p IH]; intros H; [cbn [app map]; rewrite omap_id; reflexivity|]. cbn [app parse map].
  destruct (H c (or_introl eq_refl)) as (H1 & H2 & H3 & H4). rewrite !eqb_ne by assumption. rewrite IH by (intros d Hd; apply H; right; exact Hd).
  rewrite omap_omap. reflexivity.
Qed.

Lemma plain_ext_binvox : plain (txt ".binvox").
Proof. intros c H. cbn in H. repeat (destruct H as [<-|H]; [repeat split; discriminate|]). destruct H. Qed.
Lemma plain_ext_stl : plain (txt ".stl").
Proof. intros c H. cbn in H. repeat (destruct H as [<-|H]; [repeat split; discriminate|]). destruct H. Qed.

Lemma parse_tail ext : plain ext -> parse Outside ("*" :: ext) = Some (TStar :: map TLit ext).
Proof. intros H. cbn [parse]. rewrite eqb_refl. rewrite <- (app_nil_r ext) at 1. rewrite parse_plain by exact H. cbn [parse option_map]. rewrite app_nil_r. reflexivity. Qed.

(** ** Matching *)
Lemma match_lits p ts n : match_terms (map TLit p ++ ts) n = true <-> exists r, n = p ++ r /\ match_terms ts r = true.
Proof.
  revert n. induction p as [|c p IH]; intros n; cbn [map app match_terms].
  - split; [intros H; exists n; auto|]. intros (r & -> & H). exact H.
  - destruct n as [|d n].
    + split; [discriminate|]. intros (r & E & _). discriminate E.
    + cbn [term_matches]. rewrite andb_true_iff, eqb_true, IH. split.
      * intros (-> & r & -> & H). exists r. auto.
      * intros (r & E & H). injection E as -> ->. eauto.
Qed.
Lemma match_lits_end p n : match_terms (map TLit p) n = true <-> n = p.
Proof.
  rewrite <- (app_nil_r (map TLit p)), match_lits. split.
  - intros (r & -> & H). destruct r; [apply app_nil_r|discriminate H].
  - intros ->. exists []. rewrite app_nil_r. auto.
Qed.
Lemma match_star ts n : match_terms (TStar :: ts) n = true <-> exists a b, n = a ++ b /\ ~ List.In "/" a /\ match_terms ts b = true.
Proof.
  induction n as [|c n IH]; cbn [match_terms].
  - rewrite orb_false_r. split; [intros H; exists [], []; auto|]. intros ([|x0 a0] & b & E & _ & H); [|discriminate E]. cbn in E. subst b. exact H.
  - rewrite orb_true_iff, andb_true_iff, negb_true_iff. cbn [match_terms] in IH. rewrite IH. split.
    + intros [H|(Hc & a & b & -> & Ha & H)]; [exists [], (c :: n); auto|]. exists (c :: a), b. split; [reflexivity|]. split; [|exact H].
      intros [->|Hi]; [rewrite eqb_refl in Hc; discriminate Hc|contradiction].
    + intros ([|d a] & b & E & Ha & H).
      * left. cbn in E. subst b. exact H.
      * right. injection E as <- ->. split; [apply eqb_ne; intros ->; apply Ha; left; reflexivity|]. exists a, b. split; [reflexivity|]. split; [|exact H]. intros Hi. apply Ha. right. exact Hi.
Qed.
Lemma match_tail ext n : match_terms (TStar :: map TLit ext) n = true <-> exists mid, n = mid ++ ext /\ ~ List.In "/" mid.
Proof.
  rewrite match_star. split.
  - intros (a & b & -> & Ha & H). apply match_lits_end in H. subst b. eauto.
  - intros (mid & -> & H). exists mid, ext. split; [reflexivity|]. split; [exact H|]. apply match_lits_end. reflexivity.
Qed.
Lemma match_one t ts n : (t <> TStar) -> match_terms (t :: ts) n = true <-> exists c r, n = c :: r /\ term_matches t c = true /\ match_terms ts r = true.
Proof.
  intros Ht. assert (E : match_terms (t :: ts) n = match n with [] => false | c :: n' => term_matches t c && match_terms ts n' end) by (destruct t; [contradiction|reflexivity..]).
  rewrite E. destruct n as [|c n].
  - split; [discriminate|]. intros (c & r & X & _). discriminate X.
  - rewrite andb_true_iff. split; [intros (H1 & H2); eauto|]. intros (c' & r & X & H1 & H2). injection X as <- <-. auto.
Qed.

Lemma finds_glob names ts P : (forall n, List.In n names -> (match_terms ts n = true <-> P n)) -> finds names P (merge_sort name_le (filter (fun n => match_terms ts n = true) names)).
Proof.
  intros H n. rewrite <- elem_of_list_In, merge_sort_Permutation, elem_of_list_filter, elem_of_list_In. split; intros (H1 & H2); (split; [try assumption|]).
  - apply H; assumption.
  - apply (H n); assumption.
  - assumption.
Qed.

(** A prefix without *, ?, [ and \: the files are those whose name begins with the prefix and then ends with the extension. *)
Lemma filter_same {A} (P Q : A -> bool) l : (forall x, List.In x l -> P x = Q x) -> filter (fun x => P x = true) l = filter (fun x => Q x = true) l.
Proof.
  induction l as [|x l IH]; intros H; [reflexivity|]. rewrite !filter_cons, IH by (intros y Hy; apply H; right; exact Hy).
  rewrite (H x (or_introl eq_refl)). destruct (Q x); reflexivity.
Qed.

Theorem C86_plain names prefix ext : plain prefix -> plain ext -> in_directory names ->
  filepath_Glob names (prefix ++ "*" :: ext) = Some (Glob names prefix ext).
Proof.
  intros Hp He Hn. unfold filepath_Glob, Glob. rewrite parse_plain by exact Hp. rewrite parse_tail by exact He. cbn [option_map]. do 2 f_equal.
  apply filter_same. intros n Hi. apply eq_true_iff_eq. rewrite match_lits, matches_spec. split.
  - intros (r & -> & H). apply match_tail in H as (mid & -> & _). eauto.
  - intros (mid & ->). exists (mid ++ ext). split; [reflexivity|]. apply match_tail. exists mid. split; [reflexivity|]. intros Hs. apply (Hn _ Hi). apply in_or_app. right. apply in_or_app. left. exact Hs.
Qed.
Print Assumptions C86_plain.

(** ** Prefixes with * and ? *)
(** Text in which only * and ? are special. *)
Definition wild (p : list byte) : Prop := forall c, List.In c p -> c <> "[" /\ c <> "\".
Definition wild_term (c : byte) : term := if Byte.eqb c "*" then TStar else if Byte.eqb c "?" then TAny else TLit c.

Lemma parse_wild p q : wild p -> parse Outside (p ++ q) = option_map (fun ts => map wild_term p ++ ts) (parse Outside q).
Proof.
  induction p as [|c p IH]; intros H; [cbn [app map]; rewrite omap_id; reflexivity|]. cbn [app parse map].
  destruct (H c (or_introl eq_refl)) as (H3 & H4). rewrite IH by (intros d Hd; apply H; right; exact Hd). change (wild_term c) with (if Byte.eqb c "*" then TStar else if Byte.eqb c "?" then TAny else TLit c).
  destruct (Byte.eqb c "*"); [rewrite omap_omap; reflexivity|]. destruct (Byte.eqb c "?"); [rewrite omap_omap; reflexivity|].
  rewrite !eqb_ne by assumption. rewrite omap_omap. reflexivity.
Qed.
(** [f] keeps ordinary characters and replaces * and ? by something other than a slash. *)
Lemma match_wild f p ts r : (forall c, c <> "*" -> c <> "?" -> f c = c) -> f "*" <> "/" -> f "?" <> "/" ->
  match_terms ts r = true -> match_terms (map wild_term p ++ ts) (map f p ++ r) = true.
Proof.
  intros Hf Hs Hq H. induction p as [|c p IH]; [exact H|]. cbn [map app]. change (wild_term c) with (if Byte.eqb c "*" then TStar else if Byte.eqb c "?" then TAny else TLit c). destruct (Byte.eqb c "*") eqn:E1.
  - apply eqb_true in E1. subst c. apply match_star. exists [f "*"], (map f p ++ r). split; [reflexivity|]. split; [intros [X|[]]; exact (Hs X)|exact IH].
  - destruct (Byte.eqb c "?") eqn:E2.
    + apply eqb_true in E2. subst c. apply match_one; [discriminate|]. exists (f "?"), (map f p ++ r). split; [reflexivity|]. split; [|exact IH]. cbn [term_matches]. rewrite eqb_ne by exact Hq. reflexivity.
    + apply match_one; [discriminate|]. exists (f c), (map f p ++ r). split; [reflexivity|]. split; [|exact IH]. cbn [term_matches]. apply eqb_true. symmetry. apply Hf; intros ->; [rewrite eqb_refl in E1; discriminate E1|rewrite eqb_refl in E2; discriminate E2].
Qed.

(** Of the files with the prefix none is left out ... *)
Theorem C86_own names prefix ext : wild prefix -> plain ext -> in_directory names ->
  exists found, filepath_Glob names (prefix ++ "*" :: ext) = Some found /\
    forall mid, List.In (prefix ++ mid ++ ext) names -> List.In (prefix ++ mid ++ ext) found.
Proof.
  intros Hp He Hn. unfold filepath_Glob. rewrite parse_wild by exact Hp. rewrite parse_tail by exact He. cbn [option_map]. eexists. split; [reflexivity|].
  intros mid Hi. apply (finds_glob _ _ (fun n => match_terms (map wild_term prefix ++ TStar :: map TLit ext) n = true)); [reflexivity|]. split; [exact Hi|].
  rewrite <- (map_id prefix) at 2. apply (match_wild (fun c => c)); [auto|discriminate|discriminate|]. apply match_tail. exists mid. split; [reflexivity|]. intros Hs. apply (Hn _ Hi). apply in_or_app. right. apply in_or_app. left. exact Hs.
Qed.
Print Assumptions C86_own.

(** ... but others are taken too. *)
Definition x_for_wild (c : byte) : byte := if Byte.eqb c "*" || Byte.eqb c "?" then "x" else c.
Theorem C86_foreign prefix ext : wild prefix -> (List.In "*" prefix \/ List.In "?" prefix) -> plain ext ->
  exists n, (~ exists rest, n = prefix ++ rest) /\ (List.In "/" n -> List.In "/" prefix \/ List.In "/" ext) /\
    forall names, List.In n names -> exists found, filepath_Glob names (prefix ++ "*" :: ext) = Some found /\ List.In n found.
Proof.
  intros Hp Hw He. exists (map x_for_wild prefix ++ ext). split; [|split].
  - intros (rest & E). assert (E' : map x_for_wild prefix = prefix).
    { apply (f_equal (firstn (length prefix))) in E. rewrite !firstn_app, map_length, Nat.sub_diag, !firstn_O, !app_nil_r, firstn_all in E.
      rewrite firstn_all2 in E by (rewrite map_length; reflexivity). exact E. }
    assert (G : forall c, List.In c prefix -> x_for_wild c = c).
    { intros c Hc. clear - E' Hc. induction prefix as [|d p IH]; [destruct Hc|]. injection E' as E1 E2. destruct Hc as [<-|Hc]; auto. }
    destruct Hw as [Hw|Hw]; apply G in Hw; discriminate Hw.
  - intros H. apply in_app_or in H as [H|H]; [|right; exact H]. left. apply in_map_iff in H as (c & E & Hc). unfold x_for_wild in E.
    destruct (Byte.eqb c "*" || Byte.eqb c "?"); [discriminate E|]. subst c. exact Hc.
  - intros names Hi. unfold filepath_Glob. rewrite parse_wild by exact Hp. rewrite parse_tail by exact He. cbn [option_map]. eexists. split; [reflexivity|].
    apply (finds_glob _ _ (fun n => match_terms (map wild_term prefix ++ TStar :: map TLit ext) n = true)); [reflexivity|]. split; [exact Hi|].
    apply match_wild; [intros c H1 H2; unfold x_for_wild; rewrite !eqb_ne by assumption; reflexivity|discriminate|discriminate|]. apply match_tail. exists []. split; [reflexivity|]. intros [].
Qed.
Print Assumptions C86_foreign.

(** ** Prefixes with a class *)
(** Characters that stand for themselves in a class, the first one not a caret. *)
Definition class_text (set : list byte) : Prop :=
  set <> [] /\ List.hd "a" set <> "^" /\ forall c, List.In c set -> c <> "]" /\ c <> "\" /\ c <> "-".

Lemma in_range_one c d : in_range c (d, d) = true <-> c = d.
Proof.
  unfold in_range. cbn [fst snd]. rewrite andb_true_iff, !Z.leb_le. split; [intros H; apply b2z_inj; lia|intros ->; lia].
Qed.

Lemma parse_class neg set q : (forall c, List.In c set -> c <> "]" /\ c <> "\" /\ c <> "-") -> forall rs first, (set <> [] \/ all_ranges rs first <> []) ->
  exists R, parse (InClass neg rs first) (set ++ "]" :: q) = option_map (cons (TClass neg R)) (parse Outside q) /\
    forall c, existsb (in_range c) R = true <-> existsb (in_range c) (all_ranges rs first) = true \/ List.In c set.
Proof.
  induction set as [|d set IH]; intros Hs rs first Hne.
  - exists (all_ranges rs first). split.
    + cbn [app parse]. replace (Byte.eqb "]" "-") with false by reflexivity. rewrite eqb_refl.
      destruct Hne as [Hne|Hne]; [contradiction|]. destruct first; destruct (all_ranges rs _) eqn:E; try contradiction; reflexivity.
    + intros c. cbn [List.In]. tauto.
  - destruct (Hs d (or_introl eq_refl)) as (H1 & H2 & H3). destruct (IH ltac:(intros c Hc; apply Hs; right; exact Hc) (all_ranges rs first) (Some d)) as (R & E & HR); [right; discriminate|].
    exists R. split.
    + cbn [app parse]. rewrite !eqb_ne by assumption. rewrite <- E. destruct first; reflexivity.
    + intros c. rewrite HR. cbn [all_ranges existsb List.In]. rewrite orb_true_iff, in_range_one. split; intros H; repeat destruct H as [H|H]; auto.
Qed.

(** A class in the prefix: exactly the files are taken that have one of its characters in its place. *)
Theorem C86_class names p set q ext : plain p -> class_text set -> plain q -> plain ext -> in_directory names ->
  exists found, filepath_Glob names ((p ++ "[" :: set ++ "]" :: q) ++ "*" :: ext) = Some found /\
    finds names (fun n => exists c mid, List.In c set /\ n = p ++ c :: q ++ mid ++ ext) found.
Proof.
  intros Hp (Hne & Hd & Hs) Hq He Hn. unfold filepath_Glob.
  replace ((p ++ "[" :: set ++ "]" :: q) ++ "*" :: ext) with (p ++ "[" :: set ++ "]" :: q ++ "*" :: ext) by (rewrite <- !app_assoc; cbn [app]; rewrite <- !app_assoc; reflexivity).
  rewrite parse_plain by exact Hp. cbn [parse]. replace (Byte.eqb "[" "*") with false by reflexivity. replace (Byte.eqb "[" "?") with false by reflexivity.
  replace (Byte.eqb "[" "\") with false by reflexivity. rewrite eqb_refl.
  destruct (parse_class false set (q ++ "*" :: ext) Hs [] None) as (R & E & HR); [left; exact Hne|].
  destruct set as [|s0 set]; [contradiction|]. cbn [List.hd] in Hd. cbn [app] in E |- *. rewrite (eqb_ne s0 "^") by exact Hd. rewrite E.
  rewrite parse_plain by exact Hq. rewrite parse_tail by exact He. cbn [option_map]. eexists. split; [reflexivity|].
  apply finds_glob. intros n Hi. rewrite match_lits. split.
  - intros (r & -> & H). apply match_one in H as (c & r' & -> & Hc & H); [|discriminate]. apply match_lits in H as (r2 & -> & H). apply match_tail in H as (mid & -> & _).
    cbn [term_matches xorb] in Hc. exists c, mid. split; [|reflexivity]. destruct (proj1 (HR c)) as [X|X]; [destruct (existsb (in_range c) R); [reflexivity|discriminate Hc]|discriminate X|exact X].
  - intros (c & mid & Hc & ->). eexists. split; [reflexivity|]. apply match_one; [discriminate|]. exists c, (q ++ mid ++ ext). split; [reflexivity|]. split.
    + cbn [term_matches]. rewrite (proj2 (HR c)) by (right; exact Hc). reflexivity.
    + apply match_lits. eexists. split; [reflexivity|]. apply match_tail. exists mid. split; [reflexivity|]. intros Hsl. apply (Hn _ Hi).
      apply in_or_app. right. right. apply in_or_app. right. apply in_or_app. left. exact Hsl.
Qed.
Print Assumptions C86_class.

(** So no file that really begins with such a prefix is taken. *)
Theorem C86_class_lost names p set q ext : plain p -> class_text set -> ~ List.In "[" set -> plain q -> plain ext -> in_directory names ->
  exists found, filepath_Glob names ((p ++ "[" :: set ++ "]" :: q) ++ "*" :: ext) = Some found /\
    forall rest, ~ List.In ((p ++ "[" :: set ++ "]" :: q) ++ rest) found.
Proof.
  intros Hp Hs Hb Hq He Hn. destruct (C86_class names p set q ext Hp Hs Hq He Hn) as (found & E & H). exists found. split; [exact E|].
  intros rest Hr. apply H in Hr as (_ & c & mid & Hc & X). rewrite <- app_assoc in X. apply app_inv_head in X. injection X as <- _. contradiction.
Qed.
Print Assumptions C86_class_lost.

(** ** Prefixes with a backslash *)
(** A backslash before a character is not part of the names taken. *)
Theorem C86_backslash names p c q ext : plain p -> plain q -> plain ext -> in_directory names ->
  exists found, filepath_Glob names ((p ++ "\" :: c :: q) ++ "*" :: ext) = Some found /\
    finds names (fun n => exists mid, n = p ++ c :: q ++ mid ++ ext) found.
Proof.
  intros Hp Hq He Hn. unfold filepath_Glob. rewrite <- app_assoc. cbn [app]. rewrite parse_plain by exact Hp. cbn [parse].
  replace (Byte.eqb "\" "*") with false by reflexivity. replace (Byte.eqb "\" "?") with false by reflexivity. rewrite eqb_refl.
  rewrite parse_plain by exact Hq. rewrite parse_tail by exact He. cbn [option_map]. eexists. split; [reflexivity|].
  apply finds_glob. intros n Hi. rewrite match_lits. split.
  - intros (r & -> & H). apply match_one in H as (c' & r' & -> & Hc & H); [|discriminate]. apply match_lits in H as (r2 & -> & H). apply match_tail in H as (mid & -> & _).
    cbn [term_matches] in Hc. apply eqb_true in Hc. subst c'. eauto.
  - intros (mid & ->). eexists. split; [reflexivity|]. apply match_one; [discriminate|]. exists c, (q ++ mid ++ ext). split; [reflexivity|]. split; [apply eqb_refl|].
    apply match_lits. eexists. split; [reflexivity|]. apply match_tail. exists mid. split; [reflexivity|]. intros Hsl. apply (Hn _ Hi).
    apply in_or_app. right. right. apply in_or_app. right. apply in_or_app. left. exact Hsl.
Qed.
Print Assumptions C86_backslash.

(** A backslash at the end of the prefix makes the star of the command an ordinary character: at most one file is taken. *)
Theorem C86_backslash_end names p ext : plain p -> plain ext ->
  exists found, filepath_Glob names ((p ++ ["\"]) ++ "*" :: ext) = Some found /\ finds names (fun n => n = p ++ "*" :: ext) found.
Proof.
  intros Hp He. unfold filepath_Glob. rewrite <- app_assoc. cbn [app]. rewrite parse_plain by exact Hp. cbn [parse].
  replace (Byte.eqb "\" "*") with false by reflexivity. replace (Byte.eqb "\" "?") with false by reflexivity. rewrite eqb_refl.
  assert (Ep : parse Outside ext = Some (map TLit ext)).
  { pose proof (parse_plain ext [] He) as E. rewrite app_nil_r in E. rewrite E. cbn [parse option_map]. rewrite app_nil_r. reflexivity. }
  rewrite Ep. cbn [option_map]. eexists. split; [reflexivity|].
  apply finds_glob. intros n Hi. change (map TLit p ++ TLit "*" :: map TLit ext) with (map TLit p ++ map TLit ("*" :: ext)). rewrite <- map_app. apply match_lits_end.
Qed.
Print Assumptions C86_backslash_end.

(** ** Prefixes that are no pattern *)
Lemma parse_open p : forall neg rs first, ~ List.In "]" p -> parse (InClass neg rs first) p = None.
Proof.
  remember (length p) as k eqn:Ek. assert (Hk : (length p <= k)%nat) by lia. clear Ek. revert p Hk.
  induction k as [|k IH]; intros p Hk neg rs first Hb.
  - destruct p; [reflexivity|cbn in Hk; lia].
  - destruct p as [|c p]; [reflexivity|]. cbn [length] in Hk. cbn [List.In] in Hb. assert (Hc : c <> "]") by (intros ->; auto). cbn [parse].
    assert (G : (if Byte.eqb c "]" then match all_ranges rs first with [] => None | rs' => option_map (cons (TClass neg rs')) (parse Outside p) end
      else if Byte.eqb c "-" then None
      else if Byte.eqb c "\" then match p with [] => None | e :: p'' => parse (InClass neg (all_ranges rs first) (Some e)) p'' end
      else parse (InClass neg (all_ranges rs first) (Some c)) p) = None).
    { rewrite (eqb_ne c "]") by exact Hc. destruct (Byte.eqb c "-"); [reflexivity|]. destruct (Byte.eqb c "\").
      - destruct p as [|e p]; [reflexivity|]. cbn [length] in Hk. apply IH; [lia|]. intros X. apply Hb. right. right. exact X.
      - apply IH; [lia|]. auto. }
    destruct first as [lo|]; [|exact G]. destruct (Byte.eqb c "-"); [|exact G].
    destruct p as [|h p]; [reflexivity|]. destruct (Byte.eqb h "-" || Byte.eqb h "]"); [reflexivity|]. cbn [length List.In] in *. destruct (Byte.eqb h "\").
    + destruct p as [|e p]; [reflexivity|]. cbn [length List.In] in *. apply IH; [lia|tauto].
    + apply IH; [lia|tauto].
Qed.

(** A bracket that is not closed: the command ends with an error and does nothing. *)
Theorem C86_malformed names p q ext : plain p -> ~ List.In "]" q -> ~ List.In "]" ext -> filepath_Glob names ((p ++ "[" :: q) ++ "*" :: ext) = None.
Proof.
  intros Hp Hq He. unfold filepath_Glob. rewrite <- app_assoc. cbn [app]. rewrite parse_plain by exact Hp. cbn [parse].
  replace (Byte.eqb "[" "*") with false by reflexivity. replace (Byte.eqb "[" "?") with false by reflexivity. replace (Byte.eqb "[" "\") with false by reflexivity. rewrite eqb_refl.
  assert (H : ~ List.In "]" (q ++ "*" :: ext)) by (intros X; apply in_app_or in X as [X|[X|X]]; [auto|discriminate X|auto]).
  destruct (q ++ "*" :: ext) as [|e r]; [reflexivity|]. cbn [List.In] in H. destruct (Byte.eqb e "^"); rewrite parse_open; try reflexivity; tauto.
Qed.
Print Assumptions C86_malformed.

(** ** The commands *)
Lemma txt_binvox : txt "*.binvox" = "*" :: txt ".binvox". Proof. reflexivity. Qed.
Lemma txt_stl : txt "*.stl" = "*" :: txt ".stl". Proof. reflexivity. Qed.

(** With a plain prefix the two commands are those of CmdMergeModel and CmdStlModel (C64, C67). *)
Theorem C86_binvox_plain ft force prefix d names es : plain prefix -> in_directory names ->
  merge_binvox_any ft force prefix d names es = merge_binvox ft force prefix d names es.
Proof.
  intros Hp Hn. unfold merge_binvox_any, merge_binvox. rewrite txt_binvox, C86_plain by (assumption || apply plain_ext_binvox). reflexivity.
Qed.
Print Assumptions C86_binvox_plain.

Theorem C86_stl_plain {tri error} (no_file : error) (load : list byte -> error + list tri) save force workers prefix d names d' e :
  plain prefix -> in_directory names ->
  merge_stl_any no_file load save force workers prefix d names d' e <-> merge_stl no_file load save force workers prefix d names d' e.
Proof.
  intros Hp Hn. pose proof (C86_plain names prefix (txt ".stl") Hp plain_ext_stl Hn) as E. rewrite <- txt_stl in E. split.
  - intros [H|found H1 H2|found files s er m H1 H2 H3 H4|found files s mesh H1 H2 H3 H4|found files s d1 H1 H2 H3 H4 H5].
    + congruence.
    + rewrite E in H1. injection H1 as <-. apply ms_refused, H2.
    + rewrite E in H1. injection H1 as <-. eapply ms_error; eassumption.
    + rewrite E in H1. injection H1 as <-. eapply ms_saved; eassumption.
    + rewrite E in H1. injection H1 as <-. eapply ms_nil; eassumption.
  - intros [H2|files s er m H2 H3 H4|files s mesh H2 H3 H4|files s d1 H2 H3 H4 H5].
    + eapply ma_refused; eassumption.
    + eapply ma_error; eassumption.
    + eapply ma_saved; eassumption.
    + eapply ma_nil; eassumption.
Qed.
Print Assumptions C86_stl_plain.

(** With a class in the prefix, in a directory where all names begin with the prefix, merge-binvox finds nothing, leaves an empty output
    file and crashes. *)
Theorem C86_binvox_lost ft force p set q d names es : plain p -> class_text set -> ~ List.In "[" set -> plain q -> in_directory names ->
  let prefix := p ++ "[" :: set ++ "]" :: q in
  (forall n, List.In n names -> exists rest, n = prefix ++ rest) ->
  merge_binvox_any ft force prefix d names es = (put_file d (prefix ++ txt ".vsh", []), Crashed).
Proof.
  intros Hp Hs Hb Hq Hn prefix Hall. destruct (C86_class_lost names p set q (txt ".binvox") Hp Hs Hb Hq plain_ext_binvox Hn) as (found & E & H).
  destruct (C86_class names p set q (txt ".binvox") Hp Hs Hq plain_ext_binvox Hn) as (found' & E' & H').
  unfold merge_binvox_any. rewrite txt_binvox. unfold prefix at 1. rewrite E. destruct found as [|n found]; [reflexivity|]. exfalso.
  rewrite E in E'. injection E' as <-. destruct (proj1 (H' n) (or_introl eq_refl)) as [Hi _]. destruct (Hall n Hi) as (rest & ->). apply (H rest). left. reflexivity.
Qed.
Print Assumptions C86_binvox_lost.

(** With a class in the prefix, merge-stl never sees that its output file exists: the flag -f makes no difference. *)
Theorem C86_stl_unchecked {tri error} (no_file : error) (load : list byte -> error + list tri) save workers p set q d names d' e :
  plain p -> class_text set -> ~ List.In "[" set -> plain q -> in_directory names ->
  let prefix := p ++ "[" :: set ++ "]" :: q in
  merge_stl_any no_file load save false workers prefix d names d' e <-> merge_stl_any no_file load save true workers prefix d names d' e.
Proof.
  intros Hp Hs Hb Hq Hn prefix. destruct (C86_class_lost names p set q (txt ".stl") Hp Hs Hb Hq plain_ext_stl Hn) as (fnd & E & Hl).
  rewrite <- txt_stl in E. fold prefix in E. assert (G : forall f f', merge_stl_any no_file load save f workers prefix d names d' e -> merge_stl_any no_file load save f' workers prefix d names d' e).
  { assert (Hi : forall f, inputs f (prefix ++ txt ".stl") fnd = Some fnd) by (intros f; apply inputs_all, Hl).
    intros f f' [H|found H1 H2|found files s er m H1 H2 H3 H4|found files s mesh H1 H2 H3 H4|found files s d1 H1 H2 H3 H4 H5].
    - congruence.
    - rewrite E in H1. injection H1 as <-. rewrite Hi in H2. discriminate H2.
    - rewrite E in H1. injection H1 as <-. rewrite Hi in H2. injection H2 as <-. eapply ma_error; [exact E|apply Hi|eassumption..].
    - rewrite E in H1. injection H1 as <-. rewrite Hi in H2. injection H2 as <-. eapply ma_saved; [exact E|apply Hi|eassumption..].
    - rewrite E in H1. injection H1 as <-. rewrite Hi in H2. injection H2 as <-. eapply ma_nil; [exact E|apply Hi|eassumption..]. }
  split; apply G.
Qed.
Print Assumptions C86_stl_unchecked.

(** With a bracket that is not closed, both commands end at once. *)
Theorem C86_malformed_commands {tri error} (no_file : error) (load : list byte -> error + list tri) save ft force workers p q d names es d' e :
  plain p -> ~ List.In "]" q ->
  merge_binvox_any ft force (p ++ "[" :: q) d names es = (d, Fatal) /\
  (merge_stl_any no_file load save force workers (p ++ "[" :: q) d names d' e <-> d' = d /\ e = Fatal).
Proof.
  intros Hp Hq. assert (E1 : filepath_Glob names ((p ++ "[" :: q) ++ txt "*.binvox") = None).
  { apply C86_malformed; [exact Hp|exact Hq|]. intros H. cbn in H. repeat (destruct H as [H|H]; [discriminate H|]). destruct H. }
  assert (E2 : filepath_Glob names ((p ++ "[" :: q) ++ txt "*.stl") = None).
  { apply C86_malformed; [exact Hp|exact Hq|]. intros H. cbn in H. repeat (destruct H as [H|H]; [discriminate H|]). destruct H. }
  split; [unfold merge_binvox_any; rewrite E1; reflexivity|]. split.
  - intros [H|found H1 H2|found files s er m H1 H2 H3 H4|found files s mesh H1 H2 H3 H4|found files s d1 H1 H2 H3 H4 H5]; [auto|congruence..].
  - intros (-> & ->). apply ma_pattern, E2.
Qed.
Print Assumptions C86_malformed_commands.

(** Examples. *)
Example C86_example_class :
  let names := [txt "part[2]-0.binvox"; txt "part2-1.binvox"; txt "part2-0.binvox"; txt "part[2].vsh"] in
  in_directory names /\ filepath_Glob names (txt "part[2]*.binvox") = Some [txt "part2-0.binvox"; txt "part2-1.binvox"].
Proof. split; [|vm_compute; reflexivity]. intros n H. cbn in H. repeat (destruct H as [<-|H]; [cbn; intros X; repeat (destruct X as [X|X]; [discriminate X|]); exact X|]). destruct H. Qed.
Example C86_example_meets : plain (txt "part") /\ class_text (txt "2") /\ ~ List.In "[" (txt "2") /\ plain (txt "-a") /\ wild (txt "a?") /\ ~ List.In "]" (txt "2").
Proof.
  assert (P : forall s, forallb (fun c => negb (Byte.eqb c "*" || Byte.eqb c "?" || Byte.eqb c "[" || Byte.eqb c "\")) s = true -> plain s).
  { intros s H c Hc. rewrite forallb_forall in H. specialize (H c Hc). repeat split; intros ->; discriminate H. }
  split; [apply P; reflexivity|]. split; [|split; [|split; [apply P; reflexivity|split]]].
  - split; [discriminate|]. split; [discriminate|]. intros c [<-|[]]. repeat split; discriminate.
  - intros [H|[]]; discriminate H.
  - intros c H. cbn in H. repeat (destruct H as [<-|H]; [split; discriminate|]). destruct H.
  - intros [H|[]]; discriminate H.
Qed.
Example C86_example_wild : filepath_Glob [txt "ab-0.stl"; txt "a?-1.stl"; txt "b.stl"; txt "a?-0.stl"] (txt "a?*.stl") = Some [txt "a?-0.stl"; txt "a?-1.stl"; txt "ab-0.stl"].
Proof. vm_compute. reflexivity. Qed.
Example C86_example_negated : filepath_Glob [txt "a1.stl"; txt "a7.stl"; txt "a-.stl"] (txt "a[^0-5x\-]*.stl") = Some [txt "a7.stl"].
Proof. vm_compute. reflexivity. Qed.
