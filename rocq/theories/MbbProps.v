(** C66: the -mbb flag. *)
From Verif Require Import Base BaseLemmas FloatTextQ MbbModel.
From Coq Require Import ZArith QArith List Bool String Init.Byte Lia.
From stdpp Require Import base list.
Import ListNotations.
Open Scope nat_scope.

(** ** Specification: how a box is written *)

(** Space, tab, line feed, form feed, carriage return; comma; brackets; hyphen. *)
Definition blank_char (b : byte) : bool := match b with x20 | x09 | x0a | x0c | x0d => true | _ => false end.
Definition comma_char (b : byte) : bool := match b with x2c => true | _ => false end.
Definition opening_char (b : byte) : bool := match b with x28 | x5b => true | _ => false end.
Definition closing_char (b : byte) : bool := match b with x29 | x5d => true | _ => false end.

Definition blank (w : list byte) : Prop := forall b, In b w -> blank_char b = true.

(** A number as a user writes it: no blanks, commas or brackets in it. *)
Definition number (x : list byte) : Prop :=
  x <> [] /\ forall b, In b x -> blank_char b = false /\ comma_char b = false /\ opening_char b = false /\ closing_char b = false.

(** What comes before the first and after the last number of a corner: blanks with at most one bracket. *)
Inductive opening : list byte -> Prop :=
  | opening_none w : blank w -> opening w
  | opening_bracket w b w' : blank w -> b = x28 \/ b = x5b -> blank w' -> opening (w ++ b :: w').
Inductive closing : list byte -> Prop :=
  | closing_none w : blank w -> closing w
  | closing_bracket w b w' : blank w -> b = x29 \/ b = x5d -> blank w' -> closing (w ++ b :: w').
Inductive comma : list byte -> Prop := comma_in w w' : blank w -> blank w' -> comma (w ++ x2c :: w').

(** The text of a box: two corners with a hyphen between them. *)
Definition box_text (o1 a s1 b s2 c c1 o2 d s3 e s4 f c2 : list byte) : list byte :=
  o1 ++ a ++ s1 ++ b ++ s2 ++ c ++ c1 ++ x2d :: o2 ++ d ++ s3 ++ e ++ s4 ++ f ++ c2.

Definition six {F} (ft : FloatText F) (a b c d e f : list byte) : option (F * F * F * (F * F * F)) :=
  match parseF ft a, parseF ft b, parseF ft c, parseF ft d, parseF ft e, parseF ft f with
  | Some a, Some b, Some c, Some d, Some e, Some f => Some ((a, b, c), (d, e, f))
  | _, _, _, _, _, _ => None
  end.

(** ** The matcher *)

Definition dash_char (b : byte) : bool := match b with x2d => true | _ => false end.
Definition field_char (b : byte) : bool := negb (comma_char b) && negb (blank_char b).
Definition last_char (b : byte) : bool := negb (closing_char b) && negb (blank_char b).
Definition corner_items : list item :=
  [Opt opening_char; Star blank_char; Group field_char; Star blank_char; Chr comma_char; Star blank_char; Group field_char;
   Star blank_char; Chr comma_char; Star blank_char; Group last_char; Star blank_char; Opt closing_char; Star blank_char].
Definition box_items : list item := Star blank_char :: corner_items ++ Chr dash_char :: Star blank_char :: corner_items.
Lemma box_items_eq : mbb_re = box_items.
Proof. reflexivity. Qed.

Definition stops (p : byte -> bool) (s : list byte) : Prop := match s with b :: _ => p b = false | [] => True end.

Lemma run_app p w s : (forall b, In b w -> p b = true) -> stops p s -> run p (w ++ s) = length w.
Proof.
  induction w as [|b w IH]; intros Hw Hs; cbn.
  - destruct s as [|b s]; [reflexivity|]. cbn in *. rewrite Hs. reflexivity.
  - rewrite (Hw b (or_introl eq_refl)). f_equal. apply IH; [|exact Hs]. intros b' H. apply Hw. right. exact H.
Qed.

Lemma run_zero p s : stops p s -> run p s = 0.
Proof. intros H. apply (run_app p [] s); [intros b []|exact H]. Qed.

Lemma greedy_first {A} (f : nat -> option A) n lo a : f n = Some a -> greedy f n lo = Some a.
Proof. intros H. destruct n; cbn; rewrite H; reflexivity. Qed.

Lemma skipn_app_len {A} (w s : list A) : skipn (length w) (w ++ s) = s.
Proof. rewrite skipn_app, skipn_all, Nat.sub_diag. reflexivity. Qed.
Lemma firstn_app_len {A} (w s : list A) : firstn (length w) (w ++ s) = w.
Proof. rewrite firstn_app, firstn_all, Nat.sub_diag, firstn_O, app_nil_r. reflexivity. Qed.

Lemma m_star p w s r g : (forall b, In b w -> p b = true) -> stops p s -> re_match r s = Some g -> re_match (Star p :: r) (w ++ s) = Some g.
Proof. intros Hw Hs H. cbn [re_match]. rewrite (run_app p w s Hw Hs). apply greedy_first. rewrite skipn_app_len. exact H. Qed.

Lemma m_star0 p s r g : stops p s -> re_match r s = Some g -> re_match (Star p :: r) s = Some g.
Proof. intros Hs H. apply (m_star p [] s); [intros b []|exact Hs|exact H]. Qed.

Lemma m_opt p b s r g : p b = true -> re_match r s = Some g -> re_match (Opt p :: r) (b :: s) = Some g.
Proof. intros Hb H. cbn [re_match run]. rewrite Hb. cbn [Nat.min]. apply greedy_first. cbn. exact H. Qed.

Lemma m_opt0 p s r g : stops p s -> re_match r s = Some g -> re_match (Opt p :: r) s = Some g.
Proof. intros Hs H. cbn [re_match]. rewrite (run_zero p s Hs). cbn [Nat.min]. apply greedy_first. exact H. Qed.

Lemma m_chr p b s r g : p b = true -> re_match r s = Some g -> re_match (Chr p :: r) (b :: s) = Some g.
Proof. intros Hb H. cbn [re_match]. rewrite Hb. exact H. Qed.

Lemma m_group p x s r g : x <> [] -> (forall b, In b x -> p b = true) -> stops p s -> re_match r s = Some g ->
  re_match (Group p :: r) (x ++ s) = Some (x :: g).
Proof.
  intros Hx Hp Hs H. cbn [re_match]. rewrite (run_app p x s Hp Hs). destruct (length x) eqn:E; [apply length_zero_iff_nil in E; contradiction|].
  rewrite <- E. apply greedy_first. rewrite skipn_app_len, firstn_app_len, H. reflexivity.
Qed.

Lemma stops_app p x s : x <> [] -> (forall b, In b x -> p b = false) -> stops p (x ++ s).
Proof. intros Hx Hp. destruct x as [|b x]; [contradiction|]. cbn. apply Hp. left. reflexivity. Qed.

(** ** The parts of a box *)

Lemma m_opening o s r g : opening o -> stops blank_char s -> stops opening_char s -> re_match r s = Some g ->
  re_match (Star blank_char :: Opt opening_char :: Star blank_char :: r) (o ++ s) = Some g.
Proof.
  intros Ho Hs Hs' H. destruct Ho as [w Hw|w b w' Hw Hb Hw'].
  - apply m_star; [exact Hw|exact Hs|]. apply m_opt0; [exact Hs'|]. apply m_star0; assumption.
  - rewrite <- app_assoc. cbn [app]. apply m_star; [exact Hw|destruct Hb as [-> | ->]; reflexivity|].
    apply m_opt; [destruct Hb as [-> | ->]; reflexivity|]. apply m_star; assumption.
Qed.

Lemma m_closing c s r g : closing c -> stops blank_char s -> stops closing_char s -> re_match r s = Some g ->
  re_match (Star blank_char :: Opt closing_char :: Star blank_char :: r) (c ++ s) = Some g.
Proof.
  intros Ho Hs Hs' H. destruct Ho as [w Hw|w b w' Hw Hb Hw'].
  - apply m_star; [exact Hw|exact Hs|]. apply m_opt0; [exact Hs'|]. apply m_star0; assumption.
  - rewrite <- app_assoc. cbn [app]. apply m_star; [exact Hw|destruct Hb as [-> | ->]; reflexivity|].
    apply m_opt; [destruct Hb as [-> | ->]; reflexivity|]. apply m_star; assumption.
Qed.

Lemma m_comma c s r g : comma c -> stops blank_char s -> re_match r s = Some g ->
  re_match (Star blank_char :: Chr comma_char :: Star blank_char :: r) (c ++ s) = Some g.
Proof.
  intros [w w' Hw Hw'] Hs H. rewrite <- app_assoc. cbn [app]. apply m_star; [exact Hw|reflexivity|].
  apply m_chr; [reflexivity|]. apply m_star; assumption.
Qed.

Lemma number_field x b : number x -> In b x -> field_char b = true.
Proof. intros [_ H] Hb. apply H in Hb as (H1 & H2 & _). unfold field_char. rewrite H1, H2. reflexivity. Qed.
Lemma number_last x b : number x -> In b x -> last_char b = true.
Proof. intros [_ H] Hb. apply H in Hb as (H1 & _ & _ & H2). unfold last_char. rewrite H1, H2. reflexivity. Qed.
Lemma number_stops x s : number x -> stops blank_char (x ++ s) /\ stops opening_char (x ++ s) /\ stops closing_char (x ++ s).
Proof. intros [Hx H]. split; [|split]; apply stops_app; try exact Hx; intros b Hb; apply H in Hb; tauto. Qed.

Lemma comma_stops c s : comma c -> stops field_char (c ++ s).
Proof.
  intros [w w' Hw _]. rewrite <- app_assoc. cbn [app]. destruct w as [|b w]; [reflexivity|]. cbn. unfold field_char. rewrite (Hw b (or_introl eq_refl)).
  apply andb_false_r.
Qed.

Lemma closing_stops c s : closing c -> c <> [] -> stops last_char (c ++ s).
Proof.
  intros Hc Hn. destruct Hc as [w Hw|w b w' Hw Hb Hw'].
  - destruct w as [|b w]; [contradiction|]. cbn. unfold last_char. rewrite (Hw b (or_introl eq_refl)). apply andb_false_r.
  - rewrite <- app_assoc. cbn [app]. destruct w as [|b0 w].
    + cbn. destruct Hb as [-> | ->]; reflexivity.
    + cbn. unfold last_char. rewrite (Hw b0 (or_introl eq_refl)). apply andb_false_r.
Qed.

(** The end of the text may also follow the last number directly. *)
Lemma closing_end c : closing c -> stops last_char (c ++ []).
Proof. intros Hc. destruct c as [|b c]; [exact I|]. apply closing_stops; [exact Hc|discriminate]. Qed.

Lemma corner_eq r : corner_items ++ r = Opt opening_char :: Star blank_char :: Group field_char :: Star blank_char :: Chr comma_char :: Star blank_char :: Group field_char ::
   Star blank_char :: Chr comma_char :: Star blank_char :: Group last_char :: Star blank_char :: Opt closing_char :: Star blank_char :: r.
Proof. reflexivity. Qed.

Lemma m_corner o a s1 b s2 c cl s r g : opening o -> number a -> comma s1 -> number b -> comma s2 -> number c -> closing cl ->
  stops last_char (cl ++ s) -> stops blank_char s -> stops closing_char s -> re_match r s = Some g ->
  re_match (Star blank_char :: corner_items ++ r) (o ++ a ++ s1 ++ b ++ s2 ++ c ++ cl ++ s) = Some (a :: b :: c :: g).
Proof.
  intros Ho Ha H1 Hb H2 Hc Hcl Hl Hs Hs' H. rewrite corner_eq.
  apply m_opening; [exact Ho|apply number_stops, Ha..|].
  apply m_group; [apply Ha|intros x; apply number_field, Ha|apply comma_stops, H1|].
  apply m_comma; [exact H1|apply number_stops, Hb|].
  apply m_group; [apply Hb|intros x; apply number_field, Hb|apply comma_stops, H2|].
  apply m_comma; [exact H2|apply number_stops, Hc|].
  apply m_group; [apply Hc|intros x; apply number_last, Hc|exact Hl|].
  apply m_closing; assumption.
Qed.

Lemma last_corner o a s1 b s2 c cl : opening o -> number a -> comma s1 -> number b -> comma s2 -> number c -> closing cl ->
  re_match (Star blank_char :: corner_items) (o ++ a ++ s1 ++ b ++ s2 ++ c ++ cl) = Some [a; b; c].
Proof.
  intros Ho Ha H1 Hb H2 Hc Hcl. rewrite <- (app_nil_r corner_items). rewrite <- (app_nil_r cl).
  apply m_corner; try assumption; try exact I; [apply closing_end, Hcl|reflexivity].
Qed.

Lemma parse_six {F} (ft : FloatText F) s a b c d e f : re_match box_items s = Some [a; b; c; d; e; f] -> parseMBB ft s = six ft a b c d e f.
Proof. intros H. unfold parseMBB. rewrite box_items_eq, H. reflexivity. Qed.

(** A box whose first corner is closed by a bracket or separated from the hyphen by a blank is read as
    the six numbers that are written, whatever signs and exponents they have. *)
Theorem C66_box_read {F} (ft : FloatText F) o1 a s1 b s2 c c1 o2 d s3 e s4 f c2 :
  opening o1 -> number a -> comma s1 -> number b -> comma s2 -> number c -> closing c1 -> c1 <> [] ->
  opening o2 -> number d -> comma s3 -> number e -> comma s4 -> number f -> closing c2 ->
  parseMBB ft (box_text o1 a s1 b s2 c c1 o2 d s3 e s4 f c2) = six ft a b c d e f.
Proof.
  intros. apply parse_six. unfold box_items, box_text.
  apply m_corner; try assumption; [apply closing_stops; assumption|reflexivity|reflexivity|].
  apply m_chr; [reflexivity|]. apply last_corner; assumption.
Qed.
Print Assumptions C66_box_read.

(** ** What a match says *)

Inductive Matches : list item -> list byte -> list (list byte) -> Prop :=
  | M_nil : Matches [] [] []
  | M_chr p b r s g : p b = true -> Matches r s g -> Matches (Chr p :: r) (b :: s) g
  | M_opt0 p r s g : Matches r s g -> Matches (Opt p :: r) s g
  | M_opt1 p b r s g : p b = true -> Matches r s g -> Matches (Opt p :: r) (b :: s) g
  | M_star p w r s g : (forall b, In b w -> p b = true) -> Matches r s g -> Matches (Star p :: r) (w ++ s) g
  | M_group p x r s g : x <> [] -> (forall b, In b x -> p b = true) -> Matches r s g -> Matches (Group p :: r) (x ++ s) (x :: g).

Lemma greedy_some {A} (f : nat -> option A) lo : forall n a, greedy f n lo = Some a -> exists m, m <= n /\ (lo <= n -> lo <= m) /\ f m = Some a.
Proof.
  induction n as [|n IH]; intros a H; cbn in H.
  - destruct (f 0) eqn:E; [|discriminate]. exists 0. split; [lia|]. split; [lia|]. congruence.
  - destruct (f (S n)) eqn:E; [exists (S n); split; [lia|]; split; [lia|]; congruence|].
    destruct (Nat.leb_spec lo n) as [Hl|Hl]; [|discriminate]. apply IH in H as (m & H1 & H2 & H3). exists m. split; [lia|]. split; [auto|exact H3].
Qed.

Lemma run_prefix p : forall m s b, m <= run p s -> In b (firstn m s) -> p b = true.
Proof.
  induction m as [|m IH]; intros [|x s] b Hm Hb; cbn in *; try contradiction.
  destruct (p x) eqn:E; [|lia]. destruct Hb as [<-|Hb]; [exact E|]. apply (IH s); [lia|exact Hb].
Qed.
Lemma run_len p s : run p s <= length s.
Proof. induction s as [|b s IH]; cbn; [lia|]. destruct (p b); lia. Qed.

Lemma re_match_sound r : forall s g, re_match r s = Some g -> Matches r s g.
Proof.
  induction r as [|[p|p|p|p] r IH]; intros s g H; cbn [re_match] in H.
  - destruct s; [|discriminate]. injection H as <-. constructor.
  - destruct s as [|b s]; [discriminate|]. destruct (p b) eqn:E; [|discriminate]. constructor; auto.
  - apply greedy_some in H as (m & Hm & _ & H). apply IH in H. destruct m as [|m]; [apply M_opt0; exact H|].
    destruct s as [|b s]; cbn in Hm; [lia|]. destruct (p b) eqn:E; [|cbn in Hm; lia]. assert (m = 0) as -> by lia. apply M_opt1; assumption.
  - apply greedy_some in H as (m & Hm & _ & H). apply IH in H. rewrite <- (firstn_skipn m s). apply M_star; [|exact H].
    intros b Hb. eapply run_prefix; eassumption.
  - destruct (run p s) as [|n] eqn:En; [discriminate|]. rewrite <- En in H. apply greedy_some in H as (m & Hm & Hlo & H).
    destruct (re_match r (skipn m s)) as [g'|] eqn:E; [|discriminate]. injection H as <-. apply IH in E.
    rewrite <- (firstn_skipn m s) at 1. apply M_group; [|intros b Hb; eapply run_prefix; eassumption|exact E].
    intros C. apply (f_equal (@length _)) in C. rewrite firstn_length in C. cbn in C. pose proof (run_len p s). lia.
Qed.

Ltac inv_match H := inversion H; subst; clear H.

Lemma matches_opening r s g : Matches (Star blank_char :: Opt opening_char :: Star blank_char :: r) s g -> exists o t, s = o ++ t /\ opening o /\ Matches r t g.
Proof.
  intros H. inv_match H. match goal with H : Matches (Opt _ :: _) _ _ |- _ => inv_match H end.
  - match goal with H : Matches (Star _ :: _) _ _ |- _ => inv_match H end. rewrite app_assoc. eexists _, _. split; [reflexivity|]. split; [|eassumption].
    apply opening_none. intros b Hb. apply in_app_iff in Hb as [Hb|Hb]; auto.
  - match goal with H : Matches (Star _ :: _) _ _ |- _ => inv_match H end. rewrite app_comm_cons, app_assoc. eexists _, _. split; [reflexivity|]. split; [|eassumption].
    apply opening_bracket; try (intros x Hx; auto; fail). match goal with H : opening_char ?b = true |- _ => destruct b; try discriminate H end; auto.
Qed.

Lemma matches_closing r s g : Matches (Star blank_char :: Opt closing_char :: Star blank_char :: r) s g -> exists o t, s = o ++ t /\ closing o /\ Matches r t g.
Proof.
  intros H. inv_match H. match goal with H : Matches (Opt _ :: _) _ _ |- _ => inv_match H end.
  - match goal with H : Matches (Star _ :: _) _ _ |- _ => inv_match H end. rewrite app_assoc. eexists _, _. split; [reflexivity|]. split; [|eassumption].
    apply closing_none. intros b Hb. apply in_app_iff in Hb as [Hb|Hb]; auto.
  - match goal with H : Matches (Star _ :: _) _ _ |- _ => inv_match H end. rewrite app_comm_cons, app_assoc. eexists _, _. split; [reflexivity|]. split; [|eassumption].
    apply closing_bracket; try (intros x Hx; auto; fail). match goal with H : closing_char ?b = true |- _ => destruct b; try discriminate H end; auto.
Qed.

Lemma matches_comma r s g : Matches (Star blank_char :: Chr comma_char :: Star blank_char :: r) s g -> exists o t, s = o ++ t /\ comma o /\ Matches r t g.
Proof.
  intros H. inv_match H. match goal with H : Matches (Chr _ :: _) _ _ |- _ => inv_match H end.
  match goal with H : Matches (Star _ :: _) _ _ |- _ => inv_match H end. rewrite app_comm_cons, app_assoc. eexists _, _. split; [reflexivity|]. split; [|eassumption].
  match goal with H : comma_char ?b = true |- _ => destruct b; try discriminate H end. constructor; intros x Hx; auto.
Qed.

Definition field (x : list byte) : Prop := x <> [] /\ forall b, In b x -> blank_char b = false /\ comma_char b = false.
Definition last_field (x : list byte) : Prop := x <> [] /\ forall b, In b x -> blank_char b = false /\ closing_char b = false.

Lemma matches_field r s g : Matches (Group field_char :: r) s g -> exists x t g', s = x ++ t /\ g = x :: g' /\ field x /\ Matches r t g'.
Proof.
  intros H. inv_match H. eexists _, _, _. split; [reflexivity|]. split; [reflexivity|]. split; [|eassumption]. split; [assumption|].
  intros b Hb. match goal with H : forall b, _ -> field_char b = true |- _ => apply H in Hb end. unfold field_char in Hb. rewrite andb_true_iff, !negb_true_iff in Hb. tauto.
Qed.
Lemma matches_last r s g : Matches (Group last_char :: r) s g -> exists x t g', s = x ++ t /\ g = x :: g' /\ last_field x /\ Matches r t g'.
Proof.
  intros H. inv_match H. eexists _, _, _. split; [reflexivity|]. split; [reflexivity|]. split; [|eassumption]. split; [assumption|].
  intros b Hb. match goal with H : forall b, _ -> last_char b = true |- _ => apply H in Hb end. unfold last_char in Hb. rewrite andb_true_iff, !negb_true_iff in Hb. tauto.
Qed.

Lemma matches_corner r s g : Matches (Star blank_char :: corner_items ++ r) s g -> exists o a s1 b s2 c cl t g',
  s = o ++ a ++ s1 ++ b ++ s2 ++ c ++ cl ++ t /\ g = a :: b :: c :: g' /\
  opening o /\ field a /\ comma s1 /\ field b /\ comma s2 /\ last_field c /\ closing cl /\ Matches r t g'.
Proof.
  intros H. rewrite corner_eq in H. apply matches_opening in H as (o & t1 & -> & Ho & H). apply matches_field in H as (a & t2 & g1 & -> & -> & Ha & H).
  apply matches_comma in H as (s1 & t3 & -> & H1 & H). apply matches_field in H as (b & t4 & g2 & -> & -> & Hb & H).
  apply matches_comma in H as (s2 & t5 & -> & H2 & H). apply matches_last in H as (c & t6 & g3 & -> & -> & Hc & H).
  apply matches_closing in H as (cl & t7 & -> & Hcl & H). exists o, a, s1, b, s2, c, cl, t7, g3. auto 20.
Qed.

(** Whatever is accepted is the text of a box whose six fields parse to the numbers returned. *)
Theorem C66_accepted {F} (ft : FloatText F) s box : parseMBB ft s = Some box ->
  exists o1 a s1 b s2 c c1 o2 d s3 e s4 f c2, s = box_text o1 a s1 b s2 c c1 o2 d s3 e s4 f c2 /\
    opening o1 /\ field a /\ comma s1 /\ field b /\ comma s2 /\ last_field c /\ closing c1 /\
    opening o2 /\ field d /\ comma s3 /\ field e /\ comma s4 /\ last_field f /\ closing c2 /\
    six ft a b c d e f = Some box.
Proof.
  intros H. unfold parseMBB in H. rewrite box_items_eq in H. destruct (re_match box_items s) as [g|] eqn:E; [|discriminate].
  apply re_match_sound in E. unfold box_items in E. apply matches_corner in E as (o1 & a & s1 & b & s2 & c & c1 & t & g' & -> & -> & Ho & Ha & H1 & Hb & H2 & Hc & Hc1 & E).
  inversion E as [|p x r' s' g'' Hp E'| | | |]; subst. rewrite <- (app_nil_r corner_items) in E'.
  apply matches_corner in E' as (o2 & d & s3 & e & s4 & f & c2 & t & g'' & -> & -> & Ho2 & Hd & H3 & He & H4 & Hf & Hc2 & E').
  inversion E'; subst. assert (x = x2d) as -> by (destruct x; try discriminate Hp; reflexivity).
  exists o1, a, s1, b, s2, c, c1, o2, d, s3, e, s4, f, c2. rewrite app_nil_r. split; [reflexivity|]. repeat (split; [assumption|]). exact H.
Qed.
Print Assumptions C66_accepted.

(** ** Without a bracket or blank before the hyphen *)

Definition commas (s : list byte) : nat := length (List.filter comma_char s).

Lemma commas_app s t : commas (s ++ t) = commas s + commas t.
Proof. unfold commas. rewrite List.filter_app, app_length. reflexivity. Qed.
Lemma commas_none s : (forall b, In b s -> comma_char b = false) -> commas s = 0.
Proof.
  intros H. unfold commas. induction s as [|b s IH]; [reflexivity|]. cbn. rewrite (H b (or_introl eq_refl)). apply IH. intros x Hx. apply H. right. exact Hx.
Qed.

Lemma space_other b : blank_char b = true -> comma_char b = false /\ dash_char b = false.
Proof. destruct b; intros H; try discriminate H; split; reflexivity. Qed.

Lemma opening_bytes o b : opening o -> In b o -> comma_char b = false /\ dash_char b = false.
Proof.
  intros Ho Hb. destruct Ho as [w Hw|w b' w' Hw Hb' Hw']; [apply space_other, Hw, Hb|].
  apply in_app_iff in Hb as [Hb|[<-|Hb]]; [apply space_other, Hw, Hb| |apply space_other, Hw', Hb]. destruct Hb' as [-> | ->]; split; reflexivity.
Qed.
Lemma closing_bytes o b : closing o -> In b o -> comma_char b = false /\ dash_char b = false.
Proof.
  intros Ho Hb. destruct Ho as [w Hw|w b' w' Hw Hb' Hw']; [apply space_other, Hw, Hb|].
  apply in_app_iff in Hb as [Hb|[<-|Hb]]; [apply space_other, Hw, Hb| |apply space_other, Hw', Hb]. destruct Hb' as [-> | ->]; split; reflexivity.
Qed.
Lemma comma_bytes o b : comma o -> In b o -> dash_char b = false.
Proof.
  intros [w w' Hw Hw'] Hb. apply in_app_iff in Hb as [Hb|[<-|Hb]]; [apply space_other, Hw, Hb|reflexivity|apply space_other, Hw', Hb].
Qed.
Lemma comma_one o : comma o -> commas o = 1.
Proof.
  intros [w w' Hw Hw']. change (w ++ x2c :: w') with (w ++ [x2c] ++ w'). rewrite !commas_app, (commas_none w), (commas_none w'); [reflexivity|..];
    intros b Hb; apply space_other; auto.
Qed.

Lemma corner_commas s g : Matches (Star blank_char :: corner_items) s g -> 2 <= commas s.
Proof.
  rewrite <- (app_nil_r corner_items). intros H. apply matches_corner in H as (o & a & s1 & b & s2 & c & cl & t & g' & -> & _ & _ & _ & H1 & _ & H2 & _ & _ & _).
  rewrite !commas_app, (comma_one s1), (comma_one s2) by assumption. lia.
Qed.

(** After the first corner. *)
Definition rest_re : list item := Star blank_char :: Opt closing_char :: Star blank_char :: Chr dash_char :: Star blank_char :: corner_items.

Lemma rest_dash s g : Matches rest_re s g -> exists s1 s2, s = s1 ++ x2d :: s2 /\ 2 <= commas s2.
Proof.
  intros H. apply matches_closing in H as (cl & t & -> & _ & H). inv_match H.
  match goal with H : dash_char ?b = true |- _ => destruct b; try discriminate H end. eexists _, _. split; [reflexivity|]. eapply corner_commas. eassumption.
Qed.

(** No hyphen in [s] has two commas after it. *)
Definition settled (s : list byte) : Prop := forall s1 s2, s = s1 ++ x2d :: s2 -> commas s2 <= 1.

Lemma settled_none s : settled s -> forall s1 s2, s = s1 ++ s2 -> re_match rest_re s2 = None.
Proof.
  intros H s1 s2 ->. destruct (re_match rest_re s2) as [g|] eqn:E; [|reflexivity]. exfalso.
  apply re_match_sound, rest_dash in E as (t1 & t2 & -> & Hc). specialize (H (s1 ++ t1) t2). rewrite app_assoc in H. specialize (H eq_refl). lia.
Qed.

Lemma m_group_longest p x y r g : x <> [] -> (forall b, In b x -> p b = true) -> re_match r y = Some g ->
  (forall y1 y2, y = y1 ++ y2 -> y1 <> [] -> re_match r y2 = None) -> re_match (Group p :: r) (x ++ y) = Some (x :: g).
Proof.
  intros Hx Hp Hy Hno. cbn [re_match].
  assert (Hrun : length x <= run p (x ++ y)).
  { clear -Hp. induction x as [|b x IH]; cbn; [lia|]. rewrite (Hp b (or_introl eq_refl)). apply le_n_S, IH. intros z Hz. apply Hp. right. exact Hz. }
  assert (Hx1 : 1 <= length x) by (destruct x; [contradiction|cbn; lia]).
  pose proof (run_len p (x ++ y)) as Hlen. rewrite app_length in Hlen.
  destruct (run p (x ++ y)) as [|n0] eqn:En; [lia|]. rewrite <- En in Hrun, Hlen |- *. clear n0 En.
  assert (Hf : forall n, length x <= n -> n <= length x + length y ->
    greedy (fun n => option_map (cons (firstn n (x ++ y))) (re_match r (skipn n (x ++ y)))) n 1 = Some (x :: g)).
  { induction n as [|n IH]; intros H1 H2; [lia|]. destruct (Nat.eq_dec (length x) (S n)) as [E|E].
    - rewrite <- E. apply greedy_first. rewrite skipn_app_len, firstn_app_len, Hy. reflexivity.
    - cbn [greedy]. rewrite skipn_app, (skipn_all2 x) by lia. cbn [app].
      rewrite (Hno (firstn (S n - length x) y) _ (eq_sym (firstn_skipn _ _))).
      2:{ intros C. apply (f_equal (@length _)) in C. rewrite firstn_length in C. cbn [length] in C. lia. }
      cbn [option_map]. destruct (Nat.leb_spec 1 n); [|lia]. apply IH; lia. }
  apply Hf; lia.
Qed.

Lemma first_corner_tight o a s1 b s2 x z g : opening o -> number a -> comma s1 -> number b -> comma s2 ->
  x <> [] -> (forall y, In y x -> last_char y = true) -> re_match (Star blank_char :: corner_items) z = Some g -> settled z ->
  stops blank_char (x ++ x2d :: z) ->
  re_match box_items (o ++ a ++ s1 ++ b ++ s2 ++ x ++ x2d :: z) = Some (a :: b :: x :: g).
Proof.
  intros Ho Ha H1 Hb H2 Hx Hp Hz Hset Hsp. unfold box_items. rewrite corner_eq.
  apply m_opening; [exact Ho|apply number_stops, Ha..|].
  apply m_group; [apply Ha|intros y; apply number_field, Ha|apply comma_stops, H1|].
  apply m_comma; [exact H1|apply number_stops, Hb|].
  apply m_group; [apply Hb|intros y; apply number_field, Hb|apply comma_stops, H2|].
  apply m_comma; [exact H2|exact Hsp|]. apply m_group_longest; [exact Hx|exact Hp| |].
  - apply m_star0; [reflexivity|]. apply m_opt0; [reflexivity|]. apply m_star0; [reflexivity|]. apply m_chr; [reflexivity|exact Hz].
  - intros y1 y2 E Hn. destruct y1 as [|b0 y1]; [contradiction|]. cbn [app] in E. injection E as <- E. apply (settled_none z Hset y1 y2 E).
Qed.

Lemma split_dash (h t s1 s2 : list byte) : (forall b, In b h -> dash_char b = false) -> h ++ t = s1 ++ x2d :: s2 -> exists s0, s1 = h ++ s0 /\ t = s0 ++ x2d :: s2.
Proof.
  revert s1. induction h as [|b h IH]; intros s1 Hh E; [exists s1; auto|]. destruct s1 as [|b1 s1]; cbn in E.
  - injection E as -> E. specialize (Hh x2d (or_introl eq_refl)). discriminate Hh.
  - injection E as <- E. destruct (IH s1) as (s0 & -> & ->); [intros x Hx; apply Hh; right; exact Hx|exact E|]. exists s0. auto.
Qed.

Lemma number_commas x : number x -> commas x = 0.
Proof. intros [_ H]. apply commas_none. intros b Hb. apply H, Hb. Qed.

Lemma corner_settled o d s3 e s4 f c2 : opening o -> (forall b, In b d -> dash_char b = false) -> comma s3 -> number e -> comma s4 -> number f -> closing c2 ->
  settled (o ++ d ++ s3 ++ e ++ s4 ++ f ++ c2).
Proof.
  intros Ho Hd H3 He H4 Hf Hc t1 t2 E. rewrite !app_assoc in E. rewrite <- 3!app_assoc in E.
  apply split_dash in E as (t0 & _ & E).
  - assert (Hc1 : commas (e ++ s4 ++ f ++ c2) = 1).
    { rewrite !commas_app, (number_commas e), (comma_one s4), (number_commas f), (commas_none c2) by (assumption || (intros b Hb; exact (proj1 (closing_bytes c2 b Hc Hb)))). reflexivity. }
    rewrite E in Hc1. change (t0 ++ x2d :: t2) with (t0 ++ [x2d] ++ t2) in Hc1. rewrite !commas_app in Hc1. lia.
  - intros b Hb. apply in_app_iff in Hb as [Hb|Hb]; [apply in_app_iff in Hb as [Hb|Hb]|]; [exact (proj2 (opening_bytes o b Ho Hb))|exact (Hd b Hb)|exact (comma_bytes s3 b H3 Hb)].
Qed.

(** If the hyphen follows the first corner directly, the box is read as written when its fourth number
    has no hyphen in it. *)
Theorem C66_compact {F} (ft : FloatText F) o1 a s1 b s2 c o2 d s3 e s4 f c2 :
  opening o1 -> number a -> comma s1 -> number b -> comma s2 -> number c ->
  opening o2 -> number d -> comma s3 -> number e -> comma s4 -> number f -> closing c2 ->
  (forall x, In x d -> x <> x2d) ->
  parseMBB ft (box_text o1 a s1 b s2 c [] o2 d s3 e s4 f c2) = six ft a b c d e f.
Proof.
  intros Ho1 Ha H1 Hb H2 Hc Ho2 Hd H3 He H4 Hf Hc2 Hn. apply parse_six. unfold box_text. cbn [app].
  apply first_corner_tight; try assumption; [apply Hc|intros y; apply number_last, Hc|apply last_corner; assumption| |apply number_stops, Hc].
  apply corner_settled; try assumption. intros x Hx. specialize (Hn x Hx). destruct x; try reflexivity. contradiction.
Qed.
Print Assumptions C66_compact.

(** Otherwise everything up to the last hyphen of the fourth number goes to the third one. *)
Theorem C66_compact_hyphen {F} (ft : FloatText F) o1 a s1 b s2 c o2 d1 d2 s3 e s4 f c2 :
  opening o1 -> number a -> comma s1 -> number b -> comma s2 -> number c ->
  o2 = [] \/ o2 = [x28] \/ o2 = [x5b] -> number (d1 ++ x2d :: d2) -> d2 <> [] -> (forall x, In x d2 -> x <> x2d) ->
  comma s3 -> number e -> comma s4 -> number f -> closing c2 ->
  parseMBB ft (box_text o1 a s1 b s2 c [] o2 (d1 ++ x2d :: d2) s3 e s4 f c2) = six ft a b (c ++ x2d :: o2 ++ d1) d2 e f.
Proof.
  intros Ho1 Ha H1 Hb H2 Hc Ho2 Hd Hd2 Hn H3 He H4 Hf Hc2. apply parse_six. unfold box_text. cbn [app].
  assert (Hd2n : number d2) by (split; [exact Hd2|]; intros x Hx; apply Hd; apply in_app_iff; right; right; exact Hx).
  replace (c ++ x2d :: o2 ++ (d1 ++ x2d :: d2) ++ s3 ++ e ++ s4 ++ f ++ c2) with ((c ++ x2d :: o2 ++ d1) ++ x2d :: d2 ++ s3 ++ e ++ s4 ++ f ++ c2)
    by (rewrite <- !app_assoc; cbn [app]; rewrite <- !app_assoc; reflexivity).
  apply first_corner_tight; try assumption.
  - destruct c; discriminate.
  - intros y Hy. apply in_app_iff in Hy as [Hy|[<-|Hy]]; [exact (number_last c y Hc Hy)|reflexivity|]. apply in_app_iff in Hy as [Hy|Hy].
    + destruct Ho2 as [-> |[-> | ->]]; [destruct Hy|destruct Hy as [<-|[]]; reflexivity..].
    + eapply number_last; [exact Hd|]. apply in_app_iff. left. exact Hy.
  - change (d2 ++ s3 ++ e ++ s4 ++ f ++ c2) with ([] ++ d2 ++ s3 ++ e ++ s4 ++ f ++ c2). apply last_corner; try assumption. apply opening_none. intros x [].
  - change (d2 ++ s3 ++ e ++ s4 ++ f ++ c2) with ([] ++ d2 ++ s3 ++ e ++ s4 ++ f ++ c2). apply corner_settled; try assumption; [apply opening_none; intros x []|].
    intros x Hx. specialize (Hn x Hx). destruct x; try reflexivity. contradiction.
  - rewrite <- app_assoc. apply number_stops, Hc.
Qed.
Print Assumptions C66_compact_hyphen.

(** ** What the programs print is read back *)

Definition print_box {F} (ft : FloatText F) (box : F * F * F * (F * F * F)) : list byte :=
  let '((a, b, c), (d, e, f)) := box in
  txt "(" ++ fmtG ft a ++ txt "," ++ fmtG ft b ++ txt "," ++ fmtG ft c ++ txt ")-(" ++ fmtG ft d ++ txt "," ++ fmtG ft e ++ txt "," ++ fmtG ft f ++ txt ")".

Theorem C66_round_trip {F} (ft : FloatText F) box : (forall x, number (fmtG ft x)) -> parseMBB ft (print_box ft box) = Some box.
Proof.
  intros Hn. destruct box as [[[a b] c] [[d e] f]]. unfold print_box.
  assert (Hbl : blank []) by (intros x []).
  transitivity (six ft (fmtG ft a) (fmtG ft b) (fmtG ft c) (fmtG ft d) (fmtG ft e) (fmtG ft f)); [|unfold six; rewrite !parse_fmt; reflexivity].
  apply (C66_box_read ft [x28] (fmtG ft a) [x2c] (fmtG ft b) [x2c] (fmtG ft c) [x29] [x28] (fmtG ft d) [x2c] (fmtG ft e) [x2c] (fmtG ft f) [x29]);
    try apply Hn; try discriminate; try (apply (comma_in [] []); assumption); try (apply (opening_bracket [] _ []); auto); try (apply (closing_bracket [] _ []); auto).
Qed.
Print Assumptions C66_round_trip.

(** The contract on printed numbers is satisfiable, and the usage text's example is read. *)
Lemma qtext_numbers x : number (fmtG qtext x).
Proof.
  destruct (fmt_token qtext x) as [Hx _]. split; [exact Hx|]. intros b Hb. change (fmtG qtext x) with (fmtQ x) in Hb. unfold fmtQ in Hb.
  assert (Hd : forall n b, (0 <= n)%Z -> In b (show_nat n) -> is_digit b = true) by (intros n b' H0 Hb'; pose proof (show_nat_digits n H0) as H; rewrite forallb_forall in H; apply H, Hb').
  assert (Hdg : forall b, is_digit b = true -> blank_char b = false /\ comma_char b = false /\ opening_char b = false /\ closing_char b = false)
    by (intros b' H; destruct b'; try discriminate H; auto).
  apply in_app_iff in Hb as [Hb|Hb].
  - unfold show_int in Hb. destruct (Z.ltb_spec (Qnum x) 0); [destruct Hb as [<-|Hb]; [auto|]|]; (eapply Hdg, Hd; [|exact Hb]); lia.
  - destruct Hb as [<-|Hb]; [auto|]. eapply Hdg, Hd; [|exact Hb]. lia.
Qed.

Example C66_usage : parseMBB qtext (txt "(-80/1,-80/1,-26/10)-(80/1,80/1,6/10)") = Some ((-80 # 1, -80 # 1, -26 # 10), (80 # 1, 80 # 1, 6 # 10))%Q.
Proof. reflexivity. Qed.
(** A box between negative corners has to be written with brackets or blanks: "-3-" is not a number. *)
Example C66_negative_compact : re_match mbb_re (txt "-3,-3,-3--1,-1,-1") = Some [txt "-3"; txt "-3"; txt "-3-"; txt "1"; txt "-1"; txt "-1"] /\
  re_match mbb_re (txt "-3,-3,-3 - -1,-1,-1") = Some [txt "-3"; txt "-3"; txt "-3"; txt "-1"; txt "-1"; txt "-1"] /\
  re_match mbb_re (txt "0,0,0-1e-5,1,1") = Some [txt "0"; txt "0"; txt "0-1e"; txt "5"; txt "1"; txt "1"].
Proof. split; [|split]; reflexivity. Qed.
