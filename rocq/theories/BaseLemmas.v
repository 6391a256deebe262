(** Lemmas about the shared vocabulary of Base.v. *)
From Verif Require Import Base.
From Coq Require Import ZArith List Lia Bool String Init.Byte ZifyBool.
From stdpp Require Import base list list_numbers gmap sets fin_sets.
Import ListNotations.
Open Scope Z_scope.
Ltac Zify.zify_post_hook ::= Z.to_euclidean_division_equations.

Lemma key_eq (x y z x' y' z' : Z) : x = x' -> y = y' -> z = z' -> (x, y, z) = (x', y', z').
Proof. congruence. Qed.

Lemma b2z_range b : 0 <= b2z b < 256.
Proof.
  unfold b2z. pose proof (Byte.to_N_bounded b). lia.
Qed.

Lemma b2z_z2b z : b2z (z2b z) = z mod 256.
Proof.
  unfold z2b, b2z. set (m := z mod 256).
  assert (Hm : 0 <= m < 256) by (subst m; lia).
  destruct (Byte.of_N (Z.to_N m)) as [b|] eqn:E.
  - apply Byte.to_of_N in E. lia.
  - apply Byte.of_N_None_iff in E. lia.
Qed.

Lemma z2b_b2z b : z2b (b2z b) = b.
Proof.
  unfold z2b. pose proof (b2z_range b). rewrite Z.mod_small by lia.
  unfold b2z. rewrite N2Z.id, Byte.of_to_N. reflexivity.
Qed.

Lemma b2z_inj a b : b2z a = b2z b -> a = b.
Proof. intros H. rewrite <- (z2b_b2z a), <- (z2b_b2z b), H. reflexivity. Qed.

Lemma byte_eqb_eq a b : Byte.eqb a b = true <-> a = b.
Proof. split; [apply Byte.byte_dec_bl | apply Byte.byte_dec_lb]. Qed.

Lemma byte_eqb_refl a : Byte.eqb a a = true.
Proof. apply byte_eqb_eq; reflexivity. Qed.

(** ** Decimal text *)

Definition undec (a : Z) (l : list byte) : Z := fold_left (fun a b => a * 10 + (b2z b - 48)) l a.

Lemma b2z_digit d : 0 <= d < 10 -> b2z (digit d) = 48 + d.
Proof. intros. unfold digit. rewrite b2z_z2b. apply Z.mod_small. lia. Qed.

Lemma is_digit_digit d : 0 <= d < 10 -> is_digit (digit d) = true.
Proof. intros. unfold is_digit. rewrite b2z_digit; lia. Qed.

Lemma dec_digits_digits fuel n acc :
  0 <= n -> forallb is_digit acc = true -> forallb is_digit (dec_digits fuel n acc) = true.
Proof.
  revert n acc. induction fuel as [|fuel IH]; intros n acc Hn Hacc; cbn [dec_digits]; [exact Hacc|].
  assert (H' : forallb is_digit (digit (n mod 10) :: acc) = true).
  { cbn [forallb]. rewrite is_digit_digit by lia. exact Hacc. }
  destruct (n / 10 =? 0); [exact H'|]. apply IH; [lia|exact H'].
Qed.

Lemma dec_digits_undec fuel n acc a :
  0 <= n -> n < 2 ^ Z.of_nat fuel ->
  exists p, dec_digits fuel n acc = p ++ acc /\
            undec 0 p = n /\ (0 < Z.of_nat fuel -> p <> []) /\
            undec a (p ++ acc) = undec (undec a p) acc.
Proof.
  intros Hn Hf. 
  assert (Happ : forall p, undec a (p ++ acc) = undec (undec a p) acc)
    by (intros; unfold undec; apply fold_left_app).
  enough (exists p, dec_digits fuel n acc = p ++ acc /\ undec 0 p = n
            /\ (0 < Z.of_nat fuel -> p <> [])) as (p & ? & ? & ?) by eauto.
  clear Happ a.
  revert n acc Hn Hf. induction fuel as [|fuel IH]; intros n acc Hn Hf.
  - exists []. cbn. split; [reflexivity|]. change (2 ^ Z.of_nat 0) with 1 in Hf. split; lia.
  - cbn [dec_digits].
    destruct (Z.eqb_spec (n / 10) 0) as [E|E].
    + exists [digit (n mod 10)]. split; [reflexivity|]. split; [|discriminate].
      unfold undec. cbn [fold_left]. rewrite b2z_digit by lia. lia.
    + rewrite Nat2Z.inj_succ, Z.pow_succ_r in Hf by lia.
      destruct (IH (n / 10) (digit (n mod 10) :: acc)) as (p & Hp & Hu & _); [lia|lia|].
      exists (p ++ [digit (n mod 10)]). rewrite Hp, <- app_assoc. split; [reflexivity|].
      split.
      * unfold undec in *. rewrite fold_left_app, Hu. cbn [fold_left].
        rewrite b2z_digit by lia. lia.
      * intros _. destruct p; discriminate.
Qed.

Lemma show_nat_fuel n : 0 <= n -> n < 2 ^ Z.of_nat (S (Z.to_nat (Z.log2 n))).
Proof.
  intros Hn. rewrite Nat2Z.inj_succ, Z2Nat.id by apply Z.log2_nonneg.
  destruct (Z.eq_dec n 0) as [->|]; [reflexivity|].
  apply Z.log2_spec. lia.
Qed.

Lemma show_nat_undec n : 0 <= n -> undec 0 (show_nat n) = n.
Proof.
  intros Hn. unfold show_nat.
  destruct (dec_digits_undec _ n [] 0 Hn (show_nat_fuel n Hn)) as (p & -> & Hu & _).
  rewrite app_nil_r. exact Hu.
Qed.

Lemma show_nat_nonempty n : 0 <= n -> show_nat n <> [].
Proof.
  intros Hn. unfold show_nat.
  destruct (dec_digits_undec _ n [] 0 Hn (show_nat_fuel n Hn)) as (p & -> & _ & H & _).
  rewrite app_nil_r. apply H. lia.
Qed.

Lemma show_nat_digits n : 0 <= n -> forallb is_digit (show_nat n) = true.
Proof. intros Hn. apply dec_digits_digits; [exact Hn|reflexivity]. Qed.

Lemma show_int_nonneg n : 0 <= n -> show_int n = show_nat n.
Proof. intros. unfold show_int. destruct (Z.ltb_spec n 0); [lia|reflexivity]. Qed.

Lemma atoi_show n : 0 <= n <= max_int -> atoi_digits (show_int n) = Some n.
Proof.
  intros Hn. rewrite show_int_nonneg by lia. unfold atoi_digits.
  fold (undec 0 (show_nat n)). rewrite show_nat_undec by lia.
  destruct (Z.leb_spec n max_int); [reflexivity|lia].
Qed.

(** ** Lines and tokens *)

Definition no_nl (l : list byte) : bool := forallb (fun b => negb (Byte.eqb b x0a)) l.

Lemma read_line_app l r : no_nl l = true -> read_line (l ++ x0a :: r) = Some (l ++ [x0a], r).
Proof.
  induction l as [|b l IH]; intros H; [reflexivity|].
  cbn [no_nl forallb] in H. apply andb_true_iff in H as [H1 H2].
  cbn [app read_line]. destruct (Byte.eqb b x0a); [discriminate|].
  rewrite IH by exact H2. reflexivity.
Qed.

Lemma read_line_None l : no_nl l = true -> read_line l = None.
Proof.
  induction l as [|b l IH]; intros H; [reflexivity|].
  cbn [no_nl forallb] in H. apply andb_true_iff in H as [H1 H2].
  cbn [read_line]. destruct (Byte.eqb b x0a); [discriminate|].
  rewrite IH by exact H2. reflexivity.
Qed.

Lemma read_line_Some l line rest :
  read_line l = Some (line, rest) ->
  exists p, line = p ++ [x0a] /\ no_nl p = true /\ l = line ++ rest.
Proof.
  revert line rest. induction l as [|b l IH]; intros line rest H; [discriminate|].
  cbn [read_line] in H. destruct (Byte.eqb b x0a) eqn:E.
  - injection H as <- <-. apply byte_eqb_eq in E as ->. exists []. auto.
  - destruct (read_line l) as [[ln r]|]; [|discriminate]. injection H as <- <-.
    destruct (IH _ _ eq_refl) as (p & -> & Hp & ->).
    exists (b :: p). split; [reflexivity|]. split; [|reflexivity].
    unfold no_nl in *. cbn [forallb]. rewrite E. exact Hp.
Qed.

Lemma no_nl_app a b : no_nl (a ++ b) = no_nl a && no_nl b.
Proof. apply forallb_app. Qed.

Lemma digit_not_nl l : forallb is_digit l = true -> no_nl l = true.
Proof.
  unfold no_nl. rewrite !forallb_forall. intros H b Hb. apply H in Hb.
  destruct (Byte.eqb b x0a) eqn:E; [|reflexivity].
  apply byte_eqb_eq in E as ->. discriminate.
Qed.

Lemma not_space_not_nl l : forallb not_space l = true -> no_nl l = true.
Proof.
  unfold no_nl. rewrite !forallb_forall. intros H b Hb. apply H in Hb.
  destruct (Byte.eqb b x0a) eqn:E; [|reflexivity].
  apply byte_eqb_eq in E as ->. discriminate.
Qed.

Lemma drop_lit_app p l : drop_lit p (p ++ l) = Some l.
Proof. induction p as [|a p IH]; [destruct l; reflexivity|]. cbn. rewrite byte_eqb_refl. exact IH. Qed.

Lemma span_app c a r :
  forallb c a = true -> (forall b, head r = Some b -> c b = false) -> span c (a ++ r) = (a, r).
Proof.
  intros Ha Hr. induction a as [|x a IH].
  - cbn. destruct r as [|b r]; [reflexivity|]. cbn [span]. rewrite (Hr b eq_refl). reflexivity.
  - cbn [forallb] in Ha. apply andb_true_iff in Ha as [H1 H2]. cbn [app span]. rewrite H1.
    rewrite IH by exact H2. reflexivity.
Qed.

Lemma token_app c a r :
  a <> [] -> forallb c a = true -> (forall b, head r = Some b -> c b = false) ->
  token c (a ++ r) = Some (a, r).
Proof.
  intros Hne Ha Hr. unfold token. rewrite span_app by assumption.
  destruct a; [congruence|reflexivity].
Qed.

Lemma match3_app p c a b d :
  c x20 = false -> c x0a = false ->
  a <> [] -> b <> [] -> d <> [] ->
  forallb c a = true -> forallb c b = true -> forallb c d = true ->
  match3 p c (p ++ a ++ [x20] ++ b ++ [x20] ++ d ++ [x0a]) = Some (a, b, d).
Proof.
  intros Hsp Hnl Ha Hb Hd Ca Cb Cd. unfold match3. rewrite drop_lit_app.
  rewrite token_app; [|assumption|assumption|cbn; intros ? [= <-]; exact Hsp].
  cbn [app].
  rewrite token_app; [|assumption|assumption|cbn; intros ? [= <-]; exact Hsp].
  cbn [app].
  rewrite token_app; [|assumption|assumption|cbn; intros ? [= <-]; exact Hnl].
  reflexivity.
Qed.

Lemma match1_app p c a :
  c x0a = false -> a <> [] -> forallb c a = true ->
  match1 p c (p ++ a ++ [x0a]) = Some a.
Proof.
  intros Hnl Ha Ca. unfold match1. rewrite drop_lit_app.
  rewrite token_app; [|assumption|assumption|cbn; intros ? [= <-]; exact Hnl].
  reflexivity.
Qed.
