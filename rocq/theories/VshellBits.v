(** Neighbour bits: findNeighbors and diffKeys against the specification. *)
From Verif Require Import Base BaseLemmas BinvoxModel Geom VshellModel VshellSpec.
From Coq Require Import ZArith QArith List Lia Bool.
From stdpp Require Import base list gmap sets fin_sets.
Import ListNotations.
Open Scope Z_scope.

Lemma in_range3 n : -1 <= n <= 1 -> n = -1 \/ n = 0 \/ n = 1.
Proof. lia. Qed.

Lemma offset_bit_range o : is_offset o -> 0 <= offset_bit o <= 26 /\ offset_bit o <> 13.
Proof.
  destruct o as [[x y] z]. unfold is_offset, offset_bit, kx, ky, kz. cbn [fst snd].
  intros (Hx & Hy & Hz & Hne). split; [lia|]. intros E. apply Hne.
  apply key_eq; lia.
Qed.

Lemma offset_bit_inj o o' : is_offset o -> is_offset o' -> offset_bit o = offset_bit o' -> o = o'.
Proof.
  destruct o as [[x y] z], o' as [[x' y'] z']. unfold is_offset, offset_bit, kx, ky, kz. cbn [fst snd].
  intros (Hx & Hy & Hz & _) (Hx' & Hy' & Hz' & _) E. apply key_eq; lia.
Qed.

Lemma offsets_bit (p : nat) o : offsets !! p = Some o -> offset_bit o = Z.of_nat p.
Proof.
  do 27 (destruct p as [|p]; [cbn; intros [= <-]; reflexivity|]).
  cbn. discriminate.
Qed.

Lemma offsets_lookup o :
  -1 <= kx o <= 1 -> -1 <= ky o <= 1 -> -1 <= kz o <= 1 ->
  offsets !! Z.to_nat (offset_bit o) = Some o.
Proof.
  destruct o as [[x y] z]. unfold kx, ky, kz. cbn [fst snd].
  intros Hx Hy Hz. apply in_range3 in Hx, Hy, Hz.
  destruct Hx as [->|[->| ->]], Hy as [->|[->| ->]], Hz as [->|[->| ->]]; reflexivity.
Qed.

Lemma offsets_range (p : nat) o : offsets !! p = Some o ->
  -1 <= kx o <= 1 /\ -1 <= ky o <= 1 /\ -1 <= kz o <= 1.
Proof.
  do 27 (destruct p as [|p]; [cbn; intros [= <-]; unfold kx, ky, kz; cbn; lia|]).
  cbn. discriminate.
Qed.

Lemma offsets_is_offset (p : nat) o : offsets !! p = Some o -> p <> 13%nat -> is_offset o.
Proof.
  intros H Hp. destruct (offsets_range p o H) as (Hx & Hy & Hz).
  apply offsets_bit in H. unfold is_offset. split; [lia|]. split; [lia|]. split; [lia|].
  intros ->. unfold offset_bit, kx, ky, kz in H. cbn in H. lia.
Qed.

(** ** allNeighbors *)

Lemma testbit_all i : Z.testbit allNeighbors i = true <-> 0 <= i <= 26 /\ i <> 13.
Proof.
  destruct (Z.lt_decidable i 0) as [H|H].
  { rewrite Z.testbit_neg_r by exact H. split; [discriminate|lia]. }
  destruct (Z.lt_decidable 26 i) as [H'|H'].
  { rewrite Z.bits_above_log2; [split; [discriminate|lia]| |].
    - vm_compute. discriminate.
    - change (Z.log2 allNeighbors) with 26. exact H'. }
  assert (Hc : i=0\/i=1\/i=2\/i=3\/i=4\/i=5\/i=6\/i=7\/i=8\/i=9\/i=10\/i=11\/i=12\/i=13\/i=14
    \/i=15\/i=16\/i=17\/i=18\/i=19\/i=20\/i=21\/i=22\/i=23\/i=24\/i=25\/i=26) by lia.
  repeat (destruct Hc as [->|Hc]; [vm_compute; split; [intros; split; [split; discriminate|discriminate]|intros [_ ?]; congruence] |]).
  subst i. vm_compute. split; [intros; split; [split; discriminate|discriminate]|reflexivity].
Qed.

Lemma bit_offset i : 0 <= i <= 26 -> i <> 13 -> exists o, is_offset o /\ i = offset_bit o.
Proof.
  intros Hi Hne.
  assert (Hex : exists o, offsets !! Z.to_nat i = Some o).
  { apply lookup_lt_is_Some_2. change (length offsets) with 27%nat. lia. }
  destruct Hex as [o Ho]. exists o. split.
  - eapply offsets_is_offset; [exact Ho|lia].
  - apply offsets_bit in Ho. lia.
Qed.

Lemma exact_mask_unique M k n n' : exact_mask M k n -> exact_mask M k n' -> n = n'.
Proof.
  intros [_ H] [_ H']. apply Z.bits_inj. intros i.
  destruct (Z.testbit n i) eqn:E.
  - symmetry. apply H', H, E.
  - destruct (Z.testbit n' i) eqn:E'; [|reflexivity]. apply H', H in E'. congruence.
Qed.

Lemma exact_mask_all M k n : exact_mask M k n -> (n = allNeighbors <-> enclosed M k).
Proof.
  intros [_ H]. split.
  - intros -> o Ho.
    destruct (proj1 (H (offset_bit o))) as (o' & Ho' & E & Hin).
    + apply testbit_all. apply offset_bit_range, Ho.
    + apply offset_bit_inj in E; [subst; exact Hin|assumption|assumption].
  - intros He. apply Z.bits_inj. intros i.
    destruct (Z.testbit allNeighbors i) eqn:E.
    + apply H. apply testbit_all in E. destruct (bit_offset i) as (o & Ho & ->); [lia|lia|].
      exists o. auto.
    + destruct (Z.testbit n i) eqn:E'; [|reflexivity]. apply H in E' as (o & Ho & -> & _).
      apply offset_bit_range, testbit_all in Ho. congruence.
Qed.

Lemma sound_mask_all M k : sound_mask M k allNeighbors -> enclosed M k.
Proof.
  intros [_ H] o Ho. destruct (H (offset_bit o)) as (o' & Ho' & E & Hin).
  - apply testbit_all, offset_bit_range, Ho.
  - apply offset_bit_inj in E; [subst; exact Hin|assumption|assumption].
Qed.

Lemma exact_sound M k n : exact_mask M k n -> sound_mask M k n.
Proof. intros [H0 H]. split; [exact H0|]. intros i. apply H. Qed.

Lemma sound_mono M M' k n : M ⊆ M' -> sound_mask M k n -> sound_mask M' k n.
Proof.
  intros Hs [H0 H]. split; [exact H0|]. intros i Hi. apply H in Hi as (o & Ho & E & Hin).
  exists o. auto.
Qed.

(** ** findNeighbors *)

Definition bit_in (S : gset key) (k o : key) : Prop := move k o ∈ S.

Lemma shiftl_pow2 j : 0 <= j -> Z.shiftl (2 ^ j) 1 = 2 ^ (j + 1).
Proof. intros. rewrite Z.shiftl_mul_pow2, Z.pow_add_r by lia. reflexivity. Qed.

Lemma find_fold m old k os (j : nat) r tc :
  0 <= r ->
  exists r' tc',
    fold_left (find_step m old k) os (2 ^ Z.of_nat j, r, tc)
      = (2 ^ Z.of_nat (j + length os), r', tc') /\
    0 <= r' /\
    (forall i, Z.testbit r' i = true <-> Z.testbit r i = true \/
       exists p o, os !! p = Some o /\ i = Z.of_nat (j + p) /\ (j + p)%nat <> 13%nat /\
         (move k o ∈ m \/ is_Some (old !! move k o))) /\
    (forall t, t ∈ tc' <-> t ∈ tc \/
       exists p o, os !! p = Some o /\ (j + p)%nat <> 13%nat /\ t = move k o /\ t ∉ m /\ is_Some (old !! t)).
Proof.
  revert j r tc. induction os as [|o os IH]; intros j r tc Hr.
  - exists r, tc. cbn [fold_left length]. rewrite Nat.add_0_r. split; [reflexivity|].
    split; [exact Hr|]. split.
    + intros i. split; [auto|]. intros [H|(p & o & H & _)]; [exact H|discriminate].
    + intros t. split; [auto|]. intros [H|(p & o & H & _)]; [exact H|discriminate].
  - cbn [fold_left].
    assert (Hmask : (2 ^ Z.of_nat j =? bit_center) = bool_decide (j = 13%nat)).
    { change bit_center with (2 ^ 13).
      case_bool_decide as E.
      - subst j. reflexivity.
      - apply Z.eqb_neq. intros H. apply Z.pow_inj_r in H; lia. }
    assert (Hstep : exists r1 tc1,
      find_step m old k (2 ^ Z.of_nat j, r, tc) o = (2 ^ Z.of_nat (S j), r1, tc1) /\ 0 <= r1 /\
      (forall i, Z.testbit r1 i = true <-> Z.testbit r i = true \/
         (i = Z.of_nat j /\ j <> 13%nat /\ (move k o ∈ m \/ is_Some (old !! move k o)))) /\
      (forall t, t ∈ tc1 <-> t ∈ tc \/ (j <> 13%nat /\ t = move k o /\ t ∉ m /\ is_Some (old !! t)))).
    { unfold find_step. rewrite Hmask.
      replace (Z.shiftl (2 ^ Z.of_nat j) 1) with (2 ^ Z.of_nat (S j))
        by (rewrite shiftl_pow2 by lia; f_equal; lia).
      change (add_key k o) with (move k o).
      assert (Hor : forall i, Z.testbit (Z.lor r (2 ^ Z.of_nat j)) i = true <->
                       Z.testbit r i = true \/ i = Z.of_nat j).
      { intros i. rewrite Z.lor_spec, orb_true_iff.
        destruct (Z.lt_decidable i 0) as [Hi|Hi].
        - rewrite !(Z.testbit_neg_r _ i) by exact Hi. split; [intros [|]; discriminate|].
          intros [|]; [discriminate|lia].
        - rewrite Z.pow2_bits_eqb by lia. rewrite Z.eqb_eq. split; intros [|]; auto. }
      assert (Hor0 : 0 <= Z.lor r (2 ^ Z.of_nat j)) by (apply Z.lor_nonneg; split; [exact Hr|lia]).
      case_bool_decide as Ej; cbn [negb].
      - eexists _, _. split; [reflexivity|]. split; [exact Hr|]. split.
        + intros i. split; [auto|]. intros [H|(_ & H & _)]; [exact H|tauto].
        + intros t. split; [auto|]. intros [H|(H & _)]; [exact H|tauto].
      - destruct (decide (move k o ∈ m)) as [Hm|Hm].
        + eexists _, _. split; [reflexivity|]. split; [exact Hor0|]. split.
          * intros i. rewrite Hor. split; [intros [|]; auto 10|]. intros [|(? & _)]; auto.
          * intros t. split; [auto|]. intros [H|(_ & -> & H & _)]; [exact H|tauto].
        + destruct (old !! move k o) as [n|] eqn:Eo.
          * eexists _, _. split; [reflexivity|]. split; [exact Hor0|]. split.
            -- intros i. rewrite Hor. split; [intros [|]; eauto 10|]. intros [|(? & _)]; auto.
            -- intros t. rewrite elem_of_app, elem_of_list_singleton. split.
               ++ intros [| ->]; [auto|]. right. rewrite Eo. eauto.
               ++ intros [|(_ & -> & _)]; auto.
          * eexists _, _. split; [reflexivity|]. split; [exact Hr|]. split.
            -- intros i. split; [auto|]. intros [H|(_ & _ & [H|[? H]])]; [exact H|tauto|congruence].
            -- intros t. split; [auto|]. intros [H|(_ & -> & _ & [? H])]; [exact H|congruence]. }
    destruct Hstep as (r1 & tc1 & -> & Hr1 & Hb1 & Ht1).
    destruct (IH (S j) r1 tc1 Hr1) as (r' & tc' & -> & Hr' & Hb & Ht).
    exists r', tc'. split; [do 3 f_equal; cbn [length]; lia|]. split; [exact Hr'|]. split.
    + intros i. rewrite Hb, Hb1. split.
      * intros [[H|(-> & Hj & H)]|(p & o' & Hp & -> & Hne & H)]; [auto| |].
        -- right. exists 0%nat, o. rewrite Nat.add_0_r. auto.
        -- right. exists (S p), o'. replace (j + S p)%nat with (S j + p)%nat by lia. auto.
      * intros [H|(p & o' & Hp & -> & Hne & H)]; [auto|].
        destruct p as [|p].
        -- cbn in Hp. injection Hp as ->. rewrite Nat.add_0_r in *. auto.
        -- right. exists p, o'. replace (S j + p)%nat with (j + S p)%nat by lia. auto.
    + intros t. rewrite Ht, Ht1. split.
      * intros [[H|(Hj & H)]|(p & o' & Hp & Hne & H)]; [auto| |].
        -- right. exists 0%nat, o. rewrite Nat.add_0_r. auto.
        -- right. exists (S p), o'. replace (j + S p)%nat with (S j + p)%nat by lia. auto.
      * intros [H|(p & o' & Hp & Hne & H)]; [auto|].
        destruct p as [|p].
        -- cbn in Hp. injection Hp as ->. rewrite Nat.add_0_r in *. auto.
        -- right. exists p, o'. replace (S j + p)%nat with (j + S p)%nat by lia. auto.
Qed.

Lemma findNeighbors_spec m old k n tc :
  findNeighbors m k old = (n, tc) ->
  exact_mask (m ∪ dom old) k n /\
  (forall t, t ∈ tc <-> t ∉ m /\ is_Some (old !! t) /\ exists o, is_offset o /\ t = move k o).
Proof.
  unfold findNeighbors.
  destruct (find_fold m old k offsets 0 0 [] ltac:(lia)) as (r' & tc' & E & Hr & Hb & Ht).
  change bit_first with (2 ^ Z.of_nat 0). rewrite E. intros [= <- <-]. split; [split; [exact Hr|]|].
  - intros i. rewrite Hb. split.
    + intros [H|(p & o & Hp & -> & Hne & H)].
      * rewrite Z.testbit_0_l in H. discriminate.
      * exists o. split; [eapply offsets_is_offset; eauto|].
        split; [symmetry; apply offsets_bit, Hp|].
        rewrite elem_of_union, elem_of_dom. exact H.
    + intros (o & Ho & -> & Hin). right. exists (Z.to_nat (offset_bit o)), o.
      destruct (offset_bit_range o Ho). destruct Ho as (? & ? & ? & ?).
      split; [apply offsets_lookup; assumption|]. split; [lia|]. split; [lia|].
      rewrite elem_of_union, elem_of_dom in Hin. exact Hin.
  - intros t. rewrite Ht. split.
    + intros [H|(p & o & Hp & Hne & -> & H1 & H2)]; [inversion H|].
      split; [exact H1|]. split; [exact H2|]. exists o. split; [eapply offsets_is_offset; eauto|reflexivity].
    + intros (H1 & H2 & o & Ho & ->). right. exists (Z.to_nat (offset_bit o)), o.
      destruct (offset_bit_range o Ho). destruct Ho as (? & ? & ? & ?).
      split; [apply offsets_lookup; assumption|]. split; [lia|]. auto.
Qed.

Lemma toCheck_NoDup m old k n tc : findNeighbors m k old = (n, tc) -> NoDup tc.
Proof.
  unfold findNeighbors. intros E.
  assert (G : forall os (j : Z) (r : Z) tc0 (r' : Z) tc' (mk : Z),
     (forall p o q o', os !! p = Some o -> os !! q = Some o' -> o = o' -> p = q) ->
     NoDup tc0 -> (forall t o, t ∈ tc0 -> o ∈ os -> t <> move k o) ->
     fold_left (find_step m old k) os (mk, r, tc0) = (j, r', tc') -> NoDup tc').
  { clear E. intros os. induction os as [|o os IH]; intros j r tc0 r' tc' mk Hinj Hnd Hfresh E.
    - cbn in E. injection E as <- <- <-. exact Hnd.
    - cbn [fold_left] in E.
      destruct (find_step m old k (mk, r, tc0) o) as [[mk1 r1] tc1] eqn:Es.
      eapply IH; [| | |exact E].
      + intros p a q a' Hp Hq Ha. specialize (Hinj (S p) a (S q) a' Hp Hq Ha). lia.
      + unfold find_step in Es. destruct (negb (mk =? bit_center)).
        * destruct (decide (add_key k o ∈ m)); [injection Es as <- <- <-; exact Hnd|].
          destruct (old !! add_key k o); injection Es as <- <- <-; [|exact Hnd].
          apply NoDup_app. split; [exact Hnd|]. split; [|apply NoDup_singleton].
          intros t Ht Ht'. apply elem_of_list_singleton in Ht'. subst t.
          eapply Hfresh; [exact Ht|left|reflexivity].
        * injection Es as <- <- <-. exact Hnd.
      + intros t a Ht Ha.
        assert (Hcase : t ∈ tc0 \/ t = move k o).
        { unfold find_step in Es. destruct (negb (mk =? bit_center)).
          - destruct (decide (add_key k o ∈ m)); [injection Es as <- <- <-; auto|].
            destruct (old !! add_key k o); injection Es as <- <- <-; [|auto].
            apply elem_of_app in Ht as [|Ht]; [auto|]. apply elem_of_list_singleton in Ht. auto.
          - injection Es as <- <- <-. auto. }
        destruct Hcase as [H| ->]; [apply Hfresh; [exact H|right; exact Ha]|].
        intros Heq. apply elem_of_list_lookup in Ha as [q Hq].
        assert (o = a).
        { destruct o as [[x y] z], a as [[x' y'] z']. unfold move, kx, ky, kz in Heq. cbn in Heq.
          injection Heq as E1 E2 E3. apply key_eq; lia. }
        specialize (Hinj 0%nat o (S q) a eq_refl Hq H). discriminate. }
  destruct (fold_left (find_step m old k) offsets (bit_first, 0, [])) as [[mk' r'] tc'] eqn:Ef.
  injection E as <- <-. eapply G; [| | |exact Ef].
  - intros p a q a' Hp Hq Ha. apply offsets_bit in Hp, Hq. subst. lia.
  - constructor.
  - intros t o Ht. inversion Ht.
Qed.

(** ** diffKeys *)

Lemma diffKeys_move k o : is_offset o -> diffKeys k (move k o) = 2 ^ offset_bit o.
Proof.
  destruct k as [[a b] c], o as [[x y] z]. unfold is_offset, diffKeys, move, offset_bit, kx, ky, kz.
  cbn [fst snd]. intros (Hx & Hy & Hz & Hne).
  replace (a + x - a) with x by lia. replace (b + y - b) with y by lia. replace (c + z - c) with z by lia.
  apply in_range3 in Hx, Hy, Hz.
  destruct Hx as [->|[->| ->]], Hy as [->|[->| ->]], Hz as [->|[->| ->]]; try reflexivity.
  congruence.
Qed.

Lemma diffKeys_far k k' : (forall o, is_offset o -> k' <> move k o) -> diffKeys k k' = 0.
Proof.
  destruct k as [[a b] c], k' as [[a' b'] c']. intros Hfar. unfold diffKeys, kx, ky, kz. cbn [fst snd].
  set (x := a' - a). set (y := b' - b). set (z := c' - c).
  assert (Hmv : (a', b', c') = move (a, b, c) (x, y, z)).
  { unfold move, kx, ky, kz, x, y, z. cbn [fst snd]. apply key_eq; lia. }
  assert (Hno : ~ is_offset (x, y, z)) by (intros H; exact (Hfar _ H Hmv)).
  unfold is_offset, kx, ky, kz in Hno. cbn [fst snd] in Hno.
  destruct (Z.eqb_spec x (-1)), (Z.eqb_spec x 0), (Z.eqb_spec x 1); try lia; try reflexivity;
  destruct (Z.eqb_spec y (-1)), (Z.eqb_spec y 0), (Z.eqb_spec y 1); try lia; try reflexivity;
  destruct (Z.eqb_spec z (-1)), (Z.eqb_spec z 0), (Z.eqb_spec z 1); try lia; try reflexivity;
  exfalso; apply Hno; (split; [lia|split; [lia|split; [lia|]]]); intros [= E1 E2 E3]; lia.
Qed.

Definition opposite (o : key) : key := (- kx o, - ky o, - kz o).

Lemma opposite_bit o : offset_bit (opposite o) = 26 - offset_bit o.
Proof. destruct o as [[x y] z]. unfold offset_bit, opposite, kx, ky, kz. cbn [fst snd]. lia. Qed.

Lemma move_opposite k o : move (move k o) (opposite o) = k.
Proof.
  destruct k as [[a b] c], o as [[x y] z]. unfold move, opposite, kx, ky, kz. cbn [fst snd].
  apply key_eq; lia.
Qed.

Lemma is_offset_opposite o : is_offset o -> is_offset (opposite o).
Proof.
  destruct o as [[x y] z]. unfold is_offset, opposite, kx, ky, kz. cbn [fst snd].
  intros (? & ? & ? & Hne). split; [lia|]. split; [lia|]. split; [lia|].
  intros [= E1 E2 E3]. apply Hne. apply key_eq; lia.
Qed.
