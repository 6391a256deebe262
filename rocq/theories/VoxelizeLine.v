(** Proofs about the line rasteriser (binvox/voxelize.go:175-236). *)
From Verif Require Import Base BinvoxModel Geom VoxelizeModel VoxelizeSpec.
From Coq Require Import ZArith List Lia Bool.
From stdpp Require Import base list list_numbers.
Import ListNotations.
Open Scope Z_scope.

(** Round-half-up closed form. *)
Definition rounded (eps dx dy i : Z) : Z := (2 * (eps + i * dy) + dx) / (2 * dx).

Lemma bres_closed dx dy : 0 < dx -> 0 <= dy <= dx -> forall n x y eps, - dx <= 2 * eps < dx ->
  bres_loop n x y eps dx dy = map (fun i => (x + i, y + rounded eps dx dy i)) (seqZ 0 (Z.of_nat n)).
Proof.
  intros Hdx Hdy. induction n as [|n IH]; intros x y eps He; [reflexivity|].
  rewrite seqZ_cons by lia. cbn [map bres_loop].
  assert (E0 : rounded eps dx dy 0 = 0).
  { unfold rounded. apply Z.div_small. lia. }
  rewrite E0, !Z.add_0_r.
  assert (Es : forall f : Z -> Z * Z, map f (seqZ (Z.succ 0) (Z.pred (Z.of_nat (S n)))) =
     map (fun i => f (i + 1)) (seqZ 0 (Z.of_nat n))).
  { intros f. replace (Z.succ 0) with (0 + 1) by lia. replace (Z.pred (Z.of_nat (S n))) with (Z.of_nat n) by lia.
    rewrite Z.add_comm, <- (fmap_add_seqZ 1 0). unfold fmap, list_fmap.
    rewrite <- List.map_map with (f := fun i => i + 1). f_equal.
    clear IH. induction (seqZ 0 (Z.of_nat n)) as [|a l IHl]; [reflexivity|]. cbn [map]. f_equal; [lia|exact IHl]. }
  rewrite Es. destruct (Z.geb_spec (2 * (eps + dy)) dx) as [Hg|Hg].
  - rewrite IH by lia. f_equal. apply map_ext. intros i. f_equal; [lia|].
    unfold rounded. replace (2 * (eps + (i + 1) * dy) + dx) with (2 * (eps + dy - dx + i * dy) + dx + 1 * (2 * dx)) by lia.
    rewrite Z.div_add by lia. lia.
  - rewrite IH by lia. f_equal. apply map_ext. intros i. f_equal; [lia|].
    unfold rounded. f_equal. f_equal. lia.
Qed.

Lemma first_octant_closed x1 y1 x2 y2 : 0 <= y2 - y1 <= x2 - x1 -> x1 < x2 ->
  firstOctantBressenham x1 y1 x2 y2 =
  map (fun i => (x1 + i, y1 + rounded 0 (x2 - x1) (y2 - y1) i)) (seqZ 0 (x2 + 1 - x1)).
Proof.
  intros Hd Hx. unfold firstOctantBressenham. rewrite bres_closed by lia. f_equal. f_equal. lia.
Qed.

Lemma rounded_spec dx dy i : 0 < dx -> 
  2 * dx * rounded 0 dx dy i <= 2 * i * dy + dx < 2 * dx * rounded 0 dx dy i + 2 * dx.
Proof.
  intros Hdx. unfold rounded. pose proof (Z.div_mod (2 * (0 + i * dy) + dx) (2 * dx) ltac:(lia)).
  pose proof (Z.mod_pos_bound (2 * (0 + i * dy) + dx) (2 * dx) ltac:(lia)). lia.
Qed.

(** What a correctly rasterised segment is. *)
Record good_line (x1 y1 x2 y2 : Z) (l : list (Z * Z)) : Prop := {
  gl_len : Z.of_nat (length l) = extent x1 y1 x2 y2 + 1;
  gl_head : head l = Some (x1, y1);
  gl_last : last l = Some (x2, y2);
  gl_in : forall p, In p l -> zbetween x1 x2 (fst p) /\ zbetween y1 y2 (snd p) /\ half_pixel x1 y1 x2 y2 p;
  gl_conn : connected l;
  gl_cover_x : Z.abs (y2 - y1) <= Z.abs (x2 - x1) ->
    forall x, zbetween x1 x2 x -> exists y, forall y', In (x, y') l <-> y' = y;
  gl_cover_y : Z.abs (x2 - x1) <= Z.abs (y2 - y1) ->
    forall y, zbetween y1 y2 y -> exists x, forall x', In (x', y) l <-> x' = x
}.

Lemma connected_map_seq (f : Z -> Z * Z) : (forall i, adjacent (f i) (f (i + 1))) ->
  forall n s, connected (map f (seqZ s (Z.of_nat n))).
Proof.
  intros Hf. induction n as [|n IH]; intros s; [exact I|].
  rewrite seqZ_cons by lia. specialize (IH (Z.succ s)). replace (Z.pred (Z.of_nat (S n))) with (Z.of_nat n) by lia.
  destruct n as [|n]; [exact I|]. rewrite seqZ_cons in * by lia. cbn [map connected] in *.
  split; [|exact IH]. replace (Z.succ s) with (s + 1) by lia. apply Hf.
Qed.

Lemma last_map_seq {A} (f : Z -> A) n : 0 < n -> last (map f (seqZ 0 n)) = Some (f (n - 1)).
Proof.
  intros Hn. replace n with (n - 1 + 1) at 1 by lia. rewrite seqZ_app by lia. rewrite List.map_app.
  rewrite (seqZ_cons (0 + (n - 1)) 1) by lia. rewrite (seqZ_nil _ (Z.pred 1)) by lia. cbn [map].
  rewrite last_snoc, Z.add_0_l. reflexivity.
Qed.

Lemma in_map_seq {A} (f : Z -> A) n p : In p (map f (seqZ 0 n)) <-> exists i, 0 <= i < n /\ p = f i.
Proof.
  rewrite in_map_iff. split.
  - intros (i & <- & Hi). apply elem_of_list_In, elem_of_seqZ in Hi. exists i. split; [lia|reflexivity].
  - intros (i & Hi & ->). exists i. split; [reflexivity|]. apply elem_of_list_In, elem_of_seqZ. lia.
Qed.

Lemma good_first x1 y1 x2 y2 : 0 <= y2 - y1 <= x2 - x1 ->
  good_line x1 y1 x2 y2 (firstOctantBressenham x1 y1 x2 y2).
Proof.
  intros Hd. destruct (Z.eq_dec x1 x2) as [->|Hne].
  - assert (y2 = y1) as -> by lia.
    assert (E : firstOctantBressenham x2 y1 x2 y1 = [(x2, y1)]).
    { unfold firstOctantBressenham. replace (x2 + 1 - x2) with 1 by lia.
      change (Z.to_nat 1) with 1%nat. cbn [bres_loop].
      match goal with |- context[if ?c then _ else _] => destruct c end; reflexivity. }
    rewrite E. constructor; unfold extent, zbetween, half_pixel, extent, deviation; cbn [length head last In connected fst snd].
    + lia.
    + reflexivity.
    + reflexivity.
    + intros p [<-|[]]. cbn [fst snd]. lia.
    + exact I.
    + intros _ x Hx. exists y1. intros y'. assert (x = x2) as -> by lia. split; [intros [[=]|[]]; congruence|intros ->; auto].
    + intros _ y Hy. exists x2. intros x'. assert (y = y1) as -> by lia. split; [intros [[=]|[]]; congruence|intros ->; auto].
  - rewrite first_octant_closed by lia. set (dx := x2 - x1). set (dy := y2 - y1).
    assert (Hr : forall i, 2 * dx * rounded 0 dx dy i <= 2 * i * dy + dx < 2 * dx * rounded 0 dx dy i + 2 * dx)
      by (intros i; apply rounded_spec; lia).
    assert (Hmono : forall i, rounded 0 dx dy i <= rounded 0 dx dy (i + 1) <= rounded 0 dx dy i + 1).
    { intros i. pose proof (Hr i). pose proof (Hr (i + 1)). split; nia. }
    assert (H0 : rounded 0 dx dy 0 = 0) by (pose proof (Hr 0); nia).
    assert (Hn : rounded 0 dx dy dx = dy) by (pose proof (Hr dx); nia).
    assert (Hb : forall i, 0 <= i <= dx -> 0 <= rounded 0 dx dy i <= dy).
    { intros i Hi. pose proof (Hr i). split; nia. }
    constructor.
    + rewrite map_length, seqZ_length. unfold extent. lia.
    + rewrite seqZ_cons by lia. cbn. rewrite H0. f_equal. f_equal; lia.
    + rewrite last_map_seq by lia. replace (x2 + 1 - x1 - 1) with dx by lia. rewrite Hn. f_equal. f_equal; lia.
    + intros p Hp. apply in_map_seq in Hp as (i & Hi & ->). cbn [fst snd].
      pose proof (Hb i ltac:(lia)). pose proof (Hr i).
      unfold zbetween, half_pixel, deviation, extent. cbn [fst snd]. fold dx dy.
      replace (y1 + rounded 0 dx dy i - y1) with (rounded 0 dx dy i) by lia.
      replace (x1 + i - x1) with i by lia. replace (Z.max (Z.abs dx) (Z.abs dy)) with dx by lia. repeat split; try lia; nia.
    + replace (x2 + 1 - x1) with (Z.of_nat (Z.to_nat (x2 + 1 - x1))) by lia. apply connected_map_seq.
      intros i. pose proof (Hmono i). unfold adjacent. cbn [fst snd]. split; [|lia]. intros [=]. lia.
    + intros _ x Hx. unfold zbetween in Hx. exists (y1 + rounded 0 dx dy (x - x1)). intros y'. rewrite in_map_seq. split.
      * intros (i & Hi & [= -> ->]). replace (x1 + i - x1) with i by lia. reflexivity.
      * intros ->. exists (x - x1). split; [lia|]. f_equal. lia.
    + intros Hxy y Hy. unfold zbetween in Hy. assert (dx = dy) as Ed by lia.
      assert (Hid : forall i, rounded 0 dx dy i = i) by (intros i; pose proof (Hr i); nia).
      exists (x1 + (y - y1)). intros x'. rewrite in_map_seq. split.
      * intros (i & Hi & E). rewrite Hid in E. injection E as -> ->. lia.
      * intros ->. exists (y - y1). split; [lia|]. rewrite Hid. f_equal. lia.
Qed.

Lemma connected_map f l : (forall p q, adjacent p q -> adjacent (f p) (f q)) -> connected l -> connected (map f l).
Proof.
  intros Hf. induction l as [|p l IH]; [auto|]. destruct l as [|q l]; [auto|].
  cbn [map connected] in *. intros [H1 H2]. split; [auto|]. apply IH, H2.
Qed.

Lemma last_map {A B} (f : A -> B) l : last (map f l) = option_map f (last l).
Proof. apply (fmap_last f l). Qed.
Lemma head_map {A B} (f : A -> B) l : head (map f l) = option_map f (head l).
Proof. destruct l; reflexivity. Qed.

Definition swap_xy (p : Z * Z) : Z * Z := (snd p, fst p).
Definition neg_x (p : Z * Z) : Z * Z := (- fst p, snd p).

Lemma in_map_inv (f g : Z * Z -> Z * Z) l p : (forall q, g (f q) = q) -> (forall q, f (g q) = q) ->
  In p (map f l) <-> In (g p) l.
Proof.
  intros Hgf Hfg. rewrite in_map_iff. split.
  - intros (q & <- & Hq). rewrite Hgf. exact Hq.
  - intros Hp. exists (g p). auto.
Qed.

Lemma good_swap x1 y1 x2 y2 l : good_line x1 y1 x2 y2 l -> good_line y1 x1 y2 x2 (map swap_xy l).
Proof.
  intros G. assert (Hin : forall p, In p (map swap_xy l) <-> In (swap_xy p) l).
  { intros p. apply in_map_inv; intros [a b]; reflexivity. }
  constructor.
  - rewrite map_length, (gl_len _ _ _ _ _ G). unfold extent. lia.
  - rewrite head_map, (gl_head _ _ _ _ _ G). reflexivity.
  - rewrite last_map, (gl_last _ _ _ _ _ G). reflexivity.
  - intros p Hp. apply Hin in Hp. destruct (gl_in _ _ _ _ _ G _ Hp) as (H1 & H2 & H3). destruct p as [a b].
    unfold half_pixel, deviation, extent, swap_xy in *. cbn [fst snd] in *. repeat split; try lia; assumption || apply H1 || apply H2 || idtac.
  - apply connected_map, (gl_conn _ _ _ _ _ G). intros [a b] [c d]. unfold adjacent, swap_xy. cbn [fst snd].
    intros (H1 & H2 & H3). repeat split; try assumption. intros [= -> ->]. apply H1. reflexivity.
  - intros Hd x Hx. destruct (gl_cover_y _ _ _ _ _ G Hd x Hx) as [y Hy]. exists y. intros y'. rewrite Hin. apply Hy.
  - intros Hd x Hx. destruct (gl_cover_x _ _ _ _ _ G Hd x Hx) as [y Hy]. exists y. intros y'. rewrite Hin. apply Hy.
Qed.

Lemma good_neg_x x1 y1 x2 y2 l : good_line x1 y1 x2 y2 l -> good_line (- x1) y1 (- x2) y2 (map neg_x l).
Proof.
  intros G. assert (Hin : forall p, In p (map neg_x l) <-> In (neg_x p) l).
  { intros p. apply in_map_inv; intros [a b]; unfold neg_x; cbn; f_equal; lia. }
  constructor.
  - rewrite map_length, (gl_len _ _ _ _ _ G). unfold extent. lia.
  - rewrite head_map, (gl_head _ _ _ _ _ G). reflexivity.
  - rewrite last_map, (gl_last _ _ _ _ _ G). reflexivity.
  - intros p Hp. apply Hin in Hp. destruct (gl_in _ _ _ _ _ G _ Hp) as (H1 & H2 & H3). destruct p as [a b].
    unfold half_pixel, deviation, extent, neg_x, zbetween in *. cbn [fst snd] in *. repeat split; try lia.
  - apply connected_map, (gl_conn _ _ _ _ _ G). intros [a b] [c d]. unfold adjacent, neg_x. cbn [fst snd].
    intros (H1 & H2 & H3). repeat split; try lia. intros [= H4 ->]. apply H1. f_equal. lia.
  - intros Hd x Hx. unfold zbetween in Hx. destruct (gl_cover_x _ _ _ _ _ G ltac:(lia) (- x)) as [y Hy]; [unfold zbetween; lia|].
    exists y. intros y'. rewrite Hin. apply Hy.
  - intros Hd y Hy. destruct (gl_cover_y _ _ _ _ _ G ltac:(lia) y Hy) as [x Hx].
    exists (- x). intros x'. rewrite Hin. unfold neg_x. cbn [fst snd]. rewrite Hx. lia.
Qed.

Lemma good_ext x1 y1 x2 y2 l l' : good_line x1 y1 x2 y2 l -> l = l' -> good_line x1 y1 x2 y2 l'.
Proof. intros G <-. exact G. Qed.

Ltac octant :=
  rewrite ?map_map; apply map_ext; intros [a b]; unfold swap_xy, neg_x; cbn [fst snd]; rewrite ?Z.opp_involutive; reflexivity.

Theorem plotLine_good x1 y1 x2 y2 : good_line x1 y1 x2 y2 (plotLine x1 y1 x2 y2).
Proof.
  unfold plotLine.
  repeat match goal with |- context[if ?b then _ else _] => let E := fresh "E" in destruct b eqn:E end;
    rewrite ?andb_true_iff, ?andb_false_iff, ?Z.geb_le, ?Z.ltb_lt, ?Z.ltb_ge, ?Z.gtb_lt, ?Z.leb_gt in *.
  - apply good_first. lia.
  - eapply good_ext; [apply good_swap, good_first; lia|]. octant.
  - replace x1 with (- - x1) at 1 by lia. replace x2 with (- - x2) at 1 by lia.
    eapply good_ext; [apply good_neg_x, good_swap, good_first; lia|]. octant.
  - replace x1 with (- - x1) at 1 by lia. replace x2 with (- - x2) at 1 by lia.
    eapply good_ext; [apply good_neg_x, good_first; lia|]. octant.
  - replace x1 with (- - x1) at 1 by lia. replace x2 with (- - x2) at 1 by lia.
    replace y1 with (- - y1) at 1 by lia. replace y2 with (- - y2) at 1 by lia.
    eapply good_ext; [apply good_neg_x, good_swap, good_neg_x, good_swap, good_first; lia|]. octant.
  - replace x1 with (- - x1) at 1 by lia. replace x2 with (- - x2) at 1 by lia.
    replace y1 with (- - y1) at 1 by lia. replace y2 with (- - y2) at 1 by lia.
    eapply good_ext; [apply good_neg_x, good_swap, good_neg_x, good_first; lia|]. octant.
  - replace y1 with (- - y1) at 1 by lia. replace y2 with (- - y2) at 1 by lia.
    eapply good_ext; [apply good_swap, good_neg_x, good_first; lia|]. octant.
  - replace y1 with (- - y1) at 1 by lia. replace y2 with (- - y2) at 1 by lia.
    eapply good_ext; [apply good_swap, good_neg_x, good_swap, good_first; lia|]. octant.
Qed.
