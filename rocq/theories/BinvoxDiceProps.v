(** C44: the commands printed by binvox-dice, whatever the arithmetic. *)
From Coq Require Import ZArith List Bool Init.Byte Lia.
From Verif Require Import Base BaseLemmas BinvoxModel BinvoxDiceModel.
Import ListNotations.
Open Scope Z_scope.

(** 0, 1, ..., n-1. *)
Definition upto (n : Z) : list Z := map Z.of_nat (seq 0 (Z.to_nat n)).

Lemma in_upto n i : In i (upto n) <-> 0 <= i < n.
Proof.
  unfold upto. rewrite in_map_iff. split.
  - intros (m & <- & H). apply in_seq in H. lia.
  - intros H. exists (Z.to_nat i). split; [lia|]. apply in_seq. lia.
Qed.
Lemma upto_S n : 0 <= n -> upto (n + 1) = upto n ++ [n].
Proof. intros H. unfold upto. replace (Z.to_nat (n + 1)) with (S (Z.to_nat n)) by lia. rewrite seq_S, map_app. cbn. f_equal. f_equal. lia. Qed.
Lemma upto_nonpos n : n <= 0 -> upto n = [].
Proof. intros H. unfold upto. replace (Z.to_nat n) with O by lia. reflexivity. Qed.
Lemma upto_length n : 0 <= n -> Z.of_nat (length (upto n)) = n.
Proof. intros H. unfold upto. rewrite map_length, seq_length. lia. Qed.
Lemma upto_nodup n : NoDup (upto n).
Proof. unfold upto. apply FinFun.Injective_map_NoDup; [intros a b; lia|apply seq_NoDup]. Qed.
Lemma upto_add n : 0 <= n -> forall m, 0 <= m -> upto (m + n) = upto m ++ map (fun j => m + j) (upto n).
Proof.
  intros Hn m Hm. pattern n. apply natlike_ind; [|intros x Hx IH|exact Hn].
  - cbn. rewrite app_nil_r. f_equal. lia.
  - replace (m + Z.succ x) with ((m + x) + 1) by lia. rewrite upto_S by lia. rewrite IH. unfold Z.succ. rewrite (upto_S x) by lia.
    rewrite map_app, app_assoc. cbn [map]. reflexivity.
Qed.

Lemma flat_map_map {A B C} (f : A -> B) (g : B -> list C) l : flat_map g (map f l) = flat_map (fun x => g (f x)) l.
Proof. induction l as [|a l IH]; cbn; [reflexivity|]. rewrite IH. reflexivity. Qed.
Lemma flat_map_ext_in {A B} (f g : A -> list B) l : (forall x, In x l -> f x = g x) -> flat_map f l = flat_map g l.
Proof. induction l as [|a l IH]; intros H; cbn; [reflexivity|]. rewrite H by (left; reflexivity). rewrite IH; [reflexivity|]. intros x Hx. apply H. right. exact Hx. Qed.

(** Nested loops over i < n and j < m, counted by i + n * j. *)
Lemma flat_map_product {A} (h : Z -> list A) n m : 0 <= n -> 0 <= m ->
  flat_map (fun j => flat_map (fun i => h (i + n * j)) (upto n)) (upto m) = flat_map h (upto (n * m)).
Proof.
  intros Hn Hm. pattern m. apply natlike_ind; [|intros x Hx IH|exact Hm].
  - rewrite Z.mul_0_r. reflexivity.
  - unfold Z.succ. rewrite upto_S by lia. rewrite flat_map_app, IH. cbn [flat_map]. rewrite app_nil_r.
    replace (n * (x + 1)) with (n * x + n) by lia. rewrite upto_add by lia. rewrite flat_map_app. f_equal.
    rewrite flat_map_map. apply flat_map_ext_in. intros i _. f_equal. lia.
Qed.

Lemma for_loop_spec {A} (body : Z -> Z -> list A * Z) (g : Z -> Z -> list A) w : (forall i c, body i c = (g i c, c + w)) ->
  forall m i c, for_loop body m i c = (flat_map (fun j => g (i + j) (c + w * j)) (upto (Z.of_nat m)), c + w * Z.of_nat m).
Proof.
  intros Hb. induction m as [|m IH]; intros i c; [cbn; f_equal; lia|]. cbn [for_loop]. rewrite Hb, IH. f_equal; [|lia].
  replace (Z.of_nat (S m)) with (1 + Z.of_nat m) by lia. rewrite upto_add by lia. rewrite flat_map_app. change (upto 1) with [0]. cbn [flat_map]. rewrite app_nil_r.
  f_equal; [f_equal; lia|]. rewrite flat_map_map. apply flat_map_ext_in. intros j _. f_equal; lia.
Qed.

Section Commands.
  Context {F : Type} (ar : arith F) (args : list (list byte)) (llx lly llz urx ury urz : F) (xf yf zf : Z).
  Context (Hx : 0 <= xf) (Hy : 0 <= yf) (Hz : 0 <= zf).

  Notation bx := (boundary ar llx urx xf).
  Notation by_ := (boundary ar lly ury yf).
  Notation bz := (boundary ar llz urz zf).
  Notation output := (dice_commands ar args llx lly llz urx ury urz xf yf zf).

  (** The commands of the tile with the given counter. *)
  Definition tile_block (c : Z) : list (command F) :=
    let i := c mod xf in let j := (c / xf) mod yf in let k := c / (xf * yf) in
    map (RunBinvox (bx i) (by_ j) (bz k) (bx (i + 1)) (by_ (j + 1)) (bz (k + 1))) args ++ [RunVoxcut (cut_suffix c)].

  Lemma dice_commands_spec : output = flat_map tile_block (upto (xf * yf * zf)).
  Proof using Hx Hy Hz.
    unfold dice_commands.
    set (gx := fun (k j i c : Z) => tile_commands args (bx i) (bx (i + 1)) (by_ j) (by_ (j + 1)) (bz k) (bz (k + 1)) c).
    set (gy := fun (k j c : Z) => flat_map (fun i => gx k j (0 + i) (c + 1 * i)) (upto (Z.of_nat (Z.to_nat xf)))).
    set (gz := fun (k c : Z) => flat_map (fun j => gy k (0 + j) (c + xf * j)) (upto (Z.of_nat (Z.to_nat yf)))).
    rewrite (for_loop_spec _ gz (xf * yf)).
    2:{ intros k c. rewrite (for_loop_spec _ (gy k) xf).
        - f_equal. rewrite Z2Nat.id by lia. reflexivity.
        - intros j c'. rewrite (for_loop_spec _ (gx k j) 1); [|reflexivity]. f_equal. lia. }
    cbn [fst]. rewrite Z2Nat.id by lia. rewrite <- (flat_map_product tile_block (xf * yf) zf) by nia.
    apply flat_map_ext_in. intros k Hk. apply in_upto in Hk. unfold gz. rewrite Z2Nat.id by lia.
    rewrite <- (flat_map_product (fun i => tile_block (i + xf * yf * k)) xf yf) by lia.
    apply flat_map_ext_in. intros j Hj. apply in_upto in Hj. unfold gy. rewrite Z2Nat.id by lia.
    apply flat_map_ext_in. intros i Hi. apply in_upto in Hi. unfold gx, tile_block, tile_commands. cbv zeta.
    replace ((i + xf * j + xf * yf * k) mod xf) with (0 + i).
    2:{ replace (i + xf * j + xf * yf * k) with (i + (j + yf * k) * xf) by lia. rewrite Z_mod_plus_full, Z.mod_small; lia. }
    replace ((i + xf * j + xf * yf * k) / xf) with (j + yf * k).
    2:{ replace (i + xf * j + xf * yf * k) with (i + (j + yf * k) * xf) by lia. rewrite Z_div_plus_full, Z.div_small; lia. }
    replace ((j + yf * k) mod yf) with (0 + j).
    2:{ replace (j + yf * k) with (j + k * yf) by lia. rewrite Z_mod_plus_full, Z.mod_small; lia. }
    replace ((i + xf * j + xf * yf * k) / (xf * yf)) with (0 + k).
    2:{ replace (i + xf * j + xf * yf * k) with ((i + xf * j) + k * (xf * yf)) by lia. rewrite Z_div_plus_full, Z.div_small; nia. }
    f_equal. f_equal. f_equal. f_equal. lia.
  Qed.

  (** The boxes printed: exactly those of the tiles of the grid, for every argument. *)
  Lemma binvox_in x1 y1 z1 x2 y2 z2 a : In (RunBinvox x1 y1 z1 x2 y2 z2 a) output <->
    In a args /\ exists i j k, 0 <= i < xf /\ 0 <= j < yf /\ 0 <= k < zf /\
      x1 = bx i /\ x2 = bx (i + 1) /\ y1 = by_ j /\ y2 = by_ (j + 1) /\ z1 = bz k /\ z2 = bz (k + 1).
  Proof using Hx Hy Hz.
    rewrite dice_commands_spec, in_flat_map. split.
    - intros (c & Hc & H). apply in_upto in Hc. unfold tile_block in H. cbv zeta in H. apply in_app_iff in H as [H|[H|[]]]; [|discriminate].
      apply in_map_iff in H as (a' & E & Ha). injection E as <- <- <- <- <- <- <-. split; [exact Ha|].
      assert (0 < xf /\ 0 < yf /\ 0 < zf) as (? & ? & ?) by (clear -Hc Hx Hy Hz; repeat split; nia).
      exists (c mod xf), (c / xf mod yf), (c / (xf * yf)). split; [apply Z.mod_pos_bound; lia|]. split; [apply Z.mod_pos_bound; lia|].
      split; [split; [apply Z.div_pos; nia|apply Z.div_lt_upper_bound; nia]|auto 10].
    - intros (Ha & i & j & k & Hi & Hj & Hk & -> & -> & -> & -> & -> & ->). exists (i + xf * j + xf * yf * k). split.
      + apply in_upto. split; [nia|]. assert (i + xf * j <= xf * yf - 1) by nia. nia.
      + unfold tile_block. cbv zeta.
        replace ((i + xf * j + xf * yf * k) mod xf) with i.
        2:{ replace (i + xf * j + xf * yf * k) with (i + (j + yf * k) * xf) by lia. rewrite Z_mod_plus_full, Z.mod_small; lia. }
        replace ((i + xf * j + xf * yf * k) / xf) with (j + yf * k).
        2:{ replace (i + xf * j + xf * yf * k) with (i + (j + yf * k) * xf) by lia. rewrite Z_div_plus_full, Z.div_small; lia. }
        replace ((j + yf * k) mod yf) with j.
        2:{ replace (j + yf * k) with (j + k * yf) by lia. rewrite Z_mod_plus_full, Z.mod_small; lia. }
        replace ((i + xf * j + xf * yf * k) / (xf * yf)) with k.
        2:{ replace (i + xf * j + xf * yf * k) with ((i + xf * j) + k * (xf * yf)) by lia. rewrite Z_div_plus_full, Z.div_small; nia. }
        apply in_app_iff. left. apply in_map, Ha.
  Qed.

  (** Every tile that is not the last along an axis has a neighbour, printed for the same argument,
      which starts at the very value where it ends and agrees on the other two axes. *)
  Theorem C44_shared_faces x1 y1 z1 x2 y2 z2 a : In (RunBinvox x1 y1 z1 x2 y2 z2 a) output ->
    (x2 = bx xf \/ exists x3, In (RunBinvox x2 y1 z1 x3 y2 z2 a) output) /\
    (y2 = by_ yf \/ exists y3, In (RunBinvox x1 y2 z1 x2 y3 z2 a) output) /\
    (z2 = bz zf \/ exists z3, In (RunBinvox x1 y1 z2 x2 y2 z3 a) output) /\
    (x1 = bx 0 \/ exists x0, In (RunBinvox x0 y1 z1 x1 y2 z2 a) output) /\
    (y1 = by_ 0 \/ exists y0, In (RunBinvox x1 y0 z1 x2 y1 z2 a) output) /\
    (z1 = bz 0 \/ exists z0, In (RunBinvox x1 y1 z0 x2 y2 z1 a) output).
  Proof using Hx Hy Hz.
    rewrite binvox_in. intros (Ha & i & j & k & Hi & Hj & Hk & -> & -> & -> & -> & -> & ->).
    assert (G : forall i', i' + 1 - 1 + 1 = i' + 1) by lia.
    repeat split.
    - destruct (Z.eq_dec (i + 1) xf) as [->|Hn]; [left; reflexivity|right]. exists (bx (i + 1 + 1)). apply binvox_in. split; [exact Ha|]. exists (i + 1), j, k. repeat split; lia || reflexivity.
    - destruct (Z.eq_dec (j + 1) yf) as [->|Hn]; [left; reflexivity|right]. exists (by_ (j + 1 + 1)). apply binvox_in. split; [exact Ha|]. exists i, (j + 1), k. repeat split; lia || reflexivity.
    - destruct (Z.eq_dec (k + 1) zf) as [->|Hn]; [left; reflexivity|right]. exists (bz (k + 1 + 1)). apply binvox_in. split; [exact Ha|]. exists i, j, (k + 1). repeat split; lia || reflexivity.
    - destruct (Z.eq_dec i 0) as [->|Hn]; [left; reflexivity|right]. exists (bx (i - 1)). apply binvox_in. split; [exact Ha|]. exists (i - 1), j, k. replace (i - 1 + 1) with i by lia. repeat split; lia || reflexivity.
    - destruct (Z.eq_dec j 0) as [->|Hn]; [left; reflexivity|right]. exists (by_ (j - 1)). apply binvox_in. split; [exact Ha|]. exists i, (j - 1), k. replace (j - 1 + 1) with j by lia. repeat split; lia || reflexivity.
    - destruct (Z.eq_dec k 0) as [->|Hn]; [left; reflexivity|right]. exists (bz (k - 1)). apply binvox_in. split; [exact Ha|]. exists i, j, (k - 1). replace (k - 1 + 1) with k by lia. repeat split; lia || reflexivity.
  Qed.

  (** How often binvox has been run on [a], and how often voxcut, in a list of commands. *)
  Definition runs_on (a : list byte) (cmd : command F) : bool :=
    match cmd with RunBinvox _ _ _ _ _ _ a' => if list_eq_dec byte_eq_dec a a' then true else false | _ => false end.
  Definition is_voxcut (cmd : command F) : bool := match cmd with RunVoxcut _ => true | _ => false end.

  Lemma runs_on_block a c : NoDup args -> In a args -> length (filter (runs_on a) (tile_block c)) = 1%nat.
  Proof using.
    intros Hnd Ha. unfold tile_block. cbv zeta. rewrite filter_app, app_length. cbn [filter runs_on length]. rewrite Nat.add_0_r.
    revert Hnd Ha. generalize args. clear. intros l. induction l as [|x l IH]; intros Hnd Ha; [destruct Ha|]. inversion_clear Hnd as [|? ? Hni Hnd']. cbn [map filter runs_on].
    destruct (list_eq_dec byte_eq_dec a x) as [->|Hne].
    - cbn [length]. f_equal. assert (E : forall m : list (list byte), ~ In x m -> forall q, length (filter (runs_on x) (map (RunBinvox (bx (c mod xf)) (by_ ((c/xf) mod yf)) (bz q) (bx (c mod xf+1)) (by_ ((c/xf) mod yf + 1)) (bz (q+1))) m)) = 0%nat).
      { induction m as [|y m IHm]; intros Hm q; [reflexivity|]. cbn [map filter runs_on]. destruct (list_eq_dec byte_eq_dec x y) as [->|]; [exfalso; apply Hm; left; reflexivity|]. apply IHm. intros H. apply Hm. right. exact H. }
      apply E, Hni.
    - apply IH; [exact Hnd'|]. destruct Ha as [->|Ha]; [congruence|exact Ha].
  Qed.
  Lemma voxcuts_block c : length (filter is_voxcut (tile_block c)) = 1%nat.
  Proof using.
    unfold tile_block. cbv zeta. rewrite filter_app, app_length. cbn. rewrite Nat.add_1_r. f_equal. generalize args. clear. intros l. induction l; cbn; auto.
  Qed.

  (** The scripted order: the voxcut command with suffix number c is the c-th and comes after
      exactly c + 1 binvox runs on each argument, the last of which is on the box of tile c: so the
      suffix is the one binvox itself appends when it numbers its outputs. *)
  Theorem C44_suffix_counts l1 s l2 : NoDup args -> output = l1 ++ RunVoxcut s :: l2 ->
    let c := Z.of_nat (length (filter is_voxcut l1)) in
    s = cut_suffix c /\ (forall a, In a args -> Z.of_nat (length (filter (runs_on a) l1)) = c + 1) /\
    exists l0, l1 = l0 ++ map (RunBinvox (bx (c mod xf)) (by_ (c / xf mod yf)) (bz (c / (xf * yf))) (bx (c mod xf + 1)) (by_ (c / xf mod yf + 1)) (bz (c / (xf * yf) + 1))) args.
  Proof using Hx Hy Hz.
    intros Hnd. rewrite dice_commands_spec.
    assert (G : forall m c0 l1, flat_map tile_block (map (fun j => c0 + j) (map Z.of_nat (seq 0 m))) = l1 ++ RunVoxcut s :: l2 ->
      s = cut_suffix (c0 + Z.of_nat (length (filter is_voxcut l1))) /\
      (forall a, In a args -> Z.of_nat (length (filter (runs_on a) l1)) = Z.of_nat (length (filter is_voxcut l1)) + 1) /\
      exists l0, l1 = l0 ++ map (RunBinvox (bx ((c0 + Z.of_nat (length (filter is_voxcut l1))) mod xf)) (by_ ((c0 + Z.of_nat (length (filter is_voxcut l1))) / xf mod yf)) (bz ((c0 + Z.of_nat (length (filter is_voxcut l1))) / (xf * yf))) (bx ((c0 + Z.of_nat (length (filter is_voxcut l1))) mod xf + 1)) (by_ ((c0 + Z.of_nat (length (filter is_voxcut l1))) / xf mod yf + 1)) (bz ((c0 + Z.of_nat (length (filter is_voxcut l1))) / (xf * yf) + 1))) args).
    { clear l1. induction m as [|m IH]; intros c0 l1 H; [destruct l1; discriminate|].
      assert (E : flat_map tile_block (map (fun j => c0 + j) (map Z.of_nat (seq 0 (S m)))) = tile_block c0 ++ flat_map tile_block (map (fun j => (c0 + 1) + j) (map Z.of_nat (seq 0 m)))).
      { cbn [seq map flat_map]. f_equal; [f_equal; lia|]. rewrite <- seq_shift, !map_map. f_equal. apply map_ext. intros q. lia. }
      rewrite E in H. clear E. apply app_eq_app in H as (w & [(E1 & E2)|(E1 & E2)]).
      - destruct w as [|v w].
        + cbn in E2. rewrite app_nil_r in E1. subst l1. rewrite voxcuts_block. destruct (IH (c0 + 1) []) as (H1 & H2 & l0 & H3); [symmetry; exact E2|].
          split; [rewrite H1; f_equal; cbn; lia|]. split; [intros a Ha; rewrite runs_on_block by assumption; specialize (H2 a Ha); cbn in H2; lia|].
          exists (tile_block c0). symmetry in H3. apply app_eq_nil in H3 as [_ H3]. apply map_eq_nil in H3. rewrite H3. cbn [map]. rewrite app_nil_r. reflexivity.
        + injection E2 as <- E2. unfold tile_block in E1. cbv zeta in E1. set (pre := map _ args) in E1.
          assert (Hpre : forall cmd, In cmd pre -> is_voxcut cmd = false) by (intros cmd Hc; apply in_map_iff in Hc as (? & <- & _); reflexivity).
          destruct w as [|u w _] using rev_ind.
          * apply app_inj_tail in E1 as [<- E1]. injection E1 as <-.
            assert (Ec : length (filter is_voxcut pre) = 0%nat).
            { clear -Hpre. induction pre as [|x l IHl]; [reflexivity|]. cbn [filter]. rewrite Hpre by (left; reflexivity). apply IHl. intros y Hy. apply Hpre. right. exact Hy. }
            rewrite Ec. split; [f_equal; lia|]. split; [|exists []; cbn [app]; change (Z.of_nat 0) with 0; rewrite Z.add_0_r; reflexivity]. intros a Ha. pose proof (runs_on_block a c0 Hnd Ha) as Hb.
            unfold tile_block in Hb. cbv zeta in Hb. fold pre in Hb. rewrite filter_app, app_length in Hb. cbn [filter runs_on length] in Hb. lia.
          * exfalso. rewrite app_comm_cons, app_assoc in E1. apply app_inj_tail in E1 as [E1 _].
            specialize (Hpre (RunVoxcut s)). rewrite E1 in Hpre. discriminate Hpre. apply in_elt.
      - subst l1. rewrite !filter_app, !app_length, voxcuts_block. destruct (IH (c0 + 1) w E2) as (H1 & H2 & l0 & H3). split; [rewrite H1; f_equal; lia|]. split.
        + intros a Ha. rewrite filter_app, app_length, runs_on_block by assumption. specialize (H2 a Ha). lia.
        + exists (tile_block c0 ++ l0). rewrite <- app_assoc. f_equal. rewrite H3 at 1. f_equal.
          replace (c0 + Z.of_nat (1 + length (filter is_voxcut w))) with (c0 + 1 + Z.of_nat (length (filter is_voxcut w))) by lia. reflexivity. }
    intros H. specialize (G (Z.to_nat (xf * yf * zf)) 0 l1). cbn zeta. rewrite Z.add_0_l in G. apply G. rewrite <- H. f_equal. rewrite <- (map_id (upto _)) at 1.
    apply map_ext. intros q. lia.
  Qed.

  (** One voxcut command per tile, one binvox command per tile and argument. *)
  Theorem C44_count : Z.of_nat (length (filter is_voxcut output)) = xf * yf * zf /\
    Z.of_nat (length output) = xf * yf * zf * (Z.of_nat (length args) + 1).
  Proof using Hx Hy Hz.
    rewrite dice_commands_spec. assert (Hn : 0 <= xf * yf * zf) by nia. revert Hn. generalize (xf * yf * zf). intros n Hn.
    pattern n. apply natlike_ind; [split; reflexivity|intros x Hx' [IH1 IH2]|exact Hn]. unfold Z.succ. rewrite upto_S by lia.
    rewrite flat_map_app, filter_app, !app_length. cbn [flat_map]. rewrite app_nil_r, voxcuts_block. split; [lia|].
    unfold tile_block at 2. cbv zeta. rewrite app_length, map_length. cbn [length]. lia.
  Qed.
End Commands.
Print Assumptions C44_shared_faces.
Print Assumptions C44_suffix_counts.
Print Assumptions C44_count.

Lemma show_nat_inj a b : 0 <= a -> 0 <= b -> show_nat a = show_nat b -> a = b.
Proof. intros Ha Hb H. rewrite <- (show_nat_undec a Ha), <- (show_nat_undec b Hb), H. reflexivity. Qed.

(** Different tiles have different suffixes. *)
Theorem C44_suffixes_distinct c c' : 0 <= c -> 0 <= c' -> cut_suffix c = cut_suffix c' -> c = c'.
Proof.
  intros Hc Hc'. unfold cut_suffix. destruct (Z.gtb_spec c 0), (Z.gtb_spec c' 0); intros H'; try discriminate; [|lia].
  injection H' as H'. apply show_nat_inj; assumption.
Qed.
Print Assumptions C44_suffixes_distinct.

