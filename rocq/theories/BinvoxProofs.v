(** The codec theorems, in the form used by BinvoxProps.v. *)
From Verif Require Import Base BaseLemmas BinvoxModel BinvoxSpec BinvoxLemmas.
From Coq Require Import ZArith List Lia Bool String Init.Byte ZifyBool.
From stdpp Require Import base list list_numbers gmap sets fin_sets.
Import ListNotations.
Open Scope Z_scope.
Ltac Zify.zify_post_hook ::= Z.to_euclidean_division_equations.

(** ** Reading records *)

Lemma cur_0 ny nz : 0 < ny -> 0 < nz -> Cur 0 0 0 = cur_at ny nz 0.
Proof.
  intros Hy Hz. unfold cur_at.
  rewrite (Z.div_0_l (ny * nz)), Z.mod_0_l, (Z.div_0_l ny), Z.mod_0_l by nia. reflexivity.
Qed.

Lemma read_data_ok nx ny nz w data recs :
  0 < ny -> 0 < nz -> data_records data recs -> rec_total recs <= nx * ny * nz ->
  exists c vs, read_data nx ny nz w data (Cur 0 0 0, ∅) = inr (c, vs) /\
    forall k, k ∈ vs <->
      exists j, expand recs !! j = Some true /\ k = nth_voxel ny nz (Z.of_nat j) /\ in_windowk w k.
Proof.
  intros Hy Hz Hr Ht. rewrite (read_data_records _ _ _ _ _ _ _ Hr).
  rewrite (cur_0 ny nz Hy Hz).
  destruct (read_bits_spec nx ny nz w (expand recs) 0 ∅ Hy Hz) as (vs & Hb & Hk).
  - lia.
  - rewrite (data_records_total _ _ Hr). lia.
  - rewrite Hb. eexists _, vs. split; [reflexivity|].
    intros k. rewrite Hk. split.
    + intros [H|H]; [set_solver|]. exact H.
    + intros H. right. exact H.
Qed.

Lemma read_data_iff nx ny nz w data :
  0 <= nx -> 0 < ny -> 0 < nz ->
  (exists st, read_data nx ny nz w data (Cur 0 0 0, ∅) = inr st) <->
  (exists recs, data_records data recs /\ rec_total recs <= nx * ny * nz).
Proof.
  intros Hx Hy Hz. split.
  - intros [st H]. destruct (read_data_inr_records _ _ _ _ _ _ _ H) as [recs Hr].
    exists recs. split; [exact Hr|].
    destruct (Z.le_gt_cases (rec_total recs) (nx * ny * nz)) as [|Hgt]; [assumption|exfalso].
    rewrite (read_data_records _ _ _ _ _ _ _ Hr), (cur_0 ny nz Hy Hz) in H.
    rewrite read_bits_overrun in H; [discriminate|lia|lia|lia| |].
    + rewrite (data_records_total _ _ Hr). lia.
    + intros E. pose proof (data_records_total _ _ Hr) as Ht. rewrite E in Ht. cbn in Ht. nia.
  - intros (recs & Hr & Ht).
    destruct (read_data_ok nx ny nz w data recs Hy Hz Hr Ht) as (c & vs & H & _). eauto.
Qed.

(** ** Reading a file with a given header *)

Section Float.
  Context {F : Type} (ft : FloatText F).

  Lemma header_app nx ny nz tx ty tz sc data :
    header ft nx ny nz tx ty tz sc ++ data =
    txt "#binvox 1" ++ [x0a] ++ dim_line nx ny nz ++ [x0a] ++ translate_line ft tx ty tz ++ [x0a]
    ++ scale_line ft sc ++ [x0a] ++ txt "data" ++ [x0a] ++ data.
  Proof. rewrite header_lines. repeat rewrite <- app_assoc. reflexivity. Qed.

  Definition mk (nx ny nz : Z) (tx ty tz sc : F) (vs : gset key) : binvox F :=
    {| NX := nx; NY := ny; NZ := nz; TX := tx; TY := ty; TZ := tz; Scale := sc;
       White := Some vs; Colors := None |}.

  Lemma read_with_header nx ny nz tx ty tz sc data sx sy sz cx cy cz :
    0 <= nx <= max_int -> 0 <= ny <= max_int -> 0 <= nz <= max_int ->
    0 <= sx <= nx -> 0 <= sy <= ny -> 0 <= sz <= nz -> 0 <= cx -> 0 <= cy -> 0 <= cz ->
    read ft (header ft nx ny nz tx ty tz sc ++ data) sx sy sz cx cy cz =
    match read_data nx ny nz
            (Win sx sy sz (clip_count cx nx) (clip_count cy ny) (clip_count cz nz))
            data (Cur 0 0 0, ∅) with
    | inl e => inl e
    | inr (_, vs) => inr (mk nx ny nz tx ty tz sc vs)
    end.
  Proof.
    intros. unfold read.
    replace ((sx <? 0) || (sy <? 0) || (sz <? 0) || (cx <? 0) || (cy <? 0) || (cz <? 0))
      with false by lia.
    rewrite header_app, read_header_ok by (try reflexivity; lia). reflexivity.
  Qed.

  Definition is_ok {E A} (r : E + A) : Prop := exists a, r = inr a.

  Lemma read_ok_iff nx ny nz tx ty tz sc data sx sy sz cx cy cz :
    0 <= nx <= max_int -> 0 < ny <= max_int -> 0 < nz <= max_int ->
    0 <= sx <= nx -> 0 <= sy <= ny -> 0 <= sz <= nz -> 0 <= cx -> 0 <= cy -> 0 <= cz ->
    is_ok (read ft (header ft nx ny nz tx ty tz sc ++ data) sx sy sz cx cy cz) <->
    exists recs, data_records data recs /\ rec_total recs <= nx * ny * nz.
  Proof.
    intros. rewrite read_with_header by lia.
    rewrite <- (read_data_iff nx ny nz
       (Win sx sy sz (clip_count cx nx) (clip_count cy ny) (clip_count cz nz)) data) by lia.
    destruct (read_data _ _ _ _ _ _) as [e|[c vs]].
    - split; [intros [? ?]; discriminate|intros [? ?]; discriminate].
    - split; intros _; eexists; reflexivity.
  Qed.

  Lemma read_bad_args bytes sx sy sz cx cy cz :
    sx < 0 \/ sy < 0 \/ sz < 0 \/ cx < 0 \/ cy < 0 \/ cz < 0 ->
    read ft bytes sx sy sz cx cy cz = inl EParams.
  Proof.
    intros. unfold read.
    replace ((sx <? 0) || (sy <? 0) || (sz <? 0) || (cx <? 0) || (cy <? 0) || (cz <? 0))
      with true by lia. reflexivity.
  Qed.

  Lemma read_bad_start nx ny nz tx ty tz sc data sx sy sz cx cy cz :
    0 <= nx <= max_int -> 0 <= ny <= max_int -> 0 <= nz <= max_int ->
    0 <= sx -> 0 <= sy -> 0 <= sz -> 0 <= cx -> 0 <= cy -> 0 <= cz ->
    nx < sx \/ ny < sy \/ nz < sz ->
    read ft (header ft nx ny nz tx ty tz sc ++ data) sx sy sz cx cy cz = inl EStart.
  Proof.
    intros. unfold read.
    replace ((sx <? 0) || (sy <? 0) || (sz <? 0) || (cx <? 0) || (cy <? 0) || (cz <? 0))
      with false by lia.
    rewrite header_app, read_header_start by (try reflexivity; lia). reflexivity.
  Qed.

  (** Arbitrary bytes. *)
  Lemma atoi_nonneg l n : forallb is_digit l = true -> atoi_digits l = Some n -> 0 <= n.
  Proof.
    intros Hl. unfold atoi_digits.
    assert (Hf : forall a, 0 <= a -> 0 <= fold_left (fun a b => a * 10 + (b2z b - 48)) l a).
    { induction l as [|d l IH]; intros a Ha; [exact Ha|].
      cbn [forallb] in Hl. apply andb_true_iff in Hl as [Hd Hl].
      cbn [fold_left]. apply IH; [exact Hl|]. unfold is_digit in Hd. lia. }
    specialize (Hf 0 ltac:(lia)).
    destruct (_ <=? _); [|discriminate]. intros [= <-]. exact Hf.
  Qed.

  Lemma span_class c l a r : span c l = (a, r) -> forallb c a = true.
  Proof.
    revert a r. induction l as [|b l IH]; intros a r H; cbn in H.
    - injection H as <- <-. reflexivity.
    - destruct (c b) eqn:E; [|injection H as <- <-; reflexivity].
      destruct (span c l) as [a' r']. injection H as <- <-. cbn. rewrite E. apply (IH _ _ eq_refl).
  Qed.

  Lemma token_class c l a r : token c l = Some (a, r) -> forallb c a = true.
  Proof.
    unfold token. destruct (span c l) as [a' r'] eqn:E. apply span_class in E.
    destruct a'; [discriminate|]. intros [= <- <-]. exact E.
  Qed.

  Lemma match3_class p c l a b d : match3 p c l = Some (a, b, d) ->
    forallb c a = true /\ forallb c b = true /\ forallb c d = true.
  Proof.
    unfold match3. destruct (drop_lit p l) as [l1|]; [|discriminate].
    destruct (token c l1) as [[a' [|[] l2]]|] eqn:E1; try discriminate.
    destruct (token c l2) as [[b' [|[] l3]]|] eqn:E2; try discriminate.
    destruct (token c l3) as [[d' l4]|] eqn:E3; try discriminate.
    destruct (forallb is_space l4); [|discriminate]. intros [= <- <- <-].
    split; [exact (token_class _ _ _ _ E1)|].
    split; [exact (token_class _ _ _ _ E2)|exact (token_class _ _ _ _ E3)].
  Qed.

  Lemma read_header_dims magic sx sy sz bytes h data :
    read_header ft magic sx sy sz bytes = inr (h, data) ->
    0 <= h_nx h <= max_int /\ 0 <= h_ny h <= max_int /\ 0 <= h_nz h <= max_int
    /\ sx <= h_nx h /\ sy <= h_ny h /\ sz <= h_nz h.
  Proof.
    unfold read_header. intros H.
    repeat (match type of H with
            | match ?x with _ => _ end = _ => destruct x eqn:?
            | (if ?x then _ else _) = _ => destruct x eqn:?
            | (let '(_, _) := ?x in _) = _ => destruct x eqn:?
            end; try discriminate).
    injection H as <- <-. cbn [h_nx h_ny h_nz].
    match goal with H : match3 _ is_digit _ = Some _ |- _ => apply match3_class in H as (Ha & Hb & Hc) end.
    repeat match goal with
    | Hd : forallb is_digit ?l = true, Hn : atoi_digits ?l = Some ?n |- _ =>
        pose proof (atoi_nonneg _ _ Hd Hn); unfold atoi_digits in Hn;
        destruct (Z.leb_spec (fold_left (fun a b => a * 10 + (b2z b - 48)) l 0) max_int);
        [injection Hn as Hn|discriminate]
    end.
    lia.
  Qed.

  Lemma read_in_range bytes sx sy sz cx cy cz b :
    read ft bytes sx sy sz cx cy cz = inr b ->
    0 <= NX b /\ 0 <= NY b /\ 0 <= NZ b /\
    (0 < NY b -> 0 < NZ b -> forall k, k ∈ white b -> in_grid (NX b) (NY b) (NZ b) k).
  Proof.
    unfold read. destruct (_ || _); [discriminate|].
    destruct (read_header _ _ _ _ _ _) as [e|[h data]] eqn:Eh; [discriminate|].
    apply read_header_dims in Eh.
    destruct (read_data _ _ _ _ _ _) as [e|[c vs]] eqn:Ed; [discriminate|].
    intros [= <-]. cbn. unfold white. cbn. split; [lia|]. split; [lia|]. split; [lia|].
    intros Hy Hz k Hk. set (w := Win _ _ _ _ _ _) in Ed.
    assert (Hx : 0 <= h_nx h) by lia.
    pose proof (proj1 (read_data_iff _ _ _ _ data Hx Hy Hz) (ex_intro _ _ Ed)) as (recs & Hr & Ht).
    destruct (read_data_ok _ _ _ w data recs Hy Hz Hr Ht) as (c' & vs' & Ed' & Hmem).
    rewrite Ed in Ed'. injection Ed' as <- <-.
    apply Hmem in Hk as (j & Hj & -> & _).
    apply nth_voxel_range; [assumption|assumption|].
    apply lookup_lt_Some in Hj. pose proof (data_records_total _ _ Hr). lia.
  Qed.

  (** ** Written files *)

  (** The values written, in file order. *)
  Lemma encode_records S sx sy sz nx ny nz :
    let rs := encode_rle S sx sy sz nx ny nz in
    data_records (concat (map run_bytes rs)) (runs_records rs) /\
    canonical (runs_records rs) /\
    expand (runs_records rs)
      = map (fun k => bool_decide (k ∈ S)) (loop_keys sx sy sz nx ny nz).
  Proof.
    intros rs. unfold encode_rle in rs.
    destruct (enc_loop_runs S (loop_keys sx sy sz nx ny nz) (Enc 0 0)) as (H1 & H2 & _);
      [cbn; lia|cbn; auto|].
    split; [apply runs_bytes_records, H1|]. split; [apply runs_records_canonical; assumption|].
    rewrite runs_records_expand by exact H1. unfold rs.
    rewrite enc_loop_expand by (cbn; lia). cbn [e_value e_count]; change (Z.to_nat 0) with 0%nat; cbn [repeat app].
    rewrite map_map. apply map_ext. intros k. unfold voxel_value, to_bool.
    case_decide as Hk; [rewrite bool_decide_eq_true_2 by exact Hk|rewrite bool_decide_eq_false_2 by exact Hk];
      reflexivity.
  Qed.

  Lemma encode_total S sx sy sz nx ny nz :
    0 <= nx -> 0 <= ny -> 0 <= nz ->
    rec_total (runs_records (encode_rle S sx sy sz nx ny nz)) = nx * ny * nz.
  Proof.
    intros. destruct (encode_records S sx sy sz nx ny nz) as (Hr & _ & He).
    rewrite <- (data_records_total _ _ Hr), He, map_length. apply loop_keys_length; lia.
  Qed.

  (** The effective dimensions of a write. *)
  Lemma write_nonempty b sx sy sz nx ny nz :
    (exists k, k ∈ white b) ->
    let nx' := default_dim nx (NX b) in
    let ny' := default_dim ny (NY b) in
    let nz' := default_dim nz (NZ b) in
    let rs := encode_rle (white b) sx sy sz nx' ny' nz' in
    write ft b sx sy sz nx ny nz =
      ([header ft nx' ny' nz' (TX b) (TY b) (TZ b) (Scale b); concat (map run_bytes rs)],
       count_white rs).
  Proof.
    intros [k Hk]. cbn zeta. unfold write. case_decide as Hs; [|reflexivity].
    apply size_empty_inv in Hs. exfalso. set_solver.
  Qed.

  Lemma write_file_nonempty b sx sy sz nx ny nz :
    (exists k, k ∈ white b) ->
    let nx' := default_dim nx (NX b) in
    let ny' := default_dim ny (NY b) in
    let nz' := default_dim nz (NZ b) in
    write_file ft b sx sy sz nx ny nz =
      header ft nx' ny' nz' (TX b) (TY b) (TZ b) (Scale b)
      ++ concat (map run_bytes (encode_rle (white b) sx sy sz nx' ny' nz')).
  Proof.
    intros Hk. cbn zeta. unfold write_file. rewrite write_nonempty by exact Hk.
    cbn [fst concat]. rewrite app_nil_r. reflexivity.
  Qed.

  Lemma shift_key_back sx sy sz k : shift_key (-sx) (-sy) (-sz) (shift_key sx sy sz k) = k.
  Proof.
    destruct k as [[x y] z]. unfold shift_key, kx, ky, kz. cbn [fst snd].
    apply key_eq; lia.
  Qed.

  (** Write a region, then read any window of the file. *)
  Lemma write_read_window b sx sy sz nx ny nz qx qy qz cx cy cz :
    (exists k, k ∈ white b) ->
    let nx' := default_dim nx (NX b) in
    let ny' := default_dim ny (NY b) in
    let nz' := default_dim nz (NZ b) in
    0 < nx' <= max_int -> 0 < ny' <= max_int -> 0 < nz' <= max_int ->
    0 <= qx <= nx' -> 0 <= qy <= ny' -> 0 <= qz <= nz' -> 0 <= cx -> 0 <= cy -> 0 <= cz ->
    exists vs,
      read ft (write_file ft b sx sy sz nx ny nz) qx qy qz cx cy cz
        = inr (mk nx' ny' nz' (TX b) (TY b) (TZ b) (Scale b) vs) /\
      forall k, k ∈ vs <->
        in_grid nx' ny' nz' k /\ shift_key sx sy sz k ∈ white b /\
        in_windowk (Win qx qy qz (clip_count cx nx') (clip_count cy ny') (clip_count cz nz')) k.
  Proof.
    intros Hne nx' ny' nz' Hx Hy Hz. intros.
    rewrite (write_file_nonempty b sx sy sz nx ny nz Hne). fold nx' ny' nz'.
    rewrite read_with_header by lia.
    set (w := Win _ _ _ _ _ _).
    destruct (encode_records (white b) sx sy sz nx' ny' nz') as (Hr & _ & He).
    set (rs := encode_rle _ _ _ _ _ _ _) in *.
    destruct (read_data_ok nx' ny' nz' w _ _ ltac:(lia) ltac:(lia) Hr) as (c & vs & Hd & Hk).
    { unfold rs. rewrite encode_total by lia. lia. }
    rewrite Hd. exists vs. split; [reflexivity|].
    intros k. rewrite Hk, He. split.
    - intros (j & Hj & -> & Hw).
      apply list_lookup_fmap_inv in Hj as (k' & Hb & Hj).
      assert (Hlt : Z.of_nat j < nx' * ny' * nz').
      { apply lookup_lt_Some in Hj. pose proof (loop_keys_length sx sy sz nx' ny' nz'). lia. }
      rewrite loop_keys_lookup in Hj by lia. injection Hj as <-.
      symmetry in Hb. apply bool_decide_eq_true_1 in Hb.
      split; [apply nth_voxel_range; lia|]. auto.
    - intros (Hg & Hin & Hw).
      destruct (nth_voxel_index nx' ny' nz' k Hg) as (Hi & Hrange).
      exists (Z.to_nat (voxel_index ny' nz' k)). rewrite Z2Nat.id by lia.
      split; [|split; [symmetry; exact Hi|exact Hw]].
      change (map ?f ?l) with (f <$> l). rewrite list_lookup_fmap.
      rewrite loop_keys_lookup by lia. rewrite Z2Nat.id by lia. cbn [fmap option_fmap option_map].
      rewrite Hi. rewrite bool_decide_eq_true_2 by exact Hin. reflexivity.
  Qed.

  Lemma in_windowk_all nx ny nz k : 0 < nx -> 0 < ny -> 0 < nz -> in_grid nx ny nz k ->
    in_windowk (Win 0 0 0 (clip_count 0 nx) (clip_count 0 ny) (clip_count 0 nz)) k.
  Proof.
    intros. unfold in_windowk, in_grid, in_region, clip_count in *. cbn. lia.
  Qed.

  Lemma write_read_region b sx sy sz nx ny nz :
    (exists k, k ∈ white b) ->
    let nx' := default_dim nx (NX b) in
    let ny' := default_dim ny (NY b) in
    let nz' := default_dim nz (NZ b) in
    0 < nx' <= max_int -> 0 < ny' <= max_int -> 0 < nz' <= max_int ->
    exists vs,
      read ft (write_file ft b sx sy sz nx ny nz) 0 0 0 0 0 0
        = inr (mk nx' ny' nz' (TX b) (TY b) (TZ b) (Scale b) vs) /\
      forall k, k ∈ vs <-> in_grid nx' ny' nz' k /\ shift_key sx sy sz k ∈ white b.
  Proof.
    intros Hne nx' ny' nz' Hx Hy Hz.
    subst nx' ny' nz'.
    destruct (write_read_window b sx sy sz nx ny nz 0 0 0 0 0 0 Hne Hx Hy Hz) as (vs & Hr & Hk);
      [lia..|].
    exists vs. split; [exact Hr|]. intros k. rewrite Hk. split; [tauto|].
    intros [Hg Hs]. split; [exact Hg|]. split; [exact Hs|]. apply in_windowk_all; (lia || assumption).
  Qed.

  Lemma shift_key_0 k : shift_key 0 0 0 k = k.
  Proof. destruct k as [[x y] z]. unfold shift_key, kx, ky, kz; cbn. rewrite !Z.add_0_r. reflexivity. Qed.

  Lemma round_trip b :
    (exists k, k ∈ white b) ->
    (forall k, k ∈ white b -> in_grid (NX b) (NY b) (NZ b) k) ->
    NX b <= max_int -> NY b <= max_int -> NZ b <= max_int ->
    read ft (write_file ft b 0 0 0 0 0 0) 0 0 0 0 0 0
    = inr (mk (NX b) (NY b) (NZ b) (TX b) (TY b) (TZ b) (Scale b) (white b)).
  Proof.
    intros Hne Hin Hx Hy Hz.
    assert (Hpos : 0 < NX b /\ 0 < NY b /\ 0 < NZ b).
    { destruct Hne as [k Hk]. apply Hin in Hk. unfold in_grid, in_region in Hk. lia. }
    destruct (write_read_region b 0 0 0 0 0 0 Hne) as (vs & Hr & Hk);
      cbn [default_dim Z.eqb] in *; [unfold default_dim; cbn; lia..|].
    rewrite Hr. do 2 f_equal. apply set_eq. intros k. rewrite Hk.
    rewrite shift_key_0. split; [tauto|]. intros H. split; [|exact H]. apply Hin, H.
  Qed.

  (** ** Counting *)

  Lemma count_white_expand rs a :
    Forall (fun r => (fst r = 0 \/ fst r = 1) /\ 0 < snd r) rs ->
    fold_left (fun a r => if fst r =? 1 then a + snd r else a) rs a
    = a + Z.of_nat (length (filter (fun v => v = 1) (expand_z rs))).
  Proof.
    intros H. revert a. induction H as [|[v c] rs [Hv Hc] _ IH]; intros a; [cbn; lia|].
    cbn [fst snd] in *. cbn [fold_left fst snd]. rewrite IH.
    unfold expand_z. cbn [map concat fst snd]. rewrite filter_app, app_length.
    assert (E : length (filter (fun x => x = 1) (repeat v (Z.to_nat c)))
                = if v =? 1 then Z.to_nat c else 0%nat).
    { destruct (Z.eqb_spec v 1) as [->|Hne].
      - induction (Z.to_nat c) as [|n IHn]; [reflexivity|]. cbn [repeat].
        rewrite filter_cons_True by reflexivity. cbn [length]. rewrite IHn. reflexivity.
      - induction (Z.to_nat c) as [|n IHn]; [reflexivity|]. cbn [repeat].
        rewrite filter_cons_False by exact Hne. exact IHn. }
    rewrite E. fold (expand_z rs). destruct (Z.eqb_spec v 1); lia.
  Qed.

  Lemma filter_map_length {A B} (f : A -> B) (P : B -> Prop) `{!forall x, Decision (P x)} l :
    length (filter P (map f l)) = length (filter (fun x => P (f x)) l).
  Proof.
    induction l as [|x l IH]; [reflexivity|]. cbn [map].
    destruct (decide (P (f x))) as [Hp|Hp].
    - rewrite filter_cons_True by exact Hp. rewrite filter_cons_True by exact Hp.
      cbn [length]. rewrite IH. reflexivity.
    - rewrite filter_cons_False by exact Hp. rewrite filter_cons_False by exact Hp. exact IH.
  Qed.

  Lemma loop_keys_NoDup sx sy sz nx ny nz :
    0 < nx -> 0 < ny -> 0 < nz -> NoDup (loop_keys sx sy sz nx ny nz).
  Proof.
    intros. apply NoDup_alt. intros i j k Hi Hj.
    pose proof (loop_keys_length sx sy sz nx ny nz ltac:(lia) ltac:(lia) ltac:(lia)) as Hl.
    pose proof (lookup_lt_Some _ _ _ Hi). pose proof (lookup_lt_Some _ _ _ Hj).
    rewrite loop_keys_lookup in Hi, Hj by lia. rewrite <- Hj in Hi. injection Hi as E1 E2 E3.
    assert (E : nth_voxel ny nz (Z.of_nat i) = nth_voxel ny nz (Z.of_nat j)).
    { unfold kx, ky, kz, nth_voxel in *. cbn [fst snd] in *.
      apply key_eq; lia. }
    apply (f_equal (voxel_index ny nz)) in E. rewrite !voxel_index_nth in E by lia. lia.
  Qed.

  Lemma loop_keys_elem sx sy sz nx ny nz k :
    0 < nx -> 0 < ny -> 0 < nz ->
    k ∈ loop_keys sx sy sz nx ny nz <-> in_region sx sy sz nx ny nz k.
  Proof.
    intros. rewrite elem_of_list_lookup.
    pose proof (loop_keys_length sx sy sz nx ny nz ltac:(lia) ltac:(lia) ltac:(lia)) as Hl.
    split.
    - intros [i Hi]. pose proof (lookup_lt_Some _ _ _ Hi).
      rewrite loop_keys_lookup in Hi by lia. injection Hi as <-.
      pose proof (nth_voxel_range nx ny nz (Z.of_nat i)) as Hr.
      unfold in_grid, in_region, shift_key, kx, ky, kz in *. cbn [fst snd] in *. lia.
    - intros Hr.
      set (k0 := shift_key (-sx) (-sy) (-sz) k).
      assert (Hg : in_grid nx ny nz k0).
      { unfold k0, in_grid, in_region, shift_key, kx, ky, kz in *. cbn [fst snd] in *. lia. }
      destruct (nth_voxel_index nx ny nz k0 Hg) as (Hi & Hrange).
      exists (Z.to_nat (voxel_index ny nz k0)). rewrite loop_keys_lookup by lia.
      rewrite Z2Nat.id by lia. rewrite Hi. f_equal. unfold k0.
      destruct k as [[x y] z]. unfold shift_key, kx, ky, kz. cbn [fst snd].
      apply key_eq; lia.
  Qed.

  Lemma count_white_encode S sx sy sz nx ny nz :
    0 < nx -> 0 < ny -> 0 < nz ->
    count_white (encode_rle S sx sy sz nx ny nz)
    = Z.of_nat (length (filter (fun k => k ∈ S) (loop_keys sx sy sz nx ny nz))).
  Proof.
    intros. unfold count_white, encode_rle.
    destruct (enc_loop_runs S (loop_keys sx sy sz nx ny nz) (Enc 0 0)) as (Hr & _ & _);
      [cbn; lia|cbn; auto|].
    rewrite count_white_expand by exact Hr.
    rewrite enc_loop_expand by (cbn; lia). cbn [e_value e_count]; change (Z.to_nat 0) with 0%nat; cbn [repeat app].
    rewrite Z.add_0_l. f_equal.
    rewrite (filter_map_length (voxel_value S) (fun v => v = 1)).
    f_equal. apply list_filter_iff. intros k. unfold voxel_value. case_decide; split; (auto || discriminate || tauto).
  Qed.

  Lemma size_of_elements (X : gset key) l :
    NoDup l -> (forall k, k ∈ l <-> k ∈ X) -> Z.of_nat (length l) = Z.of_nat (size X).
  Proof.
    intros Hn Hk. unfold size, set_size. cbn. f_equal. apply Permutation_length.
    apply NoDup_Permutation; [exact Hn|apply NoDup_elements|].
    intros k. rewrite Hk, elem_of_elements. reflexivity.
  Qed.

  Lemma numwhite b sx sy sz nx ny nz :
    (exists k, k ∈ white b) ->
    let nx' := default_dim nx (NX b) in
    let ny' := default_dim ny (NY b) in
    let nz' := default_dim nz (NZ b) in
    0 < nx' -> 0 < ny' -> 0 < nz' ->
    forall R : gset key, (forall k, k ∈ R <-> k ∈ white b /\ in_region sx sy sz nx' ny' nz' k) ->
    snd (write ft b sx sy sz nx ny nz) = Z.of_nat (size R).
  Proof.
    intros Hne nx' ny' nz' Hx Hy Hz R HR. rewrite write_nonempty by exact Hne.
    fold nx' ny' nz'. cbn [snd]. rewrite count_white_encode by lia.
    apply size_of_elements; [apply NoDup_filter, loop_keys_NoDup; lia|].
    intros k. rewrite elem_of_list_filter, loop_keys_elem, HR by lia. tauto.
  Qed.

  (** ** Truncation *)

  Lemma data_records_prefix q d rq rd :
    data_records q rq -> data_records d rd -> q `prefix_of` d -> rq `prefix_of` rd.
  Proof.
    intros Hq. revert d rd. induction Hq as [|v c rest b recs Hv Hc _ IH]; intros d rd Hd Hp.
    - apply prefix_nil.
    - destruct Hp as [r ->]. cbn [app] in Hd.
      inversion Hd as [|v' c' rest' b' recs' Hv' Hc' Hd']; subst.
      assert (b = b') as -> by (rewrite Hv in Hv'; destruct b, b'; congruence).
      apply prefix_cons. eapply IH; [exact Hd'|]. exists r. reflexivity.
  Qed.

  Lemma rec_total_app r1 r2 : rec_total (r1 ++ r2) = rec_total r1 + rec_total r2.
  Proof.
    unfold rec_total. induction r1 as [|[v c] r1 IH]; cbn [app fold_right snd] in *; [reflexivity|].
    rewrite IH. lia.
  Qed.

  Lemma rec_total_nonneg d r : data_records d r -> 0 <= rec_total r.
  Proof. intros H. rewrite <- (data_records_total _ _ H). lia. Qed.

  Lemma truncated b sx sy sz nx ny nz n :
    (exists k, k ∈ white b) ->
    let nx' := default_dim nx (NX b) in
    let ny' := default_dim ny (NY b) in
    let nz' := default_dim nz (NZ b) in
    0 < nx' <= max_int -> 0 < ny' <= max_int -> 0 < nz' <= max_int ->
    (exists e, read ft (take n (write_file ft b sx sy sz nx ny nz)) 0 0 0 0 0 0 = inl e) \/
    exists vs m,
      read ft (take n (write_file ft b sx sy sz nx ny nz)) 0 0 0 0 0 0
        = inr (mk nx' ny' nz' (TX b) (TY b) (TZ b) (Scale b) vs) /\
      forall k, k ∈ vs <->
        in_grid nx' ny' nz' k /\ shift_key sx sy sz k ∈ white b /\ voxel_index ny' nz' k < m.
  Proof.
    intros Hne nx' ny' nz' Hx Hy Hz.
    pose proof (write_file_nonempty b sx sy sz nx ny nz Hne) as Hw. cbn zeta in Hw.
    fold nx' ny' nz' in Hw. rewrite header_app in Hw.
    set (p := take n (write_file ft b sx sy sz nx ny nz)).
    assert (Hp : p `prefix_of` write_file ft b sx sy sz nx ny nz).
    { exists (drop n (write_file ft b sx sy sz nx ny nz)). symmetry. apply take_drop. }
    rewrite Hw in Hp. unfold read. cbn [Z.ltb Z.compare orb].
    edestruct (read_header_prefix ft (txt "#binvox 1")) as [[e He]|(q & Hq & Hh)].
    5: exact Hp. 1-4: (reflexivity || lia).
    { rewrite He. left. eauto. }
    rewrite Hh. cbn [h_nx h_ny h_nz h_tx h_ty h_tz h_sc].
    set (w := Win _ _ _ _ _ _).
    destruct (read_data nx' ny' nz' w q (Cur 0 0 0, ∅)) as [e|[c vs]] eqn:Ed; [left; eauto|].
    right. destruct (read_data_inr_records _ _ _ _ _ _ _ Ed) as [rq Hrq].
    destruct (encode_records (white b) sx sy sz nx' ny' nz') as (Hr & _ & He).
    pose proof (encode_total (white b) sx sy sz nx' ny' nz' ltac:(lia) ltac:(lia) ltac:(lia)) as Htot.
    set (rs := encode_rle _ _ _ _ _ _ _) in *.
    pose proof (data_records_prefix _ _ _ _ Hrq Hr Hq) as [rest Hrest].
    assert (Hle : rec_total rq <= nx' * ny' * nz').
    { rewrite <- Htot, Hrest, rec_total_app.
      assert (0 <= rec_total rest); [|lia].
      pose proof (data_records_pos _ _ Hr) as Hpos. rewrite Hrest in Hpos.
      apply Forall_app in Hpos as [_ Hpos]. clear -Hpos.
      unfold rec_total. induction Hpos as [|[v c] l Hc _ IH]; cbn [fold_right snd] in *; lia. }
    destruct (read_data_ok nx' ny' nz' w q rq ltac:(lia) ltac:(lia) Hrq Hle) as (c' & vs' & Ed' & Hk).
    rewrite Ed in Ed'. injection Ed' as <- <-.
    exists vs, (rec_total rq). split; [reflexivity|].
    rewrite Hrest, expand_app in He.
    pose proof (data_records_total _ _ Hrq) as Hlen.
    intros k. rewrite Hk. split.
    - intros (j & Hj & -> & _). pose proof (lookup_lt_Some _ _ _ Hj) as Hlt.
      assert (Hj' : map (fun k => bool_decide (k ∈ white b)) (loop_keys sx sy sz nx' ny' nz') !! j
                    = Some true).
      { rewrite <- He. apply lookup_app_l_Some. exact Hj. }
      apply list_lookup_fmap_inv in Hj' as (k' & Hb & Hj').
      rewrite loop_keys_lookup in Hj' by lia. injection Hj' as <-.
      symmetry in Hb. apply bool_decide_eq_true_1 in Hb.
      split; [apply nth_voxel_range; lia|]. split; [exact Hb|].
      rewrite voxel_index_nth by lia. lia.
    - intros (Hg & Hin & Hlt).
      destruct (nth_voxel_index nx' ny' nz' k Hg) as (Hi & Hrange).
      exists (Z.to_nat (voxel_index ny' nz' k)). rewrite Z2Nat.id by lia.
      split; [|split; [symmetry; exact Hi|apply in_windowk_all; (lia || assumption)]].
      assert (Hl : (expand rq ++ expand rest) !! Z.to_nat (voxel_index ny' nz' k) = Some true).
      { rewrite He. change (map ?f ?l) with (f <$> l). rewrite list_lookup_fmap.
        rewrite loop_keys_lookup by lia. rewrite Z2Nat.id by lia. cbn [fmap option_fmap option_map].
        rewrite Hi. rewrite bool_decide_eq_true_2 by exact Hin. reflexivity. }
      rewrite lookup_app_l in Hl by lia. exact Hl.
  Qed.

  (** ** Empty models and faulty writers *)

  Lemma write_empty b sx sy sz nx ny nz : white b = ∅ ->
    write ft b sx sy sz nx ny nz = ([header ft 0 0 0 (TX b) (TY b) (TZ b) (Scale b)], 0).
  Proof. intros H. unfold write. rewrite H, size_empty. reflexivity. Qed.

  Lemma empty_round_trip b sx sy sz nx ny nz : white b = ∅ ->
    read ft (write_file ft b sx sy sz nx ny nz) 0 0 0 0 0 0
    = inr (mk 0 0 0 (TX b) (TY b) (TZ b) (Scale b) ∅).
  Proof.
    intros H. unfold write_file. rewrite write_empty by exact H. cbn [fst concat].
    rewrite read_with_header by (unfold max_int; lia). reflexivity.
  Qed.

  Lemma faulty_ok o2 b sx sy sz nx ny nz file n :
    write_faulty ft WOk o2 b sx sy sz nx ny nz = (file, Some n) ->
    file = write_file ft b sx sy sz nx ny nz /\ n = snd (write ft b sx sy sz nx ny nz).
  Proof.
    unfold write_faulty, write_file, write. case_decide; cbn [fst snd concat put].
    - intros [= <- <-]. rewrite app_nil_r. auto.
    - destruct o2; intros H0; [|discriminate]. injection H0 as <- <-. rewrite app_nil_r. auto.
  Qed.

  Lemma faulty_data m o1 b sx sy sz nx ny nz :
    (exists k, k ∈ white b) ->
    snd (write_faulty ft o1 (WErr m) b sx sy sz nx ny nz) = None.
  Proof.
    intros Hne. unfold write_faulty. rewrite write_nonempty by exact Hne. reflexivity.
  Qed.
End Float.
