(** Proofs about the .binvox codec model. *)
From Verif Require Import Base BaseLemmas BinvoxModel BinvoxSpec.
From Coq Require Import ZArith List Lia Bool String Init.Byte ZifyBool.
From stdpp Require Import base list list_numbers gmap sets fin_sets.
Import ListNotations.
Open Scope Z_scope.
Ltac Zify.zify_post_hook ::= Z.to_euclidean_division_equations.

(** ** The cursor *)

Definition cur_key (c : cursor) : key := (xi c, yi c, zi c).

Definition cur_at (ny nz i : Z) : cursor :=
  Cur (i / (ny * nz)) (i mod ny) ((i / ny) mod nz).

Lemma cur_key_at ny nz i : cur_key (cur_at ny nz i) = nth_voxel ny nz i.
Proof. reflexivity. Qed.

Lemma div_succ_carry n i : 0 < n -> 0 <= i ->
  (i + 1) / n = (if i mod n + 1 =? n then i / n + 1 else i / n) /\
  (i + 1) mod n = (if i mod n + 1 =? n then 0 else i mod n + 1).
Proof.
  intros Hn Hi. pose proof (Z.div_mod i n). pose proof (Z.mod_pos_bound i n Hn).
  destruct (Z.eqb_spec (i mod n + 1) n).
  - split.
    + symmetry. apply (Z.div_unique (i + 1) n (i / n + 1) 0); [left|]; nia.
    + symmetry. apply (Z.mod_unique (i + 1) n (i / n + 1) 0); [left|]; nia.
  - split.
    + symmetry. apply (Z.div_unique (i + 1) n (i / n) (i mod n + 1)); [left|]; nia.
    + symmetry. apply (Z.mod_unique (i + 1) n (i / n) (i mod n + 1)); [left|]; nia.
Qed.

Lemma advance_at ny nz i : 0 < ny -> 0 < nz -> 0 <= i ->
  advance ny nz (cur_at ny nz i) = cur_at ny nz (i + 1).
Proof.
  intros Hy Hz Hi. unfold advance, cur_at. cbn [xi yi zi].
  rewrite <- !Z.div_div by lia.
  destruct (div_succ_carry ny i Hy Hi) as [E1 E2]. rewrite E1, E2.
  pose proof (Z.mod_pos_bound i ny Hy).
  assert (Hq : 0 <= i / ny) by (apply Z.div_pos; lia).
  destruct (Z.eqb_spec (i mod ny + 1) ny) as [Ey|Ey].
  - rewrite Z.geb_leb. destruct (Z.leb_spec ny (i mod ny + 1)); [|lia].
    destruct (div_succ_carry nz (i / ny) Hz Hq) as [E3 E4]. rewrite E3, E4.
    pose proof (Z.mod_pos_bound (i / ny) nz Hz).
    rewrite Z.geb_leb.
    destruct (Z.eqb_spec ((i / ny) mod nz + 1) nz) as [Ez|Ez];
      destruct (Z.leb_spec nz ((i / ny) mod nz + 1)); try lia; reflexivity.
  - rewrite Z.geb_leb. destruct (Z.leb_spec ny (i mod ny + 1)); [lia|]. reflexivity.
Qed.

Lemma nth_voxel_range nx ny nz i : 0 < ny -> 0 < nz -> 0 <= i < nx * ny * nz ->
  in_grid nx ny nz (nth_voxel ny nz i).
Proof.
  intros Hy Hz Hi. unfold in_grid, in_region, nth_voxel, kx, ky, kz. cbn [fst snd].
  pose proof (Z.mod_pos_bound i ny Hy). pose proof (Z.mod_pos_bound (i / ny) nz Hz).
  assert (0 <= i / (ny * nz)) by (apply Z.div_pos; nia).
  assert (i / (ny * nz) < nx) by (apply Z.div_lt_upper_bound; nia).
  lia.
Qed.

Lemma voxel_index_nth ny nz i : 0 < ny -> 0 < nz -> 0 <= i ->
  voxel_index ny nz (nth_voxel ny nz i) = i.
Proof.
  intros Hy Hz Hi. unfold voxel_index, nth_voxel, kx, ky, kz. cbn [fst snd].
  rewrite <- Z.div_div by lia.
  pose proof (Z.div_mod i ny). pose proof (Z.div_mod (i / ny) nz). nia.
Qed.

Lemma nth_voxel_index nx ny nz k : in_grid nx ny nz k ->
  nth_voxel ny nz (voxel_index ny nz k) = k /\ 0 <= voxel_index ny nz k < nx * ny * nz.
Proof.
  destruct k as [[x y] z]. unfold in_grid, in_region, voxel_index, nth_voxel, kx, ky, kz. cbn [fst snd].
  intros (Hx & Hy & Hz).
  assert (E1 : ((x * nz + z) * ny + y) / ny = x * nz + z).
  { symmetry. apply (Z.div_unique _ ny _ y); [left; lia|lia]. }
  assert (E2 : ((x * nz + z) * ny + y) mod ny = y).
  { symmetry. apply (Z.mod_unique _ ny (x * nz + z) y); [left; lia|lia]. }
  assert (E3 : (x * nz + z) / nz = x).
  { symmetry. apply (Z.div_unique _ nz _ z); [left; lia|lia]. }
  assert (E4 : (x * nz + z) mod nz = z).
  { symmetry. apply (Z.mod_unique _ nz x z); [left; lia|lia]. }
  split.
  - rewrite <- Z.div_div by lia. rewrite E1, E2, E3, E4. reflexivity.
  - split; [nia|].
    assert (x * nz + z <= nx * nz - 1) by nia. nia.
Qed.

Lemma cur_at_x_lt nx ny nz i : 0 < ny -> 0 < nz -> 0 <= i ->
  (xi (cur_at ny nz i) >=? nx) = negb (i <? nx * ny * nz).
Proof.
  intros Hy Hz Hi. cbn [xi cur_at].
  rewrite Z.geb_leb.
  destruct (Z.leb_spec nx (i / (ny * nz))), (Z.ltb_spec i (nx * ny * nz)); try reflexivity; exfalso.
  - pose proof (Z.mul_div_le i (ny * nz)). nia.
  - assert (i / (ny * nz) >= nx); [|lia].
    apply Z.le_ge. apply Z.div_le_lower_bound; nia.
Qed.

(** ** Bit-by-bit reading *)

Fixpoint read_bits (nx ny nz : Z) (w : window) (bs : list bool) (st : cursor * gset key)
  : option (cursor * gset key) :=
  match bs with
  | [] => Some st
  | v :: bs' =>
      let '(c, vs) := st in
      if xi c >=? nx then None
      else read_bits nx ny nz w bs'
             (advance ny nz c, if v && in_window w c then {[cur_key c]} ∪ vs else vs)
  end.

Lemma read_run_bits nx ny nz w v n st :
  read_run nx ny nz w v n st = read_bits nx ny nz w (repeat v n) st.
Proof.
  revert st. induction n as [|n IH]; intros [c vs]; [reflexivity|].
  cbn [read_run repeat read_bits]. destruct (xi c >=? nx); [reflexivity|]. apply IH.
Qed.

Lemma read_bits_app nx ny nz w bs1 bs2 st :
  read_bits nx ny nz w (bs1 ++ bs2) st =
  match read_bits nx ny nz w bs1 st with
  | None => None
  | Some st' => read_bits nx ny nz w bs2 st'
  end.
Proof.
  revert st. induction bs1 as [|v bs1 IH]; intros [c vs]; [reflexivity|].
  cbn [app read_bits]. destruct (xi c >=? nx); [reflexivity|]. apply IH.
Qed.

Definition bit_of (b : bool) : Z := if b then 1 else 0.

Lemma read_data_records nx ny nz w data recs st :
  data_records data recs ->
  read_data nx ny nz w data st =
  match read_bits nx ny nz w (expand recs) st with
  | None => inl EOverrun
  | Some st' => inr st'
  end.
Proof.
  intros H. revert st. induction H as [|v c rest b recs Hv Hc _ IH]; intros st; [reflexivity|].
  cbn [read_data]. rewrite Hv.
  replace (negb (((if b then 1 else 0) =? 0) || ((if b then 1 else 0) =? 1))) with false
    by (destruct b; reflexivity).
  destruct (Z.eqb_spec (b2z c) 0); [lia|].
  rewrite read_run_bits.
  replace ((if b then 1 else 0) =? 1) with b by (destruct b; reflexivity).
  unfold expand. cbn [map concat fst snd]. rewrite read_bits_app.
  destruct (read_bits nx ny nz w (repeat b (Z.to_nat (b2z c))) st) as [st'|]; [|reflexivity].
  apply IH.
Qed.

Lemma read_data_inr_records_aux nx ny nz w n data st st' :
  (length data <= n)%nat ->
  read_data nx ny nz w data st = inr st' -> exists recs, data_records data recs.
Proof.
  revert data st. induction n as [|n IH]; intros data st Hlen H.
  - destruct data; [|cbn in Hlen; lia]. eexists; constructor.
  - destruct data as [|v [|c rest]].
    + eexists; constructor.
    + cbn [read_data] in H. destruct (negb _); discriminate.
    + cbn [read_data] in H.
      destruct (negb ((b2z v =? 0) || (b2z v =? 1))) eqn:Ev; [discriminate|].
      destruct (Z.eqb_spec (b2z c) 0); [discriminate|].
      destruct (read_run _ _ _ _ _ _ _) as [st1|]; [|discriminate].
      destruct (IH rest st1) as [recs Hr]; [cbn in Hlen; lia|exact H|].
      exists ((b2z v =? 1, b2z c) :: recs). constructor; [| |exact Hr].
      * destruct (Z.eqb_spec (b2z v) 1); [assumption|].
        destruct (Z.eqb_spec (b2z v) 0); [assumption|discriminate].
      * pose proof (b2z_range c). lia.
Qed.

Lemma read_data_inr_records nx ny nz w data st st' :
  read_data nx ny nz w data st = inr st' -> exists recs, data_records data recs.
Proof. eapply read_data_inr_records_aux, Nat.le_refl. Qed.

Lemma expand_length recs : Forall (fun r => 0 <= snd r) recs -> Z.of_nat (length (expand recs)) = rec_total recs.
Proof.
  induction 1 as [|[v c] recs Hc _ IH]; [reflexivity|].
  unfold expand in *. cbn [map concat rec_total fold_right fst snd] in *.
  rewrite app_length, repeat_length, Nat2Z.inj_add, Z2Nat.id by lia.
  fold (rec_total recs). lia.
Qed.

Lemma data_records_pos data recs : data_records data recs -> Forall (fun r => 1 <= snd r <= 255) recs.
Proof.
  induction 1; constructor; [|assumption]. cbn. pose proof (b2z_range c). lia.
Qed.

Lemma data_records_total data recs :
  data_records data recs -> Z.of_nat (length (expand recs)) = rec_total recs.
Proof.
  intros H. apply expand_length. eapply Forall_impl; [apply (data_records_pos _ _ H)|].
  cbn. lia.
Qed.

(** Window membership on keys. *)
Definition in_windowk (w : window) (k : key) : Prop :=
  w_sx w <= kx k <= w_sx w + w_cx w /\ w_sy w <= ky k <= w_sy w + w_cy w
  /\ w_sz w <= kz k <= w_sz w + w_cz w.

Lemma in_window_key w c : in_window w c = true <-> in_windowk w (cur_key c).
Proof. unfold in_window, in_windowk, cur_key, kx, ky, kz. cbn [fst snd]. lia. Qed.

Lemma read_bits_spec nx ny nz w bs i vs :
  0 < ny -> 0 < nz -> 0 <= i -> i + Z.of_nat (length bs) <= nx * ny * nz ->
  exists vs',
    read_bits nx ny nz w bs (cur_at ny nz i, vs)
      = Some (cur_at ny nz (i + Z.of_nat (length bs)), vs') /\
    forall k, k ∈ vs' <->
      k ∈ vs \/ exists j, bs !! j = Some true /\ k = nth_voxel ny nz (i + Z.of_nat j) /\ in_windowk w k.
Proof.
  intros Hy Hz. revert i vs. induction bs as [|v bs IH]; intros i vs Hi Hlen.
  - exists vs. cbn [read_bits length]. rewrite Z.add_0_r. split; [reflexivity|].
    intros k. split; [auto|]. intros [H|(j & H & _)]; [exact H|discriminate].
  - cbn [length] in Hlen. cbn [read_bits].
    rewrite cur_at_x_lt by lia.
    destruct (Z.ltb_spec i (nx * ny * nz)); [|lia]. cbn [negb].
    rewrite advance_at by lia.
    edestruct (IH (i + 1)) as (vs' & Hr & Hk); [lia|lia|].
    exists vs'. split.
    + rewrite Hr. do 3 f_equal. cbn [length]. lia.
    + intros k. rewrite Hk. clear Hk Hr IH. split.
      * intros [Hin|(j & Hj & -> & Hw)].
        -- destruct (v && in_window w (cur_at ny nz i)) eqn:E.
           ++ apply andb_true_iff in E as [-> E]. apply in_window_key in E.
              apply elem_of_union in Hin as [Hin%elem_of_singleton|Hin]; [|auto].
              right. exists 0%nat. subst k. rewrite cur_key_at in E |- *.
              rewrite Z.add_0_r. auto.
           ++ auto.
        -- right. exists (S j). cbn [lookup list_lookup]. split; [exact Hj|].
           split; [|exact Hw]. f_equal. lia.
      * intros [Hin|(j & Hj & -> & Hw)].
        -- left. destruct (v && _); [|exact Hin]. apply elem_of_union_r, Hin.
        -- destruct j as [|j].
           ++ cbn in Hj. injection Hj as ->. rewrite Z.add_0_r in *.
              left. rewrite <- cur_key_at in Hw |- *.
              apply in_window_key in Hw as Hw'. rewrite Hw'. cbn [andb].
              apply elem_of_union_l, elem_of_singleton. reflexivity.
           ++ right. exists j. split; [exact Hj|]. split; [|exact Hw]. f_equal. lia.
Qed.

Lemma read_bits_overrun nx ny nz w bs i vs :
  0 < ny -> 0 < nz -> 0 <= i -> nx * ny * nz < i + Z.of_nat (length bs) ->
  bs <> [] -> read_bits nx ny nz w bs (cur_at ny nz i, vs) = None.
Proof.
  intros Hy Hz. revert i vs. induction bs as [|v bs IH]; intros i vs Hi Hlen Hne; [congruence|].
  cbn [read_bits]. rewrite cur_at_x_lt by lia.
  destruct (Z.ltb_spec i (nx * ny * nz)); [|reflexivity]. cbn [negb].
  rewrite advance_at by lia. cbn [length] in Hlen. apply IH; [lia|lia|].
  intros ->. cbn in Hlen. lia.
Qed.

(** ** The encoder *)

Lemma seqZ_length s n : length (seqZ s n) = Z.to_nat n.
Proof. apply seqZ_length. Qed.

Lemma bind_const_length {A B} (xs : list A) (f : A -> list B) L :
  (forall x, length (f x) = L) -> length (xs ≫= f) = (length xs * L)%nat.
Proof.
  intros Hf. induction xs as [|x xs IH]; [reflexivity|].
  rewrite bind_cons, app_length, Hf, IH. reflexivity.
Qed.

Lemma bind_const_lookup {A B} (xs : list A) (f : A -> list B) L i :
  (forall x, length (f x) = L) -> (0 < L)%nat ->
  (xs ≫= f) !! i = (x ← xs !! (i / L)%nat; f x !! (i mod L)%nat).
Proof.
  intros Hf HL. revert i. induction xs as [|x xs IH]; intros i; [reflexivity|].
  rewrite bind_cons. destruct (decide (i < L)%nat) as [Hi|Hi].
  - rewrite lookup_app_l by (rewrite Hf; exact Hi).
    rewrite Nat.div_small, Nat.mod_small by exact Hi. reflexivity.
  - rewrite lookup_app_r by (rewrite Hf; lia). rewrite Hf, IH.
    assert (E1 : (i / L = S ((i - L) / L))%nat).
    { replace i with (i - L + 1 * L)%nat at 1 by lia. rewrite Nat.div_add by lia. lia. }
    assert (E2 : (i mod L = (i - L) mod L)%nat).
    { replace i with (i - L + 1 * L)%nat at 1 by lia. apply Nat.mod_add. lia. }
    rewrite E1, E2. reflexivity.
Qed.

Definition to_bool (v : Z) : bool := v =? 1.

Lemma loop_keys_length sx sy sz nx ny nz :
  0 <= nx -> 0 <= ny -> 0 <= nz ->
  Z.of_nat (length (loop_keys sx sy sz nx ny nz)) = nx * ny * nz.
Proof.
  intros. unfold loop_keys.
  rewrite (bind_const_length _ _ (Z.to_nat nz * (Z.to_nat ny * 1))%nat).
  - rewrite seqZ_length. nia.
  - intros x. rewrite (bind_const_length _ _ (Z.to_nat ny * 1)%nat).
    + rewrite seqZ_length. reflexivity.
    + intros z. rewrite (bind_const_length _ _ 1%nat) by reflexivity.
      rewrite seqZ_length. reflexivity.
Qed.

Lemma loop_keys_lookup sx sy sz nx ny nz (i : nat) :
  0 < ny -> 0 < nz -> Z.of_nat i < nx * ny * nz ->
  loop_keys sx sy sz nx ny nz !! i = Some (shift_key sx sy sz (nth_voxel ny nz (Z.of_nat i))).
Proof.
  intros Hy Hz Hi. unfold loop_keys.
  set (Ly := Z.to_nat ny). set (Lz := Z.to_nat nz).
  assert (H1 : forall x z : Z, length (seqZ sy ny ≫= (fun yi => [(x, yi, z)])) = Ly).
  { intros x z. rewrite (bind_const_length _ _ 1%nat) by reflexivity. rewrite seqZ_length. lia. }
  assert (H2 : forall x : Z, length (seqZ sz nz ≫= (fun z => seqZ sy ny ≫= (fun yi => [(x, yi, z)]))) = (Lz * Ly)%nat).
  { intros x. rewrite (bind_const_length _ _ Ly) by (intros; apply H1). rewrite seqZ_length. reflexivity. }
  rewrite (bind_const_lookup _ _ (Lz * Ly)%nat) by (first [apply H2 | lia]).
  pose proof (nth_voxel_range nx ny nz (Z.of_nat i) Hy Hz) as Hr.
  unfold in_grid, in_region, nth_voxel, kx, ky, kz in Hr. cbn [fst snd] in Hr.
  destruct Hr as (Hrx & Hry & Hrz); [lia|].
  assert (E1 : Z.of_nat (i / (Lz * Ly)) = Z.of_nat i / (ny * nz)).
  { rewrite Nat2Z.inj_div, Nat2Z.inj_mul. subst Ly Lz. rewrite !Z2Nat.id by lia. f_equal; lia. }
  rewrite lookup_seqZ_lt by lia. cbn [mbind option_bind].
  rewrite (bind_const_lookup _ _ Ly) by (first [apply H1 | lia]).
  assert (E2 : Z.of_nat (i mod (Lz * Ly) / Ly) = (Z.of_nat i / ny) mod nz).
  { rewrite Nat2Z.inj_div, Nat2Z.inj_mod, Nat2Z.inj_mul. subst Ly Lz. rewrite !Z2Nat.id by lia.
    rewrite (Z.mul_comm nz ny). rewrite Z.rem_mul_r by lia.
    rewrite Z.mul_comm, Z.div_add by lia.
    rewrite (Z.div_small (Z.of_nat i mod ny) ny) by (apply Z.mod_pos_bound; lia). reflexivity. }
  rewrite lookup_seqZ_lt by lia. cbn [mbind option_bind].
  rewrite (bind_const_lookup _ _ 1%nat) by (first [reflexivity | lia]).
  assert (E3 : Z.of_nat (i mod (Lz * Ly) mod Ly) = Z.of_nat i mod ny).
  { rewrite !Nat2Z.inj_mod, Nat2Z.inj_mul. subst Ly Lz. rewrite !Z2Nat.id by lia.
    rewrite (Z.mul_comm nz ny). rewrite Z.rem_mul_r by lia.
    rewrite Z.mul_comm, Z.mod_add by lia. apply Z.mod_mod. lia. }
  rewrite Nat.div_1_r, Nat.mod_1_r.
  rewrite lookup_seqZ_lt by lia. cbn [mbind option_bind lookup list_lookup].
  unfold shift_key, nth_voxel, kx, ky, kz. cbn [fst snd].
  rewrite E1, E2, E3. rewrite (Z.add_comm sx), (Z.add_comm sy), (Z.add_comm sz). reflexivity.
Qed.

Notation rle := (Z * Z)%type.
Definition expand_z (rs : list rle) : list Z :=
  concat (map (fun r => repeat (fst r) (Z.to_nat (snd r))) rs).

Lemma repeat_snoc {A} (x : A) n l : repeat x n ++ x :: l = repeat x (S n) ++ l.
Proof. induction n as [|n IH]; [reflexivity|]. cbn [repeat app]. rewrite IH. reflexivity. Qed.

Lemma enc_loop_expand lookup ks e :
  0 <= e_count e ->
  expand_z (enc_loop lookup ks e)
  = repeat (e_value e) (Z.to_nat (e_count e)) ++ map (voxel_value lookup) ks.
Proof.
  revert e. induction ks as [|k ks IH]; intros [v c] Hc; cbn [e_value e_count] in *.
  - cbn [enc_loop map e_value e_count]. destruct (Z.ltb_spec 0 c).
    + unfold expand_z. cbn [map concat fst snd]. reflexivity.
    + replace c with 0 by lia. reflexivity.
  - cbn [enc_loop map]. unfold enc_step. cbn [e_value e_count].
    destruct (Z.eqb_spec (voxel_value lookup k) v) as [E|E]; cbn [negb].
    + rewrite IH by (cbn; lia). cbn [e_value e_count]. rewrite E, repeat_snoc.
      do 2 f_equal. lia.
    + destruct (Z.ltb_spec 0 c).
      * unfold expand_z in *. cbn [map concat fst snd]. rewrite IH by (cbn; lia). reflexivity.
      * rewrite IH by (cbn; lia). replace c with 0 by lia. reflexivity.
Qed.

(** Runs sent are positive, have values 0/1 and alternate. *)
Fixpoint alternating (rs : list rle) : Prop :=
  match rs with
  | (v1, _) :: (((v2, _) :: _) as rest) => v1 <> v2 /\ alternating rest
  | _ => True
  end.

Lemma voxel_value_01 lookup k : voxel_value lookup k = 0 \/ voxel_value lookup k = 1.
Proof. unfold voxel_value. case_decide; auto. Qed.

Lemma enc_loop_runs lookup ks e :
  0 <= e_count e -> (e_value e = 0 \/ e_value e = 1) ->
  Forall (fun r => (fst r = 0 \/ fst r = 1) /\ 0 < snd r) (enc_loop lookup ks e) /\
  alternating (enc_loop lookup ks e) /\
  (0 < e_count e -> exists c rest, enc_loop lookup ks e = (e_value e, c) :: rest).
Proof.
  revert e. induction ks as [|k ks IH]; intros [v c] Hc Hv; cbn [e_value e_count] in *.
  - cbn [enc_loop e_value e_count]. destruct (Z.ltb_spec 0 c); repeat split; auto; try lia.
    intros _. eauto.
  - cbn [enc_loop]. unfold enc_step. cbn [e_value e_count].
    destruct (Z.eqb_spec (voxel_value lookup k) v) as [E|E]; cbn [negb].
    + destruct (IH (Enc v (c + 1))) as (H1 & H2 & H3); [cbn; lia|exact Hv|].
      split; [exact H1|]. split; [exact H2|]. intros _. apply H3. cbn. lia.
    + destruct (IH (Enc (voxel_value lookup k) 1)) as (H1 & H2 & H3);
        [cbn; lia|apply voxel_value_01|].
      cbn [e_value e_count] in *.
      destruct (H3 ltac:(lia)) as (c' & rest & Hrest).
      destruct (Z.ltb_spec 0 c).
      * split; [constructor; [cbn; auto|exact H1]|]. split.
        -- rewrite Hrest in *. cbn [alternating]. split; [congruence|exact H2].
        -- intros _. eauto.
      * split; [exact H1|]. split; [exact H2|]. lia.
Qed.

(** ** From runs to records *)

Definition run_records (r : rle) : list (bool * Z) :=
  let '(v, c) := r in
  repeat (to_bool v, 255) (Z.to_nat (c / 255))
    ++ (if 0 <? c mod 255 then [(to_bool v, c mod 255)] else []).

Lemma data_records_app d1 r1 d2 r2 :
  data_records d1 r1 -> data_records d2 r2 -> data_records (d1 ++ d2) (r1 ++ r2).
Proof. induction 1; intros; cbn [app]; [assumption|]. constructor; auto. Qed.

Lemma b2z_bit v : v = 0 \/ v = 1 -> b2z (z2b v) = (if to_bool v then 1 else 0).
Proof. intros [->| ->]; reflexivity. Qed.

Lemma run_bytes_records r :
  (fst r = 0 \/ fst r = 1) -> 0 < snd r -> data_records (run_bytes r) (run_records r).
Proof.
  destruct r as [v c]. cbn [fst snd]. intros Hv Hc. unfold run_bytes, run_records.
  apply data_records_app.
  - replace (if 0 <? c / 255 then concat (repeat [z2b v; xff] (Z.to_nat (c / 255))) else [])
      with (concat (repeat [z2b v; xff] (Z.to_nat (c / 255)))).
    2:{ destruct (Z.ltb_spec 0 (c / 255)); [reflexivity|].
        replace (Z.to_nat (c / 255)) with 0%nat by lia. reflexivity. }
    induction (Z.to_nat (c / 255)) as [|n IH]; cbn [repeat concat app]; [constructor|].
    change 255 with (b2z xff) at 1. constructor; [apply b2z_bit, Hv|cbn; lia|exact IH].
  - destruct (Z.ltb_spec 0 (c mod 255)); [|constructor].
    replace (c mod 255) with (b2z (z2b (c mod 255))) at 2
      by (rewrite b2z_z2b; apply Z.mod_small; lia).
    constructor; [apply b2z_bit, Hv| |constructor].
    rewrite b2z_z2b, Z.mod_small; lia.
Qed.

Lemma expand_app r1 r2 : expand (r1 ++ r2) = expand r1 ++ expand r2.
Proof. unfold expand. rewrite map_app, concat_app. reflexivity. Qed.

Lemma run_records_expand r : 0 < snd r ->
  expand (run_records r) = repeat (to_bool (fst r)) (Z.to_nat (snd r)).
Proof.
  destruct r as [v c]. cbn [fst snd]. intros Hc. unfold run_records. rewrite expand_app.
  assert (E1 : forall n, expand (repeat (to_bool v, 255) n) = repeat (to_bool v) (n * 255)).
  { induction n as [|n IH]; [reflexivity|].
    change (repeat (to_bool v, 255) (S n)) with ([(to_bool v, 255)] ++ repeat (to_bool v, 255) n).
    rewrite expand_app, IH. change (expand [(to_bool v, 255)]) with (repeat (to_bool v) 255 ++ []).
    rewrite app_nil_r, <- repeat_app. reflexivity. }
  rewrite E1.
  assert (E2 : expand (if 0 <? c mod 255 then [(to_bool v, c mod 255)] else [])
               = repeat (to_bool v) (Z.to_nat (c mod 255))).
  { destruct (Z.ltb_spec 0 (c mod 255)).
    - unfold expand. cbn [map concat fst snd]. apply app_nil_r.
    - replace (c mod 255) with 0 by lia. reflexivity. }
  rewrite E2, <- repeat_app. f_equal. lia.
Qed.

Definition runs_records (rs : list rle) : list (bool * Z) := concat (map run_records rs).

Lemma runs_bytes_records rs :
  Forall (fun r => (fst r = 0 \/ fst r = 1) /\ 0 < snd r) rs ->
  data_records (concat (map run_bytes rs)) (runs_records rs).
Proof.
  unfold runs_records. induction 1 as [|r rs [Hv Hc] _ IH]; cbn [map concat]; [constructor|].
  apply data_records_app; [|exact IH]. apply run_bytes_records; assumption.
Qed.

Lemma runs_records_expand rs :
  Forall (fun r => (fst r = 0 \/ fst r = 1) /\ 0 < snd r) rs ->
  expand (runs_records rs) = map to_bool (expand_z rs).
Proof.
  unfold runs_records, expand_z. induction 1 as [|r rs [Hv Hc] _ IH]; cbn [map concat]; [reflexivity|].
  rewrite expand_app, IH, run_records_expand by exact Hc. rewrite map_app. f_equal.
  generalize (Z.to_nat (snd r)). intros n. induction n as [|n IHn]; [reflexivity|].
  cbn [repeat map]. rewrite IHn. reflexivity.
Qed.

Lemma canonical_app_repeat v n rest :
  canonical rest -> (forall v' c' rest', rest = (v', c') :: rest' -> True) ->
  canonical (repeat (v, 255) n ++ rest).
Proof.
  intros Hr _. induction n as [|n IH]; [exact Hr|]. cbn [repeat app].
  cbn [canonical]. destruct (repeat (v, 255) n ++ rest) as [|[v2 c2] l]; [exact I|].
  split; [auto|exact IH].
Qed.

Lemma run_records_head v c : 0 < c -> exists c' rest, run_records (v, c) = (to_bool v, c') :: rest.
Proof.
  intros Hc. unfold run_records. destruct (Z.to_nat (c / 255)) eqn:E.
  - destruct (Z.ltb_spec 0 (c mod 255)); [cbn; eauto|lia].
  - cbn [repeat app]. eauto.
Qed.

Lemma runs_records_canonical rs :
  Forall (fun r => (fst r = 0 \/ fst r = 1) /\ 0 < snd r) rs -> alternating rs ->
  canonical (runs_records rs).
Proof.
  unfold runs_records.
  induction 1 as [|[v c] rs [Hv Hc] Hrs IH]; intros Halt; cbn [map concat]; [exact I|].
  cbn [fst snd] in *.
  assert (Halt' : alternating rs) by (destruct rs as [|[]]; [exact I|apply Halt]).
  specialize (IH Halt').
  unfold run_records at 1. rewrite <- app_assoc. apply canonical_app_repeat; [|auto].
  destruct (Z.ltb_spec 0 (c mod 255)); [|exact IH].
  cbn [app canonical].
  destruct rs as [|[v2 c2] rs]; cbn [map concat]; [exact I|].
  inversion Hrs as [|? ? [Hv2 Hc2] _]; subst. cbn [fst snd] in *.
  destruct (run_records_head v2 c2 Hc2) as (c' & rest & Hrec).
  cbn [map concat] in IH. rewrite Hrec in IH |- *. cbn [app] in *.
  split; [|exact IH]. intros Heq. exfalso.
  cbn in Halt. unfold to_bool in Heq. destruct Halt as [Hne _].
  destruct Hv as [->| ->], Hv2 as [->| ->]; try discriminate; congruence.
Qed.

(** ** Headers *)

Section WithFloat.
  Context {F : Type} (ft : FloatText F).

  Lemma no_nl_int n : no_nl (show_int n) = true.
  Proof.
    unfold show_int. destruct (Z.ltb_spec n 0).
    - change (x2d :: show_nat (- n)) with ([x2d] ++ show_nat (- n)).
      rewrite no_nl_app. rewrite (digit_not_nl (show_nat (-n))); [reflexivity|].
      apply show_nat_digits; lia.
    - apply digit_not_nl, show_nat_digits; lia.
  Qed.

  Lemma no_nl_float x : no_nl (fmtG ft x) = true.
  Proof. apply not_space_not_nl, fmt_token. Qed.

  Lemma read_line_at a b : no_nl a = true -> read_line (a ++ [x0a] ++ b) = Some (a ++ [x0a], b).
  Proof. apply read_line_app. Qed.

  (** The lines of a header. *)
  Definition dim_line nx ny nz : list byte :=
    txt "dim " ++ show_int nx ++ [x20] ++ show_int ny ++ [x20] ++ show_int nz.
  Definition translate_line tx ty tz : list byte :=
    txt "translate " ++ fmtG ft tx ++ [x20] ++ fmtG ft ty ++ [x20] ++ fmtG ft tz.
  Definition scale_line sc : list byte := txt "scale " ++ fmtG ft sc.

  Lemma header_lines nx ny nz tx ty tz sc :
    header ft nx ny nz tx ty tz sc =
    txt "#binvox 1" ++ [x0a] ++ dim_line nx ny nz ++ [x0a] ++ translate_line tx ty tz ++ [x0a]
    ++ scale_line sc ++ [x0a] ++ txt "data" ++ [x0a].
  Proof.
    unfold header, dim_line, translate_line, scale_line. repeat rewrite <- app_assoc. reflexivity.
  Qed.

  Lemma no_nl_dim_line nx ny nz : no_nl (dim_line nx ny nz) = true.
  Proof. unfold dim_line. rewrite !no_nl_app, !no_nl_int. reflexivity. Qed.
  Lemma no_nl_translate_line tx ty tz : no_nl (translate_line tx ty tz) = true.
  Proof. unfold translate_line. rewrite !no_nl_app, !no_nl_float. reflexivity. Qed.
  Lemma no_nl_scale_line sc : no_nl (scale_line sc) = true.
  Proof. unfold scale_line. rewrite !no_nl_app, !no_nl_float. reflexivity. Qed.

  Lemma match_dim_line nx ny nz :
    0 <= nx -> 0 <= ny -> 0 <= nz ->
    match3 (txt "dim ") is_digit (dim_line nx ny nz ++ [x0a])
    = Some (show_int nx, show_int ny, show_int nz).
  Proof.
    intros. unfold dim_line. repeat rewrite <- app_assoc.
    apply match3_app; try reflexivity; rewrite !show_int_nonneg by lia;
      (apply show_nat_nonempty || apply show_nat_digits); lia.
  Qed.

  Lemma match_translate_line tx ty tz :
    match3 (txt "translate ") not_space (translate_line tx ty tz ++ [x0a])
    = Some (fmtG ft tx, fmtG ft ty, fmtG ft tz).
  Proof.
    intros. unfold translate_line. repeat rewrite <- app_assoc.
    apply match3_app; try reflexivity; apply fmt_token.
  Qed.

  Lemma match_scale_line sc :
    match1 (txt "scale ") not_space (scale_line sc ++ [x0a]) = Some (fmtG ft sc).
  Proof.
    intros. unfold scale_line. repeat rewrite <- app_assoc.
    apply match1_app; try reflexivity; apply fmt_token.
  Qed.

  Lemma read_header_ok magic nx ny nz tx ty tz sc sx sy sz data :
    0 <= nx <= max_int -> 0 <= ny <= max_int -> 0 <= nz <= max_int ->
    no_nl magic = true -> sx <= nx -> sy <= ny -> sz <= nz ->
    read_header ft (magic ++ [x0a]) sx sy sz
      (magic ++ [x0a] ++ dim_line nx ny nz ++ [x0a] ++ translate_line tx ty tz ++ [x0a]
       ++ scale_line sc ++ [x0a] ++ txt "data" ++ [x0a] ++ data)
    = inr (Hdr nx ny nz tx ty tz sc, data).
  Proof.
    intros Hx Hy Hz Hm Hsx Hsy Hsz. unfold read_header.
    rewrite read_line_at by exact Hm.
    rewrite bool_decide_eq_true_2 by reflexivity. cbn [negb].
    rewrite read_line_at by apply no_nl_dim_line.
    rewrite match_dim_line by lia. rewrite !atoi_show by lia.
    replace ((sx >? nx) || (sy >? ny) || (sz >? nz)) with false by lia.
    rewrite read_line_at by apply no_nl_translate_line.
    rewrite match_translate_line, !parse_fmt.
    rewrite read_line_at by apply no_nl_scale_line.
    rewrite match_scale_line, parse_fmt.
    rewrite read_line_at by reflexivity.
    rewrite bool_decide_eq_true_2 by reflexivity. reflexivity.
  Qed.

  Lemma read_header_start magic nx ny nz rest sx sy sz :
    0 <= nx <= max_int -> 0 <= ny <= max_int -> 0 <= nz <= max_int ->
    no_nl magic = true -> ~ (sx <= nx /\ sy <= ny /\ sz <= nz) ->
    read_header ft (magic ++ [x0a]) sx sy sz
      (magic ++ [x0a] ++ dim_line nx ny nz ++ [x0a] ++ rest)
    = inl EStart.
  Proof.
    intros Hx Hy Hz Hm Hs. unfold read_header.
    rewrite read_line_at by exact Hm.
    rewrite bool_decide_eq_true_2 by reflexivity. cbn [negb].
    rewrite read_line_at by apply no_nl_dim_line.
    rewrite match_dim_line by lia. rewrite !atoi_show by lia.
    replace ((sx >? nx) || (sy >? ny) || (sz >? nz)) with true by lia. reflexivity.
  Qed.

  (** Any strict prefix of a header is an error. *)
  Lemma prefix_cases (a b p : list byte) : p `prefix_of` (a ++ b) ->
    (p `prefix_of` a) \/ exists q, p = a ++ q /\ q `prefix_of` b.
  Proof.
    revert p. induction a as [|x a IH]; intros p Hp.
    - right. exists p. auto.
    - destruct p as [|y p]; [left; apply prefix_nil|].
      cbn [app] in Hp.
      destruct Hp as [r Hr]. injection Hr as <- Hr.
      destruct (IH p) as [H|(q & -> & Hq)].
      + exists r. exact Hr.
      + left. apply prefix_cons, H.
      + right. exists q. auto.
  Qed.

  Lemma prefix_no_nl (a p : list byte) : p `prefix_of` a -> no_nl a = true -> no_nl p = true.
  Proof. intros [r ->] H. rewrite no_nl_app in H. apply andb_true_iff in H. tauto. Qed.

  Lemma prefix_line (a b p : list byte) : no_nl a = true -> p `prefix_of` (a ++ [x0a] ++ b) ->
    read_line p = None \/ exists q, p = a ++ [x0a] ++ q /\ q `prefix_of` b.
  Proof.
    intros Ha Hp. rewrite app_assoc in Hp. apply prefix_cases in Hp as [Hp|(q & -> & Hq)].
    - apply prefix_cases in Hp as [Hp|(q & -> & Hq)].
      + left. apply read_line_None. eapply prefix_no_nl; eauto.
      + destruct q as [|y q].
        * left. apply read_line_None. rewrite app_nil_r. exact Ha.
        * right. destruct Hq as [r Hr]. injection Hr as <- Hr.
          symmetry in Hr. apply app_eq_nil in Hr as [-> ->].
          exists []. split; [reflexivity|apply prefix_nil].
    - right. exists q. rewrite <- app_assoc. auto.
  Qed.

  Lemma read_header_prefix magic nx ny nz tx ty tz sc sx sy sz data p :
    0 <= nx <= max_int -> 0 <= ny <= max_int -> 0 <= nz <= max_int ->
    no_nl magic = true ->
    p `prefix_of`
      (magic ++ [x0a] ++ dim_line nx ny nz ++ [x0a] ++ translate_line tx ty tz ++ [x0a]
       ++ scale_line sc ++ [x0a] ++ txt "data" ++ [x0a] ++ data) ->
    (exists e, read_header ft (magic ++ [x0a]) sx sy sz p = inl e) \/
    (exists q, q `prefix_of` data /\
       read_header ft (magic ++ [x0a]) sx sy sz p = inr (Hdr nx ny nz tx ty tz sc, q)).
  Proof.
    intros Hx Hy Hz Hm Hp. unfold read_header.
    apply prefix_line in Hp as [->|(p1 & -> & Hp)]; [eauto| |exact Hm].
    rewrite read_line_at by exact Hm.
    rewrite bool_decide_eq_true_2 by reflexivity. cbn [negb].
    apply prefix_line in Hp as [->|(p2 & -> & Hp)]; [eauto| |apply no_nl_dim_line].
    rewrite read_line_at by apply no_nl_dim_line.
    rewrite match_dim_line by lia. rewrite !atoi_show by lia.
    destruct ((sx >? nx) || (sy >? ny) || (sz >? nz)); [eauto|].
    apply prefix_line in Hp as [->|(p3 & -> & Hp)]; [eauto| |apply no_nl_translate_line].
    rewrite read_line_at by apply no_nl_translate_line.
    rewrite match_translate_line, !parse_fmt.
    apply prefix_line in Hp as [->|(p4 & -> & Hp)]; [eauto| |apply no_nl_scale_line].
    rewrite read_line_at by apply no_nl_scale_line.
    rewrite match_scale_line, parse_fmt.
    apply prefix_line in Hp as [->|(p5 & -> & Hp)]; [eauto| |reflexivity].
    rewrite read_line_at by reflexivity.
    rewrite bool_decide_eq_true_2 by reflexivity. right. eauto.
  Qed.
End WithFloat.
