(** Lemmas about the .vshell codec. *)
From Verif Require Import Base BaseLemmas BinvoxModel BinvoxSpec BinvoxLemmas BinvoxProofs
  VshellModel VshellMerge VshellCodec VshellCodecSpec.
From Coq Require Import ZArith List Lia Bool String Init.Byte ZifyBool.
From stdpp Require Import base list list_numbers gmap sets fin_sets.
Import ListNotations.
Open Scope Z_scope.
Ltac Zify.zify_post_hook ::= Z.to_euclidean_division_equations.

(** ** Numbers as bytes *)

Lemma special_blank v : special v = true <-> blank v.
Proof. unfold special, blank. lia. Qed.
Lemma special_not_blank v : special v = false <-> ~ blank v.
Proof. unfold special, blank. lia. Qed.

Lemma land_255 x : Z.land x 255 = x mod 256.
Proof. change 255 with (Z.ones 8). rewrite Z.land_ones by lia. reflexivity. Qed.

Lemma b2z_byte x : b2z (z2b (Z.land x 255)) = x mod 256.
Proof. rewrite b2z_z2b, land_255, Z.mod_mod by lia. reflexivity. Qed.

Lemma le32_number v : 0 <= v < 2 ^ 32 -> le_number (le32 v) = v.
Proof.
  intros H. unfold le32. cbn [le_number]. rewrite !b2z_byte, !Z.shiftr_div_pow2 by lia.
  change (2 ^ 8) with 256. change (2 ^ 16) with 65536. change (2 ^ 24) with 16777216.
  change (2 ^ 32) with 4294967296 in H. lia.
Qed.

Lemma le16_number v : 0 <= v < 65536 -> le_number (le16 v) = v.
Proof.
  intros H. unfold le16. cbn [le_number]. rewrite !b2z_byte, !Z.shiftr_div_pow2 by lia.
  change (2 ^ 8) with 256. lia.
Qed.

Lemma un32_number a b c d : un32 a b c d = le_number [a; b; c; d].
Proof. unfold un32. cbn [le_number]. lia. Qed.
Lemma un16_number a b : un16 a b = le_number [a; b].
Proof. unfold un16. cbn [le_number]. lia. Qed.

Lemma le_number_range bs : 0 <= le_number bs < 256 ^ Z.of_nat (length bs).
Proof.
  induction bs as [|b bs IH]; [cbn; lia|]. cbn [le_number length].
  pose proof (b2z_range b). rewrite Nat2Z.inj_succ, Z.pow_succ_r by lia. lia.
Qed.

(** ** Reading values one by one *)

Fixpoint sread_vals (nx ny nz : Z) (w : window) (vals : list Z) (st : cursor * list svox)
  : option (cursor * list svox) :=
  match vals with
  | [] => Some st
  | v :: vals' =>
      let '(c, vs) := st in
      if xi c >=? nx then None
      else sread_vals nx ny nz w vals'
             (advance ny nz c, if negb (special v) && in_window w c then vs ++ [(cur_key c, v)] else vs)
  end.

Lemma sread_run_vals nx ny nz w v n st :
  sread_run nx ny nz w v n st = sread_vals nx ny nz w (repeat v n) st.
Proof.
  revert st. induction n as [|n IH]; intros [c vs]; [reflexivity|].
  cbn [sread_run repeat sread_vals]. destruct (xi c >=? nx); [reflexivity|]. apply IH.
Qed.

Lemma sread_vals_app nx ny nz w l1 l2 st :
  sread_vals nx ny nz w (l1 ++ l2) st =
  match sread_vals nx ny nz w l1 st with
  | None => None
  | Some st' => sread_vals nx ny nz w l2 st'
  end.
Proof.
  revert st. induction l1 as [|v l1 IH]; intros [c vs]; [reflexivity|].
  cbn [app sread_vals]. destruct (xi c >=? nx); [reflexivity|]. apply IH.
Qed.

Lemma sread_data_records nx ny nz w data recs st :
  srecords data recs ->
  sread_data nx ny nz w data st =
  match sread_vals nx ny nz w (sexpand recs) st with
  | None => inl EOverrun
  | Some st' => inr st'
  end.
Proof.
  intros H. revert st.
  induction H as [|vb cb rest recs Hv Hc Hb _ IH|vb c rest recs Hv Hb Hc _ IH]; intros st; [reflexivity| |].
  - do 5 (destruct vb as [|? vb]; try discriminate Hv). do 3 (destruct cb as [|? cb]; try discriminate Hc).
    cbn [app sread_data]. rewrite un32_number, un16_number.
    rewrite (proj2 (special_blank _) Hb). rewrite sread_run_vals.
    unfold sexpand. cbn [map concat fst snd]. rewrite sread_vals_app.
    destruct (sread_vals _ _ _ _ (repeat _ _) st) as [st'|]; [|reflexivity]. apply IH.
  - do 5 (destruct vb as [|? vb]; try discriminate Hv).
    cbn [app sread_data]. rewrite un32_number.
    rewrite (proj2 (special_not_blank _) Hb). destruct (Z.eqb_spec (b2z c) 0); [lia|]. rewrite sread_run_vals.
    unfold sexpand. cbn [map concat fst snd]. rewrite sread_vals_app.
    destruct (sread_vals _ _ _ _ (repeat _ _) st) as [st'|]; [|reflexivity]. apply IH.
Qed.

Lemma sread_data_inr_records_aux nx ny nz w n data st st' :
  (length data <= n)%nat ->
  sread_data nx ny nz w data st = inr st' -> exists recs, srecords data recs.
Proof.
  revert data st. induction n as [|n IH]; intros data st Hlen H.
  - destruct data; [|cbn in Hlen; lia]. eexists; constructor.
  - destruct data as [|b0 [|b1 [|b2 [|b3 rest]]]]; [eexists; constructor|discriminate H..|].
    cbn [sread_data] in H. rewrite un32_number in H.
    destruct (special _) eqn:Es.
    + apply special_blank in Es. destruct rest as [|c0 [|c1 rest]]; [discriminate H..|].
      rewrite un16_number in H. destruct (sread_run _ _ _ _ _ _ _) as [st1|]; [|discriminate].
      destruct (IH rest st1) as [recs Hr]; [cbn in Hlen; lia|exact H|].
      eexists. apply (sr_blank [b0; b1; b2; b3] [c0; c1]); [reflexivity|reflexivity|exact Es|exact Hr].
    + apply special_not_blank in Es. destruct rest as [|c rest]; [discriminate H|].
      destruct (Z.eqb_spec (b2z c) 0); [discriminate|].
      destruct (sread_run _ _ _ _ _ _ _) as [st1|]; [|discriminate].
      destruct (IH rest st1) as [recs Hr]; [cbn in Hlen; lia|exact H|].
      eexists. apply (sr_mask [b0; b1; b2; b3] c); [reflexivity|exact Es| |exact Hr].
      pose proof (b2z_range c). lia.
Qed.

Lemma sread_data_inr_records nx ny nz w data st st' :
  sread_data nx ny nz w data st = inr st' -> exists recs, srecords data recs.
Proof. eapply sread_data_inr_records_aux, Nat.le_refl. Qed.

Lemma srecords_wf data recs : srecords data recs ->
  Forall (fun r => 0 <= fst r < 2 ^ 32 /\ 0 <= snd r < 65536) recs.
Proof.
  induction 1 as [|vb cb rest recs Hv Hc Hb _ IH|vb c rest recs Hv Hb Hc _ IH]; constructor; [|exact IH| |exact IH].
  - cbn [fst snd]. pose proof (le_number_range vb). pose proof (le_number_range cb).
    rewrite Hv in *. rewrite Hc in *. cbn in *. lia.
  - cbn [fst snd]. pose proof (le_number_range vb). pose proof (b2z_range c).
    rewrite Hv in *. cbn in *. lia.
Qed.

Lemma sexpand_length recs : Forall (fun r => 0 <= snd r) recs ->
  Z.of_nat (length (sexpand recs)) = srec_total recs.
Proof.
  induction 1 as [|[v c] recs Hc _ IH]; [reflexivity|].
  unfold sexpand in *. cbn [map concat srec_total fold_right fst snd] in *.
  rewrite app_length, repeat_length, Nat2Z.inj_add, Z2Nat.id by lia.
  fold (srec_total recs). lia.
Qed.

Lemma srecords_total data recs : srecords data recs -> Z.of_nat (length (sexpand recs)) = srec_total recs.
Proof.
  intros H. apply sexpand_length. eapply Forall_impl; [apply (srecords_wf _ _ H)|]. cbn. lia.
Qed.

Lemma sexpand_app a b : sexpand (a ++ b) = sexpand a ++ sexpand b.
Proof. unfold sexpand. rewrite map_app, concat_app. reflexivity. Qed.

Lemma sexpand_values data recs v : srecords data recs -> v ∈ sexpand recs -> 0 <= v < 2 ^ 32.
Proof.
  intros H Hv. apply srecords_wf in H. unfold sexpand in Hv.
  apply elem_of_list_In, in_concat in Hv as (l & Hl & Hin).
  apply in_map_iff in Hl as (r & <- & Hr). apply repeat_spec in Hin. subst v.
  rewrite List.Forall_forall in H. apply H, Hr.
Qed.

(** The voxels collected from values starting at position [i]. *)
Fixpoint collect (ny nz : Z) (w : window) (i : Z) (vals : list Z) : list svox :=
  match vals with
  | [] => []
  | v :: vals' =>
      (if negb (special v) && in_window w (cur_at ny nz i) then [(nth_voxel ny nz i, v)] else [])
      ++ collect ny nz w (i + 1) vals'
  end.

Lemma sread_vals_spec nx ny nz w vals i vs :
  0 < ny -> 0 < nz -> 0 <= i -> i + Z.of_nat (length vals) <= nx * ny * nz ->
  sread_vals nx ny nz w vals (cur_at ny nz i, vs)
  = Some (cur_at ny nz (i + Z.of_nat (length vals)), vs ++ collect ny nz w i vals).
Proof.
  intros Hy Hz. revert i vs. induction vals as [|v vals IH]; intros i vs Hi Hlen.
  - cbn [sread_vals length collect]. rewrite Z.add_0_r, app_nil_r. reflexivity.
  - cbn [length] in Hlen. cbn [sread_vals].
    rewrite cur_at_x_lt by lia. destruct (Z.ltb_spec i (nx * ny * nz)); [|lia]. cbn [negb].
    rewrite advance_at by lia. rewrite IH by lia. cbn [length collect]. f_equal. f_equal.
    + f_equal. lia.
    + rewrite <- cur_key_at. destruct (_ && _); [rewrite <- app_assoc; reflexivity|reflexivity].
Qed.

Lemma sread_vals_overrun nx ny nz w vals i vs :
  0 < ny -> 0 < nz -> 0 <= i -> nx * ny * nz < i + Z.of_nat (length vals) ->
  vals <> [] -> sread_vals nx ny nz w vals (cur_at ny nz i, vs) = None.
Proof.
  intros Hy Hz. revert i vs. induction vals as [|v vals IH]; intros i vs Hi Hlen Hne; [congruence|].
  cbn [sread_vals]. rewrite cur_at_x_lt by lia.
  destruct (Z.ltb_spec i (nx * ny * nz)); [|reflexivity]. cbn [negb].
  rewrite advance_at by lia. cbn [length] in Hlen. apply IH; [lia|lia|].
  intros ->. cbn in Hlen. lia.
Qed.

Lemma sread_data_ok nx ny nz w data recs :
  0 < ny -> 0 < nz -> srecords data recs -> srec_total recs <= nx * ny * nz ->
  exists c, sread_data nx ny nz w data (Cur 0 0 0, []) = inr (c, collect ny nz w 0 (sexpand recs)).
Proof.
  intros Hy Hz Hr Ht. rewrite (sread_data_records _ _ _ _ _ _ _ Hr), (cur_0 ny nz Hy Hz).
  rewrite sread_vals_spec; [eexists; reflexivity|lia|lia|lia|].
  rewrite (srecords_total _ _ Hr). lia.
Qed.

Lemma sread_data_iff nx ny nz w data :
  0 <= nx -> 0 < ny -> 0 < nz ->
  (exists st, sread_data nx ny nz w data (Cur 0 0 0, []) = inr st) <->
  (exists recs, srecords data recs /\ srec_total recs <= nx * ny * nz).
Proof.
  intros Hx Hy Hz. split.
  - intros [st H]. destruct (sread_data_inr_records _ _ _ _ _ _ _ H) as [recs Hr].
    exists recs. split; [exact Hr|].
    destruct (Z.le_gt_cases (srec_total recs) (nx * ny * nz)) as [|Hgt]; [assumption|exfalso].
    rewrite (sread_data_records _ _ _ _ _ _ _ Hr), (cur_0 ny nz Hy Hz) in H.
    rewrite sread_vals_overrun in H; [discriminate|lia|lia|lia| |].
    + rewrite (srecords_total _ _ Hr). lia.
    + intros E. pose proof (srecords_total _ _ Hr) as Ht. rewrite E in Ht. cbn in Ht. nia.
  - intros (recs & Hr & Ht).
    destruct (sread_data_ok nx ny nz w data recs Hy Hz Hr Ht) as (c & H). eauto.
Qed.

(** What [collect] collects. *)
Lemma collect_elem ny nz w i vals k v :
  (k, v) ∈ collect ny nz w i vals <->
  exists j, vals !! j = Some v /\ ~ blank v /\ k = nth_voxel ny nz (i + Z.of_nat j) /\ in_windowk w k.
Proof.
  revert i. induction vals as [|u vals IH]; intros i; cbn [collect].
  - split; [intros H; inversion H|]. intros (j & H & _). discriminate.
  - rewrite elem_of_app, IH. split.
    + intros [H|(j & Hj & Hb & -> & Hw)].
      * destruct (special u) eqn:Es; cbn [negb andb] in H; [inversion H|].
        destruct (in_window _ _) eqn:Ew; [|inversion H].
        apply elem_of_list_singleton in H. injection H as -> ->.
        exists 0%nat. rewrite Z.add_0_r. split; [reflexivity|].
        split; [apply special_not_blank, Es|]. split; [reflexivity|].
        apply in_window_key in Ew. rewrite cur_key_at in Ew. exact Ew.
      * exists (S j). split; [exact Hj|]. split; [exact Hb|]. split; [f_equal; lia|exact Hw].
    + intros (j & Hj & Hb & -> & Hw). destruct j as [|j].
      * left. cbn in Hj. injection Hj as ->. rewrite Z.add_0_r in *.
        rewrite (proj2 (special_not_blank v) Hb). cbn [negb andb].
        rewrite <- cur_key_at in Hw. apply in_window_key in Hw. rewrite Hw.
        apply elem_of_list_singleton. reflexivity.
      * right. exists j. split; [exact Hj|]. split; [exact Hb|]. split; [f_equal; lia|exact Hw].
Qed.

Lemma collect_app ny nz w i l1 l2 :
  collect ny nz w i (l1 ++ l2) = collect ny nz w i l1 ++ collect ny nz w (i + Z.of_nat (length l1)) l2.
Proof.
  revert i. induction l1 as [|v l1 IH]; intros i; cbn [app collect length].
  - rewrite Z.add_0_r. reflexivity.
  - rewrite IH, <- app_assoc. do 3 f_equal. lia.
Qed.

(** In file order; file order implies distinct keys. *)
Lemma file_order_cons ny nz v l :
  file_order ny nz l -> (forall w, w ∈ l -> voxel_index ny nz (fst v) < voxel_index ny nz (fst w)) ->
  file_order ny nz (v :: l).
Proof.
  intros Hl Hv i j a b Hij Ha Hb. destruct j as [|j]; [lia|]. cbn in Hb.
  destruct i as [|i]; cbn in Ha.
  - injection Ha as <-. apply Hv. eapply elem_of_list_lookup_2, Hb.
  - apply (Hl i j a b); [lia|exact Ha|exact Hb].
Qed.

Lemma collect_sorted ny nz w i vals : 0 < ny -> 0 < nz -> 0 <= i ->
  file_order ny nz (collect ny nz w i vals).
Proof.
  intros Hy Hz. revert i. induction vals as [|v vals IH]; intros i Hi; cbn [collect].
  - intros a b ? ? _ H. discriminate.
  - destruct (_ && _); [|apply IH; lia]. cbn [app]. apply file_order_cons; [apply IH; lia|].
    intros [k u] Hk. apply collect_elem in Hk as (j & _ & _ & -> & _). cbn [fst].
    rewrite !voxel_index_nth by lia. lia.
Qed.

Lemma file_order_NoDup ny nz vox : file_order ny nz vox -> NoDup (map fst vox).
Proof.
  intros H. apply NoDup_alt. intros i j k Hi Hj.
  apply list_lookup_fmap_inv in Hi as (v & -> & Hi). apply list_lookup_fmap_inv in Hj as (u & E & Hj).
  destruct (Nat.lt_trichotomy i j) as [Hl|[->|Hl]]; [|reflexivity|].
  - specialize (H i j v u Hl Hi Hj). rewrite E in H. lia.
  - specialize (H j i u v Hl Hj Hi). rewrite E in H. lia.
Qed.

(** ** The encoder *)

(** Runs: positive counts, neighbouring values differ. *)
Fixpoint runs_ok (rs : list (Z * Z)) : Prop :=
  match rs with
  | [] => True
  | (v, n) :: rest => 0 < n /\ (match rest with (u, _) :: _ => u <> v | [] => True end) /\ runs_ok rest
  end.

Fixpoint runs_of (vals : list Z) : list (Z * Z) :=
  match vals with
  | [] => []
  | v :: vals' =>
      match runs_of vals' with
      | (u, n) :: rest => if v =? u then (v, n + 1) :: rest else (v, 1) :: (u, n) :: rest
      | [] => [(v, 1)]
      end
  end.

Lemma runs_of_ok vals : runs_ok (runs_of vals) /\ sexpand (runs_of vals) = vals.
Proof.
  induction vals as [|v vals [IH1 IH2]]; [split; [exact I|reflexivity]|]. cbn [runs_of].
  destruct (runs_of vals) as [|[u n] rest].
  - cbn. split; [lia|]. unfold sexpand in IH2. cbn in IH2. rewrite <- IH2. reflexivity.
  - destruct IH1 as (H1 & H2 & H3). destruct (Z.eqb_spec v u) as [->|Hne].
    + split; [split; [lia|]; split; assumption|].
      rewrite <- IH2. unfold sexpand. cbn [map concat fst snd].
      rewrite Z2Nat.inj_add, Nat.add_comm by lia. reflexivity.
    + split; [split; [lia|]; split; [congruence|]; split; [exact H1|]; split; assumption|].
      rewrite <- IH2. reflexivity.
Qed.

Lemma senc_same v c n vals : 0 <= c < 65536 ->
  senc_loop (repeat v n ++ vals) (Enc v c) = senc_loop vals (Enc v ((c + Z.of_nat n) mod 65536)).
Proof.
  revert c. induction n as [|n IH]; intros c Hc.
  - cbn [repeat app]. rewrite Z.add_0_r, Z.mod_small by lia. reflexivity.
  - cbn [repeat app senc_loop]. unfold senc_step. cbn [e_value e_count]. rewrite Z.eqb_refl. cbn [negb].
    rewrite IH by lia. do 2 f_equal. rewrite Z.add_mod_idemp_l by lia. f_equal. lia.
Qed.

(** The uint16 counter wraps: a run of length [n] is written with length [n mod 65536], and not at
    all if that is 0. *)
Definition wrap_runs (rs : list (Z * Z)) : list (Z * Z) :=
  filter (fun r => snd r <> 0) (map (fun r => (fst r, snd r mod 65536)) rs).

Lemma senc_runs rs v c : 0 <= c < 65536 -> runs_ok rs ->
  match rs with (u, _) :: _ => u <> v | [] => True end ->
  senc_loop (sexpand rs) (Enc v c) = (if 0 <? c then [(v, c)] else []) ++ wrap_runs rs.
Proof.
  revert v c. induction rs as [|[u n] rs IH]; intros v c Hc Hok Hne.
  - cbn [sexpand senc_loop map concat]. unfold sexpand. cbn [map concat senc_loop e_count e_value].
    unfold wrap_runs. cbn [map]. rewrite filter_nil, app_nil_r. reflexivity.
  - destruct Hok as (Hn & Hd & Hok). unfold sexpand. cbn [map concat fst snd]. fold (sexpand rs).
    replace (Z.to_nat n) with (S (Z.to_nat (n - 1))) by lia.
    cbn [repeat app senc_loop]. unfold senc_step at 1. cbn [e_value e_count].
    destruct (Z.eqb_spec u v) as [->|_]; [contradiction|]. cbn [negb].
    assert (E : senc_loop (repeat u (Z.to_nat (n - 1)) ++ sexpand rs) (Enc u 1) = wrap_runs ((u, n) :: rs)).
    { rewrite senc_same by lia. rewrite Z2Nat.id by lia. replace (1 + (n - 1)) with n by lia.
      rewrite IH; [|lia|exact Hok|exact Hd]. unfold wrap_runs. cbn [map fst snd].
      rewrite filter_cons. cbn [snd]. destruct (Z.ltb_spec 0 (n mod 65536)).
      - rewrite decide_True by lia. reflexivity.
      - rewrite decide_False by lia. reflexivity. }
    destruct (0 <? c); rewrite E; reflexivity.
Qed.

(** All values, from the initial state: a leading zero run is counted from 0. *)
Lemma senc_values vals : senc_loop vals (Enc 0 0) = wrap_runs (runs_of vals).
Proof.
  destruct (runs_of_ok vals) as [Hok He]. rewrite <- He at 1.
  destruct (runs_of vals) as [|[u n] rs] eqn:E; [reflexivity|].
  destruct (Z.eqb_spec u 0) as [->|Hne].
  - destruct Hok as (Hn & Hd & Hok). unfold sexpand. cbn [map concat fst snd]. fold (sexpand rs).
    rewrite senc_same by lia. rewrite Z.add_0_l, Z2Nat.id by lia.
    rewrite senc_runs; [|lia|exact Hok|exact Hd]. unfold wrap_runs. cbn [map fst snd].
    rewrite filter_cons. cbn [snd]. destruct (Z.ltb_spec 0 (n mod 65536)).
    + rewrite decide_True by lia. reflexivity.
    + rewrite decide_False by lia. reflexivity.
  - rewrite senc_runs; [reflexivity|lia|exact Hok|exact Hne].
Qed.

Lemma wrap_runs_short rs : Forall (fun r => 0 < snd r < 65536) rs -> wrap_runs rs = rs.
Proof.
  intros H. unfold wrap_runs. induction H as [|[v n] rs Hn _ IH]; [reflexivity|].
  cbn [map fst snd] in *. rewrite Z.mod_small by lia. rewrite filter_cons_True by (cbn; lia).
  rewrite IH. reflexivity.
Qed.

Lemma wrap_runs_wf rs : Forall (fun r => 0 < snd r < 65536) (wrap_runs rs).
Proof.
  unfold wrap_runs. apply Forall_forall. intros r Hr. apply elem_of_list_filter in Hr as [H1 H2].
  apply elem_of_list_fmap in H2 as (r0 & -> & _). cbn [snd] in *. lia.
Qed.

Lemma repeat_lookup {A} (v : A) n j : (j < n)%nat -> repeat v n !! j = Some v.
Proof.
  revert j. induction n as [|n IH]; intros j Hj; [lia|]. destruct j as [|j]; [reflexivity|].
  cbn. apply IH. lia.
Qed.

Lemma runs_of_short vals :
  no_long_run (fun i => default 0 (vals !! Z.to_nat i)) (Z.of_nat (length vals)) ->
  Forall (fun r => 0 < snd r < 65536) (runs_of vals).
Proof.
  intros H. destruct (runs_of_ok vals) as [Hok He].
  apply List.Forall_forall. intros [v n] Hr. cbn [snd].
  assert (Hn : 0 < n).
  { clear H He. induction (runs_of vals) as [|[u m] rs IH]; [contradiction|].
    destruct Hok as (? & ? & ?). destruct Hr as [[= -> ->]|Hr]; [assumption|auto]. }
  split; [exact Hn|]. destruct (Z.lt_ge_cases n 65536) as [|Hge]; [assumption|exfalso].
  apply in_split in Hr as (l1 & l2 & Hr). rewrite Hr, sexpand_app in He.
  unfold sexpand at 2 in He. cbn [map concat fst snd] in He. fold (sexpand l2) in He.
  set (a := sexpand l1) in *.
  assert (Hat : forall j, 0 <= j < n -> vals !! Z.to_nat (Z.of_nat (length a) + j) = Some v).
  { intros j Hj. rewrite <- He. rewrite lookup_app_r by lia.
    replace (Z.to_nat (Z.of_nat (length a) + j) - length a)%nat with (Z.to_nat j) by lia.
    rewrite lookup_app_l by (rewrite repeat_length; lia).
    apply repeat_lookup. lia. }
  destruct (H (Z.of_nat (length a))) as (j & Hj & Hneq); [lia| |].
  { rewrite <- He, !app_length, repeat_length. lia. }
  apply Hneq. pose proof (Hat 0 ltac:(lia)) as H0. rewrite Z.add_0_r in H0. rewrite H0.
  replace j with (Z.of_nat (length a) + (j - Z.of_nat (length a))) by lia. rewrite Hat by lia. reflexivity.
Qed.

(** ** Bytes of the runs *)

Lemma srecords_app d1 r1 d2 r2 : srecords d1 r1 -> srecords d2 r2 -> srecords (d1 ++ d2) (r1 ++ r2).
Proof.
  intros H1 H2. induction H1 as [|vb cb rest recs Hv Hc Hb _ IH|vb c rest recs Hv Hb Hc _ IH]; [exact H2| |].
  - rewrite <- !app_assoc. cbn [app]. apply sr_blank; assumption.
  - rewrite <- app_assoc. cbn [app]. apply sr_mask; assumption.
Qed.

(** The records one run is written as. *)
Definition srun_records (r : Z * Z) : list (Z * Z) :=
  let '(v, c) := r in
  if special v then [(v, c)]
  else repeat (v, 255) (Z.to_nat (c / 255)) ++ (if 0 <? c mod 255 then [(v, c mod 255)] else []).

Lemma srun_bytes_records r : 0 <= fst r < 2 ^ 32 -> 0 < snd r < 65536 ->
  srecords (concat (run_writes r)) (srun_records r).
Proof.
  destruct r as [v c]. cbn [fst snd]. intros Hv Hc. unfold run_writes, srun_records.
  destruct (special v) eqn:Es.
  - apply special_blank in Es. cbn [concat]. rewrite app_nil_r.
    pose proof (sr_blank (le32 v) (le16 c) [] [] eq_refl eq_refl) as H.
    rewrite le32_number, le16_number, app_nil_r in H by lia. apply H; [exact Es|constructor].
  - apply special_not_blank in Es. rewrite concat_app. apply srecords_app.
    + cbn zeta. replace (concat (if 0 <? c / 255 then [concat (repeat (le32 v ++ [xff]) (Z.to_nat (c / 255)))] else []))
        with (concat (repeat (le32 v ++ [xff]) (Z.to_nat (c / 255)))).
      * induction (Z.to_nat (c / 255)) as [|n IH]; [constructor|]. cbn [repeat concat].
        rewrite <- app_assoc. cbn [app]. pose proof (sr_mask (le32 v) xff) as H.
        rewrite le32_number in H by lia. apply (H _ _ eq_refl Es); [cbn; lia|exact IH].
      * destruct (Z.ltb_spec 0 (c / 255)) as [|Hle]; [cbn [concat]; rewrite app_nil_r; reflexivity|].
        replace (c / 255) with 0 by lia. reflexivity.
    + cbn zeta. destruct (Z.ltb_spec 0 (c mod 255)); [|constructor].
      cbn [concat]. rewrite app_nil_r. pose proof (sr_mask (le32 v) (z2b (c mod 255)) [] []) as H0.
      rewrite le32_number, b2z_z2b, (Z.mod_small (c mod 255) 256) in H0 by lia.
      apply H0; [reflexivity|exact Es|lia|constructor].
Qed.

Lemma srun_records_expand r : 0 <= snd r -> sexpand (srun_records r) = repeat (fst r) (Z.to_nat (snd r)).
Proof.
  destruct r as [v c]. cbn [fst snd]. intros Hc. unfold srun_records.
  destruct (special v); [unfold sexpand; cbn; apply app_nil_r|].
  rewrite sexpand_app.
  assert (E : forall n, sexpand (repeat (v, 255) n) = repeat v (n * 255)).
  { induction n as [|n IH]; [reflexivity|]. unfold sexpand in *. cbn [repeat map concat fst snd].
    rewrite IH. change (Z.to_nat 255) with 255%nat. rewrite <- repeat_app. reflexivity. }
  rewrite E. assert (E2 : sexpand (if 0 <? c mod 255 then [(v, c mod 255)] else []) = repeat v (Z.to_nat (c mod 255))).
  { destruct (Z.ltb_spec 0 (c mod 255)) as [|Hle]; [unfold sexpand; cbn; apply app_nil_r|].
    replace (c mod 255) with 0 by lia. reflexivity. }
  rewrite E2, <- repeat_app. f_equal. lia.
Qed.

Definition sruns_records (rs : list (Z * Z)) : list (Z * Z) := concat (map srun_records rs).

Lemma sruns_bytes_records rs :
  Forall (fun r => 0 <= fst r < 2 ^ 32 /\ 0 < snd r < 65536) rs ->
  srecords (concat (concat (map run_writes rs))) (sruns_records rs).
Proof.
  induction 1 as [|r rs [Hv Hc] _ IH]; [constructor|]. cbn [map concat]. rewrite concat_app.
  unfold sruns_records. cbn [map concat]. apply srecords_app; [|exact IH]. apply srun_bytes_records; assumption.
Qed.

Lemma sruns_records_expand rs : Forall (fun r => 0 <= snd r) rs -> sexpand (sruns_records rs) = sexpand rs.
Proof.
  induction 1 as [|r rs Hr _ IH]; [reflexivity|]. unfold sruns_records in *. cbn [map concat].
  rewrite sexpand_app, IH, srun_records_expand by exact Hr. reflexivity.
Qed.

(** ** The values of a region *)

Lemma svalue_mask vox k : NoDup (map fst vox) -> svalue vox (build_old vox) k = mask_at vox k.
Proof.
  intros Hnd. unfold svalue, mask_at. destruct (build_old vox !! k) as [i|] eqn:E.
  - apply build_old_lookup in E as [n Hn]; [|exact Hnd]. rewrite Hn. cbn [snd].
    rewrite (elem_of_list_to_map_1 vox k n); [reflexivity|exact Hnd|]. eapply elem_of_list_lookup_2, Hn.
  - rewrite not_elem_of_list_to_map_1; [reflexivity|]. intros Hin.
    apply (build_old_dom vox k Hnd) in Hin as [i Hi]. congruence.
Qed.

Lemma mask_at_elem vox k n : NoDup (map fst vox) -> (k, n) ∈ vox -> mask_at vox k = n.
Proof. intros Hnd H. unfold mask_at. rewrite (elem_of_list_to_map_1 vox k n Hnd H). reflexivity. Qed.

Lemma mask_at_nonzero vox k : mask_at vox k <> 0 -> (k, mask_at vox k) ∈ vox.
Proof.
  unfold mask_at. destruct (_ !! k) as [n|] eqn:E; [|contradiction]. intros _.
  apply elem_of_list_to_map_2 in E. exact E.
Qed.

Lemma svalues_eq vox sx sy sz nx ny nz : NoDup (map fst vox) ->
  svalues vox sx sy sz nx ny nz = map (mask_at vox) (loop_keys sx sy sz nx ny nz).
Proof. intros H. unfold svalues. apply map_ext. intros k. apply svalue_mask, H. Qed.

Lemma svalues_lookup vox sx sy sz nx ny nz j :
  0 < nx -> 0 < ny -> 0 < nz -> NoDup (map fst vox) -> 0 <= j < nx * ny * nz ->
  svalues vox sx sy sz nx ny nz !! Z.to_nat j = Some (mask_at vox (shift_key sx sy sz (nth_voxel ny nz j))).
Proof.
  intros. rewrite svalues_eq by assumption. change (map ?f ?l) with (f <$> l). rewrite list_lookup_fmap.
  rewrite loop_keys_lookup by lia. rewrite Z2Nat.id by lia. reflexivity.
Qed.

Lemma svalues_length vox sx sy sz nx ny nz : 0 <= nx -> 0 <= ny -> 0 <= nz ->
  Z.of_nat (length (svalues vox sx sy sz nx ny nz)) = nx * ny * nz.
Proof. intros. unfold svalues. rewrite map_length. apply loop_keys_length; lia. Qed.

Definition masks_ok (vox : list svox) : Prop := forall k n, (k, n) ∈ vox -> 0 <= n < 2 ^ 32.

Lemma svalue_range vox k : masks_ok vox -> 0 <= svalue vox (build_old vox) k < 2 ^ 32.
Proof.
  intros H. unfold svalue. destruct (_ !! k) as [i|]; [|lia].
  destruct (vox !! i) as [[k' n]|] eqn:E; [|lia]. apply (H k'). eapply elem_of_list_lookup_2, E.
Qed.

Lemma runs_of_values vals P : Forall P vals -> Forall (fun r => P (fst r)) (runs_of vals).
Proof.
  induction 1 as [|v vals Hv _ IH]; [constructor|]. cbn [runs_of].
  destruct (runs_of vals) as [|[u n] rest]; [constructor; [exact Hv|constructor]|].
  apply Forall_cons in IH as [Hu IH]. destruct (v =? u); constructor; auto.
Qed.

Lemma sencode_wf vox sx sy sz nx ny nz : masks_ok vox ->
  Forall (fun r => 0 <= fst r < 2 ^ 32 /\ 0 < snd r < 65536) (sencode vox sx sy sz nx ny nz).
Proof.
  intros H. unfold sencode. rewrite senc_values.
  assert (Hv : Forall (fun v => 0 <= v < 2 ^ 32) (svalues vox sx sy sz nx ny nz)).
  { unfold svalues. apply Forall_fmap, Forall_forall. intros k _. apply svalue_range, H. }
  apply runs_of_values in Hv. pose proof (wrap_runs_wf (runs_of (svalues vox sx sy sz nx ny nz))) as Hw.
  apply Forall_forall. intros r Hr. split; [|rewrite Forall_forall in Hw; apply Hw, Hr].
  unfold wrap_runs in Hr. apply elem_of_list_filter in Hr as [_ Hr].
  apply elem_of_list_fmap in Hr as (r0 & -> & Hr). cbn [fst]. rewrite Forall_forall in Hv. apply Hv, Hr.
Qed.

(** Without long runs the file describes exactly the values. *)
Lemma sencode_expand vox sx sy sz nx ny nz :
  0 < nx -> 0 < ny -> 0 < nz -> NoDup (map fst vox) ->
  no_long_run (fun j => mask_at vox (shift_key sx sy sz (nth_voxel ny nz j))) (nx * ny * nz) ->
  sexpand (sencode vox sx sy sz nx ny nz) = svalues vox sx sy sz nx ny nz.
Proof.
  intros Hx Hy Hz Hnd Hl. unfold sencode. rewrite senc_values, wrap_runs_short.
  - apply runs_of_ok.
  - apply runs_of_short. rewrite svalues_length by lia. intros i Hi Hi2.
    destruct (Hl i Hi Hi2) as (j & Hj & Hne). exists j. split; [exact Hj|].
    rewrite !svalues_lookup by (assumption || lia). exact Hne.
Qed.

Section Float.
  Context {F : Type} (ft : FloatText F).

  Lemma sheader_app nx ny nz tx ty tz sc data :
    sheader ft nx ny nz tx ty tz sc ++ data =
    txt "#vshell 1" ++ [x0a] ++ dim_line nx ny nz ++ [x0a] ++ translate_line ft tx ty tz ++ [x0a]
    ++ scale_line ft sc ++ [x0a] ++ txt "data" ++ [x0a] ++ data.
  Proof.
    unfold sheader, dim_line, translate_line, scale_line. repeat rewrite <- app_assoc. reflexivity.
  Qed.

  Lemma sread_with_header nx ny nz tx ty tz sc data sx sy sz cx cy cz :
    0 <= nx <= max_int -> 0 <= ny <= max_int -> 0 <= nz <= max_int ->
    0 <= sx <= nx -> 0 <= sy <= ny -> 0 <= sz <= nz -> 0 <= cx -> 0 <= cy -> 0 <= cz ->
    sread ft (sheader ft nx ny nz tx ty tz sc ++ data) sx sy sz cx cy cz =
    match sread_data nx ny nz
            (Win sx sy sz (clip_count cx nx) (clip_count cy ny) (clip_count cz nz))
            data (Cur 0 0 0, []) with
    | inl e => inl e
    | inr (_, vox) => inr (GShell nx ny nz tx ty tz sc vox)
    end.
  Proof.
    intros. unfold sread.
    replace ((sx <? 0) || (sy <? 0) || (sz <? 0) || (cx <? 0) || (cy <? 0) || (cz <? 0))
      with false by lia.
    rewrite sheader_app, read_header_ok by (try reflexivity; lia). reflexivity.
  Qed.

  Lemma swrite_file_nonempty vs sx sy sz nx ny nz :
    Voxels vs <> [] ->
    let nx' := default_dim nx (sNX vs) in
    let ny' := default_dim ny (sNY vs) in
    let nz' := default_dim nz (sNZ vs) in
    swrite_file ft vs sx sy sz nx ny nz =
      sheader ft nx' ny' nz' (sTX vs) (sTY vs) (sTZ vs) (sScale vs)
      ++ concat (concat (map run_writes (sencode (Voxels vs) sx sy sz nx' ny' nz'))).
  Proof.
    intros Hne. cbn zeta. unfold swrite_file, swrite. destruct (Voxels vs); [contradiction|]. reflexivity.
  Qed.

  (** Writing a region and reading a window of the file: any shell. *)
  Lemma swrite_read vs sx sy sz nx ny nz qx qy qz cx cy cz :
    Voxels vs <> [] -> masks_ok (Voxels vs) ->
    let nx' := default_dim nx (sNX vs) in
    let ny' := default_dim ny (sNY vs) in
    let nz' := default_dim nz (sNZ vs) in
    0 < nx' <= max_int -> 0 < ny' <= max_int -> 0 < nz' <= max_int ->
    0 <= qx <= nx' -> 0 <= qy <= ny' -> 0 <= qz <= nz' -> 0 <= cx -> 0 <= cy -> 0 <= cz ->
    let w := Win qx qy qz (clip_count cx nx') (clip_count cy ny') (clip_count cz nz') in
    let vals := sexpand (sencode (Voxels vs) sx sy sz nx' ny' nz') in
    (Z.of_nat (length vals) <= nx' * ny' * nz') ->
    sread ft (swrite_file ft vs sx sy sz nx ny nz) qx qy qz cx cy cz
    = inr (GShell nx' ny' nz' (sTX vs) (sTY vs) (sTZ vs) (sScale vs) (collect ny' nz' w 0 vals)).
  Proof.
    intros Hne Hm nx' ny' nz' Hx Hy Hz Hqx Hqy Hqz Hcx Hcy Hcz w vals Hlen.
    rewrite swrite_file_nonempty by exact Hne. fold nx' ny' nz'.
    rewrite sread_with_header by lia. fold w.
    pose proof (sencode_wf (Voxels vs) sx sy sz nx' ny' nz' Hm) as Hwf.
    pose proof (sruns_bytes_records _ Hwf) as Hr.
    assert (He : sexpand (sruns_records (sencode (Voxels vs) sx sy sz nx' ny' nz')) = vals).
    { apply sruns_records_expand. eapply Forall_impl; [exact Hwf|]. cbn. lia. }
    destruct (sread_data_ok nx' ny' nz' w _ _ ltac:(lia) ltac:(lia) Hr) as [c Hd].
    { rewrite <- (srecords_total _ _ Hr), He. exact Hlen. }
    rewrite Hd, He. reflexivity.
  Qed.
End Float.
