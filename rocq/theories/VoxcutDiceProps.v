(** Properties of cmd/voxcut-dice: C41. *)
From Verif Require Import Base BaseLemmas BinvoxModel BinvoxSpec BinvoxLemmas BinvoxProofs BinvoxProps FloatTextQ Geom VoxelizeModel VoxcutModel VoxcutProps.
From Coq Require Import ZArith QArith List Lia Bool String Permutation Init.Byte.
From stdpp Require Import base list gmap sets fin_sets.
Import ListNotations.
Open Scope Z_scope.

(** ** The loops *)

Lemma for_loop_spec size n : 0 < size -> forall fuel i, (Z.to_nat (n - i) <= fuel)%nat -> exists l, for_loop fuel i n size = Some l /\ List.NoDup l /\
  forall j, In j l <-> exists q, 0 <= q /\ j = i + q * size /\ j < n.
Proof.
  intros Hs. induction fuel as [|fuel IH]; intros i Hf; cbn [for_loop]; destruct (Z.ltb_spec i n) as [H|H]; [lia| | |].
  1,3: exists []; split; [reflexivity|]; split; [constructor|]; intros j; split; [intros []|intros (q & Hq & -> & Hj); nia].
  destruct (IH (i + size)) as (l & -> & Hnd & Hl); [lia|]. exists (i :: l). split; [reflexivity|]. split.
  - constructor; [|exact Hnd]. intros Hin. apply Hl in Hin as (q & Hq & E & _). nia.
  - intros j. cbn [In]. rewrite Hl. split.
    + intros [<-|(q & Hq & -> & Hj)]; [exists 0; lia|exists (q + 1); lia].
    + intros (q & Hq & -> & Hj). destruct (Z.eq_dec q 0) as [->|Hne]; [left; lia|right; exists (q - 1); lia].
Qed.

Theorem C41_no_end size n : size <= 0 -> 0 < n -> forall fuel, for_loop fuel 0 n size = None.
Proof.
  intros Hs Hn fuel. assert (G : forall fuel i, i < n -> for_loop fuel i n size = None); [|apply G, Hn].
  clear fuel. induction fuel as [|fuel IH]; intros i Hi; cbn [for_loop]; (destruct (Z.ltb_spec i n); [|lia]); [reflexivity|].
  rewrite IH by lia. reflexivity.
Qed.
Print Assumptions C41_no_end.

(** Tile corners: multiples of the size inside the grid. *)
Definition tile_corner (nx ny nz size : Z) (t : key) : Prop :=
  in_grid nx ny nz t /\ (exists q, kx t = q * size) /\ (exists q, ky t = q * size) /\ (exists q, kz t = q * size).

Lemma in_dice_tiles xs ys zs t : In t (dice_tiles xs ys zs) <-> In (kx t) xs /\ In (ky t) ys /\ In (kz t) zs.
Proof.
  unfold dice_tiles. rewrite in_flat_map. split.
  - intros (z & Hz & H). apply in_flat_map in H as (y & Hy & H). apply in_map_iff in H as (x & <- & Hx). auto.
  - intros (Hx & Hy & Hz). exists (kz t). split; [exact Hz|]. apply in_flat_map. exists (ky t). split; [exact Hy|].
    apply in_map_iff. exists (kx t). split; [destruct t as [[? ?] ?]; reflexivity|exact Hx].
Qed.

Lemma NoDup_flat_map {A B} (f : A -> list B) l : List.NoDup l -> (forall a, In a l -> List.NoDup (f a)) ->
  (forall a b x, In a l -> In b l -> In x (f a) -> In x (f b) -> a = b) -> List.NoDup (flat_map f l).
Proof.
  induction l as [|a l IH]; intros Hnd Hf Hd; [constructor|]. cbn [flat_map]. inversion_clear Hnd as [|? ? Hni Hnd'].
  assert (G : forall (l1 l2 : list B), List.NoDup l1 -> List.NoDup l2 -> (forall x, In x l1 -> ~ In x l2) -> List.NoDup (l1 ++ l2)).
  { clear. induction l1 as [|x l1 IH]; intros l2 H1 H2 Hd; [exact H2|]. cbn. inversion_clear H1. constructor.
    - rewrite in_app_iff. intros [H'|H']; [contradiction|]. exact (Hd x (or_introl eq_refl) H').
    - apply IH; [assumption|assumption|]. intros y Hy. apply Hd. right. exact Hy. }
  apply G.
  - apply Hf. left. reflexivity.
  - apply IH; [exact Hnd'|intros b Hb; apply Hf; right; exact Hb|]. intros b c x Hb Hc. apply Hd; right; assumption.
  - intros x Hx Hx'. apply in_flat_map in Hx' as (b & Hb & Hx'). apply Hni.
    rewrite (Hd a b x (or_introl eq_refl) (or_intror Hb) Hx Hx'). exact Hb.
Qed.

Lemma dice_tiles_nodup xs ys zs : List.NoDup xs -> List.NoDup ys -> List.NoDup zs -> List.NoDup (dice_tiles xs ys zs).
Proof.
  intros Hx Hy Hz. unfold dice_tiles. apply NoDup_flat_map; [exact Hz| |].
  - intros z _. apply NoDup_flat_map; [exact Hy| |].
    + intros y _. apply FinFun.Injective_map_NoDup; [|exact Hx]. intros a b [= H]. exact H.
    + intros a b t _ _ Ha Hb. apply in_map_iff in Ha as (x & <- & _). apply in_map_iff in Hb as (x' & [=] & _). congruence.
  - intros a b t _ _ Ha Hb. apply in_flat_map in Ha as (y & _ & Ha). apply in_map_iff in Ha as (x & <- & _).
    apply in_flat_map in Hb as (y' & _ & Hb). apply in_map_iff in Hb as (x' & [=] & _). congruence.
Qed.

(** The tiles enumerated, for a positive size: the corners, each once. *)
Theorem C41_tiles size nx ny nz fuel : 0 < size -> nx <= Z.of_nat fuel -> ny <= Z.of_nat fuel -> nz <= Z.of_nat fuel ->
  exists xs ys zs, for_loop fuel 0 nx size = Some xs /\ for_loop fuel 0 ny size = Some ys /\ for_loop fuel 0 nz size = Some zs /\
    List.NoDup (dice_tiles xs ys zs) /\ forall t, In t (dice_tiles xs ys zs) <-> tile_corner nx ny nz size t.
Proof.
  intros Hs Hx Hy Hz.
  destruct (for_loop_spec size nx Hs fuel 0) as (xs & Ex & Nx & Lx); [lia|].
  destruct (for_loop_spec size ny Hs fuel 0) as (ys & Ey & Ny & Ly); [lia|].
  destruct (for_loop_spec size nz Hs fuel 0) as (zs & Ez & Nz & Lz); [lia|].
  exists xs, ys, zs. repeat (split; [assumption|]). split; [apply dice_tiles_nodup; assumption|].
  intros t. rewrite in_dice_tiles, Lx, Ly, Lz. unfold tile_corner, in_grid, in_region. split.
  - intros ((q & Hq & E1 & H1) & (r & Hr & E2 & H2) & (s & Hs' & E3 & H3)).
    split; [nia|]. split; [exists q; lia|]. split; [exists r; lia|exists s; lia].
  - intros (Hg & (q & Eq) & (r & Er) & (s & Es)). split; [exists q; nia|]. split; [exists r; nia|exists s; nia].
Qed.
Print Assumptions C41_tiles.

(** Every voxel of the grid lies in exactly one tile. *)
Theorem C41_partition size nx ny nz k : 0 < size -> in_grid nx ny nz k ->
  exists t, (tile_corner nx ny nz size t /\ in_region (kx t) (ky t) (kz t) size size size k) /\
    forall t', tile_corner nx ny nz size t' -> in_region (kx t') (ky t') (kz t') size size size k -> t' = t.
Proof.
  intros Hs Hk. exists (kx k / size * size, ky k / size * size, kz k / size * size).
  unfold tile_corner, in_grid, in_region in *. unfold kx, ky, kz in *. destruct k as [[x y] z]. cbn [fst snd] in *.
  assert (D : forall a, 0 <= a -> 0 <= a / size * size <= a /\ a < a / size * size + size).
  { intros a Ha. pose proof (Z.div_mod a size). pose proof (Z.mod_pos_bound a size). pose proof (Z.div_pos a size). nia. }
  pose proof (D x). pose proof (D y). pose proof (D z). split.
  - split; [split; [lia|]; split; [|split]; eexists; reflexivity|lia].
  - intros [[t1 t2] t3]. cbn [fst snd]. intros (Ht & (q & ->) & (r & ->) & (s & ->)) Hin.
    apply key_eq; (f_equal; [|reflexivity] || idtac).
    + f_equal. apply Z.div_unique with (x - q * size); lia.
    + f_equal. apply Z.div_unique with (y - r * size); lia.
    + f_equal. apply Z.div_unique with (z - s * size); lia.
Qed.
Print Assumptions C41_partition.

(** ** The names *)

Lemma undec_zeros m l : undec 0 (repeat x30 m ++ l) = undec 0 l.
Proof.
  induction m as [|m IH]; [reflexivity|]. cbn [repeat app]. rewrite <- IH. unfold undec. cbn [fold_left]. reflexivity.
Qed.

Lemma pad4_inj a b : 0 <= a -> 0 <= b -> pad4 a = pad4 b -> a = b.
Proof.
  intros Ha Hb H. apply (f_equal (undec 0)) in H. unfold pad4 in H. rewrite !undec_zeros, !show_nat_undec in H by assumption. exact H.
Qed.

Lemma pad4_digits a : 0 <= a -> forallb is_digit (pad4 a) = true.
Proof.
  intros Ha. unfold pad4. rewrite forallb_app, show_nat_digits by exact Ha. rewrite andb_true_r.
  induction (4 - length (show_nat a))%nat as [|m IH]; [reflexivity|]. cbn [repeat forallb]. rewrite IH. reflexivity.
Qed.

Lemma split_dash a b r s : forallb is_digit a = true -> forallb is_digit b = true -> a ++ x2d :: r = b ++ x2d :: s -> a = b /\ r = s.
Proof.
  revert b. induction a as [|x a IH]; intros [|y b] Ha Hb H; cbn in *.
  - injection H as H. auto.
  - injection H as <- _. apply andb_true_iff in Hb as [Hb _]. discriminate.
  - injection H as -> _. apply andb_true_iff in Ha as [Ha _]. discriminate.
  - injection H as <- H. apply andb_true_iff in Ha as [_ Ha]. apply andb_true_iff in Hb as [_ Hb]. destruct (IH b Ha Hb H) as [-> ->]. auto.
Qed.

(** Different tiles have different names. *)
Theorem C41_names_distinct prefix ext size nx ny nz t t' : tile_corner nx ny nz size t -> tile_corner nx ny nz size t' ->
  tile_name prefix ext size t = tile_name prefix ext size t' -> t = t'.
Proof.
  intros (Ht & _) (Ht' & _) H. unfold tile_name in H. apply app_inv_head in H. cbn [app] in H. injection H as H.
  unfold in_grid, in_region in *.
  apply split_dash in H as [Hx H]; [|apply pad4_digits; lia..]. cbn [app] in H.
  apply split_dash in H as [Hy H]; [|apply pad4_digits; lia..]. cbn [app] in H.
  apply split_dash in H as [Hz H]; [|apply pad4_digits; lia..].
  apply pad4_inj in Hx; [|lia..]. apply pad4_inj in Hy; [|lia..]. apply pad4_inj in Hz; [|lia..].
  destruct t as [[a b] c], t' as [[a' b'] c']. unfold kx, ky, kz in *. cbn [fst snd] in *. apply key_eq; assumption.
Qed.
Print Assumptions C41_names_distinct.

Example C41_name_ex : tile_name (txt "out") (txt ".binvox") 16 (32,0,16) = txt "out-0032-0000-0016-0016-0016-0016.binvox".
Proof. reflexivity. Qed.

(** ** The run *)

Lemma dice_run_spec ft size basef cuts ts : forall l ok, dice_run ft size basef cuts ts = (l, ok) ->
  (ok = true -> map fst l = ts) /\
  (ok = false -> exists done t rest, ts = done ++ t :: rest /\ map fst l = done /\ voxcut_out ft (kx t) (ky t) (kz t) size size size basef cuts = None) /\
  forall t file, In (t, file) l -> voxcut_out ft (kx t) (ky t) (kz t) size size size basef cuts = Some file.
Proof.
  induction ts as [|t ts IH]; intros l ok; cbn [dice_run].
  - intros [= <- <-]. split; [reflexivity|]. split; [discriminate|intros t file []].
  - destruct (voxcut_out _ _ _ _ _ _ _ _ _) as [file|] eqn:E.
    + destruct (dice_run ft size basef cuts ts) as [l' ok'] eqn:E'. intros [= <- <-]. destruct (IH _ _ eq_refl) as (H1 & H2 & H3). split; [|split].
      * intros H. cbn. rewrite (H1 H). reflexivity.
      * intros H. destruct (H2 H) as (d & t' & rest & -> & Hd & Hn). exists (t :: d), t', rest. cbn. rewrite Hd. auto.
      * intros t' file' [[= <- <-]|Hin]; [exact E|apply H3, Hin].
    + intros [= <- <-]. split; [discriminate|]. split; [|intros t' file []]. intros _. exists [], t, ts. auto.
Qed.

Lemma dice_main_spec ft fuel size b cuts r : well_formed b -> white b <> ∅ -> 0 < size ->
  NX b <= Z.of_nat fuel -> NY b <= Z.of_nat fuel -> NZ b <= Z.of_nat fuel ->
  dice_main ft fuel size (file_of ft (Some b)) (map (file_of ft) cuts) = Some r ->
  exists ts, List.NoDup ts /\ (forall t, In t ts <-> tile_corner (NX b) (NY b) (NZ b) size t) /\
    (size <= NX b \/ size <= NY b \/ size <= NZ b) /\ dice_run ft size (file_of ft (Some b)) (map (file_of ft) cuts) ts = r.
Proof.
  intros Hwf Hne Hs Hx Hy Hz. unfold dice_main.
  destruct (read_model ft b 0 0 0 1 1 1 Hwf) as [_ Hread]; [lia..|].
  destruct (white_ne_ex b Hne) as [k0 Hk0]. pose proof (wf_pos b k0 Hwf Hk0) as Hpos.
  destruct Hread as (b0 & Hread & _ & Hdim & _).
  { unfold opens. cbv zeta. rewrite !decide_False by exact Hne. lia. }
  rewrite Hread. destruct (Hdim Hne) as (-> & -> & ->).
  destruct (_ && _) eqn:Hbig; [discriminate|].
  destruct (C41_tiles size (NX b) (NY b) (NZ b) fuel Hs Hx Hy Hz) as (xs & ys & zs & -> & -> & -> & Hnd & Hts).
  intros [= <-]. exists (dice_tiles xs ys zs). split; [exact Hnd|]. split; [exact Hts|]. split; [lia|reflexivity].
Qed.

(** A size larger than every dimension is refused. *)
Theorem C41_size_too_large ft fuel size b cutfs : well_formed b -> white b <> ∅ -> NX b < size -> NY b < size -> NZ b < size ->
  dice_main ft fuel size (file_of ft (Some b)) cutfs = None.
Proof.
  intros Hwf Hne Hx Hy Hz. unfold dice_main.
  destruct (read_model ft b 0 0 0 1 1 1 Hwf) as [_ Hread]; [lia..|].
  destruct (white_ne_ex b Hne) as [k0 Hk0]. pose proof (wf_pos b k0 Hwf Hk0) as Hpos.
  destruct Hread as (b0 & Hread & _ & Hdim & _).
  { unfold opens. cbv zeta. rewrite !decide_False by exact Hne. lia. }
  rewrite Hread. destruct (Hdim Hne) as (-> & -> & ->).
  replace ((size >? NX b) && (size >? NY b) && (size >? NZ b)) with true by lia. reflexivity.
Qed.
Print Assumptions C41_size_too_large.

(** A run that ends well: one file per tile, and every remaining voxel of the base is in the file of
    its tile, at its place, and nothing else is. *)
Theorem C41_union ft fuel size b cuts l :
  well_formed b -> white b <> ∅ -> Forall (fun c => match c with Some c => well_formed c | None => True end) cuts ->
  0 < size <= max_int -> NX b <= Z.of_nat fuel -> NY b <= Z.of_nat fuel -> NZ b <= Z.of_nat fuel ->
  dice_main ft fuel size (file_of ft (Some b)) (map (file_of ft) cuts) = Some (l, true) ->
  List.NoDup (map fst l) /\ (forall t, In t (map fst l) <-> tile_corner (NX b) (NY b) (NZ b) size t) /\
  (forall t file, In (t, file) l -> exists out, read ft file 0 0 0 0 0 0 = inr out /\
     forall k, k ∈ white out <-> in_grid size size size k /\ remains b cuts (shift_key (kx t) (ky t) (kz t) k)) /\
  (forall k, remains b cuts k -> exists t file out, In (t, file) l /\ read ft file 0 0 0 0 0 0 = inr out /\
     shift_key (- kx t) (- ky t) (- kz t) k ∈ white out).
Proof.
  intros Hwf Hne Hcuts Hs Hx Hy Hz Hmain.
  destruct (dice_main_spec ft fuel size b cuts _ Hwf Hne ltac:(lia) Hx Hy Hz Hmain) as (ts & Hnd & Hts & _ & Hrun).
  destruct (dice_run_spec _ _ _ _ _ _ _ Hrun) as (H1 & _ & H3). specialize (H1 eq_refl). rewrite H1.
  split; [exact Hnd|]. split; [exact Hts|].
  assert (HO : forall t file, In (t, file) l -> exists out, read ft file 0 0 0 0 0 0 = inr out /\
     forall k, k ∈ white out <-> in_grid size size size k /\ remains b cuts (shift_key (kx t) (ky t) (kz t) k)).
  { intros t file Hin. assert (Ht : In t ts) by (rewrite <- H1; apply in_map_iff; exists (t, file); auto).
    apply Hts in Ht as (Ht & _). unfold in_grid, in_region in Ht.
    destruct (C38_output ft b cuts (kx t) (ky t) (kz t) size size size file Hwf Hne Hcuts) as (out & Hr & Ho); [lia..|apply H3, Hin|].
    exists out. split; [exact Hr|]. intros k. rewrite Ho. replace (size =? 0) with false by lia. reflexivity. }
  split; [exact HO|]. intros k Hk. assert (Hg : in_grid (NX b) (NY b) (NZ b) k) by (apply Hwf, Hk).
  destruct (C41_partition size (NX b) (NY b) (NZ b) k ltac:(lia) Hg) as (t & (Ht & Hin) & _).
  apply Hts in Ht. rewrite <- H1 in Ht. apply in_map_iff in Ht as ([t' file] & E & Hl). cbn in E. subst t'.
  destruct (HO t file Hl) as (out & Hr & Ho). exists t, file, out. split; [exact Hl|]. split; [exact Hr|]. apply Ho.
  unfold in_grid, in_region in *. unfold shift_key, kx, ky, kz in *. destruct k as [[x y] z], t as [[tx ty] tz]. cbn [fst snd] in *.
  split; [lia|]. replace (x + - tx + tx, y + - ty + ty, z + - tz + tz) with (x, y, z) by (apply key_eq; lia). exact Hk.
Qed.
Print Assumptions C41_union.

(** The run ends well iff no tile aborts it; a tile does iff some cut opens there and nothing of the
    base remains in its closed window. *)
Definition aborts (b : binvox Q) (cuts : list (option (binvox Q))) (size : Z) (t : key) : Prop :=
  (exists c, In (Some c) cuts /\ opens (kx t) (ky t) (kz t) c) /\
  ~ exists k, remains b cuts k /\ in_closed (kx t) (ky t) (kz t) size size size k.

Theorem C41_abort ft fuel size b cuts l ok :
  well_formed b -> white b <> ∅ -> Forall (fun c => match c with Some c => well_formed c | None => True end) cuts ->
  0 < size <= max_int -> NX b <= Z.of_nat fuel -> NY b <= Z.of_nat fuel -> NZ b <= Z.of_nat fuel ->
  dice_main ft fuel size (file_of ft (Some b)) (map (file_of ft) cuts) = Some (l, ok) ->
  (ok = true <-> forall t, tile_corner (NX b) (NY b) (NZ b) size t -> ~ aborts b cuts size t) /\
  (ok = false -> exists t, tile_corner (NX b) (NY b) (NZ b) size t /\ aborts b cuts size t /\ ~ In t (map fst l)).
Proof.
  intros Hwf Hne Hcuts Hs Hx Hy Hz Hmain.
  destruct (dice_main_spec ft fuel size b cuts _ Hwf Hne ltac:(lia) Hx Hy Hz Hmain) as (ts & Hnd & Hts & _ & Hrun).
  destruct (dice_run_spec _ _ _ _ _ _ _ Hrun) as (H1 & H2 & H3).
  assert (HA : forall t, tile_corner (NX b) (NY b) (NZ b) size t ->
    (voxcut_out ft (kx t) (ky t) (kz t) size size size (file_of ft (Some b)) (map (file_of ft) cuts) = None <-> aborts b cuts size t)).
  { intros t (Ht & _). unfold in_grid, in_region in Ht.
    destruct (C38_program ft b cuts (kx t) (ky t) (kz t) size size size Hwf Hne Hcuts) as [_ HP]; [lia..|].
    unfold aborts. rewrite <- HP. unfold voxcut_out. destruct (voxcut_main _ _ _ _ _ _ _ _ _); split; discriminate || reflexivity. }
  assert (HF : ok = false -> exists t, tile_corner (NX b) (NY b) (NZ b) size t /\ aborts b cuts size t /\ ~ In t (map fst l)).
  { intros Hok. destruct (H2 Hok) as (done & t & rest & Ets & Hd & Hn). exists t.
    assert (Ht : tile_corner (NX b) (NY b) (NZ b) size t) by (apply Hts; rewrite Ets; apply in_or_app; right; left; reflexivity).
    split; [exact Ht|]. split; [apply HA; assumption|]. rewrite Hd. intros Hin. rewrite Ets in Hnd. apply NoDup_remove_2 in Hnd.
    apply Hnd, in_or_app. left. exact Hin. }
  split; [|exact HF]. split.
  - intros -> t Ht Ha. specialize (H1 eq_refl). apply Hts in Ht as Hin. rewrite <- H1 in Hin.
    apply in_map_iff in Hin as ([t' file] & E & Hl). cbn in E. subst t'. apply H3 in Hl. apply (HA t Ht) in Ha. congruence.
  - intros Hno. destruct ok; [reflexivity|]. destruct (HF eq_refl) as (t & Ht & Ha & _). exfalso. exact (Hno t Ht Ha).
Qed.
Print Assumptions C41_abort.

(** Without cuts every tile is written. *)
Corollary C41_no_cuts ft fuel size b l ok : well_formed b -> white b <> ∅ -> 0 < size <= max_int ->
  NX b <= Z.of_nat fuel -> NY b <= Z.of_nat fuel -> NZ b <= Z.of_nat fuel ->
  dice_main ft fuel size (file_of ft (Some b)) [] = Some (l, ok) -> ok = true.
Proof.
  intros Hwf Hne Hs Hx Hy Hz Hm. apply (C41_abort ft fuel size b [] l ok Hwf Hne (List.Forall_nil _) Hs Hx Hy Hz Hm).
  intros t _ [(c & [] & _) _].
Qed.
Print Assumptions C41_no_cuts.

(** Non-vacuity: a run that ends well, and one that a gap in the model stops after its first tile,
    although a voxel of the last tile remains. *)
Definition ex_gap : binvox Q := BinVOX 4 1 1 0%Q 0%Q 0%Q 4%Q (Some (list_to_set [(0,0,0); (3,0,0)])) None.
Definition ex_other : binvox Q := BinVOX 4 1 1 0%Q 0%Q 0%Q 4%Q (Some (list_to_set [(2,0,0)])) None.

Example C41_run_ex : exists l, dice_main qtext 4 1 (file_of qtext (Some ex_gap)) (map (file_of qtext) []) = Some (l, true) /\
  map fst l = [(0,0,0); (1,0,0); (2,0,0); (3,0,0)].
Proof. eexists. split; vm_compute; reflexivity. Qed.

Theorem C41_gap_stops_run : exists b c l, well_formed b /\ well_formed c /\ white b <> ∅ /\
  dice_main qtext 4 1 (file_of qtext (Some b)) (map (file_of qtext) [Some c]) = Some (l, false) /\ map fst l = [(0,0,0)] /\
  remains b [Some c] (3,0,0).
Proof.
  exists ex_gap, ex_other. eexists. split; [apply ex_wf; [reflexivity|unfold max_int; lia..]|]. split; [apply ex_wf; [reflexivity|unfold max_int; lia..]|].
  assert (H0 : (3,0,0) ∈ white ex_gap) by (apply (bool_decide_unpack _); vm_compute; exact I).
  split; [intros H; rewrite H in H0; set_solver|]. split; [vm_compute; reflexivity|]. split; [vm_compute; reflexivity|].
  split; [exact H0|]. intros c [[= <-]|[]]. apply (bool_decide_unpack _); vm_compute; exact I.
Qed.
Print Assumptions C41_gap_stops_run.
