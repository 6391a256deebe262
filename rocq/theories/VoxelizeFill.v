(** Proofs about the shell map, the row bounds and the flood fill (binvox/voxelize.go:192-305). *)
From Verif Require Import Base BinvoxModel Geom VoxelizeModel VoxelizeSpec VoxelizeLine VoxelizeSlice.
From Coq Require Import ZArith QArith List Lia Lqa Bool.
From stdpp Require Import base list list_numbers gmap.
Import ListNotations.
Open Scope Z_scope.

(** ** Which triangles the shell map holds *)

Definition eqbp (p q : Z * Z) : bool := (fst p =? fst q) && (snd p =? snd q).
Lemma eqbp_iff p q : eqbp p q = true <-> p = q.
Proof.
  destruct p as [a b], q as [c d]. unfold eqbp. cbn [fst snd]. rewrite andb_true_iff, !Z.eqb_eq.
  split; [intros [-> ->]; reflexivity|intros [= -> ->]; auto].
Qed.

Definition hitp (l : list (Z * Z)) (x y : Z) : bool := existsb (eqbp (x, y)) l.
Lemma hitp_iff l x y : hitp l x y = true <-> In (x, y) l.
Proof.
  unfold hitp. rewrite existsb_exists. split.
  - intros (p & Hp & E). apply eqbp_iff in E as ->. exact Hp.
  - intros H. exists (x, y). split; [exact H|]. apply eqbp_iff. reflexivity.
Qed.

Definition in_rows (b : binvox Q) (zi : Z) (k : key) : bool :=
  (kz k =? zi) && (ky k >=? 0) && (ky k <? NY b).

Definition hitk (b : binvox Q) (zi : Z) (l : list (Z * Z)) (k : key) : bool :=
  in_rows b zi k && hitp l (kx k) (ky k).

Lemma hitp_snoc l p x y : hitp (l ++ [p]) x y = hitp l x y || eqbp (x, y) p.
Proof. unfold hitp. rewrite existsb_app. cbn. rewrite orb_false_r. reflexivity. Qed.

Lemma tris_at_insert s k l : tris_at (<[k := l]> s) k = l.
Proof. unfold tris_at. rewrite lookup_insert. reflexivity. Qed.
Lemma tris_at_insert_ne s k k' l : k <> k' -> tris_at (<[k := l]> s) k' = tris_at s k'.
Proof. intros H. unfold tris_at. rewrite lookup_insert_ne by exact H. reflexivity. Qed.

Lemma plot_fold_set b zi t s m pts :
  (forall k t', In t' (tris_at s k) -> taddr t' <> taddr t) ->
  forall k, tris_at (fst (fold_left (plotFunc b zi t) pts (s, m))) k =
            tris_at s k ++ (if hitk b zi pts k then [t] else []).
Proof.
  intros Hf. induction pts as [|p pts IH] using rev_ind; intros k.
  - unfold hitk. cbn. rewrite andb_false_r, app_nil_r. reflexivity.
  - rewrite fold_left_app. cbn [fold_left].
    set (st := fold_left (plotFunc b zi t) pts (s, m)) in *. destruct p as [x y]. unfold plotFunc.
    unfold hitk. rewrite hitp_snoc. fold (hitk b zi pts k).
    destruct ((y >=? 0) && (y <? NY b)) eqn:Ey.
    + cbn [fst]. unfold addTri.
      assert (Ex : existsb (fun t' => taddr t' =? taddr t) (tris_at (fst st) (x, y, zi)) = hitk b zi pts (x, y, zi)).
      { rewrite IH, existsb_app.
        assert (E0 : existsb (fun t' => taddr t' =? taddr t) (tris_at s (x, y, zi)) = false).
        { apply not_true_is_false. rewrite existsb_exists. intros (t' & H1 & H2). apply Z.eqb_eq in H2. apply (Hf _ _ H1 H2). }
        rewrite E0. destruct (hitk b zi pts (x, y, zi)); cbn; rewrite ?Z.eqb_refl; reflexivity. }
      rewrite Ex. destruct (decide (k = (x, y, zi))) as [->|Hne].
      * assert (Eh : in_rows b zi (x, y, zi) = true).
        { unfold in_rows, kz, ky. cbn [fst snd]. rewrite Z.eqb_refl. exact Ey. }
        rewrite Eh. cbn [andb]. replace (eqbp (kx (x, y, zi), ky (x, y, zi)) (x, y)) with true
          by (symmetry; apply eqbp_iff; reflexivity).
        rewrite orb_true_r. destruct (hitk b zi pts (x, y, zi)) eqn:Eh2.
        -- rewrite IH, Eh2. reflexivity.
        -- rewrite tris_at_insert, IH, Eh2, app_nil_r. reflexivity.
      * assert (Ek : in_rows b zi k && eqbp (kx k, ky k) (x, y) = false).
        { apply not_true_is_false. intros E. apply andb_true_iff in E as [E1 E2]. apply eqbp_iff in E2.
          unfold in_rows in E1. rewrite !andb_true_iff, Z.eqb_eq in E1. apply Hne.
          destruct k as [[a c] d]. unfold kx, ky, kz in *. cbn [fst snd] in *. injection E2 as -> ->. f_equal. apply E1. }
        rewrite andb_orb_distrib_r, Ek, orb_false_r. fold (hitk b zi pts k).
        rewrite <- IH. destruct (hitk b zi pts (x, y, zi)); [reflexivity|].
        apply tris_at_insert_ne. congruence.
    + assert (Ek : in_rows b zi k && eqbp (kx k, ky k) (x, y) = false).
      { apply not_true_is_false. intros E. apply andb_true_iff in E as [E1 E2]. apply eqbp_iff in E2.
        unfold in_rows in E1. rewrite <- andb_assoc in E1. apply andb_true_iff in E1 as [_ E1].
        injection E2 as E2 E3. rewrite E3 in E1. congruence. }
      rewrite andb_orb_distrib_r, Ek, orb_false_r. fold (hitk b zi pts k). apply IH.
Qed.

Definition hit_tri (b : binvox Q) (zi : Z) (k : key) (t : tri) : bool := hitk b zi (outline b zi t) k.

Lemma intersectZPlane_snoc mesh t z : intersectZPlane (mesh ++ [t]) z =
  intersectZPlane mesh z ++ (match intersectTriZPlane t z with Some p => [p] | None => [] end).
Proof.
  induction mesh as [|u mesh IH]; cbn [app intersectZPlane].
  - destruct (intersectTriZPlane t z); reflexivity.
  - rewrite IH. destruct (intersectTriZPlane u z); reflexivity.
Qed.

Lemma tri_int_tri t z p : intersectTriZPlane t z = Some p -> snd p = t.
Proof. destruct p as [[p q] t']. intros H. apply tri_sound in H as [-> _]. reflexivity. Qed.

Theorem shell_tris b mesh zi : NoDup (map taddr mesh) ->
  forall k, tris_at (fst (slice_shell b mesh zi)) k = List.filter (hit_tri b zi k) mesh.
Proof.
  unfold slice_shell. fold (slice_z b zi). induction mesh as [|t mesh IH] using rev_ind; intros Hn k.
  - cbn. reflexivity.
  - rewrite List.map_app in Hn. apply NoDup_app in Hn as (Hn1 & Hn2 & _).
    rewrite intersectZPlane_snoc, fold_left_app, List.filter_app. cbn [List.filter].
    set (st := fold_left (rasterizeShellPair b zi) (intersectZPlane mesh (slice_z b zi)) (∅, ∅)) in *.
    specialize (IH Hn1).
    unfold hit_tri at 2, outline. destruct (intersectTriZPlane t (slice_z b zi)) as [p|] eqn:E.
    + cbn [fold_left]. unfold rasterizeShellPair. rewrite (tri_int_tri _ _ _ E).
      rewrite (surjective_pairing st), plot_fold_set.
      * rewrite IH. reflexivity.
      * intros k' t' Ht' Ea. rewrite IH in Ht'. apply filter_In in Ht' as [Ht' _].
        apply (Hn2 (taddr t')); [apply elem_of_list_In, in_map, Ht'|]. cbn. rewrite Ea. left.
    + cbn [fold_left]. rewrite IH. unfold hitk. cbn [hitp existsb]. rewrite andb_false_r, app_nil_r. reflexivity.
Qed.

(** ** The row bounds *)
Definition mm_ok (P : Z -> Z -> Prop) (m : xMinMaxMap) : Prop :=
  forall y, match m !! y with
            | Some (mn, mx) => P mn y /\ P mx y /\ forall x, P x y -> mn <= x <= mx
            | None => forall x, ~ P x y
            end.

Lemma mm_update_ok P m x y : mm_ok P m -> mm_ok (fun x' y' => P x' y' \/ (x' = x /\ y' = y)) (mm_update m x y).
Proof.
  intros Hm y'. pose proof (Hm y') as Hy. unfold mm_update.
  destruct (decide (y' = y)) as [->|Hne].
  - destruct (m !! y) as [[mn mx]|] eqn:E; rewrite lookup_insert.
    + destruct Hy as (H1 & H2 & H3). destruct (Z.ltb_spec x mn), (Z.gtb_spec x mx); (split; [auto|split; [auto|]]);
        intros x' [Hx|[-> _]]; try (pose proof (H3 _ Hx)); pose proof (H3 _ H1); pose proof (H3 _ H2); lia.
    + split; [auto|split; [auto|]]. intros x' [Hx|[-> _]]; [destruct (Hy x' Hx)|lia].
  - assert (Hl : (match m !! y with
       | Some (mn, mx) => <[y:=(if x <? mn then x else mn, if x >? mx then x else mx)]> m
       | None => <[y:=(x, x)]> m end) !! y' = m !! y').
    { destruct (m !! y) as [[mn mx]|]; apply lookup_insert_ne; congruence. }
    rewrite Hl. destruct (m !! y') as [[mn mx]|].
    + destruct Hy as (H1 & H2 & H3). split; [auto|split; [auto|]]. intros x' [Hx|[_ ?]]; [auto|congruence].
    + intros x' [Hx|[_ ?]]; [apply (Hy x' Hx)|congruence].
Qed.

Lemma mm_ok_iff P P' m : (forall x y, P x y <-> P' x y) -> mm_ok P m -> mm_ok P' m.
Proof.
  intros Hi Hm y. specialize (Hm y). destruct (m !! y) as [[mn mx]|].
  - destruct Hm as (H1 & H2 & H3). repeat split; try (apply Hi; assumption); apply H3, Hi; assumption.
  - intros x Hx. apply (Hm x), Hi, Hx.
Qed.

Definition rowP (b : binvox Q) (zi : Z) (mesh : list tri) (x y : Z) : Prop :=
  0 <= y < NY b /\ exists t, In t mesh /\ In (x, y) (outline b zi t).

Lemma plot_fold_mm b zi t pts P s m : mm_ok P m ->
  mm_ok (fun x y => P x y \/ (0 <= y < NY b /\ In (x, y) pts)) (snd (fold_left (plotFunc b zi t) pts (s, m))).
Proof.
  intros Hm. induction pts as [|[x y] pts IH] using rev_ind.
  - cbn. eapply mm_ok_iff; [|exact Hm]. intros x y. tauto.
  - rewrite fold_left_app. cbn [fold_left]. set (st := fold_left (plotFunc b zi t) pts (s, m)) in *.
    unfold plotFunc. destruct ((y >=? 0) && (y <? NY b)) eqn:Ey.
    + cbn [snd]. eapply mm_ok_iff; [|apply mm_update_ok, IH]. intros x' y'. cbn.
      rewrite in_app_iff. cbn. rewrite andb_true_iff, Z.geb_le, Z.ltb_lt in Ey.
      split; [|intuition congruence]. intros [[?|?]|[-> ->]]; [tauto|tauto|]. right. split; [lia|auto].
    + eapply mm_ok_iff; [|exact IH]. intros x' y'. cbn. rewrite in_app_iff. cbn.
      rewrite andb_false_iff, Z.ltb_ge in Ey. split; [tauto|].
      intros [?|[Hy [?|[[= <- <-]|[]]]]]; [tauto|tauto|]. exfalso.
      destruct Ey as [Ey|Ey]; [|lia]. destruct (Z.geb_spec y 0); [discriminate|lia].
Qed.

Theorem shell_rows b mesh zi : mm_ok (rowP b zi mesh) (snd (slice_shell b mesh zi)).
Proof.
  unfold slice_shell. fold (slice_z b zi). induction mesh as [|t mesh IH] using rev_ind.
  - intros y. cbn [intersectZPlane fold_left snd]. rewrite lookup_empty. intros x (_ & t & [] & _).
  - rewrite intersectZPlane_snoc, fold_left_app.
    set (st := fold_left (rasterizeShellPair b zi) (intersectZPlane mesh (slice_z b zi)) (∅, ∅)) in *.
    assert (Hsplit : forall x y, rowP b zi (mesh ++ [t]) x y <->
      rowP b zi mesh x y \/ (0 <= y < NY b /\ In (x, y) (outline b zi t))).
    { intros x y. unfold rowP. setoid_rewrite in_app_iff. cbn. split.
      - intros (Hy & t' & [Ht|[<-|[]]] & Ho); eauto.
      - intros [(Hy & t' & Ht & Ho)|[Hy Ho]]; eauto 6. }
    destruct (intersectTriZPlane t (slice_z b zi)) as [p|] eqn:E.
    + cbn [fold_left]. unfold rasterizeShellPair. rewrite (surjective_pairing st).
      eapply mm_ok_iff; [|apply plot_fold_mm, IH]. intros x y. rewrite Hsplit. unfold outline. rewrite E. reflexivity.
    + cbn [fold_left]. eapply mm_ok_iff; [|exact IH]. intros x y. rewrite Hsplit. unfold outline. rewrite E. cbn. tauto.
Qed.

(** ** Counting crossings *)
Definition fresh_tri (seen : list Z) (t : tri) : bool := negb (existsb (Z.eqb (taddr t)) seen).

Lemma qlt_eq a a' c c' : (a == a')%Q -> (c == c')%Q -> qlt a c = qlt a' c'.
Proof.
  intros Ha Hc. apply eq_true_iff_eq. rewrite !qlt_iff, Ha, Hc. reflexivity.
Qed.

Lemma facing_in_d t : qlt epsilon (px (tnorm t) * -1 + py (tnorm t) * 0 + pz (tnorm t) * 0)%Q = facing_in t.
Proof.
  unfold facing_in. apply eq_true_iff_eq. rewrite !qlt_iff. split; intros; lra.
Qed.
Lemma facing_out_d t : qlt (px (tnorm t) * -1 + py (tnorm t) * 0 + pz (tnorm t) * 0)%Q (- epsilon) = facing_out t.
Proof.
  unfold facing_out. apply eq_true_iff_eq. rewrite !qlt_iff. split; intros; lra.
Qed.

Lemma facing_excl t : facing_in t = true -> facing_out t = false.
Proof.
  unfold facing_in, facing_out. rewrite qlt_iff, qlt_false. unfold epsilon. intros. lra.
Qed.

Definition countb (P : tri -> bool) (l : list tri) : Z := Z.of_nat (length (List.filter P l)).

Lemma countb_cons P t l : countb P (t :: l) = (if P t then 1 else 0) + countb P l.
Proof. unfold countb. cbn [List.filter]. destruct (P t); cbn [length]; lia. Qed.

Lemma countb_ext P P' l : (forall t, In t l -> P t = P' t) -> countb P l = countb P' l.
Proof. intros H. unfold countb. f_equal. f_equal. apply filter_ext_in, H. Qed.

Lemma count_tris_spec ts : forall seen cin cout, NoDup (map taddr ts) ->
  exists seen', count_tris ts seen cin cout =
    (cin + countb (fun t => fresh_tri seen t && facing_in t) ts,
     cout + countb (fun t => fresh_tri seen t && facing_out t) ts, seen') /\
    forall a, In a seen' <-> In a seen \/ In a (map taddr ts).
Proof.
  induction ts as [|t ts IH]; intros seen cin cout Hn.
  - exists seen. unfold countb. cbn [count_tris List.filter length map In]. split; [rewrite !Z.add_0_r; reflexivity|]. intros a. tauto.
  - inversion Hn as [|? ? Ht Hn']; subst. rewrite !countb_cons. cbn [count_tris].
    assert (Hex : existsb (Z.eqb (taddr t)) seen = true <-> In (taddr t) seen).
    { rewrite existsb_exists. split; [intros (a & Ha & E); apply Z.eqb_eq in E as ->; exact Ha|].
      intros H. exists (taddr t). split; [exact H|apply Z.eqb_refl]. }
    unfold fresh_tri at 1 3. destruct (existsb (Z.eqb (taddr t)) seen) eqn:Es.
    + destruct (IH seen cin cout Hn') as (seen' & E & Hs). exists seen'. split; [exact E|].
      intros a. rewrite Hs. cbn [map In]. assert (In (taddr t) seen) by (apply Hex; reflexivity). intuition congruence.
    + assert (Hfr : forall u, In u ts -> fresh_tri (taddr t :: seen) u = fresh_tri seen u).
      { intros u Hu. unfold fresh_tri. cbn [existsb]. destruct (Z.eqb_spec (taddr u) (taddr t)) as [E|E]; [|reflexivity].
        exfalso. apply Ht. rewrite <- E. apply elem_of_list_In, in_map, Hu. }
      rewrite facing_in_d, facing_out_d. cbn [negb andb].
      assert (Hgo : forall cin cout, exists seen', count_tris ts (taddr t :: seen) cin cout =
        (cin + countb (fun t => fresh_tri seen t && facing_in t) ts,
         cout + countb (fun t => fresh_tri seen t && facing_out t) ts, seen') /\
        forall a, In a seen' <-> In a seen \/ In a (map taddr (t :: ts))).
      { intros ci co. destruct (IH (taddr t :: seen) ci co Hn') as (seen' & E & Hs). exists seen'. split.
        - rewrite E.
          rewrite (countb_ext _ (fun u => fresh_tri seen u && facing_in u)) by (intros u Hu; rewrite (Hfr u Hu); reflexivity).
          rewrite (countb_ext (fun u => fresh_tri (taddr t :: seen) u && facing_out u) (fun u => fresh_tri seen u && facing_out u)) by (intros u Hu; rewrite (Hfr u Hu); reflexivity).
          reflexivity.
        - intros a. rewrite Hs. cbn [map In]. tauto. }
      destruct (facing_in t) eqn:Ei; [|destruct (facing_out t) eqn:Eo].
      * rewrite (facing_excl t Ei). destruct (Hgo (cin + 1) cout) as (seen' & E & Hs). exists seen'. split; [|exact Hs].
        rewrite E. apply f_equal2; [apply f_equal2; lia|reflexivity].
      * destruct (Hgo cin (cout + 1)) as (seen' & E & Hs). exists seen'. split; [|exact Hs].
        rewrite E. apply f_equal2; [apply f_equal2; lia|reflexivity].
      * destruct (Hgo cin cout) as (seen' & E & Hs). exists seen'. split; [|exact Hs].
        rewrite E. apply f_equal2; [apply f_equal2; lia|reflexivity].
Qed.

(** ** One row *)
Section Row.
  Context (b : binvox Q) (mesh : list tri) (zi y : Z).
  Context (Hn : NoDup (map taddr mesh)) (Hy : 0 <= y < NY b).

  Let s := fst (slice_shell b mesh zi).
  Let hits (x : Z) (t : tri) : bool := hitp (outline b zi t) x y.

  Lemma row_tris x : tris_at s (x, y, zi) = List.filter (hits x) mesh.
  Proof.
    unfold s. rewrite shell_tris by exact Hn. apply filter_ext_in. intros t _.
    unfold hit_tri, hitk, in_rows, kx, ky, kz, hits. cbn [fst snd].
    rewrite Z.eqb_refl. destruct (Z.geb_spec y 0); [|lia]. destruct (Z.ltb_spec y (NY b)); [reflexivity|lia].
  Qed.

  Lemma row_xs_in t x : In x (row_xs b zi y t) <-> hits x t = true.
  Proof.
    unfold row_xs, hits. rewrite hitp_iff, in_map_iff. split.
    - intros ([x' y'] & <- & Hf). apply filter_In in Hf as [Hf E]. apply Z.eqb_eq in E. cbn in *. subst. exact Hf.
    - intros H. exists (x, y). split; [reflexivity|]. apply filter_In. split; [exact H|]. apply Z.eqb_refl.
  Qed.

  Lemma leftmost_iff t x : leftmost b zi y t x = true <->
    hits x t = true /\ forall x', hits x' t = true -> x <= x'.
  Proof.
    unfold leftmost. rewrite andb_true_iff, existsb_exists, forallb_forall. split.
    - intros [(x' & Hx & E) Hf]. apply Z.eqb_eq in E as ->. split; [apply row_xs_in, Hx|].
      intros x'' H. apply Z.leb_le, Hf, row_xs_in, H.
    - intros [H1 H2]. split; [exists x; split; [apply row_xs_in, H1|apply Z.eqb_refl]|].
      intros x' H. apply Z.leb_le, H2, row_xs_in, H.
  Qed.

  Definition seen_ok (xi : Z) (seen : list Z) : Prop :=
    forall t, In t mesh -> (In (taddr t) seen <-> exists x', x' < xi /\ hits x' t = true).

  Lemma addr_inj t t' : In t mesh -> In t' mesh -> taddr t = taddr t' -> t = t'.
  Proof.
    clear Hy s hits. induction mesh as [|u l IH]; intros Ht Ht' E; [destruct Ht|].
    inversion Hn as [|? ? Hu Hn']; subst. rewrite elem_of_list_In in Hu.
    destruct Ht as [->|Ht], Ht' as [->|Ht']; [reflexivity| | |apply IH; assumption].
    - exfalso. apply Hu. rewrite E. apply in_map, Ht'.
    - exfalso. apply Hu. rewrite <- E. apply in_map, Ht.
  Qed.

  Lemma fresh_leftmost xi seen t : seen_ok xi seen -> In t mesh ->
    hits xi t && fresh_tri seen t = leftmost b zi y t xi.
  Proof.
    intros Hs Ht. apply eq_true_iff_eq. rewrite leftmost_iff, andb_true_iff. unfold fresh_tri. rewrite negb_true_iff.
    assert (Hx : existsb (Z.eqb (taddr t)) seen = false <-> ~ In (taddr t) seen).
    { rewrite <- not_true_iff_false, existsb_exists. split; intros H Hc; apply H.
      - exists (taddr t). split; [exact Hc|apply Z.eqb_refl].
      - destruct Hc as (a & Ha & E). apply Z.eqb_eq in E as ->. exact Ha. }
    rewrite Hx, (Hs t Ht). split; intros [H1 H2]; (split; [exact H1|]).
    - intros x' Hx'. destruct (Z_lt_le_dec x' xi); [|assumption]. exfalso. apply H2. eauto.
    - intros (x' & Hlt & Hx'). specialize (H2 _ Hx'). lia.
  Qed.

  Lemma filter_filter (P P' : tri -> bool) l : List.filter P (List.filter P' l) = List.filter (fun t => P' t && P t) l.
  Proof.
    induction l as [|t l IH]; [reflexivity|]. cbn [List.filter]. destruct (P' t); cbn [List.filter andb]; [|exact IH].
    destruct (P t); [f_equal|]; exact IH.
  Qed.

  Lemma nodup_filter P : NoDup (map taddr (List.filter P mesh)).
  Proof.
    clear Hy s hits. induction mesh as [|u l IH]; [constructor|].
    inversion Hn as [|? ? Hu Hn']; subst. cbn [List.filter]. destruct (P u); [|apply IH; assumption].
    cbn [map]. constructor; [|apply IH; assumption]. rewrite elem_of_list_In, in_map_iff. intros (t & E & Ht).
    apply Hu. apply filter_In in Ht as [Ht _]. rewrite elem_of_list_In, <- E. apply in_map, Ht.
  Qed.

  Lemma count_row xi seen : seen_ok xi seen ->
    exists cin cout seen', count_tris (tris_at s (xi, y, zi)) seen 0 0 = (cin, cout, seen') /\
      cin - cout = balance b mesh zi y xi /\ seen_ok (xi + 1) seen'.
  Proof.
    intros Hs. rewrite row_tris.
    destruct (count_tris_spec (List.filter (hits xi) mesh) seen 0 0 (nodup_filter _)) as (seen' & E & Hs').
    do 3 eexists. split; [exact E|]. split.
    - rewrite !Z.add_0_l. unfold balance, countb. rewrite !filter_filter.
      f_equal; f_equal; f_equal; apply filter_ext_in; intros t Ht; rewrite andb_assoc, (fresh_leftmost xi) by assumption; reflexivity.
    - intros t Ht. rewrite Hs', (Hs t Ht), in_map_iff. split.
      + intros [(x' & Hlt & Hx)|(t' & Ea & Ht')]; [exists x'; split; [lia|exact Hx]|].
        apply filter_In in Ht' as [Ht' Hh]. rewrite (addr_inj t t' Ht Ht' (eq_sym Ea)). exists xi. split; [lia|exact Hh].
      + intros (x' & Hlt & Hx). destruct (Z.eq_dec x' xi) as [->|Hne].
        * right. exists t. split; [reflexivity|]. apply filter_In. auto.
        * left. exists x'. split; [lia|exact Hx].
  Qed.

  Lemma balance_none x : (forall t, In t mesh -> hits x t = false) -> balance b mesh zi y x = 0.
  Proof.
    intros H. unfold balance.
    assert (E : forall P : tri -> bool, List.filter (fun t => leftmost b zi y t x && P t) mesh = []).
    { intros P. rewrite (filter_ext_in _ (fun _ => false)).
      - clear. induction mesh; auto.
      - intros t Ht. assert (leftmost b zi y t x = false) as ->; [|reflexivity].
        apply not_true_is_false. rewrite leftmost_iff, (H t Ht). intros [? _]. discriminate. }
    rewrite !E. reflexivity.
  Qed.

  Lemma inside_succ x : inside_at b mesh zi y (x + 1) <->
    0 < balance b mesh zi y x \/ (balance b mesh zi y x = 0 /\ inside_at b mesh zi y x).
  Proof.
    unfold inside_at. split.
    - intros (x' & Hlt & Hp & Hz). destruct (Z.eq_dec x' x) as [->|Hne]; [left; exact Hp|].
      pose proof (Hz x ltac:(lia) ltac:(lia)) as Hx. destruct (Z.eq_dec (balance b mesh zi y x) 0) as [E|E]; [|left; lia].
      right. split; [exact E|]. exists x'. split; [lia|]. split; [exact Hp|]. intros x'' H1 H2. apply Hz; lia.
    - intros [Hp|[E (x' & Hlt & Hp & Hz)]].
      + exists x. split; [lia|]. split; [exact Hp|]. lia.
      + exists x'. split; [lia|]. split; [exact Hp|]. intros x'' H1 H2.
        destruct (Z.eq_dec x'' x) as [->|]; [lia|]. apply Hz; lia.
  Qed.

  Definition hit_any (x : Z) : Prop := exists t, In t mesh /\ hits x t = true.

  Lemma row_len x : (0 <? length (tris_at s (x, y, zi)))%nat = true <-> hit_any x.
  Proof.
    rewrite row_tris, Nat.ltb_lt. unfold hit_any. split.
    - destruct (List.filter (hits x) mesh) as [|t l] eqn:E; cbn [length]; [lia|]. intros _. exists t.
      assert (Ht : In t (List.filter (hits x) mesh)) by (rewrite E; left; reflexivity). apply filter_In in Ht. exact Ht.
    - intros (t & Ht & Hh). assert (Hi : In t (List.filter (hits x) mesh)) by (apply filter_In; auto).
      destruct (List.filter (hits x) mesh); [destruct Hi|cbn [length]; lia].
  Qed.

  Lemma balance_hit x : balance b mesh zi y x <> 0 -> hit_any x.
  Proof.
    intros Hb. destruct ((0 <? length (tris_at s (x, y, zi)))%nat) eqn:El; [apply row_len, El|].
    exfalso. apply Hb, balance_none. intros t Ht. apply not_true_is_false. intros Hh.
    assert (Ht' : hit_any x) by (exists t; auto). apply row_len in Ht'. congruence.
  Qed.

  Lemma row_loop_spec n : forall xi inside seen, seen_ok xi seen ->
    (inside = true <-> inside_at b mesh zi y xi) ->
    forall k, In k (row_loop n (NX b) s y zi xi inside seen) <->
      kz k = zi /\ ky k = y /\ xi <= kx k < xi + Z.of_nat n /\ kx k < NX b /\
      (hit_any (kx k) \/ (0 <= kx k /\ inside_at b mesh zi y (kx k))).
  Proof.
    induction n as [|n IH]; intros xi inside seen Hs Hins k.
    { cbn [row_loop In]. split; [intros []|intros (_ & _ & ? & _); lia]. }
    cbn [row_loop]. destruct (Z.geb_spec xi (NX b)) as [Hge|Hlt].
    { cbn [In]. split; [intros []|]. intros (_ & _ & ? & ? & _). lia. }
    assert (Hk : forall P : Prop, (k = (xi, y, zi) /\ P) <-> (kz k = zi /\ ky k = y /\ kx k = xi /\ P)).
    { intros P. destruct k as [[a c] d]. unfold kx, ky, kz. cbn [fst snd]. split.
      - intros [[= -> -> ->] HP]. auto.
      - intros (-> & -> & -> & HP). auto. }
    destruct ((0 <? length (tris_at s (xi, y, zi)))%nat) eqn:El.
    - apply row_len in El. destruct (count_row xi seen Hs) as (cin & cout & seen' & E & Hb & Hs'). rewrite E.
      set (inside' := if cin >? cout then true else if cin <? cout then false else inside).
      assert (Hins' : inside' = true <-> inside_at b mesh zi y (xi + 1)).
      { rewrite inside_succ. unfold inside'. rewrite <- Hb. destruct (Z.gtb_spec cin cout), (Z.ltb_spec cin cout); try lia.
        rewrite Hins. split; [right; split; [lia|assumption]|]. intros [?|[_ ?]]; [lia|assumption]. }
      cbn [In]. rewrite (IH (xi + 1) inside' seen' Hs' Hins' k). split.
      + intros [<-|(H1 & H2 & H3 & H4 & H5)].
        * unfold kx, ky, kz. cbn [fst snd]. repeat split; try lia. left. exact El.
        * repeat split; try assumption; lia.
      + intros (H1 & H2 & H3 & H4 & H5). destruct (Z.eq_dec (kx k) xi) as [Ex|Ex].
        * left. symmetry. apply (Hk True). auto.
        * right. repeat split; try assumption; lia.
    - assert (Hno : ~ hit_any xi) by (rewrite <- row_len, El; discriminate).
      assert (Hno' : forall t, In t mesh -> hits xi t = false).
      { intros t Ht. apply not_true_is_false. intros Hh. apply Hno. exists t. auto. }
      assert (Hs' : seen_ok (xi + 1) seen).
      { intros t Ht. rewrite (Hs t Ht). split; intros (x' & Hlt' & Hx).
        - exists x'. split; [lia|exact Hx].
        - exists x'. split; [|exact Hx]. destruct (Z.eq_dec x' xi) as [->|]; [|lia]. rewrite (Hno' t Ht) in Hx. discriminate. }
      pose proof (balance_none xi Hno') as Hb0.
      assert (Hins' : inside = true <-> inside_at b mesh zi y (xi + 1)).
      { rewrite inside_succ, Hb0, Hins. split; [auto|]. intros [?|[_ ?]]; [lia|assumption]. }
      specialize (IH (xi + 1) inside seen Hs' Hins' k).
      destruct (inside && (xi >=? 0)) eqn:Ei; cbn [In]; rewrite IH; clear IH.
      + apply andb_true_iff in Ei as [Ei E0]. apply Z.geb_le in E0. apply Hins in Ei. split.
        * intros [<-|(H1 & H2 & H3 & H4 & H5)].
          -- unfold kx, ky, kz. cbn [fst snd]. repeat split; try lia. right. auto.
          -- repeat split; try assumption; lia.
        * intros (H1 & H2 & H3 & H4 & H5). destruct (Z.eq_dec (kx k) xi) as [Ex|Ex].
          -- left. symmetry. apply (Hk True). auto.
          -- right. repeat split; try assumption; lia.
      + split.
        * intros (H1 & H2 & H3 & H4 & H5). repeat split; try assumption; lia.
        * intros (H1 & H2 & H3 & H4 & H5). destruct (Z.eq_dec (kx k) xi) as [Ex|Ex].
          -- exfalso. rewrite Ex in H5. destruct H5 as [H5|[H5 H6]]; [contradiction|].
             apply Hins in H6. rewrite H6 in Ei. cbn in Ei. destruct (Z.geb_spec xi 0); [discriminate|lia].
          -- repeat split; try assumption; lia.
  Qed.

  Lemma hit_any_shell x : hit_any x <-> shell b mesh (x, y, zi).
  Proof.
    unfold hit_any, shell, kx, ky, kz, hits. cbn [fst snd]. setoid_rewrite hitp_iff. reflexivity.
  Qed.

  Lemma hit_any_rowP x : hit_any x <-> rowP b zi mesh x y.
  Proof.
    unfold hit_any, rowP, hits. setoid_rewrite hitp_iff. tauto.
  Qed.

  Lemma row_voxels_spec k : In k (row_voxels b mesh zi y) <-> ky k = y /\ solid b mesh zi k.
  Proof.
    assert (Er : row_voxels b mesh zi y = match snd (slice_shell b mesh zi) !! y with
        | Some (mn, mx) => fill_row b zi s y mn mx | None => [] end).
    { unfold row_voxels, s. destruct (slice_shell b mesh zi). reflexivity. }
    rewrite Er. clear Er. pose proof (shell_rows b mesh zi y) as Hm.
    set (m := snd (slice_shell b mesh zi)) in *.
    assert (Hsol : ky k = y /\ solid b mesh zi k <-> kz k = zi /\ ky k = y /\ kx k < NX b /\
      (hit_any (kx k) \/ 0 <= kx k /\ inside_at b mesh zi y (kx k) /\ exists x', kx k < x' /\ hit_any x')).
    { unfold solid. destruct k as [[a c] d]. unfold kx, ky, kz. cbn [fst snd]. setoid_rewrite hit_any_shell.
      split.
      - intros (-> & -> & H1 & H2 & H3). auto.
      - intros (-> & -> & H2 & H3). auto. }
    rewrite Hsol. destruct (m !! y) as [[mn mx]|].
    - destruct Hm as (H1 & H2 & H3). unfold fill_row.
      rewrite <- hit_any_rowP in H1, H2.
      assert (H3' : forall x, hit_any x -> mn <= x <= mx) by (intros x Hx; apply H3, hit_any_rowP, Hx).
      pose proof (H3' _ H1) as Hmm.
      pose proof (row_loop_spec (Z.to_nat (mx + 1 - mn)) mn false []) as Hr.
      cbn zeta in Hr. rewrite Hr.
      + split.
        * intros (E1 & E2 & E3 & E4 & E5). repeat split; try assumption.
          destruct E5 as [E5|[E5 E6]]; [left; exact E5|].
          destruct (Z.eq_dec (kx k) mx) as [->|Hne]; [left; exact H2|]. right. split; [exact E5|]. split; [exact E6|].
          exists mx. split; [lia|exact H2].
        * intros (E1 & E2 & E3 & E4). repeat split; try assumption.
          -- destruct E4 as [E4|(_ & (x' & Hx' & Hb & _) & _)]; [apply H3' in E4; lia|].
             assert (Hh : hit_any x') by (apply balance_hit; lia).
             apply H3' in Hh. lia.
          -- destruct E4 as [E4|(_ & _ & (x' & Hx' & Hh))]; apply H3' in E4 || apply H3' in Hh; lia.
          -- tauto.
      + intros t Ht. split; [intros []|]. intros (x' & Hx' & Hh). exfalso.
        assert (Ha : hit_any x') by (exists t; auto). apply H3' in Ha. lia.
      + split; [discriminate|]. intros (x' & Hx' & Hb & _). exfalso.
        rewrite balance_none in Hb; [lia|]. intros t Ht. apply not_true_is_false. intros Hh.
        assert (Ha : hit_any x') by (exists t; auto). apply H3' in Ha. lia.
    - cbn [In]. split; [intros []|]. intros (E1 & E2 & E3 & [E4|(_ & _ & (x' & _ & Hh))]).
      + apply hit_any_rowP in E4. apply (Hm _ E4).
      + apply hit_any_rowP in Hh. apply (Hm _ Hh).
  Qed.
End Row.

Theorem slice_spec b mesh zi : NoDup (map taddr mesh) ->
  forall k, In k (slice_voxels b mesh zi) <-> solid b mesh zi k.
Proof.
  intros Hn k. unfold slice_voxels, slice_rows. rewrite in_flat_map. pose proof (shell_rows b mesh zi) as Hm.
  set (m := snd (slice_shell b mesh zi)) in *.
  assert (Hrow : forall y, In y (map fst (map_to_list m)) <-> is_Some (m !! y)).
  { intros y. rewrite in_map_iff. split.
    - intros ([y' v] & <- & Hi). apply elem_of_list_In, elem_of_map_to_list in Hi. eauto.
    - intros [v Hv]. exists (y, v). split; [reflexivity|]. apply elem_of_list_In, elem_of_map_to_list, Hv. }
  assert (Hyr : forall y, is_Some (m !! y) -> 0 <= y < NY b).
  { intros y [[mn mx] E]. specialize (Hm y). rewrite E in Hm. destruct Hm as ((H & _) & _). exact H. }
  split.
  - intros (y & Hy & Hk). apply Hrow, Hyr in Hy. apply (row_voxels_spec b mesh zi y Hn Hy) in Hk. apply Hk.
  - intros Hs. exists (ky k). pose proof Hs as (_ & Hy & _). split; [|apply row_voxels_spec; auto].
    apply Hrow. specialize (Hm (ky k)). destruct (m !! ky k); [eauto|]. exfalso.
    destruct Hs as (<- & _ & _ & [Hsh|(_ & _ & x' & _ & Hsh)]).
    + apply (Hm (kx k)). split; [exact Hy|exact Hsh].
    + apply (Hm x'). split; [exact Hy|exact Hsh].
Qed.
