(** Voxelizing on a grid moved by whole voxels gives the same voxels, moved. *)
From Verif Require Import Base BaseLemmas BinvoxModel BinvoxSpec Geom VoxelizeModel VoxelizeSpec VoxelizeLine VoxelizeSlice VoxelizeFill VoxelizeProps.
From Coq Require Import ZArith QArith Qround List Lia Lqa Bool.
From stdpp Require Import base list gmap sets.
Import ListNotations.
Open Scope Z_scope.

Definition move2 (a c : Z) (p : Z * Z) : Z * Z := (fst p + a, snd p + c).

Lemma bres_loop_shift a c n : forall x y eps dx dy,
  bres_loop n (x + a) (y + c) eps dx dy = map (move2 a c) (bres_loop n x y eps dx dy).
Proof.
  induction n as [|n IH]; intros x y eps dx dy; [reflexivity|]. cbn [bres_loop map]. f_equal.
  destruct (2 * (eps + dy) >=? dx).
  - rewrite <- IH. f_equal; lia.
  - rewrite <- IH. f_equal; lia.
Qed.

Lemma first_shift a c x1 y1 x2 y2 :
  firstOctantBressenham (x1 + a) (y1 + c) (x2 + a) (y2 + c) = map (move2 a c) (firstOctantBressenham x1 y1 x2 y2).
Proof.
  unfold firstOctantBressenham. rewrite <- bres_loop_shift. f_equal; lia.
Qed.

Lemma plotLine_shift a c x1 y1 x2 y2 :
  plotLine (x1 + a) (y1 + c) (x2 + a) (y2 + c) = map (move2 a c) (plotLine x1 y1 x2 y2).
Proof.
  unfold plotLine. cbv zeta.
  replace (x2 + a - (x1 + a)) with (x2 - x1) by lia. replace (y2 + c - (y1 + c)) with (y2 - y1) by lia.
  replace (- (x1 + a)) with (- x1 + - a) by lia. replace (- (x2 + a)) with (- x2 + - a) by lia.
  replace (- (y1 + c)) with (- y1 + - c) by lia. replace (- (y2 + c)) with (- y2 + - c) by lia.
  repeat match goal with |- context [if ?b then _ else _] => destruct b end;
  rewrite first_shift; [reflexivity|..]; rewrite !map_map; apply map_ext; intros [x y]; unfold move2; cbn [fst snd]; f_equal; lia.
Qed.

Lemma intersectSegment_ext v0 v1 z z' : (z == z')%Q ->
  match intersectSegment v0 v1 z, intersectSegment v0 v1 z' with
  | Some p, Some q => qpt_eq p q
  | None, None => True
  | _, _ => False
  end.
Proof.
  intros Hz. unfold intersectSegment. cbv zeta. unfold px, py, pz. cbn [fst snd].
  destruct (_ && _); [exact I|].
  set (n := (0 * _ + 0 * _ + (-1) * (_ - z))%Q). set (n' := (0 * _ + 0 * _ + (-1) * (_ - z'))%Q).
  assert (Hn : (n == n')%Q) by (subst n n'; rewrite Hz; reflexivity). clearbody n n'.
  set (d := (0 * _ + 0 * _ + 1 * _)%Q). clearbody d.
  assert (Ht : (n / d == n' / d)%Q) by (rewrite Hn; reflexivity). set (t := (n / d)%Q) in *. set (t' := (n' / d)%Q) in *. clearbody t t'.
  rewrite (qlt_eq t t' 0 0 Ht (Qeq_refl 0)), (qlt_eq 1 1 t t' (Qeq_refl 1) Ht).
  destruct (_ || _); [exact I|]. unfold qpt_eq. rewrite Ht. repeat split; reflexivity.
Qed.

Definition pair_eq (a b : option (qpt * qpt * tri)) : Prop :=
  match a, b with
  | Some (p, q, t), Some (p', q', t') => qpt_eq p p' /\ qpt_eq q q' /\ t = t'
  | None, None => True
  | _, _ => False
  end.

Lemma intersectTri_ext t z z' : (z == z')%Q -> pair_eq (intersectTriZPlane t z) (intersectTriZPlane t z').
Proof.
  intros Hz. unfold intersectTriZPlane.
  pose proof (intersectSegment_ext (tv1 t) (tv2 t) z z' Hz) as H1.
  pose proof (intersectSegment_ext (tv2 t) (tv3 t) z z' Hz) as H2.
  pose proof (intersectSegment_ext (tv3 t) (tv1 t) z z' Hz) as H3.
  destruct (intersectSegment (tv1 t) (tv2 t) z), (intersectSegment (tv1 t) (tv2 t) z'); try contradiction;
  destruct (intersectSegment (tv2 t) (tv3 t) z), (intersectSegment (tv2 t) (tv3 t) z'); try contradiction;
  destruct (intersectSegment (tv3 t) (tv1 t) z), (intersectSegment (tv3 t) (tv1 t) z'); try contradiction;
  cbn; auto.
Qed.

Lemma Qfloor_sub_Z q n : Qfloor (q - inject_Z n) = Qfloor q - n.
Proof.
  symmetry. apply Z.le_antisymm.
  - rewrite <- (Qfloor_Z (Qfloor q - n)). apply Qfloor_resp_le. unfold Z.sub. rewrite inject_Z_plus, inject_Z_opp.
    pose proof (Qfloor_le q). lra.
  - cut (Qfloor (q - inject_Z n) + n <= Qfloor q); [lia|]. rewrite <- (Qfloor_Z (_ + n)). apply Qfloor_resp_le. rewrite inject_Z_plus.
    pose proof (Qfloor_le (q - inject_Z n)). lra.
Qed.

Lemma gridi_shift v v' p p' o o' n : (0 < v)%Q -> (v == v')%Q -> (p == p')%Q -> (o' == o + inject_Z n * (1 / v))%Q ->
  gridi v' p' o' = gridi v p o + - n.
Proof.
  intros Hv Ev Ep Eo. unfold gridi. rewrite Z.add_opp_r. rewrite <- (Qfloor_sub_Z (v * (p - o)) n). apply Qfloor_comp.
  rewrite <- Ev, <- Ep, Eo. field. lra.
Qed.

(** Grid [b'] is grid [b] with its origin moved by [d] voxels. *)
Definition moved_grid (b b' : binvox Q) (d : key) : Prop :=
  (0 < vpmm b)%Q /\ (vpmm b' == vpmm b)%Q /\
  (TX b' == TX b + inject_Z (kx d) * (1 / vpmm b))%Q /\
  (TY b' == TY b + inject_Z (ky d) * (1 / vpmm b))%Q /\
  (TZ b' == TZ b + inject_Z (kz d) * (1 / vpmm b))%Q.

Section Shift.
  Context (b b' : binvox Q) (d : key) (Hm : moved_grid b b' d) (mesh : list tri).

  Lemma slice_z_shift zi : (slice_z b' zi == slice_z b (zi + kz d))%Q.
  Proof.
    destruct Hm as (Hv & Ev & _ & _ & Ez). unfold slice_z. rewrite Ev, Ez, inject_Z_plus. ring.
  Qed.

  Lemma outline_shift zi t : outline b' zi t = map (move2 (- kx d) (- ky d)) (outline b (zi + kz d) t).
  Proof.
    unfold outline. pose proof (intersectTri_ext t _ _ (slice_z_shift zi)) as H.
    destruct (intersectTriZPlane t (slice_z b' zi)) as [[[p q] t']|], (intersectTriZPlane t (slice_z b (zi + kz d))) as [[[p' q'] t'']|];
      cbn in H; try contradiction; [|reflexivity].
    destruct H as (Hp & Hq & _). apply qpt_eq_iff in Hp as (Hp1 & Hp2 & _). apply qpt_eq_iff in Hq as (Hq1 & Hq2 & _).
    destruct Hm as (Hv & Ev & Ex & Ey & _). unfold pair_points. rewrite <- plotLine_shift.
    f_equal; apply gridi_shift; try assumption; symmetry; assumption.
  Qed.

  Lemma in_outline_shift zi t x y : In (x, y) (outline b' zi t) <-> In (x + kx d, y + ky d) (outline b (zi + kz d) t).
  Proof.
    rewrite outline_shift, in_map_iff. unfold move2. split.
    - intros ([u w] & [= <- <-] & H). cbn [fst snd]. replace (u + - kx d + kx d) with u by lia. replace (w + - ky d + ky d) with w by lia. exact H.
    - intros H. eexists. split; [|exact H]. cbn [fst snd]. f_equal; lia.
  Qed.

  Lemma shell_shift k : shell b' mesh k <-> shell b mesh (shift_key (kx d) (ky d) (kz d) k).
  Proof.
    unfold shell. destruct k as [[x y] z].
    change (kx (shift_key (kx d) (ky d) (kz d) (x, y, z))) with (x + kx d).
    change (ky (shift_key (kx d) (ky d) (kz d) (x, y, z))) with (y + ky d).
    change (kz (shift_key (kx d) (ky d) (kz d) (x, y, z))) with (z + kz d).
    change (kx (x, y, z)) with x. change (ky (x, y, z)) with y. change (kz (x, y, z)) with z.
    split; intros (t & Ht & H); exists t; (split; [exact Ht|]).
    - rewrite <- in_outline_shift. exact H.
    - rewrite in_outline_shift. exact H.
  Qed.

  Lemma row_xs_shift zi y t : row_xs b' zi y t = map (fun x => x - kx d) (row_xs b (zi + kz d) (y + ky d) t).
  Proof.
    unfold row_xs. rewrite outline_shift. generalize (outline b (zi + kz d) t). intros l.
    induction l as [|[u w] l IH]; [reflexivity|]. cbn [map List.filter move2 fst snd].
    replace (w + - ky d =? y) with (w =? y + ky d) by lia. destruct (w =? y + ky d); [|exact IH].
    cbn [map fst]. rewrite IH. f_equal.
  Qed.

  Lemma leftmost_shift zi y t x : leftmost b' zi y t x = leftmost b (zi + kz d) (y + ky d) t (x + kx d).
  Proof.
    unfold leftmost. rewrite row_xs_shift. generalize (row_xs b (zi + kz d) (y + ky d) t). intros l. f_equal.
    - induction l as [|u l IH]; [reflexivity|]. cbn [map existsb]. rewrite IH. f_equal. lia.
    - induction l as [|u l IH]; [reflexivity|]. cbn [map forallb]. rewrite IH. f_equal. lia.
  Qed.

  Lemma balance_shift zi y x : balance b' mesh zi y x = balance b mesh (zi + kz d) (y + ky d) (x + kx d).
  Proof.
    unfold balance. f_equal; f_equal; f_equal; apply filter_ext_in; intros t _; rewrite leftmost_shift; reflexivity.
  Qed.

  Lemma inside_shift zi y x : inside_at b' mesh zi y x <-> inside_at b mesh (zi + kz d) (y + ky d) (x + kx d).
  Proof.
    unfold inside_at. split.
    - intros (x' & Hx & Hb & Hr). exists (x' + kx d). rewrite <- balance_shift. split; [lia|]. split; [exact Hb|].
      intros x'' H1 H2. replace x'' with (x'' - kx d + kx d) by lia. rewrite <- balance_shift. apply Hr; lia.
    - intros (x' & Hx & Hb & Hr). exists (x' - kx d). rewrite balance_shift. replace (x' - kx d + kx d) with x' by lia. split; [lia|]. split; [exact Hb|].
      intros x'' H1 H2. rewrite balance_shift. apply Hr; lia.
  Qed.

  (** A voxel inside both grids is filled in one iff its image is in the other. *)
  Theorem voxelize_shift k : zero_dim b = false -> zero_dim b' = false -> List.NoDup (map taddr mesh) ->
    in_grid (NX b') (NY b') (NZ b') k -> in_grid (NX b) (NY b) (NZ b) (shift_key (kx d) (ky d) (kz d) k) ->
    result_voxels (Voxelize b' mesh) k <-> result_voxels (Voxelize b mesh) (shift_key (kx d) (ky d) (kz d) k).
  Proof.
    intros Hz Hz' Hn Hg Hg'. rewrite <- NoDup_ListNoDup in Hn. rewrite !Voxelize_in by assumption. unfold solid.
    rewrite <- shell_shift. destruct k as [[x y] z].
    change (shift_key (kx d) (ky d) (kz d) (x, y, z)) with (x + kx d, y + ky d, z + kz d) in *.
    assert (Hex : (exists x', x < x' /\ shell b' mesh (x', y, z)) <-> (exists x', x + kx d < x' /\ shell b mesh (x', y + ky d, z + kz d))).
    { split.
      - intros (x' & Hx' & Hs). exists (x' + kx d). split; [lia|]. rewrite shell_shift in Hs. exact Hs.
      - intros (x' & Hx' & Hs). exists (x' - kx d). split; [lia|]. rewrite shell_shift.
        change (shift_key (kx d) (ky d) (kz d) (x' - kx d, y, z)) with (x' - kx d + kx d, y + ky d, z + kz d). replace (x' - kx d + kx d) with x' by lia. exact Hs. }
    unfold in_grid, in_region in *.
    change (kx (x, y, z)) with x in *. change (ky (x, y, z)) with y in *. change (kz (x, y, z)) with z in *.
    change (kx (x + kx d, y + ky d, z + kz d)) with (x + kx d) in *. change (ky (x + kx d, y + ky d, z + kz d)) with (y + ky d) in *.
    change (kz (x + kx d, y + ky d, z + kz d)) with (z + kz d) in *.
    rewrite inside_shift, Hex.
    generalize (shell b' mesh (x, y, z)) (inside_at b mesh (z + kz d) (y + ky d) (x + kx d)) (exists x', x + kx d < x' /\ shell b mesh (x', y + ky d, z + kz d)).
    intros S I X. split; intros (H1 & _ & H3 & H4 & H5); (split; [lia|]; split; [reflexivity|]; split; [lia|]; split; [lia|]);
      (destruct H5 as [H5|(H5 & H6)]; [left; exact H5|right; split; [lia|exact H6]]).
  Qed.

  (** The same for one slice, where shell voxels may stick out of [b'] on the side of small x. *)
  Lemma right_shell_shift x y z : (exists x', x < x' /\ shell b' mesh (x', y, z)) <-> (exists x', x + kx d < x' /\ shell b mesh (x', y + ky d, z + kz d)).
  Proof.
    split.
    - intros (x' & Hx' & Hs). exists (x' + kx d). split; [lia|]. rewrite shell_shift in Hs. exact Hs.
    - intros (x' & Hx' & Hs). exists (x' - kx d). split; [lia|]. rewrite shell_shift.
      change (shift_key (kx d) (ky d) (kz d) (x' - kx d, y, z)) with (x' - kx d + kx d, y + ky d, z + kz d). replace (x' - kx d + kx d) with x' by lia. exact Hs.
  Qed.

  Lemma solid_shift_to zi x y : solid b' mesh zi (x, y, zi) -> 0 <= x + kx d < NX b -> 0 <= y + ky d < NY b ->
    solid b mesh (zi + kz d) (x + kx d, y + ky d, zi + kz d).
  Proof.
    unfold solid. rewrite right_shell_shift, inside_shift, shell_shift.
    change (shift_key (kx d) (ky d) (kz d) (x, y, zi)) with (x + kx d, y + ky d, zi + kz d).
    change (kx (x, y, zi)) with x. change (ky (x, y, zi)) with y. change (kz (x, y, zi)) with zi.
    change (kx (x + kx d, y + ky d, zi + kz d)) with (x + kx d). change (ky (x + kx d, y + ky d, zi + kz d)) with (y + ky d).
    change (kz (x + kx d, y + ky d, zi + kz d)) with (zi + kz d).
    intros (_ & _ & _ & H) Hx Hy. split; [reflexivity|]. split; [lia|]. split; [lia|]. destruct H as [H|(_ & H)]; [left; exact H|right; split; [lia|exact H]].
  Qed.

  Lemma solid_shift_from zi x y : solid b mesh (zi + kz d) (x + kx d, y + ky d, zi + kz d) -> 0 <= x < NX b' -> 0 <= y < NY b' ->
    solid b' mesh zi (x, y, zi).
  Proof.
    unfold solid. rewrite right_shell_shift, inside_shift, shell_shift.
    change (shift_key (kx d) (ky d) (kz d) (x, y, zi)) with (x + kx d, y + ky d, zi + kz d).
    change (kx (x, y, zi)) with x. change (ky (x, y, zi)) with y. change (kz (x, y, zi)) with zi.
    change (kx (x + kx d, y + ky d, zi + kz d)) with (x + kx d). change (ky (x + kx d, y + ky d, zi + kz d)) with (y + ky d).
    change (kz (x + kx d, y + ky d, zi + kz d)) with (zi + kz d).
    intros (_ & _ & _ & H) Hx Hy. split; [reflexivity|]. split; [lia|]. split; [lia|]. destruct H as [H|(_ & H)]; [left; exact H|right; split; [lia|exact H]].
  Qed.
End Shift.

(** ** The pointers do not matter *)

(** Two triangles with the same points and the same normal. *)
Definition same_tri (t t' : tri) : Prop := tv1 t = tv1 t' /\ tv2 t = tv2 t' /\ tv3 t = tv3 t' /\ tnorm t = tnorm t'.

Lemma same_outline b zi t t' : same_tri t t' -> outline b zi t = outline b zi t'.
Proof.
  intros (E1 & E2 & E3 & _). unfold outline, intersectTriZPlane. rewrite E1, E2, E3.
  destruct (intersectSegment (tv1 t') (tv2 t') (slice_z b zi)), (intersectSegment (tv2 t') (tv3 t') (slice_z b zi)), (intersectSegment (tv3 t') (tv1 t') (slice_z b zi)); reflexivity.
Qed.

Section Same.
  Context (b : binvox Q).

  Lemma same_filter m m' (f f' : tri -> bool) : Forall2 same_tri m m' -> (forall t t', same_tri t t' -> f t = f' t') ->
    length (List.filter f m) = length (List.filter f' m').
  Proof. intros Hs Hf. induction Hs as [|t t' l l' H _ IH]; [reflexivity|]. cbn. rewrite (Hf t t' H). destruct (f' t'); cbn; rewrite IH; reflexivity. Qed.

  Lemma same_shell m m' k : Forall2 same_tri m m' -> shell b m k <-> shell b m' k.
  Proof.
    intros Hs. unfold shell. induction Hs as [|t t' l l' H _ IH]; [reflexivity|]. pose proof (same_outline b (kz k) t t' H) as E.
    split.
    - intros (u & [<-|Hu] & Hk); [exists t'; split; [left; reflexivity|rewrite <- E; exact Hk]|]. destruct (proj1 IH) as (u' & Hu' & Hk'); [eauto|]. exists u'. split; [right; exact Hu'|exact Hk'].
    - intros (u & [<-|Hu] & Hk); [exists t; split; [left; reflexivity|rewrite E; exact Hk]|]. destruct (proj2 IH) as (u' & Hu' & Hk'); [eauto|]. exists u'. split; [right; exact Hu'|exact Hk'].
  Qed.

  Lemma same_balance m m' zi y x : Forall2 same_tri m m' -> balance b m zi y x = balance b m' zi y x.
  Proof.
    intros Hs. unfold balance. f_equal; f_equal; (apply same_filter; [exact Hs|]); intros t t' H; unfold leftmost, row_xs, facing_in, facing_out; rewrite (same_outline b zi t t' H); destruct H as (_ & _ & _ & ->); reflexivity.
  Qed.

  Lemma voxelize_same m m' k : Forall2 same_tri m m' -> List.NoDup (map taddr m) -> List.NoDup (map taddr m') -> result_voxels (Voxelize b m) k <-> result_voxels (Voxelize b m') k.
  Proof.
    intros Hs H H'. rewrite <- NoDup_ListNoDup in H, H'. destruct (zero_dim b) eqn:Hz.
    - unfold Voxelize. rewrite Hz. reflexivity.
    - rewrite !Voxelize_in by assumption. unfold solid. rewrite (same_shell m m' k Hs).
      assert (Hi : inside_at b m (kz k) (ky k) (kx k) <-> inside_at b m' (kz k) (ky k) (kx k)).
      { unfold inside_at. split; intros (x' & H1 & H2 & H3); exists x'; (split; [exact H1|]); [rewrite <- (same_balance m m' _ _ _ Hs)|rewrite (same_balance m m' _ _ _ Hs)]; (split; [exact H2|]); intros x'' H4 H5; [rewrite <- (same_balance m m' _ _ _ Hs)|rewrite (same_balance m m' _ _ _ Hs)]; apply H3; assumption. }
      assert (He : (exists x', kx k < x' /\ shell b m (x', ky k, kz k)) <-> (exists x', kx k < x' /\ shell b m' (x', ky k, kz k))).
      { split; intros (x' & H1 & H2); exists x'; (split; [exact H1|apply (same_shell m m' _ Hs), H2]). }
      rewrite Hi, He. reflexivity.
  Qed.
End Same.
