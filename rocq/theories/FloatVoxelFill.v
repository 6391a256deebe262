(** What the float64 voxelizer sets, in terms of the outlines it computes: shell and flood fill.
    The integer part of the code is that of VoxelizeModel.v; it is carried over by giving, for each
    slice, an exact mesh with the same outlines and facings. *)
From Coq Require Import ZArith Reals QArith Qround List Lia Lqa Bool.
From Coq Require Lra.
From stdpp Require Import base list gmap sets fin_sets.
From Flocq Require Import Core IEEE754.BinarySingleNaN.
From Verif Require Import Base BinvoxModel Geom VoxelizeModel VoxelizeSpec VoxelizeLine VoxelizeSlice VoxelizeFill VoxelizeProps.
From Verif Require Import BinvoxDiceModel BinvoxDiceFloat FloatMeshModel FloatVoxelModel.
Import ListNotations.
Open Scope Z_scope.

#[local] Instance prec_gtw : Prec_gt_0 prec := eq_refl.
#[local] Instance prec_ltw : Prec_lt_emax prec emax := eq_refl.

(** ** Specification: VoxelizeSpec.v over float64 triangles *)

(** The pixels of the digital line where triangle [t] cuts slice [zi], as computed. *)
Definition f_outline (b : binvox float64) (zi : Z) (t : ftri) : list (Z * Z) :=
  match f_intersectTriZPlane t (f_slice_z b zi) with Some p => f_pair_points b p | None => [] end.

Definition f_shell (b : binvox float64) (mesh : list ftri) (k : key) : Prop :=
  exists t, In t mesh /\ In (kx k, ky k) (f_outline b (kz k) t).

Definition f_row_xs (b : binvox float64) (zi y : Z) (t : ftri) : list Z :=
  map fst (List.filter (fun p => snd p =? y) (f_outline b zi t)).

Definition f_leftmost (b : binvox float64) (zi y : Z) (t : ftri) (x : Z) : bool :=
  existsb (Z.eqb x) (f_row_xs b zi y t) && forallb (Z.leb x) (f_row_xs b zi y t).

Definition f_facing_in (t : ftri) : bool := f_lt f_epsilon (f_facing t).
Definition f_facing_out (t : ftri) : bool := f_lt (f_facing t) (Bopp f_epsilon).

Definition f_balance (b : binvox float64) (mesh : list ftri) (zi y x : Z) : Z :=
  Z.of_nat (length (List.filter (fun t => f_leftmost b zi y t x && f_facing_in t) mesh)) -
  Z.of_nat (length (List.filter (fun t => f_leftmost b zi y t x && f_facing_out t) mesh)).

Definition f_inside_at (b : binvox float64) (mesh : list ftri) (zi y x : Z) : Prop :=
  exists x', x' < x /\ 0 < f_balance b mesh zi y x' /\
    forall x'', x' < x'' -> x'' < x -> 0 <= f_balance b mesh zi y x''.

Definition f_solid (b : binvox float64) (mesh : list ftri) (zi : Z) (k : key) : Prop :=
  kz k = zi /\ 0 <= ky k < NY b /\ kx k < NX b /\
  (f_shell b mesh k \/
   0 <= kx k /\ f_inside_at b mesh zi (ky k) (kx k) /\ exists x', kx k < x' /\ f_shell b mesh (x', ky k, zi)).

Definition f_result_voxels (r : vox_error + gset key) (k : key) : Prop :=
  match r with inl _ => False | inr v => k ∈ v end.

(** ** The exact mesh with the same outlines in a slice *)

Definition plain (b : binvox float64) : binvox Q := BinVOX (NX b) (NY b) (NZ b) 0%Q 0%Q 0%Q 0%Q None None.

(** A triangle whose sides V1-V2 and V2-V3 meet the height [zi] + 1/2 in (x1,y1) and (x2,y2). *)
Definition cut_tri (zi a x1 y1 x2 y2 : Z) (n : qpt) : tri :=
  let h := ((1 # 2) + inject_Z zi)%Q in
  Tri a ((inject_Z x1, inject_Z y1, h + 1)%Q) ((inject_Z x1, inject_Z y1, h - 1)%Q)
        ((inject_Z (2 * x2 - x1), inject_Z (2 * y2 - y1), h + 1)%Q) n.

Definition ghost_norm (t : ftri) : qpt :=
  if f_facing_in t then ((-1)%Q, 0%Q, 0%Q) else if f_facing_out t then (1%Q, 0%Q, 0%Q) else (0%Q, 0%Q, 0%Q).

Definition ghost (b : binvox float64) (zi : Z) (t : ftri) : tri :=
  match f_intersectTriZPlane t (f_slice_z b zi) with
  | Some (p, q) =>
      let v := f_voxelsPerMM b in
      cut_tri zi (faddr t) (f_gridi v (fx p) (TX b)) (f_gridi v (fy p) (TY b))
                           (f_gridi v (fx q) (TX b)) (f_gridi v (fy q) (TY b)) (ghost_norm t)
  | None => Tri (faddr t) (0%Q, 0%Q, 0%Q) (0%Q, 0%Q, 0%Q) (0%Q, 0%Q, 0%Q) (ghost_norm t)
  end.

Lemma plain_vpmm b : vpmm (plain b) = 1%Q. Proof. reflexivity. Qed.

Lemma flat_none p q z : (pz p == pz q)%Q -> intersectSegment p q z = None.
Proof.
  intros E. unfold intersectSegment. cbn [px py pz fst snd].
  assert (qlt (- epsilon) (0 * (px q - px p) + 0 * (py q - py p) + 1 * (pz q - pz p))%Q = true) as ->.
  { unfold qlt. apply negb_true_iff. apply not_true_is_false. rewrite Qle_bool_iff. unfold epsilon. lra. }
  assert (qlt (0 * (px q - px p) + 0 * (py q - py p) + 1 * (pz q - pz p))%Q epsilon = true) as ->; [|reflexivity].
  unfold qlt. apply negb_true_iff. apply not_true_is_false. rewrite Qle_bool_iff. unfold epsilon. lra.
Qed.

Lemma half_cut p q z : (pz p == z + 1 /\ pz q == z - 1 \/ pz p == z - 1 /\ pz q == z + 1)%Q ->
  exists r, intersectSegment p q z = Some r /\ (px r == (px p + px q) / 2)%Q /\ (py r == (py p + py q) / 2)%Q.
Proof.
  intros H. unfold intersectSegment. cbn [px py pz fst snd].
  set (d := (0 * (px q - px p) + 0 * (py q - py p) + 1 * (pz q - pz p))%Q).
  set (n := (0 * (px p - 0) + 0 * (py p - 0) + -1 * (pz p - z))%Q).
  assert (Hd : (n / d == 1 # 2)%Q /\ (d == 2 \/ d == -2)%Q).
  { unfold n, d. destruct H as [[H1 H2]|[H1 H2]]; rewrite H1, H2.
    - split; [field_simplify; [reflexivity|]|right; ring].
      intros C. field_simplify in C. discriminate C.
    - split; [field_simplify; [reflexivity|]|left; ring].
      intros C. field_simplify in C. discriminate C. }
  destruct Hd as [Ht Hd].
  assert (qlt (- epsilon) d && qlt d epsilon = false) as ->.
  { unfold qlt, epsilon. apply andb_false_iff. destruct Hd as [Hd|Hd]; [right|left]; apply negb_false_iff; apply Qle_bool_iff; lra. }
  assert (qlt (n / d) 0 || qlt 1 (n / d) = false) as ->.
  { unfold qlt. apply orb_false_iff. split; apply negb_false_iff; apply Qle_bool_iff; lra. }
  eexists. split; [reflexivity|]. cbn [px py pz fst snd]. rewrite Ht. split; field.
Qed.

Lemma ghost_outline b zi t : outline (plain b) zi (ghost b zi t) = f_outline b zi t.
Proof.
  unfold outline, f_outline, ghost. destruct (f_intersectTriZPlane t (f_slice_z b zi)) as [[p q]|].
  - unfold f_pair_points. cbv zeta. cbn [fst snd].
    set (x1 := f_gridi _ (fx p) _). set (y1 := f_gridi _ (fy p) _). set (x2 := f_gridi _ (fx q) _). set (y2 := f_gridi _ (fy q) _).
    unfold cut_tri. cbv zeta. unfold intersectTriZPlane. cbn [tv1 tv2 tv3 tnorm].
    assert (Hz : (slice_z (plain b) zi == (1 # 2) + inject_Z zi)%Q).
    { unfold slice_z. rewrite plain_vpmm. cbn [TZ plain]. field. }
    set (z := slice_z (plain b) zi) in *. clearbody z.
    destruct (half_cut (inject_Z x1, inject_Z y1, (1 # 2) + inject_Z zi + 1)%Q (inject_Z x1, inject_Z y1, (1 # 2) + inject_Z zi - 1)%Q z) as (r1 & -> & R1 & R2).
    { left. cbn [pz snd]. rewrite Hz. split; reflexivity. }
    destruct (half_cut (inject_Z x1, inject_Z y1, (1 # 2) + inject_Z zi - 1)%Q (inject_Z (2 * x2 - x1), inject_Z (2 * y2 - y1), (1 # 2) + inject_Z zi + 1)%Q z) as (r2 & -> & R3 & R4).
    { right. cbn [pz snd]. rewrite Hz. split; reflexivity. }
    unfold pair_points, gridi. rewrite plain_vpmm. cbn [TX TY plain]. cbn [px py fst snd] in R1, R2, R3, R4.
    assert (F : forall q n, (q == inject_Z n)%Q -> Qfloor (1 * (q - 0)) = n).
    { intros a n E. rewrite <- (Qfloor_Z n). apply Qfloor_comp. rewrite E. ring. }
    rewrite (F _ x1), (F _ y1), (F _ x2), (F _ y2); [reflexivity|..].
    + rewrite R4. unfold Z.sub. rewrite inject_Z_plus, inject_Z_opp, inject_Z_mult. change (inject_Z 2) with 2%Q. field.
    + rewrite R3. unfold Z.sub. rewrite inject_Z_plus, inject_Z_opp, inject_Z_mult. change (inject_Z 2) with 2%Q. field.
    + rewrite R2. field.
    + rewrite R1. field.
  - unfold intersectTriZPlane. cbn [tv1 tv2 tv3]. rewrite !flat_none by reflexivity. reflexivity.
Qed.

Lemma ghost_addr b zi t : taddr (ghost b zi t) = faddr t.
Proof. unfold ghost. destruct (f_intersectTriZPlane _ _) as [[p q]|]; reflexivity. Qed.

Lemma excl_gen (e d : float64) : is_finite e = true -> (0 <= B2R e)%R -> f_lt e d = true -> f_lt d (Bopp e) = false.
Proof.
  intros Fe He H. destruct (f_lt d (Bopp e)) eqn:H'; [exfalso|reflexivity]. unfold f_lt in H, H'.
  destruct (is_finite d) eqn:Fd.
  - rewrite Bcompare_correct in H by assumption.
    rewrite Bcompare_correct in H' by (rewrite ?is_finite_Bopp; assumption). rewrite B2R_Bopp in H'.
    generalize dependent (B2R e). intros x He. generalize (B2R d). intros y H H'.
    destruct (Rcompare_spec x y) as [Hc|Hc|Hc]; try discriminate H.
    destruct (Rcompare_spec y (- x)%R) as [Hc'|Hc'|Hc']; try discriminate H'. Lra.lra.
  - destruct e as [s|s| |s m x Hb]; try discriminate Fe; destruct d as [s'|s'| |s' m' x' Hb']; try discriminate Fd;
      repeat match goal with s : bool |- _ => destruct s end; cbn in H, H'; discriminate.
Qed.

Lemma eps_pos : is_finite f_epsilon = true /\ (0 < B2R f_epsilon)%R.
Proof.
  assert (E : B2SF f_epsilon = SpecFloat.S754_finite false 4835703278458517 (-82)) by (vm_compute; reflexivity).
  destruct f_epsilon as [s|s| |s m e Hb]; try discriminate E. injection E as -> -> ->. split; [reflexivity|].
  cbn [B2R]. apply F2R_gt_0. reflexivity.
Qed.

Lemma facing_excl_f t : f_facing_in t = true -> f_facing_out t = false.
Proof. destruct eps_pos as [F P]. apply excl_gen; [exact F|Lra.lra]. Qed.

Lemma ghost_norm_is b zi t : tnorm (ghost b zi t) = ghost_norm t.
Proof. unfold ghost. destruct (f_intersectTriZPlane _ _) as [[p q]|]; reflexivity. Qed.
Lemma ghost_in b zi t : facing_in (ghost b zi t) = f_facing_in t.
Proof. unfold facing_in. rewrite ghost_norm_is. unfold ghost_norm. destruct (f_facing_in t), (f_facing_out t); reflexivity. Qed.
Lemma ghost_out b zi t : facing_out (ghost b zi t) = f_facing_out t.
Proof.
  unfold facing_out. rewrite ghost_norm_is. unfold ghost_norm. destruct (f_facing_in t) eqn:E.
  - rewrite (facing_excl_f t E). reflexivity.
  - destruct (f_facing_out t); reflexivity.
Qed.

Lemma slice_shell_eq bq m zi : slice_shell bq m zi = fold_left (rasterizeShellPair bq zi) (intersectZPlane m (slice_z bq zi)) (∅, ∅).
Proof. reflexivity. Qed.

Lemma fold_sim {A B S T} (F : S -> A -> S) (G : T -> B -> T) (f : B -> A) (h : T -> S) :
  (forall st t, F (h st) (f t) = h (G st t)) -> forall m st, fold_left F (map f m) (h st) = h (fold_left G m st).
Proof. intros H m. induction m as [|t m IH]; intros st; [reflexivity|]. cbn [map fold_left]. rewrite H. apply IH. Qed.

(** ** The specification is that of the exact mesh *)
Section Slice.
  Context (b : binvox float64) (mesh : list ftri) (zi : Z).
  Notation g := (ghost b zi).
  Notation gmesh := (map g mesh).

  Lemma ghost_shell x y : shell (plain b) gmesh (x, y, zi) <-> f_shell b mesh (x, y, zi).
  Proof using.
    unfold shell, f_shell, kx, ky, kz. cbn [fst snd]. split.
    - intros (t & Ht & Hin). apply in_map_iff in Ht as (t' & <- & Ht'). rewrite ghost_outline in Hin. exists t'. split; [exact Ht'|exact Hin].
    - intros (t & Ht & Hin). exists (g t). split; [apply in_map, Ht|]. rewrite ghost_outline. exact Hin.
  Qed.

  Lemma filter_map_count (P : tri -> bool) (P' : ftri -> bool) : (forall t, P (g t) = P' t) ->
    length (List.filter P gmesh) = length (List.filter P' mesh).
  Proof using.
    intros H. induction mesh as [|t m IH]; [reflexivity|]. cbn [map List.filter]. rewrite H. destruct (P' t); cbn [length]; rewrite IH; reflexivity.
  Qed.

  Lemma ghost_leftmost y t x : leftmost (plain b) zi y (g t) x = f_leftmost b zi y t x.
  Proof using. unfold leftmost, f_leftmost, row_xs, f_row_xs. rewrite ghost_outline. reflexivity. Qed.

  Lemma ghost_balance y x : balance (plain b) gmesh zi y x = f_balance b mesh zi y x.
  Proof using.
    unfold balance, f_balance. f_equal; f_equal; apply filter_map_count; intros t; rewrite ghost_leftmost, ?ghost_in, ?ghost_out; reflexivity.
  Qed.

  Lemma ghost_inside y x : inside_at (plain b) gmesh zi y x <-> f_inside_at b mesh zi y x.
  Proof using.
    unfold inside_at, f_inside_at. split; intros (x' & H1 & H2 & H3); exists x'; (split; [exact H1|]).
    - rewrite ghost_balance in H2. split; [exact H2|]. intros x'' Ha Hb. specialize (H3 x'' Ha Hb). rewrite ghost_balance in H3. exact H3.
    - rewrite ghost_balance. split; [exact H2|]. intros x'' Ha Hb. rewrite ghost_balance. auto.
  Qed.

  Lemma ghost_solid k : solid (plain b) gmesh zi k <-> f_solid b mesh zi k.
  Proof using.
    unfold solid, f_solid. cbn [NX NY plain]. destruct k as [[x y] z]. unfold kx, ky, kz. cbn [fst snd].
    split; intros (-> & Hy & Hx & H); (split; [reflexivity|]); (split; [exact Hy|]); (split; [exact Hx|]).
    - destruct H as [H|(H0 & H1 & x' & H2 & H3)]; [left; apply ghost_shell, H|right].
      split; [exact H0|]. split; [apply ghost_inside, H1|]. exists x'. split; [exact H2|apply ghost_shell, H3].
    - destruct H as [H|(H0 & H1 & x' & H2 & H3)]; [left; apply ghost_shell, H|right].
      split; [exact H0|]. split; [apply ghost_inside, H1|]. exists x'. split; [exact H2|apply ghost_shell, H3].
  Qed.

  (** ** The code is that of the exact mesh *)
  Definition gset_of (s : fsetMap) : gmap key (list tri) := map g <$> s.

  Lemma gset_at s k : tris_at (gset_of s) k = map g (ftris_at s k).
  Proof using. unfold tris_at, ftris_at, gset_of. rewrite lookup_fmap. destruct (s !! k); reflexivity. Qed.

  Lemma ghost_add s k t : addTri (gset_of s) k (g t) = gset_of (f_addTri s k t).
  Proof using.
    unfold addTri, f_addTri. rewrite gset_at.
    assert (E : existsb (fun t' => taddr t' =? taddr (g t)) (map g (ftris_at s k)) = existsb (fun t' => faddr t' =? faddr t) (ftris_at s k)).
    { induction (ftris_at s k) as [|a l IH]; [reflexivity|]. cbn [map existsb]. rewrite IH, !ghost_addr. reflexivity. }
    rewrite E. clear E. destruct (existsb (fun t' => faddr t' =? faddr t) (ftris_at s k)); [reflexivity|]. unfold gset_of. rewrite fmap_insert, map_app. reflexivity.
  Qed.

  Definition gst (st : fsetMap * gmap Z (Z * Z)) : gmap key (list tri) * gmap Z (Z * Z) := (gset_of (fst st), snd st).

  Lemma ghost_plot t pts : forall st, fold_left (plotFunc (plain b) zi (g t)) pts (gst st) = gst (fold_left (f_plotFunc b zi t) pts st).
  Proof using.
    induction pts as [|[x y] pts IH]; intros st; [reflexivity|]. cbn [fold_left]. rewrite <- IH. f_equal.
    unfold plotFunc, f_plotFunc. cbn [NY plain]. destruct ((y >=? 0) && (y <? NY b)); [|reflexivity].
    unfold gst at 1 2 3. cbn [fst snd]. rewrite ghost_add. reflexivity.
  Qed.

  Lemma exact_fold (bq : binvox Q) z m : forall st, fold_left (rasterizeShellPair bq zi) (intersectZPlane m z) st =
    fold_left (fun st t => match intersectTriZPlane t z with Some p => fold_left (plotFunc bq zi t) (pair_points bq p) st | None => st end) m st.
  Proof using.
    induction m as [|t m IH]; intros st; [reflexivity|]. cbn [intersectZPlane fold_left].
    destruct (intersectTriZPlane t z) as [p|] eqn:E; [|apply IH]. cbn [fold_left]. rewrite IH. f_equal.
    unfold rasterizeShellPair. rewrite (tri_int_tri _ _ _ E). reflexivity.
  Qed.

  Definition q_step (st : gmap key (list tri) * gmap Z (Z * Z)) (t : tri) :=
    match intersectTriZPlane t (slice_z (plain b) zi) with Some p => fold_left (plotFunc (plain b) zi t) (pair_points (plain b) p) st | None => st end.
  Definition f_step (st : fsetMap * gmap Z (Z * Z)) (t : ftri) :=
    match f_intersectTriZPlane t (f_slice_z b zi) with Some p => fold_left (f_plotFunc b zi t) (f_pair_points b p) st | None => st end.
  Lemma q_step_outline st t : q_step st t = fold_left (plotFunc (plain b) zi t) (outline (plain b) zi t) st.
  Proof using. unfold q_step, outline. destruct (intersectTriZPlane t (slice_z (plain b) zi)); reflexivity. Qed.
  Lemma f_step_outline st t : f_step st t = fold_left (f_plotFunc b zi t) (f_outline b zi t) st.
  Proof using. unfold f_step, f_outline. destruct (f_intersectTriZPlane t (f_slice_z b zi)); reflexivity. Qed.
  Lemma ghost_step st t : q_step (gst st) (g t) = gst (f_step st t).
  Proof using. rewrite q_step_outline, f_step_outline, ghost_outline. apply ghost_plot. Qed.
  Lemma ghost_fold m : forall st, fold_left q_step (map g m) (gst st) = gst (fold_left f_step m st).
  Proof using. intros st. apply (fold_sim q_step f_step g gst). apply ghost_step. Qed.
  Lemma gst_empty : gst (∅, ∅) = (∅, ∅).
  Proof using. unfold gst, gset_of. cbn [fst snd]. rewrite fmap_empty. reflexivity. Qed.

  Lemma ghost_slice : slice_shell (plain b) gmesh zi = gst (f_slice_shell b mesh zi).
  Proof using.
    rewrite slice_shell_eq, exact_fold. rewrite <- gst_empty. exact (ghost_fold mesh (∅, ∅)).
  Qed.

  Lemma ghost_count ts : forall seen cin cout, count_tris (map g ts) seen cin cout = f_count_tris ts seen cin cout.
  Proof using.
    induction ts as [|t ts IH]; intros seen cin cout; [reflexivity|]. cbn [map count_tris f_count_tris].
    rewrite ghost_addr. destruct (existsb (Z.eqb (faddr t)) seen); [apply IH|].
    cbv zeta. rewrite facing_in_d, facing_out_d, ghost_in, ghost_out. fold (f_facing_in t) (f_facing_out t).
    destruct (f_facing_in t); [apply IH|]. destruct (f_facing_out t); apply IH.
  Qed.

  Lemma ghost_row s yi n : forall xi inside seen, row_loop n (NX b) (gset_of s) yi zi xi inside seen = f_row_loop n (NX b) s yi zi xi inside seen.
  Proof using.
    induction n as [|n IH]; intros xi inside seen; [reflexivity|]. cbn [row_loop f_row_loop]. destruct (xi >=? NX b); [reflexivity|].
    rewrite gset_at, map_length, ghost_count. destruct (0 <? length (ftris_at s (xi, yi, zi)))%nat.
    - destruct (f_count_tris _ _ _ _) as [[cin cout] seen']. rewrite IH. reflexivity.
    - rewrite !IH. reflexivity.
  Qed.

  Lemma ghost_slice_voxels : slice_voxels (plain b) gmesh zi = f_slice_voxels b mesh zi.
  Proof using.
    unfold slice_voxels, slice_rows, f_slice_voxels. rewrite ghost_slice. cbn [gst snd]. apply flat_map_ext. intros yi.
    unfold row_voxels, f_row_voxels. rewrite ghost_slice. destruct (f_slice_shell b mesh zi) as [s m]. cbn [gst fst snd].
    destruct (m !! yi) as [[mn mx]|]; [|reflexivity]. unfold fill_row. cbn [NX plain]. apply ghost_row.
  Qed.
End Slice.

(** The voxels of a slice are exactly those of the specification. *)
Theorem f_slice_spec b mesh zi : NoDup (map faddr mesh) ->
  forall k, In k (f_slice_voxels b mesh zi) <-> f_solid b mesh zi k.
Proof.
  intros Hn k. rewrite <- ghost_slice_voxels, <- ghost_solid. apply slice_spec.
  rewrite map_map. rewrite (map_ext _ faddr); [exact Hn|]. intros t. apply ghost_addr.
Qed.

Lemma f_VoxelizeZ_in b mesh zi : f_zero_dim b = false -> NoDup (map faddr mesh) ->
  forall k, f_result_voxels (f_VoxelizeZ b mesh zi) k <-> f_solid b mesh zi k.
Proof.
  intros Hz Hn k. unfold f_VoxelizeZ. rewrite Hz. cbn.
  rewrite elem_of_list_to_set, elem_of_list_In. apply f_slice_spec, Hn.
Qed.

Lemma f_Voxelize_in b mesh : f_zero_dim b = false -> NoDup (map faddr mesh) ->
  forall k, f_result_voxels (f_Voxelize b mesh) k <-> 0 <= kz k < NZ b /\ f_solid b mesh (kz k) k.
Proof.
  intros Hz Hn k. unfold f_Voxelize. rewrite Hz. cbn.
  rewrite elem_of_list_to_set, elem_of_list_In, in_flat_map. split.
  - intros (zi & Hi & Hk). apply elem_of_list_In, elem_of_seqZ in Hi. apply f_slice_spec in Hk; [|exact Hn].
    pose proof Hk as (E & _). rewrite E. split; [lia|exact Hk].
  - intros (Hi & Hk). exists (kz k). split; [apply elem_of_list_In, elem_of_seqZ; lia|]. apply f_slice_spec; assumption.
Qed.

(** An inside voxel lies strictly between two outline voxels of its row. *)
Lemma f_balance_shell b mesh zi y x : f_balance b mesh zi y x <> 0 -> f_shell b mesh (x, y, zi).
Proof.
  intros H. unfold f_balance in H.
  assert (E : exists t, In t mesh /\ f_leftmost b zi y t x = true).
  { destruct (List.filter (fun t => f_leftmost b zi y t x && f_facing_in t) mesh) as [|t l] eqn:E1.
    - destruct (List.filter (fun t => f_leftmost b zi y t x && f_facing_out t) mesh) as [|t l] eqn:E2; [cbn in H; lia|].
      exists t. assert (In t (t :: l)) as Hi by (left; reflexivity). rewrite <- E2 in Hi. apply filter_In in Hi as [Hi Hl]. apply andb_true_iff in Hl as [Hl _]. auto.
    - exists t. assert (In t (t :: l)) as Hi by (left; reflexivity). rewrite <- E1 in Hi. apply filter_In in Hi as [Hi Hl]. apply andb_true_iff in Hl as [Hl _]. auto. }
  destruct E as (t & Ht & Hl). apply andb_true_iff in Hl as [Hl _]. apply existsb_exists in Hl as (x' & Hx & E). apply Z.eqb_eq in E. subst x'.
  unfold f_row_xs in Hx. apply in_map_iff in Hx as ([x'' y'] & E & Hf). cbn [fst] in E. subst x''. apply filter_In in Hf as [Hf E]. cbn [snd] in E. apply Z.eqb_eq in E. subst y'.
  exists t. split; [exact Ht|exact Hf].
Qed.
