(** Properties of the voxelizer: C26 to C31. *)
From Verif Require Import Base BaseLemmas BinvoxModel BinvoxSpec Geom ForkJoin
  VoxelizeModel VoxelizeSpec VoxelizeLine VoxelizeSlice VoxelizeFill.
From Coq Require Import ZArith QArith Qround List Lia Lqa Bool Permutation.
From stdpp Require Import base list list_numbers gmap sets fin_sets relations.
Import ListNotations.
Open Scope Z_scope.

(** ** C26: the line plotter in the first octant *)

(** One point per x, in order, the y rounding the ideal line (ties upwards). *)
Theorem C26_first_octant x1 y1 x2 y2 : 0 <= y2 - y1 <= x2 - x1 ->
  let l := firstOctantBressenham x1 y1 x2 y2 in
  map fst l = seqZ x1 (x2 - x1 + 1) /\
  head l = Some (x1, y1) /\ last l = Some (x2, y2) /\
  forall x y, In (x, y) l ->
    - (x2 - x1) <= 2 * ((x - x1) * (y2 - y1) - (y - y1) * (x2 - x1)) <= x2 - x1.
Proof.
  intros Hd l. pose proof (good_first x1 y1 x2 y2 Hd) as G. fold l in G. split; [|split; [|split]].
  - unfold l. destruct (Z.eq_dec x1 x2) as [->|Hne].
    + unfold firstOctantBressenham. replace (x2 + 1 - x2) with 1 by lia. replace (x2 - x2 + 1) with 1 by lia.
      change (Z.to_nat 1) with 1%nat. cbn [bres_loop].
      rewrite (seqZ_cons x2 1) by lia. rewrite (seqZ_nil _ (Z.pred 1)) by lia.
      match goal with |- context[if ?c then _ else _] => destruct c end; reflexivity.
    + rewrite first_octant_closed by lia. rewrite map_map. cbn [fst].
      replace (x2 - x1 + 1) with (x2 + 1 - x1) by lia.
      assert (E : seqZ x1 (x2 + 1 - x1) = seqZ (x1 + 0) (x2 + 1 - x1)) by (f_equal; lia).
      rewrite E, <- fmap_add_seqZ. reflexivity.
  - apply (gl_head _ _ _ _ _ G).
  - apply (gl_last _ _ _ _ _ G).
  - intros x y Hin. destruct (gl_in _ _ _ _ _ G _ Hin) as (_ & _ & Hh). unfold half_pixel, deviation, extent in Hh.
    cbn [fst snd] in Hh. lia.
Qed.

Example C26_example : firstOctantBressenham 0 0 7 3 = [(0,0);(1,0);(2,1);(3,1);(4,2);(5,2);(6,3);(7,3)].
Proof. reflexivity. Qed.

(** ** C27: every octant *)
Theorem C27_endpoints x1 y1 x2 y2 :
  head (plotLine x1 y1 x2 y2) = Some (x1, y1) /\ last (plotLine x1 y1 x2 y2) = Some (x2, y2) /\
  Z.of_nat (length (plotLine x1 y1 x2 y2)) = extent x1 y1 x2 y2 + 1.
Proof.
  pose proof (plotLine_good x1 y1 x2 y2) as G.
  split; [apply (gl_head _ _ _ _ _ G)|split; [apply (gl_last _ _ _ _ _ G)|apply (gl_len _ _ _ _ _ G)]].
Qed.

Theorem C27_in_box_and_near x1 y1 x2 y2 p : In p (plotLine x1 y1 x2 y2) ->
  zbetween x1 x2 (fst p) /\ zbetween y1 y2 (snd p) /\ half_pixel x1 y1 x2 y2 p.
Proof. apply (gl_in _ _ _ _ _ (plotLine_good x1 y1 x2 y2)). Qed.

Theorem C27_connected x1 y1 x2 y2 : connected (plotLine x1 y1 x2 y2).
Proof. apply (gl_conn _ _ _ _ _ (plotLine_good x1 y1 x2 y2)). Qed.

(** Exactly one pixel per step of the major axis. *)
Theorem C27_one_per_major_step x1 y1 x2 y2 :
  (Z.abs (y2 - y1) <= Z.abs (x2 - x1) -> forall x, zbetween x1 x2 x ->
     exists y, forall y', In (x, y') (plotLine x1 y1 x2 y2) <-> y' = y) /\
  (Z.abs (x2 - x1) <= Z.abs (y2 - y1) -> forall y, zbetween y1 y2 y ->
     exists x, forall x', In (x', y) (plotLine x1 y1 x2 y2) <-> x' = x).
Proof.
  pose proof (plotLine_good x1 y1 x2 y2) as G.
  split; [apply (gl_cover_x _ _ _ _ _ G)|apply (gl_cover_y _ _ _ _ _ G)].
Qed.

Example C27_example : plotLine 2 5 0 (-1) = [(2,5);(2,4);(1,3);(1,2);(1,1);(0,0);(0,-1)].
Proof. reflexivity. Qed.

(** ** C28: where voxels can be *)

Definition result_voxels (r : vox_error + binvox Q) (k : key) : Prop :=
  match r with inl _ => False | inr b => k ∈ white b end.

Lemma VoxelizeZ_in b mesh zi : zero_dim b = false -> NoDup (map taddr mesh) ->
  forall k, result_voxels (VoxelizeZ b mesh zi) k <-> solid b mesh zi k.
Proof.
  intros Hz Hn k. unfold VoxelizeZ. rewrite Hz. cbn. unfold white, with_white. cbn.
  rewrite elem_of_list_to_set, elem_of_list_In. apply slice_spec, Hn.
Qed.

Lemma Voxelize_in b mesh : zero_dim b = false -> NoDup (map taddr mesh) ->
  forall k, result_voxels (Voxelize b mesh) k <-> 0 <= kz k < NZ b /\ solid b mesh (kz k) k.
Proof.
  intros Hz Hn k. unfold Voxelize. rewrite Hz. cbn. unfold white, with_white. cbn.
  rewrite elem_of_list_to_set, elem_of_list_In, in_flat_map. split.
  - intros (zi & Hi & Hk). apply elem_of_list_In, elem_of_seqZ in Hi. apply slice_spec in Hk; [|exact Hn].
    pose proof Hk as (E & _). rewrite E. split; [lia|exact Hk].
  - intros (Hi & Hk). exists (kz k). split; [apply elem_of_list_In, elem_of_seqZ; lia|]. apply slice_spec; assumption.
Qed.

(** y and z are inside the grid and x is below NX; a voxel with negative x belongs to the outline. *)
Theorem C28_range b mesh k : zero_dim b = false -> NoDup (map taddr mesh) ->
  result_voxels (Voxelize b mesh) k ->
  kx k < NX b /\ 0 <= ky k < NY b /\ 0 <= kz k < NZ b /\ (0 <= kx k \/ shell b mesh k).
Proof.
  intros Hz Hn Hk. apply Voxelize_in in Hk as (H1 & H2 & H3 & H4 & H5); [|assumption..].
  repeat split; try lia. destruct H5 as [H5|[H5 _]]; auto.
Qed.

Lemma on_segment_px_ge p q r c : (c <= px p -> c <= px q -> on_segment p q r -> c <= px r)%Q.
Proof.
  intros Hp Hq (t & Ht & E). apply qpt_eq_iff in E as (E & _). rewrite E. unfold lerp, px. cbn [fst].
  change (fst (fst p)) with (px p). change (fst (fst q)) with (px q). nra.
Qed.

(** If no vertex is to the left of the origin, every voxel is inside the grid. *)
Theorem C28_in_grid b mesh k : zero_dim b = false -> NoDup (map taddr mesh) -> (0 < vpmm b)%Q ->
  (forall t, In t mesh -> TX b <= px (tv1 t) /\ TX b <= px (tv2 t) /\ TX b <= px (tv3 t))%Q ->
  result_voxels (Voxelize b mesh) k -> in_grid (NX b) (NY b) (NZ b) k.
Proof.
  intros Hz Hn Hv Hx Hk. destruct (C28_range b mesh k Hz Hn Hk) as (H1 & H2 & H3 & H4).
  assert (0 <= kx k); [|unfold in_grid, in_region; lia].
  destruct H4 as [H4|(t & Ht & Hin)]; [exact H4|].
  unfold outline in Hin. destruct (intersectTriZPlane t (slice_z b (kz k))) as [[[p q] t']|] eqn:E; [|destruct Hin].
  destruct (tri_sound _ _ _ _ _ E) as (_ & _ & _ & Hp & Hq). destruct (Hx t Ht) as (Hx1 & Hx2 & Hx3).
  assert (Hge : forall r, on_edge t r -> (TX b <= px r)%Q).
  { intros r [Hr|[Hr|Hr]]; eapply on_segment_px_ge; try exact Hr; assumption. }
  pose proof (Hge p Hp) as Gp. pose proof (Hge q Hq) as Gq.
  unfold pair_points in Hin. apply C27_in_box_and_near in Hin as (Hin & _). unfold zbetween in Hin. cbn [fst] in Hin.
  assert (Hg : forall r, (TX b <= r)%Q -> 0 <= gridi (vpmm b) r (TX b)).
  { intros r Hr. unfold gridi. change 0 with (Qfloor 0). apply Qfloor_resp_le. nra. }
  pose proof (Hg _ Gp). pose proof (Hg _ Gq). lia.
Qed.

(** A box as twelve triangles, with outward normals. *)
Definition q3 (x y z : Q) : qpt := (x, y, z).
Definition box_mesh (x0 y0 z0 x1 y1 z1 : Q) : list tri :=
  [ Tri 1 (q3 x0 y0 z0) (q3 x0 y0 z1) (q3 x0 y1 z1) (q3 (-1) 0 0);
    Tri 2 (q3 x0 y0 z0) (q3 x0 y1 z1) (q3 x0 y1 z0) (q3 (-1) 0 0);
    Tri 3 (q3 x1 y0 z0) (q3 x1 y1 z1) (q3 x1 y0 z1) (q3 1 0 0);
    Tri 4 (q3 x1 y0 z0) (q3 x1 y1 z0) (q3 x1 y1 z1) (q3 1 0 0);
    Tri 5 (q3 x0 y0 z0) (q3 x1 y0 z0) (q3 x1 y0 z1) (q3 0 (-1) 0);
    Tri 6 (q3 x0 y0 z0) (q3 x1 y0 z1) (q3 x0 y0 z1) (q3 0 (-1) 0);
    Tri 7 (q3 x0 y1 z0) (q3 x1 y1 z1) (q3 x1 y1 z0) (q3 0 1 0);
    Tri 8 (q3 x0 y1 z0) (q3 x0 y1 z1) (q3 x1 y1 z1) (q3 0 1 0);
    Tri 9 (q3 x0 y0 z0) (q3 x0 y1 z0) (q3 x1 y1 z0) (q3 0 0 (-1));
    Tri 10 (q3 x0 y0 z0) (q3 x1 y1 z0) (q3 x1 y0 z0) (q3 0 0 (-1));
    Tri 11 (q3 x0 y0 z1) (q3 x1 y1 z1) (q3 x0 y1 z1) (q3 0 0 1);
    Tri 12 (q3 x0 y0 z1) (q3 x1 y0 z1) (q3 x1 y1 z1) (q3 0 0 1) ].

Definition grid5 : binvox Q := @BinVOX Q 5 5 5 0%Q 0%Q 0%Q 5%Q (Some ∅) None.

Definition voxel_list (r : vox_error + binvox Q) : list key :=
  match r with inl _ => [] | inr b => elements (white b) end.

(** The voxelized box [1/4, 17/5] is exactly the block 0..3 in x and y and layers 0..2 in z. *)
Example C28_box_example :
  let mesh := box_mesh (1#4) (1#4) (1#4) (17#5) (17#5) (17#5) in
  zero_dim grid5 = false /\ NoDup (map taddr mesh) /\ (0 < vpmm grid5)%Q /\
  (forall t, In t mesh -> (TX grid5 <= px (tv1 t) /\ TX grid5 <= px (tv2 t) /\ TX grid5 <= px (tv3 t))%Q) /\
  length (voxel_list (Voxelize grid5 mesh)) = 48%nat.
Proof.
  split; [reflexivity|]. split; [apply (bool_decide_unpack _); vm_compute; exact I|].
  split; [reflexivity|]. split; [|vm_compute; reflexivity].
  intros t Ht. cbn in Ht. repeat (destruct Ht as [<-|Ht]; [cbn; repeat split; discriminate|]). destruct Ht.
Qed.

(** A voxel with negative x is really produced when the mesh sticks out to the left of the origin. *)
Theorem C28_negative_x_refuted :
  ~ (forall b mesh k, zero_dim b = false -> NoDup (map taddr mesh) ->
       result_voxels (Voxelize b mesh) k -> in_grid (NX b) (NY b) (NZ b) k).
Proof.
  intros H.
  specialize (H grid5 (box_mesh (-(7#4)) (1#4) (1#4) (17#5) (17#5) (17#5)) (-2, 0, 0)).
  assert (Hin : result_voxels (Voxelize grid5 (box_mesh (-(7#4)) (1#4) (1#4) (17#5) (17#5) (17#5))) (-2, 0, 0)).
  { apply (bool_decide_unpack (_ ∈ white _)). vm_compute. exact I. }
  apply H in Hin; [|reflexivity|apply (bool_decide_unpack _); vm_compute; exact I].
  unfold in_grid, in_region, kx in Hin. cbn in Hin. lia.
Qed.

(** Zero dimensions are rejected, and nothing else is. *)
Theorem C28_zero_dim_error b mesh zi :
  (zero_dim b = true <-> NX b = 0 \/ NY b = 0 \/ NZ b = 0) /\
  (zero_dim b = true <-> Voxelize b mesh = inl EZeroDim) /\
  (zero_dim b = true <-> VoxelizeZ b mesh zi = inl EZeroDim).
Proof.
  split; [|split].
  - unfold zero_dim. rewrite !orb_true_iff, !Z.eqb_eq. tauto.
  - unfold Voxelize. destruct (zero_dim b); split; congruence.
  - unfold VoxelizeZ. destruct (zero_dim b); split; congruence.
Qed.

(** ** C29: goroutines *)
Lemma NoDup_map_inj {A B} (f : A -> B) l : (forall x y, f x = f y -> x = y) -> NoDup l -> NoDup (map f l).
Proof. intros Hf. apply (@NoDup_fmap_2 A B f Hf). Qed.

Section Goroutines.
  Context (b : binvox Q) (mesh : list tri) (rows : Z -> list Z).
  (** [rows zi]: some iteration order of the map of rows of slice [zi]. *)
  Context (Hrows : forall zi, Permutation (rows zi) (slice_rows b mesh zi)).

  Definition vkids (t : vtid) : list vtid :=
    match t with TMain => map TSlice (seqZ 0 (NZ b)) | TSlice zi => map (TRow zi) (rows zi) | TRow _ _ => [] end.
  Definition vleaf (t : vtid) : bool := match t with TRow _ _ => true | _ => false end.
  Definition vputs (t : vtid) : list key := match t with TRow zi yi => row_voxels b mesh zi yi | _ => [] end.
  Definition vparent (t : vtid) : vtid := match t with TRow zi _ => TSlice zi | _ => TMain end.
  Definition vrank (t : vtid) : nat := match t with TMain => 2 | TSlice _ => 1 | TRow _ _ => 0 end.
  Definition vtids : list vtid := TMain :: flat_map (fun zi => TSlice zi :: map (TRow zi) (rows zi)) (seqZ 0 (NZ b)).

  Lemma rows_nodup zi : NoDup (rows zi).
  Proof.
    rewrite (Hrows zi). unfold slice_rows. apply (NoDup_fst_map_to_list (snd (slice_shell b mesh zi))).
  Qed.

  Lemma vtids_in t : In t vtids <->
    match t with TMain => True | TSlice zi => 0 <= zi < NZ b | TRow zi yi => 0 <= zi < NZ b /\ In yi (rows zi) end.
  Proof.
    unfold vtids. cbn [In]. rewrite in_flat_map. split.
    - intros [<-|(zi & Hz & Ht)]; [exact I|]. apply elem_of_list_In, elem_of_seqZ in Hz.
      destruct Ht as [<-|Ht]; [lia|]. apply in_map_iff in Ht as (yi & <- & Hy). split; [lia|exact Hy].
    - destruct t as [|zi|zi yi]; [auto| |].
      + intros Hz. right. exists zi. split; [apply elem_of_list_In, elem_of_seqZ; lia|left; reflexivity].
      + intros [Hz Hy]. right. exists zi. split; [apply elem_of_list_In, elem_of_seqZ; lia|right; apply in_map, Hy].
  Qed.

  Lemma vtids_nodup : NoDup vtids.
  Proof.
    unfold vtids. constructor.
    - rewrite elem_of_list_In, in_flat_map. intros (zi & _ & [H|H]); [discriminate|].
      apply in_map_iff in H as (yi & H & _). discriminate.
    - pose proof (NoDup_seqZ 0 (NZ b)) as Hs. induction (seqZ 0 (NZ b)) as [|z l IH]; [constructor|].
      inversion Hs as [|? ? Hz Hs']; subst. cbn [flat_map]. apply NoDup_app. split; [|split].
      + constructor.
        * rewrite elem_of_list_In, in_map_iff. intros (y & H & _). discriminate.
        * apply NoDup_map_inj, rows_nodup. intros x y [=]. assumption.
      + intros t Ht Ht'. rewrite elem_of_list_In in Ht, Ht'. apply in_flat_map in Ht' as (z' & Hz' & Ht').
        apply Hz. apply elem_of_list_In.
        assert (z = z') as ->; [|exact Hz'].
        destruct Ht as [<-|Ht]; [|apply in_map_iff in Ht as (y & <- & _)].
        * destruct Ht' as [[= ->]|Ht']; [reflexivity|]. apply in_map_iff in Ht' as (y' & [=] & _).
        * destruct Ht' as [[=]|Ht']. apply in_map_iff in Ht' as (y' & [=] & _). congruence.
      + apply IH, Hs'.
  Qed.

  Lemma flat_map_map {A B C} (f : B -> list C) (g : A -> B) l : flat_map f (map g l) = flat_map (fun a => f (g a)) l.
  Proof. rewrite !flat_map_concat_map, map_map. reflexivity. Qed.

  Lemma vox_tree : tree (vox_code b mesh rows) vtids TMain vkids vleaf vputs vparent vrank.
  Proof.
    constructor.
    - intros [|zi|zi yi] _; unfold vox_code, vkids, vleaf, vputs, spawns, lockputs, last_act;
        rewrite ?flat_map_map; cbn [flat_map app]; reflexivity.
    - apply vtids_nodup.
    - apply vtids_in. exact I.
    - intros [|zi|zi yi] c Ht Hc; unfold vkids in Hc; [| |destruct Hc]; apply in_map_iff in Hc as (z & <- & Hz).
      + apply elem_of_list_In, elem_of_seqZ in Hz. split; [apply vtids_in; lia|]. split; [reflexivity|]. split; [discriminate|]. cbn; lia.
      + apply vtids_in in Ht. split; [apply vtids_in; auto|]. split; [reflexivity|]. split; [discriminate|]. cbn; lia.
    - intros [|zi|zi yi] _; unfold vkids.
      + apply NoDup_map_inj, NoDup_seqZ. intros x y [=]. assumption.
      + apply NoDup_map_inj, rows_nodup. intros x y [=]. assumption.
      + constructor.
    - intros [|zi|zi yi] Hc Hne; [congruence| |]; apply vtids_in in Hc; cbn [vparent].
      + split; [apply vtids_in; exact I|]. cbn [vkids]. apply in_map, elem_of_list_In, elem_of_seqZ. lia.
      + split; [apply vtids_in; lia|]. cbn [vkids]. apply in_map, Hc.
    - intros [|zi|zi yi] _; cbn; congruence.
  Qed.

  Definition vstep : @fj vtid key _ _ -> @fj vtid key _ _ -> Prop := fstep.
  Definition vinit : @fj vtid key _ _ := finit (vox_code b mesh rows) TMain.

  Lemma vputs_all k : (exists t, In t vtids /\ In k (vputs t)) <->
    In k (flat_map (slice_voxels b mesh) (seqZ 0 (NZ b))).
  Proof.
    rewrite in_flat_map. unfold slice_voxels. setoid_rewrite in_flat_map. split.
    - intros ([|zi|zi yi] & Ht & Hk); cbn in Hk; try (destruct Hk; fail). apply vtids_in in Ht as [Hz Hy].
      exists zi. split; [apply elem_of_list_In, elem_of_seqZ; lia|]. exists yi. split; [|exact Hk].
      eapply Permutation_in; [apply Hrows|exact Hy].
    - intros (zi & Hz & yi & Hy & Hk). apply elem_of_list_In, elem_of_seqZ in Hz. exists (TRow zi yi). split; [|exact Hk].
      apply vtids_in. split; [lia|]. eapply Permutation_in; [symmetry; apply Hrows|exact Hy].
  Qed.

  (** Whatever the schedule, what Voxelize stores is the sequential result. *)
  Theorem C29_any_schedule s V : zero_dim b = false -> rtc vstep vinit s -> result s = Some V ->
    Voxelize b mesh = inr (with_white b V).
  Proof.
    intros Hz Hr HV. unfold Voxelize. rewrite Hz. f_equal. f_equal. apply set_eq. intros k.
    rewrite elem_of_list_to_set, elem_of_list_In, <- vputs_all. symmetry.
    apply (fj_result _ _ _ _ _ _ _ _ vox_tree s V Hr HV).
  Qed.

  (** No two goroutines touch the voxel map at once, no WaitGroup or mutex misuse panics. *)
  Theorem C29_no_race s : rtc vstep vinit s -> ~ race s /\ ~ panics s.
  Proof.
    intros Hr. split; [apply (fj_norace _ _ _ _ _ _ _ _ vox_tree s Hr)|apply (fj_nopanic _ _ _ _ _ _ _ _ vox_tree s Hr)].
  Qed.

  (** No deadlock: when nothing can move, the result is there and all goroutines are gone. *)
  Theorem C29_no_deadlock s : rtc vstep vinit s -> (forall s', ~ vstep s s') ->
    is_Some (result s) /\ forall t, In t vtids -> rem s t = [].
  Proof.
    intros Hr Hno. destruct (fj_progress _ _ _ _ _ _ _ _ vox_tree s Hr Hno) as (H1 & _ & H2).
    split; [exact H1|]. intros t Ht. apply H2, Ht.
  Qed.

  (** Every schedule ends, within a bound known at the start. *)
  Theorem C29_terminates : exists N, forall n s, nsteps vstep n vinit s -> (n <= N)%nat.
  Proof. eexists. intros n s Hn. apply (fj_terminates _ _ _ _ _ _ _ _ vox_tree s n Hn). Qed.
End Goroutines.

(** Voxelize is the union of the single-slice calls. *)
Theorem C29_slices b mesh k : zero_dim b = false -> NoDup (map taddr mesh) ->
  result_voxels (Voxelize b mesh) k <->
  exists zi, 0 <= zi < NZ b /\ result_voxels (VoxelizeZ b mesh zi) k.
Proof.
  intros Hz Hn. rewrite Voxelize_in by assumption. split.
  - intros [H1 H2]. exists (kz k). split; [exact H1|]. apply VoxelizeZ_in; assumption.
  - intros (zi & H1 & H2). apply VoxelizeZ_in in H2; [|assumption..]. pose proof H2 as (E & _). rewrite E. auto.
Qed.

(** The header is untouched and the previous voxels are overwritten. *)
Theorem C29_header b mesh b' : Voxelize b mesh = inr b' ->
  (NX b', NY b', NZ b') = (NX b, NY b, NZ b) /\ (TX b', TY b', TZ b', Scale b') = (TX b, TY b, TZ b, Scale b) /\
  Colors b' = Colors b /\
  forall w, Voxelize (BinVOX (NX b) (NY b) (NZ b) (TX b) (TY b) (TZ b) (Scale b) w (Colors b)) mesh = inr b'.
Proof.
  unfold Voxelize. destruct (zero_dim b) eqn:E; [discriminate|]. intros [= <-].
  repeat split. intros w. assert (E' : zero_dim (BinVOX (NX b) (NY b) (NZ b) (TX b) (TY b) (TZ b) (Scale b) w (Colors b)) = false) by exact E.
  rewrite E'. reflexivity.
Qed.

(** The box mesh starts 5 slice goroutines and 12 row goroutines. *)
Example C29_example :
  let mesh := box_mesh (1#4) (1#4) (1#4) (17#5) (17#5) (17#5) in
  length (vtids grid5 (slice_rows grid5 mesh)) = 18%nat /\
  forall zi, Permutation (slice_rows grid5 mesh zi) (slice_rows grid5 mesh zi).
Proof. split; [vm_compute; reflexivity|reflexivity]. Qed.

(** ** C30: slicing *)

(** Every returned point lies on the plane and on an edge of the triangle that was asked about. *)
Theorem C30_sound t z p q t' : intersectTriZPlane t z = Some (p, q, t') ->
  t' = t /\ (pz p == z)%Q /\ (pz q == z)%Q /\ on_edge t p /\ on_edge t q.
Proof. apply tri_sound. Qed.

(** The two points span exactly the cut of triangle and plane; no points means no cut.  The edges must
    not be nearly flat (closer than 1e-9 in z without being horizontal), the triangle must not lie in
    the plane, and V2 must not be on the plane with V1 and V3 on opposite sides. *)
Theorem C30_exact t z : clean t -> ~ coplanar t z -> ~ middle_on_plane t z ->
  match intersectTriZPlane t z with
  | Some (p, q, _) => forall r, in_triangle t r /\ (pz r == z)%Q <-> on_segment p q r
  | None => forall r, in_triangle t r -> ~ (pz r == z)%Q
  end.
Proof. apply tri_exact. Qed.

(** In the excluded case the cut is reported as the single point V2, so all but one point is lost. *)
Theorem C30_middle_vertex_lost t z : clean t -> middle_on_plane t z ->
  exists p q, intersectTriZPlane t z = Some (p, q, t) /\ qpt_eq p (tv2 t) /\ qpt_eq q (tv2 t).
Proof. apply tri_middle. Qed.

Theorem C30_exact_refuted : ~ (forall t z, clean t -> ~ coplanar t z ->
  match intersectTriZPlane t z with
  | Some (p, q, _) => forall r, in_triangle t r /\ (pz r == z)%Q <-> on_segment p q r
  | None => forall r, in_triangle t r -> ~ (pz r == z)%Q
  end).
Proof.
  intros H. specialize (H (Tri 1 (q3 0 0 0) (q3 (9#2) (1#2) (1#2)) (q3 0 0 1) (q3 0 (-1) 0)) (1#2)).
  cbn in H.
  assert (Hs : forall v0 v1, Qle_bool epsilon (Qabs.Qabs (pz v1 - pz v0)) = true -> clean_edge v0 v1).
  { intros v0 v1 E. right. unfold steep. apply Qle_bool_iff, E. }
  assert (H' : on_segment (q3 (9#2) (1#2) (1#2)) (q3 (9#2) (1#2) (1#2)) (q3 0 0 (1#2))).
  { match type of H with ?A -> ?B -> _ => assert (HA : A) end.
    { split; [|split]; apply Hs; reflexivity. }
    match type of H with ?A -> ?B -> _ => assert (HB : B) end.
    { intros (E & _). discriminate E. }
    specialize (H HA HB). clear HA HB.
    eapply on_segment_ext; [| | |apply (proj1 (H (q3 0 0 (1#2))))]; try (apply qpt_eq_iff; repeat split; reflexivity).
    split; [|reflexivity]. exists (1#2)%Q, 0%Q, (1#2)%Q. split; [cbn; lra|]. apply qpt_eq_iff. repeat split; reflexivity. }
  destruct H' as (s & Hs' & E). apply qpt_eq_iff in E as (E & _). unfold lerp, q3, px in E. cbn [fst snd] in E. lra.
Qed.

Theorem C30_coplanar t z : coplanar t z -> intersectTriZPlane t z = None.
Proof. apply tri_coplanar. Qed.

Example C30_example :
  let t := Tri 1 (q3 0 0 0) (q3 4 0 3) (q3 0 4 1) (q3 0 0 1) in
  (clean t /\ ~ coplanar t 2 /\ ~ middle_on_plane t 2)%Q.
Proof.
  cbn zeta. split; [|split].
  - assert (Hs : forall v0 v1, Qle_bool epsilon (Qabs.Qabs (pz v1 - pz v0)) = true -> clean_edge v0 v1).
    { intros v0 v1 E. right. unfold steep. apply Qle_bool_iff, E. }
    split; [|split]; apply Hs; reflexivity.
  - intros (E & _). discriminate E.
  - intros (E & _). discriminate E.
Qed.

(** ** C31: the flood fill *)

(** The voxels of a slice, without the loops. *)
Theorem C31_slice b mesh zi k : zero_dim b = false -> NoDup (map taddr mesh) ->
  result_voxels (VoxelizeZ b mesh zi) k <-> solid b mesh zi k.
Proof. intros Hz Hn. apply VoxelizeZ_in; assumption. Qed.

(** Consistent crossings: entering and leaving positions alternate, from left to right. *)
Fixpoint ordered (lo : Z) (cs : list (Z * Z)) : Prop :=
  match cs with [] => True | (e, l) :: cs' => lo < e /\ e < l /\ ordered l cs' end.

Definition crossings (b : binvox Q) (mesh : list tri) (zi y : Z) (lo : Z) (cs : list (Z * Z)) : Prop :=
  ordered lo cs /\
  (forall x, 0 < balance b mesh zi y x <-> In x (map fst cs)) /\
  (forall x, balance b mesh zi y x < 0 <-> In x (map snd cs)).

Lemma ordered_lo lo cs e l : ordered lo cs -> In (e, l) cs -> lo < e /\ e < l.
Proof.
  revert lo. induction cs as [|[e' l'] cs IH]; intros lo Ho Hi; [destruct Hi|]. destruct Ho as (H1 & H2 & H3).
  destruct Hi as [[= -> ->]|Hi]; [lia|]. destruct (IH l' H3 Hi). lia.
Qed.

Lemma ordered_disjoint lo cs e l e' l' : ordered lo cs -> In (e, l) cs -> In (e', l') cs ->
  (e, l) = (e', l') \/ l < e' \/ l' < e.
Proof.
  revert lo. induction cs as [|[e0 l0] cs IH]; intros lo Ho Hi Hi'; [destruct Hi|]. destruct Ho as (H1 & H2 & H3).
  destruct Hi as [[= -> ->]|Hi], Hi' as [[= -> ->]|Hi']; [auto| | |apply (IH l0); assumption].
  - destruct (ordered_lo _ _ _ _ H3 Hi'). auto.
  - destruct (ordered_lo _ _ _ _ H3 Hi). auto.
Qed.

Theorem C31_between_crossings b mesh zi y lo cs x : zero_dim b = false -> NoDup (map taddr mesh) ->
  0 <= y < NY b -> crossings b mesh zi y lo cs ->
  result_voxels (VoxelizeZ b mesh zi) (x, y, zi) <->
  x < NX b /\ (shell b mesh (x, y, zi) \/ 0 <= x /\ exists e l, In (e, l) cs /\ e < x < l).
Proof.
  intros Hz Hn Hy (Ho & Hin & Hout). rewrite C31_slice by assumption.
  unfold solid. unfold kx, ky, kz. cbn [fst snd].
  assert (Hshell : forall x, balance b mesh zi y x <> 0 -> shell b mesh (x, y, zi)).
  { intros x' Hx'. apply hit_any_shell. apply (balance_hit b mesh zi y Hn Hy x' Hx'). }
  split.
  - intros (_ & _ & Hx & [Hs|(H0 & (x' & Hlt & Hp & Hz') & _)]); [auto|]. split; [exact Hx|].
    destruct (Z.eq_dec (balance b mesh zi y x) 0) as [Eb|Eb]; [|left; apply Hshell, Eb].
    right. split; [exact H0|]. apply Hin in Hp. apply in_map_iff in Hp as ([e l] & E & Hc). cbn in E. subst x'.
    exists e, l. split; [exact Hc|]. split; [exact Hlt|].
    destruct (ordered_lo _ _ _ _ Ho Hc) as [_ Hel].
    assert (Hl : balance b mesh zi y l < 0) by (apply Hout, in_map_iff; exists (e, l); auto).
    destruct (Z_lt_le_dec x l); [assumption|]. exfalso. destruct (Z.eq_dec x l) as [->|Hne]; [lia|].
    specialize (Hz' l Hel ltac:(lia)). lia.
  - intros (Hx & [Hs|(H0 & e & l & Hc & He & Hl)]).
    + repeat split; try lia. left. exact Hs.
    + repeat split; try lia. right. split; [exact H0|]. split.
      * exists e. split; [exact He|]. split; [apply Hin, in_map_iff; exists (e, l); auto|].
        intros x'' H1 H2. destruct (Z_lt_le_dec (balance b mesh zi y x'') 0) as [Hb|Hb]; [|exact Hb].
        exfalso. apply Hout in Hb. apply in_map_iff in Hb as ([e' l'] & E & Hc'). cbn in E. subst l'.
        destruct (ordered_lo _ _ _ _ Ho Hc') as [_ ?].
        destruct (ordered_disjoint _ _ _ _ _ _ Ho Hc Hc') as [[= -> ->]|[?|?]]; lia.
      * exists l. split; [exact Hl|]. apply Hshell.
        assert (balance b mesh zi y l < 0) by (apply Hout, in_map_iff; exists (e, l); auto). lia.
Qed.

(** The box: row 2 of slice 1 enters at 0 and leaves at 3. *)
Lemma balance_outside b mesh zi y x lo hi :
  (forall t, In t mesh -> forallb (fun p => negb (snd p =? y) || ((lo <=? fst p) && (fst p <=? hi))) (outline b zi t) = true) ->
  x < lo \/ hi < x -> balance b mesh zi y x = 0.
Proof.
  intros Hf Hx. unfold balance.
  assert (E : forall t, In t mesh -> leftmost b zi y t x = false).
  { intros t Ht. apply not_true_is_false. rewrite leftmost_iff, hitp_iff. intros [Hi _].
    specialize (Hf t Ht). rewrite forallb_forall in Hf. specialize (Hf _ Hi). cbn [fst snd] in Hf.
    rewrite Z.eqb_refl in Hf. cbn in Hf. apply andb_true_iff in Hf as [H1 H2]. apply Z.leb_le in H1, H2. lia. }
  assert (E' : forall P : tri -> bool, List.filter (fun t => leftmost b zi y t x && P t) mesh = []).
  { intros P. rewrite (filter_ext_in _ (fun _ => false)); [clear; induction mesh; auto|].
    intros t Ht. rewrite (E t Ht). reflexivity. }
  rewrite !E'. reflexivity.
Qed.

Example C31_example :
  let mesh := box_mesh (1#4) (1#4) (1#4) (17#5) (17#5) (17#5) in
  crossings grid5 mesh 1 2 (-1) [(0, 3)].
Proof.
  cbn zeta. set (mesh := box_mesh _ _ _ _ _ _).
  assert (Hb : forall x, balance grid5 mesh 1 2 x = (if x =? 0 then 1 else if x =? 3 then -1 else 0) \/ 0 < x < 3 /\ balance grid5 mesh 1 2 x = 0).
  { intros x. destruct (Z_lt_le_dec x 0); [|destruct (Z_lt_le_dec 3 x)].
    - left. destruct (Z.eqb_spec x 0), (Z.eqb_spec x 3); try lia.
      apply (balance_outside grid5 mesh 1 2 x 0 3); [|lia]. intros t Ht. cbn in Ht.
      repeat (destruct Ht as [<-|Ht]; [vm_compute; reflexivity|]). destruct Ht.
    - left. destruct (Z.eqb_spec x 0), (Z.eqb_spec x 3); try lia.
      apply (balance_outside grid5 mesh 1 2 x 0 3); [|lia]. intros t Ht. cbn in Ht.
      repeat (destruct Ht as [<-|Ht]; [vm_compute; reflexivity|]). destruct Ht.
    - assert (x = 0 \/ x = 1 \/ x = 2 \/ x = 3) as [->|[->|[->| ->]]] by lia;
        [left; vm_compute; reflexivity|right; split; [lia|vm_compute; reflexivity]|right; split; [lia|vm_compute; reflexivity]|left; vm_compute; reflexivity]. }
  split; [cbn; lia|]. cbn [map fst snd In]. split; intros x; destruct (Hb x) as [->|[? ->]];
    try destruct (Z.eqb_spec x 0); try destruct (Z.eqb_spec x 3); try lia.
Qed.

Print Assumptions C26_first_octant.
Print Assumptions C27_endpoints.
Print Assumptions C27_in_box_and_near.
Print Assumptions C27_connected.
Print Assumptions C27_one_per_major_step.
Print Assumptions C28_range.
Print Assumptions C28_in_grid.
Print Assumptions C28_negative_x_refuted.
Print Assumptions C29_any_schedule.
Print Assumptions C29_no_race.
Print Assumptions C29_no_deadlock.
Print Assumptions C29_terminates.
Print Assumptions C29_slices.
Print Assumptions C30_exact.
Print Assumptions C30_exact_refuted.
Print Assumptions C31_slice.
Print Assumptions C31_between_crossings.
