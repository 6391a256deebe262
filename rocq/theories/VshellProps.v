(** Properties of package vshell: C15 to C22. *)
From Verif Require Import Base BaseLemmas BinvoxModel Geom VshellModel VshellSpec VshellBits VshellMerge
  VshellProofs VshellGeom.
From Coq Require Import ZArith QArith List Lia Lqa Bool.
From stdpp Require Import base list gmap sets fin_sets.
Import ListNotations.
Open Scope Z_scope.

(** A model over Q, for the examples. *)
Definition bvq (nx ny nz : Z) (tx ty tz s : Q) w c : binvox Q := BinVOX nx ny nz tx ty tz s w c.
Definition vsq (nx ny nz : Z) (tx ty tz s : Q) vox : vshell := VShell nx ny nz tx ty tz s vox.

(** * C15: neighbour bits *)

(** Each of the 26 offsets has its own bit; the full mask is exactly their union; the bit between two
    adjacent keys is that of their offset and mirrors the opposite one; other pairs give no bit. *)
Theorem C15_neighbour_bits :
  (forall o o', is_offset o -> is_offset o' -> offset_bit o = offset_bit o' -> o = o') /\
  (forall i, Z.testbit allNeighbors i = true <-> exists o, is_offset o /\ i = offset_bit o) /\
  (forall k o, is_offset o -> diffKeys k (move k o) = 2 ^ offset_bit o) /\
  (forall k o, is_offset o -> diffKeys (move k o) k = 2 ^ (26 - offset_bit o)) /\
  (forall k k', (forall o, is_offset o -> k' <> move k o) -> diffKeys k k' = 0).
Proof.
  split; [exact offset_bit_inj|]. split; [|split; [exact diffKeys_move|split; [|exact diffKeys_far]]].
  - intros i. rewrite testbit_all. split.
    + intros [H1 H2]. apply bit_offset; assumption.
    + intros (o & Ho & ->). apply offset_bit_range, Ho.
  - intros k o Ho. rewrite <- opposite_bit.
    rewrite <- (diffKeys_move (move k o) (opposite o)) by (apply is_offset_opposite, Ho).
    rewrite move_opposite. reflexivity.
Qed.

(** findNeighbors records exactly the neighbours in the new model or the old shell, and asks to update
    exactly the old ones that the new model does not have. *)
Theorem C15_find_neighbors m old k n tc :
  findNeighbors m k old = (n, tc) ->
  exact_mask (m ∪ dom old) k n /\ NoDup tc /\
  (forall t, t ∈ tc <-> t ∉ m /\ t ∈ dom old /\ exists o, is_offset o /\ t = move k o).
Proof.
  intros H. destruct (findNeighbors_spec _ _ _ _ _ H) as [H1 H2]. split; [exact H1|].
  split; [eapply toCheck_NoDup, H|]. intros t. rewrite H2, elem_of_dom. reflexivity.
Qed.

Example C15_example : diffKeys (0, 0, 0) (1, 0, 0) = 4194304 /\ 2 ^ offset_bit (1, 0, 0) = 4194304
  /\ allNeighbors = 134209535.
Proof. vm_compute. auto. Qed.

(** * C16: building a shell *)

Lemma exact_shell_empty : exact_shell ∅ [].
Proof.
  split; [constructor|]. split.
  - intros k. split; [intros H; inversion H|]. intros [H _]. exfalso. exact (not_elem_of_empty _ H).
  - intros k n H. inversion H.
Qed.

(** Adding to an empty shell, and vshell.New, give the exact shell of the model (white and coloured
    voxels), whatever the iteration orders and the growth of the slice. *)
Theorem C16_add_to_empty g c wo co o vs bv :
  Voxels vs = [] -> orders_ok wo co o vs bv ->
  exists vs', vs_Add g c wo co o vs (Some bv) = (vs', Done) /\ exact_shell (model_of bv) (Voxels vs').
Proof.
  intros Hnil Hord. destruct (Add_added g c wo co o vs bv Hord) as (vs' & E & Had); [left; exact Hnil|].
  exists vs'. split; [exact E|]. destruct Had as [Hv _ _ _ _ _ _ _ _ _].
  assert (Hnd : new_disp vs bv = (0, 0, 0)) by (unfold new_disp; rewrite Hnil; reflexivity).
  destruct Hord as (_ & _ & Ho). rewrite Hnd in *. rewrite displaced_zero in *.
  rewrite Hnil in Hv. cbn in Hv.
  destruct (add_voxels_exact g c ∅ (model_of bv) o [] Ho) as (V & EV & HV).
  - intros k H. exfalso. exact (not_elem_of_empty _ H).
  - exact exact_shell_empty.
  - right. reflexivity.
  - rewrite EV in Hv. injection Hv as ->. rewrite union_empty_l_L in HV. exact HV.
Qed.

Theorem C16_new g wo co o bv :
  white bv <> ∅ ->
  iterates wo (white bv) -> iterates co (dom (colors bv)) -> iterates o (model_of bv) ->
  exists vs, vs_New g wo co o bv = (vs, Done) /\ exact_shell (model_of bv) (Voxels vs).
Proof.
  intros Hw H1 H2 H3. unfold vs_New. rewrite decide_True.
  - apply C16_add_to_empty; [reflexivity|].
    split; [exact H1|]. split; [exact H2|]. unfold new_disp. cbn [Voxels]. rewrite displaced_zero. exact H3.
  - assert (size (white bv) <> 0)%nat; [|lia]. intros H. apply Hw. apply size_empty_inv in H.
    apply leibniz_equiv, H.
Qed.

(** Two builds of the same model agree up to the order of the voxels. *)
Theorem C16_deterministic g wo co o g' wo' co' o' bv :
  white bv <> ∅ ->
  iterates wo (white bv) -> iterates co (dom (colors bv)) -> iterates o (model_of bv) ->
  iterates wo' (white bv) -> iterates co' (dom (colors bv)) -> iterates o' (model_of bv) ->
  Voxels (fst (vs_New g wo co o bv)) ≡ₚ Voxels (fst (vs_New g' wo' co' o' bv)).
Proof.
  intros Hw A1 A2 A3 B1 B2 B3.
  destruct (C16_new g wo co o bv Hw A1 A2 A3) as (vs & -> & Hs).
  destruct (C16_new g' wo' co' o' bv Hw B1 B2 B3) as (vs' & -> & Hs').
  eapply exact_shell_unique; eauto.
Qed.

(** Finding: a model with coloured voxels only gives an empty shell, because New looks at the white
    voxels alone. *)
Theorem C16_color_only_refuted :
  exists bv : binvox Q, model_of bv <> ∅ /\
    forall g wo co o, exists vs, vs_New g wo co o bv = (vs, Done) /\ Voxels vs = [].
Proof.
  exists (bvq 1 1 1 0 0 0 1 None (Some {[ (0,0,0) := Color 0%Q 0%Q 0%Q 0%Q ]})).
  split; [apply (bool_decide_unpack _); vm_compute; exact I|]. intros g wo co o. eexists. split; reflexivity.
Qed.

Definition boxes (nx ny nz : nat) : list key :=
  x ← seq 0 nx; y ← seq 0 ny; z ← seq 0 nz; [(Z.of_nat x, Z.of_nat y, Z.of_nat z)].

(** A solid 3x3x3 cube: 26 shell voxels, the centre is left out; the centre of a face misses the 9
    neighbours on one side. *)
Example C16_example :
  let bv := bvq 3 3 3 0 0 0 3 (Some (list_to_set (boxes 3 3 3))) None in
  let r := vs_New (fun c => (2 * c + 1)%nat) (boxes 3 3 3) [] (boxes 3 3 3) bv in
  length (Voxels (fst r)) = 26%nat /\ snd r = Done /\
  filter (fun v => fst v = (0, 1, 1)) (Voxels (fst r)) = [((0, 1, 1), 134209024)] /\
  filter (fun v => fst v = (1, 1, 1)) (Voxels (fst r)) = [].
Proof. vm_compute. auto. Qed.

(** * C17: adding parts *)

(** Adding one compatible, disjoint part to a sound shell of [M] never fails or panics and gives a sound
    shell of the union (both moved as the alignment requires, see C20); new voxels have exact masks and
    old ones never lose a neighbour. *)
Theorem C17_add_sound g c wo co o vs bv M :
  orders_ok wo co o vs bv -> compatible vs bv ->
  sound_shell M (Voxels vs) ->
  (forall k, k ∈ displaced M (old_disp vs bv) -> k ∈ displaced (model_of bv) (new_disp vs bv) -> False) ->
  exists vs', vs_Add g c wo co o vs (Some bv) = (vs', Done) /\
    let M' := displaced M (old_disp vs bv) ∪ displaced (model_of bv) (new_disp vs bv) in
    sound_shell M' (Voxels vs') /\
    (forall k n, (k, n) ∈ Voxels vs' -> k ∈ displaced (model_of bv) (new_disp vs bv) -> exact_mask M' k n).
Proof.
  intros Hord Hcomp Hs Hdisj.
  destruct (Add_added g c wo co o vs bv Hord Hcomp) as (vs' & E & Had).
  exists vs'. split; [exact E|]. destruct Had as [Hv _ _ _ _ _ _ _ _ _].
  destruct (add_voxels_sound g c (displaced M (old_disp vs bv)) _ o
             (displaced_voxels (Voxels vs) (old_disp vs bv)) (proj2 (proj2 Hord)) Hdisj)
    as (V & EV & HV & Hn & _).
  { apply displaced_sound_shell, Hs. }
  rewrite EV in Hv. injection Hv as ->. split; [exact HV|exact Hn].
Qed.

(** Sequences: parts at whole-voxel offsets on the positive side of the shell's origin, with the shell's
    resolution.  The shell's origin and resolution do not change, so offsets are with respect to the
    initial shell. *)
Definition placed (vs : vshell) (p : env * binvox Q * key) : Prop :=
  let '(e, bv, o) := p in aligned vs bv o /\ key_nonneg o.

(** Iteration orders possible for a part at offset [o] of a non-empty shell. *)
Definition env_ok (p : env * binvox Q * key) : Prop :=
  let '(e, bv, o) := p in
  iterates (e_white e) (white bv) /\ iterates (e_color e) (dom (colors bv)) /\
  iterates (e_order e) (displaced (model_of bv) o).

Fixpoint union_parts (M : gset key) (ps : list (env * binvox Q * key)) : gset key :=
  match ps with
  | [] => M
  | (e, bv, o) :: ps => union_parts (M ∪ displaced (model_of bv) o) ps
  end.

Fixpoint all_disjoint (M : gset key) (ps : list (env * binvox Q * key)) : Prop :=
  match ps with
  | [] => True
  | (e, bv, o) :: ps => M ## displaced (model_of bv) o /\ all_disjoint (M ∪ displaced (model_of bv) o) ps
  end.

Lemma added_geometry g c o vs bv vs' d :
  Voxels vs <> [] -> aligned vs bv d -> key_nonneg d -> 0 < sdim (sNX vs) (sNY vs) (sNZ vs) ->
  added g c o vs bv vs' ->
  new_disp vs bv = d /\ old_disp vs bv = (0, 0, 0) /\
  (shell_vpmm vs' == shell_vpmm vs)%Q /\ sTX vs' = sTX vs /\ sTY vs' = sTY vs /\ sTZ vs' = sTZ vs /\
  0 < sdim (sNX vs') (sNY vs') (sNZ vs').
Proof.
  intros Hne Hal Hd Hdim [Hv Hx Hy Hz _ _ Hvp Htx Hty Htz].
  pose proof (aligned_shift _ _ _ Hal) as Hsh. destruct Hal as (_ & Hpos & Ax & Ay & Az).
  destruct Hd as (Dx & Dy & Dz).
  rewrite (axis_pos_T _ _ _ _ Hpos Ax Dx) in Htx.
  rewrite (axis_pos_T _ _ _ _ Hpos Ay Dy) in Hty.
  rewrite (axis_pos_T _ _ _ _ Hpos Az Dz) in Htz.
  split; [|split; [|split; [|split; [|split; [|split]]]]].
  - unfold new_disp. destruct (Voxels vs); [contradiction|]. rewrite Hsh. apply decide_True. split; [|split]; assumption.
  - unfold old_disp. destruct (Voxels vs); [contradiction|]. rewrite Hsh. apply decide_True. split; [|split]; assumption.
  - apply Hvp, Hdim.
  - destruct (Voxels vs); assumption.
  - destruct (Voxels vs); assumption.
  - destruct (Voxels vs); assumption.
  - rewrite sdim_max in *. lia.
Qed.

Theorem C17_sequence ps : forall vs M,
  M <> ∅ -> sound_shell M (Voxels vs) -> 0 < sdim (sNX vs) (sNY vs) (sNZ vs) ->
  Forall (placed vs) ps -> Forall env_ok ps -> all_disjoint M ps ->
  exists vs', merge_loop vs (map (fun p => (fst (fst p), snd (fst p))) ps) = (vs', Done) /\
    sound_shell (union_parts M ps) (Voxels vs') /\
    (shell_vpmm vs' == shell_vpmm vs)%Q /\ sTX vs' = sTX vs /\ sTY vs' = sTY vs /\ sTZ vs' = sTZ vs.
Proof.
  induction ps as [|[[e bv] d] ps IH]; intros vs M HM Hs Hdim Hp He Hd.
  - exists vs. cbn. split; [reflexivity|]. split; [exact Hs|]. split; [reflexivity|]. auto.
  - apply Forall_cons in Hp as [[Hal Hnn] Hp]. apply Forall_cons in He as [He0 He].
    destruct Hd as [Hd0 Hd].
    assert (Hne : Voxels vs <> []) by (intros H; apply HM, (sound_shell_empty_iff M _ Hs), H).
    assert (Hnd : new_disp vs bv = d /\ old_disp vs bv = (0, 0, 0)).
    { pose proof (aligned_shift _ _ _ Hal) as Hsh. unfold new_disp, old_disp.
      destruct (Voxels vs); [contradiction|]. rewrite Hsh. rewrite !decide_True by exact Hnn. auto. }
    destruct Hnd as [Hnd Hod].
    assert (Hord : orders_ok (e_white e) (e_color e) (e_order e) vs bv).
    { destruct He0 as (? & ? & ?). split; [assumption|]. split; [assumption|]. rewrite Hnd. assumption. }
    assert (Hcomp : compatible vs bv) by (eapply aligned_compatible, Hal).
    cbn [map fst snd merge_loop].
    destruct (Add_added (e_grow e) (e_cap e) _ _ _ vs bv Hord Hcomp) as (vs1 & E1 & Had).
    destruct (C17_add_sound (e_grow e) (e_cap e) _ _ _ vs bv M Hord Hcomp Hs) as (vs1' & E1' & Hs1 & _).
    { rewrite Hnd, Hod, displaced_zero. intros k H1 H2. exact (Hd0 k H1 H2). }
    rewrite E1 in E1'. injection E1' as <-. rewrite E1.
    destruct (added_geometry _ _ _ _ _ _ d Hne Hal Hnn Hdim Had) as (_ & _ & Hv & Htx & Hty & Htz & Hdim').
    rewrite Hnd, Hod, displaced_zero in Hs1.
    destruct (IH vs1 (M ∪ displaced (model_of bv) d)) as (vs' & E & Hs' & Hv' & Hx' & Hy' & Hz').
    + intros H. apply HM. apply empty_union_L in H as [H _]; exact H.
    + exact Hs1.
    + exact Hdim'.
    + eapply Forall_impl; [exact Hp|]. intros [[e' bv'] d'] [(A1 & A2 & A3 & A4 & A5) Hn'].
      split; [|exact Hn']. unfold aligned. rewrite Htx, Hty, Htz, Hv. auto.
    + exact He.
    + exact Hd.
    + exists vs'. split; [exact E|]. split; [exact Hs'|].
      split; [rewrite Hv'; exact Hv|]. rewrite Hx', Hy', Hz'. auto.
Qed.

(** Non-vacuity: a two-voxel shell and a part placed two voxels to its right. *)
Section C17_example.
  Let bv1 := bvq 2 1 1 0 0 0 2 (Some (list_to_set [(0,0,0); (1,0,0)])) None.
  Let bv2 := bvq 1 1 1 2 0 0 1 (Some (list_to_set [(0,0,0)])) None.
  Let vs1 := fst (vs_New (fun c => (2 * c + 1)%nat) [(0,0,0); (1,0,0)] [] [(0,0,0); (1,0,0)] bv1).
  Example C17_example :
    aligned vs1 bv2 (2, 0, 0) /\ Voxels vs1 = [(0,0,0,4194304); (1,0,0,16)] /\
    let r := merge_loop vs1 [(Env (fun c => (2 * c)%nat) 3 [(0,0,0)] [] [(2,0,0)], bv2)] in
    Voxels (fst r) = [(0,0,0,4194304); (1,0,0,4194320); (2,0,0,16)] /\ sNX (fst r) = 3 /\ snd r = Done.
  Proof. vm_compute. repeat split; reflexivity. Qed.
End C17_example.

(** * C18: incremental = all at once *)

(** With room in the slice, adding a disjoint part to an exact shell gives the exact shell of the
    union. *)
Theorem C18_room_exact g c wo co o vs bv M :
  orders_ok wo co o vs bv -> compatible vs bv ->
  exact_shell M (Voxels vs) ->
  (forall k, k ∈ displaced M (old_disp vs bv) -> k ∈ displaced (model_of bv) (new_disp vs bv) -> False) ->
  (length (Voxels vs) + length o <= c)%nat ->
  exists vs', vs_Add g c wo co o vs (Some bv) = (vs', Done) /\
    exact_shell (displaced M (old_disp vs bv) ∪ displaced (model_of bv) (new_disp vs bv)) (Voxels vs').
Proof.
  intros Hord Hcomp Hs Hdisj Hcap.
  destruct (Add_added g c wo co o vs bv Hord Hcomp) as (vs' & E & Had).
  exists vs'. split; [exact E|]. destruct Had as [Hv _ _ _ _ _ _ _ _ _].
  destruct (add_voxels_exact g c (displaced M (old_disp vs bv)) _ o
             (displaced_voxels (Voxels vs) (old_disp vs bv)) (proj2 (proj2 Hord)) Hdisj)
    as (V & EV & HV).
  { apply displaced_exact_shell, Hs. }
  { left. unfold displaced_voxels. rewrite map_length. exact Hcap. }
  rewrite EV in Hv. injection Hv as ->. exact HV.
Qed.

(** Without any assumption on the slice: the set of voxels is that of the exact shell, and the masks of
    the new voxels are exact; only masks of old voxels can miss neighbours. *)
Theorem C18_voxels_exact g c wo co o vs bv M :
  orders_ok wo co o vs bv -> compatible vs bv ->
  exact_shell M (Voxels vs) ->
  (forall k, k ∈ displaced M (old_disp vs bv) -> k ∈ displaced (model_of bv) (new_disp vs bv) -> False) ->
  exists vs', vs_Add g c wo co o vs (Some bv) = (vs', Done) /\
    let M' := displaced M (old_disp vs bv) ∪ displaced (model_of bv) (new_disp vs bv) in
    NoDup (map fst (Voxels vs')) /\
    (forall k, k ∈ map fst (Voxels vs') <-> k ∈ M' /\ ~ enclosed M' k) /\
    (forall k n, (k, n) ∈ Voxels vs' -> k ∈ displaced (model_of bv) (new_disp vs bv) -> exact_mask M' k n) /\
    (forall k n, (k, n) ∈ Voxels vs' -> sound_mask M' k n).
Proof.
  intros Hord Hcomp Hs Hdisj.
  destruct (Add_added g c wo co o vs bv Hord Hcomp) as (vs' & E & Had).
  exists vs'. split; [exact E|]. destruct Had as [Hv _ _ _ _ _ _ _ _ _].
  pose proof (displaced_exact_shell M (Voxels vs) (old_disp vs bv) Hs) as Hs1.
  pose proof (add_voxels_keys_exact g c _ _ o _ (proj2 (proj2 Hord)) Hdisj _ Hs1 Hv) as Hk.
  destruct (add_voxels_sound g c _ _ o _ (proj2 (proj2 Hord)) Hdisj (exact_is_sound _ _ Hs1))
    as (V & EV & (N1 & _ & _ & N2) & HV & _).
  rewrite EV in Hv. injection Hv as ->. split; [exact N1|]. split; [exact Hk|]. split; [exact HV|exact N2].
Qed.

(** The full property fails: the append that moves the slice makes later mask updates go to the old
    array.  A one-voxel shell (capacity 1), a part with two voxels. *)
Theorem C18_incremental_refuted :
  exists (vs vs' : vshell) (bv : binvox Q) M wo co o,
    orders_ok wo co o vs bv /\ compatible vs bv /\ exact_shell M (Voxels vs) /\
    M ## model_of bv /\ old_disp vs bv = (0, 0, 0) /\ new_disp vs bv = (0, 0, 0) /\
    vs_Add (fun c => (2 * c)%nat) 1 wo co o vs (Some bv) = (vs', Done) /\
    ~ exact_shell (M ∪ model_of bv) (Voxels vs').
Proof.
  exists (vsq 2 2 1 0 0 0 2 [((0,0,0), 0)]).
  eexists. exists (bvq 2 2 1 0 0 0 2 (Some (list_to_set [(0,1,0); (1,0,0)])) None).
  exists {[(0,0,0)]}, [(0,1,0); (1,0,0)], [], [(0,1,0); (1,0,0)].
  assert (Hit : forall l : list key, NoDup l -> iterates l (list_to_set l)).
  { intros l H. split; [exact H|]. intros k. symmetry. apply elem_of_list_to_set. }
  assert (HN : NoDup [(0,1,0); (1,0,0) : key]).
  { apply NoDup_cons. split; [|apply NoDup_singleton]. intros H. apply elem_of_list_singleton in H. discriminate. }
  split; [|split; [|split; [|split; [|split; [|split; [|split]]]]]].
  - split; [apply Hit, HN|]. split; [split; [apply NoDup_nil_2|]; intros k; split; intros H; [inversion H|]; exfalso; apply elem_of_dom in H as [? H]; vm_compute in H; discriminate H|].
    replace (displaced _ _) with (list_to_set [(0,1,0); (1,0,0)] : gset key); [apply Hit, HN|].
    apply (bool_decide_unpack _). vm_compute. exact I.
  - right. reflexivity.
  - split; [apply NoDup_singleton|]. split.
    + intros k. cbn. rewrite elem_of_list_singleton, elem_of_singleton. split; [|tauto].
      intros ->. split; [reflexivity|]. intros He.
      specialize (He (1,0,0)). cbn in He. rewrite elem_of_singleton in He.
      discriminate He. unfold is_offset, kx, ky, kz. cbn. split; [lia|]. split; [lia|]. split; [lia|discriminate].
    + intros k n H. apply elem_of_list_singleton in H. injection H as -> ->. split; [lia|].
      intros i. rewrite Z.testbit_0_l. split; [discriminate|]. intros (o & Ho & _ & Hm).
      apply elem_of_singleton in Hm. destruct o as [[x y] z]. unfold move, kx, ky, kz in Hm. cbn in Hm.
      injection Hm as E1 E2 E3. destruct Ho as (_ & _ & _ & H). exfalso. apply H. apply key_eq; cbn; lia.
  - intros k H1 H2. apply elem_of_singleton in H1. subst k. vm_compute in H2. discriminate.
  - reflexivity.
  - reflexivity.
  - vm_compute. reflexivity.
  - intros (_ & _ & Hm).
    specialize (Hm (0,0,0) 65536). cbn in Hm. destruct Hm as [_ Hm].
    + left.
    + specialize (Hm 22). cbn in Hm. 
      assert (H : false = true); [|discriminate]. apply Hm. exists (1, 0, 0).
      split; [unfold is_offset, kx, ky, kz; cbn; split; [lia|]; split; [lia|]; split; [lia|discriminate]|].
      split; [reflexivity|]. vm_compute. reflexivity.
Qed.

(** The same part in the other order is also affected; with capacity 3 nothing is lost. *)
Example C18_room_example :
  Voxels (fst (vs_Add (fun c => (2 * c)%nat) 3 [(0,1,0); (1,0,0)] [] [(0,1,0); (1,0,0)]
    (vsq 2 2 1 0 0 0 2 [((0,0,0), 0)])
    (Some (bvq 2 2 1 0 0 0 2 (Some (list_to_set [(0,1,0); (1,0,0)])) None))))
  = [(0,0,0, 4259840); (0,1,0, 525312); (1,0,0, 144)].
Proof. vm_compute. reflexivity. Qed.

(** * C19: overlapping parts *)

(** Adding a voxel the shell already has lists it twice. *)
Theorem C19_overlap_refuted :
  exists (vs : vshell) (bv : binvox Q) vs', exact_shell {[(0,0,0)]} (Voxels vs) /\
    model_of bv = {[(0,0,0)]} /\
    vs_Add (fun c => (2 * c)%nat) 1 [(0,0,0)] [] [(0,0,0)] vs (Some bv) = (vs', Done) /\
    ~ NoDup (map fst (Voxels vs')).
Proof.
  exists (vsq 1 1 1 0 0 0 1 [((0,0,0), 0)]), (bvq 1 1 1 0 0 0 1 (Some {[(0,0,0)]}) None).
  eexists. split; [|split; [apply (bool_decide_unpack _); vm_compute; exact I|split; [vm_compute; reflexivity|]]].
  - split; [apply NoDup_singleton|]. split.
    + intros k. cbn. rewrite elem_of_list_singleton, elem_of_singleton. split; [|tauto].
      intros ->. split; [reflexivity|]. intros He.
      specialize (He (1,0,0)). cbn in He. rewrite elem_of_singleton in He.
      discriminate He. unfold is_offset, kx, ky, kz. cbn. split; [lia|]. split; [lia|]. split; [lia|discriminate].
    + intros k n H. apply elem_of_list_singleton in H. injection H as -> ->. split; [lia|].
      intros i. rewrite Z.testbit_0_l. split; [discriminate|]. intros (o & Ho & _ & Hm).
      apply elem_of_singleton in Hm. destruct o as [[x y] z]. unfold move, kx, ky, kz in Hm. cbn in Hm.
      injection Hm as E1 E2 E3. destruct Ho as (_ & _ & _ & H). exfalso. apply H. apply key_eq; cbn; lia.
  - intros H. cbn in H. apply NoDup_cons in H as [H _]. apply H. left.
Qed.

(** In general: every voxel that is both in the shell and in the (moved) part, and not enclosed by
    shell and part, occurs twice afterwards. *)
Theorem C19_overlap_duplicates g c wo co o vs bv k :
  orders_ok wo co o vs bv -> compatible vs bv -> NoDup (map fst (Voxels vs)) ->
  let V := map fst (displaced_voxels (Voxels vs) (old_disp vs bv)) in
  let L := displaced (model_of bv) (new_disp vs bv) in
  k ∈ V -> k ∈ L -> ~ enclosed (L ∪ list_to_set V) k ->
  exists vs', vs_Add g c wo co o vs (Some bv) = (vs', Done) /\ ~ NoDup (map fst (Voxels vs')).
Proof.
  intros Hord Hcomp Hnd V L HV HL Hen.
  destruct (Add_added g c wo co o vs bv Hord Hcomp) as (vs' & E & [Hv _ _ _ _ _ _ _ _ _]).
  exists vs'. split; [exact E|].
  pose proof (displaced_NoDup _ (old_disp vs bv) Hnd) as Hnd'. fold V in Hnd'. fold L in Hv.
  set (W := displaced_voxels (Voxels vs) (old_disp vs bv)) in *.
  destruct Hord as (_ & _ & Ho). fold L in Ho.
  destruct (add_voxels_spec g c L o W Hnd' (proj1 Ho)) as (T0 & T1 & R & _ & _ & HR & E2).
  rewrite E2 in Hv. injection Hv as <-.
  assert (HkR : k ∉ R).
  { intros H. apply HR in H as (d & n & Hd & _). apply elem_touches in Hd as (_ & Hd & _); [|exact Hnd'].
    contradiction. }
  rewrite filter_app, map_app. intros Hn. apply NoDup_app in Hn as (_ & Hn & _).
  apply (Hn k).
  - apply keys_in in HV as [n HV]. apply elem_of_list_fmap. exists (updated T0 (k, n)).
    split; [reflexivity|]. apply elem_of_list_filter. split; [exact HkR|].
    apply elem_of_list_fmap. exists (k, n). auto.
  - destruct (findNeighbors L k (build_old W)) as [n tc] eqn:Ef.
    apply (in_keys _ k n). apply elem_of_list_filter. split; [exact HkR|].
    apply elem_appended; [exact Hnd'|]. split; [apply Ho, HL|].
    assert (He : exact_mask (L ∪ list_to_set (map fst W)) k n).
    { apply findNeighbors_spec in Ef as [He _].
      replace (list_to_set (map fst W)) with (dom (build_old W)); [exact He|].
      apply set_eq. intros x. rewrite elem_of_dom, elem_of_list_to_set. apply build_old_dom, Hnd'. }
    split; [exact He|]. intros ->. apply Hen. apply (exact_mask_all _ _ _ He). reflexivity.
Qed.

(** What does hold: disjoint parts never produce a duplicate (part of C17), restated for one Add. *)
Theorem C19_disjoint_no_duplicates g c wo co o vs bv M :
  orders_ok wo co o vs bv -> compatible vs bv -> sound_shell M (Voxels vs) ->
  (forall k, k ∈ displaced M (old_disp vs bv) -> k ∈ displaced (model_of bv) (new_disp vs bv) -> False) ->
  NoDup (map fst (Voxels (fst (vs_Add g c wo co o vs (Some bv))))).
Proof.
  intros H1 H2 H3 H4. destruct (C17_add_sound g c wo co o vs bv M H1 H2 H3 H4) as (vs' & -> & (H & _) & _).
  exact H.
Qed.

(** * C20: world positions *)

(** For a part a whole number of voxels away, with all components of the offset of one sign, every voxel
    of the part and every old voxel keeps its place in the world. *)
Theorem C20_world_preserved g c wo co o vs bv d :
  orders_ok wo co o vs bv -> Voxels vs <> [] -> aligned vs bv d ->
  0 < sdim (sNX vs) (sNY vs) (sNZ vs) ->
  key_nonneg d \/ key_nonpos d ->
  exists vs', vs_Add g c wo co o vs (Some bv) = (vs', Done) /\
    (forall k, qpt_eq (shell_world vs k) (shell_world vs' (move k (old_disp vs bv)))) /\
    (forall k, qpt_eq (world bv k) (shell_world vs' (move k (new_disp vs bv)))).
Proof.
  intros Hord Hne Hal Hdim Hsign.
  destruct (Add_added g c wo co o vs bv Hord (aligned_compatible _ _ _ Hal)) as (vs' & E & Had).
  exists vs'. split; [exact E|].
  destruct Had as [_ _ _ _ _ _ Hvp Htx Hty Htz]. specialize (Hvp Hdim).
  pose proof (aligned_shift _ _ _ Hal) as Hsh.
  destruct Hal as (Hres & Hpos & Ax & Ay & Az).
  assert (Ht : sTX vs' = (if Qltb (TX bv) (sTX vs) then TX bv else sTX vs) /\
               sTY vs' = (if Qltb (TY bv) (sTY vs) then TY bv else sTY vs) /\
               sTZ vs' = (if Qltb (TZ bv) (sTZ vs) then TZ bv else sTZ vs)).
  { destruct (Voxels vs); [contradiction|]. auto. }
  clear Htx Hty Htz. destruct Ht as (Htx & Hty & Htz).
  destruct (decide (key_nonneg d)) as [Hnn|Hnn].
  - assert (Hnd : new_disp vs bv = d).
    { unfold new_disp. destruct (Voxels vs); [contradiction|]. rewrite Hsh. apply decide_True, Hnn. }
    assert (Hod : old_disp vs bv = (0,0,0)).
    { unfold old_disp. destruct (Voxels vs); [contradiction|]. rewrite Hsh. apply decide_True, Hnn. }
    rewrite Hnd, Hod. destruct Hnn as (Nx & Ny & Nz).
    rewrite (axis_pos_T _ _ _ _ Hpos Ax Nx) in Htx.
    rewrite (axis_pos_T _ _ _ _ Hpos Ay Ny) in Hty.
    rewrite (axis_pos_T _ _ _ _ Hpos Az Nz) in Htz.
    split; intros k.
    + rewrite move_zero. unfold shell_world, qpt_eq. rewrite Htx, Hty, Htz, Hvp. split; [|split]; reflexivity.
    + unfold shell_world, world, qpt_eq. rewrite Htx, Hty, Htz, Hvp, Hres.
      unfold move, kx, ky, kz in *. cbn [fst snd] in *.
      split; [|split]; apply axis_div; try assumption;
        match goal with |- (_ == inject_Z (?a + ?b - ?a))%Q => replace (a + b - a) with b by lia end; assumption.
  - destruct Hsign as [|Hnp]; [contradiction|].
    assert (Hnd : new_disp vs bv = (0,0,0)).
    { unfold new_disp. destruct (Voxels vs); [contradiction|]. rewrite Hsh. apply decide_False, Hnn. }
    assert (Hod : old_disp vs bv = opposite d).
    { unfold old_disp. destruct (Voxels vs); [contradiction|]. rewrite Hsh. apply decide_False, Hnn. }
    rewrite Hnd, Hod. destruct Hnp as (Nx & Ny & Nz).
    pose proof (axis_neg_T _ _ _ _ Hpos Ax Nx) as Ex.
    pose proof (axis_neg_T _ _ _ _ Hpos Ay Ny) as Ey.
    pose proof (axis_neg_T _ _ _ _ Hpos Az Nz) as Ez.
    rewrite <- Htx in Ex. rewrite <- Hty in Ey. rewrite <- Htz in Ez.
    split; intros k.
    + unfold shell_world, qpt_eq. rewrite Ex, Ey, Ez, Hvp.
      unfold move, opposite, kx, ky, kz in *. cbn [fst snd] in *.
      split; [|split]; apply axis_div; try assumption;
        match goal with |- (_ == inject_Z (?a + - ?b - ?a))%Q => replace (a + - b - a) with (- b) by lia end;
        rewrite inject_Z_opp; [rewrite <- Ax|rewrite <- Ay|rewrite <- Az]; ring.
    + rewrite move_zero. unfold shell_world, world, qpt_eq. rewrite Ex, Ey, Ez, Hvp, Hres.
      split; [|split]; reflexivity.
Qed.

(** ... and indices stay non-negative. *)
Theorem C20_indices_nonnegative vs bv d :
  Voxels vs <> [] -> aligned vs bv d -> key_nonneg d \/ key_nonpos d ->
  (forall k, key_nonneg k -> key_nonneg (move k (old_disp vs bv))) /\
  (forall k, key_nonneg k -> key_nonneg (move k (new_disp vs bv))).
Proof.
  intros Hne Hal Hs. pose proof (aligned_shift _ _ _ Hal) as Hsh.
  unfold old_disp, new_disp. destruct (Voxels vs); [contradiction|]. rewrite Hsh.
  unfold key_nonneg, key_nonpos, move, opposite, kx, ky, kz in *.
  split; intros [[x y] z] H; destruct (decide _); cbn [fst snd] in *; lia.
Qed.

(** With components of both signs the property always fails: every old voxel is displaced in the world. *)
Theorem C20_mixed_signs_refuted g c wo co o vs bv d :
  orders_ok wo co o vs bv -> Voxels vs <> [] -> aligned vs bv d ->
  0 < sdim (sNX vs) (sNY vs) (sNZ vs) ->
  ~ key_nonneg d -> ~ key_nonpos d ->
  exists vs', vs_Add g c wo co o vs (Some bv) = (vs', Done) /\
    forall k, ~ qpt_eq (shell_world vs k) (shell_world vs' (move k (old_disp vs bv))).
Proof.
  intros Hord Hne Hal Hdim Hnn Hnp.
  destruct (Add_added g c wo co o vs bv Hord (aligned_compatible _ _ _ Hal)) as (vs' & E & Had).
  exists vs'. split; [exact E|].
  destruct Had as [_ _ _ _ _ _ Hvp Htx Hty Htz]. specialize (Hvp Hdim).
  pose proof (aligned_shift _ _ _ Hal) as Hsh.
  destruct Hal as (Hres & Hpos & Ax & Ay & Az).
  assert (Ht : sTX vs' = (if Qltb (TX bv) (sTX vs) then TX bv else sTX vs) /\
               sTY vs' = (if Qltb (TY bv) (sTY vs) then TY bv else sTY vs) /\
               sTZ vs' = (if Qltb (TZ bv) (sTZ vs) then TZ bv else sTZ vs)).
  { destruct (Voxels vs); [contradiction|]. auto. }
  clear Htx Hty Htz. destruct Ht as (Htx & Hty & Htz).
  assert (Hod : old_disp vs bv = opposite d).
  { unfold old_disp. destruct (Voxels vs); [contradiction|]. rewrite Hsh. apply decide_False, Hnn. }
  rewrite Hod. intros k Heq. apply Hnp.
  (* an axis with a positive offset keeps its origin, so the index may not change *)
  assert (Haxis : forall (t t' : Q) (x oo : Z), ((t' - t) * shell_vpmm vs == inject_Z oo)%Q ->
    (t + inject_Z x / shell_vpmm vs == (if Qltb t' t then t' else t) + inject_Z (x + - oo) / shell_vpmm vs)%Q ->
    oo <= 0).
  { intros t t' x oo Ho Hq. destruct (Z.le_gt_cases oo 0) as [|Hgt]; [assumption|].
    rewrite (axis_pos_T _ _ _ _ Hpos Ho) in Hq by lia.
    apply axis_div in Hq; [|exact Hpos].
    replace (x + - oo - x) with (- oo) in Hq by lia.
    assert (Hz : (inject_Z (- oo) == inject_Z 0)%Q) by (rewrite <- Hq; change (inject_Z 0) with 0%Q; ring).
    unfold inject_Z, Qeq in Hz. cbn in Hz. lia. }
  unfold qpt_eq, shell_world in Heq. rewrite Htx, Hty, Htz, Hvp in Heq.
  unfold move, opposite, kx, ky, kz in *. cbn [fst snd] in *.
  destruct Heq as (Hx & Hy & Hz).
  split; [eapply Haxis; eauto|]. split; [eapply Haxis; eauto|]. eapply Haxis; eauto.
Qed.

(** Such parts exist: a part one voxel right and one voxel below. *)
Example C20_mixed_example :
  let vs := vsq 1 1 1 0 0 0 1 [((0,0,0), 0)] in
  let bv := bvq 1 1 1 1 (-1) 0 1 (Some {[(0,0,0)]}) None in
  aligned vs bv (1, -1, 0) /\ ~ key_nonneg (1, -1, 0) /\ ~ key_nonpos (1, -1, 0) /\
  let r := fst (vs_Add (fun c => c) 2 [(0,0,0)] [] [(0,0,0)] vs (Some bv)) in
  Voxels r = [((-1,1,0), 524288); ((0,0,0), 128)] /\ sTX r = 0%Q /\ sTY r = (-1)%Q.
Proof. vm_compute. repeat split; try reflexivity; intros (H1 & H2 & H3); contradiction. Qed.

(** A part that is not a whole number of voxels away (on the positive side) lands less than a voxel
    short of its place; its place is kept only if the offset is whole. *)
Theorem C20_fractional_offset g c wo co o vs bv :
  orders_ok wo co o vs bv -> Voxels vs <> [] -> (vpmm bv == shell_vpmm vs)%Q -> (0 < shell_vpmm vs)%Q ->
  0 < sdim (sNX vs) (sNY vs) (sNZ vs) ->
  (sTX vs <= TX bv)%Q -> (sTY vs <= TY bv)%Q -> (sTZ vs <= TZ bv)%Q ->
  exists vs', vs_Add g c wo co o vs (Some bv) = (vs', Done) /\
    forall k, let '(x, y, z) := world bv k in
              let '(x', y', z') := shell_world vs' (move k (new_disp vs bv)) in
              let s := (1 / shell_vpmm vs)%Q in
      (x' <= x < x' + s)%Q /\ (y' <= y < y' + s)%Q /\ (z' <= z < z' + s)%Q.
Proof.
  intros Hord Hne Hres Hpos Hdim Lx Ly Lz.
  assert (Hcomp : compatible vs bv) by (right; symmetry; apply trunc_proper, Hres).
  destruct (Add_added g c wo co o vs bv Hord Hcomp) as (vs' & E & Had).
  exists vs'. split; [exact E|].
  destruct Had as [_ _ _ _ _ _ Hvp Htx Hty Htz]. specialize (Hvp Hdim).
  assert (HT : forall t t', (t <= t')%Q -> Qltb t' t = false).
  { intros t t' H. destruct (Qltb t' t) eqn:Eq; [|reflexivity]. apply Qltb_true in Eq. lra. }
  rewrite (HT _ _ Lx) in Htx. rewrite (HT _ _ Ly) in Hty. rewrite (HT _ _ Lz) in Htz.
  assert (Ht : sTX vs' = sTX vs /\ sTY vs' = sTY vs /\ sTZ vs' = sTZ vs) by (destruct (Voxels vs); auto).
  destruct Ht as (Ex & Ey & Ez).
  assert (Hnnq : forall t t', (t <= t')%Q -> (0 <= (t' - t) * shell_vpmm vs)%Q).
  { intros t t' H. apply Qmult_le_0_compat; lra. }
  assert (Htr : forall q, (0 <= q)%Q -> 0 <= trunc q).
  { intros [n dd] H. unfold trunc, Qle in *. cbn in *. apply Z.quot_pos; lia. }
  assert (Hnd : new_disp vs bv = part_shift vs bv).
  { unfold new_disp. destruct (Voxels vs); [contradiction|]. apply decide_True.
    unfold key_nonneg, part_shift, kx, ky, kz. cbn [fst snd].
    split; [|split]; apply Htr, Hnnq; assumption. }
  rewrite Hnd. intros k. unfold world, shell_world. 
  assert (Haxis : forall t t' x, (t <= t')%Q ->
     (t + inject_Z (x + trunc ((t' - t) * shell_vpmm vs)) / shell_vpmm vs' <= t' + inject_Z x / vpmm bv)%Q /\
     (t' + inject_Z x / vpmm bv < t + inject_Z (x + trunc ((t' - t) * shell_vpmm vs)) / shell_vpmm vs' + 1 / shell_vpmm vs)%Q).
  { intros t t' x H. rewrite Hvp, Hres. destruct (trunc_bounds _ (Hnnq t t' H)) as [B1 B2].
    rewrite inject_Z_plus. set (v := shell_vpmm vs) in *. set (tr := inject_Z (trunc ((t' - t) * v))) in *.
    assert (Hi : (0 < / v)%Q) by (apply Qinv_lt_0_compat, Hpos).
    assert (Hd : (t' - t == (t' - t) * v * / v)%Q) by (field; lra).
    unfold Qdiv. set (w := (/ v)%Q) in *. set (u := ((t' - t) * v)%Q) in *. set (X := inject_Z x).
    assert (t' == t + u * w)%Q by lra.
    split.
    - assert (tr * w <= u * w)%Q by (apply Qmult_le_compat_r; [exact B1|lra]). lra.
    - assert (u * w < (tr + 1) * w)%Q by (apply Qmult_lt_r; assumption). lra. }
  rewrite Ex, Ey, Ez. unfold move, part_shift, kx, ky, kz. cbn [fst snd].
  split; [apply Haxis, Lx|]. split; [apply Haxis, Ly|apply Haxis, Lz].
Qed.

(** * C21: errors *)

(** Add fails exactly for a nil model or a non-empty shell of another integer resolution; then the shell
    is what it was.  It never panics. *)
Theorem C21_add_outcome g c wo co o vs mbv :
  match mbv with
  | None => vs_Add g c wo co o vs mbv = (vs, Failed ENil)
  | Some bv =>
      (Voxels vs <> [] -> trunc (shell_vpmm vs) <> trunc (vpmm bv) ->
         vs_Add g c wo co o vs mbv = (vs, Failed EResolution)) /\
      (Voxels vs = [] \/ trunc (shell_vpmm vs) = trunc (vpmm bv) ->
         exists vs', vs_Add g c wo co o vs mbv = (vs', Done))
  end.
Proof.
  destruct mbv as [bv|]; [|reflexivity]. split.
  - intros Hne Hv. unfold vs_Add. rewrite decide_True by (destruct (Voxels vs); [contradiction|cbn; lia]).
    unfold update. destruct (Z.eqb_spec (trunc (shell_vpmm vs)) (trunc (vpmm bv))); [contradiction|]. reflexivity.
  - intros Hc. unfold vs_Add.
    destruct (if decide (0 < length (Voxels vs))%nat then update vs bv else (vs, inr (0, 0, 0)))
      as [vs1 [e|[[dx dy] dz]]] eqn:E.
    + exfalso. destruct (decide (0 < length (Voxels vs))%nat) as [Hl|Hl]; [|discriminate].
      destruct Hc as [Hc|Hc]; [rewrite Hc in Hl; cbn in Hl; lia|].
      unfold update in E. rewrite Hc, Z.eqb_refl in E. cbn [negb] in E.
      destruct (_ && _); [discriminate|]. destruct (fold_left grow_dims _ _) as [[? ?] ?]. discriminate.
    + destruct (fold_left grow_dims _ _) as [[nx ny] nz].
      destruct (add_voxels_total g c (list_to_set (map (fun k => add_key k (dx, dy, dz)) (wo ++ co))) o (Voxels vs1)) as [V ->].
      eauto.
Qed.

(** Merge (vshell/merge.go:11-33): the shell that New makes of the first part and Add extends by each of
    the others, in order; or the resolution error of the first part that does not fit, and then no
    later part is added. *)
Inductive built : list (env * binvox Q) -> vshell -> Prop :=
| built_first e bv vs : vs_New (e_grow e) (e_white e) (e_color e) (e_order e) bv = (vs, Done) -> built [(e, bv)] vs
| built_next parts e bv vs vs' : built parts vs ->
    vs_Add (e_grow e) (e_cap e) (e_white e) (e_color e) (e_order e) vs (Some bv) = (vs', Done) -> built (parts ++ [(e, bv)]) vs'.

Theorem C21_merge_outcome parts :
  match vs_Merge parts with
  | None => parts = []
  | Some (vs, Done) => built parts vs
  | Some (vs, Failed e) => e = EResolution /\ exists pre en bv post, parts = pre ++ (en, bv) :: post /\ built pre vs /\
      Voxels vs <> [] /\ trunc (shell_vpmm vs) <> trunc (vpmm bv)
  | Some (_, Panicked) => False
  end.
Proof.
  assert (L : forall post pre vs, built pre vs ->
    match merge_loop vs post with
    | (vs', Done) => built (pre ++ post) vs'
    | (vs', Failed e) => e = EResolution /\ exists mid en bv post', post = mid ++ (en, bv) :: post' /\ built (pre ++ mid) vs' /\
        Voxels vs' <> [] /\ trunc (shell_vpmm vs') <> trunc (vpmm bv)
    | (_, Panicked) => False
    end).
  { induction post as [|[en bv] post IH]; intros pre vs Hb; cbn [merge_loop]; [rewrite app_nil_r; exact Hb|].
    destruct (C21_add_outcome (e_grow en) (e_cap en) (e_white en) (e_color en) (e_order en) vs (Some bv)) as [HF HD].
    assert (Dec : (Voxels vs <> [] /\ trunc (shell_vpmm vs) <> trunc (vpmm bv)) \/ (Voxels vs = [] \/ trunc (shell_vpmm vs) = trunc (vpmm bv))).
    { destruct (Voxels vs) as [|v l]; [right; left; reflexivity|]. destruct (Z.eq_dec (trunc (shell_vpmm vs)) (trunc (vpmm bv))) as [E|E]; [auto|left; split; [discriminate|exact E]]. }
    destruct Dec as [[H1 H2]|Hc].
    - rewrite (HF H1 H2). split; [reflexivity|]. exists [], en, bv, post. rewrite app_nil_r. auto.
    - destruct (HD Hc) as (vs1 & E1). rewrite E1. specialize (IH (pre ++ [(en, bv)]) vs1 (built_next _ _ _ _ _ Hb E1)).
      destruct (merge_loop vs1 post) as [vs' [|e|]]; [|destruct IH as (He & mid & en' & bv' & post' & Ep & Hb' & Hr)|exact IH].
      + rewrite <- app_assoc in IH. exact IH.
      + split; [exact He|]. exists ((en, bv) :: mid), en', bv', post'. split; [rewrite Ep; reflexivity|]. rewrite <- app_assoc in Hb'. auto. }
  destruct parts as [|[en bv] parts]; cbn [vs_Merge]; [reflexivity|].
  destruct (vs_New (e_grow en) (e_white en) (e_color en) (e_order en) bv) as [vs r] eqn:E.
  assert (r = Done) as ->.
  { unfold vs_New in E. destruct (C21_add_outcome (e_grow en) 0 (e_white en) (e_color en) (e_order en) (VShell (NX bv) (NY bv) (NZ bv) (TX bv) (TY bv) (TZ bv) (Scale bv) []) (Some bv)) as [_ HD]. destruct (HD (or_introl eq_refl)) as (vs' & E').
    cbv zeta in E. destruct (decide (0 < size (white bv))%nat); [rewrite E' in E|]; congruence. }
  specialize (L parts [(en, bv)] vs (built_first _ _ _ E)). destruct (merge_loop vs parts) as [vs' [|e|]]; [exact L| |exact L].
  destruct L as (He & mid & en' & bv' & post' & Ep & Hr). split; [exact He|]. exists ((en, bv) :: mid), en', bv', post'. split; [rewrite Ep; reflexivity|exact Hr].
Qed.

(** Two parts of 1 voxel per mm, and one of 2 that is refused. *)
Example C21_merge_example : let p sc := (Env (fun c => c) 0 [(0,0,0)] [] [(0,0,0)], bvq 1 1 1 0 0 0 sc (Some {[ (0,0,0) ]}) None) in
  option_map snd (vs_Merge [p 1%Q; p 1%Q]) = Some Done /\ option_map snd (vs_Merge [p 1%Q; p (1#2)%Q; p 1%Q]) = Some (Failed EResolution).
Proof. split; vm_compute; reflexivity. Qed.

Example C21_example : snd (vs_Add (fun c => c) 1 [] [] []
  (vsq 1 1 1 0 0 0 1 [((0,0,0), 0)]) (Some (bvq 2 1 1 0 0 0 1 None None))) = Failed EResolution.
Proof. reflexivity. Qed.

(** * C22: resolution and dimensions *)

(** Add keeps the resolution (exact arithmetic), and the grown dimensions contain every voxel. *)
Theorem C22_resolution_kept g c wo co o vs bv :
  orders_ok wo co o vs bv -> compatible vs bv -> 0 < sdim (sNX vs) (sNY vs) (sNZ vs) ->
  exists vs', vs_Add g c wo co o vs (Some bv) = (vs', Done) /\ (shell_vpmm vs' == shell_vpmm vs)%Q /\
    sNX vs <= sNX vs' /\ sNY vs <= sNY vs' /\ sNZ vs <= sNZ vs'.
Proof.
  intros Hord Hcomp Hdim. destruct (Add_added g c wo co o vs bv Hord Hcomp) as (vs' & E & [? ? ? ? ? ? Hv ? ? ?]).
  exists vs'. split; [exact E|]. split; [apply Hv, Hdim|]. auto.
Qed.

Theorem C22_dimensions_hold g c wo co o vs bv M :
  orders_ok wo co o vs bv -> compatible vs bv -> sound_shell M (Voxels vs) ->
  (forall k, k ∈ displaced M (old_disp vs bv) -> k ∈ displaced (model_of bv) (new_disp vs bv) -> False) ->
  (forall k, k ∈ map fst (Voxels vs) -> kx k < sNX vs /\ ky k < sNY vs /\ kz k < sNZ vs) ->
  exists vs', vs_Add g c wo co o vs (Some bv) = (vs', Done) /\
    forall k, k ∈ map fst (Voxels vs') -> kx k < sNX vs' /\ ky k < sNY vs' /\ kz k < sNZ vs'.
Proof.
  intros Hord Hcomp Hs Hdisj Hin.
  destruct (Add_added g c wo co o vs bv Hord Hcomp) as (vs' & E & [Hv ? ? ? Hn Ho ? ? ? ?]).
  exists vs'. split; [exact E|]. intros k Hk. specialize (Ho Hin).
  pose proof (displaced_sound_shell M (Voxels vs) (old_disp vs bv) Hs) as Hs1.
  destruct (add_voxels_sound g c _ _ o _ (proj2 (proj2 Hord)) Hdisj Hs1)
    as (V & EV & (_ & HM & _) & _ & Hold).
  rewrite EV in Hv. injection Hv as ->.
  pose proof (HM k Hk) as Hu. apply elem_of_union in Hu as [Hu|Hu]; [|apply Hn, Hu].
  apply keys_in in Hk as [n Hk]. destruct (Hold k n Hk Hu) as (n0 & H0 & _).
  apply Ho. eapply in_keys, H0.
Qed.

Print Assumptions C15_neighbour_bits.
Print Assumptions C15_find_neighbors.
Print Assumptions C16_add_to_empty.
Print Assumptions C16_new.
Print Assumptions C17_sequence.
Print Assumptions C18_room_exact.
Print Assumptions C18_voxels_exact.
Print Assumptions C18_incremental_refuted.
Print Assumptions C19_overlap_refuted.
Print Assumptions C19_overlap_duplicates.
Print Assumptions C20_world_preserved.
Print Assumptions C20_mixed_signs_refuted.
Print Assumptions C20_fractional_offset.
Print Assumptions C21_add_outcome.
Print Assumptions C22_resolution_kept.
Print Assumptions C22_dimensions_hold.
