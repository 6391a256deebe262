(** Add as a whole: alignment, dimensions and resolution. *)
From Verif Require Import Base BaseLemmas BinvoxModel Geom VshellModel VshellSpec VshellBits VshellMerge VshellProofs.
From Coq Require Import ZArith QArith Qround List Lia Lqa Bool.
From stdpp Require Import base list gmap sets fin_sets.
Import ListNotations.
Open Scope Z_scope.

(** ** Specification vocabulary *)

(** All voxels of a binvox model, white or coloured. *)
Definition model_of (bv : binvox Q) : gset key := white bv ∪ dom (colors bv).

(** World position of the corner of voxel [k] of a shell (doc comment vshell/vshell.go:21-26). *)
Definition shell_world (vs : vshell) (k : key) : qpt :=
  ((sTX vs + inject_Z (kx k) / shell_vpmm vs)%Q, (sTY vs + inject_Z (ky k) / shell_vpmm vs)%Q,
   (sTZ vs + inject_Z (kz k) / shell_vpmm vs)%Q).

(** The origin of the part in voxels of the shell, truncated: how far the part is from the shell. *)
Definition part_shift (vs : vshell) (bv : binvox Q) : key :=
  (trunc ((TX bv - sTX vs) * shell_vpmm vs), trunc ((TY bv - sTY vs) * shell_vpmm vs),
   trunc ((TZ bv - sTZ vs) * shell_vpmm vs)).

Definition key_nonneg (k : key) : Prop := 0 <= kx k /\ 0 <= ky k /\ 0 <= kz k.
Definition key_nonpos (k : key) : Prop := kx k <= 0 /\ ky k <= 0 /\ kz k <= 0.

#[global] Instance key_nonneg_dec k : Decision (key_nonneg k).
Proof. unfold key_nonneg. apply _. Defined.

(** How far Add moves the part's voxels, and those already in the shell. *)
Definition new_disp (vs : vshell) (bv : binvox Q) : key :=
  match Voxels vs with
  | [] => (0, 0, 0)
  | _ => if decide (key_nonneg (part_shift vs bv)) then part_shift vs bv else (0, 0, 0)
  end.

Definition old_disp (vs : vshell) (bv : binvox Q) : key :=
  match Voxels vs with
  | [] => (0, 0, 0)
  | _ => if decide (key_nonneg (part_shift vs bv)) then (0, 0, 0) else opposite (part_shift vs bv)
  end.

(** The resolutions agree (or the shell is still empty). *)
Definition compatible (vs : vshell) (bv : binvox Q) : Prop :=
  Voxels vs = [] \/ trunc (shell_vpmm vs) = trunc (vpmm bv).

(** The iteration orders are possible ones. *)
Definition orders_ok (wo co o : list key) (vs : vshell) (bv : binvox Q) : Prop :=
  iterates wo (white bv) /\ iterates co (dom (colors bv)) /\
  iterates o (displaced (model_of bv) (new_disp vs bv)).

(** ** Dimensions *)

Lemma grow_dims_ge ks : forall d, 
  let '(nx, ny, nz) := d in let '(nx', ny', nz') := fold_left grow_dims ks d in
  nx <= nx' /\ ny <= ny' /\ nz <= nz' /\
  forall k, k ∈ ks -> kx k < nx' /\ ky k < ny' /\ kz k < nz'.
Proof.
  induction ks as [|k ks IH]; intros [[nx ny] nz].
  - cbn. split; [lia|]. split; [lia|]. split; [lia|]. intros k H. inversion H.
  - cbn [fold_left]. 
    assert (Hg : exists a b c, grow_dims (nx, ny, nz) k = (a, b, c) /\ nx <= a /\ ny <= b /\ nz <= c /\
                   kx k < a /\ ky k < b /\ kz k < c).
    { unfold grow_dims. eexists _, _, _. split; [reflexivity|].
      destruct (Z.geb_spec (kx k) nx), (Z.geb_spec (ky k) ny), (Z.geb_spec (kz k) nz); lia. }
    destruct Hg as (a & b & c & -> & H1 & H2 & H3 & H4 & H5 & H6).
    specialize (IH (a, b, c)). cbn in IH. destruct (fold_left grow_dims ks (a, b, c)) as [[a' b'] c'].
    destruct IH as (I1 & I2 & I3 & I4). split; [lia|]. split; [lia|]. split; [lia|].
    intros k' H. apply elem_of_cons in H as [-> |H]; [lia|]. apply I4 in H. exact H.
Qed.

Lemma sdim_max nx ny nz : sdim nx ny nz = Z.max nx (Z.max ny nz).
Proof.
  unfold sdim. rewrite !Z.gtb_ltb.
  destruct (Z.ltb_spec nx ny); [destruct (Z.ltb_spec ny nz)|destruct (Z.ltb_spec nx nz)]; lia.
Qed.

Lemma rescale_vpmm nx ny nz nx' ny' nz' s v :
  0 < sdim nx ny nz -> 0 < sdim nx' ny' nz' -> v == svpmm nx ny nz s ->
  (svpmm nx' ny' nz' (rescale v nx' ny' nz' s) == svpmm nx ny nz s)%Q.
Proof.
  intros Hd Hd' Hv. unfold rescale.
  assert (Hinj : forall d, 0 < d -> (0 < inject_Z d)%Q) by (intros d H; change 0%Q with (inject_Z 0); rewrite <- Zlt_Qlt; exact H).
  pose proof (Hinj _ Hd) as HD. pose proof (Hinj _ Hd') as HD'.
  destruct (Qeq_bool v (svpmm nx' ny' nz' s)) eqn:E; cbn [negb].
  - apply Qeq_bool_iff in E. rewrite <- E. exact Hv.
  - apply Qeq_bool_neq in E. unfold svpmm in *. 
    destruct (Qle_bool s 0) eqn:Es; [congruence|].
    assert (Hs : (0 < s)%Q).
    { destruct (Qlt_le_dec 0 s) as [H|H]; [exact H|]. apply Qle_bool_iff in H. congruence. }
    set (D := inject_Z (sdim nx ny nz)) in *. set (D' := inject_Z (sdim nx' ny' nz')) in *.
    assert (Hsc : (s * (D' / s / v) == s * D' / D)%Q) by (rewrite Hv; field; lra).
    assert (Hpos : (0 < s * D' / D)%Q).
    { apply Qlt_shift_div_l; [exact HD|]. nra. }
    destruct (Qle_bool (s * (D' / s / v)) 0) eqn:El.
    + apply Qle_bool_iff in El. rewrite Hsc in El. lra.
    + rewrite Hsc. field. split; [|split]; lra.
Qed.

(** ** Structure of Add *)


Lemma iter_set wo co vs bv o d :
  orders_ok wo co o vs bv ->
  (list_to_set (map (fun k => add_key k d) (wo ++ co)) : gset key) = displaced (model_of bv) d.
Proof.
  intros ((_ & Hw) & (_ & Hc) & _). apply set_eq. intros k. rewrite elem_of_list_to_set.
  unfold displaced. rewrite elem_of_map. unfold model_of. split.
  - intros H. apply elem_of_list_fmap in H as (k0 & -> & H). exists k0. split; [reflexivity|].
    apply elem_of_app in H. rewrite elem_of_union. destruct H as [H|H]; [left; apply Hw, H|right; apply Hc, H].
  - intros (k0 & -> & H). apply elem_of_list_fmap. exists k0. split; [reflexivity|].
    apply elem_of_union in H. apply elem_of_app. destruct H as [H|H]; [left; apply Hw, H|right; apply Hc, H].
Qed.

Lemma geb_nonneg a b c : (a >=? 0) && (b >=? 0) && (c >=? 0) = bool_decide (key_nonneg (a, b, c)).
Proof.
  unfold key_nonneg, kx, ky, kz. cbn [fst snd].
  destruct (Z.geb_spec a 0), (Z.geb_spec b 0), (Z.geb_spec c 0); symmetry; cbn;
    [apply bool_decide_eq_true_2; lia|..]; apply bool_decide_eq_false_2; lia.
Qed.

Lemma opposite_eq d : opposite d = (- kx d, - ky d, - kz d).
Proof. reflexivity. Qed.

(** Everything Add does to a compatible part. *)
Record added (g : nat -> nat) (c : nat) (o : list key) (vs : vshell) (bv : binvox Q) (vs' : vshell) : Prop := {
  ad_voxels : add_voxels g c (displaced (model_of bv) (new_disp vs bv)) o
                (displaced_voxels (Voxels vs) (old_disp vs bv)) = Some (Voxels vs');
  ad_nx : sNX vs <= sNX vs'; ad_ny : sNY vs <= sNY vs'; ad_nz : sNZ vs <= sNZ vs';
  ad_new_keys : forall k, k ∈ displaced (model_of bv) (new_disp vs bv) ->
                  kx k < sNX vs' /\ ky k < sNY vs' /\ kz k < sNZ vs';
  ad_old_keys : (forall k, k ∈ map fst (Voxels vs) -> kx k < sNX vs /\ ky k < sNY vs /\ kz k < sNZ vs) ->
                forall k, k ∈ map fst (displaced_voxels (Voxels vs) (old_disp vs bv)) ->
                  kx k < sNX vs' /\ ky k < sNY vs' /\ kz k < sNZ vs';
  ad_vpmm : 0 < sdim (sNX vs) (sNY vs) (sNZ vs) -> (shell_vpmm vs' == shell_vpmm vs)%Q;
  ad_tx : sTX vs' = match Voxels vs with [] => sTX vs | _ => if Qltb (TX bv) (sTX vs) then TX bv else sTX vs end;
  ad_ty : sTY vs' = match Voxels vs with [] => sTY vs | _ => if Qltb (TY bv) (sTY vs) then TY bv else sTY vs end;
  ad_tz : sTZ vs' = match Voxels vs with [] => sTZ vs | _ => if Qltb (TZ bv) (sTZ vs) then TZ bv else sTZ vs end
}.

Lemma displaced_voxels_zero vs : displaced_voxels vs (0, 0, 0) = vs.
Proof.
  unfold displaced_voxels. rewrite <- (map_id vs) at 2. apply map_ext. intros [k n]. cbn [fst snd].
  change (add_key k (0, 0, 0)) with (move k (0, 0, 0)). rewrite move_zero. reflexivity.
Qed.


(** No panic: make is never called with a negative capacity. *)
Lemma touch_R old k cks : forall (st : add_state) n,
  (forall x, x ∈ snd st -> is_Some (old !! x)) -> (n <= length (c_cur (fst st)))%nat ->
  let st' := fold_left (touch old k) cks st in
  (forall x, x ∈ snd st' -> is_Some (old !! x)) /\ (n <= length (c_cur (fst st')))%nat.
Proof.
  induction cks as [|ck cks IH]; intros [c R] n HR Hn; [cbn; auto|].
  cbn [fold_left]. apply IH.
  - unfold touch. destruct (old !! ck) as [i|] eqn:E; [|exact HR].
    destruct (c_old _ !! i) as [v|]; [|exact HR]. destruct (snd v =? allNeighbors); [|exact HR].
    cbn [snd]. intros x Hx. apply elem_of_union in Hx as [Hx|Hx]; [|apply HR, Hx].
    apply elem_of_singleton in Hx. subst. rewrite E. eauto.
  - unfold touch. destruct (old !! ck) as [i|] eqn:E; [|exact Hn].
    set (c' := poke i _ c).
    assert (Hc : length (c_cur c') = length (c_cur c)).
    { unfold c', poke. cbn. destruct (c_shared c); [apply alter_length|reflexivity]. }
    clearbody c'. cbn [fst] in Hn. rewrite <- Hc in Hn.
    destruct (c_old c' !! i) as [v|]; [|exact Hn].
    destruct (snd v =? allNeighbors); exact Hn.
Qed.

Lemma step_R grow L old order : forall (st : add_state) n,
  (forall x, x ∈ snd st -> is_Some (old !! x)) -> (n <= length (c_cur (fst st)))%nat ->
  let st' := fold_left (add_key_step grow L old) order st in
  (forall x, x ∈ snd st' -> is_Some (old !! x)) /\ (n <= length (c_cur (fst st')))%nat.
Proof.
  induction order as [|d order IH]; intros st n HR Hn; [cbn; auto|].
  cbn [fold_left].
  assert (Hs : (forall x, x ∈ snd (add_key_step grow L old st d) -> is_Some (old !! x)) /\
               (n <= length (c_cur (fst (add_key_step grow L old st d))))%nat).
  { unfold add_key_step. destruct (findNeighbors L d old) as [m tc].
    destruct (touch_R old d tc st n HR Hn) as [H1 H2].
    destruct (fold_left (touch old d) tc st) as [c R]. cbn [fst snd] in *.
    destruct (m =? allNeighbors); [split; assumption|]. cbn [fst snd]. split; [exact H1|].
    unfold push. destruct (Nat.ltb _ _); cbn; rewrite app_length; lia. }
  apply IH; apply Hs.
Qed.

Lemma build_old_size vs : (size (dom (build_old vs)) <= length vs)%nat.
Proof.
  unfold build_old.
  assert (G : forall (l : list (nat * svox)) (m : gmap key nat),
     (size (dom (fold_left (fun m iv => <[fst (snd iv) := fst iv]> m) l m)) <= size (dom m) + length l)%nat).
  { induction l as [|p l IH]; intros m; cbn [fold_left length]; [lia|].
    etransitivity; [apply IH|]. rewrite dom_insert.
    assert (size (({[fst (snd p)]} : gset key) ∪ dom m) <= 1 + size (dom m))%nat; [|lia].
    rewrite size_union_alt. rewrite size_singleton.
    assert (size (dom m ∖ {[fst (snd p)]}) <= size (dom m))%nat; [|lia].
    apply subseteq_size. set_solver. }
  etransitivity; [apply G|]. rewrite dom_empty, size_empty, imap_length. lia.
Qed.

Lemma add_voxels_total grow cap L order vs : exists vs', add_voxels grow cap L order vs = Some vs'.
Proof.
  unfold add_voxels.
  destruct (step_R grow L (build_old vs) order (Cells vs vs cap true, ∅) (length vs)) as [H1 H2].
  { cbn. intros x H. exfalso. exact (not_elem_of_empty _ H). }
  { cbn. lia. }
  destruct (fold_left _ order _) as [c R]. cbn [fst snd] in *.
  destruct (decide _); [|eauto].
  destruct (Nat.ltb_spec (length (c_cur c)) (size R)); [|eauto]. exfalso.
  assert (Hs : R ⊆ dom (build_old vs)) by (intros x Hx; apply elem_of_dom, H1, Hx).
  apply subseteq_size in Hs. pose proof (build_old_size vs). lia.
Qed.

Lemma svpmm_ext vs nx ny nz : sNX vs = nx -> sNY vs = ny -> sNZ vs = nz -> shell_vpmm vs = svpmm nx ny nz (sScale vs).
Proof. intros <- <- <-. reflexivity. Qed.

Lemma Add_added g c wo co o vs bv :
  orders_ok wo co o vs bv -> compatible vs bv ->
  exists vs', vs_Add g c wo co o vs (Some bv) = (vs', Done) /\ added g c o vs bv vs'.
Proof.
  intros Hord Hcomp. unfold vs_Add.
  (* what happens after update *)
  assert (Hrest : forall vs1 d,
    let shift k := add_key k d in
    let lookup : gset key := list_to_set (map shift (wo ++ co)) in
    exists vs', 
      (let '(nx, ny, nz) := fold_left grow_dims (map shift (wo ++ co)) (sNX vs1, sNY vs1, sNZ vs1) in
       let sc := rescale (shell_vpmm vs1) nx ny nz (sScale vs1) in
       let set_voxels := VShell nx ny nz (sTX vs1) (sTY vs1) (sTZ vs1) sc in
       match add_voxels g c lookup o (Voxels vs1) with
       | None => (set_voxels (Voxels vs1), Panicked)
       | Some voxels => (set_voxels voxels, Done)
       end) = (vs', Done) /\
      add_voxels g c (displaced (model_of bv) d) o (Voxels vs1) = Some (Voxels vs') /\
      sNX vs1 <= sNX vs' /\ sNY vs1 <= sNY vs' /\ sNZ vs1 <= sNZ vs' /\
      (forall k, k ∈ displaced (model_of bv) d -> kx k < sNX vs' /\ ky k < sNY vs' /\ kz k < sNZ vs') /\
      (0 < sdim (sNX vs1) (sNY vs1) (sNZ vs1) -> (shell_vpmm vs' == shell_vpmm vs1)%Q) /\
      sTX vs' = sTX vs1 /\ sTY vs' = sTY vs1 /\ sTZ vs' = sTZ vs1).
  { intros vs1 d shift lookup.
    pose proof (iter_set wo co vs bv o d Hord) as Hset. fold shift in Hset.
    pose proof (grow_dims_ge (map shift (wo ++ co)) (sNX vs1, sNY vs1, sNZ vs1)) as Hg. cbn in Hg.
    destruct (fold_left grow_dims (map shift (wo ++ co)) _) as [[nx ny] nz].
    destruct Hg as (G1 & G2 & G3 & G4).
    subst lookup. rewrite Hset.
    destruct (add_voxels_total g c (displaced (model_of bv) d) o (Voxels vs1)) as [V HV].
    rewrite HV. eexists. split; [reflexivity|]. cbn [Voxels sNX sNY sNZ sTX sTY sTZ].
    split; [reflexivity|]. split; [exact G1|]. split; [exact G2|]. split; [exact G3|]. split; [|split; [|auto]].
    - intros k Hk. apply G4. rewrite <- Hset in Hk. apply elem_of_list_to_set in Hk. exact Hk.
    - intros Hd. unfold shell_vpmm at 1. cbn [sNX sNY sNZ sScale].
      apply rescale_vpmm; [exact Hd| |reflexivity]. rewrite sdim_max in *. lia. }
  destruct (decide (0 < length (Voxels vs))%nat) as [Hne|Hempty].
  - assert (Hnil : Voxels vs <> []) by (intros H; rewrite H in Hne; cbn in Hne; lia).
    destruct Hcomp as [Hc|Hc]; [contradiction|].
    unfold update. rewrite Hc, Z.eqb_refl. cbn [negb].
    fold (part_shift vs bv).
    rewrite geb_nonneg. fold (part_shift vs bv).
    destruct (bool_decide_reflect (key_nonneg (part_shift vs bv))) as [Hnn|Hnn].
    + set (vs1 := VShell _ _ _ _ _ _ _ _).
      destruct (Hrest vs1 (part_shift vs bv)) as (vs' & E & H1 & H2 & H3 & H4 & H5 & H6 & H7 & H8 & H9).
      assert (Hnd : new_disp vs bv = part_shift vs bv).
      { unfold new_disp. destruct (Voxels vs); [contradiction|]. apply decide_True, Hnn. }
      assert (Hod : old_disp vs bv = (0, 0, 0)).
      { unfold old_disp. destruct (Voxels vs); [reflexivity|]. apply decide_True, Hnn. }
      exists vs'. split; [exact E|].
      split; rewrite ?Hnd, ?Hod; try assumption.
      * rewrite displaced_voxels_zero. exact H1.
      * rewrite displaced_voxels_zero. intros Hk k Hin. apply Hk in Hin.
        unfold vs1 in *. cbn [sNX sNY sNZ] in *. lia.
      * rewrite H7. destruct (Voxels vs); [contradiction|reflexivity].
      * rewrite H8. destruct (Voxels vs); [contradiction|reflexivity].
      * rewrite H9. destruct (Voxels vs); [contradiction|reflexivity].
    + set (moved := map _ (Voxels vs)).
      pose proof (grow_dims_ge (map fst moved) (sNX vs, sNY vs, sNZ vs)) as Hg. cbn in Hg.
      destruct (fold_left grow_dims (map fst moved) _) as [[nx ny] nz].
      destruct Hg as (G1 & G2 & G3 & G4).
      set (vs1 := VShell _ _ _ _ _ _ _ _).
      destruct (Hrest vs1 (0, 0, 0)) as (vs' & E & H1 & H2 & H3 & H4 & H5 & H6 & H7 & H8 & H9).
      assert (Hnd : new_disp vs bv = (0, 0, 0)).
      { unfold new_disp. destruct (Voxels vs); [contradiction|]. apply decide_False, Hnn. }
      assert (Hod : old_disp vs bv = opposite (part_shift vs bv)).
      { unfold old_disp. destruct (Voxels vs); [contradiction|]. apply decide_False, Hnn. }
      assert (Hmv : Voxels vs1 = displaced_voxels (Voxels vs) (opposite (part_shift vs bv))) by reflexivity.
      exists vs'. split; [exact E|].
      split; rewrite ?Hnd, ?Hod; unfold vs1 in *; cbn [sNX sNY sNZ sTX sTY sTZ] in *; try assumption; try lia.
      * intros Hd. rewrite H6.
        -- unfold shell_vpmm at 1. cbn [sNX sNY sNZ sScale]. apply rescale_vpmm; [exact Hd| |reflexivity].
           rewrite sdim_max in *. lia.
        -- rewrite sdim_max in *. lia.
      * rewrite H7. destruct (Voxels vs); [contradiction|reflexivity].
      * rewrite H8. destruct (Voxels vs); [contradiction|reflexivity].
      * rewrite H9. destruct (Voxels vs); [contradiction|reflexivity].
  - assert (Hnil : Voxels vs = []) by (destruct (Voxels vs); [reflexivity|cbn in Hempty; lia]).
    destruct (Hrest vs (0, 0, 0)) as (vs' & E & H1 & H2 & H3 & H4 & H5 & H6 & H7 & H8 & H9).
    exists vs'. split; [exact E|].
    assert (Hnd : new_disp vs bv = (0, 0, 0)) by (unfold new_disp; rewrite Hnil; reflexivity).
    assert (Hod : old_disp vs bv = (0, 0, 0)) by (unfold old_disp; rewrite Hnil; reflexivity).
    split; rewrite ?Hnd, ?Hod; try assumption.
    + rewrite displaced_voxels_zero. exact H1.
    + rewrite displaced_voxels_zero. intros Hk k Hin. apply Hk in Hin. lia.
    + rewrite Hnil. exact H7.
    + rewrite Hnil. exact H8.
    + rewrite Hnil. exact H9.
Qed.

(** ** World positions *)

Lemma Qnonneg_inject z : (0 <= z)%Z -> (0 <= inject_Z z)%Q.
Proof. intros. change 0%Q with (inject_Z 0). rewrite <- Zle_Qle. exact H. Qed.

Lemma trunc_inject_eq q z : (q == inject_Z z)%Q -> trunc q = z.
Proof.
  destruct q as [n d]. unfold Qeq, trunc. cbn. intros H.
  replace n with (z * Z.pos d) by lia. apply Z.quot_mul. lia.
Qed.

Lemma trunc_proper p q : (p == q)%Q -> trunc p = trunc q.
Proof.
  destruct p as [n d], q as [m e]. unfold Qeq, trunc. cbn. intros H.
  rewrite <- (Z.quot_mul_cancel_r n (Z.pos d) (Z.pos e)) by lia.
  rewrite <- (Z.quot_mul_cancel_r m (Z.pos e) (Z.pos d)) by lia.
  rewrite H. f_equal. lia.
Qed.

Lemma trunc_bounds q : (0 <= q)%Q -> (inject_Z (trunc q) <= q)%Q /\ (q < inject_Z (trunc q) + 1)%Q.
Proof.
  destruct q as [n d]. unfold Qle, Qlt, trunc. cbn. intros H.
  assert (Hn : 0 <= n) by lia.
  pose proof (Z.quot_rem' n (Z.pos d)) as Hq. pose proof (Z.rem_bound_pos n (Z.pos d) Hn ltac:(lia)) as Hr.
  split; lia.
Qed.

Lemma Qltb_true a b : Qltb a b = true <-> (a < b)%Q.
Proof.
  unfold Qltb. split.
  - intros H. destruct (Qlt_le_dec a b) as [|Hle]; [assumption|]. apply Qle_bool_iff in Hle. rewrite Hle in H. discriminate.
  - intros H. destruct (Qle_bool b a) eqn:E; [|reflexivity]. apply Qle_bool_iff in E. lra.
Qed.

(** The part's origin is a whole number of voxels away from the shell's, at the same resolution. *)
Definition aligned (vs : vshell) (bv : binvox Q) (o : key) : Prop :=
  (vpmm bv == shell_vpmm vs)%Q /\ (0 < shell_vpmm vs)%Q /\
  ((TX bv - sTX vs) * shell_vpmm vs == inject_Z (kx o))%Q /\
  ((TY bv - sTY vs) * shell_vpmm vs == inject_Z (ky o))%Q /\
  ((TZ bv - sTZ vs) * shell_vpmm vs == inject_Z (kz o))%Q.

Lemma aligned_shift vs bv o : aligned vs bv o -> part_shift vs bv = o.
Proof.
  intros (_ & _ & Hx & Hy & Hz). unfold part_shift. destruct o as [[x y] z].
  apply key_eq; apply trunc_inject_eq; assumption.
Qed.

Lemma aligned_compatible vs bv o : aligned vs bv o -> compatible vs bv.
Proof. intros (H & _). right. symmetry. apply trunc_proper, H. Qed.

(** One axis. *)
Lemma axis_pos (t t' v : Q) (o k : Z) :
  (0 < v)%Q -> ((t' - t) * v == inject_Z o)%Q -> 0 <= o ->
  (t' + inject_Z k / v == (if Qltb t' t then t' else t) + inject_Z (k + o) / v)%Q.
Proof.
  intros Hv Ho Hnn. apply Qnonneg_inject in Hnn.
  destruct (Qltb t' t) eqn:E.
  - apply Qltb_true in E. exfalso. rewrite <- Ho in Hnn. nra.
  - rewrite inject_Z_plus, <- Ho. field. lra.
Qed.

Lemma axis_pos_T (t t' v : Q) (o : Z) :
  (0 < v)%Q -> ((t' - t) * v == inject_Z o)%Q -> 0 <= o -> Qltb t' t = false.
Proof.
  intros Hv Ho Hnn. apply Qnonneg_inject in Hnn.
  destruct (Qltb t' t) eqn:E; [|reflexivity].
  apply Qltb_true in E. exfalso. rewrite <- Ho in Hnn. nra.
Qed.

Lemma axis_neg_T (t t' v : Q) (o : Z) :
  (0 < v)%Q -> ((t' - t) * v == inject_Z o)%Q -> o <= 0 ->
  ((if Qltb t' t then t' else t) == t')%Q.
Proof.
  intros Hv Ho Hnp.
  assert (Ho0 : (inject_Z o <= 0)%Q) by (change 0%Q with (inject_Z 0); rewrite <- Zle_Qle; exact Hnp).
  destruct (Qltb t' t) eqn:E; [reflexivity|].
  assert (Hnl : ~ (t' < t)%Q) by (rewrite <- Qltb_true, E; discriminate).
  rewrite <- Ho in Ho0. assert (t <= t')%Q by (apply Qnot_lt_le, Hnl). nra.
Qed.

Lemma axis_div (v a b : Q) (x y : Z) : (0 < v)%Q ->
  (a + inject_Z x / v == b + inject_Z y / v)%Q <-> ((a - b) * v == inject_Z (y - x))%Q.
Proof.
  intros Hv. unfold Z.sub. rewrite inject_Z_plus, inject_Z_opp.
  assert (E : (a - b == (inject_Z y - inject_Z x) / v <-> a + inject_Z x / v == b + inject_Z y / v)%Q).
  { assert (Hd : ((inject_Z y - inject_Z x) / v == inject_Z y / v - inject_Z x / v)%Q) by (field; lra).
    rewrite Hd. split; lra. }
  rewrite <- E. split.
  - intros H. rewrite H. field. lra.
  - intros H. apply Qmult_inj_r with v; [lra|]. rewrite H. field. lra.
Qed.
