(** Proof technique for closed meshes built cell by cell: if in every cell the boundary of the patch is
    the sum of contributions of the six cell faces, each depending only on the four voxels of the face,
    and equal up to sign seen from both sides, then the whole mesh is closed. *)
From Verif Require Import Base.
From Coq Require Import ZArith List Lia Bool Permutation.
From stdpp Require Import base list.
Import ListNotations.
Open Scope Z_scope.

Notation zedge := (key * key)%type.

Definition swap_edge (e : zedge) : zedge := (snd e, fst e).
Definition kadd (a b : key) : key := (kx a + kx b, ky a + ky b, kz a + kz b).
Definition ksub (a b : key) : key := (kx a - kx b, ky a - ky b, kz a - kz b).
Definition shift_edge (d : key) (e : zedge) : zedge := (kadd d (fst e), kadd d (snd e)).

Definition key_eqb (a b : key) : bool := (kx a =? kx b) && (ky a =? ky b) && (kz a =? kz b).
Definition zedge_eqb (e f : zedge) : bool := key_eqb (fst e) (fst f) && key_eqb (snd e) (snd f).

Lemma key_eqb_eq a b : key_eqb a b = true <-> a = b.
Proof.
  destruct a as [[x y] z], b as [[x' y'] z']. unfold key_eqb, kx, ky, kz. cbn.
  rewrite !andb_true_iff, !Z.eqb_eq. split; [intros ((-> & ->) & ->); reflexivity|intros [= -> -> ->]; auto].
Qed.

Lemma zedge_eqb_eq e f : zedge_eqb e f = true <-> e = f.
Proof.
  destruct e, f. unfold zedge_eqb. cbn. rewrite andb_true_iff, !key_eqb_eq.
  split; [intros [-> ->]; reflexivity|intros [= -> ->]; auto].
Qed.

Definition zcount (l : list zedge) (e : zedge) : Z := Z.of_nat (length (List.filter (zedge_eqb e) l)).

(** How much more often [e] is used than its reverse. *)
Definition net (l : list zedge) (e : zedge) : Z := zcount l e - zcount l (swap_edge e).

Lemma zcount_app l1 l2 e : zcount (l1 ++ l2) e = zcount l1 e + zcount l2 e.
Proof. unfold zcount. rewrite List.filter_app, app_length. lia. Qed.

Lemma net_app l1 l2 e : net (l1 ++ l2) e = net l1 e + net l2 e.
Proof. unfold net. rewrite !zcount_app. lia. Qed.

Lemma swap_swap e : swap_edge (swap_edge e) = e.
Proof. destruct e; reflexivity. Qed.

Lemma zcount_map f g l e : (forall x, zedge_eqb e (f x) = zedge_eqb (g e) x) -> zcount (map f l) e = zcount l (g e).
Proof.
  intros H. unfold zcount. f_equal. induction l as [|a l IH]; [reflexivity|]. cbn. rewrite H.
  destruct (zedge_eqb (g e) a); cbn; lia.
Qed.

Lemma zcount_swap l e : zcount (map swap_edge l) e = zcount l (swap_edge e).
Proof.
  apply zcount_map. intros [a b]. destruct e as [c d]. unfold zedge_eqb, swap_edge. cbn. apply andb_comm.
Qed.

Lemma net_swap l e : net (map swap_edge l) e = - net l e.
Proof. unfold net. rewrite !zcount_swap, swap_swap. lia. Qed.

Lemma net_anti l e : net l (swap_edge e) = - net l e.
Proof. unfold net. rewrite swap_swap. lia. Qed.

Lemma zcount_shift d l e : zcount (map (shift_edge d) l) e = zcount l (shift_edge (ksub (0,0,0) d) e).
Proof.
  apply zcount_map. intros [[[a1 a2] a3] [[b1 b2] b3]]. destruct e as [[[c1 c2] c3] [[d1 d2] d3]], d as [[u v] w].
  unfold zedge_eqb, shift_edge, key_eqb, kadd, ksub, kx, ky, kz. cbn.
  assert (H : forall u a c, (c =? u + a) = (0 - u + c =? a)).
  { intros p q r. destruct (Z.eqb_spec r (p + q)), (Z.eqb_spec (0 - p + r) q); reflexivity || lia. }
  rewrite !H. reflexivity.
Qed.

Lemma net_shift d l e : net (map (shift_edge d) l) e = net l (shift_edge (ksub (0,0,0) d) e).
Proof. unfold net. rewrite !zcount_shift. reflexivity. Qed.

(** Closedness of a concrete list is decided by its own edges. *)
Definition closedb (l : list zedge) : bool := forallb (fun e => net l e =? 0) l.

Lemma closedb_sound l : closedb l = true -> forall e, net l e = 0.
Proof.
  unfold closedb. rewrite forallb_forall. intros H e.
  destruct (existsb (zedge_eqb e) l) eqn:E1; [|destruct (existsb (zedge_eqb (swap_edge e)) l) eqn:E2].
  - apply existsb_exists in E1 as (f & Hf & E). apply zedge_eqb_eq in E as <-. apply Z.eqb_eq, H, Hf.
  - apply existsb_exists in E2 as (f & Hf & E). apply zedge_eqb_eq in E as <-.
    specialize (H _ Hf). rewrite net_anti, Z.eqb_eq in H. lia.
  - assert (Hz : forall e, existsb (zedge_eqb e) l = false -> zcount l e = 0).
    { clear. intros e He. unfold zcount. induction l as [|a l IH]; [reflexivity|].
      cbn in He. apply orb_false_iff in He as [Ha Hl]. cbn. rewrite Ha. apply IH, Hl. }
    unfold net. rewrite !Hz by assumption. reflexivity.
Qed.

(** Sums over lists of cells. *)
Fixpoint zsum {A} (f : A -> Z) (l : list A) : Z := match l with [] => 0 | x :: l' => f x + zsum f l' end.

Lemma zsum_app {A} (f : A -> Z) l1 l2 : zsum f (l1 ++ l2) = zsum f l1 + zsum f l2.
Proof. induction l1 as [|a l1 IH]; cbn; [reflexivity|]. rewrite IH. lia. Qed.

Lemma zsum_ext {A} (f g : A -> Z) l : (forall x, In x l -> f x = g x) -> zsum f l = zsum g l.
Proof. intros H. induction l as [|a l IH]; [reflexivity|]. cbn. rewrite IH, (H a); cbn; auto. intros x Hx. apply H. cbn. auto. Qed.

Lemma zsum_add {A} (f g : A -> Z) l : zsum (fun x => f x + g x) l = zsum f l + zsum g l.
Proof. induction l as [|a l IH]; [reflexivity|]. cbn in *. lia. Qed.

Lemma zsum_opp {A} (f : A -> Z) l : zsum (fun x => - f x) l = - zsum f l.
Proof. induction l as [|a l IH]; [reflexivity|]. cbn in *. lia. Qed.

Lemma zsum_perm {A} (f : A -> Z) l l' : Permutation l l' -> zsum f l = zsum f l'.
Proof. induction 1; cbn in *; lia. Qed.

Lemma zsum_map {A B} (f : B -> Z) (g : A -> B) l : zsum f (map g l) = zsum (fun x => f (g x)) l.
Proof. induction l as [|a l IH]; [reflexivity|]. cbn in *. lia. Qed.

Lemma zsum_nonzero {A} (f : A -> Z) l : zsum f l = zsum f (List.filter (fun x => negb (f x =? 0)) l).
Proof.
  induction l as [|a l IH]; [reflexivity|]. cbn. rewrite IH.
  destruct (Z.eqb_spec (f a) 0) as [->|]; cbn; lia.
Qed.

(** A sum over all cells does not change under a translation of the cells. *)
Lemma zsum_shift (f : key -> Z) (d : key) K : List.NoDup K ->
  (forall k, f k <> 0 -> In k K /\ In (kadd k d) K) ->
  zsum (fun k => f (ksub k d)) K = zsum f K.
Proof.
  intros HK Hf. rewrite (zsum_nonzero f K), (zsum_nonzero (fun k => f (ksub k d)) K).
  assert (Hsub : forall k, ksub (kadd k d) d = k) by (intros [[? ?] ?]; unfold ksub, kadd, kx, ky, kz; cbn; repeat f_equal; lia).
  assert (Hadd : forall k, kadd (ksub k d) d = k) by (intros [[? ?] ?]; unfold ksub, kadd, kx, ky, kz; cbn; repeat f_equal; lia).
  rewrite (zsum_perm (fun k => f (ksub k d)) _ (map (fun k => kadd k d) (List.filter (fun x => negb (f x =? 0)) K))).
  - rewrite zsum_map. apply zsum_ext. intros x _. rewrite Hsub. reflexivity.
  - apply Coq.Sorting.Permutation.NoDup_Permutation.
    + apply List.NoDup_filter, HK.
    + apply FinFun.Injective_map_NoDup; [|apply List.NoDup_filter, HK].
      intros x y E. rewrite <- (Hsub x), E. apply Hsub.
    + intros x. rewrite List.filter_In, in_map_iff. split.
      * intros [Hx E]. apply negb_true_iff, Z.eqb_neq in E. exists (ksub x d). split; [apply Hadd|].
        apply List.filter_In. split; [apply (Hf _ E)|]. apply negb_true_iff, Z.eqb_neq, E.
      * intros (y & <- & Hy). apply List.filter_In in Hy as [Hy E]. apply negb_true_iff, Z.eqb_neq in E.
        split; [apply (Hf _ E)|]. rewrite Hsub. apply negb_true_iff, Z.eqb_neq, E.
Qed.

(** ** Cells *)

Definition b2n (b : bool) : Z := if b then 1 else 0.
Definition enc8 (b0 b1 b2 b3 b4 b5 b6 b7 : bool) : Z :=
  b2n b0 + 2 * (b2n b1 + 2 * (b2n b2 + 2 * (b2n b3 + 2 * (b2n b4 + 2 * (b2n b5 + 2 * (b2n b6 + 2 * b2n b7)))))).
Definition enc4 (b0 b1 b2 b3 : bool) : Z := b2n b0 + 2 * (b2n b1 + 2 * (b2n b2 + 2 * b2n b3)).

(** The voxel at corner [i] of cell [k], relative to [k]. *)
Definition corner_off : list key :=
  [(0,0,0); (1,0,0); (1,-1,0); (0,-1,0); (0,0,1); (1,0,1); (1,-1,1); (0,-1,1)].
Definition corner (i : nat) (k : key) : key := kadd k (nth i corner_off (0,0,0)).

(** Bit i: the voxel at corner i is filled. *)
Definition pat (fill : key -> bool) (k : key) : Z :=
  enc8 (fill (corner 0 k)) (fill (corner 1 k)) (fill (corner 2 k)) (fill (corner 3 k))
       (fill (corner 4 k)) (fill (corner 5 k)) (fill (corner 6 k)) (fill (corner 7 k)).

Definition fxp n := enc4 (Z.testbit n 1) (Z.testbit n 2) (Z.testbit n 5) (Z.testbit n 6).
Definition fxm n := enc4 (Z.testbit n 0) (Z.testbit n 3) (Z.testbit n 4) (Z.testbit n 7).
Definition fyp n := enc4 (Z.testbit n 0) (Z.testbit n 1) (Z.testbit n 4) (Z.testbit n 5).
Definition fym n := enc4 (Z.testbit n 3) (Z.testbit n 2) (Z.testbit n 7) (Z.testbit n 6).
Definition fzp n := enc4 (Z.testbit n 4) (Z.testbit n 5) (Z.testbit n 6) (Z.testbit n 7).
Definition fzm n := enc4 (Z.testbit n 0) (Z.testbit n 1) (Z.testbit n 2) (Z.testbit n 3).

Lemma enc8_bits b0 b1 b2 b3 b4 b5 b6 b7 : let n := enc8 b0 b1 b2 b3 b4 b5 b6 b7 in
  Z.testbit n 0 = b0 /\ Z.testbit n 1 = b1 /\ Z.testbit n 2 = b2 /\ Z.testbit n 3 = b3 /\
  Z.testbit n 4 = b4 /\ Z.testbit n 5 = b5 /\ Z.testbit n 6 = b6 /\ Z.testbit n 7 = b7.
Proof. destruct b0, b1, b2, b3, b4, b5, b6, b7; vm_compute; auto 20. Qed.

Lemma enc8_range b0 b1 b2 b3 b4 b5 b6 b7 : In (enc8 b0 b1 b2 b3 b4 b5 b6 b7) (map Z.of_nat (seq 0 256)).
Proof.
  apply in_map_iff. exists (Z.to_nat (enc8 b0 b1 b2 b3 b4 b5 b6 b7)).
  assert (0 <= enc8 b0 b1 b2 b3 b4 b5 b6 b7 < 256) by (destruct b0, b1, b2, b3, b4, b5, b6, b7; vm_compute; split; congruence).
  split; [lia|]. apply in_seq. lia.
Qed.

Lemma pat_range fill k : In (pat fill k) (map Z.of_nat (seq 0 256)).
Proof. apply enc8_range. Qed.

Ltac keyeq := apply pair_equal_spec; split; [apply pair_equal_spec; split|]; lia.

Section Faces.
  Context (fill : key -> bool).
  Lemma pat_bit i k : (i < 8)%nat -> Z.testbit (pat fill k) (Z.of_nat i) = fill (corner i k).
  Proof.
    intros Hi. unfold pat.
    destruct (enc8_bits (fill (corner 0 k)) (fill (corner 1 k)) (fill (corner 2 k)) (fill (corner 3 k))
       (fill (corner 4 k)) (fill (corner 5 k)) (fill (corner 6 k)) (fill (corner 7 k))) as (E0 & E1 & E2 & E3 & E4 & E5 & E6 & E7).
    do 8 (destruct i as [|i]; [assumption|]). lia.
  Qed.

  Lemma pat_bit0 k : Z.testbit (pat fill k) 0 = fill (corner 0 k).
  Proof. apply (pat_bit 0 k). lia. Qed.
  Lemma pat_bit1 k : Z.testbit (pat fill k) 1 = fill (corner 1 k).
  Proof. apply (pat_bit 1 k). lia. Qed.
  Lemma pat_bit2 k : Z.testbit (pat fill k) 2 = fill (corner 2 k).
  Proof. apply (pat_bit 2 k). lia. Qed.
  Lemma pat_bit3 k : Z.testbit (pat fill k) 3 = fill (corner 3 k).
  Proof. apply (pat_bit 3 k). lia. Qed.
  Lemma pat_bit4 k : Z.testbit (pat fill k) 4 = fill (corner 4 k).
  Proof. apply (pat_bit 4 k). lia. Qed.
  Lemma pat_bit5 k : Z.testbit (pat fill k) 5 = fill (corner 5 k).
  Proof. apply (pat_bit 5 k). lia. Qed.
  Lemma pat_bit6 k : Z.testbit (pat fill k) 6 = fill (corner 6 k).
  Proof. apply (pat_bit 6 k). lia. Qed.
  Lemma pat_bit7 k : Z.testbit (pat fill k) 7 = fill (corner 7 k).
  Proof. apply (pat_bit 7 k). lia. Qed.

  Lemma face_x k : fxm (pat fill k) = fxp (pat fill (ksub k (1,0,0))).
  Proof.
    unfold fxm, fxp.
    rewrite ?pat_bit0, ?pat_bit1, ?pat_bit2, ?pat_bit3, ?pat_bit4, ?pat_bit5, ?pat_bit6, ?pat_bit7.
    f_equal; f_equal; destruct k as [[x y] z]; unfold corner, kadd, ksub, kx, ky, kz; cbn; keyeq.
  Qed.
  Lemma face_y k : fym (pat fill k) = fyp (pat fill (ksub k (0,1,0))).
  Proof.
    unfold fym, fyp.
    rewrite ?pat_bit0, ?pat_bit1, ?pat_bit2, ?pat_bit3, ?pat_bit4, ?pat_bit5, ?pat_bit6, ?pat_bit7.
    f_equal; f_equal; destruct k as [[x y] z]; unfold corner, kadd, ksub, kx, ky, kz; cbn; keyeq.
  Qed.
  Lemma face_z k : fzm (pat fill k) = fzp (pat fill (ksub k (0,0,1))).
  Proof.
    unfold fzm, fzp.
    rewrite ?pat_bit0, ?pat_bit1, ?pat_bit2, ?pat_bit3, ?pat_bit4, ?pat_bit5, ?pat_bit6, ?pat_bit7.
    f_equal; f_equal; destruct k as [[x y] z]; unfold corner, kadd, ksub, kx, ky, kz; cbn; keyeq.
  Qed.
End Faces.

Definition kdouble (k : key) : key := (2 * kx k, 2 * ky k, 2 * kz k).

Section Mesh.
  Context (tab : Z -> list zedge) (Fx Fy Fz : Z -> list zedge).
  Context (Fx0 : Fx 0 = []) (Fy0 : Fy 0 = []) (Fz0 : Fz 0 = []).

  (** The patch of pattern [n] together with the reversed contributions of its faces is closed. *)
  Definition cell_ok (n : Z) : bool :=
    closedb (tab n ++
      map swap_edge (Fx (fxp n)) ++ map (shift_edge (-2,0,0)) (Fx (fxm n)) ++
      map swap_edge (Fy (fyp n)) ++ map (shift_edge (0,-2,0)) (Fy (fym n)) ++
      map swap_edge (Fz (fzp n)) ++ map (shift_edge (0,0,-2)) (Fz (fzm n))).

  Context (fill : key -> bool) (K : list key).

  Let contrib (F : Z -> list zedge) (fp : Z -> Z) (e : zedge) (k : key) : Z :=
    net (F (fp (pat fill k))) (shift_edge (ksub (0,0,0) (kdouble k)) e).

  Lemma cells_closed :
    List.NoDup K -> (forall k, pat fill k <> 0 -> In k K) ->
    (forall k, In k K -> cell_ok (pat fill k) = true) ->
    forall e, net (flat_map (fun k => map (shift_edge (kdouble k)) (tab (pat fill k))) K) e = 0.
  Proof.
    intros HK Hall Hok e.
    assert (Hsum : net (flat_map (fun k => map (shift_edge (kdouble k)) (tab (pat fill k))) K) e =
      zsum (fun k => net (tab (pat fill k)) (shift_edge (ksub (0,0,0) (kdouble k)) e)) K).
    { clear. induction K as [|k K' IH]; [reflexivity|]. cbn. rewrite net_app, IH, net_shift. reflexivity. }
    rewrite Hsum. clear Hsum.
    rewrite (zsum_ext _ (fun k =>
       (contrib Fx fxp e k + - contrib Fx fxp e (ksub k (1,0,0))) +
       ((contrib Fy fyp e k + - contrib Fy fyp e (ksub k (0,1,0))) +
        (contrib Fz fzp e k + - contrib Fz fzp e (ksub k (0,0,1)))))).
    2:{ intros k Hk. specialize (Hok k Hk). unfold cell_ok in Hok.
        pose proof (closedb_sound _ Hok (shift_edge (ksub (0,0,0) (kdouble k)) e)) as H.
        rewrite !net_app, !net_swap, !net_shift in H.
        rewrite (face_x fill k), (face_y fill k), (face_z fill k) in H.
        assert (Hs : forall d, shift_edge (ksub (0,0,0) (kdouble (ksub k d))) e =
                  shift_edge (ksub (0,0,0) (ksub (0,0,0) (kdouble d))) (shift_edge (ksub (0,0,0) (kdouble k)) e)).
        { intros [[d1 d2] d3]. destruct e as [[[? ?] ?] [[? ?] ?]], k as [[? ?] ?].
          unfold shift_edge, kadd, ksub, kdouble, kx, ky, kz. cbn. apply pair_equal_spec; split; keyeq. }
        unfold contrib. rewrite !Hs.
        change (ksub (0,0,0) (kdouble (1,0,0))) with (-2,0,0).
        change (ksub (0,0,0) (kdouble (0,1,0))) with (0,-2,0).
        change (ksub (0,0,0) (kdouble (0,0,1))) with (0,0,-2). lia. }
    assert (Hzero : forall F fp d, F 0 = [] ->
      (forall k, pat fill k = 0 -> fp (pat fill k) = 0) ->
      (forall k, pat fill (kadd k d) = 0 -> fp (pat fill k) = 0) ->
      zsum (fun k => contrib F fp e (ksub k d)) K = zsum (contrib F fp e) K).
    { intros F fp d HF H1 H2. apply zsum_shift; [exact HK|]. intros k Hk.
      assert (Hne : fp (pat fill k) <> 0).
      { intros E. apply Hk. unfold contrib. rewrite E, HF. reflexivity. }
      split; apply Hall; intros E; apply Hne; auto. }
    rewrite !zsum_add, !zsum_opp.
    assert (Hadd : forall k d, ksub (kadd k d) d = k) by (intros [[? ?] ?] [[? ?] ?]; unfold ksub, kadd, kx, ky, kz; cbn; repeat f_equal; lia).
    rewrite (Hzero Fx fxp (1,0,0)), (Hzero Fy fyp (0,1,0)), (Hzero Fz fzp (0,0,1)); try assumption; [lia|..];
      intros k E; try (rewrite E; reflexivity).
    - rewrite <- (Hadd k (0,0,1)), <- face_z, E. reflexivity.
    - rewrite <- (Hadd k (0,1,0)), <- face_y, E. reflexivity.
    - rewrite <- (Hadd k (1,0,0)), <- face_x, E. reflexivity.
  Qed.
End Mesh.
