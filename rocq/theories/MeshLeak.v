(** A test for leaks: sums over the edges of a watertight mesh of any additive, antisymmetric quantity
    vanish. *)
From Verif Require Import Base BinvoxModel Geom VoxelizeModel VoxelizeSpec MeshSpec MeshCells MeshPush.
From Coq Require Import ZArith QArith List Lia Lqa Bool Permutation.
From stdpp Require Import base list gmap.
Import ListNotations.
Open Scope Z_scope.

Fixpoint qsum {A} (f : A -> Q) (l : list A) : Q := match l with [] => 0%Q | x :: l' => (f x + qsum f l')%Q end.

Lemma qsum_app {A} (f : A -> Q) l1 l2 : (qsum f (l1 ++ l2) == qsum f l1 + qsum f l2)%Q.
Proof. induction l1 as [|a l IH]; cbn; [ring|]. rewrite IH. ring. Qed.

Definition swapq (e : qedge) : qedge := (snd e, fst e).

Record edge_form (f : qedge -> Q) : Prop := {
  form_ext : forall e e', edge_eq e e' -> (f e == f e')%Q;
  form_anti : forall e, (f (swapq e) == - f e)%Q;
  form_cut : forall a b m, on_segment a b m -> (f (a, m) + f (m, b) == f (a, b))%Q }.

Definition matches (e : qedge) (p q : qpt) : bool := qpt_eqb (fst e) p && qpt_eqb (snd e) q.

Lemma matches_iff e p q : matches e p q = true <-> edge_eq e (p, q).
Proof. unfold matches, edge_eq. rewrite andb_true_iff, !qpt_eqb_iff. reflexivity. Qed.

Lemma count_cons e es p q : count_edge (e :: es) p q = ((if matches e p q then 1 else 0) + count_edge es p q)%nat.
Proof. unfold count_edge, matches. cbn. destruct (qpt_eqb _ _ && qpt_eqb _ _); reflexivity. Qed.

Lemma count_app es1 es2 p q : count_edge (es1 ++ es2) p q = (count_edge es1 p q + count_edge es2 p q)%nat.
Proof. unfold count_edge. rewrite List.filter_app, app_length. reflexivity. Qed.

Lemma matches_swap e e' p q : edge_eq e' (swapq e) -> matches e' p q = matches e q p.
Proof.
  intros [H1 H2]. cbn [fst snd swapq] in *. unfold matches. rewrite (qpt_eqb_l _ _ p H1), (qpt_eqb_l _ _ q H2). apply andb_comm.
Qed.

Lemma closed_qsum f es : edge_form f -> closed_edges es -> (qsum f es == 0)%Q.
Proof.
  intros [Hext Hanti _]. remember (length es) as n eqn:En. revert es En.
  induction n as [n IH] using (well_founded_induction lt_wf). intros es -> Hc.
  destruct es as [|[p q] es]; [reflexivity|].
  destruct (qpt_eqb p q) eqn:Epq.
  - apply qpt_eqb_iff in Epq. cbn [qsum].
    assert (Hz : (f (p, q) == 0)%Q).
    { pose proof (Hanti (p, q)) as H. unfold swapq in H. cbn [fst snd] in H.
      rewrite (Hext (q, p) (p, q)) in H by (split; cbn [fst snd]; [symmetry|]; exact Epq). lra. }
    rewrite Hz, Qplus_0_l. apply (IH (length es)); [cbn; lia|reflexivity|].
    intros x y. specialize (Hc x y). rewrite !count_cons in Hc.
    assert (E : matches (p, q) x y = matches (p, q) y x).
    { apply eq_true_iff_eq. rewrite !matches_iff. unfold edge_eq. cbn [fst snd]. split; intros [H1 H2]; split.
      - rewrite Epq; exact H2. - rewrite <- Epq; exact H1. - rewrite Epq; exact H2. - rewrite <- Epq; exact H1. }
    rewrite E in Hc. lia.
  - assert (Hq : (count_edge es q p > 0)%nat).
    { specialize (Hc p q). rewrite !count_cons in Hc.
      replace (matches (p, q) p q) with true in Hc by (symmetry; apply matches_iff; split; reflexivity).
      replace (matches (p, q) q p) with false in Hc; [lia|]. unfold matches. cbn [fst snd]. rewrite Epq. reflexivity. }
    assert (Hex : exists l1 e' l2, es = l1 ++ e' :: l2 /\ edge_eq e' (q, p)).
    { clear -Hq. induction es as [|e es IH]; [cbn in Hq; lia|]. rewrite count_cons in Hq. destruct (matches e q p) eqn:E.
      - apply matches_iff in E. exists [], e, es. auto.
      - destruct (IH ltac:(lia)) as (l1 & e' & l2 & -> & H). exists (e :: l1), e', l2. auto. }
    destruct Hex as (l1 & e' & l2 & -> & He').
    assert (Hrest : closed_edges (l1 ++ l2)).
    { intros x y. specialize (Hc x y). rewrite !count_cons, !count_app, !count_cons in Hc.
      rewrite (matches_swap (p, q) e' x y), (matches_swap (p, q) e' y x) in Hc by exact He'. rewrite !count_app. lia. }
    specialize (IH (length (l1 ++ l2))). cbn [qsum]. rewrite qsum_app. cbn [qsum].
    assert (Hs : (qsum f (l1 ++ l2) == 0)%Q) by (apply IH; [cbn; rewrite !app_length; cbn; lia|reflexivity|exact Hrest]).
    rewrite qsum_app in Hs. rewrite (Hext e' (swapq (p, q)) He'), Hanti. rewrite <- Hs. ring.
Qed.

Lemma watertight_qsum f m : edge_form f -> watertight m -> (qsum f (mesh_edges m) == 0)%Q.
Proof.
  intros Hf (pieces & Hc & Hcl). rewrite <- (closed_qsum f _ Hf Hcl). destruct Hf as [_ _ Hcut]. clear Hcl.
  induction Hc as [|e p es ps Hep _ IH]; [reflexivity|]. cbn [concat qsum]. rewrite qsum_app, IH.
  inversion Hep as [a b|a b mm Hs]; subst; cbn [qsum].
  - ring.
  - rewrite <- (Hcut a b mm Hs). ring.
Qed.

(** ** The forms used: edges of one direction, weighted by a product of two coordinates *)
Definition parallelq (u d : qpt) : bool :=
  Qeq_bool (px u * py d) (py u * px d) && Qeq_bool (py u * pz d) (pz u * py d) && Qeq_bool (pz u * px d) (px u * pz d).
Definition qdot (u d : qpt) : Q := (px u * px d + py u * py d + pz u * pz d)%Q.

Definition wt (v w : qpt -> Q) (a b : qpt) : Q := (2 * v a * w a + v a * w b + v b * w a + 2 * v b * w b)%Q.
Definition dir_form (d : qpt) (v w : qpt -> Q) (e : qedge) : Q :=
  let '(a, b) := e in if parallelq (qsub b a) d then (qdot (qsub b a) d * wt v w a b)%Q else 0%Q.

Definition affine (v : qpt -> Q) : Prop :=
  (forall p q, qpt_eq p q -> v p == v q)%Q /\ (forall a b t, v (lerp a b t) == v a + (v b - v a) * t)%Q.

Lemma affine_px : affine px.
Proof. split; [intros [[? ?] ?] [[? ?] ?] (H & _ & _); exact H|]. intros [[? ?] ?] [[? ?] ?] t. unfold lerp, px. cbn [fst snd]. reflexivity. Qed.
Lemma affine_py : affine py.
Proof. split; [intros [[? ?] ?] [[? ?] ?] (_ & H & _); exact H|]. intros [[? ?] ?] [[? ?] ?] t. unfold lerp, py. cbn [fst snd]. reflexivity. Qed.
Lemma affine_pz : affine pz.
Proof. split; [intros [[? ?] ?] [[? ?] ?] (_ & _ & H); exact H|]. intros [[? ?] ?] [[? ?] ?] t. unfold lerp, pz. cbn [fst snd]. reflexivity. Qed.
Lemma affine_one : affine (fun _ => 1%Q).
Proof. split; [reflexivity|]. intros. ring. Qed.

Lemma parallelq_iff u d : parallelq u d = true <->
  (px u * py d == py u * px d /\ py u * pz d == pz u * py d /\ pz u * px d == px u * pz d)%Q.
Proof. unfold parallelq. rewrite !andb_true_iff, !Qeq_bool_iff. tauto. Qed.

Lemma qpt_eq_coords p q : qpt_eq p q <-> (px p == px q /\ py p == py q /\ pz p == pz q)%Q.
Proof. destruct p as [[? ?] ?], q as [[? ?] ?]. reflexivity. Qed.

Lemma parallelq_ext u u' d : qpt_eq u u' -> parallelq u d = parallelq u' d.
Proof. intros H. apply qpt_eq_coords in H as (H1 & H2 & H3). apply eq_true_iff_eq. rewrite !parallelq_iff, H1, H2, H3. reflexivity. Qed.

Lemma qdot_ext u u' d : qpt_eq u u' -> (qdot u d == qdot u' d)%Q.
Proof. intros H. apply qpt_eq_coords in H as (H1 & H2 & H3). unfold qdot. rewrite H1, H2, H3. reflexivity. Qed.

Definition qscale (t : Q) (u : qpt) : qpt := ((t * px u)%Q, (t * py u)%Q, (t * pz u)%Q).

Lemma parallelq_scale t u d : ~ (t == 0)%Q -> parallelq (qscale t u) d = parallelq u d.
Proof.
  intros Ht. apply eq_true_iff_eq. rewrite !parallelq_iff. unfold qscale, px, py, pz. cbn [fst snd].
  assert (G : forall a b, (t * a == t * b <-> a == b)%Q).
  { intros a b. split; [intros E|intros ->; reflexivity]. apply (Qmult_inj_l a b t Ht), E. }
  rewrite <- !Qmult_assoc, !G. reflexivity.
Qed.

Lemma qsub_lerp_l a b m t : qpt_eq m (lerp a b t) -> qpt_eq (qsub m a) (qscale t (qsub b a)).
Proof.
  intros H. apply qpt_eq_coords in H as (H1 & H2 & H3). apply qpt_eq_coords. unfold qsub, qscale, lerp, px, py, pz in *. cbn [fst snd] in *.
  rewrite H1, H2, H3. split; [ring|split; ring].
Qed.
Lemma qsub_lerp_r a b m t : qpt_eq m (lerp a b t) -> qpt_eq (qsub b m) (qscale (1 - t) (qsub b a)).
Proof.
  intros H. apply qpt_eq_coords in H as (H1 & H2 & H3). apply qpt_eq_coords. unfold qsub, qscale, lerp, px, py, pz in *. cbn [fst snd] in *.
  rewrite H1, H2, H3. split; [ring|split; ring].
Qed.

Lemma qsub_ext a a' b b' : qpt_eq a a' -> qpt_eq b b' -> qpt_eq (qsub a b) (qsub a' b').
Proof. rewrite !qpt_eq_coords. unfold qsub, px, py, pz. cbn [fst snd]. intros (-> & -> & ->) (-> & -> & ->). repeat split; reflexivity. Qed.

Lemma qdot_scale t u d : (qdot (qscale t u) d == t * qdot u d)%Q.
Proof. unfold qdot, qscale, px, py, pz. cbn [fst snd]. ring. Qed.

Lemma dir_form_edge_form d v w : affine v -> affine w -> edge_form (dir_form d v w).
Proof.
  intros [Vext Vaff] [Wext Waff]. split.
  - intros [a b] [a' b'] [H1 H2]. cbn [fst snd] in *. unfold dir_form.
    rewrite (parallelq_ext _ (qsub b' a') d) by (apply qsub_ext; assumption).
    destruct (parallelq (qsub b' a') d); [|reflexivity].
    rewrite (qdot_ext _ (qsub b' a')) by (apply qsub_ext; assumption). unfold wt.
    rewrite (Vext a a'), (Vext b b'), (Wext a a'), (Wext b b') by assumption. reflexivity.
  - intros [a b]. unfold swapq, dir_form. cbn [fst snd].
    assert (E : qpt_eq (qsub a b) (qscale (-1) (qsub b a))).
    { apply qpt_eq_coords. unfold qsub, qscale, px, py, pz. cbn [fst snd]. split; [ring|split; ring]. }
    rewrite (parallelq_ext _ _ d E), parallelq_scale by (intros H; discriminate H).
    destruct (parallelq (qsub b a) d); [|reflexivity]. rewrite (qdot_ext _ _ d E), qdot_scale. unfold wt. ring.
  - intros a b m (t & Ht & Hm). unfold dir_form.
    pose proof (qsub_lerp_l _ _ _ _ Hm) as E1. pose proof (qsub_lerp_r _ _ _ _ Hm) as E2.
    rewrite (parallelq_ext _ _ d E1), (parallelq_ext _ _ d E2).
    assert (Vm : (v m == v a + (v b - v a) * t)%Q) by (rewrite (Vext m _ Hm); apply Vaff).
    assert (Wm : (w m == w a + (w b - w a) * t)%Q) by (rewrite (Wext m _ Hm); apply Waff).
    destruct (parallelq (qsub b a) d) eqn:P.
    + assert (P1 : parallelq (qscale t (qsub b a)) d = true).
      { apply parallelq_iff in P as (P1 & P2 & P3). apply parallelq_iff. unfold qscale. unfold px, py, pz in *. cbn [fst snd] in *.
        rewrite <- !Qmult_assoc, P1, P2, P3. repeat split; reflexivity. }
      assert (P2 : parallelq (qscale (1 - t) (qsub b a)) d = true).
      { apply parallelq_iff in P as (P1' & P2 & P3). apply parallelq_iff. unfold qscale. unfold px, py, pz in *. cbn [fst snd] in *.
        rewrite <- !Qmult_assoc, P1', P2, P3. repeat split; reflexivity. }
      rewrite P1, P2, (qdot_ext _ _ d E1), (qdot_ext _ _ d E2), !qdot_scale. unfold wt. rewrite Vm, Wm. ring.
    + assert (G : forall s u v', parallelq u d = false -> ((if parallelq (qscale s u) d then qdot (qscale s u) d * v' else 0) == 0)%Q).
      { intros s u v' Hu. destruct (Qeq_dec s 0) as [Es|Es].
        - destruct (parallelq (qscale s u) d); [|reflexivity]. rewrite qdot_scale, Es. ring.
        - rewrite parallelq_scale, Hu by exact Es. reflexivity. }
      assert (G1 := G t (qsub b a) (wt v w a m) P). assert (G2 := G (1 - t)%Q (qsub b a) (wt v w m b) P).
      destruct (parallelq (qscale t (qsub b a)) d), (parallelq (qscale (1 - t) (qsub b a)) d);
        rewrite ?(qdot_ext _ _ d E1), ?(qdot_ext _ _ d E2); lra.
Qed.

(** ** The same forms on integer points *)
Definition zcoord (i : nat) (p : key) : Z := match i with 0%nat => kx p | 1%nat => ky p | 2%nat => kz p | _ => 1 end.
Definition qcoord (i : nat) (p : qpt) : Q := match i with 0%nat => px p | 1%nat => py p | 2%nat => pz p | _ => 1%Q end.
Definition zpt (p : key) : qpt := (inject_Z (kx p), inject_Z (ky p), inject_Z (kz p)).

Lemma affine_qcoord i : affine (qcoord i).
Proof. destruct i as [|[|[|i]]]; [apply affine_px|apply affine_py|apply affine_pz|apply affine_one]. Qed.

Definition zparallel (u d : key) : bool :=
  (kx u * ky d =? ky u * kx d) && (ky u * kz d =? kz u * ky d) && (kz u * kx d =? kx u * kz d).
Definition zdot (u d : key) : Z := kx u * kx d + ky u * ky d + kz u * kz d.
Definition zform (d : key) (i j : nat) (e : zedge) : Z :=
  let '(a, b) := e in
  if zparallel (ksub b a) d then
    zdot (ksub b a) d * (2 * zcoord i a * zcoord j a + zcoord i a * zcoord j b + zcoord i b * zcoord j a + 2 * zcoord i b * zcoord j b)
  else 0.

Lemma qcoord_zpt i p : (qcoord i (zpt p) == inject_Z (zcoord i p))%Q.
Proof. destruct i as [|[|[|i]]]; reflexivity. Qed.

Lemma qsub_zpt b a : qpt_eq (qsub (zpt b) (zpt a)) (zpt (ksub b a)).
Proof.
  destruct b as [[? ?] ?], a as [[? ?] ?]. unfold qsub, zpt, ksub, qpt_eq, px, py, pz, kx, ky, kz. cbn [fst snd].
  unfold Z.sub. rewrite !inject_Z_plus, !inject_Z_opp. repeat split; reflexivity.
Qed.

Lemma dir_form_zpt d i j e : (dir_form (zpt d) (qcoord i) (qcoord j) (push zpt e) == inject_Z (zform d i j e))%Q.
Proof.
  destruct e as [a b]. unfold dir_form, push, zform. cbn [fst snd].
  rewrite (parallelq_ext _ _ (zpt d) (qsub_zpt b a)).
  assert (P : parallelq (zpt (ksub b a)) (zpt d) = zparallel (ksub b a) d).
  { apply eq_true_iff_eq. rewrite parallelq_iff. unfold zparallel. rewrite !andb_true_iff, !Z.eqb_eq.
    unfold zpt. unfold px at 1 2 3 4, py at 1 2 3 4, pz at 1 2 3 4. cbn [fst snd]. rewrite <- !inject_Z_mult, !inject_Z_injective. tauto. }
  rewrite P. destruct (zparallel (ksub b a) d); [|reflexivity].
  rewrite (qdot_ext _ _ (zpt d) (qsub_zpt b a)). unfold wt. rewrite !qcoord_zpt. unfold qdot, zdot, zpt, px, py, pz. cbn [fst snd].
  rewrite !inject_Z_mult, !inject_Z_plus, !inject_Z_mult. change (inject_Z 2) with 2%Q. ring.
Qed.

Lemma qsum_zpt d i j zs : (qsum (dir_form (zpt d) (qcoord i) (qcoord j)) (map (push zpt) zs) == inject_Z (zsum (zform d i j) zs))%Q.
Proof. induction zs as [|z zs IH]; [reflexivity|]. cbn [map qsum zsum]. rewrite dir_form_zpt, IH, inject_Z_plus. reflexivity. Qed.

Lemma qsum_ext f es es' : edge_form f -> Forall2 edge_eq es es' -> (qsum f es == qsum f es')%Q.
Proof. intros Hf. induction 1 as [|e e' es es' He _ IH]; [reflexivity|]. cbn [qsum]. rewrite IH, (form_ext f Hf e e' He). reflexivity. Qed.

(** A mesh of integer points that leaks. *)
Lemma leak_test m zs d i j : Forall2 edge_eq (mesh_edges m) (map (push zpt) zs) -> zsum (zform d i j) zs <> 0 -> ~ watertight m.
Proof.
  intros Hm Hne Hw. apply Hne. assert (Hf : edge_form (dir_form (zpt d) (qcoord i) (qcoord j))) by (apply dir_form_edge_form; apply affine_qcoord).
  apply (watertight_qsum _ _ Hf) in Hw. rewrite (qsum_ext _ _ _ Hf Hm), qsum_zpt in Hw.
  apply inject_Z_injective. exact Hw.
Qed.
