(** From closed integer meshes to closed meshes of rational points. *)
From Verif Require Import Base BinvoxModel Geom VoxelizeModel VoxelizeSpec MeshSpec MeshCells.
From Coq Require Import ZArith QArith List Lia Bool Permutation.
From stdpp Require Import base list gmap.
Import ListNotations.
Open Scope Z_scope.

Definition zedge_dec (e f : zedge) : {e = f} + {e <> f}.
Proof. destruct (zedge_eqb e f) eqn:E; [left; apply zedge_eqb_eq, E|right; intros ->]. rewrite (proj2 (zedge_eqb_eq f f) eq_refl) in E. discriminate. Defined.

Lemma zcount_occ l e : zcount l e = Z.of_nat (count_occ zedge_dec l e).
Proof.
  unfold zcount. f_equal. induction l as [|a l IH]; [reflexivity|]. cbn.
  destruct (zedge_dec a e) as [->|Hne].
  - rewrite (proj2 (zedge_eqb_eq e e) eq_refl). cbn. rewrite IH. reflexivity.
  - destruct (zedge_eqb e a) eqn:E; [apply zedge_eqb_eq in E; congruence|exact IH].
Qed.

Lemma net_permutation l : (forall e, net l e = 0) -> Permutation l (map swap_edge l).
Proof.
  intros H. apply (Permutation_count_occ zedge_dec). intros e. specialize (H e). unfold net in H.
  rewrite <- zcount_swap, !zcount_occ in H. lia.
Qed.

Global Instance qpt_eq_equiv : Equivalence qpt_eq.
Proof.
  split.
  - intros [[? ?] ?]. unfold qpt_eq. split; [reflexivity|split; reflexivity].
  - intros [[? ?] ?] [[? ?] ?]. unfold qpt_eq. intros (H1 & H2 & H3). split; [symmetry; exact H1|split; symmetry; assumption].
  - intros [[? ?] ?] [[? ?] ?] [[? ?] ?]. unfold qpt_eq. intros (H1 & H2 & H3) (G1 & G2 & G3).
    split; [etransitivity; eassumption|split; etransitivity; eassumption].
Qed.

Lemma qpt_eqb_iff p q : qpt_eqb p q = true <-> qpt_eq p q.
Proof.
  destruct p as [[x y] z], q as [[x' y'] z']. unfold qpt_eqb, qpt_eq, px, py, pz. cbn.
  rewrite !andb_true_iff, !Qeq_bool_iff. tauto.
Qed.

Lemma qpt_eqb_l p p' q : qpt_eq p p' -> qpt_eqb p q = qpt_eqb p' q.
Proof. intros H. apply eq_true_iff_eq. rewrite !qpt_eqb_iff, H. reflexivity. Qed.

Definition edge_eq (e f : qedge) : Prop := qpt_eq (fst e) (fst f) /\ qpt_eq (snd e) (snd f).

Lemma count_edge_ext es es' p q : Forall2 edge_eq es es' -> count_edge es p q = count_edge es' p q.
Proof.
  unfold count_edge. induction 1 as [|[a b] [a' b'] es es' [H1 H2] _ IH]; [reflexivity|]. cbn in *.
  rewrite (qpt_eqb_l a a'), (qpt_eqb_l b b') by assumption. destruct (qpt_eqb a' p && qpt_eqb b' q); cbn; lia.
Qed.

Definition push (pos : key -> qpt) (e : zedge) : qedge := (pos (fst e), pos (snd e)).

Lemma closed_push pos l : (forall e, net l e = 0) -> closed_edges (map (push pos) l).
Proof.
  intros H p q. apply net_permutation in H.
  assert (Hf : forall P : qedge -> bool, length (List.filter P (map (push pos) l)) =
                 length (List.filter P (map (push pos) (map swap_edge l)))).
  { intros P. apply Permutation_length. clear -H.
    assert (Permutation (map (push pos) l) (map (push pos) (map swap_edge l))) as Hp by (apply Permutation_map, H).
    revert Hp. generalize (map (push pos) l) (map (push pos) (map swap_edge l)). clear.
    induction 1; cbn; repeat match goal with |- context[if ?c then _ else _] => destruct c end; try reflexivity; eauto using perm_skip, perm_swap, Permutation_trans. }
  unfold count_edge. rewrite Hf. clear. induction l as [|[a b] l IH]; [reflexivity|]. cbn.
  rewrite (andb_comm (qpt_eqb (pos b) p)). destruct (qpt_eqb (pos a) q && qpt_eqb (pos b) p); cbn; lia.
Qed.

Lemma closed_edges_ext es es' : Forall2 edge_eq es es' -> closed_edges es' -> closed_edges es.
Proof. intros H Hc p q. rewrite (count_edge_ext es es' p q), (count_edge_ext es es' q p) by exact H. apply Hc. Qed.

(** Integer triangles. *)
Notation zface := (key * key * key)%type.
Definition zface_edges (t : zface) : list zedge := let '(a, b, c) := t in [(a, b); (b, c); (c, a)].
Definition push_face (pos : key -> qpt) (t : zface) : face := let '(a, b, c) := t in (pos a, pos b, pos c).

Lemma mesh_edges_push pos ts : mesh_edges (map (push_face pos) ts) = map (push pos) (flat_map zface_edges ts).
Proof. induction ts as [|[[a b] c] ts IH]; [reflexivity|]. cbn. unfold mesh_edges in IH. rewrite IH. reflexivity. Qed.

Lemma mesh_edges_ext m m' : Forall2 face_eq m m' -> Forall2 edge_eq (mesh_edges m) (mesh_edges m').
Proof.
  induction 1 as [|[[a b] c] [[a' b'] c'] m m' (H1 & H2 & H3) _ IH]; [constructor|].
  cbn. repeat constructor; try assumption.
Qed.

Lemma closed_mesh_push pos m ts : Forall2 face_eq m (map (push_face pos) ts) ->
  (forall e, net (flat_map zface_edges ts) e = 0) -> closed_mesh m.
Proof.
  intros Hm Hn. unfold closed_mesh. eapply closed_edges_ext; [apply mesh_edges_ext, Hm|].
  rewrite mesh_edges_push. apply closed_push, Hn.
Qed.
