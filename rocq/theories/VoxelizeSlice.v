(** Proofs about slicing triangles (binvox/voxelize.go:130-172). *)
From Verif Require Import Base BinvoxModel Geom VoxelizeModel VoxelizeSpec.
From Coq Require Import ZArith QArith Qabs List Lia Lqa Bool.
From stdpp Require Import base list.
Import ListNotations.
Open Scope Q_scope.

Lemma qlt_iff a b : qlt a b = true <-> a < b.
Proof.
  unfold qlt. rewrite negb_true_iff. split; intros H.
  - apply Qnot_le_lt. intros Hc. apply Qle_bool_iff in Hc. congruence.
  - destruct (Qle_bool b a) eqn:E; [|reflexivity]. apply Qle_bool_iff in E. lra.
Qed.
Lemma qlt_false a b : qlt a b = false <-> b <= a.
Proof.
  unfold qlt. rewrite negb_false_iff. apply Qle_bool_iff.
Qed.

Global Instance qpt_eq_equiv : Equivalence qpt_eq.
Proof.
  split.
  - intros [[x y] z]. cbn. auto with qarith.
  - intros [[x y] z] [[x' y'] z']. cbn. intros (?&?&?). repeat split; symmetry; assumption.
  - intros [[x y] z] [[x' y'] z'] [[x'' y''] z'']. cbn. intros (?&?&?) (?&?&?).
    repeat split; etransitivity; eassumption.
Qed.

Lemma qpt_eq_iff p q : qpt_eq p q <-> px p == px q /\ py p == py q /\ pz p == pz q.
Proof. destruct p as [[x y] z], q as [[x' y'] z']. reflexivity. Qed.

(** The edge [v0 v1] is not flat, up to the code's epsilon. *)
Definition steep (v0 v1 : qpt) : Prop := epsilon <= Qabs (pz v1 - pz v0).

Definition straddles (v0 v1 : qpt) (z : Q) : Prop :=
  (pz v0 <= z /\ z <= pz v1) \/ (pz v1 <= z /\ z <= pz v0).

(** The point of the line through [A] and [B] at height [z]. *)
Definition cutpt (A B : qpt) (z : Q) : qpt := lerp A B ((pz A - z) / (pz A - pz B)).

Lemma steep_ne v0 v1 : steep v0 v1 -> ~ pz v0 - pz v1 == 0.
Proof.
  unfold steep, epsilon. intros H E. assert (E' : pz v1 - pz v0 == 0) by lra. rewrite E' in H. change (Qabs 0) with 0 in H. lra.
Qed.

Lemma lerp_ext p q t t' : t == t' -> qpt_eq (lerp p q t) (lerp p q t').
Proof. intros E. apply qpt_eq_iff. unfold lerp, px, py, pz. cbn [fst snd]. rewrite E. repeat split; reflexivity. Qed.

Lemma cut_sym A B z : ~ pz A - pz B == 0 -> qpt_eq (cutpt A B z) (cutpt B A z).
Proof.
  intros H. apply qpt_eq_iff. unfold cutpt, lerp. destruct A as [[xa ya] za], B as [[xb yb] zb].
  unfold px, py, pz in *. cbn [fst snd] in *. repeat split; field; split; lra.
Qed.

Lemma cut_z A B z : ~ pz A - pz B == 0 -> pz (cutpt A B z) == z.
Proof.
  intros H. unfold cutpt, lerp. destruct A as [[xa ya] za], B as [[xb yb] zb].
  unfold px, py, pz in *. cbn [fst snd] in *. field. lra.
Qed.

Lemma cut_param A B z : ~ pz A - pz B == 0 -> straddles A B z ->
  0 <= (pz A - z) / (pz A - pz B) <= 1.
Proof.
  intros H Hs. unfold straddles in Hs. set (a := pz A) in *. set (b := pz B) in *.
  destruct (Q_dec (a - b) 0) as [[Hl|Hg]|He]; [| |contradiction].
  - assert (E : (a - z) / (a - b) == (z - a) / (b - a)) by (field; split; lra). rewrite E.
    split; [apply Qle_shift_div_l; lra|apply Qle_shift_div_r; lra].
  - split; [apply Qle_shift_div_l; lra|apply Qle_shift_div_r; lra].
Qed.

Lemma seg_unfold v0 v1 z : exists d n, d == pz v1 - pz v0 /\ n == z - pz v0 /\
  intersectSegment v0 v1 z =
    if qlt (- epsilon) d && qlt d epsilon then None
    else if qlt (n / d) 0 || qlt 1 (n / d) then None
    else Some (px v0 + (px v1 - px v0) * (n / d), py v0 + (py v1 - py v0) * (n / d), pz v0 + (pz v1 - pz v0) * (n / d)).
Proof.
  exists (0 * (px v1 - px v0) + 0 * (py v1 - py v0) + 1 * (pz v1 - pz v0)),
         (0 * (px v0 - 0) + 0 * (py v0 - 0) + -1 * (pz v0 - z)).
  split; [ring|]. split; [ring|]. reflexivity.
Qed.

Lemma seg_some v0 v1 z : steep v0 v1 -> straddles v0 v1 z ->
  exists p, intersectSegment v0 v1 z = Some p /\ qpt_eq p (cutpt v0 v1 z).
Proof.
  intros Hst Hs. pose proof (steep_ne _ _ Hst) as Hne. pose proof (cut_param _ _ _ Hne Hs) as Ht.
  destruct (seg_unfold v0 v1 z) as (d & n & Ed & En & ->).
  assert (Et : n / d == (pz v0 - z) / (pz v0 - pz v1)) by (rewrite Ed, En; field; split; lra).
  destruct (qlt (- epsilon) d && qlt d epsilon) eqn:E1.
  { exfalso. apply andb_true_iff in E1 as [E1 E2]. apply qlt_iff in E1, E2. unfold steep in Hst.
    rewrite <- Ed in Hst. revert Hst. apply Qabs_case; intros; lra. }
  destruct (qlt (n / d) 0 || qlt 1 (n / d)) eqn:E2.
  { exfalso. apply orb_true_iff in E2 as [E2|E2]; apply qlt_iff in E2; rewrite Et in E2; lra. }
  eexists. split; [reflexivity|]. apply qpt_eq_iff. unfold cutpt, lerp, px, py, pz. cbn [fst snd].
  change (snd v0) with (pz v0). change (snd v1) with (pz v1). rewrite Et. repeat split; reflexivity.
Qed.

Lemma seg_inv v0 v1 z p : intersectSegment v0 v1 z = Some p ->
  steep v0 v1 /\ straddles v0 v1 z /\ qpt_eq p (cutpt v0 v1 z).
Proof.
  destruct (seg_unfold v0 v1 z) as (d & n & Ed & En & ->).
  destruct (qlt (- epsilon) d && qlt d epsilon) eqn:E1; [discriminate|].
  destruct (qlt (n / d) 0 || qlt 1 (n / d)) eqn:E2; [discriminate|].
  intros [= <-]. apply orb_false_iff in E2 as [E2 E3]. apply qlt_false in E2, E3.
  assert (Hst : steep v0 v1).
  { unfold steep. rewrite <- Ed. apply andb_false_iff in E1 as [E1|E1]; apply qlt_false in E1; unfold epsilon in *;
    apply Qabs_case; intros; lra. }
  pose proof (steep_ne _ _ Hst) as Hne.
  assert (Et : n / d == (pz v0 - z) / (pz v0 - pz v1)) by (rewrite Ed, En; field; split; lra).
  split; [exact Hst|]. split.
  - rewrite Et in E2, E3. unfold straddles. set (a := pz v0) in *. set (b := pz v1) in *.
    assert (Em : a - z == ((a - z) / (a - b)) * (a - b)) by (field; lra).
    set (t := (a - z) / (a - b)) in *. clearbody t.
    destruct (Q_dec (a - b) 0) as [[Hl|Hg]|He]; [left|right|contradiction]; split; nra.
  - apply qpt_eq_iff. unfold cutpt, lerp, px, py, pz. cbn [fst snd].
    change (snd v0) with (pz v0). change (snd v1) with (pz v1). rewrite Et. repeat split; reflexivity.
Qed.

Lemma seg_none v0 v1 z : intersectSegment v0 v1 z = None -> ~ steep v0 v1 \/ ~ straddles v0 v1 z.
Proof.
  intros H.
  destruct (Qlt_le_dec (Qabs (pz v1 - pz v0)) epsilon) as [Hl|Hl]; [left; unfold steep; lra|].
  right. intros Hs. destruct (seg_some v0 v1 z Hl Hs) as (p & Hp & _). congruence.
Qed.

(** ** Points of triangles and segments *)

Lemma on_segment_ext p q r p' q' r' : qpt_eq p p' -> qpt_eq q q' -> qpt_eq r r' ->
  on_segment p q r -> on_segment p' q' r'.
Proof.
  intros Hp Hq Hr (t & Ht & He). exists t. split; [exact Ht|].
  rewrite qpt_eq_iff in *. unfold lerp, px, py, pz in *. cbn [fst snd] in *.
  destruct Hp as (P1 & P2 & P3), Hq as (Q1 & Q2 & Q3), Hr as (R1 & R2 & R3), He as (E1 & E2 & E3).
  rewrite <- R1, <- R2, <- R3, <- P1, <- P2, <- P3, <- Q1, <- Q2, <- Q3. auto.
Qed.

Lemma on_segment_sym p q r : on_segment p q r -> on_segment q p r.
Proof.
  intros (t & Ht & He). exists (1 - t). split; [lra|]. rewrite He. apply qpt_eq_iff.
  unfold lerp, px, py, pz. cbn [fst snd]. repeat split; ring.
Qed.

Lemma cut_on_segment A B z : ~ pz A - pz B == 0 -> straddles A B z -> on_segment A B (cutpt A B z).
Proof. intros H Hs. eexists. split; [apply (cut_param A B z H Hs)|reflexivity]. Qed.

Lemma in_triangle_ext t p q : qpt_eq p q -> in_triangle t p -> in_triangle t q.
Proof. intros E (a & b & c & H & He). exists a, b, c. split; [exact H|]. rewrite <- E. exact He. Qed.

Lemma in_triangle_lerp t p q s : 0 <= s <= 1 -> in_triangle t p -> in_triangle t q -> in_triangle t (lerp p q s).
Proof.
  intros Hs (a & b & c & (H1 & H2 & H3 & H4) & He) (a' & b' & c' & (H1' & H2' & H3' & H4') & He').
  exists (a + (a' - a) * s), (b + (b' - b) * s), (c + (c' - c) * s).
  split; [split; [|split; [|split]]|].
  - nra.
  - nra.
  - nra.
  - assert (Ea : a == 1 - b - c) by lra. assert (Ea' : a' == 1 - b' - c') by lra. rewrite Ea, Ea'. ring.
  - rewrite qpt_eq_iff in *. unfold lerp, comb3, px, py, pz in *. cbn [fst snd] in *.
    destruct He as (E1 & E2 & E3), He' as (E1' & E2' & E3'). rewrite E1, E2, E3, E1', E2', E3'. repeat split; ring.
Qed.

Lemma in_triangle_v1 t : in_triangle t (tv1 t).
Proof. exists 1, 0, 0. split; [lra|]. apply qpt_eq_iff. unfold comb3, px, py, pz. cbn [fst snd]. repeat split; ring. Qed.
Lemma in_triangle_v2 t : in_triangle t (tv2 t).
Proof. exists 0, 1, 0. split; [lra|]. apply qpt_eq_iff. unfold comb3, px, py, pz. cbn [fst snd]. repeat split; ring. Qed.
Lemma in_triangle_v3 t : in_triangle t (tv3 t).
Proof. exists 0, 0, 1. split; [lra|]. apply qpt_eq_iff. unfold comb3, px, py, pz. cbn [fst snd]. repeat split; ring. Qed.

Lemma edge_in_triangle t p : on_edge t p -> in_triangle t p.
Proof.
  intros [(s & Hs & E)|[(s & Hs & E)|(s & Hs & E)]]; symmetry in E; apply (in_triangle_ext _ _ _ E);
    apply in_triangle_lerp; auto using in_triangle_v1, in_triangle_v2, in_triangle_v3.
Qed.

Lemma segment_in_triangle t p q r : on_edge t p -> on_edge t q -> on_segment p q r -> in_triangle t r.
Proof.
  intros Hp Hq (s & Hs & E). symmetry in E. apply (in_triangle_ext _ _ _ E).
  apply in_triangle_lerp; auto using edge_in_triangle.
Qed.

Lemma segment_z p q r z : pz p == z -> pz q == z -> on_segment p q r -> pz r == z.
Proof.
  intros Hp Hq (s & Hs & E). apply qpt_eq_iff in E as (_ & _ & E). rewrite E.
  unfold lerp, pz. cbn [snd]. change (snd p) with (pz p). change (snd q) with (pz q). rewrite Hp, Hq. ring.
Qed.

(** ** Soundness of the slicer *)
Lemma tri_sound t z p q t' : intersectTriZPlane t z = Some (p, q, t') ->
  t' = t /\ pz p == z /\ pz q == z /\ on_edge t p /\ on_edge t q.
Proof.
  assert (Hs : forall v0 v1 r, intersectSegment v0 v1 z = Some r -> pz r == z /\ on_segment v0 v1 r).
  { intros v0 v1 r H. apply seg_inv in H as (H1 & H2 & H3). pose proof (steep_ne _ _ H1) as Hne. split.
    - apply qpt_eq_iff in H3 as (_ & _ & ->). apply cut_z, Hne.
    - symmetry in H3. eapply on_segment_ext; [reflexivity|reflexivity|exact H3|apply cut_on_segment; assumption]. }
  unfold intersectTriZPlane.
  destruct (intersectSegment (tv1 t) (tv2 t) z) as [a|] eqn:E1, (intersectSegment (tv2 t) (tv3 t) z) as [b|] eqn:E2,
    (intersectSegment (tv3 t) (tv1 t) z) as [c|] eqn:E3; intros H; try discriminate; injection H as <- <- <-;
    repeat match goal with H : intersectSegment _ _ _ = Some _ |- _ => apply Hs in H as [? ?] end;
    unfold on_edge; auto 10.
Qed.

(** ** Exactness *)

(** One vertex strictly on one side, the others on the other side or on the plane. *)
Lemma cut_alone A B C z a b c r :
  ~ pz A - z == 0 -> (pz A - z) * (pz B - z) <= 0 -> (pz A - z) * (pz C - z) <= 0 ->
  0 <= a -> 0 <= b -> 0 <= c -> a + b + c == 1 -> qpt_eq r (comb3 a b c A B C) -> pz r == z ->
  on_segment (cutpt A B z) (cutpt A C z) r.
Proof.
  intros HA HB HC Ha Hb Hc Hs Hr Hz.
  set (hA := pz A - z) in *. set (hB := pz B - z) in *. set (hC := pz C - z) in *.
  assert (Hsum : a * hA + b * hB + c * hC == 0).
  { apply qpt_eq_iff in Hr as (_ & _ & Hr). unfold comb3, pz in Hr. cbn [snd] in Hr.
    change (snd r) with (pz r) in Hr. change (snd A) with (pz A) in Hr. change (snd B) with (pz B) in Hr.
    change (snd C) with (pz C) in Hr. rewrite Hz in Hr. unfold hA, hB, hC.
    assert (Ea : a == 1 - b - c) by lra. rewrite Ea in *. lra. }
  assert (HAB : ~ hA - hB == 0) by (intros E; assert (Eb : hB == hA) by lra; rewrite Eb in HB; destruct (Q_dec hA 0) as [[?|?]|?]; nra || lra).
  assert (HAC : ~ hA - hC == 0) by (intros E; assert (Eb : hC == hA) by lra; rewrite Eb in HC; destruct (Q_dec hA 0) as [[?|?]|?]; nra || lra).
  set (iA := / hA). assert (HiA : iA * hA == 1) by (unfold iA; field; exact HA).
  assert (HBi : hB * iA <= 0).
  { assert (E : hB * iA == hA * hB * (iA * iA)).
    { setoid_replace (hA * hB * (iA * iA)) with ((iA * hA) * (hB * iA)) by ring. rewrite HiA. ring. }
    rewrite E. assert (0 <= iA * iA) by nra. nra. }
  assert (HCi : hC * iA <= 0).
  { assert (E : hC * iA == hA * hC * (iA * iA)).
    { setoid_replace (hA * hC * (iA * iA)) with ((iA * hA) * (hC * iA)) by ring. rewrite HiA. ring. }
    rewrite E. assert (0 <= iA * iA) by nra. nra. }
  set (s := c * (1 - hC * iA)).
  assert (Hs1 : 1 - s == b * (1 - hB * iA)).
  { unfold s. assert (E : a == - (b * hB + c * hC) * iA).
    { setoid_replace (- (b * hB + c * hC)) with (a * hA) by lra.
      setoid_replace (a * hA * iA) with (a * (iA * hA)) by ring. rewrite HiA. ring. }
    assert (Ea : 1 == a + b + c) by lra. rewrite Ea at 1. rewrite E. ring. }
  exists s. split.
  { split; [unfold s; nra|]. assert (0 <= 1 - s) by (rewrite Hs1; nra). lra. }
  assert (EB : (1 - s) * ((pz A - z) / (pz A - pz B)) == b).
  { rewrite Hs1. fold hA. setoid_replace (pz A - pz B) with (hA - hB) by (unfold hA, hB; ring).
    unfold iA. field. split; assumption. }
  assert (EC : s * ((pz A - z) / (pz A - pz C)) == c).
  { unfold s. fold hA. setoid_replace (pz A - pz C) with (hA - hC) by (unfold hA, hC; ring).
    unfold iA. field. split; assumption. }
  rewrite Hr. apply qpt_eq_iff. unfold cutpt.
  set (tB := (pz A - z) / (pz A - pz B)) in *. set (tC := (pz A - z) / (pz A - pz C)) in *.
  assert (Ea : a == 1 - (1 - s) * tB - s * tC) by (rewrite EB, EC; lra).
  clearbody tB tC s.
  unfold comb3, lerp, px, py, pz. cbn [fst snd]. rewrite Ea, <- EB, <- EC. repeat split; ring.
Qed.

(** One vertex on the plane, the two others strictly on the same side. *)
Lemma cut_touch A B C z a b c r :
  pz A - z == 0 -> 0 < (pz B - z) * (pz C - z) ->
  0 <= a -> 0 <= b -> 0 <= c -> a + b + c == 1 -> qpt_eq r (comb3 a b c A B C) -> pz r == z ->
  qpt_eq r A.
Proof.
  intros HA HBC Ha Hb Hc Hs Hr Hz.
  assert (Hsum : b * (pz B - z) + c * (pz C - z) == 0).
  { pose proof Hr as Hr'. apply qpt_eq_iff in Hr' as (_ & _ & Hr'). unfold comb3, pz in Hr'. cbn [snd] in Hr'.
    change (snd r) with (pz r) in Hr'. change (snd A) with (pz A) in Hr'. change (snd B) with (pz B) in Hr'.
    change (snd C) with (pz C) in Hr'. rewrite Hz in Hr'.
    assert (Ea : a == 1 - b - c) by lra. assert (EA : pz A == z) by lra. rewrite Ea, EA in Hr'. lra. }
  set (hB := pz B - z) in *. set (hC := pz C - z) in *.
  assert (Hpr : b * hB == 0 /\ c * hC == 0).
  { destruct (Q_dec hB 0) as [[Hl|Hg]|E]; [| |rewrite E in HBC; lra].
    - assert (hC < 0) by (destruct (Qlt_le_dec hC 0); [assumption|nra]). split; nra.
    - assert (0 < hC) by (destruct (Qlt_le_dec 0 hC); [assumption|nra]). split; nra. }
  destruct Hpr as [Hb1 Hc1].
  assert (Hb0 : b == 0) by (apply Qmult_integral in Hb1 as [E|E]; [exact E|rewrite E in HBC; lra]).
  assert (Hc0 : c == 0) by (apply Qmult_integral in Hc1 as [E|E]; [exact E|rewrite E in HBC; lra]).
  rewrite Hr. apply qpt_eq_iff. unfold comb3, px, py, pz. cbn [fst snd].
  assert (Ea : a == 1) by lra. rewrite Ea, Hb0, Hc0. repeat split; ring.
Qed.

(** The edges are steep or exactly horizontal. *)
Definition clean_edge (v0 v1 : qpt) : Prop := pz v0 == pz v1 \/ steep v0 v1.

Lemma seg_cases v0 v1 z : clean_edge v0 v1 ->
  (exists p, intersectSegment v0 v1 z = Some p /\ qpt_eq p (cutpt v0 v1 z) /\
     (pz v0 - z) * (pz v1 - z) <= 0 /\ ~ pz v0 - pz v1 == 0) \/
  (intersectSegment v0 v1 z = None /\ (0 < (pz v0 - z) * (pz v1 - z) \/ (pz v0 - z == 0 /\ pz v1 - z == 0))).
Proof.
  intros Hc. destruct (intersectSegment v0 v1 z) as [p|] eqn:E.
  - left. exists p. apply seg_inv in E as (H1 & H2 & H3). split; [reflexivity|]. split; [exact H3|].
    split; [|apply steep_ne, H1]. unfold straddles in H2. destruct H2; nra.
  - right. split; [reflexivity|]. apply seg_none in E. unfold straddles in E.
    destruct Hc as [Hf|Hst].
    + assert (E1 : pz v1 == pz v0) by lra. rewrite E1.
      destruct (Q_dec (pz v0 - z) 0) as [[?|?]|?]; [left; nra|left; nra|right; split; assumption].
    + destruct E as [E|E]; [contradiction|]. left.
      set (a := pz v0) in *. set (b := pz v1) in *.
      destruct (Qlt_le_dec 0 ((a - z) * (b - z))) as [H|H]; [exact H|]. exfalso. apply E.
      destruct (Qlt_le_dec a z), (Qlt_le_dec b z); [nra| |  |].
      * left. lra.
      * right. lra.
      * destruct (Q_dec (a - z) 0) as [[?|?]|?]; [lra| |left; lra].
        destruct (Q_dec (b - z) 0) as [[?|?]|?]; [lra|nra|right; lra].
Qed.

(** The middle vertex V2 lies on the plane and the other two strictly on opposite sides of it. *)
Definition middle_on_plane (t : tri) (z : Q) : Prop :=
  pz (tv2 t) == z /\ (pz (tv1 t) - z) * (pz (tv3 t) - z) < 0.

Definition coplanar (t : tri) (z : Q) : Prop :=
  pz (tv1 t) == z /\ pz (tv2 t) == z /\ pz (tv3 t) == z.

Definition clean (t : tri) : Prop :=
  clean_edge (tv1 t) (tv2 t) /\ clean_edge (tv2 t) (tv3 t) /\ clean_edge (tv3 t) (tv1 t).

Lemma on_segment_left p q r : qpt_eq r p -> on_segment p q r.
Proof.
  intros E. exists 0. split; [lra|]. rewrite E. apply qpt_eq_iff. unfold lerp, px, py, pz. cbn [fst snd].
  repeat split; ring.
Qed.

Lemma cut_here A B z : pz A - z == 0 -> qpt_eq (cutpt A B z) A.
Proof.
  intros H. unfold cutpt. rewrite (lerp_ext A B _ 0) by (unfold Qdiv; rewrite H; ring).
  apply qpt_eq_iff. unfold lerp, px, py, pz. cbn [fst snd]. repeat split; ring.
Qed.

Lemma comb3_rot a b c A B C : qpt_eq (comb3 a b c A B C) (comb3 b c a B C A).
Proof. apply qpt_eq_iff. unfold comb3, px, py, pz. cbn [fst snd]. repeat split; ring. Qed.
Lemma comb3_flip a b c A B C : qpt_eq (comb3 a b c A B C) (comb3 a c b A C B).
Proof. apply qpt_eq_iff. unfold comb3, px, py, pz. cbn [fst snd]. repeat split; ring. Qed.

Lemma pos_comb a b c h1 h2 h3 : 0 < h1 -> 0 < h2 -> 0 < h3 -> 0 <= a -> 0 <= b -> 0 <= c -> a + b + c == 1 ->
  0 < a * h1 + b * h2 + c * h3.
Proof.
  intros H1 H2 H3 Ha Hb Hc Hs.
  assert (0 <= a * h1) by nra. assert (0 <= b * h2) by nra. assert (0 <= c * h3) by nra.
  destruct (Qlt_le_dec 0 a); [assert (0 < a * h1) by nra; lra|].
  destruct (Qlt_le_dec 0 b); [assert (0 < b * h2) by nra; lra|].
  assert (0 < c * h3) by nra. lra.
Qed.

Theorem tri_exact t z : clean t -> ~ coplanar t z -> ~ middle_on_plane t z ->
  match intersectTriZPlane t z with
  | Some (p, q, _) => forall r, in_triangle t r /\ pz r == z <-> on_segment p q r
  | None => forall r, in_triangle t r -> ~ pz r == z
  end.
Proof.
  intros (C1 & C2 & C3) Hnc Hnm.
  destruct (intersectTriZPlane t z) as [[[p q] t']|] eqn:Et.
  - destruct (tri_sound _ _ _ _ _ Et) as (-> & Hp & Hq & Ep & Eq). intros r. split.
    2:{ intros Hr. split; [apply (segment_in_triangle t p q r Ep Eq Hr)|apply (segment_z p q r z Hp Hq Hr)]. }
    intros [(a & b & c & (Ha & Hb & Hc & Hs) & Hr) Hz]. unfold intersectTriZPlane in Et.
    destruct (seg_cases (tv1 t) (tv2 t) z C1) as [(p1 & E1 & P1 & S1 & N1)|[E1 S1]];
    destruct (seg_cases (tv2 t) (tv3 t) z C2) as [(p2 & E2 & P2 & S2 & N2)|[E2 S2]];
    destruct (seg_cases (tv3 t) (tv1 t) z C3) as [(p3 & E3 & P3 & S3 & N3)|[E3 S3]];
    rewrite E1, E2 in Et; try rewrite E3 in Et; try discriminate Et; injection Et as <- <-.
    + destruct (Q_dec (pz (tv2 t) - z) 0) as [HH|H0].
      * assert (H2 : ~ pz (tv2 t) - z == 0) by (destruct HH; lra).
        apply on_segment_ext with (cutpt (tv2 t) (tv1 t) z) (cutpt (tv2 t) (tv3 t) z) r; [rewrite P1; apply cut_sym; lra|symmetry; exact P2|reflexivity|].
        apply cut_alone with b a c; try assumption; [nra|lra|]. rewrite Hr. rewrite comb3_rot. apply comb3_flip.
      * apply on_segment_left. rewrite P1, cut_sym, cut_here by assumption.
        apply (cut_touch (tv2 t) (tv3 t) (tv1 t) z b c a r); try assumption; [|lra|rewrite Hr; apply comb3_rot].
        destruct (Qlt_le_dec 0 ((pz (tv3 t) - z) * (pz (tv1 t) - z))) as [H|H]; [exact H|]. exfalso.
        apply Hnm. split; [lra|]. destruct (Q_dec (pz (tv1 t) - z) 0) as [[?|?]|?]; [| |lra];
          (destruct (Q_dec (pz (tv3 t) - z) 0) as [[?|?]|?]; [| |lra]); nra.
    + (* same as the first: V1V2 and V2V3 *)
      destruct (Q_dec (pz (tv2 t) - z) 0) as [HH|H0].
      * assert (H2 : ~ pz (tv2 t) - z == 0) by (destruct HH; lra).
        apply on_segment_ext with (cutpt (tv2 t) (tv1 t) z) (cutpt (tv2 t) (tv3 t) z) r; [rewrite P1; apply cut_sym; lra|symmetry; exact P2|reflexivity|].
        apply cut_alone with b a c; try assumption; [nra|lra|]. rewrite Hr. rewrite comb3_rot. apply comb3_flip.
      * apply on_segment_left. rewrite P1, cut_sym, cut_here by assumption.
        apply (cut_touch (tv2 t) (tv3 t) (tv1 t) z b c a r); try assumption; [|lra|rewrite Hr; apply comb3_rot].
        destruct (Qlt_le_dec 0 ((pz (tv3 t) - z) * (pz (tv1 t) - z))) as [H|H]; [exact H|]. exfalso.
        apply Hnm. split; [lra|]. destruct (Q_dec (pz (tv1 t) - z) 0) as [[?|?]|?]; [| |lra];
          (destruct (Q_dec (pz (tv3 t) - z) 0) as [[?|?]|?]; [| |lra]); nra.
    + destruct (Q_dec (pz (tv1 t) - z) 0) as [HH|H0].
      * assert (H2 : ~ pz (tv1 t) - z == 0) by (destruct HH; lra).
        apply on_segment_ext with (cutpt (tv1 t) (tv2 t) z) (cutpt (tv1 t) (tv3 t) z) r; [symmetry; exact P1|rewrite P3; apply cut_sym; lra|reflexivity|].
        apply cut_alone with a b c; try assumption. nra.
      * apply on_segment_left. rewrite P1, cut_here by assumption.
        apply (cut_touch (tv1 t) (tv2 t) (tv3 t) z a b c r); try assumption.
        destruct S2 as [S2|[S2 S2']]; [exact S2|lra].
    + destruct (Q_dec (pz (tv3 t) - z) 0) as [HH|H0].
      * assert (H2 : ~ pz (tv3 t) - z == 0) by (destruct HH; lra).
        apply on_segment_sym.
        apply on_segment_ext with (cutpt (tv3 t) (tv1 t) z) (cutpt (tv3 t) (tv2 t) z) r; [symmetry; exact P3|rewrite P2; apply cut_sym; lra|reflexivity|].
        apply cut_alone with c a b; try assumption; [nra|lra|]. rewrite Hr. rewrite comb3_rot. apply comb3_rot.
      * apply on_segment_left. rewrite P2, cut_sym, cut_here by assumption.
        apply (cut_touch (tv3 t) (tv1 t) (tv2 t) z c a b r); try assumption; [|lra|rewrite Hr; rewrite comb3_rot; apply comb3_rot].
        destruct S1 as [S1|[S1 S1']]; [exact S1|lra].
  - unfold intersectTriZPlane in Et.
    assert (Hall : 0 < (pz (tv1 t) - z) * (pz (tv2 t) - z) /\ 0 < (pz (tv2 t) - z) * (pz (tv3 t) - z)).
    { set (h1 := pz (tv1 t) - z) in *. set (h2 := pz (tv2 t) - z) in *. set (h3 := pz (tv3 t) - z) in *.
      destruct (seg_cases (tv1 t) (tv2 t) z C1) as [(p1 & E1 & P1 & S1 & N1)|[E1 S1]];
      destruct (seg_cases (tv2 t) (tv3 t) z C2) as [(p2 & E2 & P2 & S2 & N2)|[E2 S2]];
      destruct (seg_cases (tv3 t) (tv1 t) z C3) as [(p3 & E3 & P3 & S3 & N3)|[E3 S3]];
      rewrite E1, E2 in Et; try rewrite E3 in Et; try discriminate Et.
      - exfalso. fold h1 h2 h3 in S1, S2, S3. assert (N1' : ~ h1 - h2 == 0) by (unfold h1, h2; lra).
        destruct S2 as [S2|[S2 S2']], S3 as [S3|[S3 S3']]; try (rewrite ?S2, ?S2', ?S3, ?S3' in *; lra).
        assert (0 < (h2 * h3) * (h3 * h1)) by nra. nra.
      - exfalso. fold h1 h2 h3 in S1, S2, S3. assert (N1' : ~ h2 - h3 == 0) by (unfold h3, h2; lra).
        destruct S1 as [S1|[S1 S1']], S3 as [S3|[S3 S3']]; try (rewrite ?S1, ?S1', ?S3, ?S3' in *; lra).
        assert (0 < (h1 * h2) * (h3 * h1)) by nra. nra.
      - exfalso. fold h1 h2 h3 in S1, S2, S3. assert (N1' : ~ h3 - h1 == 0) by (unfold h3, h1; lra).
        destruct S1 as [S1|[S1 S1']], S2 as [S2|[S2 S2']]; try (rewrite ?S1, ?S1', ?S2, ?S2' in *; lra).
        assert (0 < (h1 * h2) * (h2 * h3)) by nra. nra.
      - fold h1 h2 h3 in S1, S2, S3. destruct S1 as [S1|[S1 S1']], S2 as [S2|[S2 S2']].
        + split; assumption.
        + exfalso. rewrite S2 in S1. lra.
        + exfalso. rewrite S1' in S2. lra.
        + exfalso. apply Hnc. unfold coplanar. unfold h1, h2, h3 in *. lra. }
    destruct Hall as [H12 H23]. intros r (a & b & c & (Ha & Hb & Hc & Hs) & Hr) Hz.
    apply qpt_eq_iff in Hr as (_ & _ & Hr). unfold comb3, pz in Hr. cbn [snd] in Hr.
    change (snd r) with (pz r) in Hr. change (snd (tv1 t)) with (pz (tv1 t)) in Hr.
    change (snd (tv2 t)) with (pz (tv2 t)) in Hr. change (snd (tv3 t)) with (pz (tv3 t)) in Hr.
    set (h1 := pz (tv1 t) - z) in *. set (h2 := pz (tv2 t) - z) in *. set (h3 := pz (tv3 t) - z) in *.
    assert (Hsum : a * h1 + b * h2 + c * h3 == 0).
    { unfold h1, h2, h3. assert (Ea : a == 1 - b - c) by lra. rewrite Ea in *. lra. }
    destruct (Q_dec h2 0) as [[Hl|Hg]|E]; [| |rewrite E in H12; lra].
    + assert (h1 < 0) by (destruct (Qlt_le_dec h1 0); [assumption|nra]).
      assert (h3 < 0) by (destruct (Qlt_le_dec h3 0); [assumption|nra]).
      pose proof (pos_comb a b c (- h1) (- h2) (- h3)). lra.
    + assert (0 < h1) by (destruct (Qlt_le_dec 0 h1); [assumption|nra]).
      assert (0 < h3) by (destruct (Qlt_le_dec 0 h3); [assumption|nra]).
      pose proof (pos_comb a b c h1 h2 h3). lra.
Qed.

Theorem tri_middle t z : clean t -> middle_on_plane t z ->
  exists p q, intersectTriZPlane t z = Some (p, q, t) /\ qpt_eq p (tv2 t) /\ qpt_eq q (tv2 t).
Proof.
  intros (C1 & C2 & _) [H2 H13]. unfold intersectTriZPlane.
  assert (E0 : pz (tv2 t) - z == 0) by lra.
  assert (H1 : ~ pz (tv1 t) - z == 0) by (intros E; rewrite E in H13; lra).
  assert (H3 : ~ pz (tv3 t) - z == 0) by (intros E; rewrite E in H13; lra).
  destruct (seg_cases (tv1 t) (tv2 t) z C1) as [(p1 & E1 & P1 & S1 & N1)|[_ [S1|[S1 _]]]]; [|rewrite E0 in S1; lra|contradiction].
  destruct (seg_cases (tv2 t) (tv3 t) z C2) as [(p2 & E2 & P2 & S2 & N2)|[_ [S2|[_ S2]]]]; [|rewrite E0 in S2; lra|contradiction].
  rewrite E1, E2. exists p1, p2. split; [reflexivity|]. split.
  - rewrite P1, cut_sym, cut_here by assumption. reflexivity.
  - rewrite P2, cut_here by assumption. reflexivity.
Qed.

Theorem tri_coplanar t z : coplanar t z -> intersectTriZPlane t z = None.
Proof.
  intros (H1 & H2 & H3).
  assert (Hf : forall v0 v1, pz v0 == z -> pz v1 == z -> intersectSegment v0 v1 z = None).
  { intros v0 v1 E0 E1. destruct (intersectSegment v0 v1 z) eqn:E; [|reflexivity].
    apply seg_inv in E as (Hs & _). apply steep_ne in Hs. lra. }
  unfold intersectTriZPlane. rewrite !Hf by assumption. reflexivity.
Qed.
