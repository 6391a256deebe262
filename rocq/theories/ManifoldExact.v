(** ManifoldMesh: exactly which models give a watertight mesh. *)
From Verif Require Import Base BaseLemmas BinvoxModel Geom VoxelizeModel VoxelizeSpec MeshSpec MeshCells MeshPush MarchModel MarchProofs MarchProps
  ManifoldXform ManifoldTables ManifoldModel ManifoldProofs ManifoldSurface MeshLeak ManifoldProps.
From Coq Require Import ZArith QArith List Lia Lqa Bool Permutation.
From stdpp Require Import base list gmap sets fin_sets.
Import ListNotations.
Open Scope Z_scope.

(** Patterns that always leak, and patterns whose patch crosses the face at x+1, respectively the face at
    x, along the other diagonal than all the other patterns do. *)
Definition torn_patterns : list Z :=
  [21; 22; 23; 26; 30; 37; 41; 42; 43; 45; 53; 58; 61; 69; 73; 74; 75; 81; 82; 83; 84; 85; 86; 87; 88; 89; 90; 91;
   92; 93; 94; 95; 97; 101; 104; 105; 106; 107; 109; 117; 120; 121; 123; 125; 133; 134; 135; 138; 142; 146; 148; 149;
   150; 151; 154; 158; 161; 162; 163; 164; 165; 166; 167; 168; 169; 170; 171; 172; 173; 174; 175; 182; 183; 186; 190;
   194; 197; 202; 210; 212; 213; 215; 218; 225; 229; 232; 234; 235].
Definition crossed_after : list Z := [60; 188; 203; 211].
Definition crossed_before : list Z := [56; 60; 62; 124; 227].

Definition inb (l : list Z) (n : Z) : bool := existsb (Z.eqb n) l.
Lemma inb_iff l n : inb l n = true <-> In n l.
Proof.
  unfold inb. rewrite existsb_exists. split.
  - intros (x & Hx & E). apply Z.eqb_eq in E as ->. exact Hx.
  - intros H. exists n. split; [exact H|apply Z.eqb_refl].
Qed.

(** ** Closed if the contributions match *)
Section Mesh.
  Context (tab : Z -> list zedge) (Gx Hx : Z -> list zedge) (Fy Fz : Z -> list zedge).
  Context (Gx0 : Gx 0 = []) (Hx0 : Hx 0 = []) (Fy0 : Fy 0 = []) (Fz0 : Fz 0 = []).

  Definition cell_ok' (n : Z) : bool :=
    closedb (tab n ++
      map swap_edge (Gx n) ++ map (shift_edge (-2,0,0)) (Hx n) ++
      map swap_edge (Fy (fyp n)) ++ map (shift_edge (0,-2,0)) (Fy (fym n)) ++
      map swap_edge (Fz (fzp n)) ++ map (shift_edge (0,0,-2)) (Fz (fzm n))).

  Context (fill : key -> bool) (K : list key).
  Context (HGH : forall k, Hx (pat fill k) = Gx (pat fill (ksub k (1,0,0)))).

  Let contrib (F : Z -> list zedge) (fp : Z -> Z) (e : zedge) (k : key) : Z :=
    net (F (fp (pat fill k))) (shift_edge (ksub (0,0,0) (kdouble k)) e).

  Lemma cells_closed' :
    List.NoDup K -> (forall k, pat fill k <> 0 -> In k K) ->
    (forall k, In k K -> cell_ok' (pat fill k) = true) ->
    forall e, net (flat_map (fun k => map (shift_edge (kdouble k)) (tab (pat fill k))) K) e = 0.
  Proof.
    intros HK Hall Hok e.
    assert (Hsum : net (flat_map (fun k => map (shift_edge (kdouble k)) (tab (pat fill k))) K) e =
      zsum (fun k => net (tab (pat fill k)) (shift_edge (ksub (0,0,0) (kdouble k)) e)) K).
    { clear. induction K as [|k K' IH]; [reflexivity|]. cbn. rewrite net_app, IH, net_shift. reflexivity. }
    rewrite Hsum. clear Hsum.
    rewrite (zsum_ext _ (fun k =>
       (contrib Gx id e k + - contrib Gx id e (ksub k (1,0,0))) +
       ((contrib Fy fyp e k + - contrib Fy fyp e (ksub k (0,1,0))) +
        (contrib Fz fzp e k + - contrib Fz fzp e (ksub k (0,0,1)))))).
    2:{ intros k Hk. specialize (Hok k Hk). unfold cell_ok' in Hok.
        pose proof (closedb_sound _ Hok (shift_edge (ksub (0,0,0) (kdouble k)) e)) as H.
        rewrite !net_app, !net_swap, !net_shift in H.
        rewrite (HGH k), (face_y fill k), (face_z fill k) in H.
        assert (Hs : forall d, shift_edge (ksub (0,0,0) (kdouble (ksub k d))) e =
                  shift_edge (ksub (0,0,0) (ksub (0,0,0) (kdouble d))) (shift_edge (ksub (0,0,0) (kdouble k)) e)).
        { intros [[d1 d2] d3]. destruct e as [[[? ?] ?] [[? ?] ?]], k as [[? ?] ?].
          unfold shift_edge, kadd, ksub, kdouble, kx, ky, kz. cbn. apply pair_equal_spec; split; keyeq. }
        unfold contrib, id. rewrite !Hs.
        change (ksub (0,0,0) (kdouble (1,0,0))) with (-2,0,0).
        change (ksub (0,0,0) (kdouble (0,1,0))) with (0,-2,0).
        change (ksub (0,0,0) (kdouble (0,0,1))) with (0,0,-2). lia. }
    assert (Hadd : forall k d, ksub (kadd k d) d = k) by (intros [[? ?] ?] [[? ?] ?]; unfold ksub, kadd, kx, ky, kz; cbn; repeat f_equal; lia).
    assert (Hzero : forall F fp d,
      (forall k, pat fill k = 0 -> F (fp (pat fill k)) = []) ->
      (forall k, pat fill (kadd k d) = 0 -> F (fp (pat fill k)) = []) ->
      zsum (fun k => contrib F fp e (ksub k d)) K = zsum (contrib F fp e) K).
    { intros F fp d H1 H2. apply zsum_shift; [exact HK|]. intros k Hk.
      assert (Hne : F (fp (pat fill k)) <> []).
      { intros E. apply Hk. unfold contrib. rewrite E. reflexivity. }
      split; apply Hall; intros E; apply Hne; auto. }
    rewrite !zsum_add, !zsum_opp.
    rewrite (Hzero Gx id (1,0,0)), (Hzero Fy fyp (0,1,0)), (Hzero Fz fzp (0,0,1)); [lia|..]; unfold id; intros k E.
    - rewrite E. exact Fz0.
    - rewrite <- (Hadd k (0,0,1)), <- face_z, E. exact Fz0.
    - rewrite E. exact Fy0.
    - rewrite <- (Hadd k (0,1,0)), <- face_y, E. exact Fy0.
    - rewrite E. exact Gx0.
    - rewrite <- (Hadd k (1,0,0)), <- HGH, E. exact Hx0.
  Qed.
End Mesh.

Definition mf_alt (f : Z) : list zedge :=
  match f with
  | 6 => [((1,-1,0), (1,0,-1)); ((1,1,0), (1,0,1))]
  | 9 => [((1,0,1), (1,-1,0)); ((1,0,-1), (1,1,0))]
  | _ => []
  end.
Definition mf_Gx (n : Z) : list zedge := if inb crossed_after n then mf_alt (fxp n) else mf_Fx (fxp n).
Definition mf_Hx (n : Z) : list zedge := if inb crossed_before n then mf_alt (fxm n) else mf_Fx (fxm n).

Definition all_patterns : list Z := map Z.of_nat (seq 0 256).

Lemma ok_unless_torn : forallb (fun n => cell_ok' mf_tab mf_Gx mf_Hx mf_Fy mf_Fz n || inb torn_patterns n) all_patterns = true.
Proof. vm_compute. reflexivity. Qed.

Definition matching (fill : key -> bool) : Prop :=
  (forall k, ~ In (pat fill k) torn_patterns) /\
  (forall k, In (pat fill (ksub k (1,0,0))) crossed_after <-> In (pat fill k) crossed_before).

Lemma matching_watertight b m : manifold_run b m -> matching (fillb b) -> watertight m.
Proof.
  intros (whites & cols & order & Hw & Hc & Ho & ->) [Ht Hm].
  destruct (manifold_order b whites cols order Hw Hc Ho) as (Eo & Hnd & Hin).
  set (K := map fst order) in *. clearbody K. subst order.
  pose proof (ManifoldMesh_faces b (map (fun k => (k, pat (fillb b) k)) K)) as Hf.
  apply mesh_edges_ext in Hf. rewrite mesh_edges_push, mf_edges_flat in Hf.
  destruct (cut_pieces b _ _ Hf) as (pieces & Hcut & Hp). exists pieces. split; [exact Hcut|].
  eapply closed_edges_ext; [exact Hp|]. apply closed_push. rewrite mf_cut_flat.
  apply (cells_closed' mf_tab mf_Gx mf_Hx mf_Fy mf_Fz eq_refl eq_refl eq_refl eq_refl); [|exact Hnd|intros k; apply Hin|].
  - intros k. unfold mf_Hx, mf_Gx. rewrite face_x. specialize (Hm k). rewrite <- !inb_iff in Hm. apply eq_true_iff_eq in Hm. rewrite Hm. reflexivity.
  - intros k _. pose proof ok_unless_torn as G. rewrite forallb_forall in G. specialize (G _ (pat_range (fillb b) k)).
    apply orb_true_iff in G as [G|G]; [exact G|]. apply inb_iff in G. destruct (Ht k G).
Qed.

(** ** Watertight only if the contributions match *)

(** How often an edge passes the point [x] in direction [d] along the line through [x]. *)
Definition on_line (x d p : qpt) : bool := parallelq (qsub p x) d.
Definition past (x d p : qpt) : Q := if Qle_bool 0 (qdot (qsub p x) d) then 1%Q else 0%Q.
Definition pass_form (x d : qpt) (e : qedge) : Q :=
  let '(a, b) := e in if on_line x d a && on_line x d b then (past x d b - past x d a)%Q else 0%Q.

Lemma on_line_ext x d p q : qpt_eq p q -> on_line x d p = on_line x d q.
Proof. intros H. apply parallelq_ext, qsub_ext; [exact H|reflexivity]. Qed.
Lemma past_ext x d p q : qpt_eq p q -> past x d p = past x d q.
Proof.
  intros H. unfold past. assert (E : (qdot (qsub p x) d == qdot (qsub q x) d)%Q) by (apply qdot_ext, qsub_ext; [exact H|reflexivity]).
  destruct (Qle_bool 0 (qdot (qsub p x) d)) eqn:E1, (Qle_bool 0 (qdot (qsub q x) d)) eqn:E2; try reflexivity.
  - apply Qle_bool_iff in E1. rewrite E in E1. apply Qle_bool_iff in E1. congruence.
  - apply Qle_bool_iff in E2. rewrite <- E in E2. apply Qle_bool_iff in E2. congruence.
Qed.

Lemma on_line_iff x d p : on_line x d p = true <->
  ((px p - px x) * py d == (py p - py x) * px d /\ (py p - py x) * pz d == (pz p - pz x) * py d /\
   (pz p - pz x) * px d == (px p - px x) * pz d)%Q.
Proof. unfold on_line. rewrite parallelq_iff. unfold qsub. unfold px at 1 3 5 7, py at 1 3 5 7, pz at 1 3 5 7. cbn [fst snd]. reflexivity. Qed.

Lemma lerp_coords a b t m : qpt_eq m (lerp a b t) ->
  (px m == px a + (px b - px a) * t /\ py m == py a + (py b - py a) * t /\ pz m == pz a + (pz b - pz a) * t)%Q.
Proof.
  intros H. rewrite <- (proj2 affine_px), <- (proj2 affine_py), <- (proj2 affine_pz).
  split; [apply (proj1 affine_px), H|split; [apply (proj1 affine_py), H|apply (proj1 affine_pz), H]].
Qed.
Lemma coords_lerp a b t m :
  (px m == px a + (px b - px a) * t /\ py m == py a + (py b - py a) * t /\ pz m == pz a + (pz b - pz a) * t)%Q -> qpt_eq m (lerp a b t).
Proof.
  intros H. apply qpt_eq_coords. rewrite (proj2 affine_px), (proj2 affine_py), (proj2 affine_pz). exact H.
Qed.

Lemma lin0 (u v du dv a b m n x y t : Q) : ((a - x) * dv == (b - y) * du)%Q -> ((u - x) * dv == (v - y) * du)%Q ->
  (m == a + (u - a) * t)%Q -> (n == b + (v - b) * t)%Q -> ((m - x) * dv == (n - y) * du)%Q.
Proof.
  intros H1 H2 -> ->.
  transitivity ((a - x) * dv + ((u - x) * dv - (a - x) * dv) * t)%Q; [ring|]. rewrite H1, H2. ring.
Qed.

Lemma on_line_lerp x d a b t m : qpt_eq m (lerp a b t) -> on_line x d a = true -> on_line x d b = true -> on_line x d m = true.
Proof.
  intros Hm. rewrite !on_line_iff. apply lerp_coords in Hm as (M1 & M2 & M3).
  intros (A1 & A2 & A3) (B1 & B2 & B3). split; [|split].
  - eapply lin0; [exact A1|exact B1|exact M1|exact M2].
  - eapply lin0; [exact A2|exact B2|exact M2|exact M3].
  - eapply lin0; [exact A3|exact B3|exact M3|exact M1].
Qed.

Lemma lerp_back a b t m : ~ (t == 0)%Q -> qpt_eq m (lerp a b t) -> qpt_eq b (lerp a m (/ t)).
Proof.
  intros Ht H. apply lerp_coords in H as (H1 & H2 & H3). apply coords_lerp. rewrite H1, H2, H3.
  split; [|split]; field; exact Ht.
Qed.
Lemma lerp_flip a b t m : qpt_eq m (lerp a b t) -> qpt_eq m (lerp b a (1 - t)).
Proof. intros H. apply lerp_coords in H as (H1 & H2 & H3). apply coords_lerp. rewrite H1, H2, H3. split; [|split]; ring. Qed.
Lemma lerp_start a b t m : (t == 0)%Q -> qpt_eq m (lerp a b t) -> qpt_eq m a.
Proof. intros Ht H. apply lerp_coords in H as (H1 & H2 & H3). apply qpt_eq_coords. rewrite H1, H2, H3, Ht. split; [|split]; ring. Qed.

Lemma pass_form_edge_form x d : edge_form (pass_form x d).
Proof.
  split.
  - intros [a b] [a' b'] [H1 H2]. cbn [fst snd] in *. unfold pass_form.
    rewrite (on_line_ext x d a a'), (on_line_ext x d b b'), (past_ext x d a a'), (past_ext x d b b') by assumption. reflexivity.
  - intros [a b]. unfold swapq, pass_form. cbn [fst snd]. rewrite (andb_comm (on_line x d b)).
    destruct (on_line x d a && on_line x d b); ring.
  - intros a b m (t & Ht & Hm). unfold pass_form.
    destruct (on_line x d a) eqn:Ea, (on_line x d b) eqn:Eb; cbn [andb].
    + rewrite (on_line_lerp x d a b t m Hm Ea Eb). cbn [andb]. ring.
    + destruct (on_line x d m) eqn:Em; cbn [andb]; [|ring].
      destruct (Qeq_dec t 0) as [E|E].
      * rewrite (past_ext x d m a) by (eapply lerp_start; eassumption). ring.
      * rewrite (on_line_lerp x d a m (/ t) b (lerp_back _ _ _ _ E Hm) Ea Em) in Eb. discriminate.
    + destruct (on_line x d m) eqn:Em; cbn [andb]; [|ring].
      apply lerp_flip in Hm. destruct (Qeq_dec (1 - t) 0) as [E|E].
      * rewrite (past_ext x d m b) by (eapply lerp_start; eassumption). ring.
      * rewrite (on_line_lerp x d b m (/ (1 - t)) a (lerp_back _ _ _ _ E Hm) Eb Em) in Ea. discriminate.
    + destruct (on_line x d m); cbn [andb]; ring.
Qed.

(** The same quantity for integer points; the line passes through [c]/2. *)
Definition zrel (c p : key) : key := ksub (kdouble p) c.
Definition zpast (c d p : key) : Z := if 0 <=? zdot (zrel c p) d then 1 else 0.
Definition zpass (c d : key) (e : zedge) : Z :=
  let '(a, b) := e in
  if zparallel (zrel c a) d && zparallel (zrel c b) d then zpast c d b - zpast c d a else 0.

(** The point [c]/2 in the mesh's coordinates. *)
Definition half_pos (b : binvox Q) (c : key) : qpt :=
  let s := (1 / vpmm b)%Q in
  ((inject_Z (kx c + 4) * (1 # 4) * s + TX b)%Q, (inject_Z (ky c) * (1 # 4) * s + TY b)%Q,
   (inject_Z (kz c + 4) * (1 # 4) * s + TZ b)%Q).

Lemma half_rel b c p : qpt_eq (qsub (mf_pos b p) (half_pos b c)) (qscale ((1 # 4) * (1 / vpmm b)) (zpt (zrel c p))).
Proof.
  apply qpt_eq_coords. destruct c as [[c1 c2] c3], p as [[p1 p2] p3].
  unfold qsub, qscale, mf_pos, half_pos, zpt, zrel, ksub, kdouble, kx, ky, kz, px, py, pz. cbn [fst snd].
  generalize (1 / vpmm b)%Q. intros s. unfold Z.sub. rewrite !inject_Z_plus, !inject_Z_opp, !inject_Z_mult.
  change (inject_Z 2) with 2%Q. change (inject_Z 4) with 4%Q. split; [ring|split; ring].
Qed.

Lemma parallelq_zpt u d : parallelq (zpt u) (zpt d) = zparallel u d.
Proof.
  apply eq_true_iff_eq. rewrite parallelq_iff. unfold zparallel. rewrite !andb_true_iff, !Z.eqb_eq.
  unfold zpt. unfold px, py, pz. cbn [fst snd]. rewrite <- !inject_Z_mult, !inject_Z_injective. tauto.
Qed.
Lemma qdot_zpt u d : (qdot (zpt u) (zpt d) == inject_Z (zdot u d))%Q.
Proof. unfold qdot, zdot, zpt, px, py, pz. cbn [fst snd]. rewrite !inject_Z_plus, !inject_Z_mult. reflexivity. Qed.

Lemma pass_form_zpt b c d e : (0 < vpmm b)%Q ->
  (pass_form (half_pos b c) (zpt d) (push (mf_pos b) e) == inject_Z (zpass c d e))%Q.
Proof.
  intros Hs. destruct e as [p q]. unfold push, pass_form, zpass. cbn [fst snd].
  assert (Hsc : (0 < (1 # 4) * (1 / vpmm b))%Q).
  { apply Qmult_lt_0_compat; [reflexivity|]. apply Qlt_shift_div_l; [exact Hs|]. rewrite Qmult_0_l. reflexivity. }
  assert (L : forall p, on_line (half_pos b c) (zpt d) (mf_pos b p) = zparallel (zrel c p) d).
  { intros r. unfold on_line. rewrite (parallelq_ext _ _ _ (half_rel b c r)), parallelq_scale, parallelq_zpt; [reflexivity|].
    intros E. rewrite E in Hsc. discriminate Hsc. }
  assert (P : forall p, past (half_pos b c) (zpt d) (mf_pos b p) = inject_Z (zpast c d p)).
  { intros r. unfold past, zpast.
    assert (E : (qdot (qsub (mf_pos b r) (half_pos b c)) (zpt d) == (1 # 4) * (1 / vpmm b) * inject_Z (zdot (zrel c r) d))%Q).
    { rewrite (qdot_ext _ _ _ (half_rel b c r)), qdot_scale, qdot_zpt. reflexivity. }
    assert (G : Qle_bool 0 (qdot (qsub (mf_pos b r) (half_pos b c)) (zpt d)) = (0 <=? zdot (zrel c r) d)).
    { apply eq_true_iff_eq. rewrite Qle_bool_iff, E, Z.leb_le, Zle_Qle. change (inject_Z 0) with 0%Q.
      rewrite <- (Qmult_le_l 0 (inject_Z (zdot (zrel c r) d)) _ Hsc), Qmult_0_r. reflexivity. }
    rewrite G. destruct (0 <=? zdot (zrel c r) d); reflexivity. }
  rewrite !L, !P. destruct (zparallel (zrel c p) d && zparallel (zrel c q) d); [|reflexivity].
  unfold Z.sub. rewrite inject_Z_plus, inject_Z_opp. reflexivity.
Qed.

(** All passings at a point of a watertight mesh cancel. *)
Definition passes (c d : key) (n : Z) : Z := zsum (zpass c d) (mf_edges n).

Definition kquad (k : key) : key := kdouble (kdouble k).

Lemma zpass_shift c d k e : zpass c d (shift_edge (kdouble k) e) = zpass (ksub c (kquad k)) d e.
Proof.
  destruct e as [p q]. unfold zpass, shift_edge, zpast. cbn [fst snd].
  assert (E : forall p, zrel c (kadd (kdouble k) p) = zrel (ksub c (kquad k)) p).
  { intros [[p1 p2] p3]. destruct c as [[c1 c2] c3], k as [[k1 k2] k3]. unfold zrel, kquad, kdouble, kadd, ksub, kx, ky, kz. cbn [fst snd]. keyeq. }
  rewrite !E. reflexivity.
Qed.

Lemma watertight_passes b m K : (0 < vpmm b)%Q -> watertight m ->
  Forall2 edge_eq (mesh_edges m) (map (push (mf_pos b)) (flat_map (fun k => map (shift_edge (kdouble k)) (mf_edges (pat (fillb b) k))) K)) ->
  forall c d, zsum (fun k => passes (ksub c (kquad k)) d (pat (fillb b) k)) K = 0.
Proof.
  intros Hs Hw Hm c d. apply (watertight_qsum _ _ (pass_form_edge_form (half_pos b c) (zpt d))) in Hw.
  rewrite (qsum_ext _ _ _ (pass_form_edge_form _ _) Hm) in Hw. clear Hm. apply inject_Z_injective. rewrite <- Hw. clear Hw.
  transitivity (inject_Z (zsum (zpass c d) (flat_map (fun k => map (shift_edge (kdouble k)) (mf_edges (pat (fillb b) k))) K))).
  - apply inject_Z_injective. induction K as [|k K IH]; [reflexivity|]. cbn [zsum flat_map]. rewrite zsum_app, <- IH. f_equal.
    unfold passes. rewrite zsum_map. apply zsum_ext. intros e _. symmetry. apply zpass_shift.
  - generalize (flat_map (fun k => map (shift_edge (kdouble k)) (mf_edges (pat (fillb b) k))) K). intros es.
    induction es as [|e es IH]; [reflexivity|]. cbn [zsum map qsum]. rewrite inject_Z_plus, IH, pass_form_zpt by exact Hs. reflexivity.
Qed.

(** Nothing passes a point outside the cell. *)
Lemma dot_sign u1 u2 u3 d1 d2 d3 : u1 * d2 = u2 * d1 -> u3 * d1 = u1 * d3 -> u1 <> 0 ->
  (0 <= u1 * d1 + u2 * d2 + u3 * d3 <-> 0 <= u1 * d1).
Proof.
  intros H1 H2 H3.
  assert (E : (u1 * u1) * (u1 * d1 + u2 * d2 + u3 * d3) = (u1 * d1) * (u1 * u1 + u2 * u2 + u3 * u3)).
  { transitivity (u1 * (u1 * u1 * d1 + u2 * (u1 * d2) + u3 * (u1 * d3))); [ring|]. rewrite H1, <- H2. ring. }
  assert (P1 : 0 < u1 * u1) by nia. assert (P2 : 0 < u1 * u1 + u2 * u2 + u3 * u3) by nia.
  clear -E P1 P2. revert E P1 P2.
  generalize (u1 * d1 + u2 * d2 + u3 * d3), (u1 * d1), (u1 * u1 + u2 * u2 + u3 * u3), (u1 * u1). intros A B q p E P1 P2. nia.
Qed.

Definition in_cell (p : key) : Prop := Z.abs (kx p) <= 1 /\ Z.abs (ky p) <= 1 /\ Z.abs (kz p) <= 1.
Definition outside_cell (c : key) : Prop := 2 < Z.abs (kx c) \/ 2 < Z.abs (ky c) \/ 2 < Z.abs (kz c).

Lemma zpass_outside c d p q : in_cell p -> in_cell q -> outside_cell c -> zpass c d (p, q) = 0.
Proof.
  intros Hp Hq Hc. unfold zpass. destruct (zparallel (zrel c p) d) eqn:Ep, (zparallel (zrel c q) d) eqn:Eq'; try reflexivity. cbn [andb].
  assert (E : 0 <= zdot (zrel c p) d <-> 0 <= zdot (zrel c q) d).
  { destruct c as [[c1 c2] c3], d as [[d1 d2] d3], p as [[p1 p2] p3], q as [[q1 q2] q3].
    unfold zparallel in Ep, Eq'. rewrite !andb_true_iff, !Z.eqb_eq in Ep, Eq'.
    unfold in_cell, outside_cell in *. unfold zdot, zrel, ksub, kdouble, kx, ky, kz in *. cbn [fst snd] in *.
    destruct Ep as ((P1 & P2) & P3), Eq' as ((Q1 & Q2) & Q3).
    destruct Hc as [Hc|[Hc|Hc]].
    - rewrite (dot_sign _ _ _ _ _ _ P1 P3), (dot_sign _ _ _ _ _ _ Q1 Q3) by lia. nia.
    - rewrite (Z.add_comm ((2 * p1 - c1) * d1)), (Z.add_comm ((2 * q1 - c1) * d1)).
      rewrite (dot_sign (2 * p2 - c2) (2 * p1 - c1) (2 * p3 - c3) d2 d1 d3), (dot_sign (2 * q2 - c2) (2 * q1 - c1) (2 * q3 - c3) d2 d1 d3) by lia. nia.
    - rewrite <- !(Z.add_comm ((2 * p3 - c3) * d3)), <- !(Z.add_comm ((2 * q3 - c3) * d3)), !Z.add_assoc.
      rewrite (dot_sign (2 * p3 - c3) (2 * p1 - c1) (2 * p2 - c2) d3 d1 d2), (dot_sign (2 * q3 - c3) (2 * q1 - c1) (2 * q2 - c2) d3 d1 d2) by lia. nia. }
  unfold zpast. destruct (Z.leb_spec 0 (zdot (zrel c p) d)), (Z.leb_spec 0 (zdot (zrel c q) d)); lia.
Qed.

Lemma edges_in_cell : forallb (fun n => forallb (fun e =>
  (Z.abs (kx (fst e)) <=? 1) && (Z.abs (ky (fst e)) <=? 1) && (Z.abs (kz (fst e)) <=? 1) &&
  ((Z.abs (kx (snd e)) <=? 1) && (Z.abs (ky (snd e)) <=? 1) && (Z.abs (kz (snd e)) <=? 1))) (mf_edges n)) all_patterns = true.
Proof. vm_compute. reflexivity. Qed.

Lemma passes_outside c d fill k : outside_cell c -> passes c d (pat fill k) = 0.
Proof.
  intros Hc. unfold passes. pose proof edges_in_cell as G. rewrite forallb_forall in G. specialize (G _ (pat_range fill k)).
  rewrite forallb_forall in G. rewrite (zsum_ext _ (fun _ => 0)).
  - induction (mf_edges (pat fill k)); cbn; [reflexivity|]. apply IHl. intros x Hx. apply G. cbn. auto.
  - intros [p q] He. specialize (G _ He). cbn [fst snd] in G. rewrite !andb_true_iff, !Z.leb_le in G.
    destruct G as (((P1 & P2) & P3) & ((Q1 & Q2) & Q3)). apply zpass_outside; [repeat split; assumption|repeat split; assumption|exact Hc].
Qed.

Lemma zsum_one (f : key -> Z) k0 K : List.NoDup K -> (forall k, k <> k0 -> f k = 0) -> (In k0 K \/ f k0 = 0) -> zsum f K = f k0.
Proof.
  intros HK Hf. induction HK as [|k K Hk HK IH]; cbn [zsum].
  - intros [[]|E]. symmetry. exact E.
  - intros Hin. destruct (key_eqb k k0) eqn:E.
    + apply key_eqb_eq in E as ->.
      assert (Z : zsum f K = 0); [|lia]. clear -Hf Hk. induction K as [|k K IH]; [reflexivity|]. cbn [zsum].
      rewrite Hf, IH; [reflexivity| |]; intros H; apply Hk; cbn; auto.
    + assert (Hne : k <> k0) by (intros <-; rewrite (proj2 (key_eqb_eq k k) eq_refl) in E; discriminate).
      rewrite (Hf k Hne), IH; [reflexivity|]. destruct Hin as [[H|H]|H]; [contradiction|auto|auto].
Qed.

Lemma zsum_two (f : key -> Z) k1 k2 K : List.NoDup K -> k1 <> k2 -> (forall k, k <> k1 -> k <> k2 -> f k = 0) ->
  (In k1 K \/ f k1 = 0) -> (In k2 K \/ f k2 = 0) -> zsum f K = f k1 + f k2.
Proof.
  intros HK Hne Hf H1 H2.
  assert (R : key_eqb k1 k1 = true) by (apply key_eqb_eq; reflexivity).
  assert (R2 : key_eqb k2 k1 = false).
  { destruct (key_eqb k2 k1) eqn:E; [|reflexivity]. apply key_eqb_eq in E. congruence. }
  assert (N : forall k, k <> k1 -> key_eqb k k1 = false).
  { intros k H. destruct (key_eqb k k1) eqn:E; [|reflexivity]. apply key_eqb_eq in E. congruence. }
  rewrite (zsum_ext f (fun k => (if key_eqb k k1 then f k else 0) + (if key_eqb k k1 then 0 else f k))).
  2:{ intros k _. destruct (key_eqb k k1); lia. }
  rewrite zsum_add, (zsum_one _ k1 K HK), (zsum_one _ k2 K HK).
  - rewrite R, R2. reflexivity.
  - intros k Hk. destruct (key_eqb k k1) eqn:E; [reflexivity|]. apply Hf; [|exact Hk]. intros ->. congruence.
  - rewrite R2. exact H2.
  - intros k Hk. rewrite (N k Hk). reflexivity.
  - rewrite R. exact H1.
Qed.

(** Points inside the faces of a cell, and directions through them. *)
Definition face_points : list (key * key) :=
  [((-1,0,0), (1,0,0)); ((1,0,0), (1,0,0)); ((0,-1,0), (0,1,0)); ((0,1,0), (0,1,0));
   ((1,1,0), (1,-1,0)); ((1,-1,0), (1,1,0)); ((-1,-1,0), (1,-1,0)); ((-1,1,0), (1,1,0))].
Definition z_tests : list (key * key) := map (fun '(c, d) => (kadd c (0,0,2), d)) face_points.
Definition rot (p : key) : key := (kz p, kx p, ky p).
Definition x_tests : list (key * key) := map (fun '(c, d) => (rot c, rot d)) z_tests.

Section Tight.
  Context (fill : key -> bool) (K : list key).
  Context (HK : List.NoDup K) (Hall : forall k, pat fill k <> 0 -> In k K).
  Context (Hsum : forall c d, zsum (fun k => passes (ksub c (kquad k)) d (pat fill k)) K = 0).

  Lemma in_or_zero k c d : In k K \/ passes c d (pat fill k) = 0.
  Proof.
    destruct (Z.eq_dec (pat fill k) 0) as [E|E]; [right; rewrite E; reflexivity|left; apply Hall, E].
  Qed.

  Lemma z_balance c d k : In (c, d) z_tests ->
    passes c d (pat fill k) + passes (ksub c (0,0,4)) d (pat fill (kadd k (0,0,1))) = 0.
  Proof.
    intros Ht. specialize (Hsum (kadd c (kquad k)) d).
    assert (B : Z.abs (kx c) < 2 /\ Z.abs (ky c) < 2 /\ kz c = 2).
    { repeat (destruct Ht as [[= <- <-]|Ht]; [repeat split; reflexivity|]). destruct Ht. }
    rewrite (zsum_two _ k (kadd k (0,0,1)) K HK) in Hsum.
    - etransitivity; [|exact Hsum]. clear. destruct c as [[c1 c2] c3], k as [[k1 k2] k3]. f_equal; f_equal;
        unfold ksub, kadd, kquad, kdouble, kx, ky, kz; cbn [fst snd]; keyeq.
    - destruct k as [[? ?] ?]. intros E. injection E. unfold kz. cbn. lia.
    - intros k' H1 H2. apply passes_outside. destruct c as [[c1 c2] c3], k as [[k1 k2] k3], k' as [[l1 l2] l3].
      unfold outside_cell, ksub, kadd, kquad, kdouble, kx, ky, kz in *. cbn [fst snd] in *.
      destruct (Z.eq_dec l1 k1) as [->|]; [|left; lia]. destruct (Z.eq_dec l2 k2) as [->|]; [|right; left; lia].
      right; right. destruct (Z.eq_dec l3 k3) as [->|]; [destruct (H1 eq_refl)|].
      destruct (Z.eq_dec l3 (k3 + 1)) as [->|]; [destruct H2; keyeq|]. lia.
    - apply in_or_zero.
    - apply in_or_zero.
  Qed.

  Lemma x_balance c d k : In (c, d) x_tests ->
    passes c d (pat fill k) + passes (ksub c (4,0,0)) d (pat fill (kadd k (1,0,0))) = 0.
  Proof.
    intros Ht. specialize (Hsum (kadd c (kquad k)) d).
    assert (B : Z.abs (ky c) < 2 /\ Z.abs (kz c) < 2 /\ kx c = 2).
    { repeat (destruct Ht as [[= <- <-]|Ht]; [repeat split; reflexivity|]). destruct Ht. }
    rewrite (zsum_two _ k (kadd k (1,0,0)) K HK) in Hsum.
    - etransitivity; [|exact Hsum]. clear. destruct c as [[c1 c2] c3], k as [[k1 k2] k3]. f_equal; f_equal;
        unfold ksub, kadd, kquad, kdouble, kx, ky, kz; cbn [fst snd]; keyeq.
    - destruct k as [[? ?] ?]. intros E. injection E. unfold kx. cbn. lia.
    - intros k' H1 H2. apply passes_outside. destruct c as [[c1 c2] c3], k as [[k1 k2] k3], k' as [[l1 l2] l3].
      unfold outside_cell, ksub, kadd, kquad, kdouble, kx, ky, kz in *. cbn [fst snd] in *.
      destruct (Z.eq_dec l2 k2) as [->|]; [|right; left; lia]. destruct (Z.eq_dec l3 k3) as [->|]; [|right; right; lia].
      left. destruct (Z.eq_dec l1 k1) as [->|]; [destruct (H1 eq_refl)|].
      destruct (Z.eq_dec l1 (k1 + 1)) as [->|]; [destruct H2; keyeq|]. lia.
    - apply in_or_zero.
    - apply in_or_zero.
  Qed.
End Tight.

Definition balancedb (tests : list (key * key)) (e : key) (n n' : Z) : bool :=
  forallb (fun '(c, d) => passes c d n + passes (ksub c e) d n' =? 0) tests.

Lemma torn_above : forallb (fun n => if inb torn_patterns n then forallb (fun n' =>
  if fzp n =? fzm n' then if inb torn_patterns n' then true else negb (balancedb z_tests (0,0,4) n n') else true) all_patterns else true) all_patterns = true.
Proof. vm_compute. reflexivity. Qed.

Lemma crossed_beside : forallb (fun n => if inb torn_patterns n then true else forallb (fun n' =>
  if fxp n =? fxm n' then if inb torn_patterns n' then true else
    if Bool.eqb (inb crossed_after n) (inb crossed_before n') then true else negb (balancedb x_tests (4,0,0) n n')
  else true) all_patterns) all_patterns = true.
Proof. vm_compute. reflexivity. Qed.

Lemma torn_above_ok n n' : In n all_patterns -> In n' all_patterns -> In n torn_patterns -> fzp n = fzm n' ->
  (forall c d, In (c, d) z_tests -> passes c d n + passes (ksub c (0,0,4)) d n' = 0) -> In n' torn_patterns.
Proof.
  intros Hn Hn' Ht Hf Hb. pose proof torn_above as G. rewrite forallb_forall in G. specialize (G _ Hn).
  apply inb_iff in Ht. rewrite Ht, forallb_forall in G. specialize (G _ Hn'). rewrite (proj2 (Z.eqb_eq _ _) Hf) in G.
  destruct (inb torn_patterns n') eqn:E; [apply inb_iff, E|]. apply negb_true_iff in G.
  assert (T : balancedb z_tests (0,0,4) n n' = true); [|congruence]. unfold balancedb. apply forallb_forall.
  intros [c d] Hc. apply Z.eqb_eq, Hb, Hc.
Qed.

Lemma crossed_beside_ok n n' : In n all_patterns -> In n' all_patterns -> ~ In n torn_patterns -> ~ In n' torn_patterns -> fxp n = fxm n' ->
  (forall c d, In (c, d) x_tests -> passes c d n + passes (ksub c (4,0,0)) d n' = 0) -> (In n crossed_after <-> In n' crossed_before).
Proof.
  intros Hn Hn' Ht Ht' Hf Hb. pose proof crossed_beside as G. rewrite forallb_forall in G. specialize (G _ Hn).
  rewrite <- inb_iff, not_true_iff_false in Ht, Ht'. rewrite Ht, forallb_forall in G. specialize (G _ Hn').
  rewrite Ht', (proj2 (Z.eqb_eq _ _) Hf) in G. rewrite <- !inb_iff.
  destruct (Bool.eqb (inb crossed_after n) (inb crossed_before n')) eqn:E.
  - apply Bool.eqb_prop in E as ->. reflexivity.
  - apply negb_true_iff in G.
    assert (T : balancedb x_tests (4,0,0) n n' = true); [|congruence]. unfold balancedb. apply forallb_forall.
    intros [c d] Hc. apply Z.eqb_eq, Hb, Hc.
Qed.

Lemma high_key (K : list key) : exists z, forall k, In k K -> kz k < z.
Proof.
  induction K as [|k K [z IH]]; [exists 0; intros k []|]. exists (Z.max z (kz k + 1)). intros k' [<-|H]; [lia|]. specialize (IH _ H). lia.
Qed.

Lemma watertight_matching b m : (0 < vpmm b)%Q -> manifold_run b m -> watertight m -> matching (fillb b).
Proof.
  intros Hs (whites & cols & order & Hw & Hc & Ho & ->) Hwt.
  destruct (manifold_order b whites cols order Hw Hc Ho) as (Eo & Hnd & Hin).
  set (K := map fst order) in *. clearbody K. subst order.
  pose proof (ManifoldMesh_faces b (map (fun k => (k, pat (fillb b) k)) K)) as Hf.
  apply mesh_edges_ext in Hf. rewrite mesh_edges_push, mf_edges_flat in Hf.
  pose proof (watertight_passes b _ K Hs Hwt Hf) as Hsum. clear Hwt Hf Hw Hc Ho.
  assert (Hall : forall k, pat (fillb b) k <> 0 -> In k K) by (intros k; apply Hin).
  assert (Hadd : forall k d, ksub (kadd k d) d = k) by (intros [[? ?] ?] [[? ?] ?]; unfold ksub, kadd, kx, ky, kz; cbn; repeat f_equal; lia).
  assert (Hsub : forall k d, kadd (ksub k d) d = k) by (intros [[? ?] ?] [[? ?] ?]; unfold ksub, kadd, kx, ky, kz; cbn; repeat f_equal; lia).
  assert (Hup : forall k, In (pat (fillb b) k) torn_patterns -> In (pat (fillb b) (kadd k (0,0,1))) torn_patterns).
  { intros k Ht. eapply (torn_above_ok (pat (fillb b) k)); [apply pat_range|apply pat_range|exact Ht| |].
    - rewrite face_z, Hadd. reflexivity.
    - intros c d Hcd. apply (z_balance (fillb b) K Hnd Hall Hsum c d k Hcd). }
  assert (Hno : forall k, ~ In (pat (fillb b) k) torn_patterns).
  { intros k Ht. destruct (high_key K) as [z Hz].
    assert (Hj : forall j, In (pat (fillb b) (kadd k (0,0,Z.of_nat j))) torn_patterns).
    { intros j. induction j as [|j IH].
      - replace (kadd k (0,0,Z.of_nat 0)) with k; [exact Ht|]. destruct k as [[? ?] ?]. unfold kadd, kx, ky, kz. cbn. keyeq.
      - replace (kadd k (0,0,Z.of_nat (S j))) with (kadd (kadd k (0,0,Z.of_nat j)) (0,0,1)); [apply Hup, IH|].
        destruct k as [[? ?] ?]. unfold kadd, kx, ky, kz. cbn [fst snd]. keyeq. }
    specialize (Hj (Z.to_nat (z - kz k))).
    assert (H0 : pat (fillb b) (kadd k (0, 0, Z.of_nat (Z.to_nat (z - kz k)))) <> 0).
    { intros E. rewrite E in Hj. apply inb_iff in Hj. discriminate Hj. }
    apply Hall, Hz in H0. destruct k as [[? ?] ?]. unfold kadd, kz in H0. cbn [fst snd] in H0. lia. }
  split; [exact Hno|]. intros k. apply crossed_beside_ok; [apply pat_range|apply pat_range|apply Hno|apply Hno|symmetry; apply face_x|].
  intros c d Hcd. pose proof (x_balance (fillb b) K Hnd Hall Hsum c d (ksub k (1,0,0)) Hcd) as H. rewrite Hsub in H. exact H.
Qed.

(** ** C36: exactly which models are watertight *)
Definition closing_patterns (b : binvox Q) : Prop :=
  (forall k n, block_pattern b k n -> ~ In n torn_patterns) /\
  (forall x y z n n', block_pattern b (x, y, z) n -> block_pattern b (x + 1, y, z) n' ->
     (In n crossed_after <-> In n' crossed_before)).

Lemma closing_matching b : closing_patterns b <-> matching (fillb b).
Proof.
  unfold matching. split; intros [H1 H2]; split.
  - intros k. apply (H1 k). apply block_pattern_pat. reflexivity.
  - intros [[x y] z]. replace (ksub (x, y, z) (1, 0, 0)) with ((x - 1, y, z) : key) by (unfold ksub, kx, ky, kz; cbn [fst snd]; keyeq).
    apply (H2 (x - 1) y z); apply block_pattern_pat; [reflexivity|]. replace (x - 1 + 1) with x by lia. reflexivity.
  - intros k n Hn. apply block_pattern_pat in Hn as ->. apply H1.
  - intros x y z n n' Hn Hn'. apply block_pattern_pat in Hn as ->. apply block_pattern_pat in Hn' as ->.
    specialize (H2 (x + 1, y, z)). replace (ksub (x + 1, y, z) (1, 0, 0)) with ((x, y, z) : key) in H2; [exact H2|].
    unfold ksub, kx, ky, kz. cbn [fst snd]. keyeq.
Qed.

Theorem C36_exact b m : (0 < vpmm b)%Q -> manifold_run b m -> (watertight m <-> closing_patterns b).
Proof.
  intros Hs Hr. rewrite closing_matching. split; [apply watertight_matching; assumption|apply matching_watertight; assumption].
Qed.

(** The torn and the crossed patterns are the leaky ones. *)
Theorem C36_leaky_split n : In n leaky_patterns <-> In n torn_patterns \/ In n crossed_after \/ In n crossed_before.
Proof.
  assert (G : forall l l', forallb (fun n => inb l' n) l = true -> forall n, In n l -> In n l').
  { intros l l' H x Hx. rewrite forallb_forall in H. apply inb_iff, H, Hx. }
  split.
  - intros H. apply (G leaky_patterns (torn_patterns ++ crossed_after ++ crossed_before) ltac:(vm_compute; reflexivity)) in H.
    rewrite !in_app_iff in H. exact H.
  - intros [H|[H|H]]; revert H; apply G; vm_compute; reflexivity.
Qed.

Lemma no_leaky_closing b : (forall k n, block_pattern b k n -> ~ In n leaky_patterns) -> closing_patterns b.
Proof.
  intros H. split.
  - intros k n Hn Ht. apply (H k n Hn). apply C36_leaky_split. auto.
  - intros x y z n n' Hn Hn'. split; intros Hc; exfalso; [apply (H _ _ Hn)|apply (H _ _ Hn')]; apply C36_leaky_split; auto.
Qed.

(** *** A staircase of six voxels with two leaky patterns that fit together *)
Definition stair_voxels : list key := [(0,0,0); (0,0,1); (0,1,1); (1,0,0); (1,1,1); (2,1,1)].
Definition stair : binvox Q := BinVOX 3 2 2 0%Q 0%Q 0%Q 1%Q (Some (list_to_set stair_voxels)) None.

Definition listfill (l : list key) (k : key) : bool := existsb (key_eqb k) l.
Lemma fillb_stair k : fillb stair k = listfill stair_voxels k.
Proof.
  apply eq_true_iff_eq. unfold fillb, listfill. rewrite bool_decide_eq_true, existsb_exists. unfold stair, white, colors. cbn -[stair_voxels list_to_set].
  rewrite dom_empty_L, elem_of_union, elem_of_list_to_set, elem_of_list_In. split.
  - intros [H|H]; [|set_solver]. exists k. split; [exact H|]. apply key_eqb_eq. reflexivity.
  - intros (k' & Hk & E). apply key_eqb_eq in E as ->. auto.
Qed.

Definition stair_cells : list key :=
  flat_map (fun x => flat_map (fun y => map (fun z => (x, y, z)) [-1;0;1]) [0;1;2]) [-2;-1;0;1;2].

Lemma stair_far k : ~ In k stair_cells -> pat (listfill stair_voxels) k = 0 .
Proof.
  intros Hk. destruct (Z.eq_dec (pat (listfill stair_voxels) k) 0) as [E|Hne]; [exact E|]. exfalso. apply Hk.
  assert (Hex : exists i, (i < 8)%nat /\ listfill stair_voxels (corner i k) = true).
  { destruct (existsb (fun i => listfill stair_voxels (corner i k)) (seq 0 8)) eqn:E.
    - apply existsb_exists in E as (i & Hi & E). apply in_seq in Hi. exists i. split; [lia|exact E].
    - exfalso. apply Hne. unfold pat. cbn [seq existsb] in E. rewrite !orb_false_iff in E.
      destruct E as (-> & -> & -> & -> & -> & -> & -> & -> & _). reflexivity. }
  destruct Hex as (i & Hi & E). unfold listfill in E. apply existsb_exists in E as (k' & Hk' & E). apply key_eqb_eq in E.
  assert (B : 0 <= kx k' <= 2 /\ 0 <= ky k' <= 1 /\ 0 <= kz k' <= 1).
  { cbn in Hk'. repeat (destruct Hk' as [<-|Hk']; [vm_compute; repeat split; congruence|]). destruct Hk'. }
  destruct k as [[x y] z].
  assert (-1 <= x <= 2 /\ 0 <= y <= 2 /\ -1 <= z <= 1).
  { do 8 (destruct i as [|i]; [unfold corner, kadd in E; cbn [nth corner_off kx ky kz fst snd] in E; subst k'; cbn [kx ky kz fst snd] in B; lia|]). lia. }
  unfold stair_cells. rewrite in_flat_map. exists x. split; [cbn; lia|]. rewrite in_flat_map. exists y. split; [cbn; lia|].
  apply in_map_iff. exists z. split; [reflexivity|cbn; lia].
Qed.

Theorem C36_stair m : manifold_run stair m ->
  block_pattern stair (0, 1, 0) 188 /\ block_pattern stair (1, 1, 0) 56 /\ In 188 leaky_patterns /\ In 56 leaky_patterns /\ watertight m.
Proof.
  intros Hr.
  assert (P : forall k, pat (fillb stair) k = pat (listfill stair_voxels) k) by (intros k; apply pat_ext, fillb_stair).
  split; [apply block_pattern_pat; rewrite P; vm_compute; reflexivity|].
  split; [apply block_pattern_pat; rewrite P; vm_compute; reflexivity|].
  split; [apply inb_iff; vm_compute; reflexivity|]. split; [apply inb_iff; vm_compute; reflexivity|].
  apply (C36_exact stair m); [reflexivity|exact Hr|].
  assert (Hdec : forall k, {In k stair_cells} + {~ In k stair_cells}) by (intros k; apply in_dec; intros [[? ?] ?] [[? ?] ?]; repeat decide equality).
  split.
  - intros k n Hn. apply block_pattern_pat in Hn as ->. rewrite P, <- inb_iff, not_true_iff_false. destruct (Hdec k) as [Hk|Hk].
    + assert (G : forallb (fun k => negb (inb torn_patterns (pat (listfill stair_voxels) k))) stair_cells = true) by (vm_compute; reflexivity).
      rewrite forallb_forall in G. apply negb_true_iff, (G _ Hk).
    + rewrite (stair_far k Hk). reflexivity.
  - intros x y z n n' Hn Hn'. apply block_pattern_pat in Hn as ->. apply block_pattern_pat in Hn' as ->. rewrite !P, <- !inb_iff.
    assert (G : forallb (fun k => Bool.eqb (inb crossed_after (pat (listfill stair_voxels) k))
       (inb crossed_before (pat (listfill stair_voxels) (kadd (1,0,0) k)))) stair_cells = true) by (vm_compute; reflexivity).
    rewrite forallb_forall in G. destruct (Hdec (x, y, z)) as [Hk|Hk].
    + specialize (G _ Hk). apply Bool.eqb_prop in G. rewrite G.
      replace (kadd (1, 0, 0) (x, y, z)) with ((x + 1, y, z) : key) by (unfold kadd, kx, ky, kz; cbn [fst snd]; keyeq). reflexivity.
    + rewrite (stair_far _ Hk). destruct (Hdec (x + 1, y, z)) as [Hk'|Hk'].
      * assert (Hx : x + 1 = -2).
        { clear -Hk Hk'. unfold stair_cells in *. rewrite in_flat_map in *. destruct Hk' as (x' & Hx & Hyz).
          assert (x' = x + 1) as ->. { rewrite in_flat_map in Hyz. destruct Hyz as (? & _ & Hyz). apply in_map_iff in Hyz as (? & [= ->] & _). reflexivity. }
          destruct (Z.eq_dec (x + 1) (-2)) as [E|E]; [exact E|]. exfalso. apply Hk. exists x. split; [cbn in *; lia|].
          rewrite in_flat_map in Hyz |- *. destruct Hyz as (y' & Hy & Hz). exists y'. split; [exact Hy|].
          apply in_map_iff in Hz as (z' & [= -> ->] & Hz). apply in_map_iff. exists z. auto. }
        assert (E : inb crossed_before (pat (listfill stair_voxels) (x + 1, y, z)) = false); [|rewrite E; split; discriminate].
        rewrite Hx in Hk' |- *.
        assert (G2 : forallb (fun k => if kx k =? -2 then negb (inb crossed_before (pat (listfill stair_voxels) k)) else true) stair_cells = true) by (vm_compute; reflexivity).
        rewrite forallb_forall in G2. apply negb_true_iff. exact (G2 _ Hk').
      * rewrite (stair_far _ Hk'). split; discriminate.
Qed.
