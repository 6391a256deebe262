(** C68: .binvox files to one closed STL: marching-cubes on every file, then merge-stl. *)
From Verif Require Import Base BaseLemmas BinvoxSpec BinvoxModel Geom VoxelizeModel VoxelizeSpec VoxelizeProps FloatTextQ StldiceModel StldiceProps CmdMergeModel CmdMergeProps
  MeshSpec MarchModel MarchProps StlMerge CmdStlModel CmdStlProps.
From Coq Require Import ZArith QArith Qcanon List Bool String Init.Byte Lia Permutation.
From stdpp Require Import base list relations gmap sets sorting.
Import ListNotations.
Open Scope nat_scope.

(** ** Specification *)

(** [round] moves vertices, equal ones to equal ones; a mesh with every vertex moved. *)
Definition vertex_map (round : qpt -> qpt) : Prop := forall p q, qpt_eq p q -> qpt_eq (round p) (round q).
Definition moved (round : qpt -> qpt) (m : list face) : list face := map (fun t => let '(a, b, c) := t in (round a, round b, round c)) m.

(** The STL file keeps the triangles, in order, up to a rounding of the coordinates. *)
Definition stl_format {error} (load : list byte -> error + list face) (save : list face -> list byte) (round : qpt -> qpt) : Prop :=
  vertex_map round /\ forall m, load (save m) = inr (moved round m).

(** ** Closed meshes: joining and rounding *)

Lemma count_edge_app es fs p q : count_edge (es ++ fs) p q = count_edge es p q + count_edge fs p q.
Proof. unfold count_edge. rewrite List.filter_app, app_length. reflexivity. Qed.

Lemma mesh_edges_app m n : mesh_edges (m ++ n) = mesh_edges m ++ mesh_edges n.
Proof. apply flat_map_app. Qed.

Lemma closed_nil : closed_mesh [].
Proof. intros p q. reflexivity. Qed.

Lemma closed_app m n : closed_mesh m -> closed_mesh n -> closed_mesh (m ++ n).
Proof. intros Hm Hn p q. rewrite mesh_edges_app, !count_edge_app, (Hm p q), (Hn p q). reflexivity. Qed.

Lemma closed_concat ms : Forall closed_mesh ms -> closed_mesh (concat ms).
Proof. induction 1; cbn [concat]; [apply closed_nil|apply closed_app; assumption]. Qed.

Definition canon (p : qpt) : qpt := (Qred (px p), Qred (py p), Qred (pz p)).
Definition canon_edge (e : qedge) : qedge := (canon (fst e), canon (snd e)).
Definition flip (e : qedge) : qedge := (snd e, fst e).

Lemma canon_eq p q : qpt_eq p q <-> canon p = canon q.
Proof.
  destruct p as [[x y] z], q as [[x' y'] z']. unfold qpt_eq, canon, px, py, pz. cbn [fst snd]. split.
  - intros (H1 & H2 & H3). apply Qred_complete in H1, H2, H3. rewrite H1, H2, H3. reflexivity.
  - intros E. injection E as E1 E2 E3. split; [|split]; rewrite <- Qred_correct at 1; symmetry; rewrite <- Qred_correct at 1; [rewrite E1|rewrite E2|rewrite E3]; reflexivity.
Qed.
Lemma canon_idem p : qpt_eq (canon p) p.
Proof. destruct p as [[x y] z]. unfold qpt_eq, canon, px, py, pz. cbn [fst snd]. split; [|split]; apply Qred_correct. Qed.
Lemma eqb_canon p q : qpt_eqb p q = true <-> canon p = canon q.
Proof.
  rewrite <- canon_eq. destruct p as [[x y] z], q as [[x' y'] z']. unfold qpt_eqb, qpt_eq, px, py, pz. cbn [fst snd]. rewrite !andb_true_iff, !Qeq_bool_iff. tauto.
Qed.

Lemma Q_dec (x y : Q) : {x = y} + {x <> y}.
Proof. decide equality; [apply Pos.eq_dec|apply Z.eq_dec]. Defined.
Lemma edge_dec (e f : qedge) : {e = f} + {e <> f}.
Proof. repeat decide equality. Defined.

Lemma count_canon es p q : count_edge es p q = count_occ edge_dec (map canon_edge es) (canon p, canon q).
Proof.
  unfold count_edge. induction es as [|[a b] es IH]; [reflexivity|]. cbn [List.filter map count_occ fst snd].
  unfold canon_edge at 1. cbn [fst snd]. destruct (edge_dec (canon a, canon b) (canon p, canon q)) as [E|E].
  - assert (E1 : canon a = canon p) by congruence. assert (E2 : canon b = canon q) by congruence. apply eqb_canon in E1, E2. rewrite E1, E2. cbn. rewrite IH. reflexivity.
  - destruct (qpt_eqb a p) eqn:E1; cbn [andb]; [|exact IH]. destruct (qpt_eqb b q) eqn:E2; [|exact IH]. exfalso. apply E. f_equal; apply eqb_canon; assumption.
Qed.

Lemma count_flip es a b : count_occ edge_dec (map flip es) (a, b) = count_occ edge_dec es (b, a).
Proof.
  induction es as [|[x y] es IH]; [reflexivity|]. cbn [map count_occ]. unfold flip at 1. cbn [fst snd].
  destruct (edge_dec (y, x) (a, b)) as [E|E], (edge_dec (x, y) (b, a)) as [E'|E']; rewrite IH; try reflexivity; exfalso; [apply E'|apply E]; congruence.
Qed.

Lemma closed_perm es : closed_edges es <-> Permutation (map canon_edge es) (map flip (map canon_edge es)).
Proof.
  rewrite (Permutation_count_occ edge_dec). split.
  - intros H [a b]. rewrite count_flip.
    destruct (in_dec edge_dec (a, b) (map canon_edge es)) as [Hin|Hn]; [|destruct (in_dec edge_dec (b, a) (map canon_edge es)) as [Hin|Hn']].
    + apply in_map_iff in Hin as ([p q] & E & _). unfold canon_edge in E. cbn [fst snd] in E. inversion E; subst a b. rewrite <- !count_canon. apply H.
    + apply in_map_iff in Hin as ([p q] & E & _). unfold canon_edge in E. cbn [fst snd] in E. inversion E; subst a b. rewrite <- !count_canon. apply H.
    + apply (count_occ_not_In edge_dec) in Hn, Hn'. congruence.
  - intros H p q. rewrite !count_canon, H, count_flip. reflexivity.
Qed.

Lemma edges_moved round m : mesh_edges (moved round m) = map (fun e => (round (fst e), round (snd e))) (mesh_edges m).
Proof.
  unfold mesh_edges, moved. induction m as [|[[a b] c] m IH]; [reflexivity|]. cbn [map flat_map face_edges app fst snd]. rewrite IH. reflexivity.
Qed.

(** A closed mesh stays closed if its vertices are rounded. *)
Lemma closed_moved round m : vertex_map round -> closed_mesh m -> closed_mesh (moved round m).
Proof.
  intros Hv H. unfold closed_mesh in *. rewrite edges_moved. apply closed_perm in H. apply closed_perm.
  set (h := fun e : qedge => (canon (round (fst e)), canon (round (snd e)))).
  assert (Hcan : forall e, h (canon_edge e) = h e).
  { intros [a b]. unfold h, canon_edge. cbn [fst snd]. f_equal; apply canon_eq, Hv, canon_idem. }
  assert (E : map canon_edge (map (fun e => (round (fst e), round (snd e))) (mesh_edges m)) = map h (map canon_edge (mesh_edges m))).
  { rewrite !map_map. apply map_ext. intros e. rewrite Hcan. reflexivity. }
  rewrite E. apply (Permutation_map h) in H. etransitivity; [exact H|]. rewrite !map_map. apply Permutation_refl'. apply map_ext. intros [a b]. reflexivity.
Qed.

(** ** The commands *)

Section Cmd.
  Context {error : Type} (no_file : error) (load : list byte -> error + list face) (save : list face -> list byte) (round : qpt -> qpt)
    (Hfmt : stl_format load save round).

  (** marching-cubes writes no file but its output, and that one only if the input could be read; then
      the output, read back, is a closed mesh, whatever the order [order] of the map iteration. *)
  Theorem C68_marching_cubes ft (order : binvox Q -> list key) d infile outfile :
    (forall b, Permutation (order b) (elements (grid_cells b))) ->
    let '(d', e) := mesh_cmd save ft (fun b => MarchingCubes b (order b)) d infile outfile in
    (forall n, n <> outfile -> d' n = d n) /\
    match e with
    | Finished => exists bytes b m bytes', d infile = Some bytes /\ read ft bytes 0 0 0 0 0 0 = inr b /\ MarchingCubes b (order b) = Some m /\
        d' outfile = Some bytes' /\ load bytes' = inr (moved round m) /\ closed_mesh (moved round m)
    | Fatal => d' = d /\ (d infile = None \/ exists bytes er, d infile = Some bytes /\ read ft bytes 0 0 0 0 0 0 = inl er)
    | Crashed => False
    end.
  Proof using Hfmt.
    intros Ho. unfold mesh_cmd. destruct (d infile) as [bytes|] eqn:Ed; [|auto].
    destruct (read ft bytes 0 0 0 0 0 0) as [er|b] eqn:Er; [split; [auto|]; split; [reflexivity|]; right; eauto|].
    destruct (C33_closed b (order b) (Ho b)) as (m & Em & Hc). rewrite Em. split.
    - intros n Hn. unfold put_file. cbn [fst]. apply decide_False, Hn.
    - exists bytes, b, m, (save m). split; [reflexivity|]. split; [exact Er|]. split; [exact Em|]. split; [unfold put_file; cbn [fst snd]; apply decide_True; reflexivity|].
      split; [apply Hfmt|apply closed_moved; [apply Hfmt|exact Hc]].
  Qed.

  (** If all parts are closed, so is the merged file, under any schedule. *)
  Theorem C68_merge_closed force workers prefix d names d' files : listing d names -> stl_parts d prefix files ->
    (forall f bytes m, In f files -> d f = Some bytes -> load bytes = inr m -> closed_mesh m) ->
    merge_stl no_file load save force workers prefix d names d' Finished ->
    exists bytes m, d' (prefix ++ txt ".stl") = Some bytes /\ load bytes = inr m /\ closed_mesh m.
  Proof using Hfmt.
    intros Hl Hp Hc H.
    assert (Hf : force = true \/ d (prefix ++ txt ".stl") = None).
    { destruct force; [left; reflexivity|]. destruct (d (prefix ++ txt ".stl")) eqn:Ed; [|right; reflexivity].
      destruct (C67_no_overwrite no_file load save workers prefix d names d' Finished Hl ltac:(congruence) H) as [_ C]. discriminate. }
    destruct (C67_outcome no_file load save _ _ _ _ _ _ _ files Hl Hf Hp H) as (_ & order & ms & Ho & Hm & Hd).
    exists (save (concat ms)), (moved round (concat ms)). split; [exact Hd|]. split; [apply Hfmt|]. apply closed_moved; [apply Hfmt|].
    apply closed_concat. assert (Hin : forall f, In f order -> In f files) by (intros f; apply Permutation_in, Ho). clear -Hm Hc Hin.
    induction Hm as [|f m order ms (bytes & Hb & El) _ IH]; constructor; [|apply IH; intros x Hx; apply Hin; right; exact Hx].
    exact (Hc f bytes m (Hin f (or_introl eq_refl)) Hb El).
  Qed.

  (** marching-cubes on each of some files, then merge-stl of the results. *)
  Fixpoint mesh_all (ft : FloatText Q) (order : binvox Q -> list key) (d : dir) (jobs : list (list byte * list byte)) : dir * exit :=
    match jobs with
    | [] => (d, Finished)
    | (i, o) :: jobs => match mesh_cmd save ft (fun b => MarchingCubes b (order b)) d i o with (d', Finished) => mesh_all ft order d' jobs | r => r end
    end.

  Theorem C68_pipeline ft order jobs force workers prefix d d1 names d2 :
    (forall b, Permutation (order b) (elements (grid_cells b))) ->
    mesh_all ft order d jobs = (d1, Finished) -> listing d1 names ->
    (forall n, d n <> None -> ~ exists mid, n = prefix ++ mid ++ txt ".stl") ->
    merge_stl no_file load save force workers prefix d1 names d2 Finished ->
    exists bytes m, d2 (prefix ++ txt ".stl") = Some bytes /\ load bytes = inr m /\ closed_mesh m.
  Proof using Hfmt.
    intros Ho Hj Hl Hn Hm.
    assert (Hclosed : forall f bytes m, (exists mid, f = prefix ++ mid ++ txt ".stl") -> d1 f = Some bytes -> load bytes = inr m -> closed_mesh m).
    { assert (G : forall jobs d d1, mesh_all ft order d jobs = (d1, Finished) ->
        (forall f bytes m, (exists mid, f = prefix ++ mid ++ txt ".stl") -> d f = Some bytes -> load bytes = inr m -> closed_mesh m) ->
        forall f bytes m, (exists mid, f = prefix ++ mid ++ txt ".stl") -> d1 f = Some bytes -> load bytes = inr m -> closed_mesh m).
      { clear -Hfmt Ho. induction jobs as [|[i o] jobs IH]; intros d d1 E Hd; cbn in E; [injection E as <-; exact Hd|].
        pose proof (C68_marching_cubes ft order d i o Ho) as C. destruct (mesh_cmd _ _ _ d i o) as [d' e]. destruct e; [|discriminate E..].
        destruct C as (Hother & bytes0 & b & m0 & bytes' & _ & _ & _ & Hout & Hload & Hc). apply (IH d' d1 E).
        intros f bytes m Hf Hb Hm. destruct (decide (f = o)) as [->|Hne].
        - rewrite Hout in Hb. injection Hb as <-. rewrite Hload in Hm. injection Hm as <-. exact Hc.
        - rewrite (Hother f Hne) in Hb. exact (Hd f bytes m Hf Hb Hm). }
      apply (G jobs d d1 Hj). intros f bytes m Hf Hb _. exfalso. apply (Hn f); [congruence|exact Hf]. }
    assert (Hp : exists files, stl_parts d1 prefix files).
    { inversion Hm as [| |files s m E|]; subst. exists files. exact (inputs_parts force d1 names prefix files Hl E). }
    destruct Hp as (files & Hp). apply (C68_merge_closed force workers prefix d1 names d2 files Hl Hp); [|exact Hm].
    intros f bytes m Hin. apply Hclosed. apply (proj2 Hp) in Hin. tauto.
  Qed.
End Cmd.
Print Assumptions C68_marching_cubes.
Print Assumptions C68_merge_closed.
Print Assumptions C68_pipeline.

(** ** A file format that keeps everything, and a run *)

From stdpp Require Import countable.

Definition pack (q : Q) : Z * positive := (Qnum q, Qden q).
Definition unpack (p : Z * positive) : Q := Qmake (fst p) (snd p).
Notation packed := (Z * positive * (Z * positive) * (Z * positive))%type.
Definition pack_pt (p : qpt) : packed := (pack (px p), pack (py p), pack (pz p)).
Definition unpack_pt (p : packed) : qpt := (unpack (fst (fst p)), unpack (snd (fst p)), unpack (snd p)).
Definition pack_face (t : face) : packed * packed * packed := (pack_pt (fst (fst t)), pack_pt (snd (fst t)), pack_pt (snd t)).
Definition unpack_face (t : packed * packed * packed) : face := (unpack_pt (fst (fst t)), unpack_pt (snd (fst t)), unpack_pt (snd t)).

Fixpoint pos_bytes (p : positive) : list byte := match p with xH => [] | xO p => x00 :: pos_bytes p | xI p => x01 :: pos_bytes p end.
Fixpoint bytes_pos (l : list byte) : positive := match l with [] => xH | x00 :: l => xO (bytes_pos l) | _ :: l => xI (bytes_pos l) end.
Lemma bytes_pos_bytes p : bytes_pos (pos_bytes p) = p.
Proof. induction p as [p IH|p IH|]; cbn; [rewrite IH; reflexivity..|reflexivity]. Qed.

Definition ex_save (m : list face) : list byte := pos_bytes (encode (map pack_face m)).
Definition ex_load (l : list byte) : unit + list face := match decode (bytes_pos l) with Some m => inr (map unpack_face m) | None => inl tt end.

Lemma ex_format : stl_format ex_load ex_save (fun p => p).
Proof.
  split; [intros p q H; exact H|]. intros m. unfold ex_load, ex_save. rewrite bytes_pos_bytes, decode_encode. f_equal. unfold moved. rewrite map_map. apply map_ext.
  intros [[[[x y] z] [[x' y'] z']] [[x'' y''] z'']]. unfold unpack_face, pack_face, unpack_pt, pack_pt, px, py, pz. cbn [fst snd]. unfold unpack, pack. cbn [fst snd].
  destruct x, y, z, x', y', z', x'', y'', z''. reflexivity.
Qed.

Definition ex_model : binvox Q := BinVOX 1 1 1 0%Q 0%Q 0%Q 1%Q (Some {[ (0%Z, 0%Z, 0%Z) ]}) None.
Definition ex_dir : dir := fun n => if decide (n = txt "a.binvox") then Some (write_file qtext ex_model 0 0 0 0 0 0) else None.
Definition ex_order (b : binvox Q) : list key := elements (grid_cells b).

(** One voxel: the pipeline of C68_pipeline runs to its end, and the merged mesh has eight triangles. *)
Example C68_example : exists d1 d2, mesh_all ex_save qtext ex_order ex_dir [(txt "a.binvox", txt "o-1.stl")] = (d1, Finished) /\
  listing d1 [txt "a.binvox"; txt "o-1.stl"] /\
  (forall n, ex_dir n <> None -> ~ exists mid, n = txt "o" ++ mid ++ txt ".stl") /\
  merge_stl tt ex_load ex_save false 1 (txt "o") d1 [txt "a.binvox"; txt "o-1.stl"] d2 Finished /\
  exists m, d2 (txt "o.stl") = Some (ex_save m) /\ length m = 8.
Proof.
  assert (Hread : exists b, read qtext (write_file qtext ex_model 0 0 0 0 0 0) 0 0 0 0 0 0 = inr b) by (eexists; vm_compute; reflexivity).
  destruct Hread as (b & Hread).
  assert (Hmesh : exists m, MarchingCubes b (ex_order b) = Some m /\ length m = 8).
  { assert (Hb : match read qtext (write_file qtext ex_model 0 0 0 0 0 0) 0 0 0 0 0 0 with
                 | inr b => match MarchingCubes b (ex_order b) with Some m => Nat.eqb (length m) 8 | None => false end | inl _ => false end = true) by (vm_compute; reflexivity).
    rewrite Hread in Hb. destruct (MarchingCubes b (ex_order b)) as [m|]; [|discriminate Hb]. exists m. split; [reflexivity|]. apply Nat.eqb_eq, Hb. }
  destruct Hmesh as (m & Em & Hlen). set (d1 := put_file ex_dir (txt "o-1.stl", ex_save m)).
  assert (E1 : mesh_all ex_save qtext ex_order ex_dir [(txt "a.binvox", txt "o-1.stl")] = (d1, Finished)).
  { cbn [mesh_all]. unfold mesh_cmd. replace (ex_dir (txt "a.binvox")) with (Some (write_file qtext ex_model 0 0 0 0 0 0)) by (unfold ex_dir; rewrite decide_True by reflexivity; reflexivity).
    rewrite Hread, Em. reflexivity. }
  assert (Ha : forall n, ex_dir n <> None -> n = txt "a.binvox") by (intros n H; unfold ex_dir in H; destruct (decide (n = txt "a.binvox")); [assumption|contradiction]).
  assert (Hd1 : forall n, d1 n = if decide (n = txt "o-1.stl") then Some (ex_save m) else ex_dir n) by reflexivity.
  assert (Hl : listing d1 [txt "a.binvox"; txt "o-1.stl"]).
  { split; [apply NoDup_ListNoDup; apply (bool_decide_unpack _); vm_compute; exact I|]. intros n. rewrite Hd1. cbn [In]. split.
    - intros [<-|[<-|[]]]; [rewrite decide_False by (intros C; vm_compute in C; discriminate C)|rewrite decide_True by reflexivity; discriminate].
      unfold ex_dir. rewrite decide_True by reflexivity. discriminate.
    - destruct (decide (n = txt "o-1.stl")) as [->|Hn]; [auto|]. intros H. apply Ha in H. auto. }
  assert (Hno : forall n, ex_dir n <> None -> ~ exists mid, n = txt "o" ++ mid ++ txt ".stl").
  { intros n H (mid & E). apply Ha in H. rewrite H in E. apply (f_equal (fun l => hd x00 l)) in E. vm_compute in E. discriminate E. }
  assert (Hfree : d1 (txt "o.stl") = None).
  { rewrite Hd1, decide_False by (intros C; vm_compute in C; discriminate C). destruct (ex_dir (txt "o.stl")) eqn:E; [|reflexivity].
    assert (H : ex_dir (txt "o.stl") <> None) by congruence. apply Ha in H. vm_compute in H. discriminate H. }
  assert (Hp : stl_parts d1 (txt "o") [txt "o-1.stl"]).
  { split; [constructor; [intros []|constructor]|]. intros n. rewrite Hd1. cbn [In]. split.
    - intros [<-|[]]. split; [intros C; vm_compute in C; discriminate C|]. split; [exists (txt "-1"); reflexivity|]. rewrite decide_True by reflexivity. discriminate.
    - intros (_ & Hmid & H). destruct (decide (n = txt "o-1.stl")) as [->|Hn]; [auto|]. exfalso. exact (Hno n H Hmid). }
  destruct (C67_ends tt ex_load ex_save false 1 (txt "o") d1 [txt "a.binvox"; txt "o-1.stl"] (le_n _)) as (d2 & e & Hrun).
  pose proof (C67_outcome tt ex_load ex_save false 1 (txt "o") d1 _ d2 e [txt "o-1.stl"] Hl (or_intror Hfree) Hp Hrun) as Hout.
  assert (Hpart : forall bytes, d1 (txt "o-1.stl") = Some bytes -> bytes = ex_save m) by (intros bytes H; rewrite Hd1, decide_True in H by reflexivity; congruence).
  destruct e.
  - exists d1, d2. split; [exact E1|]. split; [exact Hl|]. split; [exact Hno|]. split; [exact Hrun|].
    destruct Hout as (_ & order & ms & Ho & Hm & Hd2). apply Permutation_sym, Permutation_length_1_inv in Ho. subst order. inversion Hm as [|f m' ? ms' (bytes & Hb & Hload) Hnil]; subst.
    inversion Hnil; subst. apply Hpart in Hb. subst bytes. rewrite (proj2 ex_format) in Hload. injection Hload as <-.
    exists (moved (fun p => p) m). split; [|unfold moved; rewrite map_length; exact Hlen]. change (txt "o.stl") with (txt "o" ++ txt ".stl"). rewrite Hd2. cbn [concat]. rewrite app_nil_r. reflexivity.
  - exfalso. destruct Hout as (_ & f & bytes & er & [<-|[]] & Hb & Hload). apply Hpart in Hb. subst bytes. rewrite (proj2 ex_format) in Hload. discriminate.
  - exfalso. destruct Hout as [C _]. discriminate.
Qed.
Print Assumptions C68_example.
