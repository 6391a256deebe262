(** C50, continued: the distributed stl2svx (master and agents) against the local one, and the name
    pattern in its manifest. *)
From Verif Require Import Base BaseLemmas BinvoxModel BinvoxProofs Geom VoxelizeModel VoxcutModel StldiceModel StldiceProps VoxelizeProps SvxModel SvxProps SvxReadProps
  MasterModel MasterProps MasterJobs.
From Coq Require Import ZArith QArith Qround List Lia Bool String Permutation Init.Byte.
From stdpp Require Import base list list_numbers gmap sets.
Import ListNotations.
Open Scope Z_scope.

(** ** The agent's jobs *)

(** stl2svx/agent/agent.go:98-143 generateMR, with stl2svx/stl/stl.go:31-78 New on every file (not on the
    base only): [None]: log.Fatalf. *)
Fixpoint agent_loop (dim nx ny nz : Z) (bx : qpt * qpt) (first : bool) (meshes : list (list tri)) : option (list bvInfo) :=
  match meshes with
  | [] => Some []
  | m :: ms =>
      let '(ax, ay, az) := region_dims3 dim nx ny nz (bounding_box m) in
      if (ax =? 0) || (ay =? 0) || (az =? 0) then None
      else let '(dx, dy, dz) := region_dims3 dim nx ny nz bx in
           match agent_loop dim nx ny nz bx false ms with
           | None => None
           | Some js => Some (mesh_jobs dim nx ny nz bx dx dy dz first m ++ js)
           end
  end.
Definition agent_jobs (dim nx ny nz : Z) (meshes : list (list tri)) : option (list bvInfo) :=
  match meshes with [] => Some [] | base :: _ => agent_loop dim nx ny nz (bounding_box base) true meshes end.

(** A file whose own model would have a region of no size. *)
Definition too_thin (dim nx ny nz : Z) (m : list tri) : bool :=
  let '(ax, ay, az) := region_dims3 dim nx ny nz (bounding_box m) in (ax =? 0) || (ay =? 0) || (az =? 0).

Lemma agent_loop_spec dim nx ny nz bx ms : forall first,
  agent_loop dim nx ny nz bx first ms =
  if existsb (too_thin dim nx ny nz) ms then None
  else let '(dx, dy, dz) := region_dims3 dim nx ny nz bx in
       Some (match ms with [] => [] | m :: ms' => mesh_jobs dim nx ny nz bx dx dy dz first m ++ flat_map (mesh_jobs dim nx ny nz bx dx dy dz false) ms' end).
Proof.
  induction ms as [|m ms IH]; intros first; [cbn [agent_loop existsb]; destruct (region_dims3 dim nx ny nz bx) as [[? ?] ?]; reflexivity|].
  cbn [agent_loop existsb]. unfold too_thin at 1. destruct (region_dims3 dim nx ny nz (bounding_box m)) as [[ax ay] az].
  destruct ((ax =? 0) || (ay =? 0) || (az =? 0)); [reflexivity|]. cbn [orb]. rewrite IH. destruct (region_dims3 dim nx ny nz bx) as [[dx dy] dz].
  destruct (existsb (too_thin dim nx ny nz) ms); [reflexivity|]. destruct ms as [|m' ms]; reflexivity.
Qed.

(** An agent has the jobs of the local program, or dies: because of the base, as the local program
    does, or because of a cut that is too thin by itself, which the local program accepts. *)
Theorem C53_agent dim nx ny nz base cuts :
  agent_jobs dim nx ny nz (base :: cuts) =
  if existsb (too_thin dim nx ny nz) cuts then None else mr_jobs dim nx ny nz (base :: cuts).
Proof.
  unfold agent_jobs. rewrite agent_loop_spec. cbn [existsb mr_jobs]. unfold too_thin at 1.
  destruct (region_dims3 dim nx ny nz (bounding_box base)) as [[dx dy] dz].
  destruct ((dx =? 0) || (dy =? 0) || (dz =? 0)); [destruct (existsb _ cuts); reflexivity|]. reflexivity.
Qed.
Print Assumptions C53_agent.

(** stl2svx/agent/agent.go:57-85 SliceJob: the image, or log.Fatal (the call fails). *)
Definition SliceJob (dim nx ny nz : Z) ord pord (meshes : list (list tri)) (zi : Z) : option image :=
  match agent_jobs dim nx ny nz meshes with
  | None => None
  | Some js => match run_jobs ord 0 js zi with None => None | Some vs => Some (imager dim pord vs) end
  end.

Lemma SliceJob_local dim nx ny nz ord pord base cuts zi img :
  SliceJob dim nx ny nz ord pord (base :: cuts) zi = Some img -> slice_image dim nx ny nz ord pord (base :: cuts) zi = Some img.
Proof. unfold SliceJob, slice_image. rewrite C53_agent. destruct (existsb _ cuts); [discriminate|]. auto. Qed.

(** ** The name pattern *)

Lemma strip_Some p : forall s r, strip p s = Some r -> s = p ++ r.
Proof.
  induction p as [|a p IH]; intros s r E; cbn [strip] in E; [injection E as ->; reflexivity|]. destruct s as [|b s]; [discriminate|].
  destruct (decide (a = b)) as [->|]; [|discriminate]. cbn. f_equal. apply IH, E.
Qed.

Lemma digit_not_dash b : is_digit b = true -> b <> x2d.
Proof. intros H ->. discriminate H. Qed.

Lemma middle_prefix (p D r t : list byte) (o : list byte) : 
  (exists D1, D = x2d :: D1) -> (exists D2, D = D2 ++ [x2d]) -> ~ In x2d o -> ~ In x2d t -> p ++ D ++ r = o ++ D ++ t -> p = o.
Proof.
  intros (D1 & E1) (D2 & E2) Ho Ht E.
  destruct (lt_eq_lt_dec (length p) (length o)) as [[Hlt|Heq]|Hgt].
  - exfalso. apply Ho. pose proof (f_equal (fun l => nth_error l (length p)) E) as N. cbv beta in N.
    rewrite nth_error_app2 in N by lia. rewrite Nat.sub_diag in N. rewrite E1 in N. cbn [app nth_error] in N. rewrite nth_error_app1 in N by lia. symmetry in N. eapply nth_error_In, N.
  - apply app_inj_1 in E as [E _]; [exact E|lia].
  - exfalso. apply Ht. assert (HD : length D = S (length D2)) by (rewrite E2, app_length; cbn; lia).
    pose proof (f_equal (fun l => nth_error l (length p + length D2)) E) as N. cbv beta in N.
    rewrite nth_error_app2 in N by lia. replace (length p + length D2 - length p)%nat with (length D2) in N by lia.
    rewrite nth_error_app1 in N by lia. rewrite E2 in N. rewrite nth_error_app2 in N by lia. rewrite Nat.sub_diag in N. cbn [nth_error] in N.
    rewrite nth_error_app2 in N by lia. rewrite <- E2 in N. rewrite nth_error_app2 in N by lia. symmetry in N. eapply nth_error_In, N.
Qed.

(** No pattern with another prefix than "out" matches the name of any slice. *)
Theorem C50_prefix dim nx ny nz p n : 0 <= n -> p <> txt "out" ->
  sscanf_slice (slice_dir dim nx ny nz p) (txt ".png") (slice_name dim nx ny nz n) = None.
Proof.
  intros Hn Hp. unfold sscanf_slice. destruct (strip (slice_dir dim nx ny nz p) (slice_name dim nx ny nz n)) as [r|] eqn:E; [|reflexivity].
  exfalso. apply Hp. apply strip_Some in E. unfold slice_name, slice_dir in E. rewrite <- !app_assoc in E. apply app_inv_head in E. apply app_inv_head in E.
  set (D := [x2d] ++ show_int dim ++ [x2d] ++ show_int nx ++ [x2d] ++ show_int ny ++ [x2d] ++ show_int nz ++ [x2d]) in *.
  assert (E' : p ++ D ++ r = txt "out" ++ D ++ pad4 n ++ txt ".png").
  { unfold D. rewrite <- !app_assoc. cbn [app]. cbn [app] in E. symmetry. exact E. }
  apply (middle_prefix p D r (pad4 n ++ txt ".png") (txt "out")); [eexists; reflexivity| | | |exact E'].
  - exists ([x2d] ++ show_int dim ++ [x2d] ++ show_int nx ++ [x2d] ++ show_int ny ++ [x2d] ++ show_int nz). unfold D. rewrite <- !app_assoc. reflexivity.
  - cbn. intros [?|[?|[?|[]]]]; discriminate.
  - intros Hin. apply in_app_iff in Hin as [Hin|Hin].
    + pose proof (pad4_digits n Hn) as Hd. rewrite forallb_forall in Hd. apply Hd in Hin. discriminate Hin.
    + revert Hin. cbn. intros [?|[?|[?|[?|[]]]]]; discriminate.
Qed.
Print Assumptions C50_prefix.

(** ** NewJob on real requests *)

Record svx_request := SvxRequest { r_dim : Z; r_nx : Z; r_ny : Z; r_nz : Z; r_prefix : list byte; r_base : list tri; r_cuts : list (list tri) }.

Definition r_slices (q : svx_request) : nat := Z.to_nat (kz (tile_dims (bounding_box (r_base q)) (r_dim q) (r_nx q) (r_ny q) (r_nz q))).
Definition r_name (q : svx_request) (n : Z) : list byte := slice_name (r_dim q) (r_nx q) (r_ny q) (r_nz q) n.
(** stl2svx/master/master.go:143-160 writeManifest *)
Definition r_manifest (q : svx_request) : entry := EManifest (make_manifest (r_dim q) (r_nx q) (r_ny q) (r_nz q) (r_prefix q) (bounding_box (r_base q))).
(** stl2svx/master/master.go:162-181 writeBlankImages *)
Definition r_blanks (q : svx_request) : list entry :=
  let bl := black_image (r_dim q + 2) (r_dim q + 2) in [ESlice (r_name q 0) bl; ESlice (r_name q (Z.of_nat (r_slices q) + 1)) bl].
(** stl2svx/master/master.go:110-122 *)
Definition r_slice (q : svx_request) (z : nat) (img : image) : entry := ESlice (r_name q (Z.of_nat z + 1)) img.

Section Distributed.
  Context {addr : Type} `{Countable addr}.
  Notation one := (@one_at_a_time addr image svx_request entry _ _ r_slices r_manifest r_blanks r_slice).

  (** The calls of a history answer with what an agent computes. *)
  Definition true_agents (t : list (@label addr image svx_request)) (j : nat) (q : svx_request) : Prop :=
    forall z img, In (LCallOk j z img) t -> exists ord pord, (forall n, some_order (ord n)) /\ some_order pord /\
      SliceJob (r_dim q) (r_nx q) (r_ny q) (r_nz q) ord pord (r_base q :: r_cuts q) (Z.of_nat z) = Some img.

  (** One NewJob at a time, no failed call, -prefix out: the archive reads back as the local one does. *)
  Theorem C50_distributed t m j b r : one t m -> jobs m !! j = Some b -> ph b = JReturned r ->
    let q := req b in let bx := bounding_box (r_base q) in
    good bx (r_dim q) (r_nx q) (r_ny q) 1 -> r_nz q = 1 -> (forall x, In x (r_base q :: r_cuts q) -> distinct_pointers x) ->
    true_agents t j q -> (forall z, ~ In (LCallErr j z) t) ->
    let td := tile_dims bx (r_dim q) (r_nx q) (r_ny q) 1 in
    exists es, r = ROk es true /\
      (r_prefix q <> txt "out" -> svx_read es = inl EName) /\
      (r_prefix q = txt "out" -> kz td + 1 < 10000 -> exists v, svx_read es = inr (Some v) /\
        NX v = NX (whole bx (r_dim q)) + 2 /\ NY v = NZ (whole bx (r_dim q)) + 2 /\ NZ v = NY (whole bx (r_dim q)) + 2 /\
        forall k, k ∈ white v <-> exists x y z, k = (x + 1, r_dim q - y, z + 1) /\
          0 <= x < r_nx q * kx td /\ 0 <= y < r_ny q * ky td /\ 0 <= z < kz td /\ carved bx (r_dim q) (r_base q) (r_cuts q) (x, y, z)).
  Proof.
    intros Ho Hb Hph q bx Hg Hnz Hnd Hta Hne td.
    destruct (C50_archive _ _ _ _ t m j b r Ho Hb Hph) as (l & -> & Hdup & Hok & Herr & Hlt). fold q in Hok, Herr, Hlt |- *.
    eexists. split; [reflexivity|]. pose proof Hg as (Hs & Hx & Hy & Hz). fold td in Hx, Hy, Hz.
    assert (Hsl : Z.of_nat (r_slices q) = kz td) by (unfold r_slices; rewrite Hnz; fold bx td; lia).
    assert (Hshow : forall z img, In (z, img) l -> 0 <= Z.of_nat z < kz td /\ shows bx (r_dim q) (r_nx q) (r_ny q) (kx td) (ky td) (r_base q) (r_cuts q) (Z.of_nat z) img).
    { intros z img Hin. pose proof (Hlt z img Hin) as Hz'. assert (Hzr : 0 <= Z.of_nat z < kz td) by lia. split; [exact Hzr|].
      apply Hok, Hta in Hin as (ord & pord & Hord & Hpord & Hj). apply SliceJob_local in Hj. rewrite Hnz in Hj.
      pose proof (C45_slice_image (r_dim q) (r_nx q) (r_ny q) ord pord (r_base q) (r_cuts q) (Z.of_nat z) Hg Hnd Hord Hpord Hzr) as (img' & Hj' & Hsh).
      rewrite Hj in Hj'. injection Hj' as <-. exact Hsh. }
    split.
    - intros Hpre. unfold r_manifest, r_blanks. cbn [app]. unfold svx_read. cbn [svx_loop make_manifest slice_prefix slice_suffix]. unfold r_name. rewrite C50_prefix by (lia || exact Hpre). reflexivity.
    - intros Hpre Hlt4. unfold r_manifest. rewrite Hpre, Hnz.
      pose proof (read_slices (r_dim q) (r_nx q) (r_ny q) (r_base q) (r_cuts q) (r_blanks q ++ map (fun zp => r_slice q (fst zp) (snd zp)) l) Hg) as R. fold bx td in R. cbv zeta in R.
      replace (kz td + 1 <? 10000) with true in R by lia. apply R; clear R.
      + intros e He. apply in_app_iff in He as [[<-|[<-|[]]]|He].
        * left. unfold r_name. rewrite Hnz. reflexivity.
        * right. left. unfold r_name. rewrite Hnz, Hsl. reflexivity.
        * right. right. apply in_map_iff in He as ([z img] & <- & Hin). cbn [fst snd]. exists (Z.of_nat z), img. destruct (Hshow z img Hin) as [H1 H2].
          split; [exact H1|]. split; [unfold r_slice, r_name; rewrite Hnz; reflexivity|exact H2].
      + apply in_app_iff. left. right. left. unfold r_name. rewrite Hnz, Hsl. reflexivity.
      + intros z Hzr. assert (Hn : (Z.to_nat z < r_slices q)%nat) by lia.
        assert (Hex : exists img, In (Z.to_nat z, img) l).
        { destruct (in_dec Nat.eq_dec (Z.to_nat z) (map fst l)) as [Hin|Hnin]; [apply in_map_iff in Hin as ([z' img] & E & Hin); cbn in E; subst; eauto|].
          exfalso. apply (Hne (Z.to_nat z)). apply (Herr _ Hn). intros p Hp. apply Hnin. apply in_map_iff. exists (Z.to_nat z, p). auto. }
        destruct Hex as (img & Hin). exists img. split.
        * apply in_app_iff. right. apply in_map_iff. exists (Z.to_nat z, img). split; [|exact Hin]. cbn [fst snd]. unfold r_slice, r_name. rewrite Hnz. do 2 f_equal. lia.
        * destruct (Hshow _ _ Hin) as [_ H2]. rewrite Z2Nat.id in H2 by lia. exact H2.
  Qed.
End Distributed.
Print Assumptions C50_distributed.

(** A cut that lies flat: the local program slices with it, an agent dies of it. *)
Example C53_agent_ex : agent_jobs 4 1 1 3 [box_mesh 0 0 0 4 4 4; box_mesh 0 0 0 4 4 1] = None /\ mr_jobs 4 1 1 3 [box_mesh 0 0 0 4 4 4; box_mesh 0 0 0 4 4 1] <> None.
Proof. split; [vm_compute; reflexivity|]. vm_compute. discriminate. Qed.
