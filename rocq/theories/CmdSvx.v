(** C72: svx2stl over a directory; C73: stl2svx-client and its part of the way from STL files to an STL file;
    C74: the address under which an agent registers.

    ZIP files, STL files and the call of the master are parameters.  Simplified: flag parsing, logging and
    errors of writing are left out; the directory is that of CmdMergeModel. *)
From Verif Require Import FloatTextQ Base BaseLemmas BinvoxModel Geom VoxelizeModel VoxelizeSpec MeshSpec MarchModel MarchProps MeshInside MeshNear MeshSolid
  StldiceModel StldiceProps CmdMergeModel CmdStlModel SvxModel SvxProps SvxReadProps MasterModel MasterProps MasterJobs MasterSvx.
From Coq Require Import ZArith QArith List Bool String Init.Byte Lia Permutation.
From stdpp Require Import base list gmap sets fin_sets.
Import ListNotations.
Open Scope Z_scope.

(** ** svx2stl *)

(** strings.TrimSuffix *)
Definition TrimSuffix (s suffix : list byte) : list byte :=
  if decide (skipn (List.length s - List.length suffix) s = suffix) then firstn (List.length s - List.length suffix) s else s.

(** cmd/svx2stl/main.go:35 *)
Definition stl_name (f : list byte) : list byte := TrimSuffix f (txt ".svx") ++ txt ".stl".

Section Svx2stl.
  Context (unzip : list byte -> option (list entry)) (save : list face -> list byte) (order : binvox Q -> list key).

  (** cmd/svx2stl/main.go:27-50 main after flag parsing; an archive without any entry gives a nil model, whose
      method MarchingCubes panics. *)
  Fixpoint svx2stl (d : dir) (files : list (list byte)) : dir * exit :=
    match files with
    | [] => (d, Finished)
    | f :: files =>
        match d f with
        | None => (d, Fatal)
        | Some bytes =>
            match unzip bytes with
            | None => (d, Fatal)
            | Some es =>
                match svx_read es with
                | inl _ => (d, Fatal)
                | inr None => (d, Crashed)
                | inr (Some model) =>
                    match MarchingCubes model (order model) with
                    | None => (d, Crashed)
                    | Some mesh => svx2stl (put_file d (stl_name f, save mesh)) files
                    end
                end
            end
        end
    end.
End Svx2stl.

(** ** stl2svx-client *)

(** strings.Split with a separator of one byte. *)
Fixpoint Split (sep : byte) (s : list byte) : list (list byte) :=
  match s with
  | [] => [[]]
  | c :: s => if Byte.eqb c sep then [] :: Split sep s else match Split sep s with [] => [[c]] | w :: ws => (c :: w) :: ws end
  end.

Section Client.
  Context {error : Type} (load : list byte -> error + list tri).

  (** stl2svx/stl2svx-client/stl2svx-client.go:78-99 loadSTL. *)
  Fixpoint loadSTL (d : dir) (args : list (list byte)) : option (list (list tri)) :=
    match args with
    | [] => Some []
    | a :: args =>
        match d a with
        | None => None
        | Some bytes => match load bytes with inl _ => None | inr m => option_map (cons m) (loadSTL d args) end
        end
    end.

  (** stl2svx/stl2svx-client/stl2svx-client.go:70 *)
  Definition svx_name (prefix : list byte) (dim nx ny nz : Z) : list byte :=
    prefix ++ txt "-" ++ show_int dim ++ txt "-" ++ show_int nx ++ txt "-" ++ show_int ny ++ txt "-" ++ show_int nz ++ txt ".svx".

  (** stl2svx/stl2svx-client/stl2svx-client.go:34-76 main; [newjob] is the call of the master, [None] an error. *)
  Definition client (newjob : svx_request -> option (list byte)) (stl prefix : list byte) (dim nx ny nz : Z) (d : dir) : dir * exit :=
    match stl with
    | [] => (d, Fatal)
    | _ =>
        match loadSTL d (Split x2c stl) with
        | None | Some [] => (d, Fatal)
        | Some (base :: cuts) =>
            match newjob (SvxRequest dim nx ny nz prefix base cuts) with
            | None => (d, Fatal)
            | Some svx => (put_file d (svx_name prefix dim nx ny nz, svx), Finished)
            end
        end
    end.
End Client.

(** ** stl2svx-server *)

(** net.Addr: what String gives for the IP of a *net.IPNet or *net.IPAddr. *)
Inductive ifaddr := IPNet (s : list byte) | IPAddr (s : list byte) | OtherAddr.

Definition has_prefix (p s : list byte) : bool := if decide (firstn (List.length p) s = p) then true else false.
Definition has_byte (c : byte) (s : list byte) : bool := existsb (Byte.eqb c) s.

(** stl2svx/stl2svx-server/stl2svx-server.go:65-81 the loop over the addresses of one interface: the result so
    far, or the address to return. *)
Fixpoint scan_addrs (result : list byte) (addrs : list ifaddr) : list byte * bool :=
  match addrs with
  | [] => (result, false)
  | IPNet ip :: addrs => if negb (has_prefix (txt "127.") ip) && negb (has_byte x3a ip) then (ip, true) else scan_addrs ip addrs
  | IPAddr ip :: addrs => scan_addrs ip addrs
  | OtherAddr :: addrs => scan_addrs result addrs
  end.
(** stl2svx/stl2svx-server/stl2svx-server.go:59-83; [None] is an interface whose addresses cannot be listed. *)
Fixpoint scan_ifaces (result : list byte) (ifaces : list (option (list ifaddr))) : list byte :=
  match ifaces with
  | [] => result
  | None :: ifaces => scan_ifaces result ifaces
  | Some addrs :: ifaces => let '(result, stop) := scan_addrs result addrs in if stop then result else scan_ifaces result ifaces
  end.
(** stl2svx/stl2svx-server/stl2svx-server.go:50-85 getAddress. *)
Definition getAddress (listener : list byte) (ifaces : list (option (list ifaddr))) : list byte :=
  scan_ifaces [] ifaces ++ txt ":" ++ List.last (Split x3a listener) [].

(** ** Specification *)

Definition svx_file (stem : list byte) : list byte := stem ++ txt ".svx".
Definition stl_file (stem : list byte) : list byte := stem ++ txt ".stl".

(** The archive in a file. *)
Definition archive_in (unzip : list byte -> option (list entry)) (d : dir) (f : list byte) (es : list entry) : Prop :=
  exists bytes, d f = Some bytes /\ unzip bytes = Some es.

(** [svx2stl] has converted the file of a stem: the STL file holds the MarchingCubes mesh of the archive's model. *)
Definition converted (unzip : list byte -> option (list entry)) (save : list face -> list byte) (order : binvox Q -> list key) (d d' : dir) (stem : list byte) : Prop :=
  exists es model mesh, archive_in unzip d (svx_file stem) es /\ svx_read es = inr (Some model) /\ MarchingCubes model (order model) = Some mesh /\
    d' (stl_file stem) = Some (save mesh).

(** ** Proofs: names *)
Lemma trim_svx stem : TrimSuffix (svx_file stem) (txt ".svx") = stem.
Proof.
  unfold TrimSuffix, svx_file. rewrite app_length, Nat.add_sub. rewrite List.skipn_app, List.skipn_all, Nat.sub_diag. cbn [app skipn].
  rewrite decide_True by reflexivity. rewrite List.firstn_app, List.firstn_all, Nat.sub_diag. cbn [firstn]. apply app_nil_r.
Qed.
Lemma stl_name_svx stem : stl_name (svx_file stem) = stl_file stem.
Proof. unfold stl_name. rewrite trim_svx. reflexivity. Qed.
Lemma stl_file_inj a b : stl_file a = stl_file b -> a = b.
Proof. apply app_inv_tail. Qed.
Lemma svx_not_stl a b : svx_file a <> stl_file b.
Proof.
  unfold svx_file, stl_file. intros E. apply (f_equal (@rev byte)) in E. rewrite !rev_app_distr in E. cbn in E. discriminate E.
Qed.

Lemma put_same d n bytes : put_file d (n, bytes) n = Some bytes.
Proof. unfold put_file. cbn [fst snd]. apply decide_True. reflexivity. Qed.
Lemma put_other d n bytes n' : n' <> n -> put_file d (n, bytes) n' = d n'.
Proof. unfold put_file. cbn [fst snd]. apply decide_False. Qed.

Lemma read_empty es : svx_read es = inr None <-> es = [].
Proof.
  split; [|intros ->; reflexivity]. unfold svx_read. assert (G : forall es st, st <> None -> svx_loop st es <> inr None).
  { clear. induction es as [|[m|name img] es IH]; intros [[m0 w]|] Hst; try contradiction; cbn [svx_loop]; [discriminate|apply IH; discriminate|].
    destruct (sscanf_slice _ _ name); [apply IH; discriminate|discriminate]. }
  destruct es as [|[m|name img] es]; [reflexivity| |]; cbn [svx_loop].
  - intros H. destruct (svx_loop (Some (m, ∅)) es) as [e|[[m' w']|]] eqn:E; try discriminate H. exfalso. apply (G es (Some (m, ∅))); [discriminate|exact E].
  - discriminate.
Qed.

(** ** Proofs: svx2stl *)
Section Svx2stlProps.
  Context (unzip : list byte -> option (list entry)) (save : list face -> list byte) (order : binvox Q -> list key)
    (Horder : forall b, Permutation (order b) (elements (grid_cells b))).

  Lemma mc_some b : exists m, MarchingCubes b (order b) = Some m /\ closed_mesh m.
  Proof using Horder. apply C33_closed, Horder. Qed.

  (** A run over files named x.svx handles some first part of them, leaves all other files alone, and stops only
      at the end, at a file that is missing, no archive or refused by the reader, or (panicking) at an archive
      without entries. *)
  Theorem C72_svx2stl stems d d' e : svx2stl unzip save order d (map svx_file stems) = (d', e) ->
    exists finished rest, stems = finished ++ rest /\
      (forall n, ~ In n (map stl_file finished) -> d' n = d n) /\
      (forall stem, In stem finished -> converted unzip save order d d' stem) /\
      match e with
      | Finished => rest = []
      | Fatal => exists stem rest', rest = stem :: rest' /\ (d (svx_file stem) = None \/
          (exists bytes, d (svx_file stem) = Some bytes /\ unzip bytes = None) \/
          (exists es er, archive_in unzip d (svx_file stem) es /\ svx_read es = inl er))
      | Crashed => exists stem rest', rest = stem :: rest' /\ archive_in unzip d (svx_file stem) []
      end.
  Proof using Horder.
    revert d d' e. induction stems as [|stem stems IH]; intros d d' e E; cbn [map svx2stl] in E.
    { injection E as <- <-. exists [], []. split; [reflexivity|]. split; [reflexivity|]. split; [intros ? []|reflexivity]. }
    destruct (d (svx_file stem)) as [bytes|] eqn:Ed.
    2:{ injection E as <- <-. exists [], (stem :: stems). split; [reflexivity|]. split; [reflexivity|]. split; [intros ? []|]. eauto 10. }
    destruct (unzip bytes) as [es|] eqn:Eu.
    2:{ injection E as <- <-. exists [], (stem :: stems). split; [reflexivity|]. split; [reflexivity|]. split; [intros ? []|]. eauto 10. }
    assert (Ha : archive_in unzip d (svx_file stem) es) by (exists bytes; auto).
    destruct (svx_read es) as [er|[model|]] eqn:Er.
    - injection E as <- <-. exists [], (stem :: stems). split; [reflexivity|]. split; [reflexivity|]. split; [intros ? []|]. eauto 12.
    - destruct (mc_some model) as (mesh & Em & _). rewrite Em, stl_name_svx in E.
      destruct (IH _ _ _ E) as (fin & rest & -> & Hother & Hconv & Hend). exists (stem :: fin), rest.
      assert (Hsvx : forall s, put_file d (stl_file stem, save mesh) (svx_file s) = d (svx_file s)) by (intros s; apply put_other, svx_not_stl).
      assert (Harch : forall s es, archive_in unzip (put_file d (stl_file stem, save mesh)) (svx_file s) es <-> archive_in unzip d (svx_file s) es)
        by (intros s es'; unfold archive_in; rewrite Hsvx; reflexivity).
      split; [reflexivity|]. split; [|split].
      + intros n Hn. cbn [map In] in Hn. rewrite Hother by tauto. apply put_other. intros ->. apply Hn. auto.
      + assert (Hfin : forall s, In s fin -> converted unzip save order d d' s).
        { intros s Hs. destruct (Hconv s Hs) as (es' & model' & mesh' & H1 & H). exists es', model', mesh'. rewrite <- Harch. auto. }
        intros s [<-|Hs]; [|apply Hfin, Hs].
        destruct (in_dec (List.list_eq_dec Byte.byte_eq_dec) stem fin) as [Hin|Hn]; [apply Hfin, Hin|].
        exists es, model, mesh. split; [exact Ha|]. split; [exact Er|]. split; [exact Em|].
        rewrite Hother; [apply put_same|]. intros Hin. apply in_map_iff in Hin as (s' & Es & Hin). apply stl_file_inj in Es as ->. contradiction.
      + destruct e; [exact Hend| |].
        * destruct Hend as (s & rest' & -> & H). exists s, rest'. split; [reflexivity|]. rewrite Hsvx in H. setoid_rewrite Harch in H. exact H.
        * destruct Hend as (s & rest' & -> & H). exists s, rest'. split; [reflexivity|]. rewrite Harch in H. exact H.
    - injection E as <- <-. apply read_empty in Er as ->. exists [], (stem :: stems). split; [reflexivity|]. split; [reflexivity|]. split; [intros ? []|]. eauto.
  Qed.

  (** What is then in the STL file: a closed mesh that winds once around every voxel of the model and not around
      any other. *)
  Definition good_mesh (model : binvox Q) (mesh : list face) : Prop :=
    closed_mesh mesh /\ encloses model mesh (filled model).

  Lemma vpmm_pos (b : binvox Q) : 0 < BinvoxModel.dim b -> (0 < vpmm b)%Q.
  Proof.
    intros H. unfold vpmm. destruct (Qle_bool (Scale b) 0) eqn:E; [reflexivity|]. apply not_true_iff_false in E. rewrite Qle_bool_iff in E. apply Qnot_le_lt in E.
    unfold Qdiv. apply Qmult_lt_0_compat; [change 0%Q with (inject_Z 0); rewrite <- Zlt_Qlt; exact H|apply Qinv_lt_0_compat, E].
  Qed.

  Theorem C72_mesh d d' stem : converted unzip save order d d' stem ->
    exists es model mesh, archive_in unzip d (svx_file stem) es /\ svx_read es = inr (Some model) /\ d' (stl_file stem) = Some (save mesh) /\
      (0 < BinvoxModel.dim model -> good_mesh model mesh).
  Proof using Horder.
    intros (es & model & mesh & Ha & Er & Em & Hd). exists es, model, mesh. split; [exact Ha|]. split; [exact Er|]. split; [exact Hd|].
    intros Hdim. split.
    - destruct (mc_some model) as (m & Em' & Hc). rewrite Em in Em'. injection Em' as <-. exact Hc.
    - apply (encloses_marching_cubes model (order model) mesh (vpmm_pos model Hdim) (Horder model) Em).
  Qed.

  (** *** From STL files to an STL file *)
  Lemma read_colors es b : svx_read es = inr (Some b) -> colors b = ∅.
  Proof. unfold svx_read. destruct (svx_loop None es) as [e|[[m w]|]]; try discriminate. intros E. injection E as <-. reflexivity. Qed.
  Lemma filled_white es b k : svx_read es = inr (Some b) -> filled b k <-> k ∈ white b.
  Proof. intros E. unfold filled. rewrite (read_colors es b E), lookup_empty. split; [intros [H|[x H]]; [exact H|discriminate]|auto]. Qed.

  Lemma svx2stl_one d stem es : archive_in unzip d (svx_file stem) es ->
    match svx_read es with
    | inl _ => svx2stl unzip save order d [svx_file stem] = (d, Fatal)
    | inr None => svx2stl unzip save order d [svx_file stem] = (d, Crashed)
    | inr (Some model) => exists d' mesh, svx2stl unzip save order d [svx_file stem] = (d', Finished) /\ (forall n, n <> stl_file stem -> d' n = d n) /\
        d' (stl_file stem) = Some (save mesh) /\ (0 < BinvoxModel.dim model -> good_mesh model mesh)
    end.
  Proof using Horder.
    intros (bytes & Hd & Hu). cbn [svx2stl]. rewrite Hd, Hu. destruct (svx_read es) as [er|[model|]] eqn:Er; [reflexivity| |reflexivity].
    destruct (mc_some model) as (mesh & Em & Hc). rewrite Em, stl_name_svx. eexists _, mesh. split; [reflexivity|].
    split; [intros n Hn; apply put_other, Hn|]. split; [apply put_same|]. intros Hdim. split; [exact Hc|].
    apply (encloses_marching_cubes model (order model) mesh (vpmm_pos model Hdim) (Horder model) Em).
  Qed.

  Lemma dim_pos bx dim nx ny (b : binvox Q) : good bx dim nx ny 1 -> NX b = NX (whole bx dim) + 2 -> 0 < BinvoxModel.dim b.
  Proof.
    intros (Hs & Hx & _) E. pose proof (C42_lost_layers bx dim nx ny 1 Hs) as (L & _). cbv zeta in L. pose proof Hs as (_ & _ & _ & _ & _ & Hnx & _).
    pose proof (Z.mod_pos_bound (NX (whole bx dim)) nx Hnx). assert (0 <= nx * kx (tile_dims bx dim nx ny 1)) by (apply Z.mul_nonneg_nonneg; lia).
    unfold BinvoxModel.dim. destruct (Z.gtb_spec (NY b) (NX b)); [destruct (Z.gtb_spec (NZ b) (NY b))|destruct (Z.gtb_spec (NZ b) (NX b))]; lia.
  Qed.

  (** The archive of stl2svx in x.svx (one region in z, fewer than 9999 slices): svx2stl writes x.stl, the mesh of a
      model whose voxels are those of the base minus the cuts, one further on in x and z and mirrored in y.  With
      more slices it stops and writes nothing. *)
  Theorem C72_stl2svx dim nx ny ord pord base cuts es d stem :
    let bx := bounding_box base in let td := tile_dims bx dim nx ny 1 in
    good bx dim nx ny 1 -> (forall m, In m (base :: cuts) -> distinct_pointers m) -> (forall z n, some_order (ord z n)) -> (forall z, some_order (pord z)) ->
    svx_archive dim nx ny 1 ord pord (base :: cuts) = Some es -> archive_in unzip d (svx_file stem) es ->
    if kz td + 1 <? 10000 then
      exists d' model mesh, svx2stl unzip save order d [svx_file stem] = (d', Finished) /\ (forall n, n <> stl_file stem -> d' n = d n) /\
        d' (stl_file stem) = Some (save mesh) /\ good_mesh model mesh /\
        forall k, filled model k <-> exists x y z, k = (x + 1, dim - y, z + 1) /\
          0 <= x < nx * kx td /\ 0 <= y < ny * ky td /\ 0 <= z < kz td /\ carved bx dim base cuts (x, y, z)
    else svx2stl unzip save order d [svx_file stem] = (d, Fatal).
  Proof using Horder.
    intros bx td Hg Hnd Ho Hp Hes Ha. destruct (C47_roundtrip dim nx ny ord pord base cuts Hg Hnd Ho Hp) as (es' & Hes' & H). rewrite Hes in Hes'. injection Hes' as <-.
    fold bx td in H. pose proof (svx2stl_one d stem es Ha) as G. destruct (kz td + 1 <? 10000).
    - destruct H as (b & Er & HX & _ & _ & Hw). rewrite Er in G. destruct G as (d' & mesh & G1 & G2 & G3 & G4). exists d', b, mesh.
      split; [exact G1|]. split; [exact G2|]. split; [exact G3|]. split; [apply G4, (dim_pos bx dim nx ny b Hg HX)|].
      intros k. rewrite (filled_white es b k Er). apply Hw.
    - rewrite H in G. exact G.
  Qed.
End Svx2stlProps.


(** ** Proofs: the client *)

(** strings.Join with a separator of one byte. *)
Fixpoint join (sep : byte) (ws : list (list byte)) : list byte :=
  match ws with [] => [] | [w] => w | w :: ws => w ++ sep :: join sep ws end.

Lemma eqb_byte a b : Byte.eqb a b = true <-> a = b.
Proof. split; [apply Byte.byte_dec_bl|apply Byte.byte_dec_lb]. Qed.
Lemma eqb_byte_refl a : Byte.eqb a a = true.
Proof. apply eqb_byte. reflexivity. Qed.

Lemma split_word sep w s : ~ In sep w -> Split sep (w ++ sep :: s) = w :: Split sep s.
Proof.
  intros H. induction w as [|c w IH]; cbn [app Split]; [rewrite eqb_byte_refl; reflexivity|].
  destruct (Byte.eqb c sep) eqn:E; [apply eqb_byte in E; subst; exfalso; apply H; left; reflexivity|]. rewrite IH; [reflexivity|]. intros Hin. apply H. right. exact Hin.
Qed.
Lemma split_end sep w : ~ In sep w -> Split sep w = [w].
Proof.
  intros H. induction w as [|c w IH]; [reflexivity|]. cbn [Split]. destruct (Byte.eqb c sep) eqn:E; [apply eqb_byte in E; subst; exfalso; apply H; left; reflexivity|].
  rewrite IH; [reflexivity|]. intros Hin. apply H. right. exact Hin.
Qed.
Lemma split_join sep ws : ws <> [] -> Forall (fun w => ~ In sep w) ws -> Split sep (join sep ws) = ws.
Proof.
  intros Hne H. induction H as [|w ws Hw Hws IH]; [contradiction|]. destruct ws as [|w' ws]; cbn [join]; [apply split_end, Hw|].
  rewrite split_word by exact Hw. f_equal. apply IH. discriminate.
Qed.
Lemma split_nonempty sep s : Split sep s <> [].
Proof. destruct s as [|c s]; [discriminate|]. cbn [Split]. destruct (Byte.eqb c sep); [discriminate|]. destruct (Split sep s); discriminate. Qed.
Lemma split_two sep host port : exists w ws, Split sep (host ++ sep :: port) = w :: ws /\ ws <> [] /\ List.last ws [] = List.last (Split sep port) [].
Proof.
  induction host as [|c host (w & ws & E & Hne & Hl)]; cbn [app Split].
  - rewrite eqb_byte_refl. exists [], (Split sep port). split; [reflexivity|]. split; [apply split_nonempty|reflexivity].
  - rewrite E. destruct (Byte.eqb c sep); [exists [], (w :: ws)|exists (c :: w), ws].
    + split; [reflexivity|]. split; [discriminate|]. rewrite <- Hl. destruct ws; [contradiction|reflexivity].
    + auto.
Qed.
Lemma split_last sep host port : ~ In sep port -> List.last (Split sep (host ++ sep :: port)) [] = port.
Proof.
  intros H. destruct (split_two sep host port) as (w & ws & -> & Hne & Hl). rewrite (split_end sep port H) in Hl. destruct ws; [contradiction|]. exact Hl.
Qed.

Section ClientProps.
  Context {error : Type} (load : list byte -> error + list tri).

  (** The meshes in the named files, in order. *)
  Definition meshes_in (d : dir) (names : list (list byte)) (ms : list (list tri)) : Prop :=
    Forall2 (fun n m => exists bytes, d n = Some bytes /\ load bytes = inr m) names ms.

  Lemma loadSTL_iff d names ms : loadSTL load d names = Some ms <-> meshes_in d names ms.
  Proof.
    revert ms. induction names as [|n names IH]; intros ms; cbn [loadSTL].
    - split; [intros E; injection E as <-; constructor|intros H; inversion H; reflexivity].
    - split.
      + destruct (d n) as [bytes|] eqn:Ed; [|discriminate]. destruct (load bytes) as [e|m] eqn:El; [discriminate|].
        destruct (loadSTL load d names) as [ms'|] eqn:E; [|discriminate]. intros H. injection H as <-. constructor; [eauto|]. apply IH. reflexivity.
      + intros H. inversion H as [|? m ? ms' (bytes & Hd & Hl) Hrest]; subst. rewrite Hd, Hl. apply IH in Hrest. rewrite Hrest. reflexivity.
  Qed.

  (** With -stl a,b,c the client sends the triangles of those files in that order and writes the answer, whole, to
      prefix-dim-nx-ny-nz.svx; if a file cannot be read or the master fails it writes nothing. *)
  Theorem C73_client newjob names prefix dim nx ny nz d : Forall (fun n => ~ In x2c n) names -> join x2c names <> [] ->
    match client load newjob (join x2c names) prefix dim nx ny nz d with
    | (d', Finished) => exists base cuts svx, meshes_in d names (base :: cuts) /\ newjob (SvxRequest dim nx ny nz prefix base cuts) = Some svx /\
        d' (svx_name prefix dim nx ny nz) = Some svx /\ forall n, n <> svx_name prefix dim nx ny nz -> d' n = d n
    | (d', Fatal) => d' = d /\ ((~ exists ms, meshes_in d names ms) \/
        exists base cuts, meshes_in d names (base :: cuts) /\ newjob (SvxRequest dim nx ny nz prefix base cuts) = None)
    | (d', Crashed) => False
    end.
  Proof.
    intros Hc Hne. assert (Hn : names <> []) by (intros ->; apply Hne; reflexivity). unfold client.
    rewrite (split_join x2c names Hn Hc). destruct (join x2c names) as [|c0 s0]; [contradiction|].
    destruct (loadSTL load d names) as [ms|] eqn:E.
    - apply loadSTL_iff in E. destruct ms as [|base cuts]; [inversion E; subst; contradiction|].
      destruct (newjob (SvxRequest dim nx ny nz prefix base cuts)) as [svx|] eqn:Ej.
      + exists base, cuts, svx. split; [exact E|]. split; [exact Ej|]. split; [apply put_same|]. intros n Hn'. apply put_other, Hn'.
      + split; [reflexivity|]. right. exists base, cuts. auto.
    - split; [reflexivity|]. left. intros (ms & H). apply loadSTL_iff in H. congruence.
  Qed.
End ClientProps.

(** Different requests (with numbers that are not negative) go to different files; negative numbers can clash. *)
Lemma last_dash (a b t t' : list byte) : ~ In x2d t -> ~ In x2d t' -> a ++ txt "-" ++ t = b ++ txt "-" ++ t' -> a = b /\ t = t'.
Proof.
  change (txt "-") with [x2d]. intros Ht Ht' E. apply app_eq_inv in E as [(k & -> & E)|(k & -> & E)]; destruct k as [|c k].
  - rewrite app_nil_r. injection E as ->. auto.
  - exfalso. cbn [app] in E. injection E as <- ->. apply Ht'. apply in_app_iff. right. left. reflexivity.
  - rewrite app_nil_r. injection E as ->. auto.
  - exfalso. cbn [app] in E. injection E as <- ->. apply Ht. apply in_app_iff. right. left. reflexivity.
Qed.
Lemma no_dash n : 0 <= n -> ~ In x2d (show_int n).
Proof.
  intros Hn Hin. rewrite (show_int_nonneg n Hn) in Hin. pose proof (show_nat_digits n Hn) as H. rewrite forallb_forall in H. apply H in Hin. discriminate.
Qed.

Theorem C73_names p dim nx ny nz p' dim' nx' ny' nz' : 0 <= dim -> 0 <= nx -> 0 <= ny -> 0 <= nz -> 0 <= dim' -> 0 <= nx' -> 0 <= ny' -> 0 <= nz' ->
  svx_name p dim nx ny nz = svx_name p' dim' nx' ny' nz' -> p = p' /\ dim = dim' /\ nx = nx' /\ ny = ny' /\ nz = nz'.
Proof.
  intros. unfold svx_name in *.
  assert (E : ((((p ++ txt "-" ++ show_int dim) ++ txt "-" ++ show_int nx) ++ txt "-" ++ show_int ny) ++ txt "-" ++ show_int nz) ++ txt ".svx" =
    ((((p' ++ txt "-" ++ show_int dim') ++ txt "-" ++ show_int nx') ++ txt "-" ++ show_int ny') ++ txt "-" ++ show_int nz') ++ txt ".svx").
  { rewrite <- !app_assoc. assumption. }
  apply app_inv_tail in E.
  apply last_dash in E as [E E4]; [|apply no_dash; assumption..]. apply last_dash in E as [E E3]; [|apply no_dash; assumption..].
  apply last_dash in E as [E E2]; [|apply no_dash; assumption..]. apply last_dash in E as [E E1]; [|apply no_dash; assumption..].
  assert (I : forall a b, show_int a = show_int b -> a = b) by (intros a b E'; rewrite <- (parse_show_int a), E'; apply parse_show_int).
  auto 6.
Qed.
Example C73_names_clash : svx_name (txt "out") (-1) 1 1 1 = svx_name (txt "out-") 1 1 1 1.
Proof. reflexivity. Qed.

(** *** The whole way *)
Section Pipeline.
  Context {error : Type} (load : list byte -> error + list tri) (unzip : list byte -> option (list entry)) (save : list face -> list byte) (order : binvox Q -> list key)
    (Horder : forall b, Permutation (order b) (elements (grid_cells b))).
  Context {addr : Type} `{Countable addr}.
  Notation one := (@one_at_a_time addr image svx_request entry _ _ r_slices r_manifest r_blanks r_slice).

  (** stl2svx-client -stl ..., a master that runs one job at a time and agents that do not fail, then svx2stl on the
      client's file: if the prefix is "out", svx2stl writes the mesh of the base minus the cuts; if it is anything
      else svx2stl refuses the file. *)
  Theorem C73_pipeline newjob names prefix dim nx ny d d1 t m j b r :
    Forall (fun n => ~ In x2c n) names -> join x2c names <> [] ->
    client load newjob (join x2c names) prefix dim nx ny 1 d = (d1, Finished) ->
    (forall q svx, newjob q = Some svx -> exists es, unzip svx = Some es /\ req b = q /\ r = ROk es true) ->
    one t m -> jobs m !! j = Some b -> ph b = JReturned r -> true_agents t j (req b) -> (forall z, ~ In (LCallErr j z) t) ->
    exists base cuts, meshes_in load d names (base :: cuts) /\
      let bx := bounding_box base in let td := tile_dims bx dim nx ny 1 in let stem := prefix ++ txt "-" ++ show_int dim ++ txt "-" ++ show_int nx ++ txt "-" ++ show_int ny ++ txt "-1" in
      (good bx dim nx ny 1 -> (forall x, In x (base :: cuts) -> distinct_pointers x) -> kz td + 1 < 10000 ->
       if decide (prefix = txt "out") then
         exists d2 model mesh, svx2stl unzip save order d1 [svx_file stem] = (d2, Finished) /\ (forall n, n <> stl_file stem -> d2 n = d1 n) /\
           d2 (stl_file stem) = Some (save mesh) /\ good_mesh model mesh /\
           forall k, filled model k <-> exists x y z, k = (x + 1, dim - y, z + 1) /\
             0 <= x < nx * kx td /\ 0 <= y < ny * ky td /\ 0 <= z < kz td /\ carved bx dim base cuts (x, y, z)
       else svx2stl unzip save order d1 [svx_file stem] = (d1, Fatal)).
  Proof using Horder.
    intros Hn Hne Ec Hjob Ho Hb Hph Hta Hne'. pose proof (C73_client load newjob names prefix dim nx ny 1 d Hn Hne) as C. rewrite Ec in C.
    destruct C as (base & cuts & svx & Hms & Hnew & Hd1 & _). exists base, cuts. split; [exact Hms|]. intros bx td stem Hg Hnd Hlt.
    destruct (Hjob _ _ Hnew) as (es & Hu & Hq & Hr). subst r.
    pose proof (C50_distributed t m j b _ Ho Hb Hph) as D. cbv zeta in D. rewrite Hq in D, Hta. cbn [r_dim r_nx r_ny r_nz r_prefix r_base r_cuts] in D.
    destruct (D Hg eq_refl Hnd Hta Hne') as (es' & Er & Hbad & Hgood). injection Er as <-.
    assert (Ha : archive_in unzip d1 (svx_file stem) es).
    { exists svx. split; [|exact Hu]. rewrite <- Hd1. f_equal. unfold svx_file, stem, svx_name. rewrite <- !app_assoc. reflexivity. }
    pose proof (svx2stl_one unzip save order Horder d1 stem es Ha) as G. destruct (decide (prefix = txt "out")) as [Hp|Hp].
    - destruct (Hgood Hp Hlt) as (v & Er & HX & _ & _ & Hw). rewrite Er in G. destruct G as (d' & mesh & G1 & G2 & G3 & G4). exists d', v, mesh.
      split; [exact G1|]. split; [exact G2|]. split; [exact G3|]. split; [apply G4, (dim_pos order Horder bx dim nx ny v Hg HX)|].
      intros k. rewrite (filled_white es v k Er). apply Hw.
    - rewrite (Hbad Hp) in G. exact G.
  Qed.
End Pipeline.

(** ** Proofs: the address of an agent *)

(** Addresses an agent could be reached at from another host, as the program sees it. *)
Definition usable (s : list byte) : Prop := (forall r, s <> txt "127." ++ r) /\ ~ In x3a s.
(** All addresses, in the order in which they are listed. *)
Definition all_addrs (ifaces : list (option (list ifaddr))) : list ifaddr := flat_map (fun i => match i with Some l => l | None => [] end) ifaces.
Definition texts (l : list ifaddr) : list (list byte) := flat_map (fun a => match a with IPNet s | IPAddr s => [s] | OtherAddr => [] end) l.

Lemma usable_iff s : negb (has_prefix (txt "127.") s) && negb (has_byte x3a s) = true <-> usable s.
Proof.
  rewrite andb_true_iff, !negb_true_iff. unfold usable, has_prefix, has_byte. split.
  - intros [H1 H2]. split.
    + intros r ->. rewrite decide_True in H1; [discriminate|reflexivity].
    + intros Hin. assert (E : existsb (Byte.eqb x3a) s = true); [|congruence]. apply existsb_exists. exists x3a. split; [exact Hin|reflexivity].
  - intros [H1 H2]. split.
    + apply decide_False. intros E. apply (H1 (skipn 4 s)). rewrite <- (firstn_skipn 4 s) at 1. f_equal. exact E.
    + apply not_true_is_false. intros E. apply existsb_exists in E as (x & Hx & E). apply eqb_byte in E. subst. contradiction.
Qed.

Lemma scan_all result ifaces : scan_ifaces result ifaces = fst (scan_addrs result (all_addrs ifaces)).
Proof.
  revert result. induction ifaces as [|[l|] ifaces IH]; intros result; [reflexivity| |exact (IH result)].
  unfold all_addrs. cbn [scan_ifaces flat_map]. fold (all_addrs ifaces). revert result. induction l as [|[s|s|] l IHl]; intros result; cbn [scan_addrs app].
  - apply IH.
  - destruct (negb (has_prefix (txt "127.") s) && negb (has_byte x3a s)); [reflexivity|apply IHl].
  - apply IHl.
  - apply IHl.
Qed.

Lemma scan_result l result : let s := fst (scan_addrs result l) in
  (exists l1 l2, l = l1 ++ IPNet s :: l2 /\ usable s /\ forall s', In (IPNet s') l1 -> ~ usable s') \/
  ((forall s', In (IPNet s') l -> ~ usable s') /\ s = List.last (texts l) result).
Proof.
  revert result. induction l as [|[s|s|] l IH]; intros result; cbn [scan_addrs fst].
  - right. split; [intros ? []|reflexivity].
  - destruct (negb (has_prefix (txt "127.") s) && negb (has_byte x3a s)) eqn:E.
    + left. exists [], l. apply usable_iff in E. split; [reflexivity|]. split; [exact E|intros ? []].
    + assert (Hu : ~ usable s) by (rewrite <- usable_iff, E; discriminate). destruct (IH s) as [(l1 & l2 & E1 & H1 & H2)|[H1 H2]].
      * left. exists (IPNet s :: l1), l2. split; [cbn [app]; f_equal; exact E1|]. split; [exact H1|]. intros s' [E'|Hin]; [injection E' as <-; exact Hu|apply H2, Hin].
      * right. split; [intros s' [E'|Hin]; [injection E' as <-; exact Hu|apply H1, Hin]|]. rewrite H2. cbn [texts flat_map app]. fold (texts l). clear. 
        destruct (texts l) as [|x xs]; [reflexivity|]. change (List.last (s :: x :: xs) result) with (List.last (x :: xs) result). clear. revert x. induction xs as [|y xs IH]; intros x; [reflexivity|]. cbn. apply IH.
  - destruct (IH s) as [(l1 & l2 & E1 & H1 & H2)|[H1 H2]].
    + left. exists (IPAddr s :: l1), l2. split; [cbn [app]; f_equal; exact E1|]. split; [exact H1|]. intros s' [E'|Hin]; [discriminate|apply H2, Hin].
    + right. split; [intros s' [E'|Hin]; [discriminate|apply H1, Hin]|]. rewrite H2. cbn [texts flat_map app]. fold (texts l). clear.
      destruct (texts l) as [|x xs]; [reflexivity|]. change (List.last (s :: x :: xs) result) with (List.last (x :: xs) result). clear. revert x. induction xs as [|y xs IH]; intros x; [reflexivity|]. cbn. apply IH.
  - destruct (IH result) as [(l1 & l2 & E1 & H1 & H2)|[H1 H2]].
    + left. exists (OtherAddr :: l1), l2. split; [cbn [app]; f_equal; exact E1|]. split; [exact H1|]. intros s' [E'|Hin]; [discriminate|apply H2, Hin].
    + right. split; [intros s' [E'|Hin]; [discriminate|apply H1, Hin]|]. exact H2.
Qed.

(** An agent listening on host:port registers the first listed IPv4 network address that is not a loopback one,
    with the port; only if there is none, the last address listed, whatever it is. *)
Theorem C74_address host port ifaces : ~ In x3a port ->
  exists s, getAddress (host ++ txt ":" ++ port) ifaces = s ++ txt ":" ++ port /\
    ((exists l1 l2, all_addrs ifaces = l1 ++ IPNet s :: l2 /\ usable s /\ forall s', In (IPNet s') l1 -> ~ usable s') \/
     ((forall s', In (IPNet s') (all_addrs ifaces) -> ~ usable s') /\ s = List.last (texts (all_addrs ifaces)) [])).
Proof.
  intros Hp. exists (scan_ifaces [] ifaces). split.
  - unfold getAddress. change (host ++ txt ":" ++ port) with (host ++ x3a :: port). rewrite split_last by exact Hp. reflexivity.
  - rewrite scan_all. apply scan_result.
Qed.

(** Without a usable address the answer may lack the brackets that an IPv6 address needs in front of a port. *)
Example C74_ex : getAddress (txt "[::]:5335") [None; Some [IPNet (txt "127.0.0.1"); IPNet (txt "::1")]; Some [IPAddr (txt "10.0.0.1"); IPNet (txt "192.168.1.7")]] = txt "192.168.1.7:5335" /\
  getAddress (txt "[::]:5335") [Some [IPNet (txt "127.0.0.1"); IPNet (txt "::1")]] = txt "::1:5335".
Proof. split; reflexivity. Qed.

(** ** Examples *)
Definition ex_svx_dir : dir := fun n => if decide (n = txt "m.svx") then Some (txt "PK") else None.
Definition ex_unzip (es : list entry) (bytes : list byte) : option (list entry) := if decide (bytes = txt "PK") then Some es else if decide (bytes = txt "none") then Some [] else None.
Definition ex_mc_order (b : binvox Q) : list key := elements (grid_cells b).

(** The 4 x 3 x 2 box of C47, sliced and turned back: m.stl appears, and its mesh winds once around the voxel
    (1,4,1), which was (0,0,0). *)
Example C72_ex : exists es d' model mesh, svx_archive 4 2 1 1 (fun _ _ l => l) (fun _ l => l) [ex_flat_mesh] = Some es /\
  svx2stl (ex_unzip es) (fun _ => txt "mesh") ex_mc_order ex_svx_dir [txt "m.svx"] = (d', Finished) /\ d' (txt "m.stl") = Some (txt "mesh") /\ d' (txt "m.svx") = Some (txt "PK") /\
  svx_read es = inr (Some model) /\ MarchingCubes model (ex_mc_order model) = Some mesh /\ winding mesh (beside model (1, 4, 1) (1 # 16) (1 # 4)) = 1 /\ winding mesh (beside model (0, 0, 0) (1 # 16) (1 # 4)) = 0.
Proof.
  pose proof C47_roundtrip_ex as X. destruct (svx_archive 4 2 1 1 (fun _ _ l => l) (fun _ l => l) [ex_flat_mesh]) as [es|]; [|contradiction].
  destruct (svx_read es) as [|[b|]] eqn:Er; try contradiction. destruct X as (EN & H1 & _ & H0). exists es.
  assert (Ho : forall b', Permutation (ex_mc_order b') (elements (grid_cells b'))) by (intros; reflexivity).
  assert (Ha : archive_in (ex_unzip es) ex_svx_dir (svx_file (txt "m")) es) by (exists (txt "PK"); split; reflexivity).
  pose proof (svx2stl_one (ex_unzip es) (fun _ => txt "mesh") ex_mc_order Ho ex_svx_dir (txt "m") es Ha) as G. rewrite Er in G. destruct G as (d' & _ & G1 & G2 & G3 & _).
  assert (Hdim : 0 < BinvoxModel.dim b) by (unfold BinvoxModel.dim; injection EN as -> -> ->; reflexivity).
  destruct (mc_some ex_mc_order Ho b) as (mesh & Em & _).
  assert (W : forall w, (filled b w -> winding mesh (beside b w (1 # 16) (1 # 4)) = 1) /\ (~ filled b w -> winding mesh (beside b w (1 # 16) (1 # 4)) = 0)).
  { intros w. apply (C70_marching_cubes b (ex_mc_order b) mesh w (1 # 16) (1 # 4) (vpmm_pos b Hdim) (Ho b) Em); reflexivity. }
  exists d', b, mesh. split; [reflexivity|]. split; [exact G1|]. split; [exact G3|]. split; [rewrite G2 by discriminate; reflexivity|].
  split; [exact Er|]. split; [exact Em|]. split; [apply W, (filled_white es b _ Er), H1|]. apply W. rewrite (filled_white es b _ Er). exact H0.
Qed.

(** A file named without the suffix and one with it go to the same STL file; an archive without entries
    crashes the program. *)
Example C72_clash : stl_name (txt "a") = stl_name (txt "a.svx").
Proof. reflexivity. Qed.
Example C72_empty : snd (svx2stl (ex_unzip []) (fun _ => []) ex_mc_order ex_svx_dir [txt "m.svx"]) = Crashed.
Proof. reflexivity. Qed.

(** Two files in the order given; the answer goes to out-4-2-1-1.svx. *)
Definition ex_stl_dir : dir := fun n => if decide (n = txt "base.stl") then Some (txt "1") else if decide (n = txt "cut.stl") then Some (txt "2") else None.
Definition ex_load (s : list byte) : unit + list tri := if decide (s = txt "1") then inr ex_flat_mesh else if decide (s = txt "2") then inr [] else inl tt.
Example C73_ex : let '(d, e) := client ex_load (fun q => if (List.length (r_base q) =? 12)%nat && (List.length (r_cuts q) =? 1)%nat then Some (txt "PK") else None)
    (txt "base.stl,cut.stl") (txt "out") 4 2 1 1 ex_stl_dir in e = Finished /\ d (txt "out-4-2-1-1.svx") = Some (txt "PK") /\ d (txt "base.stl") = Some (txt "1").
Proof. vm_compute. auto. Qed.
Example C73_missing : client ex_load (fun _ => Some (txt "PK")) (txt "base.stl,none.stl") (txt "out") 4 2 1 1 ex_stl_dir = (ex_stl_dir, Fatal).
Proof. reflexivity. Qed.

Print Assumptions C72_svx2stl.
Print Assumptions C72_mesh.
Print Assumptions C72_stl2svx.
Print Assumptions C73_client.
Print Assumptions C73_names.
Print Assumptions C73_pipeline.
Print Assumptions C74_address.
