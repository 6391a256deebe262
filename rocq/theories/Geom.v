(** World geometry of a binvox model over exact rationals.
    Sources: binvox/binvox.go:122-149.  Simplification: float64 is replaced by [Q], so rounding is
    not modelled in this file. *)
From Verif Require Import Base BaseLemmas BinvoxModel BinvoxSpec BinvoxLemmas BinvoxProofs.
From Coq Require Import ZArith QArith Qminmax List Lia Lqa Bool.
From stdpp Require Import base list gmap.
Import ListNotations.
Open Scope Q_scope.

(** binvox/binvox.go:135-141 VoxelsPerMM. *)
Definition vpmm (b : binvox Q) : Q :=
  if Qle_bool (Scale b) 0 then 1 else inject_Z (dim b) / Scale b.

Definition qpt : Type := (Q * Q * Q)%type.

(** binvox/binvox.go:144-149 MBB: (Min, Max). *)
Definition mbb (b : binvox Q) : qpt * qpt :=
  let s := 1 / vpmm b in
  ((TX b, TY b, TZ b),
   (TX b + s * inject_Z (NX b), TY b + s * inject_Z (NY b), TZ b + s * inject_Z (NZ b))).

(** ** Specification: where a voxel is in world space (doc comment binvox/binvox.go:14-24). *)
Definition world (b : binvox Q) (k : key) : qpt :=
  (TX b + inject_Z (kx k) / vpmm b, TY b + inject_Z (ky k) / vpmm b, TZ b + inject_Z (kz k) / vpmm b).

Definition qpt_eq (p q : qpt) : Prop :=
  let '(x, y, z) := p in let '(x', y', z') := q in x == x' /\ y == y' /\ z == z'.

Definition qpt_le (p q : qpt) : Prop :=
  let '(x, y, z) := p in let '(x', y', z') := q in x <= x' /\ y <= y' /\ z <= z'.

Lemma dim_max {F} (b : binvox F) : dim b = Z.max (NX b) (Z.max (NY b) (NZ b)).
Proof.
  unfold dim. rewrite !Z.gtb_ltb.
  destruct (Z.ltb_spec (NX b) (NY b)); [destruct (Z.ltb_spec (NY b) (NZ b))|destruct (Z.ltb_spec (NX b) (NZ b))]; lia.
Qed.

Lemma vpmm_pos b : 0 < Scale b -> (0 < dim b)%Z -> 0 < vpmm b.
Proof.
  intros Hs Hd. unfold vpmm. destruct (Qle_bool (Scale b) 0) eqn:E; [reflexivity|].
  apply Qlt_shift_div_l; [exact Hs|]. rewrite Qmult_0_l.
  change 0 with (inject_Z 0). rewrite <- Zlt_Qlt. exact Hd.
Qed.

Lemma vpmm_scale b : 0 < Scale b -> vpmm b == inject_Z (dim b) / Scale b.
Proof.
  intros Hs. unfold vpmm. destruct (Qle_bool (Scale b) 0) eqn:E; [|reflexivity].
  apply Qle_bool_iff in E. lra.
Qed.

Lemma mbb_contains b k :
  0 < Scale b -> in_grid (NX b) (NY b) (NZ b) k ->
  qpt_le (fst (mbb b)) (world b k) /\
  qpt_le (world b (shift_key 1 1 1 k)) (snd (mbb b)).
Proof.
  intros Hs Hg. 
  assert (Hd : (0 < dim b)%Z) by (rewrite dim_max; unfold in_grid, in_region in Hg; lia).
  pose proof (vpmm_pos b Hs Hd) as Hv.
  assert (Hi : 0 < / vpmm b) by (apply Qinv_lt_0_compat, Hv).
  destruct k as [[x y] z]. unfold in_grid, in_region, kx, ky, kz in Hg. cbn [fst snd] in Hg.
  unfold mbb, world, shift_key, kx, ky, kz, qpt_le. cbn [fst snd]. unfold Qdiv.
  assert (Hle : forall a c : Z, (a <= c)%Z -> inject_Z a <= inject_Z c) by (intros; rewrite <- Zle_Qle; assumption).
  destruct Hg as (Hx & Hy & Hz).
  pose proof (Hle 0%Z x ltac:(lia)). pose proof (Hle 0%Z y ltac:(lia)). pose proof (Hle 0%Z z ltac:(lia)).
  pose proof (Hle (x + 1)%Z (NX b) ltac:(lia)). pose proof (Hle (y + 1)%Z (NY b) ltac:(lia)).
  pose proof (Hle (z + 1)%Z (NZ b) ltac:(lia)).
  change (inject_Z 0) with 0 in *.
  set (i := / vpmm b) in *. repeat split; nra.
Qed.

Lemma mbb_tight b :
  0 < Scale b -> (0 < dim b)%Z ->
  qpt_eq (fst (mbb b)) (world b (0, 0, 0)%Z) /\
  qpt_eq (snd (mbb b)) (world b (NX b, NY b, NZ b)).
Proof.
  intros Hs Hd. pose proof (vpmm_pos b Hs Hd) as Hv.
  unfold mbb, world, qpt_eq, kx, ky, kz. cbn [fst snd].
  change (inject_Z 0) with 0.
  repeat split; field; lra.
Qed.

Definition sides (p : qpt * qpt) : qpt :=
  let '((x, y, z), (x', y', z')) := p in (x' - x, y' - y, z' - z).

Definition qmax3 (p : qpt) : Q := let '(x, y, z) := p in Qmax x (Qmax y z).

Lemma inject_Z_max a b : inject_Z (Z.max a b) == Qmax (inject_Z a) (inject_Z b).
Proof.
  destruct (Z.max_spec a b) as [[H E]|[H E]]; rewrite E.
  - rewrite Q.max_r; [reflexivity|]. rewrite <- Zle_Qle. lia.
  - rewrite Q.max_l; [reflexivity|]. rewrite <- Zle_Qle. lia.
Qed.

Lemma Qmax_mult_pos c a b : 0 <= c -> Qmax (c * a) (c * b) == c * Qmax a b.
Proof.
  intros Hc. destruct (Q.max_spec a b) as [[H E]|[H E]]; rewrite E.
  - apply Q.max_r. nra.
  - apply Q.max_l. nra.
Qed.

Lemma mbb_largest_side b :
  0 < Scale b -> (0 < dim b)%Z -> qmax3 (sides (mbb b)) == Scale b.
Proof.
  intros Hs Hd. pose proof (vpmm_pos b Hs Hd) as Hv.
  unfold qmax3, sides, mbb. cbn [fst snd].
  set (s := 1 / vpmm b).
  assert (Hsp : 0 <= s).
  { unfold s, Qdiv. pose proof (Qinv_lt_0_compat _ Hv). lra. }
  assert (E : forall t n, t + s * inject_Z n - t == s * inject_Z n) by (intros; ring).
  rewrite !E, !Qmax_mult_pos by exact Hsp.
  rewrite <- !inject_Z_max, <- dim_max. unfold s. rewrite vpmm_scale by exact Hs.
  assert (~ inject_Z (dim b) == 0).
  { change 0 with (inject_Z 0). unfold Qeq, inject_Z. cbn. lia. }
  field. split; lra || assumption.
Qed.

(** ** Sub-region writes (C03) *)

(** What a region write followed by a whole read gives (see BinvoxProofs.write_read_region): the
    header fields of the model read back. *)
Definition region_model (b : binvox Q) (nx ny nz : Z) (vs : gset key) : binvox Q :=
  mk (default_dim nx (NX b)) (default_dim ny (NY b)) (default_dim nz (NZ b))
     (TX b) (TY b) (TZ b) (Scale b) vs.

Lemma region_displacement b sx sy sz nx ny nz vs k :
  0 < Scale b -> (0 < dim b)%Z ->
  dim (region_model b nx ny nz vs) = dim b ->
  qpt_eq (world b (shift_key sx sy sz k))
    (let '(x, y, z) := world (region_model b nx ny nz vs) k in
     (x + inject_Z sx / vpmm b, y + inject_Z sy / vpmm b, z + inject_Z sz / vpmm b)).
Proof.
  intros Hs Hd He. pose proof (vpmm_pos b Hs Hd) as Hv.
  assert (Hvp : vpmm (region_model b nx ny nz vs) = vpmm b).
  { unfold vpmm. rewrite He. reflexivity. }
  unfold world. rewrite Hvp. unfold shift_key, kx, ky, kz, qpt_eq. cbn [fst snd region_model mk TX TY TZ].
  rewrite !inject_Z_plus. repeat split; field; lra.
Qed.
