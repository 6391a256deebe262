(** C09, for arbitrary files: a windowed Read is the whole Read restricted to the (inclusive) window. *)
From Verif Require Import Base BaseLemmas BinvoxModel BinvoxSpec BinvoxLemmas BinvoxProofs BinvoxProps.
From Coq Require Import ZArith QArith List Lia Bool String Init.Byte.
From stdpp Require Import base list gmap sets.
Import ListNotations.
Open Scope Z_scope.

Section Window.
  Context {F : Type} (ft : FloatText F).

  Definition cursor_ok (nx ny nz : Z) (c : cursor) : Prop :=
    0 <= xi c /\ 0 <= yi c /\ (yi c = 0 \/ yi c < ny) /\ 0 <= zi c /\ (zi c = 0 \/ zi c < nz).
  Definition winb (w : window) (k : key) : bool := in_window w (Cur (kx k) (ky k) (kz k)).
  Definition related (nx ny nz : Z) (w : window) (s0 s : cursor * gset key) : Prop :=
    fst s0 = fst s /\ cursor_ok nx ny nz (fst s) /\ forall k, k ∈ snd s <-> k ∈ snd s0 /\ winb w k = true.

  Lemma related_run nx ny nz w v n s0 s : 0 <= nx -> 0 <= ny -> 0 <= nz -> related nx ny nz w s0 s ->
    match read_run nx ny nz (Win 0 0 0 nx ny nz) v n s0, read_run nx ny nz w v n s with
    | Some s0', Some s' => related nx ny nz w s0' s'
    | None, None => True
    | _, _ => False
    end.
  Proof.
    intros Hx Hy Hz. revert s0 s. induction n as [|n IH]; intros [c0 v0] [c vs] (E & Hc & Hk); cbn [read_run]; cbn [fst snd] in *; subst c0.
    { split; [reflexivity|]. split; [exact Hc|exact Hk]. }
    destruct (Z.geb_spec (xi c) nx); [exact I|]. apply IH. destruct Hc as (C1 & C2 & C3 & C4 & C5). split; [reflexivity|]. split.
    - unfold cursor_ok, advance, fst. destruct (Z.geb_spec (yi c + 1) ny); [destruct (Z.geb_spec (zi c + 1) nz)|]; cbn [xi yi zi]; lia.
    - intros k. cbn [snd].
      assert (W0 : in_window (Win 0 0 0 nx ny nz) c = true).
      { unfold in_window. cbn [w_sx w_sy w_sz w_cx w_cy w_cz]. rewrite !andb_true_iff, !Z.leb_le. lia. }
      rewrite W0, andb_true_r.
      assert (Wc : winb w (xi c, yi c, zi c) = in_window w c) by reflexivity.
      destruct v; cbn [andb]; [|apply Hk]. destruct (in_window w c) eqn:Ew; cbn [andb].
      + rewrite !elem_of_union, !elem_of_singleton, Hk. split; [intros [->|[]]; auto|intros [[->|] ?]; auto].
      + rewrite elem_of_union, elem_of_singleton, Hk. split; [tauto|]. intros [[->|] ?]; [congruence|tauto].
  Qed.

  Lemma related_data nx ny nz w n data s0 s : (length data <= n)%nat -> 0 <= nx -> 0 <= ny -> 0 <= nz -> related nx ny nz w s0 s ->
    match read_data nx ny nz (Win 0 0 0 nx ny nz) data s0, read_data nx ny nz w data s with
    | inr s0', inr s' => related nx ny nz w s0' s'
    | inl e, inl e' => e = e'
    | _, _ => False
    end.
  Proof.
    revert data s0 s. induction n as [|n IH]; intros data s0 s Hl Hx Hy Hz HR; (destruct data as [|v [|c data]]; cbn [length] in Hl; [exact HR|lia || idtac..]).
    - cbn [read_data]. destruct (negb _); reflexivity.
    - cbn [read_data]. destruct (negb _); [reflexivity|]. destruct (b2z c =? 0); [reflexivity|].
      pose proof (related_run nx ny nz w (b2z v =? 1) (Z.to_nat (b2z c)) s0 s Hx Hy Hz HR) as G.
      destruct (read_run nx ny nz (Win 0 0 0 nx ny nz) _ _ s0), (read_run nx ny nz w _ _ s); try contradiction; [|reflexivity].
      apply IH; [lia|assumption..].
  Qed.

  (** The header checks do not depend on the start, but for the check of the start itself. *)
  Lemma header_start magic sx sy sz bytes : 0 <= sx -> 0 <= sy -> 0 <= sz ->
    match read_header ft magic 0 0 0 bytes with
    | inr (h, data) => read_header ft magic sx sy sz bytes = if (sx >? h_nx h) || (sy >? h_ny h) || (sz >? h_nz h) then inl EStart else inr (h, data)
    | inl e => read_header ft magic sx sy sz bytes = inl e \/ read_header ft magic sx sy sz bytes = inl EStart
    end.
  Proof.
    intros Hx Hy Hz. unfold read_header.
    destruct (read_line bytes) as [[l1 r1]|]; [|auto]. destruct (negb _); [auto|].
    destruct (read_line r1) as [[l2 r2]|]; [|auto]. destruct (match3 (txt "dim ") is_digit l2) as [[[a b] c]|]; [|auto].
    destruct (atoi_digits a) as [nx|] eqn:Ea; [|auto]. destruct (atoi_digits b) as [ny|] eqn:Eb; [|auto]. destruct (atoi_digits c) as [nz|] eqn:Ec; [|auto].
    destruct ((0 >? nx) || (0 >? ny) || (0 >? nz)) eqn:E0.
    { assert (E1 : (sx >? nx) || (sy >? ny) || (sz >? nz) = true) by (rewrite !orb_true_iff, !Z.gtb_lt in *; lia). rewrite E1. auto. }
    destruct (read_line r2) as [[l3 r3]|]; [|destruct ((sx >? nx) || (sy >? ny) || (sz >? nz)); auto]. destruct (match3 (txt "translate ") not_space l3) as [[[ta tb] tc]|]; [|destruct ((sx >? nx) || (sy >? ny) || (sz >? nz)); auto].
    destruct (parseF ft ta); [|destruct ((sx >? nx) || (sy >? ny) || (sz >? nz)); auto]. destruct (parseF ft tb); [|destruct ((sx >? nx) || (sy >? ny) || (sz >? nz)); auto]. destruct (parseF ft tc); [|destruct ((sx >? nx) || (sy >? ny) || (sz >? nz)); auto].
    destruct (read_line r3) as [[l4 r4]|]; [|destruct ((sx >? nx) || (sy >? ny) || (sz >? nz)); auto]. destruct (match1 (txt "scale ") not_space l4); [|destruct ((sx >? nx) || (sy >? ny) || (sz >? nz)); auto].
    destruct (parseF ft _); [|destruct ((sx >? nx) || (sy >? ny) || (sz >? nz)); auto]. destruct (read_line r4) as [[l5 r5]|]; [|destruct ((sx >? nx) || (sy >? ny) || (sz >? nz)); auto].
    destruct (bool_decide _); [reflexivity|destruct ((sx >? nx) || (sy >? ny) || (sz >? nz)); auto].
  Qed.

  (** For every byte sequence: if the whole file is refused, so is every window of it; otherwise a window that starts
      beyond the grid is refused, and any other is read and gives the voxels of the whole file in it, with the same
      header. *)
  Theorem C09_any_file bytes sx sy sz cx cy cz : 0 <= sx -> 0 <= sy -> 0 <= sz -> 0 <= cx -> 0 <= cy -> 0 <= cz ->
    match read ft bytes 0 0 0 0 0 0 with
    | inl e => read ft bytes sx sy sz cx cy cz = inl e \/ read ft bytes sx sy sz cx cy cz = inl EStart
    | inr b =>
        (NX b < sx \/ NY b < sy \/ NZ b < sz -> read ft bytes sx sy sz cx cy cz = inl EStart) /\
        (sx <= NX b /\ sy <= NY b /\ sz <= NZ b -> exists vs,
           read ft bytes sx sy sz cx cy cz = inr {| NX := NX b; NY := NY b; NZ := NZ b; TX := TX b; TY := TY b; TZ := TZ b;
             Scale := Scale b; White := Some vs; Colors := None |} /\
           forall k, k ∈ vs <-> k ∈ white b /\ in_region sx sy sz (clip cx (NX b) + 1) (clip cy (NY b) + 1) (clip cz (NZ b) + 1) k)
    end.
  Proof.
    intros Hx Hy Hz Hcx Hcy Hcz. unfold read. cbn [Z.ltb Z.compare orb].
    replace ((sx <? 0) || (sy <? 0) || (sz <? 0) || (cx <? 0) || (cy <? 0) || (cz <? 0)) with false
      by (symmetry; rewrite !orb_false_iff, !Z.ltb_ge; lia).
    pose proof (header_start (txt "#binvox 1" ++ [Byte.x0a]) sx sy sz bytes Hx Hy Hz) as H.
    destruct (read_header ft (txt "#binvox 1" ++ [Byte.x0a]) 0 0 0 bytes) as [e|[h data]] eqn:Eh; [destruct H as [-> | ->]; auto|].
    destruct (read_header_dims ft _ 0 0 0 bytes h data Eh) as (Dx & Dy & Dz & _). rewrite H.
    assert (W : related (h_nx h) (h_ny h) (h_nz h) (Win sx sy sz (clip_count cx (h_nx h)) (clip_count cy (h_ny h)) (clip_count cz (h_nz h))) (Cur 0 0 0, ∅) (Cur 0 0 0, ∅)).
    { split; [reflexivity|]. split; [unfold cursor_ok; cbn; lia|]. intros k. cbn [snd]. set_solver. }
    pose proof (related_data _ _ _ _ (length data) data _ _ (le_n _) (proj1 Dx) (proj1 Dy) (proj1 Dz) W) as G.
    assert (C0 : forall n, clip_count 0 n = n) by reflexivity. rewrite !C0. clear C0.
    destruct (read_data (h_nx h) (h_ny h) (h_nz h) (Win 0 0 0 _ _ _) data _) as [e|[c0 v0]].
    { destruct ((sx >? h_nx h) || (sy >? h_ny h) || (sz >? h_nz h)); [auto|]. destruct (read_data _ _ _ _ data _); [subst; auto|contradiction]. }
    cbn [NX NY NZ TX TY TZ Scale]. split.
    - intros Hb. replace ((sx >? h_nx h) || (sy >? h_ny h) || (sz >? h_nz h)) with true; [reflexivity|]. symmetry. rewrite !orb_true_iff, !Z.gtb_lt. tauto.
    - intros Hb. replace ((sx >? h_nx h) || (sy >? h_ny h) || (sz >? h_nz h)) with false by (symmetry; rewrite !orb_false_iff, !Z.gtb_ltb, !Z.ltb_ge; lia).
      destruct (read_data _ _ _ _ data _) as [|[c vs]]; [contradiction|]. destruct G as (_ & _ & G). exists vs. split; [reflexivity|].
      intros k. unfold white. cbn [White default]. etransitivity; [apply G|]. cbn [snd]. unfold id. apply and_iff_compat_l.
      unfold winb, in_window, in_region. cbn [w_sx w_sy w_sz w_cx w_cy w_cz xi yi zi]. rewrite !andb_true_iff, !Z.leb_le. change clip_count with clip. lia.
  Qed.
End Window.

Print Assumptions C09_any_file.
