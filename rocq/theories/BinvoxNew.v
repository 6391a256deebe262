(** Models built with New and Add: their geometry, and their file (C13). *)
From Verif Require Import Base BaseLemmas BinvoxModel BinvoxSpec StoreProofs BinvoxProps.
From Coq Require Import ZArith QArith List Lia Init.Byte.
From stdpp Require Import base list gmap sets fin_sets.
Import ListNotations.
Open Scope Z_scope.

Lemma add_some {F} (b : binvox F) k w : White b = Some w ->
  add b k = Some {| NX := NX b; NY := NY b; NZ := NZ b; TX := TX b; TY := TY b; TZ := TZ b;
                    Scale := Scale b; White := Some ({[k]} ∪ w); Colors := Colors b |}.
Proof. intros H. unfold add. rewrite H. reflexivity. Qed.

Lemma add_color_some {F} (b : binvox F) k c m : Colors b = Some m ->
  add_color b k c = Some {| NX := NX b; NY := NY b; NZ := NZ b; TX := TX b; TY := TY b; TZ := TZ b;
                    Scale := Scale b; White := White b; Colors := Some (<[k := c]> m) |}.
Proof. intros H. unfold add_color. rewrite H. reflexivity. Qed.

Lemma adds_exact {F} ks : forall (b : binvox F) w, White b = Some w ->
  adds b ks = Some {| NX := NX b; NY := NY b; NZ := NZ b; TX := TX b; TY := TY b; TZ := TZ b;
                      Scale := Scale b; White := Some (list_to_set ks ∪ w); Colors := Colors b |}.
Proof.
  unfold adds. induction ks as [|k ks IH]; intros b w Hw.
  - cbn. rewrite (left_id_L ∅ (∪)). destruct b; cbn in *; subst; reflexivity.
  - cbn [fold_left mbind option_bind]. rewrite (add_some b k w Hw).
    erewrite (IH _ ({[k]} ∪ w)) by reflexivity. cbn [NX NY NZ TX TY TZ Scale Colors]. do 3 f_equal. 
    cbn [list_to_set foldr]. set_solver.
Qed.

Lemma add_colors_geometry {F} kcs : forall (b : binvox F) m, Colors b = Some m ->
  exists m', add_colors b kcs = Some {| NX := NX b; NY := NY b; NZ := NZ b; TX := TX b; TY := TY b; TZ := TZ b;
                      Scale := Scale b; White := White b; Colors := Some m' |} /\
    forall k, m' !! k = match last_color k kcs with Some c => Some c | None => m !! k end.
Proof.
  unfold add_colors. induction kcs as [|[k c] kcs IH]; intros b m Hm.
  - exists m. split; [|reflexivity]. cbn. destruct b; cbn in *; subst; reflexivity.
  - cbn [fold_left mbind option_bind fst snd]. rewrite (add_color_some b k c m Hm).
    match goal with |- context [fold_left _ _ (Some ?b1)] => destruct (IH b1 (<[k := c]> m) eq_refl) as (m' & E & Hl) end.
    exists m'. split; [exact E|].
    intros k'. rewrite Hl. cbn [last_color]. destruct (last_color k' kcs); [reflexivity|].
    destruct (decide (k' = k)) as [->|Hn]; [apply lookup_insert|apply lookup_insert_ne; congruence].
Qed.

(** New and any number of Adds: the dimensions, the origin and the scale are those given to New, the white
    voxels are exactly those added, and there are no coloured ones. *)
Theorem C13_white_model : forall (F : Type) (nx ny nz : Z) (ox oy oz sc : F) (ks : list key),
  exists b, adds (new nx ny nz ox oy oz sc false) ks = Some b /\
    NX b = nx /\ NY b = ny /\ NZ b = nz /\ TX b = ox /\ TY b = oy /\ TZ b = oz /\ Scale b = sc /\
    Colors b = None /\ (exists w, White b = Some w /\ forall k, k ∈ w <-> k ∈ ks).
Proof.
  intros F nx ny nz ox oy oz sc ks.
  pose proof (adds_exact ks (new nx ny nz ox oy oz sc false) ∅ eq_refl) as H. rewrite H. eexists. split; [reflexivity|].
  cbn. repeat (split; [reflexivity|]). eexists. split; [reflexivity|]. set_solver.
Qed.

(** The same in full colour. *)
Theorem C13_color_model : forall (F : Type) (nx ny nz : Z) (ox oy oz sc : F) (kcs : list (key * color F)),
  exists b, add_colors (new nx ny nz ox oy oz sc true) kcs = Some b /\
    NX b = nx /\ NY b = ny /\ NZ b = nz /\ TX b = ox /\ TY b = oy /\ TZ b = oz /\ Scale b = sc /\
    White b = None /\ (exists m, Colors b = Some m /\ forall k, m !! k = last_color k kcs).
Proof.
  intros F nx ny nz ox oy oz sc kcs.
  destruct (add_colors_geometry kcs (new nx ny nz ox oy oz sc true) ∅ eq_refl) as (m & E & Hm).
  rewrite E. eexists. split; [reflexivity|].
  cbn [NX NY NZ TX TY TZ Scale White Colors new]. repeat (split; [reflexivity|]). exists m. split; [reflexivity|].
  intros k. rewrite Hm. destruct (last_color k kcs); [reflexivity|apply lookup_empty].
Qed.

(** A model built with New and Add and written to a file is read back with everything given to New and
    exactly the voxels added. *)
Theorem C13_build_write_read : forall (F : Type) (ft : FloatText F) (nx ny nz : Z) (ox oy oz sc : F) (ks : list key),
  ks <> [] -> (forall k, k ∈ ks -> in_grid nx ny nz k) ->
  nx <= max_int -> ny <= max_int -> nz <= max_int ->
  exists b r w, adds (new nx ny nz ox oy oz sc false) ks = Some b /\
    read ft (write_file ft b 0 0 0 0 0 0) 0 0 0 0 0 0 = inr r /\
    r = {| NX := nx; NY := ny; NZ := nz; TX := ox; TY := oy; TZ := oz; Scale := sc; White := Some w; Colors := None |} /\
    forall k, k ∈ w <-> k ∈ ks.
Proof.
  intros F ft nx ny nz ox oy oz sc ks Hne Hin Hx Hy Hz.
  pose proof (adds_exact ks (new nx ny nz ox oy oz sc false) ∅ eq_refl) as H.
  eexists _, _, _. split; [exact H|]. split; [|split; [reflexivity|]].
  - rewrite C01_write_read_round_trip; [reflexivity|..]; cbn [NX NY NZ]; try assumption; unfold white; cbn [White default new].
    + destruct ks as [|k ks]; [contradiction|]. exists k. set_solver.
    + intros k Hk. apply Hin. set_solver.
  - cbn. set_solver.
Qed.

Example C13_build_example : exists b, adds (new 3 2 1 5%Q 6%Q 7%Q 3%Q false) [(0,0,0); (2,1,0); (0,0,0)] = Some b /\
  elements (white b) = elements ({[ (0,0,0); (2,1,0) ]} : gset key) /\ TY b = 6%Q.
Proof. eexists. split; [reflexivity|]. vm_compute. auto. Qed.

Print Assumptions C13_white_model.
Print Assumptions C13_color_model.
Print Assumptions C13_build_write_read.
