(** C52: what an STL byte string is parsed as. *)
From Verif Require Import Base BaseLemmas StlParse.
From Coq Require Import ZArith List Lia Bool String Init.Byte.
From stdpp Require Import base list.
Import ListNotations.
Open Scope Z_scope.

(** ** Specification *)

(** [s] is made of white space characters only. *)
Definition spaces (s : list byte) : Prop := exists cs, (forall c, In c cs -> In c ws_chars) /\ s = concat cs.
(** [w] is not empty and no white space character occurs in it. *)
Definition is_word (w : list byte) : Prop := w <> [] /\ forall a c b, w = a ++ c ++ b -> ~ In c ws_chars.
(** [l] is made of the words [ws], with white space between them and perhaps before and after. *)
Inductive words : list byte -> list (list byte) -> Prop :=
| w_none s : spaces s -> words s []
| w_word s w r ws : spaces s -> is_word w -> (r = [] \/ exists c r', In c ws_chars /\ r = c ++ r') -> words r ws -> words (s ++ w ++ r) (w :: ws).

(** The lines of a text; the last one may lack its newline. *)
Inductive text : list byte -> list (list byte) -> Prop :=
| t_end : text [] []
| t_last l : l <> [] -> ~ In x0a l -> text l [l]
| t_line l r ls : ~ In x0a l -> text r ls -> text (l ++ [x0a] ++ r) (l :: ls).

Section Spec.
  Context {F : Type} (parse : list byte -> F).
  (** The vertices given by the lines "vertex x y z". *)
  Inductive vertices : list (list byte) -> list (vec F) -> Prop :=
  | v_end : vertices [] []
  | v_vertex l a b c ls vs : words l [txt "vertex"; a; b; c] -> vertices ls vs -> vertices (l :: ls) ((parse a, parse b, parse c) :: vs)
  | v_other l ls vs : (forall a b c, ~ words l [txt "vertex"; a; b; c]) -> vertices ls vs -> vertices (l :: ls) vs.
End Spec.

(** The number of triangles that the header announces. *)
Definition count (buf : list byte) : Z := le32 buf 80.
Definition binary_size (buf : list byte) : Prop := Z.of_nat (length buf) = 84 + 50 * count buf.

Definition corners {F} (ts : list (ftri F)) : list (vec F) := concat (map (fun t => [fst (fst t); snd (fst t); snd t]) ts).

(** ** Bytes *)

Lemma byte_at_range l i : 0 <= byte_at l i < 256.
Proof. apply b2z_range. Qed.
Lemma le32_range l i : 0 <= le32 l i < 4294967296.
Proof. unfold le32. pose proof (byte_at_range l i). pose proof (byte_at_range l (i + 1)). pose proof (byte_at_range l (i + 2)). pose proof (byte_at_range l (i + 3)). lia. Qed.

Lemma byte_at_take l n i : (i < n)%nat -> byte_at (take n l) i = byte_at l i.
Proof.
  intros H. unfold byte_at. revert n l H. induction i as [|i IH]; intros [|n] l H; try lia; destruct l as [|x l]; try reflexivity.
  cbn [take nth]. apply IH. lia.
Qed.
Lemma byte_at_drop l n i : byte_at (drop n l) i = byte_at l (n + i).
Proof.
  unfold byte_at. f_equal. revert l. induction n as [|n IH]; intros l; [reflexivity|]. destruct l as [|x l]; [destruct (n + i)%nat; destruct i; reflexivity|]. apply IH.
Qed.
Lemma le32_take l n i : (i + 3 < n)%nat -> le32 (take n l) i = le32 l i.
Proof. intros H. unfold le32. rewrite !byte_at_take by lia. reflexivity. Qed.
Lemma le32_drop l n i : le32 (drop n l) i = le32 l (n + i).
Proof. unfold le32. rewrite !byte_at_drop, !Nat.add_assoc. reflexivity. Qed.

Lemma le32_put32 w r : 0 <= w < 4294967296 -> le32 (put32 w ++ r) 0 = w.
Proof.
  intros H. unfold le32, put32, byte_at. cbn [app nth Nat.add]. rewrite !b2z_z2b.
  rewrite (Z.mod_small (w / 16777216)) by (split; [apply Z.div_pos; lia|apply Z.div_lt_upper_bound; lia]).
  pose proof (Z.div_mod w 256). pose proof (Z.div_mod (w / 256) 256). pose proof (Z.div_mod (w / 65536) 256).
  rewrite Z.div_div in H1 by lia. rewrite Z.div_div in H2 by lia. change (256 * 256) with 65536 in H1. change (65536 * 256) with 16777216 in H2. lia.
Qed.

Lemma le32_app a l i : length a = i -> le32 (a ++ l) i = le32 l 0.
Proof. intros <-. replace l with (drop (length a) (a ++ l)) at 2 by (rewrite drop_app; reflexivity). rewrite le32_drop. f_equal. lia. Qed.

(** ** Fields *)

Lemma drop_lit_Some p : forall l r, drop_lit p l = Some r <-> l = p ++ r.
Proof.
  induction p as [|x p IH]; intros l r; [cbn; split; congruence|]. destruct l as [|y l]; [split; discriminate|].
  cbn [drop_lit app]. destruct (Byte.eqb x y) eqn:E.
  - apply byte_eqb_eq in E as ->. rewrite IH. split; [intros ->; reflexivity|intros H; injection H; trivial].
  - split; [discriminate|]. intros H. injection H as -> ->. rewrite byte_eqb_refl in E. discriminate.
Qed.

Lemma space_prefix_ws c l : In c ws_chars -> space_prefix (c ++ l) = length c.
Proof. intros H. unfold ws_chars in H. repeat (destruct H as [<-|H]; [reflexivity|]). destruct H. Qed.
Lemma ws_cons c : In c ws_chars -> exists b r, c = b :: r.
Proof. intros H. unfold ws_chars in H. repeat (destruct H as [<-|H]; [eauto|]). destruct H. Qed.
(** No white space character can begin inside another. *)
Lemma ws_lead c c' : In c ws_chars -> In c' ws_chars -> forall b r r', c = b :: r -> forall x, In x r -> c' <> x :: r'.
Proof.
  intros H H' b r r' -> x Hx E. subst c'.
  assert (A : forallb (fun c => match c with [] => true | _ :: r => forallb (fun x => forallb (fun c' => match c' with [] => true | y :: _ => negb (Byte.eqb x y) end) ws_chars) r end) ws_chars = true) by (vm_compute; reflexivity).
  rewrite forallb_forall in A. specialize (A _ H). cbn beta iota in A. rewrite forallb_forall in A. specialize (A _ Hx). rewrite forallb_forall in A. specialize (A _ H').
  cbn beta iota in A. rewrite byte_eqb_refl in A. discriminate.
Qed.

Lemma space_prefix_S l k : space_prefix l = S k -> exists c r, In c ws_chars /\ l = c ++ r /\ length c = S k.
Proof.
  unfold space_prefix. destruct (List.find _ ws_chars) as [c|] eqn:E; [|discriminate]. intros Hk. apply find_some in E as [Hc E].
  destruct (drop_lit c l) as [r|] eqn:Er; [|discriminate]. apply drop_lit_Some in Er. eauto.
Qed.
Lemma space_prefix_O l c r : space_prefix l = 0%nat -> In c ws_chars -> l <> c ++ r.
Proof. intros H Hc ->. rewrite space_prefix_ws in H by exact Hc. destruct (ws_cons c Hc) as (b & t & ->). discriminate. Qed.

Lemma fields_skip a : forall l cur, fields_go (a ++ l) cur (length a) = fields_go l cur 0.
Proof. induction a as [|x a IH]; intros l cur; [reflexivity|]. cbn [app length fields_go]. apply IH. Qed.
Lemma fields_ws c l cur : In c ws_chars -> fields_go (c ++ l) cur 0 = flush cur ++ fields_go l [] 0.
Proof.
  intros Hc. pose proof (space_prefix_ws c l Hc) as Hp. destruct (ws_cons c Hc) as (b & t & ->). cbn [app length] in *. cbn [fields_go].
  rewrite Hp. rewrite fields_skip. reflexivity.
Qed.
Lemma fields_spaces s l : spaces s -> fields_go (s ++ l) [] 0 = fields_go l [] 0.
Proof.
  intros (cs & Hcs & ->). induction cs as [|c cs IH]; [reflexivity|]. cbn [concat]. rewrite <- app_assoc, fields_ws by (apply Hcs; left; reflexivity).
  cbn [flush app]. apply IH. intros d Hd. apply Hcs. right. exact Hd.
Qed.

Definition boundary (r : list byte) : Prop := r = [] \/ exists c r', In c ws_chars /\ r = c ++ r'.

Lemma fields_word w r : boundary r -> (forall a c b, w = a ++ c ++ b -> ~ In c ws_chars) -> forall cur, fields_go (w ++ r) cur 0 = fields_go r (cur ++ w) 0.
Proof.
  intros Hr. induction w as [|x w IH]; intros Hw cur; [rewrite app_nil_r; reflexivity|]. cbn [app fields_go].
  destruct (space_prefix (x :: w ++ r)) as [|k] eqn:E.
  - rewrite IH; [rewrite <- app_assoc; reflexivity|]. intros a c b ->. apply (Hw (x :: a) c b). reflexivity.
  - exfalso. apply space_prefix_S in E as (c & t & Hc & E & _). change (x :: w ++ r) with ((x :: w) ++ r) in E.
    symmetry in E. apply app_eq_inv in E as [(k1 & Ec & Er)|(k1 & Ew & Er)].
    + (* the character goes beyond the word *)
      destruct (ws_cons c Hc) as (b & d & ->). injection Ec as -> Ed.
      destruct k1 as [|y k1]; [apply (Hw [] (x :: w) []); [rewrite app_nil_r; reflexivity|]; rewrite Ed, app_nil_r in Hc; exact Hc|].
      destruct Hr as [->|(c' & r' & Hc' & ->)]; [discriminate Er|]. destruct (ws_cons c' Hc') as (y' & d' & ->). injection Er as -> Er.
      refine (ws_lead _ _ Hc Hc' x d d' eq_refl y _ eq_refl). rewrite Ed. apply in_app_iff. right. left. reflexivity.
    + apply (Hw [] c k1); [exact Ew|exact Hc].
Qed.
Lemma fields_flush r w : boundary r -> fields_go r w 0 = flush w ++ fields_go r [] 0.
Proof. intros [->|(c & r' & Hc & ->)]; [cbn; rewrite app_nil_r; reflexivity|]. rewrite !fields_ws by exact Hc. reflexivity. Qed.

Lemma words_fields l ws : words l ws -> fields l = ws.
Proof.
  unfold fields. induction 1 as [s Hs|s w r ws Hs [Hw0 Hw] Hr _ IH].
  - rewrite <- (app_nil_r s), fields_spaces by exact Hs. reflexivity.
  - rewrite fields_spaces by exact Hs. rewrite fields_word by assumption. cbn [app]. rewrite fields_flush by assumption. rewrite IH. destruct w; [congruence|reflexivity].
Qed.

Lemma spaces_ws c : In c ws_chars -> spaces c.
Proof. intros Hc. exists [c]. split; [intros d [<-|[]]; exact Hc|cbn; rewrite app_nil_r; reflexivity]. Qed.
Lemma spaces_app s t : spaces s -> spaces t -> spaces (s ++ t).
Proof. intros (cs & Hc & ->) (ds & Hd & ->). exists (cs ++ ds). split; [intros e He; apply in_app_iff in He as [He|He]; auto|rewrite concat_app; reflexivity]. Qed.
Lemma spaces_nil : spaces [].
Proof. exists []. split; [intros ? []|reflexivity]. Qed.

Lemma words_space c l ws : In c ws_chars -> words l ws -> words (c ++ l) ws.
Proof.
  intros Hc [s Hs|s w r ws' Hs Hw Hr H]; [constructor; apply spaces_app; [apply spaces_ws|]; assumption|].
  rewrite app_assoc. constructor; try assumption. apply spaces_app; [apply spaces_ws|]; assumption.
Qed.
Lemma words_space_end c l ws : In c ws_chars -> words l ws -> words (l ++ c) ws.
Proof.
  intros Hc. induction 1 as [s Hs|s w r ws Hs Hw Hr _ IH]; [constructor; apply spaces_app; [|apply spaces_ws]; assumption|].
  rewrite <- !app_assoc. constructor; try assumption. right. destruct Hr as [->|(d & r' & Hd & ->)]; [exists c, []; rewrite app_nil_r; auto|].
  exists d, (r' ++ c). rewrite app_assoc. auto.
Qed.

Lemma words_exist n : forall l, (length l <= n)%nat -> exists ws, words l ws.
Proof.
  induction n as [|n IH]; intros l Hl; [destruct l; [|cbn in Hl; lia]; exists []; constructor; apply spaces_nil|].
  destruct (space_prefix l) as [|k] eqn:E.
  - destruct l as [|x l]; [exists []; constructor; apply spaces_nil|]. cbn [length] in Hl. destruct (IH l ltac:(lia)) as (ws & Hws).
    destruct l as [|y l].
    + exists [[x]]. apply (w_word [] [x] [] []); [apply spaces_nil| |left; reflexivity|constructor; apply spaces_nil]. split; [discriminate|].
      intros a c b Ea Hc. destruct (ws_cons c Hc) as (z & t & ->). destruct a as [|a0 a]; [|destruct a; discriminate Ea].
      apply (space_prefix_O [x] (z :: t) b E Hc). exact Ea.
    + destruct (space_prefix (y :: l)) as [|k'] eqn:E'.
      * inversion Hws as [s (cs & Hcs & Es) E1 E2|s w r ws' (cs & Hcs & Es) [Hw0 Hw] Hr H1 E1 E2]; subst.
        -- destruct cs as [|c cs]; [discriminate Es|]. exfalso. apply (space_prefix_O (y :: l) c (concat cs) E'); [apply Hcs; left; reflexivity|exact Es].
        -- destruct cs as [|c cs].
           ++ cbn [concat app] in E1. cbn [concat app]. exists ((x :: w) :: ws'). apply (w_word [] (x :: w) r ws'); [apply spaces_nil| |exact Hr|exact H1].
              split; [discriminate|]. intros a c b Ea Hc. destruct a as [|a0 a].
              ** apply (space_prefix_O (x :: y :: l) c (b ++ r) E Hc). rewrite <- E1. change (x :: w ++ r) with ((x :: w) ++ r). rewrite Ea. cbn [app]. rewrite <- app_assoc. reflexivity.
              ** injection Ea as -> Ea. exact (Hw a c b Ea Hc).
           ++ exfalso. apply (space_prefix_O (y :: l) c (concat cs ++ w ++ r) E'); [apply Hcs; left; reflexivity|]. rewrite <- E1. cbn [concat]. rewrite <- app_assoc. reflexivity.
      * apply space_prefix_S in E' as (c & r & Hc & Er & _). exists ([x] :: ws). rewrite Er in E. rewrite Er in Hws. rewrite Er. apply (w_word [] [x] (c ++ r) ws); [apply spaces_nil| |right; eauto|exact Hws].
        split; [discriminate|]. intros a d b Ea Hd. destruct (ws_cons d Hd) as (z & t & ->). destruct a as [|a0 a]; [|destruct a; discriminate Ea].
        apply (space_prefix_O _ (z :: t) (b ++ c ++ r) E Hd). injection Ea as -> Ea. destruct t; [|discriminate Ea]. destruct b; [|discriminate Ea]. reflexivity.
  - apply space_prefix_S in E as (c & r & Hc & -> & Hk). rewrite app_length in Hl. destruct (IH r ltac:(lia)) as (ws & Hws). exists ws. apply words_space; assumption.
Qed.
Lemma fields_words l : words l (fields l).
Proof. destruct (words_exist (length l) l (le_n _)) as (ws & Hws). rewrite (words_fields l ws Hws). exact Hws. Qed.
Lemma words_iff l ws : words l ws <-> fields l = ws.
Proof. split; [apply words_fields|intros <-; apply fields_words]. Qed.

Lemma fields_drop_cr l : fields (drop_cr l) = fields l.
Proof.
  assert (E : drop_cr l = l \/ l = drop_cr l ++ [x0d]).
  { unfold drop_cr. destruct (rev l) as [|x r] eqn:E; [left; reflexivity|]. assert (El : l = rev r ++ [x]) by (rewrite <- (rev_involutive l), E; reflexivity).
    destruct x; try (left; reflexivity). right. exact El. }
  destruct E as [->|E]; [reflexivity|]. rewrite E at 2. symmetry. apply words_fields, words_space_end; [|apply fields_words]. cbn. tauto.
Qed.

(** ** Lines *)

Lemma scan_app l : forall r cur, ~ In x0a l -> scan (l ++ r) cur = scan r (cur ++ l).
Proof.
  induction l as [|x l IH]; intros r cur H; [rewrite app_nil_r; reflexivity|]. cbn [app scan]. destruct (Byte.eqb x x0a) eqn:E; [apply byte_eqb_eq in E as ->; destruct H; left; reflexivity|].
  rewrite IH by (intros Hin; apply H; right; exact Hin). rewrite <- app_assoc. reflexivity.
Qed.
Lemma scan_line l r : ~ In x0a l -> scan (l ++ [x0a] ++ r) [] = if max_token <=? Z.of_nat (length l) then ([], true) else (drop_cr l :: fst (scan r []), snd (scan r [])).
Proof. intros H. rewrite scan_app by exact H. cbn [app scan]. change (Byte.eqb x0a x0a) with true. cbn [app]. destruct (max_token <=? _); [reflexivity|]. destruct (scan r []). reflexivity. Qed.
Lemma scan_last l : ~ In x0a l -> l <> [] -> scan l [] = if max_token <=? Z.of_nat (length l) then ([], true) else ([drop_cr l], false).
Proof. intros H Hl. rewrite <- (app_nil_r l) at 1. rewrite scan_app by exact H. cbn [app scan]. destruct l; [congruence|reflexivity]. Qed.

Lemma scan_text buf ls : text buf ls -> (forall l, In l ls -> Z.of_nat (length l) < 65536) -> scan buf [] = (map drop_cr ls, false).
Proof.
  induction 1 as [|l Hl Hn|l r ls Hn _ IH]; intros Hs; [reflexivity| |].
  - rewrite scan_last by assumption. pose proof (Hs l ltac:(left; reflexivity)). unfold max_token. replace (65536 <=? _) with false by lia. reflexivity.
  - rewrite scan_line by assumption. pose proof (Hs l ltac:(left; reflexivity)). unfold max_token. replace (65536 <=? _) with false by lia. rewrite IH by (intros m Hm; apply Hs; right; exact Hm). reflexivity.
Qed.
Lemma scan_long buf ls1 l ls2 : text buf (ls1 ++ l :: ls2) -> (forall m, In m ls1 -> Z.of_nat (length m) < 65536) -> 65536 <= Z.of_nat (length l) -> scan buf [] = (map drop_cr ls1, true).
Proof.
  intros Ht. remember (ls1 ++ l :: ls2) as ls eqn:E. revert ls1 E. induction Ht as [|l' Hl Hn|l' r ls Hn _ IH]; intros ls1 E Hs Hlong; [destruct ls1; discriminate E| |].
  - destruct ls1 as [|m ls1]; [|destruct ls1; discriminate E]. injection E as -> _. rewrite scan_last by assumption. unfold max_token. replace (65536 <=? _) with true by lia. reflexivity.
  - rewrite scan_line by assumption. unfold max_token. destruct ls1 as [|m ls1].
    + injection E as -> _. replace (65536 <=? _) with true by lia. reflexivity.
    + injection E as -> E. pose proof (Hs m ltac:(left; reflexivity)). replace (65536 <=? _) with false by lia. rewrite (IH ls1 E) by (auto; intros x Hx; apply Hs; right; exact Hx). reflexivity.
Qed.
Lemma text_exists n : forall buf, (length buf <= n)%nat -> exists ls, text buf ls.
Proof.
  induction n as [|n IH]; intros buf Hn; [destruct buf; [|cbn in Hn; lia]; exists []; constructor|].
  destruct (in_dec Byte.byte_eq_dec x0a buf) as [Hin|Hnin].
  - assert (G : exists l r, buf = l ++ [x0a] ++ r /\ ~ In x0a l).
    { clear -Hin. induction buf as [|x buf IHb]; [destruct Hin|]. destruct (Byte.byte_eq_dec x x0a) as [->|Hx]; [exists [], buf; split; [reflexivity|intros []]|].
      destruct Hin as [->|Hin]; [congruence|]. destruct (IHb Hin) as (l & r & -> & Hl). exists (x :: l), r. split; [reflexivity|]. intros [->|H]; auto. }
    destruct G as (l & r & -> & Hl). rewrite !app_length in Hn. cbn [length] in Hn. destruct (IH r ltac:(lia)) as (ls & Hls). exists (l :: ls). constructor; assumption.
  - destruct buf as [|x buf]; [exists []; constructor|]. exists [x :: buf]. constructor; [discriminate|exact Hnin].
Qed.

(** ** Binary *)

Section Props.
  Context {F : Type} (f32 : Z -> F) (parse : list byte -> F).
  Notation stlToMesh := (stlToMesh f32 parse).

  Lemma read_tris_spec n : forall l, (50 * n <= length l)%nat -> exists ts, read_tris f32 n l = Some ts /\ length ts = n /\
    forall i t, nth_error ts i = Some t ->
      t = (vertex_at f32 l (50 * i + 12), vertex_at f32 l (50 * i + 24), vertex_at f32 l (50 * i + 36)).
  Proof.
    induction n as [|n IH]; intros l Hl.
    - exists []. split; [reflexivity|]. split; [reflexivity|]. intros [|i] t E; discriminate E.
    - cbn [read_tris]. unfold read_struct. replace (Nat.ltb (length l) 50) with false by (symmetry; apply Nat.ltb_ge; lia).
      destruct (IH (drop 50 l)) as (ts & E & Hn & Hi); [rewrite drop_length; lia|]. rewrite E. eexists. split; [reflexivity|]. split; [cbn [length]; lia|].
      intros [|i] t Et.
      + cbn [nth_error] in Et. injection Et as <-. unfold vertex_at. rewrite !le32_take by lia. reflexivity.
      + cbn [nth_error] in Et. rewrite (Hi i t Et). unfold vertex_at. rewrite !le32_drop.
        replace (50 * S i)%nat with (50 + 50 * i)%nat by lia. rewrite <- !Nat.add_assoc. reflexivity.
  Qed.

  Lemma header_take (buf : list byte) : (84 <= length buf)%nat -> read_struct 84 buf = Some (take 84 buf, drop 84 buf) /\ le32 (take 84 buf) 80 = count buf.
  Proof.
    intros H. split; [|apply le32_take; lia]. unfold read_struct. replace (Nat.ltb (length buf) 84) with false by (symmetry; apply Nat.ltb_ge; lia). reflexivity.
  Qed.

  Theorem C52_short buf : (length buf < 84)%nat -> stlToMesh buf = SErr EHeader.
  Proof. intros H. unfold StlParse.stlToMesh, read_struct. apply Nat.ltb_lt in H. rewrite H. reflexivity. Qed.

  (** A byte string of the size that its header announces is binary, and its parse gives as many
      triangles, triangle [i] from the bytes at 84 + 50 i. *)
  Theorem C52_binary buf : (84 <= length buf)%nat -> binary_size buf ->
    exists ts, stlToMesh buf = SMesh ts /\ Z.of_nat (length ts) = count buf /\
      forall i t, nth_error ts i = Some t ->
        t = (vertex_at f32 buf (84 + 50 * i + 12), vertex_at f32 buf (84 + 50 * i + 24), vertex_at f32 buf (84 + 50 * i + 36)).
  Proof.
    intros H84 Hb. unfold StlParse.stlToMesh, loadSTLB. destruct (header_take buf H84) as [-> ->].
    pose proof (le32_range buf 80) as Hr. fold (count buf) in Hr. unfold binary_size in Hb. replace (_ =? _) with true by lia.
    destruct (read_tris_spec (Z.to_nat (count buf)) (drop 84 buf)) as (ts & -> & Hn & Hi); [rewrite drop_length; lia|].
    exists ts. split; [reflexivity|]. split; [lia|]. intros i t Et. rewrite (Hi i t Et). unfold vertex_at. rewrite !le32_drop, !Nat.add_assoc. reflexivity.
  Qed.

  (** A text is never taken for a binary file below 7.5 GB: [count] of four characters is too large. *)
  Theorem C52_text_not_binary buf : (forall i, (80 <= i < 84)%nat -> 9 <= b2z (nth i buf x00)) -> Z.of_nat (length buf) < 7579354134 -> ~ binary_size buf.
  Proof.
    intros Hc Hl Hb. unfold binary_size, count, le32, byte_at in Hb. cbn [Nat.add] in Hb.
    pose proof (Hc 80%nat ltac:(lia)). pose proof (Hc 81%nat ltac:(lia)). pose proof (Hc 82%nat ltac:(lia)). pose proof (Hc 83%nat ltac:(lia)). lia.
  Qed.

  (** ** Text *)

  Lemma vertices_exist ls : exists vs, vertices parse ls vs.
  Proof.
    induction ls as [|l ls (vs & IH)]; [exists []; constructor|]. destruct (fields l) as [|w [|a [|b [|c [|d r]]]]] eqn:E;
      try (exists vs; apply v_other; [|exact IH]; intros a' b' c' Hw; apply words_fields in Hw; congruence).
    destruct (bool_decide (w = txt "vertex")) eqn:Ew.
    - apply bool_decide_eq_true in Ew as ->. eexists. apply v_vertex; [|exact IH]. apply words_iff. exact E.
    - apply bool_decide_eq_false in Ew. exists vs. apply v_other; [|exact IH]. intros a' b' c' Hw. apply words_fields in Hw. congruence.
  Qed.

  Lemma vertices_lines ls vs : vertices parse ls vs -> concat (map (line_vertex parse) (map drop_cr ls)) = vs.
  Proof.
    induction 1 as [|l a b c ls vs Hw _ IH|l ls vs Hn _ IH]; [reflexivity| |]; cbn [map concat]; rewrite IH; unfold line_vertex; rewrite fields_drop_cr.
    - apply words_fields in Hw as ->. rewrite bool_decide_true by reflexivity. reflexivity.
    - destruct (fields l) as [|w [|a [|b [|c [|d r]]]]] eqn:E; try reflexivity. rewrite bool_decide_false; [reflexivity|]. intros ->. apply (Hn a b c). apply words_iff. exact E.
  Qed.

  Lemma group3_spec n : forall vs : list (vec F), (length vs <= n)%nat ->
    match group3 vs with Some ts => corners ts = vs | None => (length vs mod 3)%nat <> 0%nat end.
  Proof.
    induction n as [|n IH]; intros vs Hn; [destruct vs; [reflexivity|cbn in Hn; lia]|].
    destruct vs as [|a [|b [|c vs]]]; [reflexivity|discriminate|discriminate|]. cbn [length] in Hn. cbn [group3]. pose proof (IH vs ltac:(lia)) as G.
    destruct (group3 vs) as [ts|]; [unfold corners in *; cbn [map concat fst snd app]; rewrite G; reflexivity|].
    cbn [length]. replace (S (S (S (length vs)))) with (length vs + 1 * 3)%nat by lia. rewrite Nat.mod_add by lia. exact G.
  Qed.
  Lemma group3_mod (vs : list (vec F)) : (length vs mod 3 = 0)%nat -> exists ts, group3 vs = Some ts /\ corners ts = vs.
  Proof. intros H. pose proof (group3_spec (length vs) vs (le_n _)) as G. destruct (group3 vs) as [ts|]; [eauto|congruence]. Qed.
  Lemma group3_bad (vs : list (vec F)) : (length vs mod 3 <> 0)%nat -> group3 vs = None.
  Proof.
    intros H. pose proof (group3_spec (length vs) vs (le_n _)) as G. destruct (group3 vs) as [ts|] eqn:E; [|reflexivity]. exfalso. apply H. rewrite <- G.
    assert (L : length (corners ts) = (length ts * 3)%nat); [clear; unfold corners; induction ts as [|t ts IH]; [reflexivity|]; cbn [map concat]; rewrite app_length, IH; reflexivity|].
    rewrite L. apply Nat.mod_mul. lia.
  Qed.

  (** Any other byte string of at least 84 bytes is text: its vertex lines, three by three, are the
      triangles; if they are not a multiple of three the loader panics. *)
  Theorem C52_ascii buf ls vs : (84 <= length buf)%nat -> ~ binary_size buf -> text buf ls -> vertices parse ls vs ->
    (forall l, In l ls -> Z.of_nat (length l) < 65536) ->
    ((length vs mod 3 = 0)%nat -> exists ts, stlToMesh buf = SMesh ts /\ corners ts = vs) /\
    ((length vs mod 3 <> 0)%nat -> stlToMesh buf = SPanic).
  Proof.
    intros H84 Hb Ht Hv Hs. unfold StlParse.stlToMesh. destruct (header_take buf H84) as [-> ->]. unfold binary_size in Hb. replace (_ =? _) with false by lia.
    unfold loadSTLA. rewrite (scan_text buf ls Ht Hs), (vertices_lines ls vs Hv). split; intros H.
    - destruct (group3_mod vs H) as (ts & -> & Hc). eauto.
    - rewrite (group3_bad vs H). reflexivity.
  Qed.

  (** A line of 64 KiB or more stops the scan there: an error, or the panic if the vertices before it
      are not a multiple of three. *)
  Theorem C52_long_line buf ls1 l ls2 vs : (84 <= length buf)%nat -> ~ binary_size buf -> text buf (ls1 ++ l :: ls2) -> vertices parse ls1 vs ->
    (forall m, In m ls1 -> Z.of_nat (length m) < 65536) -> 65536 <= Z.of_nat (length l) ->
    stlToMesh buf = if Nat.eqb (length vs mod 3) 0 then SErr ELine else SPanic.
  Proof.
    intros H84 Hb Ht Hv Hs Hl. unfold StlParse.stlToMesh. destruct (header_take buf H84) as [-> ->]. unfold binary_size in Hb. replace (_ =? _) with false by lia.
    unfold loadSTLA. rewrite (scan_long buf ls1 l ls2 Ht Hs Hl), (vertices_lines ls1 vs Hv). destruct (Nat.eqb_spec (length vs mod 3) 0) as [E|E].
    - destruct (group3_mod vs E) as (ts & -> & _). reflexivity.
    - rewrite (group3_bad vs E). reflexivity.
  Qed.

  (** Every byte string is covered: it has lines, and these have vertices. *)
  Theorem C52_total buf : exists ls vs, text buf ls /\ vertices parse ls vs /\
    ((length buf < 84)%nat \/ binary_size buf \/ ~ binary_size buf /\
      ((forall l, In l ls -> Z.of_nat (length l) < 65536) \/
       exists ls1 l ls2, ls = ls1 ++ l :: ls2 /\ (forall m, In m ls1 -> Z.of_nat (length m) < 65536) /\ 65536 <= Z.of_nat (length l))).
  Proof.
    destruct (text_exists (length buf) buf (le_n _)) as (ls & Ht). destruct (vertices_exist ls) as (vs & Hv). exists ls, vs. split; [exact Ht|]. split; [exact Hv|].
    destruct (Nat.ltb_spec (length buf) 84); [left; assumption|right]. unfold binary_size.
    destruct (Z.eq_dec (Z.of_nat (length buf)) (84 + 50 * count buf)); [left; assumption|right]. split; [assumption|]. clear.
    induction ls as [|l ls IH]; [left; intros ? []|]. destruct (Z.le_gt_cases 65536 (Z.of_nat (length l))) as [Hl|Hl].
    - right. exists [], l, ls. split; [reflexivity|]. split; [intros ? []|exact Hl].
    - destruct IH as [IH|(ls1 & m & ls2 & -> & H1 & H2)]; [left; intros x [<-|Hx]; auto|]. right. exists (l :: ls1), m, ls2. split; [reflexivity|]. split; [intros x [<-|Hx]; auto|exact H2].
  Qed.

  (** ** Writing *)

  Context (bits32 : F -> Z) (norm : ftri F -> Z * Z * Z).
  Notation saveSTL := (saveSTL bits32 norm).

  Definition as32 (v : vec F) : vec F := let '(x, y, z) := v in (f32 (bits32 x), f32 (bits32 y), f32 (bits32 z)).
  Definition tri32 (t : ftri F) : ftri F := let '(a, b, c) := t in (as32 a, as32 b, as32 c).

  Lemma put_tri_length t : length (put_tri bits32 norm t) = 50%nat.
  Proof. destruct t as [[[[? ?] ?] [[? ?] ?]] [[? ?] ?]]. unfold put_tri. destruct (norm _) as [[? ?] ?]. reflexivity. Qed.

  Hypothesis bits32_range : forall x, 0 <= bits32 x < 4294967296.

  Lemma vertex_put t : vertex_at f32 (put_tri bits32 norm t) 12 = as32 (fst (fst t)) /\ vertex_at f32 (put_tri bits32 norm t) 24 = as32 (snd (fst t)) /\ vertex_at f32 (put_tri bits32 norm t) 36 = as32 (snd t).
  Proof.
    destruct t as [[[[ax ay] az] [[bx by_] bz]] [[cx cy] cz]]. unfold put_tri. destruct (norm _) as [[nx ny] nz]. unfold vertex_at, as32, put_vec. cbn [fst snd Nat.add].
    assert (E : forall pre x suf i, length pre = i -> le32 (pre ++ put32 (bits32 x) ++ suf) i = bits32 x) by (intros pre x suf i Hi; rewrite le32_app by exact Hi; apply le32_put32, bits32_range).
    rewrite <- !app_assoc. repeat split; repeat (apply (f_equal2 (@pair _ _))); f_equal.
    - apply (E (put32 nx ++ put32 ny ++ put32 nz) ax). reflexivity.
    - apply (E (put32 nx ++ put32 ny ++ put32 nz ++ put32 (bits32 ax)) ay). reflexivity.
    - apply (E (put32 nx ++ put32 ny ++ put32 nz ++ put32 (bits32 ax) ++ put32 (bits32 ay)) az). reflexivity.
    - apply (E (put32 nx ++ put32 ny ++ put32 nz ++ put32 (bits32 ax) ++ put32 (bits32 ay) ++ put32 (bits32 az)) bx). reflexivity.
    - apply (E (put32 nx ++ put32 ny ++ put32 nz ++ put32 (bits32 ax) ++ put32 (bits32 ay) ++ put32 (bits32 az) ++ put32 (bits32 bx)) by_). reflexivity.
    - apply (E (put32 nx ++ put32 ny ++ put32 nz ++ put32 (bits32 ax) ++ put32 (bits32 ay) ++ put32 (bits32 az) ++ put32 (bits32 bx) ++ put32 (bits32 by_)) bz). reflexivity.
    - apply (E (put32 nx ++ put32 ny ++ put32 nz ++ put32 (bits32 ax) ++ put32 (bits32 ay) ++ put32 (bits32 az) ++ put32 (bits32 bx) ++ put32 (bits32 by_) ++ put32 (bits32 bz)) cx). reflexivity.
    - apply (E (put32 nx ++ put32 ny ++ put32 nz ++ put32 (bits32 ax) ++ put32 (bits32 ay) ++ put32 (bits32 az) ++ put32 (bits32 bx) ++ put32 (bits32 by_) ++ put32 (bits32 bz) ++ put32 (bits32 cx)) cy). reflexivity.
    - apply (E (put32 nx ++ put32 ny ++ put32 nz ++ put32 (bits32 ax) ++ put32 (bits32 ay) ++ put32 (bits32 az) ++ put32 (bits32 bx) ++ put32 (bits32 by_) ++ put32 (bits32 bz) ++ put32 (bits32 cx) ++ put32 (bits32 cy)) cz). reflexivity.
  Qed.

  Lemma read_put ts : forall r, read_tris f32 (length ts) (concat (map (put_tri bits32 norm) ts) ++ r) = Some (map tri32 ts).
  Proof.
    induction ts as [|t ts IH]; intros r; [reflexivity|]. cbn [length map concat read_tris]. unfold read_struct. rewrite <- app_assoc, app_length, put_tri_length.
    replace (Nat.ltb _ 50) with false by (symmetry; apply Nat.ltb_ge; lia). rewrite <- (put_tri_length t). rewrite take_app, drop_app, IH.
    destruct (vertex_put t) as (-> & -> & ->). destruct t as [[a b] c]. reflexivity.
  Qed.

  (** What SaveSTL writes, stlToMesh reads back, with every coordinate rounded to a float32. *)
  Theorem C52_roundtrip ts : Z.of_nat (length ts) < 4294967296 -> stlToMesh (saveSTL ts) = SMesh (map tri32 ts).
  Proof.
    intros Hn. unfold saveSTL. set (body := concat (map (put_tri bits32 norm) ts)).
    assert (Hbody : length body = (50 * length ts)%nat). { unfold body. clear. induction ts as [|t ts IH]; [reflexivity|]. cbn [map concat length]. rewrite app_length, put_tri_length, IH. lia. }
    set (h := repeat x00 80). assert (Hh : length h = 80%nat) by reflexivity. clearbody h.
    assert (Hlen : length (h ++ put32 (Z.of_nat (length ts)) ++ body) = (84 + 50 * length ts)%nat) by (rewrite !app_length; unfold put32; cbn [length]; lia).
    assert (Hc : count (h ++ put32 (Z.of_nat (length ts)) ++ body) = Z.of_nat (length ts)) by (unfold count; rewrite le32_app by exact Hh; apply le32_put32; lia).
    unfold StlParse.stlToMesh, loadSTLB. destruct (header_take (h ++ put32 (Z.of_nat (length ts)) ++ body)) as [-> ->]; [lia|]. rewrite Hc, Hlen.
    replace (_ =? _) with true by lia. rewrite Nat2Z.id. replace (drop 84 _) with body.
    - rewrite <- (app_nil_r body). unfold body. rewrite read_put. reflexivity.
    - rewrite app_assoc. replace 84%nat with (length (h ++ put32 (Z.of_nat (length ts)))) by (rewrite app_length; unfold put32; cbn [length]; lia). rewrite drop_app. reflexivity.
  Qed.
End Props.
Print Assumptions C52_short.
Print Assumptions C52_binary.
Print Assumptions C52_text_not_binary.
Print Assumptions C52_ascii.
Print Assumptions C52_long_line.
Print Assumptions C52_total.
Print Assumptions C52_roundtrip.

(** ** Examples *)

Definition nl : list byte := [x0a].
Definition ex_ascii : list byte :=
  txt "solid part" ++ nl ++ txt " facet normal 0 0 1" ++ nl ++ txt "  outer loop" ++ nl ++ txt "   vertex 0 0 7" ++ nl ++ txt "   vertex	1 0 7" ++ [x0d] ++ nl ++ txt "   vertex 0 1  7 " ++ nl
  ++ txt "  endloop" ++ nl ++ txt " endfacet" ++ nl ++ txt "endsolid part" ++ nl.

(** With numbers read as their text. *)
Example C52_ascii_ex : stlToMesh (fun _ => []) (fun s => s) ex_ascii
  = SMesh [((txt "0", txt "0", txt "7"), (txt "1", txt "0", txt "7"), (txt "0", txt "1", txt "7"))].
Proof. vm_compute. reflexivity. Qed.
(** A vertex too many: the loader panics, and with it the server. *)
Example C52_panic_ex : stlToMesh (fun _ => []) (fun s => s) (ex_ascii ++ txt "vertex 1 2 3") = SPanic.
Proof. vm_compute. reflexivity. Qed.
(** A correct text file of no triangles is refused. *)
Example C52_short_ex : stlToMesh (fun _ => []) (fun s => s) (txt "solid part" ++ nl ++ txt "endsolid part" ++ nl) = SErr EHeader.
Proof. vm_compute. reflexivity. Qed.
Example C52_binary_ex :
  let t := ((1, 2, 3), (4, 5, 6), (7, 8, 4294967295)) in
  stlToMesh (fun w => w) (fun _ => 0) (saveSTL (fun w => w) (fun _ => (0, 0, 1)) [t; t]) = SMesh [t; t] /\
  length (saveSTL (fun w => w) (fun _ => (0, 0, 1)) [t; t]) = 184%nat.
Proof. split; vm_compute; reflexivity. Qed.
