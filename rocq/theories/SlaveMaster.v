(** C51: what the stldice-master server answers. *)
From Verif Require Import Base BaseLemmas FloatTextQ BinvoxModel StlParse SlaveModel.
From Coq Require Import ZArith QArith List.
Import ListNotations.
Open Scope Z_scope.

(** The master reports success for every addition and every subtraction - which the slave never does - and has nothing to return for any
    region, whatever was added to it before: its answer to a request does not depend on the others. *)
Theorem C51_master {F} (h : list (request F)) : List.length (map master_serve h) = List.length h /\
  forall i q a, nth_error h i = Some q -> nth_error (map master_serve h) i = Some a ->
    match q with
    | QAdd _ _ => a = RAdded
    | QSub _ _ => a = RSubtracted
    | QGet _ => a = RMesh []
    end.
Proof.
  split; [apply map_length|]. intros i q a Hq Ha. rewrite nth_error_map, Hq in Ha. injection Ha as <-. destruct q; reflexivity.
Qed.

(** An addition and a request for the same region. *)
Example C51_master_example (r : region Q) stl : map master_serve [QAdd r stl; QSub r stl; QGet r] = [RAdded; RSubtracted; RMesh []].
Proof. reflexivity. Qed.

Print Assumptions C51_master.
