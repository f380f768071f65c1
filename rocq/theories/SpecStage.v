(** Results of a computation, according to the options. *)
From Verif Require Import Base ModelCli ModelTree ModelStage.
Local Open Scope Z_scope.

Section Spec.
Context {Roots Ydata Loops Ints Omega Tau : Type}.
Notation state := (@state Roots Ydata Loops Ints Omega Tau).

(** the same branch points, edges and homology basis; the same integrals unless --tree; the same
    periods unless --tree or --int; the same tau unless --tree, --int or --big *)
Definition same_results (flag : Z) (s t : state) : Prop :=
  st_type s = st_type t /\ st_roots s = st_roots t /\ st_edges s = st_edges t /\ st_data s = st_data t /\
  st_a s = st_a t /\ st_b s = st_b t /\
  (Z.land flag AJ_NO_INT = 0 -> st_ints s = st_ints t /\
    (Z.land flag AJ_NO_AB = 0 -> st_omega0 s = st_omega0 t /\ st_omega1 s = st_omega1 t /\
      (Z.land flag AJ_NO_TAU = 0 -> st_tau s = st_tau t))).
End Spec.
