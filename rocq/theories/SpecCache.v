(** Vocabulary of the statements about the loops over the edges. *)
From Verif Require Import Base ModelCurve.
From Coq Require Import ZArith List.
Import ListNotations.
Local Open Scope Z_scope.

(** requested numbers of points are positive and small enough for machine arithmetic *)
Definition params_small (c : sec) (reqs : list Z) : Prop :=
  1 <= sec_n c /\ 0 <= sec_g c /\ forall n, In n reqs -> 1 <= n /\ (n + 1) * (sec_n c + sec_g c + 1) < 2 ^ 62.

Fixpoint non_increasing (l : list Z) : Prop :=
  match l with
  | [] => True
  | a :: l' => match l' with [] => True | b :: _ => b <= a end /\ non_increasing l'
  end.

(** the edges of a list integrated one after the other, the scheme left by one being given to the
    next, with the rows they give *)
Inductive run {Row Scheme : Type} (integ : Scheme -> nat -> outcome (Row * Scheme)) : Scheme -> list nat -> list Row -> Prop :=
| run_nil : forall s, run integ s [] []
| run_cons : forall s k ks r s' rs, integ s k = Done (r, s') -> run integ s' ks rs -> run integ s (k :: ks) (r :: rs).
