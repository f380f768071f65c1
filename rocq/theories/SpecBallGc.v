(** Contract of Arb for the functions on real balls of ModelBallGc. *)
From Coq Require Import Reals.
From Verif Require Import CArg ModelGc ModelBall ModelBallGc.
Local Open Scope R_scope.

Record rsound (A : arith) (B : reals A) (mem : ball A -> C -> Prop) : Prop := {
  t_abs : forall p X x, mem X x -> mem (r_abs A B p X) (RtoC (Cmod x));
  t_log : forall p X r, mem X (RtoC r) -> 0 < r -> mem (r_log A B p X) (RtoC (ln r));
  t_exp : forall p X r, mem X (RtoC r) -> mem (r_exp A B p X) (RtoC (exp r));
  t_acosh : forall p X r, mem X (RtoC r) -> 1 <= r -> mem (r_acosh A B p X) (RtoC (acosh r));
  t_div : forall p X Y r s, mem X (RtoC r) -> mem Y (RtoC s) -> s <> 0 -> mem (r_div A B p X Y) (RtoC (r / s));
  (* a result that is not defined is a ball that is not finite, and contains every number *)
  t_acosh_nan : forall p X r s, mem X (RtoC r) -> r < 1 -> mem (r_acosh A B p X) (RtoC s);
  t_div_nan : forall p X Y s, mem Y (RtoC 0) -> mem (r_div A B p X Y) (RtoC s);
  t_lsq2pi : forall p, mem (r_lsq2pi A B p) (RtoC (ln (sqrt (2 * PI))));
  t_log2 : forall p, mem (r_log2 A B p) (RtoC (ln 2));
  t_pos : forall X r, r_pos A B X = true -> mem X (RtoC r) -> 0 < r;
  t_overlaps : forall X Y r, mem X (RtoC r) -> mem Y (RtoC r) -> r_overlaps A B X Y = true;
  t_low : forall p X r, mem X (RtoC r) -> r_low A B p X <= Rabs r;
  t_up : forall p X r t, r_up A B p X = Some t -> mem X (RtoC r) -> r <= t;
  t_mag : forall X r e, r_mag A B X = Some e -> mem X (RtoC r) -> Rabs r <= e
}.
