(** The product of principal roots that the three evaluations must give. *)
From Verif Require Import CArg.
Local Open Scope nat_scope.

(** factors: u_k - x for the first d1 points, x - u_k for the others *)
Definition factors (u : list C) (d1 d : nat) (x : R) : list C :=
  map (fun k => if k <? d1 then (nth k u (RtoC 0) - RtoC x)%C else (RtoC x - nth k u (RtoC 0))%C) (seq 0 d).
Definition cprod (l : list C) : C := fold_right Cmult (RtoC 1) l.
(** product of the principal m-th roots *)
Definition roots_product (m : Z) (l : list C) : C := cprod (map (croot m) l).
Definition negative_real (z : C) : Prop := snd z = 0%R /\ (fst z < 0)%R.
