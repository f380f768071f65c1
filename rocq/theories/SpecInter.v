(** The intersection numbers of shifted elementary cycles (the table of the paper). *)
From Verif Require Import Base ModelTree ModelInter.

(** +1 when the sheet difference is sp, -1 when it is sm, modulo m *)
Definition number (m sp sm d : Z) : Z :=
  if (d - sp) mod m =? 0 then 1 else if (d - sm) mod m =? 0 then -1 else 0.

(** relative position of two edges ek (earlier) and el (later) of the tree *)
Inductive position := Apart | SameStart (negative : bool) | EndToStart.
Definition relative (neg : bool) (ek el : edge) : position :=
  if (ea el =? ea ek)%nat then SameStart neg
  else if (ea el =? eb ek)%nat then EndToStart else Apart.

(** intersection of gamma_k^(u) and gamma_l^(v), d = v - u, s the relative sheet number *)
Definition table (m : Z) (p : position) (s d : Z) : Z :=
  match p with
  | Apart => 0
  | SameStart true => number m (- s) (-1 - s) d
  | SameStart false => number m (1 - s) (- s) d
  | EndToStart => number m (- s) (1 - s) d
  end.

Definition no_edge : edge := {| er := None; ea := 0; eb := 0 |}.

(** the form on all shifted cycles *)
Definition intersection (m : Z) (es : list edge) (neg : nat -> nat -> bool) (s : nat -> nat -> Z)
  (k l : nat) (u v : Z) : Z :=
  let e i := nth i es no_edge in
  if (k <? l)%nat then table m (relative (neg k l) (e k) (e l)) (s k l) (v - u)
  else if (l <? k)%nat then - table m (relative (neg l k) (e l) (e k)) (s l k) (u - v)
  else number m 1 (-1) (v - u).

(** share an end point *)
Definition incident (x y : edge) : Prop :=
  ea x = ea y \/ ea x = eb y \/ eb x = ea y \/ eb x = eb y.
