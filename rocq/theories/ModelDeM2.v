(** Model of arb/de_params.c:33-153: the constant M2, a bound for |x^i/y| on the lines |Im w| = r
    mapped by x = tanh(l sinh w).  The search over an interval is that of ModelMag. *)
From Coq Require Import Reals.
From Coquelicot Require Import Complex.
From Verif Require Import CArg ModelMag ModelGc SpecDe.
Local Open Scope R_scope.

(** de_params.c:62-74: product of the |z - u_k|; None when 0 is returned (line 70).  Exact numbers:
    the enclosure of z - u_k that contains 0 is the number 0. *)
Fixpoint mf_product (z : C) (u : list C) (p : R) : option R :=
  match u with
  | [] => Some p
  | x :: u => if Ceq_dec (z - x)%C (RtoC 0) then None else mf_product z u (p * Cmod (z - x)%C)
  end.
(** de_params.c:45-87 with exact numbers; lines 56-60, 62-74, 76-79 *)
Definition max_f (l r : R) (u : list C) (i : nat) (m : Z) (t : R) : option R :=
  let z := ctanh (csinh (t, r) * RtoC l)%C in
  match mf_product z u 1 with
  | None => None
  | Some p => Some (Cmod z ^ i / rroot m p)
  end.
(** de_params.c:90-99 *)
Definition vec_abs (u : list C) : list C := map (fun z => (Rabs (fst z), Rabs (snd z))) u.

Section M2.
(** the ball library, as in ModelMag *)
Variables (div_d : R -> nat -> R) (mid_d : R -> R -> nat -> R) (mag_d : R -> R).
Variables (add_arf : ball -> R -> ball) (union : ball -> ball -> ball).
Variable accept : ball -> bool.
Variable interval : R -> R -> ball.
(** max_f on balls, of the fields r, lambda, u, i, m of params_t (lines 34-43) and t *)
Variable f : R -> R -> list C -> nat -> Z -> ball -> option ball.
(** arb_get_ubound_arf of the ball computed for the number given *)
Variable ubound : R -> R.

(** de_params.c:102-153.  When Pi/(2 l sin r) < 1, acosh is not a number, the interval has an
    infinite radius and mag_func.c:52 stops the program. *)
Definition de_constant_m2 (l : R) (u : list C) (r : R) (i : nat) (m : Z) : outcome ball :=
  if Rle_dec r 0 then Abort
  else
    let u := vec_abs u in
    let q := PI / (2 * (sin r * l)) in
    if Rlt_dec q 1 then Abort
    else
      let tmax := ubound (acosh q) in
      bound_func_arf div_d mid_d mag_d add_arf union (f r l u i m) accept interval 20 0 tmax 30.
End M2.
