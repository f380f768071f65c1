(** The roundings of arb/mag_func.c:26-38: doubles and arf round to nearest, mag_set_d takes the
    30 leading bits plus one (Arb, mag.h, MAG_SET_D_2EXP). *)
From Coq Require Import Reals.
From Flocq Require Import Core.
From Verif Require Import Base ModelMag.
Local Open Scope R_scope.

(** value on p bits, to nearest; exponent range unbounded *)
Definition nearest (p : Z) (x : R) : R := round radix2 (FLX_exp p) ZnearestE x.
(** mag_func.c:26 *)
Definition div_dbl (x : R) (n : nat) : R := nearest 53 (x / INR n).
(** mag_func.c:27-28 *)
Definition mid_dbl (prec : Z) (m r : R) (n : nat) : R := nearest prec (nearest 53 (r * (1 - INR n)) + m).
(** mag_func.c:38 *)
Definition mag_set_d (r : R) : R :=
  let e := mag radix2 r in
  IZR (Zfloor (r * bpow radix2 (30 - e)) + 1) * bpow radix2 (e - 30).
