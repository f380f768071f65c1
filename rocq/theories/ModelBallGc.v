(** Model of arb/gc_params.c on balls, as sequences of calls to Arb.

    The functions on real balls that ModelBall does not have are the fields of a second record;
    nothing is assumed about them here.  An exact number (arf_t, or an arb_t of radius 0) is a real
    number, and None is a number that is not finite. *)
From Coq Require Import Reals.
From Verif Require Import Base ModelCurve ModelBall.
Local Open Scope nat_scope.

Record reals (A : arith) := {
  r_abs : Z -> ball A -> ball A;           (* acb_abs *)
  r_log : Z -> ball A -> ball A;           (* arb_log *)
  r_exp : Z -> ball A -> ball A;           (* arb_exp *)
  r_acosh : Z -> ball A -> ball A;         (* arb_acosh *)
  r_div : Z -> ball A -> ball A -> ball A; (* arb_div *)
  r_lsq2pi : Z -> ball A;                  (* arb_const_log_sqrt2pi *)
  r_log2 : Z -> ball A;                    (* arb_const_log2 *)
  r_pos : ball A -> bool;                  (* arb_is_positive *)
  r_overlaps : ball A -> ball A -> bool;   (* arb_overlaps *)
  r_low : Z -> ball A -> R;                (* arb_get_abs_lbound_arf *)
  r_up : Z -> ball A -> option R;          (* arb_get_ubound_arf *)
  r_mag : ball A -> option R               (* arb_get_mag *)
}.

(** conversion of a product to a slong *)
Definition swrap (z : Z) : Z := ((z + 2 ^ 63) mod 2 ^ 64 - 2 ^ 63)%Z.

Section Run.
Variables (A : arith) (B : reals A).
Notation bl := (ball A).
(** gc_params.c:148 *)
Definition pp : Z := 32.

(** gc_params.c:10-33 *)
Definition b_func_r_gc (u : bl) : outcome bl :=
  let t := r_abs A B pp (b_add A pp u (b_int A 1)) in
  let r := r_abs A B pp (b_add A pp u (b_int A (-1))) in
  let r := b_2exp A (b_add A pp r t) (-1) in
  if r_pos A B (b_sub A pp r (b_int A 1)) then Done r else Abort.
(** gc_params.c:41-47; [r0] is None before the first point *)
Fixpoint b_vec_r (u : list bl) (r0 : option R) : outcome (list bl * option R) :=
  match u with
  | [] => Done ([], r0)
  | z :: u =>
      do r <- b_func_r_gc z;
      let t := r_low A B pp r in
      let r0 := match r0 with Some s => if Rlt_dec t s then Some t else Some s | None => Some t end in
      do q <- b_vec_r u r0;
      Done (r :: fst q, snd q)
  end.

(** gc_params.c:62-72; [r] is the ball and [c] its centre *)
Fixpoint b_maj_prod (r : bl) (c : R) (vr : list bl) (K : nat) (m : bl) : nat * bl :=
  match vr with
  | [] => (K, m)
  | x :: vr => if r_overlaps A B r x then b_maj_prod r c vr (S K) m
               else b_maj_prod r c vr K (b_mul A pp m (b_sub A pp x (b_real A c)))
  end.
(** gc_params.c:51-83 *)
Definition b_maj_yr (m0 r : bl) (c : R) (vr : list bl) : outcome (nat * bl) :=
  if negb (b_finite A r) then Abort
  else
    let '(K, m) := b_maj_prod r c vr 0 (b_one A) in
    if negb (b_finite A m) then Abort
    else Done (K, b_sub A pp m0 (b_2exp A (r_log A B pp m) (-1))).

(** gc_params.c:85-104 and 188-195; [choose] is the computation on doubles of lines 90-94: None is
    a NaN, on which the next call of maj_yr aborts *)
Fixpoint b_gc_loop (choose : R -> bl -> nat -> option R) (fuel : nat) (m0 : bl) (r0 : R) (r : bl) (c : R) (vr : list bl)
  : outcome (bl * R * bl) :=
  match fuel with
  | O => OutOfFuel
  | S fuel =>
      do q <- b_maj_yr m0 r c vr;
      let '(K, m) := q in
      match K with
      | O => Done (r, c, m)
      | S _ =>
          match choose r0 m K with
          | None => Abort
          | Some c => if Rlt_dec c 1 then Abort else b_gc_loop choose fuel m0 r0 (b_real A c) c vr
          end
      end
  end.

(** gc_params.c:144-237: number of points, error radius, the smallest bound r0 and the half sum of
    distances chosen.  Line 185 sets the radius to 2/prec, rounded up in Arb; line 206 aborts if the
    number is not finite or does not fit.  Without points r0 is 0. *)
Definition b_gc_params (choose : R -> bl -> nat -> option R) (fuel : nat) (u : list bl) (d : nat) (prec : Z)
  : outcome (Z * option R * R * R) :=
  do q <- b_vec_r u None;
  let vr := fst q in
  let r0 := match snd q with Some s => s | None => 0%R end in
  let m0 := b_2exp A (r_lsq2pi A B pp) 1 in
  let m0 := b_addmul_int A pp m0 (r_log A B pp (b_real A r0)) (Z.of_nat d) in
  let m0 := b_addmul_int A pp m0 (r_log2 A B pp) prec in
  let rad := if Z.eqb prec 0 then None else Some (Rabs (2 / IZR prec)) in
  do l <- b_gc_loop choose fuel m0 r0 (b_err A (b_real A r0) rad) r0 vr;
  let '(r, c, m) := l in
  let r := r_acosh A B pp r in
  match r_up A B pp (b_2exp A (r_div A B pp m r) (-1)) with
  | None => Abort
  | Some t =>
      let n := (- Int_part (- t))%Z in
      if negb (fits_slong n) then Abort
      else
        let m := b_2exp A (r_exp A B pp m) (- prec) in
        let r := b_sub A pp (r_exp A B pp (b_mul_int A pp r (swrap (2 * n)))) (b_int A 1) in
        Done (n, r_mag A B (r_div A B pp m r), r0, c)
  end.
(** integrals_gc.c:101 *)
Definition b_gc_call (choose : R -> bl -> nat -> option R) (fuel : nat) (d : nat) (prec : Z) (u : list bl) : outcome (Z * option R) :=
  do q <- b_gc_params choose fuel u d prec;
  let '(n, e, _, _) := q in Done (n, e).
End Run.
