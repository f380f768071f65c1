(** Model of arb/mag_func.c (bounds by subdivision) and arb/mag_func_d.c (golden section).

    A ball is a pair (middle, radius) of real numbers.  The roundings of the ball library are
    arguments of the model, as is the function to bound and the test that accepts an enclosure. *)
From Coq Require Import Reals Lra.
From Verif Require Import Base.
Local Open Scope R_scope.

Definition ball := (R * R)%type.

Section Bound.
(** roundings: division of doubles (line 26), product of doubles then sum of arf (lines 27-28),
    upper bound of a double as a mag (line 38) *)
Variables (div_d : R -> nat -> R) (mid_d : R -> R -> nat -> R) (mag_d : R -> R).
(** arb_add_arf, arb_union, arb_get_mag *)
Variables (add_arf : ball -> R -> ball) (union : ball -> ball -> ball) (get_mag : ball -> R).
(** the function: None when it returns 0 *)
Variable f : ball -> option ball.
(** lines 70-72 and 152: the enclosure is finite and precise enough *)
Variable accept : ball -> bool.

(** mag_func.c:9-39: first piece and step *)
Definition subdivide (b : ball) (n : nat) : ball * R :=
  let r := div_d (snd b) n in
  ((mid_d (fst b) r n, mag_d r), 2 * r).

(** mag_func.c:67-86, todo pieces from t; [sub] is the recursive call *)
Fixpoint pieces (sub : ball -> outcome ball) (t : ball) (step : R) (todo : nat) (m : option ball) : outcome (option ball) :=
  match todo with
  | O => Done m
  | S todo =>
      do abs <- match f t with
                | Some y => if accept y then Done y else sub t
                | None => sub t
                end;
      pieces sub (add_arf t step) step todo (Some (match m with None => abs | Some m => union m abs end))
  end.
(** mag_func.c:41-97; m is left as it was when n = 0, which is an abort here.  The test of
    line 52 is that of a zero radius: infinite radii are not numbers here. *)
Fixpoint bound_func (depth : nat) (b : ball) (n : nat) : outcome ball :=
  if Req_EM_T (snd b) 0 then Abort
  else
    match depth with
    | O => Abort
    | S depth =>
        let '(t, step) := subdivide b n in
        do m <- pieces (fun t => bound_func depth t 3) t step n None;
        match m with Some m => Done m | None => Abort end
    end.

(** mag_func.c:132-162 *)
Fixpoint mag_pieces (sub : ball -> outcome (R * nat)) (t : ball) (step : R) (todo : nat) (m : option R) (count : nat) :
    outcome (option R * nat) :=
  match todo with
  | O => Done (m, count)
  | S todo =>
      do r <- match f t with
              | Some y => if accept y then Done (get_mag y, O) else sub t
              | None => sub t
              end;
      mag_pieces sub (add_arf t step) step todo
        (Some (match m with None => fst r | Some m => Rmax m (fst r) end)) (count + snd r)
  end.
(** mag_func.c:113-170: no depth here, the recursion is limited by the width *)
Fixpoint mag_func (fuel : nat) (b : ball) (n : nat) : outcome (R * nat) :=
  match fuel with
  | O => OutOfFuel
  | S fuel =>
      if Rlt_dec (snd b) (1 / 100000) then Abort
      else
        let '(t, step) := subdivide b n in
        do m <- mag_pieces (fun t => mag_func fuel t 5) t step n None n;
        match fst m with Some r => Done (r, snd m) | None => Abort end
  end.

(** mag_func.c:99-111 and 172-182; arb_set_interval_arf stops when tmin > tmax *)
Variable interval : R -> R -> ball.
Definition bound_func_arf (depth : nat) (tmin tmax : R) (n : nat) : outcome ball :=
  if Rlt_dec tmax tmin then Abort else bound_func depth (interval tmin tmax) n.
Definition mag_func_arf (fuel : nat) (tmin tmax : R) (n : nat) : outcome (R * nat) :=
  if Rlt_dec tmax tmin then Abort else mag_func fuel (interval tmin tmax) n.
End Bound.

(** exact arithmetic *)
Definition exact_div (x : R) (n : nat) : R := x / INR n.
Definition exact_mid (m r : R) (n : nat) : R := m - (INR n - 1) * r.
Definition exact_add (t : ball) (s : R) : ball := (fst t + s, snd t).
Definition exact_union (a b : ball) : ball :=
  let lo := Rmin (fst a - snd a) (fst b - snd b) in
  let hi := Rmax (fst a + snd a) (fst b + snd b) in
  ((lo + hi) / 2, (hi - lo) / 2).
Definition exact_mag (a : ball) : R := Rabs (fst a) + snd a.

(** mag_func_d.c:9 *)
Definition phi : R := (1 + sqrt 5) / 2.
(** mag_func_d.c:5-24, doubles being exact: [tol] is eps *)
Fixpoint golden_loop (f : R -> R) (tol : R) (fuel : nat) (a b : R) : outcome R :=
  let c := b - (b - a) / phi in
  let d := a + (b - a) / phi in
  if Rlt_dec tol (Rabs (c - d)) then
    match fuel with
    | O => OutOfFuel
    | S fuel => if Rlt_dec (f c) (f d) then golden_loop f tol fuel a d else golden_loop f tol fuel c b
    end
  else Done ((b + a) / 2).
Definition golden_search (f : R -> R) (fuel : nat) (a b : R) : outcome R := golden_loop f (1 / 100000) fuel a b.
(** mag_func_d.c:36-42; [first] is !k *)
Fixpoint gs_loop (f : R -> R) (fuel : nat) (a h : R) (todo : nat) (first : bool) (r : R) : outcome R :=
  match todo with
  | O => Done r
  | S todo =>
      do m <- golden_search f fuel a (a + h);
      gs_loop f fuel a h todo false (if first then m else if Rlt_dec r m then m else r)
  end.
(** mag_func_d.c:26-44 *)
Definition max_func_d_gs (f : R -> R) (fuel : nat) (a b : R) (steps : nat) : outcome R :=
  let h := (b - a) / INR steps in
  do _ <- golden_search f fuel a (a + h);
  gs_loop f fuel a h steps true (-1).
