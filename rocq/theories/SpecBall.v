(** Contract of Arb: what it means for the functions of the record [arith] to be correct.

    [mem X x] says that the ball X contains x.  A ball that is not finite contains everything, so
    the clauses hold for all arguments (0 has an inverse, a logarithm and an argument in Coq). *)
From Coq Require Import Reals.
From Verif Require Import CArg ModelTree ModelCurve ModelInter ModelTurn ModelBall SpecTree SpecInter SpecGc SpecEdge SpecDe.
Local Open Scope R_scope.

Record sound (A : arith) (mem : ball A -> C -> Prop) : Prop := {
  s_zero : mem (b_zero A) (RtoC 0);
  s_int : forall z, mem (b_int A z) (RtoC (IZR z));
  s_add : forall p X Y x y, mem X x -> mem Y y -> mem (b_add A p X Y) (x + y)%C;
  s_sub : forall p X Y x y, mem X x -> mem Y y -> mem (b_sub A p X Y) (x - y)%C;
  s_mul : forall p X Y x y, mem X x -> mem Y y -> mem (b_mul A p X Y) (x * y)%C;
  s_div : forall p X Y x y, mem X x -> mem Y y -> mem (b_div A p X Y) (x / y)%C;
  s_addmul : forall p Z X Y z x y, mem Z z -> mem X x -> mem Y y -> mem (b_addmul A p Z X Y) (z + x * y)%C;
  s_mul_int : forall p X x k, mem X x -> mem (b_mul_int A p X k) (x * RtoC (IZR k))%C;
  s_addmul_int : forall p Z X z x k, mem Z z -> mem X x -> mem (b_addmul_int A p Z X k) (z + x * RtoC (IZR k))%C;
  s_neg : forall X x, mem X x -> mem (b_neg A X) (- x)%C;
  s_inv : forall p X x, mem X x -> mem (b_inv A p X) (/ x)%C;
  s_2exp : forall X x k, mem X x -> mem (b_2exp A X k) (x * RtoC (powerRZ 2 k))%C;
  s_pow : forall p X x n, mem X x -> mem (b_pow A p X n) (cpow x n);
  s_root : forall p m X x, (0 < m)%Z -> mem X x -> mem (b_root A p m X) (croot m x);
  s_log : forall p X x, mem X x -> mem (b_log A p X) (clog x);
  s_exp : forall p X x, mem X x -> mem (b_exp A p X) (cexp x);
  s_unit : forall p n, (0 < n)%Z -> mem (b_unit A p n) (root n 1);
  s_units : forall p n k, (0 < n)%Z -> mem (b_units A p n k) (root n (Z.of_nat k));
  s_re : forall p X x, mem X x -> mem (b_re A p X) (RtoC (fst x));
  s_im : forall p X x, mem X x -> mem (b_im A p X) (RtoC (snd x));
  s_pi : forall p, mem (b_pi A p) (RtoC PI);
  s_arg : forall p X x, mem X x -> mem (b_arg A p X) (RtoC (carg x));
  s_sinh : forall p X r, mem X (RtoC r) -> mem (b_sinh A p X) (RtoC (sinh r));
  s_cosh : forall p X r, mem X (RtoC r) -> mem (b_cosh A p X) (RtoC (cosh r));
  s_real : forall r, mem (b_real A r) (RtoC r);
  (* a test that answers yes is right for all the numbers of the ball *)
  s_re_nonpos : forall X x, b_re_nonpos A X = true -> mem X x -> fst x <= 0;
  s_re_nonneg : forall X x, b_re_nonneg A X = true -> mem X x -> 0 <= fst x;
  s_re_neg : forall X x, b_re_neg A X = true -> mem X x -> fst x < 0;
  s_im_nonpos : forall X x, b_im_nonpos A X = true -> mem X x -> snd x <= 0;
  (* a ball is a rectangle: if the imaginary parts contain 0 it has a real number, if not they all
     have the sign of that of the centre *)
  s_im_has0 : forall X x, b_im_has0 A X = true -> mem X x -> exists r, mem X (RtoC r);
  s_im_sgn : forall X x, b_im_has0 A X = false -> mem X x ->
    (b_im_sgn A X = 1%Z /\ 0 < snd x) \/ (b_im_sgn A X = (-1)%Z /\ snd x < 0 /\ b_im_nonpos A X = true);
  s_has0 : forall X, b_has0 A X = false -> ~ mem X (RtoC 0);
  s_unique : forall X k z, b_unique A X = Some k -> mem X (RtoC (IZR z)) -> z = k
}.

(** the enlarged ball has all the numbers at a distance of at most e of those of the ball *)
Record widens (A : arith) (mem : ball A -> C -> Prop) : Prop := {
  s_err : forall X x z e, mem X x -> Cmod (z - x)%C <= e -> mem (b_err A X (Some e)) z;
  s_err_inf : forall X x z, mem X x -> mem (b_err A X None) z
}.
(** balls too large: one has 0 and a number that is not 0, a quotient is not finite though the
    denominator is not 0, or the only integer of a ball is not found *)
Definition undecided (A : arith) (mem : ball A -> C -> Prop) : Prop :=
  (exists X x, mem X x /\ x <> RtoC 0 /\ b_has0 A X = true) \/
  (exists p X Y x y, mem X x /\ mem Y y /\ y <> RtoC 0 /\ b_finite A (b_div A p X Y) = false) \/
  (exists X z, mem X (RtoC (IZR z)) /\ b_unique A X = None).

(** entries of vectors and matrices *)
Definition mems {A : arith} (mem : ball A -> C -> Prop) : list (ball A) -> list C -> Prop := Forall2 mem.

(** ** Turns
    the factors of the product at x, as balls *)
Definition factor_balls (A : arith) (p : Z) (u : list (ball A)) (d1 d : nat) (x : ball A) : list (ball A) :=
  map (fun k => let t := b_sub A p (nth k u (b_zero A)) x in if (d1 <=? k)%nat then b_neg A t else t) (seq 0 d).
(** the turns are counted from the balls y, y t, y t t', ...: the count stops when a sign is not
    known; if it goes to the end, the sign of the last one is known, and two balls strictly on the
    same side of the real axis have a product that does not meet it *)
Fixpoint turn_clear (A : arith) (p : Z) (y : ball A) (ts : list (ball A)) : Prop :=
  match ts with
  | [] => b_sgn_imag A y <> 0%Z
  | t :: ts =>
      b_sgn_imag A y = 0%Z \/ b_sgn_imag A t = 0%Z \/
      ((b_im_has0 A y = false -> b_im_has0 A t = false -> b_im_sgn A y = b_im_sgn A t -> b_im_has0 A (b_mul A p y t) = false) /\
       turn_clear A p (b_mul A p y t) ts)
  end.
Definition turns_clear (A : arith) (p : Z) (u : list (ball A)) (d1 d : nat) (x : ball A) : Prop :=
  match factor_balls A p u d1 d x with [] => False | y :: ts => turn_clear A p y ts end.
(** at the nodes of a rule and at their opposites, when roots are computed by turns *)
Definition gc_clear (A : arith) (p : Z) (rdef : bool) (u : list (ball A)) (d1 d : nat) (xs : list (ball A)) : Prop :=
  rdef = false -> forall x, In x xs -> turns_clear A p u d1 d x /\ turns_clear A p u d1 d (b_neg A x).
Definition by_turns (p : Z) (rdef rprod rturn : bool) (d : nat) : bool :=
  negb rdef && negb rprod && (rturn || ((1000 <? p)%Z && (5 <? d)%nat)).
Definition de_clear (A : arith) (p : Z) (rdef rprod rturn : bool) (u : list (ball A)) (d1 d : nat) (ns : list (b_node A)) : Prop :=
  by_turns p rdef rprod rturn d = true ->
  forall n, In n ns -> turns_clear A p u d1 d (bn_x A n) /\ turns_clear A p u d1 d (b_neg A (bn_x A n)).

(** ** Radii
    e is at least the error bound of the Gauss-Chebyshev rule with n points for the functions
    t^l / prod sqrt(t - u_k), l < g, with some ellipse cosh eta that avoids the points u_k; a
    radius None is infinite *)
Definition gc_radius_ok (g : nat) (u : list C) (n : Z) (e : option R) : Prop :=
  (0 < n)%Z /\ exists eta, 0 <= eta /\ avoids (cosh eta) u /\
    match e with
    | None => True
    | Some e => forall l, (l < g)%nat ->
        2 * PI * exp (- (2 * eta * IZR n)) * (cosh eta ^ l / sqrt (fold_right Rmult 1 (map (fun z => half_sum z - cosh eta) u))) <= e
    end.

(** ** Directions
    [t] is the quotient of the directions of two edges that share a point.  Same starting point:
    if t is found on the left, the sign of its argument is found as that of its imaginary part; if
    not, its imaginary part is found.  End point of one, starting point of the other: if t is found
    on the left, its imaginary part is found, and the sign of its argument agrees; if not, t is
    found on the right, or its imaginary part is found. *)
Definition direction_clear (A : arith) (p : Z) (i : incidence) (t : ball A) : Prop :=
  match i with
  | ABAD => if b_re_nonpos A t then b_re_nonneg A (b_arg A p (b_neg A t)) = b_im_nonpos A t else b_im_has0 A t = false
  | ABBD => if b_re_nonpos A t then b_im_has0 A t = false /\ b_re_nonneg A (b_arg A p (b_neg A t)) = b_im_nonpos A t
            else b_re_nonneg A t = true \/ b_im_has0 A t = false
  end.
Definition directions_clear (A : arith) (p : Z) (ys : list (b_ydata A)) (es : list edge) : Prop :=
  forall k l, (k < l < length es)%nat ->
    let t := b_div A p (by_ba2 A (nth k ys (b_no_ydata A))) (by_ba2 A (nth l ys (b_no_ydata A))) in
    (ea (nth l es no_edge) = ea (nth k es no_edge) -> direction_clear A p ABAD t) /\
    (ea (nth l es no_edge) = eb (nth k es no_edge) -> direction_clear A p ABBD t).

(** the same for the double exponential rule with 2n-1 points, step h and parameter l, applied to
    t^i / ((1-t^2)^(1/m) y(t))^j for all the differentials x^i dx / y^j: e is at least the truncation
    error of the published theorem plus 4/3 of its discretization error, for bounds m1 on the
    segment and m2 on a strip |Im z| <= r whose image avoids the points u_k *)
Definition de_radius_ok (c : sec) (u : list C) (d1 : nat) (h l : R) (n : Z) (e : option R) : Prop :=
  (0 < n)%Z /\
  match e with
  | None => True
  | Some e => 1 <= l /\ 0 < h /\
      forall q i, (q < length (sec_ni c))%nat -> (Z.of_nat i < nth q (sec_ni c) 0)%Z ->
      let j := Z.to_nat (sec_j1 c + Z.of_nat q) in let a := alpha (Z.of_nat j) (sec_m c) in let N := (Z.to_nat n - 1)%nat in
      exists r r0 m1 m2, 0 < r < r0 /\ r0 <= PI / 2 /\ l * sin r0 <= PI / 2 /\
        (forall z p, Rabs (snd z) < r0 -> In p u -> SpecDe.de_map l z <> p) /\
        (forall t, -1 < t < 1 -> Cmod (cpow (RtoC t) i / cpow (y_tilde (sec_m c) u d1 (RtoC t)) j)%C <= m1) /\
        (forall z, Rabs (snd z) <= r -> Cmod (cpow (SpecDe.de_map l z) i / cpow (y_tilde (sec_m c) u d1 (SpecDe.de_map l z)) j)%C <= m2) /\
        1 <= 2 * a * l * cosh (INR N * h) /\ e_T h l N m1 a + 4 / 3 * e_Q h l r m2 a <= e
  end.
(** the parameters [s] can be used for the edge [y] *)
Definition de_usable (A : arith) (mem : ball A -> C -> Prop) (p : Z) (rdef rprod rturn : bool) (c : sec) (s : b_store) (y : b_ydata A) : Prop :=
  (forall u, mems mem (by_u A y) u -> de_radius_ok c u (by_n1 A y) (bs_h s) (bs_l s) (bs_n s) (bs_e s)) /\
  de_clear A p rdef rprod rturn (by_u A y) (by_n1 A y) (Z.to_nat (sec_n c - 2)) (fst (b_de_init A p (bs_h s) (bs_l s) (Z.to_nat (bs_n s)) (sec_m c))).
