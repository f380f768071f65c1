(** C74: the constant M2 of the double exponential rule bounds what it is said to bound. *)
From Coq Require Import Reals Lra Lia List.
From Coquelicot Require Import Coquelicot.
From Verif Require Import CArg ModelMag ModelGc ModelDe SpecMag SpecDe ModelDeM2 SpecDeM2 SpecEdge SpecQuad SpecErr ProofMag ProofDe2 ProofDeM2 ProofDeM2b ProofDeM2c.
Import ListNotations.
Local Open Scope R_scope.

(** For all points u outside the image of the strip |Im w| <= r, all exponents d, and all i <= d,
    the value of x^i/y at every point x of the image is at most M2, divided by low^(d-i).
    With i = d this is the property itself; for i < d the divisor is what is missing. *)
Theorem C74_strip_partial div_d mid_d mag_d add_arf union accept interval f ubound :
  sound_add add_arf -> sound_union union -> sound_interval interval ->
  (forall b n, 0 < snd b -> (0 < n)%nat -> let '(t, step) := subdivide div_d mid_d mag_d b n in covers b t step n) ->
  (forall r l u i m, encloses_some (f r l u i m) (max_f l r u i m)) -> (forall x, x <= ubound x) ->
  forall l u r d m n1 M,
    0 < l -> r < PI / 2 -> l * sin r < PI / 2 -> (0 < m)%Z -> outside l r u ->
    de_constant_m2 div_d mid_d mag_d add_arf union accept interval f ubound l u r d m = Done M ->
    forall i w, (i <= d)%nat -> Rabs (snd w) <= r ->
      Cmod (cpow (SpecDe.de_map l w) i / cpow (y_tilde m u n1 (SpecDe.de_map l w)) 1)%C <= upper M / low l r ^ (d - i).
Proof. intros. eapply m2_strip; eassumption. Qed.
Print Assumptions C74_strip_partial.

(** With the parameters chosen for a precision and the constant M2 computed for them, the rule has
    the integrals of x^i/y up to 3/2 of the same bound times 2^-prec, and for every number of
    points N up to the truncation error and 4/3 of it. *)
Theorem C74_rule_partial div_d mid_d mag_d add_arf union accept interval f ubound :
  sound_add add_arf -> sound_union union -> sound_interval interval ->
  (forall b n, 0 < snd b -> (0 < n)%nat -> let '(t, step) := subdivide div_d mid_d mag_d b n in covers b t step n) ->
  (forall r l u i m, encloses_some (f r l u i m) (max_f l r u i m)) -> (forall x, x <= ubound x) ->
  forall ws rk m prec r h n d n1 M,
    (1 < m)%Z -> (0 <= prec)%Z -> Forall2 (fun w x => exists z, principal (PI / 2) w z /\ x = Rabs (snd z)) ws rk ->
    de_params_d rk m prec = Done (r, h, n) ->
    de_constant_m2 div_d mid_d mag_d add_arf union accept interval f ubound (PI / 2) ws r d m = Done M ->
    forall i, (i <= d)%nat ->
      let B := upper M / low (PI / 2) r ^ (d - i) in
      let g := SpecQuad.integrand m (fun t => y_tilde m ws n1 (RtoC t)) 1 i in
      exists I, is_int g I /\
        (forall N, 1 <= 2 * alpha 1 m * (PI / 2) * cosh (INR N * h) ->
           Cmod (de_rule (PI / 2) h N g - I)%C <= e_T h (PI / 2) N B (alpha 1 m) + 4 / 3 * B / 2 ^ Z.to_nat prec) /\
        Cmod (de_rule (PI / 2) h (Z.to_nat n) g - I)%C <= 3 / 2 * B / 2 ^ Z.to_nat prec.
Proof.
  intros Ha Hu Hi Hc Hf Hub ws rk m prec r h n d n1 M Hm Hp HF E EM.
  exact (m2_rule div_d mid_d mag_d add_arf union accept interval f ubound Ha Hu Hi Hc Hf Hub ws rk m prec r h n d n1 M Hm Hp HF E EM).
Qed.
Print Assumptions C74_rule_partial.

(** The constant is computed for the largest exponent only and used for all of them: for x^0/y it
    is too small by any factor c, with exact operations, for one point, a square root, the
    exponent of three branch points and the parameters chosen by the program. *)
Theorem C74_lower_exponents_refuted c prec : exists f ws rk r h n M,
  (forall r l u i m, encloses_some (f r l u i m) (max_f l r u i m)) /\
  Forall2 (fun w x => exists z, principal (PI / 2) w z /\ x = Rabs (snd z)) ws rk /\
  de_params_d rk 2 prec = Done (r, h, n) /\ outside (PI / 2) r ws /\
  de_constant_m2 exact_div exact_mid (fun r => r) exact_add exact_union (fun _ => true) exact_interval f (fun x => x) (PI / 2) ws r 2 2 = Done M /\
  length ws = 1%nat /\ 0 < upper M /\
  exists w, Rabs (snd w) <= r /\ forall n1,
    c * upper M < Cmod (cpow (SpecDe.de_map (PI / 2) w) 0 / cpow (y_tilde 2 ws n1 (SpecDe.de_map (PI / 2) w)) 1)%C.
Proof. exact (near_refuted c prec). Qed.
Print Assumptions C74_lower_exponents_refuted.

(** Operations, a point and parameters as the theorems ask for. *)
Example C74_nonvacuous : exists f ws rk r h n M,
  sound_add exact_add /\ sound_union exact_union /\ sound_interval exact_interval /\
  (forall b n, 0 < snd b -> (0 < n)%nat -> let '(t, step) := subdivide exact_div exact_mid (fun r => r) b n in covers b t step n) /\
  (forall r l u i m, encloses_some (f r l u i m) (max_f l r u i m)) /\
  Forall2 (fun w x => exists z, principal (PI / 2) w z /\ x = Rabs (snd z)) ws rk /\
  de_params_d rk 2 64 = Done (r, h, n) /\ outside (PI / 2) r ws /\
  0 < PI / 2 /\ r < PI / 2 /\ PI / 2 * sin r < PI / 2 /\ length ws = 1%nat /\
  de_constant_m2 exact_div exact_mid (fun r => r) exact_add exact_union (fun _ => true) exact_interval f (fun x => x) (PI / 2) ws r 2 2 = Done M.
Proof. exact near_nonvacuous. Qed.
