(** C34, C35: bounds by subdivision and golden section.  Statements only.  In C34 the function
    [f] on balls, its acceptance test, and the ball operations are arbitrary (sound). *)
From Coq Require Import Reals Lra.
From Verif Require Import Base ModelMag SpecMag ProofMag ModelMagRound SpecMagRound ProofMagRound ProofMagRound2.
Local Open Scope R_scope.

(** C34: whatever the roundings, if each subdivision covers its ball (the contract written
    above arb_subdivide), the ball returned contains all values on the interval ... *)
Theorem C34_bound_partial :
  forall div_d mid_d mag_d add_arf union f accept interval F,
    encloses f F -> sound_add add_arf -> sound_union union -> sound_interval interval ->
    (forall b n, 0 < snd b -> (0 < n)%nat ->
       let '(t, step) := subdivide div_d mid_d mag_d b n in covers b t step n) ->
    forall depth tmin tmax n m, (0 < n)%nat ->
      bound_func_arf div_d mid_d mag_d add_arf union f accept interval depth tmin tmax n = Done m ->
      forall x, tmin <= x <= tmax -> inb (F x) m.
Proof.
  intros * Hf Ha Hu Hi Hc depth tmin tmax n m Hn E x Hx. unfold bound_func_arf in E.
  destruct (Rlt_dec tmax tmin); [discriminate E|].
  eapply bound_sound; try eassumption. apply Hi, Hx.
Qed.
Print Assumptions C34_bound_partial.

(** ... and the bound on the absolute value is valid *)
Theorem C34_magnitude_partial :
  forall div_d mid_d mag_d add_arf get_mag f accept interval F,
    encloses f F -> sound_add add_arf -> sound_mag get_mag -> sound_interval interval ->
    (forall b n, 0 < snd b -> (0 < n)%nat ->
       let '(t, step) := subdivide div_d mid_d mag_d b n in covers b t step n) ->
    forall fuel tmin tmax n m, (0 < n)%nat ->
      mag_func_arf div_d mid_d mag_d add_arf get_mag f accept interval fuel tmin tmax n = Done m ->
      forall x, tmin <= x <= tmax -> Rabs (F x) <= fst m.
Proof.
  intros * Hf Ha Hu Hi Hc fuel tmin tmax n m Hn E x Hx. unfold mag_func_arf in E.
  destruct (Rlt_dec tmax tmin); [discriminate E|].
  refine (proj1 (mag_sound div_d mid_d mag_d add_arf get_mag f accept F Hf Ha Hu Hc fuel _ n m Hn E) x _). apply Hi, Hx.
Qed.
Print Assumptions C34_magnitude_partial.

(** the subdivision covers when the radius is rounded up by more than the other errors *)
Theorem C34_subdivision_partial :
  forall div_d mid_d mag_d b n, (0 < n)%nat ->
    let r := div_d (snd b) n in
    0 <= r ->
    Rabs (INR n * r - snd b) + Rabs (mid_d (fst b) r n - (fst b - (INR n - 1) * r)) <= mag_d r - r ->
    let '(t, step) := subdivide div_d mid_d mag_d b n in covers b t step n.
Proof. exact covers_rounded. Qed.
Print Assumptions C34_subdivision_partial.

(** in exact arithmetic there is no further condition *)
Theorem C34_exact :
  forall mag_d f accept F, (forall r, r <= mag_d r) -> encloses f F ->
    forall depth b n m, (0 < n)%nat ->
      bound_func exact_div exact_mid mag_d exact_add exact_union f accept depth b n = Done m ->
      forall x, inb x b -> inb (F x) m.
Proof.
  intros mag_d f accept F Hm Hf depth b n m Hn E x Hx.
  exact (bound_sound exact_div exact_mid mag_d exact_add exact_union f accept F Hf exact_add_sound exact_union_sound
           (fun b n Hb Hn => covers_exact mag_d b n Hm Hb Hn) depth b n m Hn E x Hx).
Qed.
Print Assumptions C34_exact.

Theorem C34_magnitude_exact :
  forall mag_d f accept F, (forall r, r <= mag_d r) -> encloses f F ->
    forall fuel b n m, (0 < n)%nat ->
      mag_func exact_div exact_mid mag_d exact_add exact_mag f accept fuel b n = Done m ->
      forall x, inb x b -> Rabs (F x) <= fst m.
Proof.
  intros mag_d f accept F Hm Hf fuel b n m Hn E x Hx.
  exact (proj1 (mag_sound exact_div exact_mid mag_d exact_add exact_mag f accept F Hf exact_add_sound exact_mag_sound
           (fun b n Hb Hn => covers_exact mag_d b n Hm Hb Hn) fuel b n m Hn E) x Hx).
Qed.
Print Assumptions C34_magnitude_exact.

(** the recursion without depth limit ends *)
Theorem C34_magnitude_ends :
  forall mag_d get_mag f accept, (forall r, 0 <= r -> mag_d r <= 2 * r) ->
    forall fuel b n, (5 <= n)%nat -> snd b * (2 / 5) ^ fuel < 1 / 100000 ->
      mag_func exact_div exact_mid mag_d exact_add get_mag f accept (S fuel) b n <> OutOfFuel.
Proof. exact mag_fuel. Qed.
Print Assumptions C34_magnitude_ends.

Example C34_not_vacuous :
  bound_func exact_div exact_mid (fun r => r) exact_add exact_union (fun t => Some t) (fun _ => true) 1 (0, 1) 1
  = Done (exact_mid 0 (exact_div 1 1) 1, exact_div 1 1).
Proof. cbn [bound_func snd]. destruct (Req_EM_T 1 0); [lra|]. reflexivity. Qed.

(** three pieces of [-1,1] and the identity: the hypotheses of C34_exact and a result *)
Example C34_exact_not_vacuous : encloses (fun t => Some t) (fun x => x) /\ (forall r, r <= (fun r => r) r) /\
  exists m, bound_func exact_div exact_mid (fun r => r) exact_add exact_union (fun t => Some t) (fun _ => true) 20 (0, 1) 3 = Done m /\ inb (-1) m /\ inb 1 m.
Proof.
  assert (E : encloses (fun t => Some t) (fun x => x)) by (intros t y [= <-] x Hx; exact Hx).
  split; [exact E|]. split; [intro; lra|].
  assert (D : exists m, bound_func exact_div exact_mid (fun r => r) exact_add exact_union (fun t => Some t) (fun _ => true) 20 (0, 1) 3 = Done m).
  { cbn [bound_func snd]. destruct (Req_EM_T 1 0); [lra|]. eexists. reflexivity. }
  destruct D as [m Em]. exists m. split; [exact Em|].
  split; apply (C34_exact (fun r => r) _ _ (fun x => x) (fun r => Rle_refl r) E 20 (0, 1) 3 m ltac:(lia) Em); unfold inb; cbn [fst snd]; lra.
Qed.

(** the same for C34_magnitude_exact *)
Example C34_magnitude_exact_not_vacuous :
  exists m, mag_func exact_div exact_mid (fun r => r) exact_add exact_mag (fun t => Some t) (fun _ => true) 2 (0, 1) 3 = Done m /\ 1 <= fst m.
Proof.
  assert (E : encloses (fun t => Some t) (fun x => x)) by (intros t y [= <-] x Hx; exact Hx).
  assert (D : exists m, mag_func exact_div exact_mid (fun r => r) exact_add exact_mag (fun t => Some t) (fun _ => true) 2 (0, 1) 3 = Done m).
  { cbn [mag_func snd]. destruct (Rlt_dec 1 (1 / 100000)); [lra|]. eexists. reflexivity. }
  destruct D as [m Em]. exists m. split; [exact Em|]. rewrite <- (Rabs_R1).
  apply (C34_magnitude_exact (fun r => r) _ _ (fun x => x) (fun r => Rle_refl r) E 2 (0, 1) 3 m ltac:(lia) Em). unfold inb; cbn [fst snd]; lra.
Qed.

(** Refuted with the actual roundings, whatever small errors the sums make: on the interval
    1 +- 2^-35 at 64 bits the 3 pieces miss the left end. *)
Theorem C34_rounded_refuted :
  exists (F : R -> R) f b x, encloses f F /\ inb x b /\
    forall add depth, near_add add ->
      exists m, bound_func div_dbl (mid_dbl 64) mag_set_d add exact_union f (fun _ => true) (S depth) b 3 = Done m /\
                ~ inb (F x) m.
Proof.
  exists spike, spike_ball, (1, / IZR (2 ^ 35)), x0. split; [exact spike_sound|]. split.
  - unfold inb, x0. cbn [fst snd]. pw. lra.
  - intros add depth Ha. exists (0, 0). split; [apply missed, Ha|]. unfold inb, spike. cbn [fst snd].
    destruct (Req_EM_T x0 x0); lra.
Qed.
Print Assumptions C34_rounded_refuted.

(** With the actual roundings the claim holds for the call the program makes, 30 pieces of an
    interval that is not thin, as long as at most 14 of the 20 levels are used. *)
Theorem C34_rounded_partial :
  forall add union f accept F depth b m, encloses f F -> good_add add -> sound_union union ->
    (depth <= 14)%nat -> is_mag (snd b) -> Rabs (fst b) <= 2 * snd b ->
    bound_func div_dbl (mid_dbl 64) mag_set_d add union f accept depth b 30 = Done m ->
    forall x, inb x b -> inb (F x) m.
Proof. exact bound_real. Qed.
Print Assumptions C34_rounded_partial.

Example C34_rounded_not_vacuous : good_add exact_add /\ is_mag 1 /\ Rabs 1 <= 2 * 1.
Proof. exact exact_add_good. Qed.

(** C35, refuted: whatever the function, only the first of the pieces is examined ... *)
Theorem C35_first_piece :
  forall f fuel a b steps r, a <= b -> (0 < steps)%nat ->
    max_func_d_gs f fuel a b steps = Done r -> a <= r <= a + (b - a) / INR steps.
Proof.
  intros f fuel a b steps r Hab Hs E. rewrite gs_first_piece in E by exact Hs.
  apply golden_range in E; [exact E|]. assert (0 < INR steps) by (apply lt_0_INR; exact Hs).
  assert (0 <= (b - a) / INR steps); [|lra]. apply Rmult_le_pos; [lra|]. left. apply Rinv_0_lt_compat. assumption.
Qed.
Print Assumptions C35_first_piece.

(** ... and a minimum is looked for, not a maximum: on [0,1] the increasing function x gives a
    point close to 0 *)
Theorem C35_maximum_refuted :
  forall steps, (0 < steps)%nat ->
    exists fuel r, max_func_d_gs (fun x => x) fuel 0 1 steps = Done r /\ r < 1 / 1000 /\ (fun x => x) r < (fun x => x) 1.
Proof.
  intros steps Hs. assert (Hp : 0 < INR steps) by (apply lt_0_INR; exact Hs).
  assert (H1 : 1 <= INR steps) by (replace 1 with (INR 1) by reflexivity; apply le_INR; exact Hs).
  assert (Hh : 0 < (1 - 0) / INR steps <= 1).
  { split; [apply Rdiv_lt_0_compat; lra|]. apply (Rmult_le_reg_r (INR steps)); [exact Hp|]. unfold Rdiv. rewrite Rmult_assoc, Rinv_l by lra. lra. }
  set (h := (1 - 0) / INR steps) in *.
  destruct (golden_terminates (fun x => x) (1 / 100000) 30 0 (0 + h)) as [r Er]; [lra| |].
  { assert ((5 / 8) ^ 30 <= 1 / 100000) by (cbn [pow]; lra). assert (0 <= (5 / 8) ^ 30) by (apply pow_le; lra). nra. }
  exists 30%nat, r. rewrite gs_first_piece by exact Hs. fold h. split; [exact Er|].
  assert (Hv : valley (fun x => x) 0 (0 + h) 0).
  { split; [lra|]. split; intros; lra. }
  pose proof (golden_valley _ _ _ _ _ _ _ Hv Er) as Hr. apply Rabs_le_inv in Hr || idtac.
  assert (r <= 5 / 2 * (1 / 100000)) by (pose proof (Rle_abs (r - 0)); lra). split; lra.
Qed.
Print Assumptions C35_maximum_refuted.

(** What holds: the search ends, and finds the minimum of a function that decreases then
    increases within 5/2 of the tolerance. *)
Theorem C35_golden_ends :
  forall f tol fuel a b, a <= b -> (b - a) * (5 / 8) ^ fuel <= tol ->
    exists r, golden_loop f tol fuel a b = Done r.
Proof. exact golden_terminates. Qed.
Print Assumptions C35_golden_ends.

Theorem C35_minimum_partial :
  forall f fuel a b xm r, valley f a b xm -> golden_search f fuel a b = Done r ->
    Rabs (r - xm) <= 5 / 2 * (1 / 100000).
Proof. intros f fuel a b xm r Hv. apply golden_valley, Hv. Qed.
Print Assumptions C35_minimum_partial.

Example C35_nonvacuous : valley (fun x => (x - 1) * (x - 1)) 0 2 1 /\
  exists fuel r, golden_search (fun x => (x - 1) * (x - 1)) fuel 0 2 = Done r.
Proof.
  split.
  - split; [lra|]. split; intros x y H1 H2; nra.
  - exists 30%nat. apply golden_terminates; [lra|]. cbn [pow]. lra.
Qed.
