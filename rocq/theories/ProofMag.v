(** Proofs about subdivision and golden section. *)
From Coq Require Import Reals Lra Lia.
From Verif Require Import Base ModelMag SpecMag.
Local Open Scope R_scope.

(** ** pieces *)
Section Cover.
Variables (div_d : R -> nat -> R) (mid_d : R -> R -> nat -> R) (mag_d : R -> R).
Variables (add_arf : ball -> R -> ball) (union : ball -> ball -> ball) (get_mag : ball -> R).
Variable f : ball -> option ball.
Variable accept : ball -> bool.
Variable F : R -> R.
Hypothesis Hf : encloses f F.
Hypothesis Hadd : sound_add add_arf.
Hypothesis Hunion : sound_union union.
Hypothesis Hmag : sound_mag get_mag.

Lemma pieces_sound (sub : ball -> outcome ball) :
  (forall t m, sub t = Done m -> forall x, inb x t -> inb (F x) m) ->
  forall todo t step m0 m, pieces add_arf union f accept sub t step todo m0 = Done m ->
    (forall x k, (k < todo)%nat -> inb (x - INR k * step) t -> exists y, m = Some y /\ inb (F x) y) /\
    (forall y0, m0 = Some y0 -> exists y, m = Some y /\ forall z, inb z y0 -> inb z y).
Proof.
  intros Hsub todo. induction todo as [|todo IH]; intros t step m0 m E; cbn [pieces] in E.
  - injection E as <-. split; [intros; lia|]. intros y0 ->. exists y0. split; [reflexivity|auto].
  - destruct (match f t with Some y => if accept y then Done y else sub t | None => sub t end) as [abs| | |] eqn:Ea;
      cbn [bind] in E; try discriminate E.
    assert (Habs : forall x, inb x t -> inb (F x) abs).
    { intros x Hx. destruct (f t) as [y|] eqn:Ef.
      - destruct (accept y); [injection Ea as <-; exact (Hf t y Ef x Hx)|exact (Hsub t abs Ea x Hx)].
      - exact (Hsub t abs Ea x Hx). }
    destruct (IH _ _ _ _ E) as [H1 H2].
    destruct (H2 _ eq_refl) as (y & Ey & Hy). split.
    + intros x k Hk Hin. destruct k as [|k].
      * exists y. split; [exact Ey|]. apply Hy. cbn [INR] in Hin. rewrite Rmult_0_l, Rminus_0_r in Hin.
        destruct m0 as [m0|]; [apply Hunion; right|]; apply Habs; exact Hin.
      * apply (H1 x k); [lia|]. apply (Hadd _ step) in Hin. rewrite S_INR in Hin.
        replace (x - (INR k + 1) * step + step) with (x - INR k * step) in Hin by ring. exact Hin.
    + intros y0 ->. exists y. split; [exact Ey|]. intros z Hz. apply Hy, Hunion. left. exact Hz.
Qed.

Hypothesis Hcover : forall b n, 0 < snd b -> (0 < n)%nat ->
  let '(t, step) := subdivide div_d mid_d mag_d b n in covers b t step n.

Lemma bound_sound depth : forall b n m, (0 < n)%nat ->
  bound_func div_d mid_d mag_d add_arf union f accept depth b n = Done m -> forall x, inb x b -> inb (F x) m.
Proof.
  induction depth as [|depth IH]; intros b n m Hn E x Hx; cbn [bound_func] in E.
  - destruct (Req_EM_T (snd b) 0); discriminate E.
  - destruct (Req_EM_T (snd b) 0) as [|Hs]; [discriminate E|].
    assert (Hp : 0 < snd b) by (destruct Hx; lra).
    pose proof (Hcover b n Hp Hn) as Hc. destruct (subdivide _ _ _ b n) as [t step].
    destruct (pieces _ _ _ _ _ t step n None) as [o| | |] eqn:Ep; cbn [bind] in E; try discriminate E.
    destruct o as [m'|]; [|discriminate E]. injection E as ->.
    destruct (Hc x Hx) as (k & Hk & Hin).
    destruct (pieces_sound (fun t => bound_func div_d mid_d mag_d add_arf union f accept depth t 3)
                (fun t m E x => IH t 3%nat m ltac:(lia) E x) n t step None (Some m) Ep) as [H1 _].
    destruct (H1 x k Hk Hin) as (y & Ey & Hy). injection Ey as ->. exact Hy.
Qed.

Lemma mag_pieces_sound (sub : ball -> outcome (R * nat)) :
  (forall t m, sub t = Done m -> forall x, inb x t -> Rabs (F x) <= fst m) ->
  forall todo t step m0 c0 m, mag_pieces add_arf get_mag f accept sub t step todo m0 c0 = Done m ->
    (forall x k, (k < todo)%nat -> inb (x - INR k * step) t -> exists y, fst m = Some y /\ Rabs (F x) <= y) /\
    (forall y0, m0 = Some y0 -> exists y, fst m = Some y /\ y0 <= y) /\ (c0 <= snd m)%nat.
Proof.
  intros Hsub todo. induction todo as [|todo IH]; intros t step m0 c0 m E; cbn [mag_pieces] in E.
  - injection E as <-. cbn [fst snd]. split; [intros; lia|]. split; [|lia]. intros y0 ->. exists y0. split; [reflexivity|lra].
  - destruct (match f t with Some y => if accept y then Done (get_mag y, O) else sub t | None => sub t end) as [abs| | |] eqn:Ea;
      cbn [bind] in E; try discriminate E.
    assert (Habs : forall x, inb x t -> Rabs (F x) <= fst abs).
    { intros x Hx. destruct (f t) as [y|] eqn:Ef.
      - destruct (accept y); [injection Ea as <-; exact (Hmag y _ (Hf t y Ef x Hx))|exact (Hsub t abs Ea x Hx)].
      - exact (Hsub t abs Ea x Hx). }
    destruct (IH _ _ _ _ _ E) as (H1 & H2 & H3).
    destruct (H2 _ eq_refl) as (y & Ey & Hy). split; [|split].
    + intros x k Hk Hin. destruct k as [|k].
      * exists y. split; [exact Ey|]. cbn [INR] in Hin. rewrite Rmult_0_l, Rminus_0_r in Hin.
        specialize (Habs x Hin). destruct m0 as [m0|]; [pose proof (Rmax_r m0 (fst abs)); lra|lra].
      * apply (H1 x k); [lia|]. apply (Hadd _ step) in Hin. rewrite S_INR in Hin.
        replace (x - (INR k + 1) * step + step) with (x - INR k * step) in Hin by ring. exact Hin.
    + intros y0 ->. exists y. split; [exact Ey|]. pose proof (Rmax_l y0 (fst abs)). lra.
    + lia.
Qed.

Lemma mag_sound fuel : forall b n m, (0 < n)%nat ->
  mag_func div_d mid_d mag_d add_arf get_mag f accept fuel b n = Done m ->
  (forall x, inb x b -> Rabs (F x) <= fst m) /\ (n <= snd m)%nat.
Proof.
  induction fuel as [|fuel IH]; intros b n m Hn E; cbn [mag_func] in E; [discriminate E|].
  destruct (Rlt_dec (snd b) (1 / 100000)) as [|Hs]; [discriminate E|].
  pose proof (Hcover b n ltac:(lra) Hn) as Hc. destruct (subdivide _ _ _ b n) as [t step].
  destruct (mag_pieces _ _ _ _ _ t step n None n) as [o| | |] eqn:Ep; cbn [bind] in E; try discriminate E.
  destruct (mag_pieces_sound (fun t => mag_func div_d mid_d mag_d add_arf get_mag f accept fuel t 5)
              (fun t m E x => proj1 (IH t 5%nat m ltac:(lia) E) x) n t step None n o Ep) as (H1 & _ & H3).
  destruct o as [[r|] c]; cbn [fst snd] in *; [|discriminate E]. injection E as <-. cbn [fst snd]. split; [|exact H3].
  intros x Hx. destruct (Hc x Hx) as (k & Hk & Hin). destruct (H1 x k Hk Hin) as (y & Ey & Hy).
  injection Ey as ->. exact Hy.
Qed.
End Cover.

(** ** the subdivision *)
(** the union of the pieces, for any middle and radius *)
Lemma cover_pieces mt r rt n x : (0 < n)%nat -> 0 <= r -> r <= rt ->
  mt - rt <= x <= mt + 2 * r * INR (n - 1) + rt -> exists k, (k < n)%nat /\ inb (x - INR k * (2 * r)) (mt, rt).
Proof.
  intros Hn Hr Hrt [H1 H2]. unfold inb. cbn [fst snd].
  destruct (Rle_dec x (mt + rt)) as [Hle | Hgt].
  - exists O. split; [lia|]. cbn [INR]. lra.
  - assert (exists k, (k <= n - 1)%nat /\ mt - rt <= x - INR k * (2 * r) <= mt + rt) as (k & Hk & Hb).
    { clear Hn H1. apply Rnot_le_lt in Hgt. revert H2 Hgt. generalize (n - 1)%nat. intros p. induction p as [|p IH]; intros H2 Hgt.
      - cbn [INR] in H2. lra.
      - rewrite S_INR in H2. destruct (Rle_dec x (mt + 2 * r * INR p + rt)) as [H | H].
        + destruct (IH H Hgt) as (k & Hk & Hb). exists k. split; [lia|exact Hb].
        + exists (S p). rewrite S_INR. split; [lia|]. lra. }
    exists k. split; [lia|exact Hb].
Qed.

Lemma covers_rounded div_d mid_d mag_d b n : (0 < n)%nat -> 
  let r := div_d (snd b) n in
  0 <= r -> 
  Rabs (INR n * r - snd b) + Rabs (mid_d (fst b) r n - (fst b - (INR n - 1) * r)) <= mag_d r - r ->
  let '(t, step) := subdivide div_d mid_d mag_d b n in covers b t step n.
Proof.
  intros Hn r Hr H. unfold subdivide. fold r. set (mt := mid_d (fst b) r n) in *. intros x [H1 H2].
  assert (Hm : INR (n - 1) = INR n - 1) by (rewrite minus_INR by lia; reflexivity).
  apply cover_pieces; try assumption.
  - pose proof (Rabs_pos (INR n * r - snd b)). pose proof (Rabs_pos (mt - (fst b - (INR n - 1) * r))). lra.
  - rewrite Hm. revert H. unfold Rabs. destruct (Rcase_abs _), (Rcase_abs _); intros; split; lra.
Qed.

Lemma covers_exact mag_d b n : (forall r, r <= mag_d r) -> 0 < snd b -> (0 < n)%nat ->
  let '(t, step) := subdivide exact_div exact_mid mag_d b n in covers b t step n.
Proof.
  intros Hm Hb Hn. assert (Hn0 : 0 < INR n) by (apply lt_0_INR; exact Hn). apply covers_rounded; [exact Hn| |].
  - unfold exact_div. apply Rlt_le, Rdiv_lt_0_compat; assumption.
  - unfold exact_mid. unfold exact_div at 1. replace (INR n * (snd b / INR n) - snd b) with 0 by (field; lra).
    rewrite Rminus_diag_eq by reflexivity. rewrite Rabs_R0. specialize (Hm (exact_div (snd b) n)). lra.
Qed.

(** ** exact operations are sound *)
Lemma exact_add_sound : sound_add exact_add.
Proof. intros t s x [H1 H2]. unfold exact_add, inb. cbn [fst snd]. lra. Qed.
Lemma exact_union_sound : sound_union exact_union.
Proof.
  intros a b x H. unfold exact_union, inb. cbn [fst snd].
  pose proof (Rmin_l (fst a - snd a) (fst b - snd b)). pose proof (Rmin_r (fst a - snd a) (fst b - snd b)).
  pose proof (Rmax_l (fst a + snd a) (fst b + snd b)). pose proof (Rmax_r (fst a + snd a) (fst b + snd b)).
  destruct H as [[Ha Hb] | [Ha Hb]]; lra.
Qed.
Lemma exact_mag_sound : sound_mag exact_mag.
Proof. intros a x [H1 H2]. unfold exact_mag. unfold Rabs. destruct (Rcase_abs x), (Rcase_abs (fst a)); lra. Qed.

(** ** termination of the unbounded recursion *)
Lemma mag_pieces_fuel (add := exact_add) get_mag f accept sub w :
  (forall t, snd t <= w -> sub t <> OutOfFuel) ->
  forall todo t step m c, snd t <= w -> mag_pieces add get_mag f accept sub t step todo m c <> OutOfFuel.
Proof.
  intros Hsub todo. induction todo as [|todo IH]; intros t step m c Ht; cbn [mag_pieces]; [discriminate|].
  destruct (match f t with Some y => if accept y then Done (get_mag y, O) else sub t | None => sub t end) as [abs| | |] eqn:Ea;
    cbn [bind]; try discriminate.
  - apply IH. exact Ht.
  - exfalso. destruct (f t) as [y|]; [destruct (accept y); [discriminate Ea|]|]; exact (Hsub t Ht Ea).
Qed.
Lemma mag_fuel mag_d get_mag f accept : (forall r, 0 <= r -> mag_d r <= 2 * r) ->
  forall fuel b n, (5 <= n)%nat -> snd b * (2 / 5) ^ fuel < 1 / 100000 ->
  mag_func exact_div exact_mid mag_d exact_add get_mag f accept (S fuel) b n <> OutOfFuel.
Proof.
  intros Hm fuel. induction fuel as [|fuel IH]; intros b n Hn Hb.
  - cbn [mag_func]. rewrite Rmult_1_r in Hb. destruct (Rlt_dec (snd b) (1 / 100000)); [discriminate|lra].
  - remember (S fuel) as q eqn:Eq. cbn [mag_func]. destruct (Rlt_dec (snd b) (1 / 100000)) as [|Hs]; [discriminate|].
    assert (Hn5 : 5 <= INR n) by (replace 5 with (INR 5) by (cbn [INR]; ring); apply le_INR; exact Hn).
    unfold subdivide. set (r := exact_div (snd b) n).
    assert (Hr : 0 <= r <= snd b / 5).
    { unfold r, exact_div. split; [apply Rlt_le, Rdiv_lt_0_compat; lra|]. apply Rmult_le_compat_l; [lra|]. apply Rinv_le_contravar; lra. }
    destruct (mag_pieces _ _ _ _ _ _ _ n None n) as [o| | |] eqn:Ep; cbn [bind]; try discriminate.
    + destruct (fst o); discriminate.
    + exfalso. revert Ep. apply (mag_pieces_fuel _ _ _ _ (2 / 5 * snd b)).
      * intros t Ht. subst q. apply IH; [lia|]. eapply Rle_lt_trans; [|exact Hb]. cbn [pow].
        replace (snd b * (2 / 5 * (2 / 5) ^ fuel)) with (2 / 5 * snd b * (2 / 5) ^ fuel) by ring.
        apply Rmult_le_compat_r; [apply pow_le; lra|exact Ht].
      * cbn [snd]. specialize (Hm r (proj1 Hr)). lra.
Qed.

(** ** golden section *)
Lemma sqrt5 : sqrt 5 * sqrt 5 = 5 /\ 2 < sqrt 5 < 9 / 4.
Proof.
  assert (E : sqrt 5 * sqrt 5 = 5) by (apply sqrt_sqrt; lra). pose proof (sqrt_pos 5). split; [exact E|]. split; nra.
Qed.
Lemma phi_inv : / phi = (sqrt 5 - 1) / 2 /\ / 2 < / phi < 5 / 8.
Proof.
  destruct sqrt5 as [E H]. assert (Ei : / phi = (sqrt 5 - 1) / 2).
  { unfold phi. apply (Rmult_eq_reg_l ((1 + sqrt 5) / 2)); [|lra]. rewrite Rinv_r by lra. nra. }
  split; [exact Ei|]. rewrite Ei. lra.
Qed.
Definition gc_ (a b : R) := b - (b - a) / phi.
Definition gd_ (a b : R) := a + (b - a) / phi.
Lemma golden_points a b : a <= b -> a <= gc_ a b <= b /\ a <= gd_ a b <= b /\ gc_ a b <= gd_ a b /\
  (a < b -> a < gc_ a b < gd_ a b /\ gd_ a b < b) /\
  gd_ a b - a <= 5 / 8 * (b - a) /\ b - gc_ a b <= 5 / 8 * (b - a) /\
  Rabs (gc_ a b - gd_ a b) = (sqrt 5 - 2) * (b - a).
Proof.
  intros H. destruct phi_inv as [E Hp]. destruct sqrt5 as [E5 H5]. unfold gc_, gd_, Rdiv.
  set (p := / phi) in *. repeat split; try nra.
  rewrite Rabs_left1 by nra. rewrite E. field.
Qed.

Lemma golden_range f tol fuel : forall a b r, a <= b -> golden_loop f tol fuel a b = Done r -> a <= r <= b.
Proof.
  induction fuel as [|fuel IH]; intros a b r Hab; cbn [golden_loop]; fold (gc_ a b) (gd_ a b);
    destruct (Rlt_dec tol (Rabs (gc_ a b - gd_ a b))) as [_|_]; intros E; try discriminate E.
  - injection E as <-. lra.
  - destruct (golden_points a b Hab) as (Hc & Hd & _).
    destruct (Rlt_dec (f (gc_ a b)) (f (gd_ a b))); apply IH in E; lra.
  - injection E as <-. lra.
Qed.

Lemma golden_terminates f tol fuel : forall a b, a <= b -> (b - a) * (5 / 8) ^ fuel <= tol ->
  exists r, golden_loop f tol fuel a b = Done r.
Proof.
  destruct sqrt5 as [_ H5].
  induction fuel as [|fuel IH]; intros a b Hab Hl; cbn [golden_loop]; fold (gc_ a b) (gd_ a b);
    destruct (golden_points a b Hab) as (Hc & Hd & _ & _ & L1 & L2 & E);
    destruct (Rlt_dec tol (Rabs (gc_ a b - gd_ a b))) as [Hlt|_]; try (eexists; reflexivity).
  - exfalso. rewrite E in Hlt. cbn [pow] in Hl. nra.
  - cbn [pow] in Hl. assert (0 <= (5 / 8) ^ fuel) by (apply pow_le; lra).
    destruct (Rlt_dec (f (gc_ a b)) (f (gd_ a b))); apply IH; try lra; nra.
Qed.

Lemma golden_valley f tol fuel : forall a b xm r, valley f a b xm -> golden_loop f tol fuel a b = Done r ->
  Rabs (r - xm) <= 5 / 2 * tol.
Proof.
  destruct sqrt5 as [E5 H5].
  induction fuel as [|fuel IH]; intros a b xm r Hv; pose proof Hv as (Hx & Hdec & Hinc);
    assert (Hab : a <= b) by lra; cbn [golden_loop]; fold (gc_ a b) (gd_ a b);
    destruct (golden_points a b Hab) as (Hc & Hd & Hcd & _ & _ & _ & E);
    destruct (Rlt_dec tol (Rabs (gc_ a b - gd_ a b))) as [Hlt|Hle]; intros Er; try discriminate Er.
  - injection Er as <-. rewrite E in Hle. apply Rabs_le. assert (1 / 5 <= sqrt 5 - 2) by nra. nra.
  - destruct (Rlt_dec (f (gc_ a b)) (f (gd_ a b))) as [Hf|Hf].
    + apply (IH a (gd_ a b) xm r); [|exact Er]. assert (Hxd : xm <= gd_ a b).
      { destruct (Rle_dec xm (gd_ a b)) as [|Hn]; [assumption|]. exfalso. apply Rnot_le_lt in Hn.
        destruct (Req_dec (gc_ a b) (gd_ a b)) as [Eq|Ne]; [rewrite Eq in Hf; lra|].
        pose proof (Hdec (gc_ a b) (gd_ a b) ltac:(lra) ltac:(lra)). lra. }
      split; [lra|]. split; [intros x y Hxy Hy; apply Hdec; lra|intros x y Hxy Hy; apply Hinc; lra].
    + apply (IH (gc_ a b) b xm r); [|exact Er]. assert (Hcx : gc_ a b <= xm).
      { destruct (Rle_dec (gc_ a b) xm) as [|Hn]; [assumption|]. exfalso. apply Rnot_le_lt in Hn.
        destruct (Rle_lt_or_eq_dec a b Hab) as [Hlt'|Heq].
        - destruct (golden_points a b Hab) as (_ & _ & _ & Hst & _). destruct (Hst Hlt') as [[_ Hs1] _].
          pose proof (Hinc (gc_ a b) (gd_ a b) ltac:(lra) ltac:(lra)). lra.
        - unfold gc_ in Hn. rewrite Heq in Hn. replace (b - b) with 0 in Hn by ring. unfold Rdiv in Hn. rewrite Rmult_0_l in Hn. lra. }
      split; [lra|]. split; [intros x y Hxy Hy; apply Hdec; lra|intros x y Hxy Hy; apply Hinc; lra].
  - injection Er as <-. rewrite E in Hle. apply Rabs_le. assert (1 / 5 <= sqrt 5 - 2) by nra. nra.
Qed.

Lemma gs_loop_same f fuel a h m : golden_search f fuel a (a + h) = Done m -> forall todo,
  gs_loop f fuel a h todo false m = Done m.
Proof.
  intros E todo. induction todo as [|todo IH]; cbn [gs_loop]; [reflexivity|]. rewrite E. cbn [bind].
  destruct (Rlt_dec m m); exact IH.
Qed.
Lemma gs_first_piece f fuel a b steps : (0 < steps)%nat ->
  max_func_d_gs f fuel a b steps = golden_search f fuel a (a + (b - a) / INR steps).
Proof.
  intros Hs. unfold max_func_d_gs. set (h := (b - a) / INR steps).
  destruct (golden_search f fuel a (a + h)) as [m| | |] eqn:E; cbn [bind]; try reflexivity.
  destruct steps as [|steps]; [lia|]. cbn [gs_loop]. rewrite E. cbn [bind]. apply gs_loop_same, E.
Qed.
