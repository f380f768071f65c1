(** Proofs about the parameters of the Gauss-Chebyshev rule. *)
From Coq Require Import Reals Lra Lia.
From Coquelicot Require Import Coquelicot.
From Verif Require Import CArg ModelGc SpecGc ProofDe2 ProofDe3.
Local Open Scope R_scope.

(** ** acosh *)
Lemma sqrt_lt_self x : 1 <= x -> 0 <= sqrt (x * x - 1) < x.
Proof.
  intro H. assert (1 * 1 <= x * x) by (apply Rmult_le_compat; lra). split; [apply sqrt_pos|].
  apply Rlt_le_trans with (sqrt (x * x)); [apply sqrt_lt_1; lra|]. rewrite sqrt_square; lra.
Qed.
Lemma cosh_acosh x : 1 <= x -> cosh (acosh x) = x.
Proof.
  intro H. assert (S := sqrt_lt_self x H). assert (1 * 1 <= x * x) by (apply Rmult_le_compat; lra).
  assert (Q := sqrt_sqrt (x * x - 1)). set (s := sqrt (x * x - 1)) in *.
  unfold acosh, cosh. fold s. rewrite exp_Ropp, exp_ln by lra.
  assert (E : / (x + s) = x - s).
  { apply (Rmult_eq_reg_l (x + s)); [|lra]. rewrite Rinv_r by lra.
    replace ((x + s) * (x - s)) with (x * x - s * s) by ring. rewrite Q by lra. ring. }
  rewrite E. field.
Qed.
Lemma acosh_pos x : 1 < x -> 0 < acosh x.
Proof.
  intro H. assert (S := sqrt_lt_self x). unfold acosh. rewrite <- ln_1. apply ln_increasing; lra.
Qed.
Lemma acosh_le_ln x : 1 <= x -> acosh x <= ln x + ln 2.
Proof.
  intro H. assert (S := sqrt_lt_self x H). unfold acosh. rewrite <- ln_mult by lra.
  apply Rlt_le, ln_increasing; lra.
Qed.
Lemma acosh_cosh x : 0 <= x -> acosh (cosh x) = x.
Proof.
  intro H. unfold acosh. rewrite cosh_sqr. replace (1 + sinh x * sinh x - 1) with (sinh x * sinh x) by ring.
  rewrite sqrt_square.
  - replace (cosh x + sinh x) with (exp x) by (unfold cosh, sinh; field). apply ln_exp.
  - rewrite <- sinh_0. now apply sinh_le.
Qed.
Lemma cosh_lt a b : 0 <= a < b -> cosh a < cosh b.
Proof.
  intros [H1 H2]. destruct (MVT_cor2 cosh sinh a b H2) as (c & E & Hc).
  { intros c _. apply derivable_pt_lim_cosh. }
  assert (H3 : 0 < sinh c) by (apply ProofDe.sinh_pos; lra).
  assert (0 < sinh c * (b - a)) by (apply Rmult_lt_0_compat; lra). lra.
Qed.
Lemma cosh_abs x : cosh (Rabs x) = cosh x.
Proof. unfold Rabs. destruct (Rcase_abs x); [apply cosh_Ropp|easy]. Qed.
Lemma cosh_lt_abs a b : Rabs a < b -> cosh a < cosh b.
Proof. intro H. rewrite <- (cosh_abs a). apply cosh_lt. split; [apply Rabs_pos|easy]. Qed.

(** ** Radii of the points *)
Lemma vec_r_spec u vr : vec_r u = Done vr -> vr = map half_sum u /\ Forall (fun x => 1 < x) vr.
Proof.
  revert vr. induction u as [|z u IH]; cbn; intros vr H.
  - injection H as <-. now split.
  - unfold func_r_gc in H. fold (half_sum z) in H. destruct (Rle_dec _ _) as [|H1]; cbn in H; [easy|].
    destruct (vec_r u) as [v| | |]; cbn in H; try easy. injection H as <-.
    destruct (IH v eq_refl) as [-> H2]. split; [easy|]. constructor; [lra|easy].
Qed.
Lemma vec_r_done u : Forall (fun z => 1 < half_sum z) u -> vec_r u = Done (map half_sum u).
Proof.
  induction 1 as [|z u H1 H IH]; cbn; [easy|]. unfold func_r_gc. fold (half_sum z).
  destruct (Rle_dec _ _); [lra|]. cbn. now rewrite IH.
Qed.
Lemma min_r_spec vr r0 : (min_r vr r0 = r0 \/ In (min_r vr r0) vr) /\ min_r vr r0 <= r0 /\
  Forall (fun x => min_r vr r0 <= x) vr.
Proof.
  revert r0. induction vr as [|x vr IH]; intro r0; cbn.
  - split; [now left|]. split; [lra|constructor].
  - destruct (IH (if Rlt_dec x r0 then x else r0)) as (I1 & I2 & I3).
    destruct (Rlt_dec x r0).
    + split; [destruct I1 as [I1|I1]; [right; left; lra|now right; right]|].
      split; [lra|]. now constructor.
    + split; [destruct I1 as [I1|I1]; [now left|now right; right]|].
      split; [lra|]. constructor; [lra|easy].
Qed.

(** ** Majorant *)
Definition other (r rad : R) (vr : list R) : list R :=
  filter (fun x => if Rle_dec (Rabs (x - r)) rad then false else true) vr.
Definition prodR (l : list R) : R := fold_right Rmult 1 l.
Lemma other_length r rad vr : (length (other r rad vr) <= length vr)%nat.
Proof. induction vr as [|x vr IH]; cbn; [lia|]. destruct (Rle_dec _ _); cbn; unfold other in IH; lia. Qed.
Lemma maj_prod_spec r rad vr K p :
  maj_prod r rad vr K p
  = ((K + (length vr - length (other r rad vr)))%nat, p * prodR (map (fun x => x - r) (other r rad vr))).
Proof.
  revert K p. induction vr as [|x vr IH]; intros K p.
  - cbn. apply f_equal2; [lia|ring].
  - assert (L := other_length r rad vr). unfold other in *. cbn [maj_prod filter].
    destruct (Rle_dec _ _); cbn [length map prodR fold_right]; rewrite IH; apply f_equal2; try lia; [easy|].
    unfold prodR. ring.
Qed.
Lemma prodR_pos l : Forall (fun x => 0 < x) l -> 0 < prodR l.
Proof. induction 1; cbn; [lra|]. now apply Rmult_lt_0_compat. Qed.
Lemma prodR_le l b : 1 <= b -> Forall (fun x => 0 < x <= b) l -> prodR l <= b ^ length l.
Proof.
  intros Hb. induction 1 as [|x l [H1 H2] H IH]; cbn; [lra|].
  assert (P : 0 < prodR l).
  { apply prodR_pos. eapply Forall_impl; [|exact H]. cbn. intros. lra. }
  unfold prodR in *. apply Rmult_le_compat; lra.
Qed.
Lemma other_all r vr : Forall (fun x => r < x) vr -> other r 0 vr = vr.
Proof.
  induction 1 as [|x vr Hx H IH]; cbn; [easy|]. destruct (Rle_dec _ _) as [L|L].
  - exfalso. rewrite Rabs_pos_eq in L; lra.
  - unfold other in IH. now rewrite IH.
Qed.
(** all radii above r: the first and only call of maj_yr that ends the loop *)
Lemma maj_below m0 r vr : Forall (fun x => r < x) vr ->
  maj_yr m0 r 0 vr = (0%nat, Some (m0 - ln (prodR (map (fun x => x - r) vr)) / 2)).
Proof.
  intro H. unfold maj_yr. rewrite maj_prod_spec, other_all by easy. rewrite Nat.sub_diag, Rmult_1_l.
  destruct (Rlt_dec _ _) as [|N]; [easy|]. exfalso. apply N, prodR_pos.
  apply Forall_map. eapply Forall_impl; [|exact H]. cbn. intros. lra.
Qed.

(** ** Points of the ellipse *)
Lemma half_sum_dist z w : half_sum w - half_sum z <= Cmod (z - w)%C.
Proof.
  unfold half_sum.
  assert (H : forall a, Cmod (w - a)%C <= Cmod (z - a)%C + Cmod (z - w)%C).
  { intro a. replace (w - a)%C with ((z - a) - (z - w))%C by ring.
    unfold Cminus at 1. eapply Rle_trans; [apply Cmod_triangle|]. rewrite Cmod_opp. lra. }
  assert (H1 := H (RtoC 1)). assert (H2 := H (- RtoC 1)%C).
  replace (w - - RtoC 1)%C with (w + RtoC 1)%C in H2 by ring.
  replace (z - - RtoC 1)%C with (z + RtoC 1)%C in H2 by ring. lra.
Qed.
Lemma Cmod_half_sum z : Cmod z <= half_sum z.
Proof.
  unfold half_sum. replace z with (((z - RtoC 1) + (z + RtoC 1)) * RtoC (/ 2))%C at 1.
  - rewrite Cmod_mult, Cmod_R, Rabs_pos_eq by lra.
    assert (H := Cmod_triangle (z - RtoC 1)%C (z + RtoC 1)%C). lra.
  - apply injective_projections; cbn; field.
Qed.
Lemma prod_mono2 (f g : C -> R) u : Forall (fun w => 0 < f w <= g w) u ->
  0 < prodR (map f u) <= prodR (map g u).
Proof.
  induction 1 as [|w u [H1 H2] H [I1 I2]]; cbn; unfold prodR in *; [lra|].
  split; [now apply Rmult_lt_0_compat|]. apply Rmult_le_compat; lra.
Qed.
Lemma integrand_bound u i d r r0 z : avoids r u -> half_sum z <= r -> 1 <= r <= r0 -> (i <= d)%nat ->
  integrand u i z <= r0 ^ d / sqrt (prodR (map (fun w => half_sum w - r) u)).
Proof.
  intros Ha Hz Hr Hi. unfold integrand. fold (prodR (map (fun w => Cmod (z - w)%C) u)).
  destruct (prod_mono2 (fun w => half_sum w - r) (fun w => Cmod (z - w)%C) u) as [P1 P2].
  { eapply Forall_impl; [|exact Ha]. cbv beta. intros w Hw. assert (D := half_sum_dist z w). lra. }
  unfold Rdiv. apply Rmult_le_compat.
  - apply pow_le, Cmod_ge_0.
  - left. apply Rinv_0_lt_compat, sqrt_lt_R0. lra.
  - assert (M := Cmod_half_sum z).
    apply Rle_trans with (r0 ^ i); [|apply Rle_pow; [lra|easy]].
    apply pow_incr. split; [apply Cmod_ge_0|lra].
  - apply Rinv_le_contravar; [now apply sqrt_lt_R0|]. now apply sqrt_le_1_alt.
Qed.
Lemma exp_m m0 p : 0 < p -> exp (m0 - ln p / 2) = exp m0 / sqrt p.
Proof.
  intro H. unfold Rminus. rewrite exp_plus, exp_Ropp. unfold Rdiv. f_equal. f_equal.
  replace (ln p) with (ln (sqrt p * sqrt p)) by (rewrite sqrt_sqrt; [easy|lra]).
  rewrite ln_mult by now apply sqrt_lt_R0.
  replace ((ln (sqrt p) + ln (sqrt p)) * / 2) with (ln (sqrt p)) by field.
  apply exp_ln. now apply sqrt_lt_R0.
Qed.
Definition m0_of (d : nat) (prec : Z) (r0 : R) : R :=
  2 * ln (sqrt (2 * PI)) + INR d * ln r0 + IZR prec * ln 2.
Lemma ln_2pi : 2 * ln (sqrt (2 * PI)) = ln (2 * PI).
Proof.
  assert (HP := PI_RGT_0). 
  replace (ln (2 * PI)) with (ln (sqrt (2 * PI) * sqrt (2 * PI))) by (rewrite sqrt_sqrt; [easy|lra]).
  rewrite ln_mult by (apply sqrt_lt_R0; lra). ring.
Qed.
Lemma exp_m0 d prec r0 : 0 < r0 -> exp (m0_of d prec r0) = 2 * PI * r0 ^ d * Rpower 2 (IZR prec).
Proof.
  intro H. assert (HP := PI_RGT_0). unfold m0_of. rewrite ln_2pi, !exp_plus, exp_ln by lra.
  rewrite <- (Rpower_pow d r0) by easy. easy.
Qed.

(** ** Exit of the loop *)
Lemma gc_done fuel u d prec n e r : gc_params fuel u d prec = Done (n, e, r) ->
  exists r0 m, Forall (fun z => 1 < half_sum z) u /\ (exists z, In z u /\ half_sum z = r0) /\
  Forall (fun z => r0 <= half_sum z) u /\
  gc_loop fuel (m0_of d prec r0) r0 r0 (Rabs (2 / IZR prec)) (map half_sum u) = Done (r, m) /\
  acosh r <> 0 /\ n = (- Int_part (- (m / acosh r / 2)))%Z /\
  e = (if Req_EM_T (exp (acosh r * IZR (2 * n)) - 1) 0 then None
       else Some (Rabs (exp m * Rpower 2 (- IZR prec) / (exp (acosh r * IZR (2 * n)) - 1)))).
Proof.
  unfold gc_params. intro H. destruct (vec_r u) as [vr| | |] eqn:EV; cbn [bind] in H; try easy.
  destruct (vec_r_spec u vr EV) as [Evr Hvr].
  destruct vr as [|r1 vr']; [easy|].
  destruct (min_r_spec vr' r1) as (M1 & M2 & M3). set (r0 := min_r vr' r1) in *.
  destruct (Z.eqb prec 0); [easy|]. fold (m0_of d prec r0) in H.
  destruct (gc_loop _ _ _ _ _ _) as [[r' m]| | |] eqn:EL; cbn [bind] in H; try easy.
  destruct (Req_EM_T (acosh r') 0) as [|N]; [easy|].
  exists r0, m. rewrite Evr in Hvr, EL.
  split; [exact (proj1 (Forall_map _ _ _) Hvr)|].
  assert (HI : In r0 (map half_sum u)).
  { rewrite <- Evr. destruct M1 as [M1|M1]; [left; congruence|now right]. }
  split. { apply in_map_iff in HI. destruct HI as (z & Hz & Hz'). now exists z. }
  split. { apply Forall_map. rewrite <- Evr. now constructor. }
  assert (Er : r' = r) by congruence. subst r'.
  split; [easy|]. split; [easy|].
  assert (En := f_equal (fun o => match o with Done q => fst (fst q) | _ => 0%Z end) H).
  assert (Ee := f_equal (fun o => match o with Done q => snd (fst q) | _ => None end) H).
  cbn [fst snd] in En, Ee. split; [easy|]. rewrite En in Ee. easy.
Qed.
(** when the loop stops at a radius below all others, m is the logarithm of the majorant *)
Lemma gc_loop_m fuel m0 r0 r rad vr r' m : gc_loop fuel m0 r0 r rad vr = Done (r', m) ->
  0 <= rad -> Forall (fun x => r' < x) vr -> m = m0 - ln (prodR (map (fun x => x - r') vr)) / 2.
Proof.
  revert r rad. induction fuel as [|fuel IH]; cbn; intros r rad H Hrad HF; [easy|].
  destruct (maj_yr m0 r rad vr) as [K m1] eqn:EM. destruct K as [|K].
  - destruct m1 as [m1|]; [|easy]. assert (r = r') by congruence. assert (m1 = m) by congruence. subst r m1.
    unfold maj_yr in EM. rewrite maj_prod_spec in EM.
    assert (EK : (length vr - length (other r' rad vr) = 0)%nat) by (injection EM; lia).
    assert (EO : other r' rad vr = vr).
    { clear - EK. induction vr as [|x vr IH]; cbn in *; [easy|].
      assert (L := other_length r' rad vr). unfold other in *. destruct (Rle_dec _ _).
      - cbn in EK. destruct (length (filter _ vr)); lia.
      - cbn in EK. rewrite IH by easy. easy. }
    rewrite EO, Rmult_1_l in EM. destruct (Rlt_dec _ _); [|easy].
    assert (E := f_equal snd EM). cbn [snd] in E. congruence.
  - destruct (choose_r r0 m1 (S K)) as [r2| | |]; cbn in H; try easy. apply (IH r2 0 H); [lra|easy].
Qed.
Lemma gc_radius_value fuel u d prec n e r : gc_params fuel u d prec = Done (n, e, r) -> avoids r u -> 1 <= r ->
  (0 < n)%Z ->
  exists e' r0, e = Some e' /\ 1 < r < r0 /\
  e' = 2 * PI * (r0 ^ d / sqrt (prodR (map (fun w => half_sum w - r) u))) / (exp (2 * acosh r * IZR n) - 1).
Proof.
  intros H Ha Hr Hn. destruct (gc_done _ _ _ _ _ _ _ H) as (r0 & m & U1 & (z0 & U2 & U3) & U4 & L & N & En & Ee).
  assert (Em := gc_loop_m _ _ _ _ _ _ _ _ L (Rabs_pos _)).
  assert (Hr0 : 1 < r0).
  { rewrite Forall_forall in U1. apply U1 in U2. lra. }
  assert (Hrr0 : r < r0).
  { unfold avoids in Ha. rewrite Forall_forall in Ha. apply Ha in U2. lra. }
  assert (HF : Forall (fun x => r < x) (map half_sum u)) by (now apply Forall_map).
  specialize (Em HF). rewrite map_map in Em.
  set (P := prodR (map (fun w => half_sum w - r) u)) in *.
  assert (HP : 0 < P).
  { apply prodR_pos, Forall_map. eapply Forall_impl; [|exact Ha]. cbn. intros. lra. }
  assert (Hr1 : 1 < r).
  { destruct (Rlt_dec 1 r) as [|NR]; [easy|]. exfalso. apply N.
    replace r with 1 by lra. unfold acosh. replace (1 * 1 - 1) with 0 by ring. rewrite sqrt_0, Rplus_0_r. apply ln_1. }
  assert (Hac := acosh_pos r Hr1).
  assert (Hnp : 0 < acosh r * IZR (2 * n)).
  { apply Rmult_lt_0_compat; [easy|]. apply IZR_lt. lia. }
  assert (Hq : 0 < exp (acosh r * IZR (2 * n)) - 1).
  { apply exp_increasing in Hnp. rewrite exp_0 in Hnp. lra. }
  replace (exp (2 * acosh r * IZR n) - 1) with (exp (acosh r * IZR (2 * n)) - 1).
  2:{ do 2 f_equal. rewrite mult_IZR. ring. }
  set (q := exp (acosh r * IZR (2 * n)) - 1) in *.
  destruct (Req_EM_T q 0); [lra|]. eexists _, r0. split; [exact Ee|]. split; [easy|].
  rewrite Em, exp_m, exp_m0 by lra. assert (HPI := PI_RGT_0).
  assert (H2 := ProofDe.Rpower_pos 2 (IZR prec)). rewrite Rpower_Ropp.
  assert (Hs : 0 < sqrt P) by now apply sqrt_lt_R0.
  assert (Hd : 0 < r0 ^ d) by (apply pow_lt; lra).
  replace (2 * PI * r0 ^ d * Rpower 2 (IZR prec) / sqrt P * / Rpower 2 (IZR prec) / q)
    with (2 * PI * (r0 ^ d / sqrt P) / q) by (field; lra).
  apply Rabs_pos_eq.
  apply Rmult_le_pos; [|left; now apply Rinv_0_lt_compat]. apply Rmult_le_pos; [lra|].
  apply Rlt_le, Rdiv_lt_0_compat; lra.
Qed.
Lemma gc_radius fuel u d prec n e r : gc_params fuel u d prec = Done (n, e, r) -> avoids r u -> 1 <= r ->
  (0 < n)%Z ->
  exists e', e = Some e' /\
  forall i z, (i <= d)%nat -> half_sum z <= r -> gc_bound (integrand u i z) (acosh r) n <= e'.
Proof.
  intros H Ha Hr Hn. destruct (gc_radius_value _ _ _ _ _ _ _ H Ha Hr Hn) as (e' & r0 & E1 & (Hr1 & Hr0) & E2).
  exists e'. split; [exact E1|]. intros i z Hi Hz. rewrite E2. unfold gc_bound.
  assert (Hnp : 0 < 2 * acosh r * IZR n).
  { assert (Hac := acosh_pos r Hr1). apply Rmult_lt_0_compat; [lra|]. now apply IZR_lt. }
  assert (Hq : 0 < exp (2 * acosh r * IZR n) - 1).
  { apply exp_increasing in Hnp. rewrite exp_0 in Hnp. lra. }
  assert (HPI := PI_RGT_0).
  assert (B := integrand_bound u i d r r0 z Ha Hz (conj Hr (Rlt_le _ _ Hr0)) Hi).
  unfold Rdiv. apply Rmult_le_compat_r; [left; now apply Rinv_0_lt_compat|]. apply Rmult_le_compat_l; [lra|exact B].
Qed.

(** ** Enough precision *)
Lemma ln_2pi_ge_1 : 1 < ln (2 * PI).
Proof.
  rewrite <- (ln_exp 1). assert (H := exp_le_3). assert (H1 := PI2_3_2). assert (H2 := exp_pos 1).
  apply ln_increasing; lra.
Qed.
Lemma ln_pos x : 1 < x -> 0 < ln x.
Proof. intro H. rewrite <- ln_1. apply ln_increasing; lra. Qed.
Lemma ln_le' a b : 0 < a -> a <= b -> ln a <= ln b.
Proof. intros H [H1| ->]; [left; now apply ln_increasing|lra]. Qed.
Lemma ln_pow' x n : 0 < x -> ln (x ^ n) = INR n * ln x.
Proof. intro H. rewrite <- Rpower_pow by easy. unfold Rpower. apply ln_exp. Qed.
Lemma other_Forall r rad vr (P : R -> Prop) : Forall P vr -> Forall P (other r rad vr).
Proof.
  induction 1 as [|x vr Hx H IH]; cbn; [constructor|]. unfold other in IH.
  destruct (Rle_dec _ _); [easy|now constructor].
Qed.
Lemma other_far r rad vr : Forall (fun x => rad < Rabs (x - r)) (other r rad vr).
Proof.
  induction vr as [|x vr IH]; cbn; [constructor|]. unfold other in IH.
  destruct (Rle_dec _ _); [easy|]. constructor; [lra|easy].
Qed.
Lemma other_lt r rad vr : 0 <= rad -> In r vr -> (length (other r rad vr) < length vr)%nat.
Proof.
  intros Hr. induction vr as [|x vr IH]; [easy|]. intros [<-|H]; cbn.
  - assert (L := other_length x rad vr). unfold other in L. destruct (Rle_dec _ _) as [|N]; [lia|].
    exfalso. apply N. replace (x - x) with 0 by ring. now rewrite Rabs_R0.
  - apply IH in H. unfold other in H. destruct (Rle_dec _ _); cbn; lia.
Qed.
Lemma prod_below r l : 0 <= r -> Forall (fun x => r < x) l -> prodR (map (fun x => x - r) l) <= prodR l.
Proof.
  intros Hr. induction 1 as [|x l Hx H IH]; cbn; [lra|].
  assert (0 <= prodR (map (fun x => x - r) l)) by (left; apply prodR_pos, Forall_map; eapply Forall_impl; [|exact H]; cbn; intros; lra).
  unfold prodR in *. apply Rmult_le_compat; lra.
Qed.
Lemma split_prod r0 rad vr : 0 < r0 -> 0 <= rad -> Forall (fun x => r0 <= x) vr ->
  r0 ^ (length vr - length (other r0 rad vr)) * prodR (map (fun x => x - r0) (other r0 rad vr)) <= prodR vr.
Proof.
  intros H0 Hr. induction 1 as [|x l Hx H IH]; [cbn; lra|].
  assert (L := other_length r0 rad l). set (o := other r0 rad l) in *.
  assert (Ho : 0 <= prodR (map (fun x => x - r0) o)).
  { assert (F1 := other_far r0 rad l). assert (F2 := other_Forall r0 rad l _ H). fold o in F1, F2. clear IH L. clearbody o. revert F1 F2.
    induction o as [|a o IHo]; cbn; intros F1 F2; [lra|]. inversion F1; inversion F2; subst. apply Rmult_le_pos; [lra|now apply IHo]. }
  assert (P : 0 <= r0 ^ (length l - length o)) by (apply pow_le; lra).
  assert (PQ : 0 <= r0 ^ (length l - length o) * prodR (map (fun x => x - r0) o)) by (now apply Rmult_le_pos).
  assert (Eo : other r0 rad (x :: l) = if Rle_dec (Rabs (x - r0)) rad then o else x :: o).
  { unfold o, other. cbn [filter]. destruct (Rle_dec _ _); reflexivity. }
  rewrite Eo. cbn [length]. destruct (Rle_dec (Rabs (x - r0)) rad).
  - replace (S (length l) - length o)%nat with (S (length l - length o)) by lia. cbn [pow].
    apply Rle_trans with (x * prodR l); [|right; reflexivity]. rewrite Rmult_assoc. apply Rmult_le_compat; lra.
  - cbn [length Nat.sub map]. change (prodR (x - r0 :: map (fun x => x - r0) o)) with ((x - r0) * prodR (map (fun x => x - r0) o)).
    change (prodR (x :: l)) with (x * prodR l). replace (r0 ^ (length l - length o) * ((x - r0) * prodR (map (fun x => x - r0) o))) with ((x - r0) * (r0 ^ (length l - length o) * prodR (map (fun x => x - r0) o))) by ring.
    apply Rmult_le_compat; lra.
Qed.

Section Enough.
Context (vr : list R) (r0 : R) (d : nat) (prec : Z).
Hypothesis (Hin : In r0 vr) (Hmin : Forall (fun x => r0 <= x) vr) (Hr0 : 1 < r0) (HP : (0 < prec)%Z).
Hypothesis (Hprod : ln (prodR vr) <= 2 * (IZR prec * ln 2) + 2 * (INR d * ln r0)).
Lemma loop_spread fuel : exists r m, gc_loop (S (S fuel)) (m0_of d prec r0) r0 r0 (Rabs (2 / IZR prec)) vr = Done (r, m) /\
  1 < r < r0 /\ 1 <= m.
Proof.
  assert (HP' : 0 < IZR prec) by now apply IZR_lt.
  set (rad := Rabs (2 / IZR prec)). assert (Hrad : 0 < rad).
  { apply Rabs_pos_lt. assert (0 < 2 / IZR prec) by (apply Rdiv_lt_0_compat; lra). lra. }
  set (m0 := m0_of d prec r0). assert (Em0 : m0 = ln (2 * PI) + INR d * ln r0 + IZR prec * ln 2) by (unfold m0, m0_of; rewrite ln_2pi; ring).
  assert (Hl := ln_2pi_ge_1). assert (Hl2 := ln2_pos).
  cbn [gc_loop]. unfold maj_yr at 1. rewrite maj_prod_spec.
  set (o := other r0 rad vr). rewrite Nat.add_0_l, Rmult_1_l.
  assert (HK : (length o < length vr)%nat) by (apply other_lt; [lra|easy]).
  assert (HS := split_prod r0 rad vr ltac:(lra) ltac:(lra) Hmin). fold o in HS.
  destruct (length vr - length o)%nat as [|K'] eqn:EK; [lia|].
  assert (HO : Forall (fun x => 0 < x - r0) o).
  { assert (F1 := other_far r0 rad vr). assert (F2 := other_Forall r0 rad vr _ Hmin). fold o in F1, F2.
    rewrite Forall_forall in *. intros x Hx. specialize (F1 x Hx). specialize (F2 x Hx). cbn in F1, F2.
    rewrite Rabs_pos_eq in F1 by lra. lra. }
  assert (Hpos : 0 < prodR (map (fun x => x - r0) o)) by (apply prodR_pos, Forall_map; exact HO).
  destruct (Rlt_dec _ _) as [_|]; [|easy].
  set (M := m0 - ln (prodR (map (fun x => x - r0) o)) / 2).
  unfold choose_r. set (R0 := acosh r0). set (A := 1 + 2 * M / INR (S K')).
  assert (HR0 : 0 < R0) by now apply acosh_pos.
  assert (HKp : 0 < INR (S K')) by (rewrite S_INR; assert (H := pos_INR K'); lra).
  assert (Hpow : 0 < r0 ^ S K') by (apply pow_lt; lra).
  assert (HA : R0 < A).
  { assert (B1 := acosh_le_ln r0 ltac:(lra)). fold R0 in B1.
    assert (L2 : ln 2 <= 1).
    { rewrite <- (ln_exp 1). apply ln_le'; [lra|]. assert (E := exp_ineq1_le 1). lra. }
    apply ln_le' in HS; [|now apply Rmult_lt_0_compat]. rewrite ln_mult, ln_pow' in HS by lra.
    unfold A. assert (B3 : ln r0 < 2 * M / INR (S K')); [|lra].
    apply Rlt_div_r; [easy|]. unfold M. rewrite Em0. lra. }
  destruct (Rlt_dec A 0); [lra|]. destruct (Req_EM_T A 0); [lra|].
  assert (HAR : 1 < A / R0) by (apply Rlt_div_r; lra).
  assert (HlA := ln_pos _ HAR).
  destruct (Req_EM_T (A + ln (A / R0)) 0); [lra|]. cbn [bind].
  set (den := A + ln (A / R0)) in *.
  assert (Hden : R0 < den) by (unfold den; lra).
  assert (Heps : 0 < R0 / den < 1).
  { split; [apply Rdiv_lt_0_compat; lra|]. apply Rlt_div_l; lra. }
  set (eps := R0 / den) in *. set (r := cosh (R0 * (1 - eps))).
  assert (Hrr : 0 < R0 * (1 - eps) < R0).
  { split; [apply Rmult_lt_0_compat; lra|]. assert (0 < R0 * eps) by (apply Rmult_lt_0_compat; lra).
    replace (R0 * (1 - eps)) with (R0 - R0 * eps) by ring. lra. }
  assert (Hr : 1 < r < r0).
  { unfold r. split.
    - apply Rle_lt_trans with (cosh 0); [rewrite cosh_0; lra|]. apply cosh_lt. lra.
    - apply Rlt_le_trans with (cosh R0); [apply cosh_lt; lra|]. unfold R0. rewrite cosh_acosh; lra. }
  assert (HF : Forall (fun x => r < x) vr).
  { eapply Forall_impl; [|exact Hmin]. cbn. intros. lra. }
  rewrite (maj_below m0 r vr HF). exists r, (m0 - ln (prodR (map (fun x => x - r) vr)) / 2).
  split; [easy|]. split; [easy|].
  assert (HB := prod_below r vr ltac:(lra) HF).
  assert (HB0 : 0 < prodR (map (fun x => x - r) vr)).
  { apply prodR_pos, Forall_map. eapply Forall_impl; [|exact HF]. cbn. intros. lra. }
  apply ln_le' in HB; [|exact HB0]. rewrite Em0. lra.
Qed.
End Enough.

Lemma ln_prod_le_4 d prec r0 P : 0 < P -> 1 < r0 -> P <= Rpower 4 (IZR prec) * r0 ^ (2 * d) -> ln P <= 2 * (IZR prec * ln 2) + 2 * (INR d * ln r0).
Proof.
  intros HP Hr H. apply ln_le' in H; [|exact HP]. rewrite ln_mult, ln_pow' in H by (try apply exp_pos; try apply pow_lt; lra). unfold Rpower in H. rewrite ln_exp in H.
  replace 4 with (2 * 2) in H by ring. rewrite ln_mult in H by lra. rewrite mult_INR in H. cbn [INR] in H. lra.
Qed.
Lemma gc_enough fuel u d prec : u <> [] -> within_reach d prec u ->
  exists n e r, gc_params (S (S fuel)) u d prec = Done (n, Some e, r) /\ (0 < n)%Z /\ 1 < r /\ avoids r u /\
    0 < e <= 2 * Rpower 2 (- IZR prec).
Proof.
  intros Hu [HP HU].
  assert (H1 : Forall (fun z => 1 < half_sum z) u) by (eapply Forall_impl; [|exact HU]; now intros z []).
  unfold gc_params. rewrite (vec_r_done u H1). cbn [bind].
  destruct u as [|z1 u']; [easy|]. cbn [map]. set (u := z1 :: u') in *.
  destruct (min_r_spec (map half_sum u') (half_sum z1)) as (M1 & M2 & M3).
  set (r0 := min_r (map half_sum u') (half_sum z1)) in *.
  fold (m0_of d prec r0). change (half_sum z1 :: map half_sum u') with (map half_sum u).
  assert (Hin : In r0 (map half_sum u)) by (destruct M1 as [M1|M1]; [left; congruence|now right]).
  assert (Hmin : Forall (fun x => r0 <= x) (map half_sum u)) by now constructor.
  assert (Hin' := Hin). apply in_map_iff in Hin'. destruct Hin' as (z & Ez & Hz). rewrite Forall_forall in H1, HU.
  assert (Hr0 : 1 < r0) by (rewrite <- Ez; now apply H1).
  assert (HPp : 0 < prodR (map half_sum u)).
  { apply prodR_pos, Forall_map, Forall_forall. intros y Hy. specialize (H1 y Hy). lra. }
  assert (Hprod : ln (prodR (map half_sum u)) <= 2 * (IZR prec * ln 2) + 2 * (INR d * ln r0)).
  { apply ln_prod_le_4; [exact HPp|exact Hr0|]. rewrite <- Ez. now apply (HU z). }
  destruct (Z.eqb_spec prec 0); [lia|].
  destruct (loop_spread _ _ d prec Hin Hmin Hr0 HP Hprod fuel) as (r & m & E & Hr & Hm).
  rewrite E. cbn [bind]. assert (Hac := acosh_pos r (proj1 Hr)).
  destruct (Req_EM_T (acosh r) 0); [lra|].
  set (y := m / acosh r / 2). set (nn := (- Int_part (- y))%Z).
  assert (Hn : y <= IZR nn).
  { destruct (base_Int_part (- y)) as [I1 I2]. unfold nn. rewrite opp_IZR. lra. }
  assert (Hy : 0 < y).
  { unfold y. apply Rdiv_lt_0_compat; [|lra]. apply Rdiv_lt_0_compat; lra. }
  assert (Hge : m <= acosh r * IZR (2 * nn)).
  { rewrite mult_IZR. replace m with (acosh r * (2 * y)) by (unfold y; field; lra).
    apply Rmult_le_compat_l; lra. }
  assert (He : exp m <= exp (acosh r * IZR (2 * nn))) by now apply exp_le.
  assert (Hm2 : 2 <= exp m).
  { assert (X := exp_ineq1_le m). lra. }
  set (q := exp (acosh r * IZR (2 * nn)) - 1) in *.
  destruct (Req_EM_T q 0); [unfold q in *; lra|].
  eexists nn, _, r. split; [reflexivity|]. split; [apply lt_IZR; lra|]. split; [easy|].
  split. { unfold avoids. apply (proj1 (Forall_map half_sum _ u)). eapply Forall_impl; [|exact Hmin]. cbn. intros. lra. }
  assert (H2 := ProofDe.Rpower_pos 2 (- IZR prec)). assert (Hq : 0 < q) by (unfold q; lra).
  set (T := Rpower 2 (- IZR prec)) in *.
  assert (Hpos : 0 < exp m * T / q).
  { apply Rdiv_lt_0_compat; [|easy]. apply Rmult_lt_0_compat; lra. }
  rewrite Rabs_pos_eq by lra. split; [easy|].
  apply Rle_div_l; [easy|]. replace (2 * T * q) with (2 * q * T) by ring.
  apply Rmult_le_compat_r; [lra|]. unfold q. lra.
Qed.
(** one other point: a cubic *)
Lemma reach_single z d prec : (0 < prec)%Z -> (1 <= d)%nat -> 1 < half_sum z -> within_reach d prec [z].
Proof.
  intros HP Hd Hz. split; [exact HP|]. constructor; [|constructor]. split; [exact Hz|]. cbn [map fold_right]. rewrite Rmult_1_r.
  assert (HP' : 0 < IZR prec) by now apply IZR_lt.
  assert (1 <= Rpower 4 (IZR prec)) by (rewrite <- (Rpower_O 4) by lra; apply Rle_Rpower; lra).
  assert (half_sum z <= half_sum z ^ (2 * d)).
  { replace (2 * d)%nat with (S (2 * d - 1)) by lia. cbn [pow]. assert (1 <= half_sum z ^ (2 * d - 1)) by (apply pow_R1_Rle; lra).
    apply Rle_trans with (half_sum z * 1); [lra|]. apply Rmult_le_compat_l; lra. }
  apply Rle_trans with (1 * half_sum z ^ (2 * d)); [lra|]. apply Rmult_le_compat_r; [|assumption]. apply pow_le. lra.
Qed.
Lemma gc_loop_r fuel m0 r0 r rad vr r' m : gc_loop fuel m0 r0 r rad vr = Done (r', m) -> 1 <= r -> 1 <= r'.
Proof.
  revert r rad. induction fuel as [|fuel IH]; cbn; intros r rad H Hr; [easy|].
  destruct (maj_yr m0 r rad vr) as [K m1]. destruct K as [|K].
  - destruct m1; [|easy]. assert (r = r') by congruence. lra.
  - destruct (choose_r r0 m1 (S K)) as [r2| | |] eqn:E; cbn in H; try easy. apply (IH _ _ H).
    unfold choose_r in E. destruct m1; [|easy]. destruct (Rlt_dec _ _); [easy|].
    destruct (Req_EM_T _ 0); [injection E as <-; apply cosh_ge_1|].
    destruct (Req_EM_T _ 0); [easy|]. injection E as <-. apply cosh_ge_1.
Qed.
Lemma gc_r_ge_1 fuel u d prec n e r : gc_params fuel u d prec = Done (n, e, r) -> 1 <= r.
Proof.
  intro H. destruct (gc_done _ _ _ _ _ _ _ H) as (r0 & m & U1 & (z0 & U2 & U3) & _ & L & _).
  apply gc_loop_r in L; [easy|]. rewrite Forall_forall in U1. apply U1 in U2. lra.
Qed.
