(** Integrals to a point of the curve in the Magma package: data of the edge and sheet. *)
From Coquelicot Require Import Coquelicot.
From Verif Require Import CArg ModelTree ModelVec ModelPeriod ModelTurn ModelEdge ModelMaRoot ModelMaDiff ModelMaFactor ModelMaInter ModelMaSum ModelMaAjm SpecTurn SpecMaRoot SpecMaAjm ProofEdge ProofTurn ProofMaRoot ProofMaRoot2 ProofMaRoot3 ProofErr3 ProofHol11 ProofMaFactor ProofMaFactor2 ProofVec SpecEdge.
From Verif Require ProofCross3 ProofTrap.
Local Open Scope R_scope.

Lemma cexp_clog_id z : z <> RtoC 0 -> cexp (clog z) = z.
Proof.
  intros Hz. unfold cexp, clog. cbn [fst snd]. rewrite exp_ln by (apply Cmod_gt_0, Hz). symmetry. apply carg_polar.
Qed.
Lemma cexp_neq z : cexp z <> RtoC 0.
Proof. intros E. pose proof (cexp_inv z) as W. rewrite E, Cmult_0_r in W. injection W. lra. Qed.
Lemma cis_neq t : cis t <> RtoC 0.
Proof.
  intros E. pose proof (CBase.cis_add t (- t)) as W. rewrite E, Cmult_0_l in W. replace (t + - t) with 0 in W by ring. rewrite cis_0 in W. injection W. lra.
Qed.
Lemma carg_scale z r : 0 < r -> z <> RtoC 0 -> carg (RtoC r * z)%C = carg z.
Proof.
  intros Hr Hz. apply (carg_unique _ (r * Cmod z)); [apply Rmult_lt_0_compat; [exact Hr|apply Cmod_gt_0, Hz]|apply carg_range|].
  rewrite (carg_polar z) at 1. rewrite RtoC_mult. ring.
Qed.
Lemma round_close k e : Rabs e < / 2 -> round_near (IZR k + e) = k.
Proof.
  intros He. apply Rabs_def2 in He. unfold round_near. destruct (base_Int_part (IZR k + e + / 2)) as (A & B).
  set (w := Int_part _) in *. assert (IZR w < IZR k + 1) by lra. assert (IZR k < IZR w + 1) by lra.
  rewrite <- plus_IZR in *. apply lt_IZR in H, H0. lia.
Qed.

(** ** data *)
Section Data.
Context (x : list C) (a m : nat) (p : C).
Let n := length x.
Hypothesis Ha : (a < n)%nat.
Hypothesis Hap : vget x a <> p.
Hypothesis Hm : (2 <= m)%nat.
Hypothesis Hn : (3 <= n)%nat.
Hypothesis Hclear : clear_to x a p.
Let xa := vget x a.
Let h := ((p - xa) / RtoC 2)%C.

Lemma to_neq : (p - xa)%C <> RtoC 0.
Proof using Hap. intros E. apply Hap. fold xa. replace xa with (p - (p - xa))%C by ring. rewrite E. ring. Qed.
Lemma to_half : h <> RtoC 0.
Proof using Hap. intros E. apply to_neq. replace (p - xa)%C with (RtoC 2 * h)%C by (unfold h; field; apply two_neq). rewrite E. ring. Qed.

Lemma in_remove z : In z (remove_at x a) -> exists k, (k < n)%nat /\ k <> a /\ z = vget x k.
Proof using Ha Hm Hn.
  intros H. apply (In_nth _ _ (RtoC 0)) in H. destruct H as (k & Hk & <-). pose proof (remove_length x a Ha) as HL.
  rewrite nth_remove by exact Ha. destruct (Nat.ltb_spec k a); [exists k|exists (S k)]; (split; [fold n in HL; lia|]; split; [lia|reflexivity]).
Qed.

Lemma data_to : exists e f, edge_data_to x a p = Done e /\
  length (e_data e) = (n + 1)%nat /\ vget (e_data e) (n - 1) = h /\ vget (e_data e) n = ((p + xa) / (p - xa))%C /\
  (forall t, continuous (fun t => fst (f t)) t /\ continuous (fun t => snd (f t)) t) /\
  forall t, -1 <= t <= 1 -> ac_mth_root t e (zetas m) m (n - 1) = Done (f t) /\ f t <> RtoC 0 /\
    poly_at x (edge_point xa p (RtoC t)) = (cpow h n * sg (e_up e) * RtoC (1 + t) * cpow (f t) m)%C.
Proof using All.
  assert (Hd := to_neq). unfold edge_data_to. rewrite vread_ok by assumption. cbn [bind]. fold xa.
  destruct (Req_EM_T (Cmod (p - xa)%C) 0) as [H|_]; [apply Cmod_eq_0 in H; contradiction|].
  unfold sorted_points. set (g := fun z => ((RtoC 2 * z - (p + xa)) * (RtoC 1 / (p - xa)))%C).
  pose proof (sort_spec (map g (remove_at x a))) as HS. destruct (sort_by_real_part (map g (remove_at x a))) as [u up].
  destruct HS as (P & Hup & H1 & H2). pose proof (remove_length x a Ha) as HR. fold n in HR.
  assert (HL : (length u + 1 = n)%nat) by (apply Permutation_length in P; rewrite map_length in P; lia).
  assert (Esc : forall z t, (edge_point xa p t - z)%C = (h * (t - g z))%C).
  { intros z t. unfold edge_point, h, g. field. split; [exact Hd|apply two_neq]. }
  assert (Hoff : forall q s, In q u -> -1 <= s <= 1 -> q <> RtoC s).
  { intros q s Hq Hs ->. rewrite <- P in Hq. apply in_map_iff in Hq. destruct Hq as (z & Ez & Hz). apply in_remove in Hz. destruct Hz as (k & Hk & Hka & ->).
    apply (Hclear k s Hk Hka Hs). fold xa. pose proof (Esc (vget x k) (RtoC s)) as E. rewrite Ez in E.
    replace (vget x k) with (edge_point xa p (RtoC s) - (edge_point xa p (RtoC s) - vget x k))%C by ring. rewrite E. ring. }
  set (rest := [((p - xa) / RtoC 2)%C; ((p + xa) / (p - xa))%C]).
  destruct (root_along u up rest 0 Hup H1 H2 Hoff ltac:(lra) m Hm ltac:(lia)) as (k & Hk & _).
  exists {| e_data := u ++ rest; e_up := up; e_isgn := isgns u up |}, (fun t => root (Z.of_nat m) (- k) * y_tilde (Z.of_nat m) u up (RtoC t))%C.
  split; [reflexivity|]. cbn [e_data e_up]. split; [rewrite app_length; cbn [rest length]; lia|].
  split; [unfold vget; rewrite app_nth2 by lia; replace (n - 1 - length u)%nat with 0%nat by lia; reflexivity|].
  split; [unfold vget; rewrite app_nth2 by lia; replace (n - length u)%nat with 1%nat by lia; reflexivity|].
  split; [intros t; apply (ccont_mult (fun _ => root (Z.of_nat m) (- k))); [apply ccont_const|apply y_cont_m; lia]|].
  intros t Ht. assert (Hy : y_tilde (Z.of_nat m) u up (RtoC t) <> RtoC 0) by (apply tilde_nonzero; [lia|exact Hup|intros q Hq; apply Hoff; assumption]).
  split; [|split].
  - replace (n - 1)%nat with (length u) by lia. destruct (root_along u up rest t Hup H1 H2 Hoff Ht m Hm ltac:(lia)) as (k' & Hk' & E). rewrite E.
    destruct Hk as [[S1 ->]|[S1 ->]], Hk' as [[S2 ->]|[S2 ->]]; try contradiction; reflexivity.
  - apply Cmult_neq_0'; [|exact Hy]. intros E. pose proof (root_pow_one m (- k) Hm) as W. rewrite E in W. destruct m as [|m']; [lia|]. rewrite cpow_zero in W. injection W. lra.
  - rewrite cpow_mul, root_pow_one, y_tilde_pow by (lia || assumption). unfold poly_at. rewrite <- (cprod_perm _ _ _ (remove_split x a Ha)). cbn [cprod]. fold xa.
    rewrite <- (cprod_perm _ _ _ P), cprod_map.
    rewrite (cprod_ext (fun r : C => (edge_point xa p (RtoC t) - r)%C) (fun z => h * (RtoC t - g z))%C (remove_at x a)) by (intros z _; apply Esc).
    rewrite (cprod_scal h (fun z => RtoC t - g z)%C).
    assert (E1 : (edge_point xa p (RtoC t) - xa)%C = (h * RtoC (1 + t))%C) by (unfold edge_point, h; rewrite RtoC_plus, two; field; intros H0; injection H0; lra).
    rewrite E1. set (Q := cprod (fun z => (RtoC t - g z)%C) (remove_at x a)).
    replace (cpow h n) with (h * cpow h (length (remove_at x a)))%C by (rewrite <- cpow_S; f_equal; lia).
    transitivity ((sg up * sg up) * (h * RtoC (1 + t) * (cpow h (length (remove_at x a)) * Q)))%C; [rewrite sg_sq; ring|ring].
Qed.

(** ** sheet *)
Context (lc : C).
Hypothesis Hlc : lc <> RtoC 0.

Definition base_const (up : nat) : C := (cexp (RtoC (INR n / INR m) * clog h + RtoC (1 / INR m) * clog lc) * cis (PI * INR up / INR m))%C.


Lemma base_pow up : cpow (base_const up) m = (cpow h n * lc * sg up)%C.
Proof using All.
  assert (Hm0 : INR m <> 0) by (apply not_0_INR; lia).
  unfold base_const. rewrite cpow_mul, cexp_cpow, cis_cpow.
  replace (RtoC (INR m) * (RtoC (INR n / INR m) * clog h + RtoC (1 / INR m) * clog lc))%C with (RtoC (INR n) * clog h + clog lc)%C.
  2:{ rewrite !RtoC_div by exact Hm0. field. intros E. apply RtoC_inj in E. contradiction. }
  rewrite cexp_plus, <- cexp_cpow, !cexp_clog_id by (assumption || apply to_half). f_equal.
  replace (INR m * (PI * INR up / INR m)) with (INR up * PI) by (field; exact Hm0). rewrite <- cis_cpow, cis_PI. reflexivity.
Qed.
Lemma base_neq up : base_const up <> RtoC 0.
Proof using. unfold base_const. apply Cmult_neq_0'; [apply cexp_neq|apply cis_neq]. Qed.


Lemma end_value_ok e (f1 : C) : ac_mth_root 1 e (zetas m) m (n - 1) = Done f1 ->
  end_value e (zetas m) m n h lc = Done (RtoC (Rpower 2 (INR n / INR m)) * (base_const (e_up e) * f1))%C.
Proof using All.
  intros E1. unfold end_value. rewrite zeta_ok by lia. cbn [bind]. rewrite E1. cbn [bind]. f_equal.
  rewrite (clog_half (RtoC 2 * h)%C) by (apply Cmult_neq_0'; [apply two_neq|apply to_half]).
  replace (RtoC 2 * h / RtoC 2)%C with h by (field; apply two_neq).
  replace (RtoC (INR n / INR m) * (RtoC (ln 2) + clog h) + RtoC (1 / INR m) * clog lc)%C with
    (RtoC (INR n / INR m * ln 2) + (RtoC (INR n / INR m) * clog h + RtoC (1 / INR m) * clog lc))%C by (rewrite RtoC_mult; ring).
  rewrite cexp_plus, cexp_real. unfold base_const, Rpower. rewrite <- INR_IZR_INZ. ring.
Qed.


(** the shift found for a point known up to a factor of small argument *)
Lemma shift_ok py py' r th Q c : py <> RtoC 0 -> Q <> RtoC 0 -> cpow py m = cpow Q m -> 0 < c ->
  py' = (py * (RtoC r * cis th))%C -> 0 < r -> Rabs th < PI / INR m ->
  py = (root (Z.of_nat m) (end_shift m py' (RtoC c * Q)%C) * Q)%C.
Proof using Ha Hm Hn.
  intros Hpy HQ E Hc E' Hr Hth. assert (Hm0 : 0 < INR m) by (apply lt_0_INR; lia). pose proof PI_RGT_0 as Hpi.
  destruct (ProofCross3.equal_powers m Q py ltac:(lia) HQ Hpy (eq_sym E)) as (k0 & Ek).
  assert (Hpy' : py' <> RtoC 0).
  { rewrite E'. apply Cmult_neq_0'; [exact Hpy|]. apply Cmult_neq_0'; [apply ProofTrap.RtoC_neq; lra|apply cis_neq]. }
  assert (Pp : 0 < Cmod py') by (apply Cmod_gt_0, Hpy'). assert (Pq : 0 < Cmod Q) by (apply Cmod_gt_0, HQ).
  assert (Ez : (RtoC (Cmod py') * cis (carg py'))%C = (RtoC (Cmod Q * r) * cis (carg Q + 2 * PI * IZR k0 / INR m + th))%C).
  { rewrite <- carg_polar, E', Ek. rewrite (carg_polar Q) at 1. unfold root. rewrite <- INR_IZR_INZ, !CBase.cis_add, RtoC_mult. ring. }
  assert (Em : Cmod py' = Cmod Q * r).
  { apply (f_equal Cmod) in Ez. rewrite !Cmod_mult, !cis_mod, !Cmod_R, !Rabs_pos_eq in Ez by nra. lra. }
  rewrite Em in Ez. assert (Hqr : RtoC (Cmod Q * r) <> RtoC 0) by (apply ProofTrap.RtoC_neq; nra).
  apply (f_equal (fun z => / RtoC (Cmod Q * r) * z)%C) in Ez. rewrite !Cmult_assoc, !Cinv_l, !Cmult_1_l in Ez by exact Hqr.
  apply cis_eq in Ez. destruct Ez as (l & Ez).
  assert (Es : end_shift m py' (RtoC c * Q)%C = (k0 + l * Z.of_nat m)%Z).
  { unfold end_shift. rewrite carg_scale by assumption.
    replace (INR m / (2 * PI) * (carg py' - carg Q)) with (IZR (k0 + l * Z.of_nat m) + INR m * th / (2 * PI)).
    2:{ rewrite plus_IZR, mult_IZR, <- INR_IZR_INZ. replace (carg py' - carg Q) with (2 * PI * IZR k0 / INR m + th + 2 * PI * IZR l) by lra. field. lra. }
    apply round_close. apply Rabs_def2 in Hth. destruct Hth as [T1 T2].
    assert (B : - PI < INR m * th < PI).
    { split; apply (Rmult_lt_reg_r (/ INR m)); try (apply Rinv_0_lt_compat; exact Hm0); (replace (INR m * th * / INR m) with th by (field; lra)); unfold Rdiv in *; lra. }
    apply Rabs_def1; apply (Rmult_lt_reg_r (2 * PI)); try lra; (replace (INR m * th / (2 * PI) * (2 * PI)) with (INR m * th) by (field; lra)); lra. }
  rewrite Es, root_add. replace (l * Z.of_nat m)%Z with (Z.of_nat m * l)%Z by ring. rewrite root_mult by lia. rewrite Cmult_1_r. exact Ek.
Qed.

Definition ysheet (up : nat) (s : Z) (f : R -> C) (t : R) : C :=
  (base_const up * root (Z.of_nat m) s * f t * RtoC (rroot (Z.of_nat m) (1 + t)))%C.

Lemma sheet_to e (f : R -> C) py py' r th :
  (forall t, continuous (fun t => fst (f t)) t /\ continuous (fun t => snd (f t)) t) ->
  (forall t, -1 <= t <= 1 -> ac_mth_root t e (zetas m) m (n - 1) = Done (f t) /\ f t <> RtoC 0 /\
    poly_at x (edge_point xa p (RtoC t)) = (cpow h n * sg (e_up e) * RtoC (1 + t) * cpow (f t) m)%C) ->
  cpow py m = (lc * poly_at x p)%C -> py' = (py * (RtoC r * cis th))%C -> 0 < r -> Rabs th < PI / INR m ->
  exists pv, end_value e (zetas m) m n h lc = Done pv /\ path_to x m lc xa p py (ysheet (e_up e) (end_shift m py' pv) f).
Proof using All.
  intros Cf Hf Hpy E' Hr Hth. destruct (Hf 1 ltac:(lra)) as (A1 & F1 & P1).
  rewrite (end_value_ok e (f 1) A1). eexists. split; [reflexivity|].
  set (K := base_const (e_up e)). assert (HK : K <> RtoC 0) by apply base_neq.
  assert (R2 : 0 < rroot (Z.of_nat m) 2) by (apply ProofTrap.rroot_gt; lra).
  assert (Ep : edge_point xa p (RtoC 1) = p) by (unfold edge_point; rewrite two; field; intros H0; injection H0; lra).
  set (Q := (K * f 1 * RtoC (rroot (Z.of_nat m) 2))%C).
  assert (HQ : Q <> RtoC 0) by (unfold Q; apply Cmult_neq_0'; [apply Cmult_neq_0'; assumption|apply ProofTrap.RtoC_neq; lra]).
  assert (Equation : forall t s, -1 <= t <= 1 -> cpow (ysheet (e_up e) s f t) m = (lc * poly_at x (edge_point xa p (RtoC t)))%C).
  { intros t s Ht. destruct (Hf t Ht) as (_ & _ & Pt). rewrite Pt. unfold ysheet. rewrite !cpow_mul, base_pow, root_pow_one by exact Hm.
    rewrite cpow_RtoC, rroot_pow by (lia || lra). ring. }
  set (c := Rpower 2 (INR n / INR m) / rroot (Z.of_nat m) 2).
  assert (Hc : 0 < c) by (unfold c; apply Rdiv_lt_0_compat; [apply exp_pos|exact R2]).
  assert (EQ : (RtoC (Rpower 2 (INR n / INR m)) * (K * f 1))%C = (RtoC c * Q)%C).
  { unfold c, Q. rewrite RtoC_div by lra. field. apply ProofTrap.RtoC_neq. lra. }
  rewrite EQ.
  assert (Eq1 : cpow py m = cpow Q m).
  { rewrite Hpy. pose proof (Equation 1 0%Z ltac:(lra)) as W. rewrite Ep in W. rewrite <- W. f_equal. unfold ysheet. rewrite root_0. fold K. replace (1 + 1) with 2 by ring. unfold Q. ring. }
  assert (Hpy0 : py <> RtoC 0).
  { intros Z. rewrite Z in Eq1. destruct m as [|m'] eqn:Em; [lia|]. rewrite cpow_zero in Eq1. symmetry in Eq1. revert Eq1. apply cpow_neq_0, HQ. }
  pose proof (shift_ok py py' r th Q c Hpy0 HQ Eq1 Hc E' Hr Hth) as Es.
  split; [|split].
  - intros t _. unfold ysheet. apply (ccont_mult (fun t => base_const (e_up e) * root (Z.of_nat m) _ * f t)%C (fun t => RtoC (rroot (Z.of_nat m) (1 + t)))).
    + apply (ccont_mult (fun _ => base_const (e_up e) * root (Z.of_nat m) _)%C f); [apply ccont_const|apply Cf].
    + apply (ccont_R (fun t => rroot (Z.of_nat m) (1 + t))). apply (ProofHol11.cont_comp (rroot (Z.of_nat m)) (fun t => 1 + t)%R); [|apply ProofHol11.rroot_cont; lia].
      apply continuity_pt_filterlim. apply derivable_continuous_pt. reg.
  - intros t Ht. apply Equation, Ht.
  - rewrite Es. unfold ysheet. fold K. replace (1 + 1) with 2 by ring. unfold Q. ring.
Qed.
End Data.

(** the nearest branch point leaves the segment clear *)
Lemma nearest_clear x a p : (a < length x)%nat -> NoDup x -> (forall k, (k < length x)%nat -> Cmod (p - vget x a)%C <= Cmod (p - vget x k)%C) -> clear_to x a p.
Proof.
  intros Ha Hd Hn k t Hk Hka Ht E. specialize (Hn k Hk).
  assert (Ed : (p - vget x k)%C = (RtoC ((1 - t) / 2) * (p - vget x a))%C).
  { rewrite E. unfold edge_point. rewrite RtoC_div, RtoC_minus by lra. rewrite two. field. intros H0. injection H0. lra. }
  rewrite Ed, Cmod_mult, Cmod_R, Rabs_pos_eq in Hn by lra. pose proof (Cmod_ge_0 (p - vget x a)%C) as Hp.
  assert (Z : t = -1 \/ Cmod (p - vget x a)%C = 0) by (destruct (Req_dec t (-1)); [left; assumption|right; nra]).
  assert (EE : vget x k = vget x a).
  { destruct Z as [->|Z].
    - rewrite E. unfold edge_point. replace (-1) with (Ropp 1) by ring. rewrite RtoC_opp, two. field. intros H0. injection H0. lra.
    - apply Cmod_eq_0 in Z. rewrite Z, Cmult_0_r in Ed. replace (vget x k) with (p - (p - vget x k))%C by ring. rewrite Ed. replace (vget x a) with (p - (p - vget x a))%C by ring. rewrite Z. ring. }
  unfold vget in EE. apply Hka. exact (proj1 (NoDup_nth x (RtoC 0)) Hd k a Hk Ha EE).
Qed.
