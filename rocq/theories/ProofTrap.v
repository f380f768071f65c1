(** Double exponential sums. *)
From Coquelicot Require Import Coquelicot.
From Verif Require Import CArg ModelTree ModelCurve SpecCurve ProofCurve ModelPeriod SpecPeriod ProofPeriod ProofPeriodMain
  ModelVec SpecVec ProofEdge ProofVec ModelQuad SpecQuad ProofQuad.
Local Open Scope nat_scope.

(** ** blocks *)
Definition adds (sgn : C -> C) (add : vec -> nat -> nat -> C -> C -> outcome (vec * C)) : Prop :=
  forall v off len c0 c, 1 <= len -> off + len <= length v ->
    exists v' c1, add v off len c0 c = Done (v', c1) /\ replaced v v' off len (fun k => vget v (off + k)%nat + c0 * cpow (sgn c) k)%C.
Lemma adds_add : adds (fun c => c) add_geom.
Proof. intros v off len c0 c H1 H2. destruct (geom_spec (fun a c0 _ => (a + c0)%C) v off len c0 c H1 H2) as (v' & E & Hr). eauto. Qed.
Lemma adds_sub : adds (fun c => (- c)%C) sub_geom.
Proof. intros v off len c0 c H1 H2. destruct (sub_geom_spec v off len c0 c H1 H2) as (v' & E & Hr). eauto. Qed.

Lemma de_blocks_spec sgn add y x : adds sgn add -> forall ni first off wy res,
  (forall n, In n ni -> (1 <= n)%Z) -> off + total ni <= length res ->
  exists res', de_blocks add ni first off wy y x res = Done res' /\ length res' = length res /\
    (forall k, k < off \/ off + total ni <= k -> vget res' k = vget res k) /\
    forall q i, q < length ni -> (Z.of_nat i < nth q ni 0)%Z ->
      vget res' (off + (offset ni q + i)) =
      (vget res (off + (offset ni q + i)) + wy * cpow y (if first then q else S q) * cpow (sgn x) i)%C.
Proof.
  intros Hadd. induction ni as [|n ni IH]; intros first off wy res Hn Hlen; cbn [de_blocks total].
  - exists res. conj; try reflexivity. intros q i Hq. cbn in Hq. lia.
  - pose proof (Hn n (or_introl eq_refl)) as Hn0. cbn [total] in Hlen.
    set (w := if first then wy else (wy * y)%C).
    destruct (Hadd res off (Z.to_nat n) w x ltac:(lia) ltac:(lia)) as (r1 & c1 & E1 & HL1 & Hin1 & Hout1).
    rewrite E1. cbn [bind fst].
    destruct (IH false (off + Z.to_nat n) w r1) as (r2 & E2 & HL2 & Hout2 & Hin2).
    { intros k Hk. apply Hn. right. exact Hk. } { lia. }
    exists r2. conj; [exact E2|congruence| |].
    + intros k Hk. rewrite Hout2 by lia. apply Hout1. lia.
    + intros [|q] i Hq Hi; cbn [nth length offset] in *.
      * rewrite Hout2 by lia. rewrite Nat.add_0_l, Hin1 by lia. unfold w. destruct first; rewrite ?cpow_1; cbn [cpow]; ring.
      * specialize (Hin2 q i ltac:(lia) Hi).
        replace (off + (Z.to_nat n + offset ni q + i)) with (off + Z.to_nat n + (offset ni q + i)) by lia.
        rewrite Hin2, Hout1 by lia. unfold w. destruct first; [ring|]. rewrite (cpow_S y (S q)). ring.
Qed.

(** ** nodes *)
Definition contrib (y : R -> C) (j i : nat) (nd : de_node) (x : R) : C :=
  (cpow (RtoC (de_ch2m nd) / y x) j * RtoC (de_dx nd) * cpow (RtoC x) i)%C.

Lemma de_start_spec (y : R -> C) c nd x : (1 <= sec_j1 c)%Z ->
  de_start (y x) c nd = ((RtoC (de_ch2m nd) / y x)%C, (cpow (RtoC (de_ch2m nd) / y x) (Z.to_nat (sec_j1 c)) * RtoC (de_dx nd))%C).
Proof.
  intros Hj. unfold de_start. f_equal. destruct (Z.ltb_spec 1 (sec_j1 c)) as [H|H]; [reflexivity|].
  replace (sec_j1 c) with 1%Z by lia. change (Z.to_nat 1) with 1. rewrite cpow_1. reflexivity.
Qed.

Definition node_terms (y : R -> C) (j i l : nat) (nd : de_node) : C :=
  (contrib y j i nd (de_x nd) + (if l =? 0 then RtoC 0 else contrib y j i nd (- de_x nd)%R))%C.

Lemma de_nodes_spec y c : (1 <= sec_j1 c)%Z -> (forall n, In n (sec_ni c) -> (1 <= n)%Z) -> forall nds l res,
  total (sec_ni c) <= length res ->
  exists res', de_nodes y c l nds res = Done res' /\ length res' = length res /\
    forall q i, q < length (sec_ni c) -> (Z.of_nat i < nth q (sec_ni c) 0)%Z ->
      vget res' (offset (sec_ni c) q + i) =
      (vget res (offset (sec_ni c) q + i) +
       csum (length nds) (fun k => node_terms y (Z.to_nat (sec_j1 c) + q) i (l + k) (nth k nds {| de_x := 0; de_dx := 0; de_ch2m := 0 |})))%C.
Proof.
  intros Hj Hn. induction nds as [|nd nds IH]; intros l res Hlen; cbn [de_nodes].
  - exists res. conj; try reflexivity. intros q i _ _. cbn [length csum]. ring.
  - rewrite de_start_spec by exact Hj.
    destruct (de_blocks_spec _ _ (RtoC (de_ch2m nd) / y (de_x nd))%C (RtoC (de_x nd)) adds_add (sec_ni c) true 0
      (cpow (RtoC (de_ch2m nd) / y (de_x nd)) (Z.to_nat (sec_j1 c)) * RtoC (de_dx nd))%C res Hn ltac:(lia))
      as (r1 & E1 & HL1 & _ & Hin1).
    rewrite E1. cbn [bind].
    assert (H2 : exists r2, (if l =? 0 then Done r1 else let '(y2, wy) := de_start (y (- de_x nd)%R) c nd in
        de_blocks sub_geom (sec_ni c) true 0 wy y2 (RtoC (de_x nd)) r1) = Done r2 /\ length r2 = length r1 /\
      forall q i, q < length (sec_ni c) -> (Z.of_nat i < nth q (sec_ni c) 0)%Z ->
        vget r2 (offset (sec_ni c) q + i) = (vget r1 (offset (sec_ni c) q + i) +
          (if l =? 0 then RtoC 0 else contrib y (Z.to_nat (sec_j1 c) + q) i nd (- de_x nd)%R))%C).
    { destruct (Nat.eqb_spec l 0) as [E|E].
      - exists r1. conj; try reflexivity. intros q i _ _. ring.
      - rewrite de_start_spec by exact Hj.
        destruct (de_blocks_spec _ _ (RtoC (de_ch2m nd) / y (- de_x nd)%R)%C (RtoC (de_x nd)) adds_sub (sec_ni c) true 0
          (cpow (RtoC (de_ch2m nd) / y (- de_x nd)%R) (Z.to_nat (sec_j1 c)) * RtoC (de_dx nd))%C r1 Hn ltac:(lia))
          as (r2 & E2 & HL2 & _ & Hin2).
        exists r2. conj; [exact E2|exact HL2|]. intros q i Hq Hi. specialize (Hin2 q i Hq Hi). cbn [Nat.add] in Hin2. rewrite Hin2.
        unfold contrib. rewrite cpow_add, <- RtoC_opp. ring. }
    destruct H2 as (r2 & E2 & HL2 & Hin2). rewrite E2. cbn [bind].
    destruct (IH (S l) r2) as (r3 & E3 & HL3 & Hin3); [lia|].
    exists r3. conj; [exact E3|congruence|]. intros q i Hq Hi. specialize (Hin1 q i Hq Hi). cbn [Nat.add] in Hin1.
    rewrite Hin3, Hin2, Hin1 by assumption. cbn [length]. rewrite csum_S_l. cbn [nth].
    rewrite (csum_ext (length nds) (fun k => node_terms y (Z.to_nat (sec_j1 c) + q) i (l + S k) (nth k nds {| de_x := 0; de_dx := 0; de_ch2m := 0 |}))
      (fun k => node_terms y (Z.to_nat (sec_j1 c) + q) i (S l + k) (nth k nds {| de_x := 0; de_dx := 0; de_ch2m := 0 |})))
      by (intros k _; replace (l + S k) with (S l + k) by lia; reflexivity).
    unfold node_terms at 2. rewrite Nat.add_0_r. unfold contrib at 2. rewrite cpow_add. ring.
Qed.

(** ** hyperbolic functions *)
Local Open Scope R_scope.
Lemma cosh_pos x : 0 < cosh x.
Proof. unfold cosh. pose proof (exp_pos x). pose proof (exp_pos (- x)). lra. Qed.
Lemma cosh_sinh_sq x : cosh x * cosh x - sinh x * sinh x = 1.
Proof. unfold cosh, sinh. rewrite exp_Ropp. field. apply Rgt_not_eq, exp_pos. Qed.
Lemma cosh_opp x : cosh (- x) = cosh x.
Proof. unfold cosh. rewrite Ropp_involutive. lra. Qed.
Lemma sinh_opp x : sinh (- x) = - sinh x.
Proof. unfold sinh. rewrite Ropp_involutive. lra. Qed.
Lemma cosh_zero : cosh 0 = 1.
Proof. unfold cosh. rewrite Ropp_0, exp_0. lra. Qed.
Lemma sinh_zero : sinh 0 = 0.
Proof. unfold sinh. rewrite Ropp_0, exp_0. lra. Qed.
Lemma sinh_deriv x : is_derive sinh x (cosh x).
Proof. unfold sinh, cosh. auto_derive; [exact I|]. lra. Qed.
Lemma cosh_deriv x : is_derive cosh x (sinh x).
Proof. unfold sinh, cosh. auto_derive; [exact I|]. lra. Qed.

Lemma de_map_deriv l u : is_derive (de_map l) u (l * cosh u / (cosh (l * sinh u) * cosh (l * sinh u))).
Proof.
  unfold de_map.
  assert (Hs : is_derive (fun v => l * sinh v) u (l * cosh u)) by (apply (is_derive_scal sinh u l); apply sinh_deriv).
  assert (H1 : is_derive (fun v => sinh (l * sinh v)) u (l * cosh u * cosh (l * sinh u))).
  { apply (is_derive_comp sinh (fun v => l * sinh v)); [apply sinh_deriv|exact Hs]. }
  assert (H2 : is_derive (fun v => cosh (l * sinh v)) u (l * cosh u * sinh (l * sinh u))).
  { apply (is_derive_comp cosh (fun v => l * sinh v)); [apply cosh_deriv|exact Hs]. }
  pose proof (cosh_pos (l * sinh u)) as Hc.
  evar_last; [apply (is_derive_div _ _ u _ _ H1 H2); lra|].
  cbn beta. pose proof (cosh_sinh_sq (l * sinh u)) as Hq. set (a := cosh (l * sinh u)) in *. set (b := sinh (l * sinh u)) in *.
  unfold Rdiv. replace (a ^ 2) with (a * a) by ring. f_equal.
  transitivity (l * cosh u * (a * a - b * b)); [ring|]. rewrite Hq. ring.
Qed.
Lemma de_map_odd l u : de_map l (- u) = - de_map l u.
Proof. unfold de_map. rewrite sinh_opp, Ropp_mult_distr_r_reverse, sinh_opp, cosh_opp. unfold Rdiv. ring. Qed.
Lemma de_map_sq l u : 1 - de_map l u * de_map l u = / (cosh (l * sinh u) * cosh (l * sinh u)).
Proof.
  unfold de_map. pose proof (cosh_pos (l * sinh u)) as Hc. pose proof (cosh_sinh_sq (l * sinh u)) as Hq.
  set (a := cosh (l * sinh u)) in *. set (b := sinh (l * sinh u)) in *.
  transitivity ((a * a - b * b) / (a * a)); [field; lra|]. rewrite Hq. unfold Rdiv. ring.
Qed.
Lemma de_map_range l u : -1 < de_map l u < 1.
Proof.
  pose proof (de_map_sq l u) as H. pose proof (cosh_pos (l * sinh u)) as Hc.
  assert (0 < / (cosh (l * sinh u) * cosh (l * sinh u))) by (apply Rinv_0_lt_compat, Rmult_lt_0_compat; exact Hc).
  nra.
Qed.

Lemma rroot_inv m r : 0 < r -> rroot m (/ r) = / rroot m r.
Proof.
  intros Hr. unfold rroot. pose proof (Rinv_0_lt_compat r Hr). destruct (Rlt_dec 0 (/ r)), (Rlt_dec 0 r); try lra.
  unfold Rpower. rewrite ln_Rinv by exact Hr. rewrite Ropp_mult_distr_r_reverse, exp_Ropp. reflexivity.
Qed.
Lemma rroot_1 m : rroot m 1 = 1.
Proof. unfold rroot. destruct (Rlt_dec 0 1); [|lra]. unfold Rpower. rewrite ln_1, Rmult_0_r, exp_0. reflexivity. Qed.
Lemma rroot_gt m r : 0 < r -> 0 < rroot m r.
Proof. intros H. unfold rroot. destruct (Rlt_dec 0 r); [|lra]. unfold Rpower. apply exp_pos. Qed.

(** ** terms of the rule *)
Definition rule_term (l h : R) (f : R -> C) (k : Z) : C :=
  (f (de_map l (IZR k * h)) * RtoC (Derive (de_map l) (IZR k * h)))%C.

Lemma RtoC_neq r : r <> 0 -> RtoC r <> RtoC 0.
Proof. intros H E. injection E. exact H. Qed.

Lemma integrand_at l u m y j i (r := rroot m (cosh (l * sinh u) * cosh (l * sinh u))) (x := de_map l u) : y x <> RtoC 0 ->
  integrand m y j i x = (cpow (RtoC r / y x) j * cpow (RtoC x) i)%C.
Proof.
  intros Hy. unfold integrand. assert (Esq : 1 - x * x = / (cosh (l * sinh u) * cosh (l * sinh u))) by (apply de_map_sq). rewrite Esq.
  assert (Hp : 0 < cosh (l * sinh u) * cosh (l * sinh u)) by (apply Rmult_lt_0_compat; apply cosh_pos).
  rewrite rroot_inv by exact Hp. fold r.
  assert (Hr : 0 < r) by (apply rroot_gt, Hp).
  assert (Hr0 : RtoC r <> RtoC 0) by (apply RtoC_neq; lra).
  rewrite RtoC_inv by lra. unfold Cdiv. rewrite Cmult_comm. f_equal.
  assert (E : (RtoC r * / y x * (/ RtoC r * y x))%C = RtoC 1) by (field; split; assumption).
  assert (En : cpow (/ RtoC r * y x)%C j <> RtoC 0).
  { apply cpow_neq_0. intros E0. rewrite E0, Cmult_0_r in E. injection E. lra. }
  assert (Ep : (cpow (RtoC r * / y x) j * cpow (/ RtoC r * y x) j)%C = RtoC 1) by (rewrite <- cpow_mul, E, cpow_one; reflexivity).
  transitivity ((cpow (RtoC r * / y x) j * cpow (/ RtoC r * y x) j) * / cpow (/ RtoC r * y x) j)%C; [rewrite Ep; ring|].
  field. exact En.
Qed.

Lemma node_match l h m y j i k (nd := de_int_node h l m k) : (forall t, -1 < t < 1 -> y t <> RtoC 0) ->
  (RtoC l * contrib y j i nd (de_x nd))%C = rule_term l h (integrand m y j i) (Z.of_nat k) /\
  (RtoC l * contrib y j i nd (- de_x nd))%C = rule_term l h (integrand m y j i) (- Z.of_nat k).
Proof.
  intros Hy. unfold rule_term, contrib.
  assert (Hnd : de_x nd = de_map l (INR k * h) /\ de_ch2m nd = rroot m (cosh (l * sinh (INR k * h)) * cosh (l * sinh (INR k * h))) /\
     l * de_dx nd = Derive (de_map l) (INR k * h)).
  { rewrite (is_derive_unique _ _ _ (de_map_deriv l (INR k * h))). unfold nd, de_int_node, de_map.
    destruct (Nat.eqb_spec k 0) as [->|Hk]; cbn [de_x de_ch2m de_dx].
    - cbn [INR]. rewrite ?Rmult_0_l, ?sinh_zero, ?Rmult_0_r, ?sinh_zero, ?cosh_zero, ?Rmult_1_r, ?rroot_1. repeat split; field.
    - rewrite (Rmult_comm h), (Rmult_comm (sinh _) l). repeat split. unfold Rdiv. ring. }
  destruct Hnd as (Ex & Ec & Ed). rewrite opp_IZR, <- INR_IZR_INZ, Ropp_mult_distr_l_reverse.
  pose proof (de_map_range l (INR k * h)) as Hr.
  assert (Ed2 : Derive (de_map l) (- (INR k * h)) = Derive (de_map l) (INR k * h)).
  { rewrite !(is_derive_unique _ _ _ (de_map_deriv l _)). rewrite sinh_opp, Ropp_mult_distr_r_reverse, !cosh_opp. reflexivity. }
  split.
  - rewrite integrand_at by (apply Hy, Hr). rewrite <- Ex, <- Ec, <- Ed, RtoC_mult. ring.
  - rewrite integrand_at by (apply Hy; rewrite de_map_odd; lra). rewrite Ed2, sinh_opp, Ropp_mult_distr_r_reverse, cosh_opp, de_map_odd.
    rewrite <- Ex, <- Ec, <- Ed, RtoC_mult. ring.
Qed.

Lemma rule_split N (T : Z -> C) :
  csum (2 * N + 1) (fun q => T (Z.of_nat q - Z.of_nat N)%Z) =
  csum (S N) (fun k => T (Z.of_nat k) + (if (k =? 0)%nat then RtoC 0 else T (- Z.of_nat k)%Z))%C.
Proof.
  replace (2 * N + 1)%nat with (N + S N)%nat by lia. rewrite csum_app.
  rewrite csum_add. rewrite (csum_ext (S N) (fun k => T (Z.of_nat (N + k) - Z.of_nat N)%Z) (fun k => T (Z.of_nat k))) by (intros k _; f_equal; lia).
  rewrite (csum_S_l N (fun k => if (k =? 0)%nat then RtoC 0 else T (- Z.of_nat k)%Z)). cbn [Nat.eqb].
  rewrite <- (csum_rev N (fun q => T (Z.of_nat q - Z.of_nat N)%Z)).
  rewrite (csum_ext N (fun k => T (Z.of_nat (N - 1 - k) - Z.of_nat N)%Z) (fun k => T (- Z.of_nat (S k))%Z)) by (intros k Hk; f_equal; lia).
  ring.
Qed.

Lemma sec_init_j1 m n c : sec_init m n = Done c -> (1 <= n)%Z -> (1 <= sec_j1 c)%Z.
Proof.
  intros Hc Hn. destruct (sec_init_inv m n c Hc Hn) as (Hm & Hn2 & Hs).
  destruct (sec_init_done m n Hm Hn2 Hs) as (c' & Hc'' & _ & _ & _ & _ & Ej & _ & _).
  rewrite Hc in Hc''. injection Hc'' as <-. rewrite Ej.
  assert (0 <= (m + Z.gcd m n - 1) / n)%Z; [|lia]. apply Z.div_pos; [|lia]. pose proof (Z.gcd_nonneg m n). lia.
Qed.

Lemma de_sums m n c h l N y : sec_init m n = Done c -> (1 <= n)%Z -> (1 <= N)%nat ->
  (forall t, -1 < t < 1 -> y t <> RtoC 0) ->
  exists res, de_integrals_precomp y c (de_int_init h l N m) = Done res /\ Z.of_nat (length res) = sec_g c /\
    forall q i, (q < length (sec_ni c))%nat -> (Z.of_nat i < nth q (sec_ni c) 0)%Z ->
      vget res (offset (sec_ni c) q + i) = de_rule l h (N - 1) (integrand m y (Z.to_nat (sec_j1 c + Z.of_nat q)) i).
Proof.
  intros Hc Hn HN Hy. destruct (sec_init_curve_ok m n c Hc Hn) as (Hok & Em & Hg).
  destruct Hok as (Hm2 & _ & Hni & Hsum). destruct (differentials_exact_final m n c Hc Hn) as (_ & Hni1 & _).
  assert (Hj1 : (1 <= sec_j1 c)%Z) by (apply (sec_init_j1 m n c Hc Hn)).
  assert (Hn1 : forall k, In k (sec_ni c) -> (1 <= k)%Z) by (intros k Hk; apply Hni1 in Hk; lia).
  assert (Ht : Z.of_nat (total (sec_ni c)) = sec_g c) by (rewrite total_sum by exact Hni; exact Hsum).
  unfold de_integrals_precomp, de_int_init. cbn [fst snd].
  destruct (de_nodes_spec y c Hj1 Hn1 (map (de_int_node h l m) (seq 0 N)) 0 (vtab (Z.to_nat (sec_g c)) (fun _ => RtoC 0))) as (r1 & E1 & HL1 & Hin1).
  { rewrite vtab_length. lia. }
  rewrite vtab_length in HL1. unfold vec in *. rewrite E1. cbn [bind].
  destruct (scalar_mul_spec r1 0 (Z.to_nat (sec_g c)) (RtoC (l * h))) as (r2 & E2 & HL2 & Hin2 & _); [lia|].
  exists r2. conj; [exact E2|lia|]. intros q i Hq Hi.
  pose proof (offset_total _ q i Hq Hi) as Hlt. cbn [Nat.add] in Hin2. rewrite Hin2 by lia. rewrite Hin1 by assumption.
  rewrite vget_tab by lia. rewrite map_length, seq_length.
  unfold de_rule. set (f := integrand m y (Z.to_nat (sec_j1 c + Z.of_nat q)) i).
  rewrite (csum_ext (2 * (N - 1) + 1) _ (fun q0 => rule_term l h f (Z.of_nat q0 - Z.of_nat (N - 1))%Z)) by reflexivity.
  rewrite (rule_split (N - 1) (rule_term l h f)). unfold f. clear f. replace (S (N - 1)) with N by lia.
  rewrite RtoC_mult, Cplus_0_l, (Cmult_comm _ (RtoC l * RtoC h)%C), (Cmult_comm (RtoC l) (RtoC h)), <- Cmult_assoc. f_equal.
  rewrite <- csum_scal. apply csum_ext. intros k Hk.
  rewrite (nth_indep _ _ (de_int_node h l m 0)) by (rewrite map_length, seq_length; exact Hk).
  rewrite map_nth, seq_nth by exact Hk. cbn [Nat.add]. unfold node_terms.
  replace (Z.to_nat (sec_j1 c) + q)%nat with (Z.to_nat (sec_j1 c + Z.of_nat q)) by lia.
  destruct (node_match l h m y (Z.to_nat (sec_j1 c + Z.of_nat q)) i k Hy) as [H1 H2].
  destruct (Nat.eqb_spec k 0); rewrite Cmult_plus_distr_l, H1, ?H2; [ring|reflexivity].
Qed.

(** ** the last node is missing *)
Lemma term_positive l h m j k : 0 < l -> exists v, 0 < v /\ rule_term l h (integrand m (fun _ => RtoC 1) j 0) k = RtoC v.
Proof.
  intros Hl. unfold rule_term. set (u := IZR k * h).
  rewrite (integrand_at l u m (fun _ => RtoC 1) j 0) by (apply RtoC_neq; lra).
  rewrite (is_derive_unique _ _ _ (de_map_deriv l u)).
  assert (Hp : 0 < cosh (l * sinh u) * cosh (l * sinh u)) by (apply Rmult_lt_0_compat; apply cosh_pos).
  set (r := rroot m _). assert (Hr : 0 < r) by (apply rroot_gt, Hp).
  exists (r ^ j * (l * cosh u / (cosh (l * sinh u) * cosh (l * sinh u)))). split.
  - apply Rmult_lt_0_compat; [apply pow_lt, Hr|]. apply Rdiv_lt_0_compat; [|exact Hp]. apply Rmult_lt_0_compat; [exact Hl|apply cosh_pos].
  - assert (E : (RtoC r / RtoC 1)%C = RtoC r) by (field; apply RtoC_neq; lra).
    rewrite E, cpow_RtoC. cbn [cpow]. rewrite (RtoC_mult (r ^ j)). ring.
Qed.
Lemma rule_grows l h m j N : 0 < l -> 0 < h -> (1 <= N)%nat ->
  exists v, 0 < v /\ de_rule l h N (integrand m (fun _ => RtoC 1) j 0) = (de_rule l h (N - 1) (integrand m (fun _ => RtoC 1) j 0) + RtoC v)%C.
Proof.
  intros Hl Hh HN. set (f := integrand m (fun _ => RtoC 1) j 0).
  assert (E : forall M, de_rule l h M f = (RtoC h * csum (S M) (fun k => rule_term l h f (Z.of_nat k) + (if (k =? 0)%nat then RtoC 0 else rule_term l h f (- Z.of_nat k)%Z))%C)%C).
  { intros M. unfold de_rule. rewrite (csum_ext (2 * M + 1) _ (fun q0 => rule_term l h f (Z.of_nat q0 - Z.of_nat M)%Z)) by reflexivity.
    rewrite (rule_split M (rule_term l h f)). reflexivity. }
  rewrite !E. replace (S (N - 1)) with N by lia.
  destruct (term_positive l h m j (Z.of_nat N) Hl) as (v1 & H1 & E1). destruct (term_positive l h m j (- Z.of_nat N) Hl) as (v2 & H2 & E2).
  fold f in E1, E2. exists (h * (v1 + v2)). split; [apply Rmult_lt_0_compat; lra|].
  assert (ES : csum (S N) (fun k => rule_term l h f (Z.of_nat k) + (if (k =? 0)%nat then RtoC 0 else rule_term l h f (- Z.of_nat k)%Z))%C =
     (csum N (fun k => rule_term l h f (Z.of_nat k) + (if (k =? 0)%nat then RtoC 0 else rule_term l h f (- Z.of_nat k)%Z))%C +
      (RtoC v1 + RtoC v2))%C).
  { cbn [csum]. rewrite E1, E2. rewrite (proj2 (Nat.eqb_neq N 0)) by lia. reflexivity. }
  rewrite ES, RtoC_mult, RtoC_plus. ring.
Qed.

Lemma last_node_missing m n c h l N : sec_init m n = Done c -> (1 <= n)%Z -> (1 <= sec_g c)%Z -> (1 <= N)%nat -> 0 < l -> 0 < h ->
  exists res, de_integrals_precomp (fun _ => RtoC 1) c (de_int_init h l N m) = Done res /\
    vget res 0 <> de_rule l h N (integrand m (fun _ => RtoC 1) (Z.to_nat (sec_j1 c)) 0).
Proof.
  intros Hc Hn Hg HN Hl Hh. destruct (de_sums m n c h l N (fun _ => RtoC 1) Hc Hn HN) as (res & E & _ & Hin).
  { intros t _. apply RtoC_neq. lra. }
  exists res. split; [exact E|].
  destruct (sec_init_curve_ok m n c Hc Hn) as ((_ & _ & Hni & Hsum) & _ & _).
  destruct (differentials_exact_final m n c Hc Hn) as (_ & Hni1 & _).
  destruct (sec_ni c) as [|n0 ni] eqn:Eni; [cbn in Hsum; lia|].
  pose proof (Hni1 n0 (or_introl eq_refl)) as H0.
  specialize (Hin 0%nat 0%nat ltac:(cbn; lia) ltac:(cbn [nth]; lia)). cbn [offset Nat.add] in Hin. rewrite Hin.
  rewrite Z.add_0_r. destruct (rule_grows l h m (Z.to_nat (sec_j1 c)) N Hl Hh HN) as (v & Hv & Ev). rewrite Ev.
  intros Eq. apply (f_equal fst) in Eq. cbn in Eq. lra.
Qed.

(** ** the case of two branch points *)
Lemma two_points m c : sec_init m 2 = Done c -> sec_ni c = repeat 1%Z (Z.to_nat (sec_g c)) /\ sec_g c = (m - sec_j1 c)%Z /\ (2 <= m)%Z.
Proof.
  intros Hc. destruct (differentials_count_final m 2 c Hc ltac:(lia)) as [Hsum Hlen].
  destruct (differentials_exact_final m 2 c Hc ltac:(lia)) as (_ & Hb & _).
  destruct (sec_init_curve_ok m 2 c Hc ltac:(lia)) as ((Hm & _) & Em & _).
  assert (H1 : sec_ni c = repeat 1%Z (length (sec_ni c))).
  { apply Forall_eq_repeat, Forall_forall. intros x Hx. apply Hb in Hx. lia. }
  assert (H2 : sec_g c = Z.of_nat (length (sec_ni c))).
  { rewrite <- Hsum, H1, repeat_length. generalize (length (sec_ni c)). induction n as [|n IH]; [reflexivity|].
    cbn [repeat fold_right]. rewrite IH. lia. }
  split; [rewrite H2, Nat2Z.id; exact H1|]. split; [lia|]. lia.
Qed.
Lemma d2_values gamma m c : sec_init m 2 = Done c ->
  Z.of_nat (length (integral_d2_raw gamma c)) = sec_g c /\
  (forall q, (q < length (sec_ni c))%nat -> nth q (sec_ni c) 0%Z = 1%Z /\ offset (sec_ni c) q = q) /\
  forall q, (q < length (sec_ni c))%nat ->
    let s := 1 - IZR (sec_j1 c + Z.of_nat q) / IZR m in
    vget (integral_d2_raw gamma c) q = RtoC (sqrt PI * gamma s / gamma (s + / 2)).
Proof.
  intros Hc. destruct (two_points m c Hc) as (Hni & Hg & Hm2).
  destruct (sec_init_curve_ok m 2 c Hc ltac:(lia)) as ((Hm & _) & Em & Hg0).
  assert (HL : length (sec_ni c) = Z.to_nat (sec_g c)) by (rewrite Hni, repeat_length; reflexivity).
  split; [unfold integral_d2_raw; rewrite vtab_length; lia|]. split.
  - intros q Hq. rewrite HL in Hq. rewrite Hni. split.
    + rewrite (nth_indep _ 0%Z 1%Z) by (rewrite repeat_length; exact Hq). apply nth_repeat.
    + assert (G : forall k q, (q <= k)%nat -> offset (repeat 1%Z k) q = q).
      { clear. induction k as [|k IH]; intros [|q] Hq; cbn [offset repeat]; try lia. rewrite IH by lia. reflexivity. }
      apply G. lia.
  - intros q Hq s. unfold integral_d2_raw. rewrite vget_tab by lia.
    assert (E : IZR (sec_g c - Z.of_nat q) / IZR (sec_m c) = s).
    { unfold s. rewrite Em, Hg. rewrite !minus_IZR, plus_IZR. field. apply not_0_IZR. lia. }
    rewrite E. reflexivity.
Qed.
