(** The reduction for a curve: number of cycles, genus and radical. *)
From Verif Require Import Base ModelTree ModelInter SpecTree SpecInter ProofTree ProofTreeMax ProofTreeEx ProofInterMain ModelCurve SpecCurve ProofCurve CArg ModelEdge SpecEdge ProofEdge ProofAngle
  ModelSymp SpecSymp ProofSymp ProofSympRed ProofSympMain ProofSympRank ProofLat8
  ModelBasis SpecBasis ModelPeriod SpecPeriod ProofPeriod ProofPeriodMain.
Local Open Scope Z_scope.

Lemma curve_counts m n cv : sec_init (Z.of_nat m) (Z.of_nat n) = Done cv -> (1 <= n)%nat ->
  let t := Z.to_nat (tree_edges cv) in let g := Z.to_nat (sec_g cv) in
  (2 <= m)%nat /\ (t < n)%nat /\ Z.of_nat t = tree_edges cv /\
  (t * (m - 1) = 2 * g + (Z.to_nat (Z.gcd (Z.of_nat m) (Z.of_nat (S t))) - 1))%nat /\
  (Z.gcd (Z.of_nat m) (Z.of_nat n) = 1 \/ Z.gcd (Z.of_nat m) (Z.of_nat n) = Z.of_nat m -> Z.gcd (Z.of_nat m) (Z.of_nat (S t)) = 1).
Proof.
  intros Hc Hn t g. destruct (sec_init_inv _ _ _ Hc ltac:(lia)) as (Hm & Hn2 & _).
  destruct (generators_count_final _ _ _ Hc ltac:(lia)) as (H & Hge & _).
  destruct (genus_exact_final _ _ _ Hc ltac:(lia)) as (Hgen & Hg0).
  assert (Hd0 : 0 < Z.gcd (Z.of_nat m) (Z.of_nat n)).
  { pose proof (Z.gcd_nonneg (Z.of_nat m) (Z.of_nat n)). destruct (Z.eq_dec (Z.gcd (Z.of_nat m) (Z.of_nat n)) 0) as [E|]; [|lia].
    apply Z.gcd_eq_0_l in E. lia. }
  assert (Hprod : forall a : Z, 0 <= a -> (Z.to_nat a * (m - 1))%nat = Z.to_nat (a * (Z.of_nat m - 1))).
  { intros a Ha. apply Nat2Z.inj. rewrite Nat2Z.inj_mul, Nat2Z.inj_sub, !Z2Nat.id by nia. reflexivity. }
  destruct (Z.eqb_spec (Z.gcd (Z.of_nat m) (Z.of_nat n)) (Z.of_nat m)) as [E|E]; destruct H as [H1 H2].
  - assert (Gt : Z.gcd (Z.of_nat m) (Z.of_nat (S t)) = 1).
    { replace (Z.of_nat (S t)) with (Z.of_nat n - 1) by (unfold t; lia).
      assert (D : (Z.of_nat m | Z.of_nat n)) by (rewrite <- E; apply Z.gcd_divide_r).
      apply Z.bezout_1_gcd. destruct D as [q Hq]. exists q, (-1). lia. }
    conj; try (unfold t; lia).
    + rewrite Gt. unfold t. rewrite Hprod by lia. rewrite H2. unfold g. lia.
    + intros _. exact Gt.
  - assert (Gn : Z.of_nat (S t) = Z.of_nat n) by (unfold t; lia).
    conj; try (unfold t; lia).
    + rewrite Gn. unfold t. rewrite Hprod by lia. rewrite H2. unfold g. lia.
    + rewrite Gn. intros [?|?]; [assumption|contradiction].
Qed.

Lemma curve_reduces xgcd sort param nonpos neg x m cv r0 mn es r' mn' : distinct x -> (1 <= length x)%nat ->
  sec_init (Z.of_nat m) (Z.of_nat (length x)) = Done cv ->
  (forall l, Permutation l (sort l)) -> xgcd_ok xgcd ->
  let t := Z.to_nat (tree_edges cv) in let g := Z.to_nat (sec_g cv) in let r := (t * (m - 1))%nat in
  spanning_tree sort param (length x) t r0 mn = Done (es, r', mn') ->
  exists ys inter s, tree_ydata nonpos neg x (Z.of_nat m) es = Done ys /\
    intersection_of_data ys es (Z.of_nat m) = Done inter /\
    symplectic_reduction xgcd (to_rows inter) g = Done s /\
    square r (to_rows inter) /\ antisymmetric r (to_rows inter) /\
    unimodular r (stP s) /\ congruent r (stP s) (to_rows inter) (stM s) /\ block_rows r g (stM s) /\
    (forall k, (k < g)%nat -> Z.abs (get (stM s) (2 * k) (2 * k + 1)) = 1) /\
    (forall i j, (2 * g <= i < r)%nat -> (j < r)%nat -> get (stM s) i j = 0) /\
    (Z.gcd (Z.of_nat m) (Z.of_nat (length x)) = 1 \/ Z.gcd (Z.of_nat m) (Z.of_nat (length x)) = Z.of_nat m -> canonical r g (stM s)).
Proof.
  intros Hd Hl Hc Hs Hx t g r Et.
  destruct (curve_counts m (length x) cv Hc Hl) as (Hm & Htn & _ & Hr & Hg1). fold t g in Htn, Hr, Hg1.
  destruct (tree_final sort param (length x) t r0 mn Hs Htn) as (l0 & r1 & mn1 & Et' & Hlen & Hgr & _ & _ & Hto & _).
  rewrite Et in Et'. injection Et' as <- <- <-.
  destruct (whole_tree nonpos neg x m es Hd Hm Hgr Hto) as (ys & inter & Ey & Ei).
  destruct (reduces nonpos neg x m es ys inter Hd Hm Hgr Hto Ey Ei xgcd g Hx) as (s & H1 & H2 & H3 & H4 & H5 & H6).
  { rewrite Hlen. exact Hr. }
  pose proof (rows_square x m es ys inter Hm Hto Ei) as HS.
  pose proof (rows_antisym x m es ys inter Hm Hto Ei) as HA.
  rewrite Hlen in *. fold r in HS, HA, H2, H3, H5, H6.
  exists ys, inter, s. conj; try assumption.
  - apply (core_unimodular r (to_rows inter)), H2.
  - apply core_congruent, H2.
  - intros H. apply H6, Hg1, H.
Qed.

Lemma curve_periods xgcd sort param nonpos neg x m cv r0 mn es r' mn' a : distinct x -> (1 <= length x)%nat ->
  sec_init (Z.of_nat m) (Z.of_nat (length x)) = Done cv ->
  (forall l, Permutation l (sort l)) -> xgcd_ok xgcd ->
  let t := Z.to_nat (tree_edges cv) in let g := Z.to_nat (sec_g cv) in
  spanning_tree sort param (length x) t r0 mn = Done (es, r', mn') -> integrals_ok cv t a ->
  exists ys inter s, tree_ydata nonpos neg x (Z.of_nat m) es = Done ys /\
    intersection_of_data ys es (Z.of_nat m) = Done inter /\
    symplectic_reduction xgcd (to_rows inter) g = Done s /\
    (~ rows_fit (2 * g) (stP s) -> symplectic_basis xgcd (to_rows inter) g (Z.of_nat m) = Abort) /\
    (rows_small (2 * g) (stP s) -> exists loops omA omB,
      symplectic_basis xgcd (to_rows inter) g (Z.of_nat m) = Done loops /\
      period_matrix cv (map fst loops) a = Done omA /\ length omA = g /\
      period_matrix cv (map snd loops) a = Done omB /\ length omB = g /\
      forall k q i, (k < g)%nat -> (q < length (sec_ni cv))%nat -> Z.of_nat i < nth q (sec_ni cv) 0 ->
        vget (nth (offset (sec_ni cv) q + i) omA []) k =
          row_period cv a (nth (2 * k) (stP s) []) (sec_j1 cv + Z.of_nat q) (offset (sec_ni cv) q + i) /\
        vget (nth (offset (sec_ni cv) q + i) omB []) k =
          row_period cv a (nth (2 * k + 1) (stP s) []) (sec_j1 cv + Z.of_nat q) (offset (sec_ni cv) q + i)).
Proof.
  intros Hd Hl Hc Hs Hx t g Et Ha.
  destruct (curve_reduces xgcd sort param nonpos neg x m cv r0 mn es r' mn' Hd Hl Hc Hs Hx Et)
    as (ys & inter & s & H1 & H2 & H3 & HS & HA & _).
  destruct (curve_counts m (length x) cv Hc Hl) as (Hm & Htn & Htz & Hr & _). fold t g in Htn, Hr, Htz, H3, HS, HA.
  exists ys, inter, s. conj; try assumption.
  - destruct (reduction_congruence _ _ g xgcd s Hx HS HA H3) as ((HP1 & _) & _).
    apply (symplectic_basis_done xgcd (to_rows inter) g (Z.of_nat m) s); [lia|exact H3|]. rewrite HP1. lia.
  - intros Hsm.
    assert (Er : Z.to_nat (tree_edges cv * (Z.of_nat m - 1)) = (t * (m - 1))%nat).
    { apply Nat2Z.inj. rewrite Nat2Z.inj_mul, Nat2Z.inj_sub by lia. rewrite Z2Nat.id by nia. lia. }
    apply (periods_final xgcd (Z.of_nat m) (Z.of_nat (length x)) cv (to_rows inter) s a Hx Hc); try assumption; try lia.
    + rewrite Er. exact HS.
    + rewrite Er. exact HA.
Qed.
