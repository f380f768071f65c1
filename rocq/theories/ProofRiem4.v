From Coq Require Import Reals Lra Lia.
From Coquelicot Require Import Coquelicot.
From Verif Require Import CBase CArg ModelPeriod ModelSymp SpecSymp SpecRiem ProofRiem1 ProofRiem2 ProofRiem3.
Local Open Scope R_scope.

Lemma root_neq_1 m k : (0 < m)%Z -> ~ (m | k)%Z -> root m k <> C1.
Proof.
  intros Hm Hk E. unfold root in E. destruct (cis_1_integer _ E) as [q Hq]. apply Hk. exists q.
  assert (Hm0 : IZR m <> 0) by (apply not_0_IZR; lia). assert (Hpi := PI_RGT_0).
  apply eq_IZR. rewrite mult_IZR. apply (Rmult_eq_reg_l (2 * PI)); [|lra].
  replace (2 * PI * (IZR q * IZR m)) with (2 * PI * IZR q * IZR m) by ring. rewrite <- Hq. field. exact Hm0.
Qed.

Lemma geometric (z : C) n : ((z - C1) * csum n (fun p => cpow z p))%C = (cpow z n - C1)%C.
Proof. induction n as [|n IH]; cbn [csum]; [cbn; ring|]. rewrite Cmult_plus_distr_l, IH. cbn [cpow]. ring. Qed.

(** the m-th roots of unity sum up to zero *)
Lemma root_sum (m : nat) k : (0 < m)%nat -> ~ (Z.of_nat m | k)%Z ->
  csum m (fun p => root (Z.of_nat m) (Z.of_nat p * k)) = C0.
Proof.
  intros Hm Hk. set (z := root (Z.of_nat m) k).
  assert (Hz : (z - C1)%C <> C0).
  { intro E. apply (root_neq_1 (Z.of_nat m) k ltac:(lia) Hk). fold z. replace z with (z - C1 + C1)%C by ring. rewrite E. ring. }
  rewrite (csum_ext m _ (fun p => cpow z p)) by (intros; unfold z; now rewrite root_pow).
  assert (G := geometric z m). unfold z in G at 3. rewrite root_pow, root_mult in G by lia.
  destruct (Ceq_dec (csum m (fun p => cpow z p)) C0) as [E|E]; [exact E|].
  exfalso. apply (Cmult_neq_0' _ _ Hz E). rewrite G. ring.
Qed.

Lemma root_conj m k : Cconj (root m k) = root m (- k).
Proof.
  unfold root, cis, Cconj. cbn [fst snd]. rewrite opp_IZR. replace (2 * PI * - IZR k / IZR m) with (- (2 * PI * IZR k / IZR m)) by (unfold Rdiv; ring).
  now rewrite cos_neg, sin_neg.
Qed.

(** cycle number p of the chain and the differential of exponent j *)
Definition chainE (m : nat) (j : Z) (w : C) (p : nat) : C := (root (Z.of_nat m) (- (Z.of_nat p * j)) * w)%C.

Section Two.
Variable m : nat.
Hypothesis Hm : (3 <= m)%nat.
Let M := Z.of_nat m.
Let r := (m - 1)%nat.
Variable K : mat.
Hypothesis HK : chain r K.

Section J.
Variables (j : Z) (w : C).
Hypothesis Hj : (M < 2 * j)%Z /\ (j < M)%Z.

Let den : C := (root M (- j) - root M j)%C.
Lemma theta : PI < 2 * PI * IZR j / IZR M < 2 * PI.
Proof.
  assert (Hpi := PI_RGT_0). assert (0 < IZR M) by (apply IZR_lt; unfold M; lia).
  destruct Hj as [H1 H2]. apply IZR_lt in H1, H2. rewrite mult_IZR in H1.
  split; apply (Rmult_lt_reg_r (IZR M)); try assumption; replace (2 * PI * IZR j / IZR M * IZR M) with (2 * PI * IZR j) by (field; lra); nra.
Qed.
Lemma sin_neg_j : sin (2 * PI * IZR j / IZR M) < 0.
Proof. destruct theta as [H1 H2]. apply sin_lt_0; assumption. Qed.
Lemma den_eq : den = (0, -2 * sin (2 * PI * IZR j / IZR M)).
Proof.
  unfold den. rewrite <- root_conj. unfold root, cis, Cconj. apply injective_projections; cbn; ring.
Qed.
Lemma den_neq : den <> C0.
Proof. rewrite den_eq. intro E. injection E as E. assert (H := sin_neg_j). lra. Qed.

Definition chainX (p : nat) : C := (/ den * w * (root M (- (Z.of_nat p * j)) - root M j))%C.

Lemma chainX_solves : forall p, (p < r)%nat -> csum r (fun q => (ZC (get K p q) * chainX q)%C) = chainE m j w p.
Proof.
  intros p Hp. destruct HK as [_ HK'].
  assert (L : forall (f : nat -> C) x, csum r (fun q => if (q =? x)%nat then f q else C0) = if (x <? r)%nat then f x else C0).
  { intros f x. destruct (Nat.ltb_spec x r) as [H|H].
    - rewrite (csum_single r _ x H); [now rewrite Nat.eqb_refl|]. intros k Hk Ne. now destruct (Nat.eqb_spec k x).
    - apply csum_zero. intros k Hk. destruct (Nat.eqb_spec k x); [lia|reflexivity]. }
  rewrite (csum_ext r _ (fun q => (if (q =? p + 1)%nat then chainX q else C0) + (if (p =? 0)%nat then C0 else if (q =? p - 1)%nat then - chainX q else C0))%C).
  2:{ intros q Hq. rewrite HK' by assumption.
      destruct (Nat.eqb_spec q (p + 1)), (Nat.eqb_spec p (q + 1)), (Nat.eqb_spec p 0), (Nat.eqb_spec q (p - 1)); try lia;
        unfold ZC; try (apply injective_projections; cbn; ring). }
  rewrite csum_add, L.
  assert (A1 : (if (p + 1 <? r)%nat then chainX (p + 1) else C0) = chainX (p + 1)).
  { destruct (Nat.ltb_spec (p + 1) r) as [H|H]; [reflexivity|]. assert (p + 1 = r)%nat as -> by lia. unfold chainX.
    assert (E : root M (- (Z.of_nat r * j)) = root M j).
    { replace (- (Z.of_nat r * j))%Z with (j + M * - j)%Z by (unfold r, M; rewrite Nat2Z.inj_sub by lia; lia).
      rewrite root_add, root_mult by (unfold M; lia). ring. }
    rewrite E. ring. }
  rewrite A1.
  assert (A2 : csum r (fun q => if (p =? 0)%nat then C0 else if (q =? p - 1)%nat then (- chainX q)%C else C0) =
    (- (/ den * w * (root M (- (Z.of_nat p * j) + j) - root M j)))%C).
  { destruct (Nat.eqb_spec p 0) as [->|Np].
    - rewrite csum_zero by reflexivity. change (- (Z.of_nat 0 * j) + j)%Z with j. ring.
    - rewrite (L (fun q => - chainX q)%C). destruct (Nat.ltb_spec (p - 1) r); [|lia]. unfold chainX. do 3 f_equal. f_equal. rewrite Nat2Z.inj_sub by lia. lia. }
  rewrite A2. unfold chainX, chainE. fold M. rewrite Nat2Z.inj_add.
  replace (- ((Z.of_nat p + Z.of_nat 1) * j))%Z with (- (Z.of_nat p * j) + - j)%Z by lia. rewrite !root_add.
  transitivity (/ den * (root M (- j) - root M j) * (root M (- (Z.of_nat p * j)) * w))%C; [ring|]. fold den.
  rewrite Cinv_l by exact den_neq. ring.
Qed.
End J.

(** sums over the chain *)
Lemma chain_sum j w E' : (M < 2 * j)%Z /\ (j < M)%Z ->
  csum r (fun p => (chainX j w p * E' p)%C) = csum m (fun p => (chainX j w p * E' p)%C).
Proof.
  intros Hj. replace m with (S r) at 1 by (unfold r; lia). cbn [csum].
  assert (E : chainX j w r = C0).
  { unfold chainX. assert (E : root M (- (Z.of_nat r * j)) = root M j).
    { replace (- (Z.of_nat r * j))%Z with (j + M * - j)%Z by (unfold r, M; rewrite Nat2Z.inj_sub by lia; lia).
      rewrite root_add, root_mult by (unfold M; lia). ring. }
    rewrite E. ring. }
  rewrite E. ring.
Qed.

Lemma first_relation j l w w' : (M < 2 * j)%Z /\ (j < M)%Z -> (M < 2 * l)%Z /\ (l < M)%Z ->
  csum r (fun p => (chainX j w p * chainE m l w' p)%C) = C0.
Proof.
  intros Hj Hl. rewrite chain_sum by exact Hj. unfold chainX, chainE. fold M.
  set (d := (root M (- j) - root M j)%C).
  rewrite (csum_ext m _ (fun p => / d * w * w' * root M (Z.of_nat p * - (j + l)) + - (/ d * w * w' * root M j) * root M (Z.of_nat p * - l))%C).
  2:{ intros p Hp. replace (Z.of_nat p * - (j + l))%Z with (- (Z.of_nat p * j) + - (Z.of_nat p * l))%Z by lia. rewrite root_add.
      replace (Z.of_nat p * - l)%Z with (- (Z.of_nat p * l))%Z by lia. ring. }
  rewrite csum_add, !csum_scal. unfold M. rewrite !root_sum; [ring|lia| |lia|].
  - intros [q Hq]. unfold M in Hj, Hl. assert (q = 0 \/ q < 0 \/ 0 < q)%Z by lia. nia.
  - intros [q Hq]. unfold M in Hj, Hl. assert (q = - 1 \/ q < -1 \/ q = 0 \/ 0 < q)%Z by lia. nia.
Qed.

Lemma second_relation j l w w' : (M < 2 * j)%Z /\ (j < M)%Z -> (M < 2 * l)%Z /\ (l < M)%Z ->
  csum r (fun p => (chainX j w p * Cconj (chainE m l w' p))%C) =
  if (j =? l)%Z then (w * Cconj w' * (0, INR m / (2 * sin (2 * PI * IZR j / IZR M)))%R)%C else C0.
Proof.
  intros Hj Hl. rewrite chain_sum by exact Hj. unfold chainX, chainE. fold M.
  set (d := (root M (- j) - root M j)%C).
  rewrite (csum_ext m _ (fun p => / d * w * Cconj w' * root M (Z.of_nat p * (l - j)) + - (/ d * w * Cconj w' * root M j) * root M (Z.of_nat p * l))%C).
  2:{ intros p Hp. rewrite Cmult_conj, root_conj, Z.opp_involutive.
      replace (Z.of_nat p * (l - j))%Z with (- (Z.of_nat p * j) + (Z.of_nat p * l))%Z by lia. rewrite root_add. ring. }
  rewrite csum_add, !csum_scal. assert (RS := root_sum m l). fold M in RS. rewrite RS; [|lia|].
  2:{ intros [q Hq]. unfold M in Hj, Hl. assert (q = 0 \/ q < 0 \/ q = 1 \/ 1 < q)%Z by lia. nia. }
  destruct (Z.eqb_spec j l) as [<-|Ne].
  - rewrite (csum_ext m _ (fun _ => C1)).
    2:{ intros p Hp. replace (Z.of_nat p * (j - j))%Z with 0%Z by lia. apply root_0. }
    assert (Es : csum m (fun _ => C1) = RtoC (INR m)).
    { clear. induction m as [|n IH]; [reflexivity|]. cbn [csum]. rewrite IH, S_INR. now rewrite RtoC_plus. }
    rewrite Es.
    assert (Hd : d <> C0) by (apply den_neq; exact Hj). assert (Ed := den_eq j). fold d in Ed.
    assert (Hs := sin_neg_j j Hj). set (s := sin (2 * PI * IZR j / IZR M)) in *.
    assert (Ei : (0, INR m / (2 * s)) = (/ d * RtoC (INR m))%C).
    { assert (Q : (d * (0, INR m / (2 * s))%R)%C = RtoC (INR m)).
      { rewrite Ed. fold s. apply injective_projections; cbn; field; lra. }
      rewrite <- Q, Cmult_assoc, Cinv_l by exact Hd. now rewrite Cmult_1_l. }
    rewrite Ei. ring.
  - unfold M. rewrite root_sum; [ring|lia|]. intros [q Hq]. unfold M in Hj, Hl. assert (q = 0 \/ q < 0 \/ 0 < q)%Z by lia. nia.
Qed.
End Two.
