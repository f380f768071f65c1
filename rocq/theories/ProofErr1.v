(** Partial sums of 1/sqrt(1-z), for the error of the Gauss-Chebyshev rule. *)
From Coq Require Import Reals Lra Lia.
From Coquelicot Require Import Coquelicot.
From Verif Require Import CArg ProofGauss.
Local Open Scope R_scope.

(** ** Sums *)
Lemma csum_mod n f : Cmod (csum n f) <= rsum n (fun k => Cmod (f k)).
Proof.
  induction n as [|n IH]; cbn [csum rsum]; [rewrite Cmod_0; lra|].
  eapply Rle_trans; [apply Cmod_triangle|]. lra.
Qed.
Lemma rsum_le n f g : (forall k, (k < n)%nat -> f k <= g k) -> rsum n f <= rsum n g.
Proof. induction n as [|n IH]; intros H; cbn [rsum]; [lra|]. assert (H1 := H n). specialize (IH (fun k Hk => H k (Nat.lt_lt_succ_r _ _ Hk))). specialize (H1 (Nat.lt_succ_diag_r n)). lra. Qed.
Lemma rsum_pos n f : (forall k, (k < n)%nat -> 0 <= f k) -> 0 <= rsum n f.
Proof. induction n as [|n IH]; intros H; cbn [rsum]; [lra|]. assert (H1 := H n). specialize (IH (fun k Hk => H k (Nat.lt_lt_succ_r _ _ Hk))). specialize (H1 (Nat.lt_succ_diag_r n)). lra. Qed.
Lemma rsum_app n p f : rsum (n + p) f = rsum n f + rsum p (fun k => f (n + k)%nat).
Proof.
  induction p as [|p IH]; cbn [rsum]; [rewrite Nat.add_0_r; ring|].
  rewrite Nat.add_succ_r. cbn [rsum]. rewrite IH. ring.
Qed.
Lemma rsum_S_l n f : rsum (S n) f = f O + rsum n (fun k => f (S k)).
Proof. change (S n) with (1 + n)%nat. rewrite rsum_app. cbn [rsum]. cbn [Nat.add]. ring. Qed.
Lemma rsum_rev n f : rsum n (fun k => f (n - 1 - k)%nat) = rsum n f.
Proof.
  induction n as [|n IH]; [reflexivity|]. rewrite rsum_S_l. cbn [rsum].
  rewrite <- IH, Rplus_comm. f_equal.
  - apply rsum_ext. intros k Hk. f_equal. lia.
  - f_equal. lia.
Qed.
Lemma csum_tri N (f : nat -> nat -> C) :
  csum N (fun n => csum (S n) (fun p => f p (n - p)%nat)) = csum N (fun p => csum (N - p) (fun q => f p q)).
Proof.
  induction N as [|N IH]; [reflexivity|]. cbn [csum]. cbn [csum] in IH. rewrite IH.
  rewrite Nat.sub_diag. replace (S N - N)%nat with 1%nat by lia. cbn [csum].
  rewrite Cplus_0_l, Cplus_assoc. f_equal. rewrite <- csum_add. apply csum_ext. intros p Hp.
  replace (S N - p)%nat with (S (N - p)) by lia. reflexivity.
Qed.
Lemma rsum_tri N (f : nat -> nat -> R) :
  rsum N (fun n => rsum (S n) (fun p => f p (n - p)%nat)) = rsum N (fun p => rsum (N - p) (fun q => f p q)).
Proof.
  induction N as [|N IH]; [reflexivity|]. cbn [rsum]. cbn [rsum] in IH. rewrite IH.
  rewrite Nat.sub_diag. replace (S N - N)%nat with 1%nat by lia. cbn [rsum].
  rewrite Rplus_0_l, <- Rplus_assoc. f_equal. rewrite <- rsum_add. apply rsum_ext. intros p Hp.
  replace (S N - p)%nat with (S (N - p)) by lia. reflexivity.
Qed.
Lemma rsum_mono n p f : (n <= p)%nat -> (forall k, 0 <= f k) -> rsum n f <= rsum p f.
Proof.
  intros H Hf. replace p with (n + (p - n))%nat by lia. rewrite rsum_app.
  assert (H0 := rsum_pos (p - n) (fun k => f (n + k)%nat) (fun k _ => Hf _)). lra.
Qed.
Lemma rsum_prod n p f g : rsum n f * rsum p g = rsum n (fun i => rsum p (fun j => f i * g j)).
Proof.
  rewrite Rmult_comm, <- rsum_scal. apply rsum_ext. intros i _. rewrite rsum_scal. ring.
Qed.
Lemma csum_prod n p f g : (csum n f * csum p g)%C = csum n (fun i => csum p (fun j => (f i * g j)%C)).
Proof.
  rewrite Cmult_comm, <- csum_scal. apply csum_ext. intros i _. rewrite csum_scal. ring.
Qed.

(** ** Coefficients of 1/sqrt(1-z) *)
Fixpoint coef (p : nat) : R := match p with O => 1 | S q => coef q * ((2 * INR q + 1) / (2 * INR q + 2)) end.
Lemma coef_pos p : 0 < coef p <= 1.
Proof.
  induction p as [|p IH]; cbn [coef]; [lra|]. assert (H := pos_INR p).
  assert (0 < (2 * INR p + 1) / (2 * INR p + 2) <= 1).
  { split; [apply Rdiv_lt_0_compat; lra|]. apply (Rmult_le_reg_r (2 * INR p + 2)); [lra|]. field_simplify; lra. }
  split; [apply Rmult_lt_0_compat; lra|]. replace 1 with (1 * 1) by ring. apply Rmult_le_compat; lra.
Qed.
Lemma coef_S p : 2 * INR (S p) * coef (S p) = (2 * INR p + 1) * coef p.
Proof. cbn [coef]. rewrite S_INR. assert (H := pos_INR p). field. lra. Qed.
Lemma coef_conv n : rsum (S n) (fun p => coef p * coef (n - p)) = 1.
Proof.
  induction n as [|n IH]; [cbn; ring|].
  set (c n := rsum (S n) (fun p => coef p * coef (n - p))) in *.
  change (c (S n) = 1). change (c n = 1) in IH.
  (* 2 sum p a_p a_(n-p) = n c_n *)
  assert (S2 : forall n, 2 * rsum (S n) (fun p => INR p * (coef p * coef (n - p))) = INR n * c n).
  { intro k. assert (E : rsum (S k) (fun p => INR (k - p) * (coef p * coef (k - p))) = rsum (S k) (fun p => INR p * (coef p * coef (k - p)))).
    { rewrite <- rsum_rev. apply rsum_ext. intros p Hp. replace (S k - 1 - p)%nat with (k - p)%nat by lia.
      replace (k - (k - p))%nat with p by lia. ring. }
    transitivity (rsum (S k) (fun p => INR p * (coef p * coef (k - p))) + rsum (S k) (fun p => INR (k - p) * (coef p * coef (k - p)))); [rewrite E; ring|].
    unfold c. rewrite <- rsum_scal.
    rewrite <- rsum_add. apply rsum_ext. intros p Hp. rewrite minus_INR by lia. ring. }
  assert (H1 := S2 (S n)). rewrite rsum_S_l in H1. cbn [INR] in H1. rewrite Rmult_0_l, Rplus_0_l in H1.
  rewrite <- rsum_scal in H1.
  rewrite (rsum_ext _ _ (fun p => 2 * (INR p * (coef p * coef (n - p))) + coef p * coef (n - p))) in H1.
  2:{ intros p Hp. replace (S n - S p)%nat with (n - p)%nat by lia. change (match p with O => 1 | S _ => INR p + 1 end) with (INR (S p)).
      rewrite <- Rmult_assoc. rewrite <- (Rmult_assoc (2 * INR (S p))). rewrite coef_S. ring. }
  rewrite rsum_add, rsum_scal, S2 in H1. fold (c n) in H1. change (match n with O => 1 | S _ => INR n + 1 end) with (INR (S n)) in H1.
  rewrite IH, S_INR in H1. assert (H := pos_INR n). apply (Rmult_eq_reg_l (INR n + 1)); lra.
Qed.

(** ** Partial sums *)
Definition psum (N : nat) (z : C) : C := csum N (fun p => RtoC (coef p) * cpow z p)%C.
Definition rpsum (N : nat) (s : R) : R := rsum N (fun p => coef p * s ^ p).
Lemma geom_r N s : (1 - s) * rsum N (fun n => s ^ n) = 1 - s ^ N.
Proof. induction N as [|N IH]; cbn [rsum pow]; [ring|]. rewrite Rmult_plus_distr_l, IH. ring. Qed.
Lemma geom_c N z : ((RtoC 1 - z) * csum N (fun n => cpow z n))%C = (RtoC 1 - cpow z N)%C.
Proof. induction N as [|N IH]; cbn [csum cpow]; [ring|]. rewrite Cmult_plus_distr_l, IH. ring. Qed.
Lemma rtri N s : rsum N (fun n => s ^ n) = rsum N (fun p => rsum (N - p) (fun q => coef p * s ^ p * (coef q * s ^ q))).
Proof.
  rewrite <- rsum_tri. apply rsum_ext. intros n _.
  rewrite <- (Rmult_1_l (s ^ n)), <- (coef_conv n), Rmult_comm, <- rsum_scal. apply rsum_ext. intros p Hp.
  replace (s ^ n) with (s ^ p * s ^ (n - p)) by (rewrite <- pow_add; f_equal; lia). ring.
Qed.
Lemma ctri N z : csum N (fun n => cpow z n) =
  csum N (fun p => csum (N - p) (fun q => RtoC (coef p) * cpow z p * (RtoC (coef q) * cpow z q))%C).
Proof.
  rewrite <- csum_tri. apply csum_ext. intros n _.
  transitivity (RtoC (rsum (S n) (fun p => coef p * coef (n - p))%R) * cpow z n)%C.
  { rewrite coef_conv. ring. }
  rewrite <- csum_RtoC, Cmult_comm, <- csum_scal. apply csum_ext. intros p Hp. rewrite RtoC_mult.
  replace (cpow z n) with (cpow z p * cpow z (n - p))%C by (rewrite <- cpow_add; f_equal; lia). ring.
Qed.
(** the square is below the whole series *)
Lemma rpsum_sqr N s : 0 <= s < 1 -> rpsum N s * rpsum N s <= / (1 - s).
Proof.
  intros Hs. assert (P : forall p, 0 <= coef p * s ^ p).
  { intro p. apply Rmult_le_pos; [left; apply coef_pos|apply pow_le; lra]. }
  apply Rle_trans with (rsum (2 * N) (fun n => s ^ n)).
  - rewrite rtri. unfold rpsum. rewrite rsum_prod.
    eapply Rle_trans; [apply (rsum_le N _ (fun p => rsum (2 * N - p) (fun q => coef p * s ^ p * (coef q * s ^ q))))|].
    + intros k Hk. apply rsum_mono; [lia|]. intro j. apply Rmult_le_pos; apply P.
    + apply rsum_mono; [lia|]. intro j. apply rsum_pos. intros k _. apply Rmult_le_pos; apply P.
  - assert (G := geom_r (2 * N) s). assert (0 <= s ^ (2 * N)) by (apply pow_le; lra).
    apply (Rmult_le_reg_l (1 - s)); [lra|]. rewrite G, Rinv_r by lra. lra.
Qed.
Lemma rpsum_pos N s : 0 <= s -> 0 <= rpsum N s.
Proof. intro H. apply rsum_pos. intros p _. apply Rmult_le_pos; [left; apply coef_pos|now apply pow_le]. Qed.
Lemma rpsum_le N s : 0 <= s < 1 -> rpsum N s <= / sqrt (1 - s).
Proof.
  intro H. assert (H1 := rpsum_pos N s (proj1 H)). assert (H2 := rpsum_sqr N s H).
  rewrite <- (sqrt_square (rpsum N s)) by easy. rewrite <- sqrt_inv. apply sqrt_le_1_alt, H2.
Qed.
(** the square of the partial sum differs from 1/(1-z) by a geometric tail *)
Lemma psum_tail N z : Cmod z < 1 ->
  Cmod (psum N z * psum N z - csum N (fun n => cpow z n))%C <= Cmod z ^ N / (1 - Cmod z).
Proof.
  intro Hz. set (s := Cmod z) in *. assert (Hs : 0 <= s < 1) by (split; [apply Cmod_ge_0|easy]).
  set (f p q := (RtoC (coef p) * cpow z p * (RtoC (coef q) * cpow z q))%C).
  set (g p q := coef p * s ^ p * (coef q * s ^ q)).
  assert (Ec : (psum N z * psum N z - csum N (fun n => cpow z n))%C = csum N (fun p => csum p (fun j => f p (N - p + j)%nat))).
  { unfold psum. rewrite csum_prod, ctri. fold f.
    rewrite (csum_ext N _ (fun p => (csum (N - p) (fun q => f p q) + csum p (fun j => f p (N - p + j)%nat))%C)).
    - rewrite csum_add. unfold f. ring.
    - intros p Hp. rewrite <- csum_app. replace (N - p + p)%nat with N by lia. reflexivity. }
  assert (Er : rpsum N s * rpsum N s - rsum N (fun n => s ^ n) = rsum N (fun p => rsum p (fun j => g p (N - p + j)%nat))).
  { unfold rpsum. rewrite rsum_prod, rtri. fold g.
    rewrite (rsum_ext N _ (fun p => rsum (N - p) (fun q => g p q) + rsum p (fun j => g p (N - p + j)%nat))).
    - rewrite rsum_add. unfold g. ring.
    - intros p Hp. rewrite <- rsum_app. replace (N - p + p)%nat with N by lia. reflexivity. }
  rewrite Ec. eapply Rle_trans; [apply csum_mod|].
  eapply Rle_trans; [apply (rsum_le N _ (fun p => rsum p (fun j => g p (N - p + j)%nat)))|].
  - intros p _. eapply Rle_trans; [apply csum_mod|]. apply Req_le, rsum_ext. intros j _.
    unfold f, g. rewrite !Cmod_mult, !cpow_mod, !Cmod_R, !Rabs_pos_eq by (left; apply coef_pos). reflexivity.
  - rewrite <- Er. assert (H1 := rpsum_sqr N s Hs). assert (H2 := geom_r N s).
    assert (H3 : rsum N (fun n => s ^ n) = (1 - s ^ N) / (1 - s)) by (rewrite <- H2; field; lra).
    rewrite H3. replace (s ^ N / (1 - s)) with (/ (1 - s) - (1 - s ^ N) / (1 - s)) by (field; lra). lra.
Qed.
Lemma psum_sqr N z : Cmod z < 1 ->
  Cmod ((RtoC 1 - z) * (psum N z * psum N z) - RtoC 1)%C <= 3 * Cmod z ^ N / (1 - Cmod z).
Proof.
  intro Hz. assert (H0 := Cmod_ge_0 z). assert (T := psum_tail N z Hz).
  set (d := (psum N z * psum N z - csum N (fun n => cpow z n))%C) in *.
  replace ((RtoC 1 - z) * (psum N z * psum N z) - RtoC 1)%C with ((RtoC 1 - z) * d - cpow z N)%C.
  2:{ assert (G := geom_c N z). unfold d. transitivity ((RtoC 1 - z) * (psum N z * psum N z) - (RtoC 1 - z) * csum N (fun n => cpow z n) - cpow z N)%C; [ring|].
      rewrite G. ring. }
  assert (Ht : forall a b, Cmod (a - b)%C <= Cmod a + Cmod b).
  { intros a b. unfold Cminus. eapply Rle_trans; [apply Cmod_triangle|]. rewrite Cmod_opp. lra. }
  eapply Rle_trans; [apply Ht|]. rewrite Cmod_mult, cpow_mod.
  assert (H1 : Cmod (RtoC 1 - z)%C <= 2) by (eapply Rle_trans; [apply Ht|]; rewrite Cmod_1; lra).
  assert (H2 : 0 <= Cmod z ^ N) by (now apply pow_le).
  assert (H3 : Cmod (RtoC 1 - z)%C * Cmod d <= 2 * (Cmod z ^ N / (1 - Cmod z))).
  { apply Rmult_le_compat; auto using Cmod_ge_0. }
  assert (H4 : Cmod z ^ N <= Cmod z ^ N / (1 - Cmod z)).
  { apply (Rmult_le_reg_r (1 - Cmod z)); [lra|]. unfold Rdiv. rewrite Rmult_assoc, Rinv_l by lra.
    apply Rmult_le_compat_l; lra. }
  unfold Rdiv in *. lra.
Qed.
