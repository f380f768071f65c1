(** Points at infinity in the Magma package. *)
From Coquelicot Require Import Coquelicot.
From Verif Require Import CArg ModelTree ModelVec ModelPeriod ModelTurn ModelMaInter ModelMaDivisor ModelMaInfty ProofMaAjm ProofMaFactor2 ProofMaPeriod5 SpecMaDivisor SpecMaInfty ProofMaDivisor SpecEdge.
Local Open Scope nat_scope.

Lemma make_negative_ok m n : (0 < n)%Z -> forall fuel a b, Z.to_nat a + 2 <= fuel ->
  exists a' b' j, make_negative fuel m n a b = Done (a', b') /\ (a' < 0)%Z /\ (0 <= j)%Z /\ a' = (a - j * n)%Z /\ b' = (b + j * m)%Z.
Proof.
  intros Hn. induction fuel as [|fuel IH]; intros a b Hf; [lia|]. cbn [make_negative]. destruct (Z.leb_spec 0 a) as [L|L].
  - destruct (Z_lt_ge_dec (a - n) 0) as [G|G].
    + destruct fuel as [|fuel]; [lia|]. exists (a - n)%Z, (b + m)%Z, 1%Z. cbn [make_negative]. destruct (Z.leb_spec 0 (a - n)); [lia|]. repeat split; lia.
    + destruct (IH (a - n)%Z (b + m)%Z ltac:(lia)) as (a' & b' & j & E & A & J & -> & ->). exists (a - n - j * n)%Z, (b + m + j * m)%Z, (j + 1)%Z. repeat split; try lia. exact E.
  - exists a, b, 0%Z. repeat split; lia.
Qed.
Lemma infty_loop m n a b delta : (0 < m)%Z -> (0 < n)%Z -> (0 < delta)%Z -> (a * m + b * n = delta)%Z ->
  exists a' b', make_negative (Z.to_nat a + 2) m n a b = Done (a', b') /\ (a' < 0 < b')%Z /\ (a' * m + b' * n = delta)%Z.
Proof.
  intros Hm Hn Hd H. destruct (make_negative_ok m n Hn (Z.to_nat a + 2) a b (le_n _)) as (a' & b' & j & E & A & J & Ea & Eb). exists a', b'. split; [exact E|].
  assert (H' : (a' * m + b' * n = delta)%Z) by (subst a' b'; rewrite <- H; ring). split; [|exact H']. split; [exact A|].
  destruct (Z_lt_ge_dec 0 b') as [G|G]; [exact G|]. exfalso. assert (a' * m < 0)%Z by (apply Z.mul_neg_pos; assumption). assert (b' * n <= 0)%Z by (apply Z.mul_nonpos_nonneg; lia). lia.
Qed.

(** ** the parametrisation *)
Lemma cpow_inv_mul z k : z <> RtoC 0 -> cpow (/ z)%C k = (/ cpow z k)%C.
Proof.
  intros Hz. assert (P : (cpow (/ z) k * cpow z k)%C = RtoC 1) by (rewrite <- cpow_mul, Cinv_l by exact Hz; apply cpow_one).
  rewrite <- (Cmult_1_r (cpow (/ z)%C k)), <- (Cinv_r (cpow z k)) by (apply cpow_neq_0; exact Hz). rewrite Cmult_assoc, P. ring.
Qed.
Lemma inv_neq (z : C) : z <> RtoC 0 -> (/ z)%C <> RtoC 0.
Proof. intros Hz X. apply one_nz. rewrite <- (Cinv_r z Hz), X. ring. Qed.

Lemma cprod_scaled (u : C) x : u <> RtoC 0 -> cprod (fun p => / u - p)%C x = (cprod (fun p => RtoC 1 - p * u) x / cpow u (length x))%C.
Proof.
  intros Hu. induction x as [|p x IH]; cbn [cprod length cpow]; [field; exact one_nz|]. rewrite IH. field. split; [exact Hu|apply cpow_neq_0; exact Hu].
Qed.

Section Par.
Context (m n delta M N a' b : nat) (x : list C) (lc w : C).
Hypothesis Hm : m = M * delta.
Hypothesis Hn : n = N * delta.
Hypothesis Hx : length x = n.
Hypothesis Hbez : b * N = 1 + a' * M.
Hypothesis Hw : cpow w m = lc.
Hypothesis Hw0 : w <> RtoC 0.

Lemma par_forward (s t : C) : s <> RtoC 0 -> t <> RtoC 0 ->
  let X := (/ (cpow s b * cpow t M))%C in let Y := (w / (cpow s a' * cpow t N))%C in
  (on_curve m lc x X Y <-> cprod (fun p => RtoC 1 - p * cpow s b * cpow t M)%C x = cpow s delta) /\ fun_r M N w X Y = s /\ fun_t a' b w X Y = t.
Proof using Hm Hn Hx Hbez Hw Hw0.
  intros Hs Ht X Y. set (u := (cpow s b * cpow t M)%C). set (v := (cpow s a' * cpow t N)%C).
  assert (Hu : u <> RtoC 0) by (apply Cmult_neq_0; apply cpow_neq_0; assumption). assert (Hv : v <> RtoC 0) by (apply Cmult_neq_0; apply cpow_neq_0; assumption).
  assert (EX : X = (/ u)%C) by reflexivity. assert (EY : Y = (w * / v)%C) by reflexivity. assert (EYw : (Y / w)%C = (/ v)%C) by (rewrite EY; field; split; assumption).
  assert (UV : cpow u N = (s * cpow v M)%C).
  { unfold u, v. rewrite !cpow_mul, !cpow_cpow, Hbez. rewrite cpow_add, cpow_1. rewrite (Nat.mul_comm M N). ring. }
  assert (VU : cpow v b = (t * cpow u a')%C).
  { unfold u, v. rewrite !cpow_mul, !cpow_cpow. rewrite (Nat.mul_comm N b), Hbez, cpow_add, cpow_1, (Nat.mul_comm a' b), (Nat.mul_comm M a'). ring. }
  split; [|split].
  - assert (PX : poly_at x X = (cprod (fun p => RtoC 1 - p * u) x / cpow u n)%C) by (rewrite EX; unfold poly_at; rewrite cprod_scaled, Hx by exact Hu; reflexivity).
    assert (PY : cpow Y m = (lc * / cpow v m)%C) by (rewrite EY, cpow_mul, Hw, cpow_inv_mul by exact Hv; reflexivity).
    assert (UN : cpow u n = (cpow s delta * cpow v m)%C) by (rewrite Hn, Hm, <- !cpow_cpow, UV, cpow_mul; reflexivity).
    assert (HE : cprod (fun p => RtoC 1 - p * cpow s b * cpow t M)%C x = cprod (fun p => RtoC 1 - p * u)%C x).
    { clear. induction x as [|p l IH]; cbn [cprod]; [reflexivity|]. rewrite IH. unfold u. f_equal. ring. }
    rewrite HE. set (Pr := cprod (fun p => RtoC 1 - p * u)%C x) in *. assert (L0 : lc <> RtoC 0) by (rewrite <- Hw; apply cpow_neq_0; exact Hw0).
    assert (S0 : cpow s delta <> RtoC 0) by (apply cpow_neq_0; exact Hs). assert (V0 : cpow v m <> RtoC 0) by (apply cpow_neq_0; exact Hv).
    unfold on_curve. rewrite PX, PY, UN. split; intros H.
    + transitivity ((lc * (Pr / (cpow s delta * cpow v m))) * (/ lc * (cpow s delta * cpow v m)))%C; [field; repeat split; assumption|]. rewrite <- H. field. split; assumption.
    + rewrite H. field. split; assumption.
  - unfold fun_r. rewrite EYw, EX, !cpow_inv_mul by assumption. rewrite UV. field. repeat split; try assumption; first [exact one_nz | apply cpow_neq_0; assumption].
  - unfold fun_t. rewrite EYw, EX, !cpow_inv_mul by assumption. rewrite VU. field. repeat split; try assumption; first [exact one_nz | apply cpow_neq_0; assumption].
Qed.
Lemma par_back (X Y : C) : X <> RtoC 0 -> Y <> RtoC 0 ->
  let s := fun_r M N w X Y in let t := fun_t a' b w X Y in
  s <> RtoC 0 /\ t <> RtoC 0 /\ X = (/ (cpow s b * cpow t M))%C /\ Y = (w / (cpow s a' * cpow t N))%C.
Proof using Hbez Hw0.
  intros HX HY s t. set (y := (Y / w)%C). assert (Hy : y <> RtoC 0) by (apply Cmult_neq_0; [exact HY|apply inv_neq; exact Hw0]).
  assert (Es : s = (cpow y M * / cpow X N)%C) by reflexivity. assert (Et : t = (cpow X a' * / cpow y b)%C) by reflexivity.
  assert (Pn : forall z k, z <> RtoC 0 -> cpow z k <> RtoC 0) by (intros; apply cpow_neq_0; assumption).
  assert (Hs : s <> RtoC 0) by (rewrite Es; apply Cmult_neq_0; [apply Pn; exact Hy|apply inv_neq, Pn; exact HX]).
  assert (Ht : t <> RtoC 0) by (rewrite Et; apply Cmult_neq_0; [apply Pn; exact HX|apply inv_neq, Pn; exact Hy]).
  split; [exact Hs|]. split; [exact Ht|].
  assert (E1 : (cpow s b * cpow t M)%C = (/ X)%C).
  { rewrite Es, Et, !cpow_mul, !cpow_inv_mul, !cpow_cpow by (apply Pn; assumption). rewrite (Nat.mul_comm N b), Hbez, cpow_add, cpow_1, (Nat.mul_comm M b). field. repeat split; try assumption; first [exact one_nz | apply Pn; assumption]. }
  assert (E2 : (cpow s a' * cpow t N)%C = (/ y)%C).
  { rewrite Es, Et, !cpow_mul, !cpow_inv_mul, !cpow_cpow by (apply Pn; assumption). rewrite Hbez, cpow_add, cpow_1, (Nat.mul_comm N a'), (Nat.mul_comm M a'). field. repeat split; try assumption; first [exact one_nz | apply Pn; assumption]. }
  rewrite E1, E2. split; [field; split; [exact HX|exact one_nz]|]. unfold y. field. repeat split; assumption.
Qed.
End Par.

Lemma affine_is m lc M N (a b : Z) r t : (a < 0 < b)%Z -> (r + t)%C <> RtoC 0 -> t <> RtoC 0 ->
  infty_affine m lc M N a b r t = ((/ (cpow (r + t) (Z.to_nat b) * cpow t M))%C, (cexp (RtoC (1 / INR m) * clog lc) / (cpow (r + t) (Z.to_nat (- a)) * cpow t N))%C).
Proof.
  intros [Ha Hb] Hs Ht. unfold infty_affine. cbv zeta. set (s := (r + t)%C) in *.
  assert (Eb : cpow s (Z.to_nat b) = cexp (RtoC (IZR b) * clog s)%C) by (rewrite <- (cexp_clog_id s Hs) at 1; rewrite cexp_cpow, INR_IZR_INZ, Z2Nat.id by lia; reflexivity).
  assert (Ea : cpow s (Z.to_nat (- a)) = cexp (RtoC (IZR (- a)) * clog s)%C) by (rewrite <- (cexp_clog_id s Hs) at 1; rewrite cexp_cpow, INR_IZR_INZ, Z2Nat.id by lia; reflexivity).
  assert (Et : forall K, cpow t K = cexp (RtoC (INR K) * clog t)%C) by (intros K; rewrite <- (cexp_clog_id t Ht) at 1; apply cexp_cpow).
  assert (Inv : forall z, cexp (- z)%C = (/ cexp z)%C). { intros z. pose proof (cexp_inv z) as X. pose proof (cexp_neq z) as Z0. transitivity (cexp (- z) * cexp z * / cexp z)%C; [field; exact Z0|rewrite X; ring]. }
  rewrite Eb, Ea, !Et. f_equal; [rewrite <- cexp_plus; apply Inv|]. unfold Cdiv. rewrite <- (cexp_plus (RtoC (IZR (- a)) * clog s)%C (RtoC (INR N) * clog t)%C), <- Inv, <- !cexp_plus. f_equal. rewrite opp_IZR, RtoC_opp. ring.
Qed.

(** the roots t of the polynomial and the affine points on the line *)
Lemma infty_points_ok x m lc delta M N (a b : Z) k : m = M * delta -> length x = N * delta -> 0 < delta -> 0 < M -> lc <> RtoC 0 ->
  (a < 0 < b)%Z -> (a * Z.of_nat M + b * Z.of_nat N = 1)%Z ->
  let nb := Z.to_nat b in let na := Z.to_nat (- a) in let r := root (Z.of_nat delta) (Z.of_nat k) in
  exists w, cpow w m = lc /\ w <> RtoC 0 /\
  (forall t, t <> RtoC 0 -> infty_poly x delta M nb r t = RtoC 0 ->
     let p := infty_affine m lc M N a b r t in
     on_curve m lc x (fst p) (snd p) /\ fst p <> RtoC 0 /\ snd p <> RtoC 0 /\ fun_t na nb w (fst p) (snd p) = t /\ fun_r M N w (fst p) (snd p) = (r + t)%C) /\
  (forall X Y, on_curve m lc x X Y -> X <> RtoC 0 -> Y <> RtoC 0 -> fun_r M N w X Y = (r + fun_t na nb w X Y)%C ->
     let t := fun_t na nb w X Y in
     t <> RtoC 0 /\ infty_poly x delta M nb r t = RtoC 0 /\ infty_affine m lc M N a b r t = (X, Y)).
Proof.
  intros Hm Hn Hd HM Hlc [Ha Hb] Hbz nb na r. set (w := cexp (RtoC (1 / INR m) * clog lc)%C).
  assert (m0 : 0 < m) by (rewrite Hm; apply Nat.mul_pos_pos; assumption).
  assert (Hw : cpow w m = lc).
  { unfold w. rewrite cexp_cpow, Cmult_assoc, <- RtoC_mult. replace (INR m * (1 / INR m))%R with 1%R by (field; apply not_0_INR; lia). rewrite Cmult_1_l. apply cexp_clog_id. exact Hlc. }
  assert (Hw0 : w <> RtoC 0) by apply cexp_neq.
  assert (Hbez : nb * N = 1 + na * M) by (unfold nb, na; apply Nat2Z.inj; rewrite Nat2Z.inj_add, !Nat2Z.inj_mul, !Z2Nat.id by lia; change (Z.of_nat 1) with 1%Z; lia).
  exists w. split; [exact Hw|]. split; [exact Hw0|]. split.
  - intros t Ht Hg. assert (Hs : (r + t)%C <> RtoC 0).
    { intros Z0. unfold infty_poly in Hg. rewrite Z0 in Hg. assert (nb <> 0) by (unfold nb; lia). apply one_nz. rewrite <- Hg.
      assert (P1 : forall l, cprod (fun p => RtoC 1 - p * cpow (RtoC 0) nb * cpow t M)%C l = RtoC 1).
      { induction l as [|p l IH]; cbn [cprod]; [reflexivity|]. rewrite IH. destruct nb; [lia|]. cbn [cpow]. ring. }
      rewrite P1. destruct delta; [lia|]. cbn [cpow]. ring. }
    cbv zeta. rewrite affine_is by (try assumption; split; assumption). fold w nb na. cbn [fst snd].
    destruct (par_forward m (N * delta) delta M N na nb x lc w Hm eq_refl Hn Hbez Hw Hw0 (r + t)%C t Hs Ht) as (A & B & D). cbv zeta in A, B, D.
    split; [|split; [|split; [|split]]].
    + apply A. unfold infty_poly in Hg. fold nb in Hg. transitivity (cprod (fun p => RtoC 1 - p * cpow (r + t) nb * cpow t M)%C x - cpow (r + t) delta + cpow (r + t) delta)%C; [ring|rewrite Hg; ring].
    + apply inv_neq, Cmult_neq_0; apply cpow_neq_0; assumption.
    + apply Cmult_neq_0; [exact Hw0|apply inv_neq, Cmult_neq_0; apply cpow_neq_0; assumption].
    + exact D.
    + exact B.
  - intros X Y Hc HX HY Hl t. destruct (par_back M N na nb w Hbez Hw0 X Y HX HY) as (S0 & T0 & EX & EY). cbv zeta in S0, T0, EX, EY. fold t in T0, EX, EY. rewrite Hl in S0, EX, EY. fold t in S0, EX, EY.
    split; [exact T0|]. destruct (par_forward m (N * delta) delta M N na nb x lc w Hm eq_refl Hn Hbez Hw Hw0 (r + t)%C t S0 T0) as (A & _). cbv zeta in A. rewrite <- EX, <- EY in A.
    split; [unfold infty_poly; rewrite (proj1 A Hc); ring|]. rewrite affine_is by (try assumption; split; assumption). fold w nb na. rewrite <- EX, <- EY. reflexivity.
Qed.
