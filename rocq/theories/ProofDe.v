(** Proofs about the parameters of the double exponential rule. *)
From Coq Require Import Reals Lra Lia.
From Coquelicot Require Import Coquelicot.
From Verif Require Import CArg ModelDe SpecDe.
Local Open Scope R_scope.

Lemma alpha_eq j m : (0 < m)%Z -> IZR (m - j) / IZR m = alpha j m.
Proof. intro H. assert (0 < IZR m) by now apply IZR_lt. unfold alpha. rewrite minus_IZR. field. lra. Qed.
Lemma alpha2_eq j m : (0 < m)%Z -> IZR (2 * (m - j)) / IZR m = 2 * alpha j m.
Proof. intro H. rewrite <- alpha_eq by easy. rewrite mult_IZR. unfold Rdiv. ring. Qed.
Lemma alpha_range j m : (0 < j < m)%Z -> 0 < alpha j m < 1.
Proof.
  intros [H1 H2]. assert (0 < IZR j) by now apply IZR_lt.
  assert (IZR j < IZR m) by now apply IZR_lt. unfold alpha.
  assert (0 < IZR j / IZR m) by (apply Rdiv_lt_0_compat; lra).
  assert (IZR j / IZR m < 1) by (apply Rlt_div_l; lra). lra.
Qed.
Lemma Rpower_pos x y : 0 < Rpower x y.
Proof. apply exp_pos. Qed.
Lemma X_r_pos l r : 0 < l -> 0 < r < PI / 2 -> l * sin r < PI / 2 -> 0 < X_r l r.
Proof.
  intros Hl Hr H. assert (0 < sin r) by (apply sin_gt_0; lra).
  assert (0 < cos r) by (apply cos_gt_0; lra).
  unfold X_r. apply Rmult_lt_0_compat; [easy|]. apply sqrt_lt_R0.
  assert (0 < 2 * l * sin r) by (apply Rmult_lt_0_compat; lra).
  assert (1 < PI / (2 * l * sin r)) by (apply Rlt_div_r; lra). lra.
Qed.
Lemma sinh_pos x : 0 < x -> 0 < sinh x.
Proof. intro H. unfold sinh. assert (exp (- x) < exp x) by (apply exp_increasing; lra). lra. Qed.

Section Ok.
  Context (l r : R) (j m : Z) (Hl : 1 <= l) (Hr : 0 < r < PI / 2) (Hlr : l * sin r < PI / 2)
    (Hj : (0 < j < m)%Z).
  Let a := alpha j m.
  Let x := X_r l r.
  Let p := / Rpower (cos (l * sin r)) (2 * a).
  Let q := / Rpower x (2 * a).
  Let s := / (a * Rpower (sinh x) (2 * a)).
  Lemma parts_pos : 0 < a < 1 /\ 0 < x /\ 0 < p /\ 0 < q /\ 0 < s /\ 0 < cos r.
  Proof.
    assert (Ha := alpha_range j m Hj).
    assert (0 < x) by (apply X_r_pos; lra).
    assert (0 < cos r) by (apply cos_gt_0; lra).
    unfold p, q, s, a in *. split; [easy|]. split; [easy|].
    split; [apply Rinv_0_lt_compat, Rpower_pos|]. split; [apply Rinv_0_lt_compat, Rpower_pos|].
    split; [|easy]. apply Rinv_0_lt_compat, Rmult_lt_0_compat; [easy|apply Rpower_pos].
  Qed.
  Lemma code_b_eq : de_constant_b l r j m = (x * (p + q) + 2 * s) / cos r.
  Proof.
    destruct parts_pos as (Ha & Hx & Hp & Hq & Hs & Hc).
    assert (0 < sin r) by (apply sin_gt_0; lra).
    unfold de_constant_b. cbv zeta. rewrite alpha2_eq by lia.
    replace (PI / 2 / (sin r * l)) with (PI / (2 * l * sin r)) by (field; lra).
    fold (X_r l r). fold x. fold a.
    replace (sin r * l) with (l * sin r) by ring.
    replace (Rpower (sinh x) (2 * a) * IZR (m - j) / IZR m) with (a * Rpower (sinh x) (2 * a)).
    2:{ unfold a. rewrite <- (alpha_eq j m) by lia. unfold Rdiv. ring. }
    fold p q s. unfold Rdiv. ring.
  Qed.
  Lemma paper_b_eq : B_r l r a = (x * (p + q) + s) / cos r.
  Proof.
    destruct parts_pos as (Ha & Hx & Hp & Hq & Hs & Hc).
    unfold B_r. fold x. fold p q.
    replace (/ (2 * a * Rpower (sinh x) (2 * a))) with (s / 2).
    2:{ unfold s. field. split; [apply Rgt_not_eq, Rpower_pos|lra]. }
    field. lra.
  Qed.
  Lemma b_pos : 0 < B_r l r a.
  Proof.
    destruct parts_pos as (Ha & Hx & Hp & Hq & Hs & Hc). rewrite paper_b_eq.
    apply Rdiv_lt_0_compat; [|easy]. assert (0 < x * (p + q)) by (apply Rmult_lt_0_compat; lra). lra.
  Qed.
  Lemma b_compare : B_r l r a <= de_constant_b l r j m < 2 * B_r l r a.
  Proof.
    destruct parts_pos as (Ha & Hx & Hp & Hq & Hs & Hc). rewrite paper_b_eq, code_b_eq.
    assert (0 < x * (p + q)) by (apply Rmult_lt_0_compat; lra).
    assert (0 < / cos r) by now apply Rinv_0_lt_compat.
    unfold Rdiv. split.
    - apply Rmult_le_compat_r; lra.
    - rewrite <- Rmult_assoc. apply Rmult_lt_compat_r; lra.
  Qed.
  Lemma code_t_eq h n m1 :
    m1 / (exp ((sinh (h * INR n) * l - ln 2) * IZR (2 * (m - j)) / IZR m) * IZR (m - j) / IZR m * l)
    = e_T h l n m1 a / l.
  Proof.
    destruct parts_pos as (Ha & Hx & Hp & Hq & Hs & Hc).
    unfold e_T. replace ((sinh (h * INR n) * l - ln 2) * IZR (2 * (m - j)) / IZR m)
      with (2 * a * l * sinh (INR n * h) + - (2 * a * ln 2)).
    2:{ transitivity ((sinh (h * INR n) * l - ln 2) * (IZR (2 * (m - j)) / IZR m)); [|unfold Rdiv; ring].
        rewrite alpha2_eq by lia. fold a. rewrite (Rmult_comm h). ring. }
    set (E := exp (2 * a * l * sinh (INR n * h) + - (2 * a * ln 2))).
    replace (E * IZR (m - j) / IZR m) with (E * (IZR (m - j) / IZR m)) by (unfold Rdiv; ring).
    rewrite alpha_eq by lia. fold a. unfold E.
    rewrite exp_plus, !exp_Ropp. fold (Rpower 2 (2 * a)).
    assert (H1 := exp_pos (2 * a * l * sinh (INR n * h))). assert (H2 := Rpower_pos 2 (2 * a)).
    field. repeat split; lra.
  Qed.
  Lemma code_error_eq h n m1 m2 : 0 < h ->
    de_error h l n r m1 m2 j m
    = e_T h l n m1 a / l + m2 * de_constant_b l r j m / (exp (2 * PI * r / h) - 1).
  Proof.
    intro Hh. unfold de_error. rewrite code_t_eq. f_equal. f_equal. f_equal. f_equal. f_equal. ring.
  Qed.
  Lemma exp_h h : 0 < h -> 0 < exp (2 * PI * r / h) - 1.
  Proof.
    intro Hh. assert (0 < 2 * PI * r / h).
    { apply Rdiv_lt_0_compat; [|easy]. assert (HP := PI_RGT_0).
      apply Rmult_lt_0_compat; lra. }
    assert (H2 := exp_increasing _ _ H). rewrite exp_0 in H2. lra.
  Qed.
  Lemma e_T_pos h n m1 : 0 < m1 -> 0 < e_T h l n m1 a.
  Proof.
    intro H. destruct parts_pos as (Ha & _). unfold e_T. apply Rmult_lt_0_compat; [|apply exp_pos].
    apply Rdiv_lt_0_compat; [|easy]. apply Rmult_lt_0_compat; [apply Rpower_pos|easy].
  Qed.
  Lemma error_below h n m1 m2 : 0 < h -> 0 < m1 -> 0 < m2 ->
    de_error h l n r m1 m2 j m < published h l n r m1 m2 a.
  Proof.
    intros Hh H1 H2. rewrite code_error_eq by easy. unfold published, e_Q.
    assert (He := exp_h h Hh). assert (HT := e_T_pos h n m1 H1). destruct b_compare as [B1 B2].
    apply Rplus_le_lt_compat.
    - apply Rle_div_l; [lra|]. rewrite <- (Rmult_1_r (e_T h l n m1 a)) at 1. apply Rmult_le_compat_l; lra.
    - unfold Rdiv. apply Rmult_lt_compat_r; [now apply Rinv_0_lt_compat|].
      rewrite (Rmult_comm 2 m2), Rmult_assoc. now apply Rmult_lt_compat_l.
  Qed.
  Lemma error_within h n m1 m2 : l <= 2 -> 0 < h -> 0 <= m1 -> 0 <= m2 ->
    published h l n r m1 m2 a <= 2 * de_error h l n r m1 m2 j m.
  Proof.
    intros Hl2 Hh H1 H2. rewrite code_error_eq by easy. unfold published, e_Q.
    assert (He := exp_h h Hh). destruct b_compare as [B1 B2].
    assert (HT : 0 <= e_T h l n m1 a).
    { destruct parts_pos as (Ha & _). unfold e_T. apply Rmult_le_pos; [|apply Rlt_le, exp_pos].
      apply Rmult_le_pos; [|left; apply Rinv_0_lt_compat; lra]. apply Rmult_le_pos; [apply Rlt_le, Rpower_pos|easy]. }
    rewrite Rmult_plus_distr_l. apply Rplus_le_compat.
    - replace (2 * (e_T h l n m1 a / l)) with (e_T h l n m1 a * (2 / l)) by (field; lra).
      rewrite <- (Rmult_1_r (e_T h l n m1 a)) at 1. apply Rmult_le_compat_l; [easy|].
      apply Rle_div_r; lra.
    - unfold Rdiv. rewrite <- Rmult_assoc. apply Rmult_le_compat_r; [now left; apply Rinv_0_lt_compat|].
      rewrite Rmult_assoc. apply Rmult_le_compat_l; [lra|]. now apply Rmult_le_compat_l.
  Qed.
End Ok.

(** ** The constant M1 *)
Lemma m1_product_eq u p : m1_product u p =
  p * fold_right Rmult 1 (map (fun z => if Rle_dec (Rabs (fst z)) 1 then Rabs (snd z) else Cmod z) u).
Proof.
  revert p. induction u as [|z u IH]; intro p; cbn [m1_product map fold_right]; [ring|].
  destruct (Rle_dec _ _); rewrite IH; ring.
Qed.
Lemma rroot_mono m x y : (0 < m)%Z -> 0 < x -> x <= y -> rroot m x <= rroot m y.
Proof.
  intros Hm Hx Hxy. unfold rroot. destruct (Rlt_dec 0 x), (Rlt_dec 0 y); try lra.
  destruct Hxy as [Hxy| ->]; [|lra]. apply Rlt_le, Rlt_Rpower_l; [|lra].
  apply Rinv_0_lt_compat, IZR_lt, Hm.
Qed.
Lemma prod_mono (f g : C -> R) u : Forall (fun z => 0 < f z <= g z) u ->
  0 < fold_right Rmult 1 (map f u) <= fold_right Rmult 1 (map g u).
Proof.
  induction 1 as [|z u [H1 H2] H [IH1 IH2]]; cbn; [lra|]. split; [now apply Rmult_lt_0_compat|].
  apply Rmult_le_compat; lra.
Qed.
Lemma Im_le_dist x z : Rabs (snd z) <= Cmod (RtoC x - z)%C.
Proof.
  eapply Rle_trans; [|apply Rmax_Cmod]. eapply Rle_trans; [|apply Rmax_r].
  cbn. right. rewrite <- Rabs_Ropp. f_equal. ring.
Qed.
Lemma m1_valid u m x : (0 < m)%Z -> Forall (fun z => Rabs (fst z) <= 1 /\ snd z <> 0) u ->
  inv_y u m x <= de_constant_m1 u m.
Proof.
  intros Hm H. unfold inv_y, de_constant_m1. rewrite m1_product_eq, Rmult_1_l.
  assert (HP := prod_mono (fun z => if Rle_dec (Rabs (fst z)) 1 then Rabs (snd z) else Cmod z)
    (fun z => Cmod (RtoC x - z)%C) u). destruct HP as [P1 P2].
  { eapply Forall_impl; [|exact H]. intros z [Z1 Z2]. cbn beta. destruct (Rle_dec _ _); [|easy].
    split; [now apply Rabs_pos_lt|apply Im_le_dist]. }
  apply Rinv_le_contravar; [now apply rroot_pos|]. now apply rroot_mono.
Qed.
Lemma m1_invalid m : (0 < m)%Z ->
  de_constant_m1 [RtoC (11 / 10)] m < inv_y [RtoC (11 / 10)] m 1.
Proof.
  intro Hm. unfold de_constant_m1, inv_y. rewrite m1_product_eq. cbn [map fold_right].
  assert (H0 : forall a : R, fst (RtoC a) = a) by easy. rewrite H0.
  rewrite (Rabs_pos_eq (11 / 10)) by lra. destruct (Rle_dec (11 / 10) 1); [lra|].
  rewrite <- RtoC_minus, !Cmod_R, (Rabs_pos_eq (11 / 10)) by lra.
  replace (Rabs (1 - 11 / 10)) with (1 / 10) by (rewrite Rabs_left; lra).
  assert (Hr : 0 < / IZR m) by (apply Rinv_0_lt_compat, IZR_lt, Hm).
  apply Rinv_lt_contravar.
  { apply Rmult_lt_0_compat; apply rroot_pos; lra. }
  unfold rroot. destruct (Rlt_dec _ _), (Rlt_dec _ _); try lra. apply Rlt_Rpower_l; lra.
Qed.
