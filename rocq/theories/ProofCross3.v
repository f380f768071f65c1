(** Intersection numbers are determined; edges of a tree meet transversally. *)
From Coq Require Import Reals Lra Lia List ZArith.
From Coquelicot Require Import Coquelicot.
From Verif Require Import CArg ModelTree ModelPeriod ModelInter ModelEdge SpecTree SpecInter SpecEdge SpecDeq SpecCross ModelDeq ModelCurve
  ProofInterMain ProofEdge ProofAngle ProofLat7 ProofLat8 ProofFree ProofDeq3 ProofExtra ProofCross ProofCross2.
Import ListNotations.
Local Open Scope R_scope.

Lemma Cmult_eq_reg_l' (a b c : C) : a <> RtoC 0 -> (a * b)%C = (a * c)%C -> b = c.
Proof. intros H E. transitivity (/ a * (a * b))%C; [field; exact H|]. rewrite E. field. exact H. Qed.
Lemma along_unique z a b : along z a -> along z b -> exists k, b = a + 2 * PI * IZR k.
Proof.
  intros [N E1] [_ E2]. assert (P := proj1 (Cmod_gt_0 z) N). apply cis_eq. apply (Cmult_eq_reg_l' (RtoC (Cmod z))); [intro X; injection X; lra|]. congruence.
Qed.
Lemma ccw_exclusive p z r : ccw p z r -> ccw r z p -> False.
Proof.
  intros (a & b & c & H1 & H2 & Ap & Az & Ar) (c' & b' & a' & H1' & H2' & Ar' & Az' & Ap').
  destruct (along_unique _ _ _ Ap Ap') as [i ->]. destruct (along_unique _ _ _ Az Az') as [j ->]. destruct (along_unique _ _ _ Ar Ar') as [k ->]. assert (P := PI_RGT_0).
  assert (J : (k < j)%Z). { apply lt_IZR. apply (Rmult_lt_reg_l (2 * PI)); lra. }
  assert (I : (j < i)%Z). { apply lt_IZR. apply (Rmult_lt_reg_l (2 * PI)); lra. }
  assert (K : (i < k + 2)%Z). { apply lt_IZR. rewrite plus_IZR. apply (Rmult_lt_reg_l (2 * PI)); lra. }
  lia.
Qed.
Lemma crossing_unique p q n n' : crossing p q n -> crossing p q n' -> n = n'.
Proof.
  unfold crossing. intros H H'. assert (X := ccw_exclusive (fst p) (fst q) (snd p)). assert (X' := ccw_exclusive (fst p) (snd q) (snd p)).
  destruct H as [(-> & A & B)|[(-> & A & B)|(-> & [(A & B)|(A & B)])]]; destruct H' as [(-> & A' & B')|[(-> & A' & B')|(-> & [(A' & B')|(A' & B')])]]; reflexivity || (exfalso; tauto).
Qed.
Lemma crossings_unique l n n' : crossings l n -> crossings l n' -> n = n'.
Proof.
  intro H. revert n'. induction H as [|p q l n N H IH|p q l k n N K H IH]; intros n' H'; inversion H'; subst; try reflexivity; try contradiction.
  - now apply IH.
  - f_equal; [eapply crossing_unique; eassumption|now apply IH].
Qed.
Lemma turn_sign_nz p q : turn_sign p q <> 0%Z -> fst p * snd q - snd p * fst q <> 0.
Proof. unfold turn_sign. intros H E. rewrite E in H. destruct (Rlt_dec 0 0); [lra|]. now apply H. Qed.
Lemma point_lin a b t : edge_point a b (RtoC t) = (a + RtoC ((1 + t) / 2) * (b - a))%C.
Proof. rewrite <- point_from. do 2 f_equal. field. Qed.
Lemma meet_unique a b a' b' t t' s s' : turn_sign (b - a)%C (b' - a')%C <> 0%Z ->
  edge_point a b (RtoC t) = edge_point a' b' (RtoC t') -> edge_point a b (RtoC s) = edge_point a' b' (RtoC s') -> t = s /\ t' = s'.
Proof.
  intro H. apply turn_sign_nz in H. rewrite !point_lin. intros E1 E2.
  assert (F1 := f_equal fst E1). assert (G1 := f_equal snd E1). assert (F2 := f_equal fst E2). assert (G2 := f_equal snd E2). cbn in *.
  set (p := fst b + - fst a) in *. set (q := snd b + - snd a) in *. set (p' := fst b' + - fst a') in *. set (q' := snd b' + - snd a') in *.
  assert (D : p * q' - q * p' <> 0) by exact H.
  assert (F : (t - s) * p = (t' - s') * p') by lra. assert (G : (t - s) * q = (t' - s') * q') by lra.
  assert (T : (t - s) * (p * q' - q * p') = 0).
  { replace ((t - s) * (p * q' - q * p')) with ((t - s) * p * q' - (t - s) * q * p') by ring. rewrite F, G. ring. }
  assert (T' : (t' - s') * (p * q' - q * p') = 0).
  { replace ((t' - s') * (p * q' - q * p')) with (p * ((t' - s') * q') - q * ((t' - s') * p')) by ring. rewrite <- F, <- G. ring. }
  apply Rmult_integral in T. apply Rmult_integral in T'. destruct T as [T|T]; [|contradiction]. destruct T' as [T'|T']; [|contradiction]. lra.
Qed.
Lemma inside_unique m a b Y u a' b' Y' v n n' : crossings_inside m a b Y u a' b' Y' v n -> crossings_inside m a b Y u a' b' Y' v n' -> n = n'.
Proof.
  intros [H|t t' H1 H2 E N] [H'|s s' H1' H2' E' N'].
  - reflexivity.
  - exfalso. exact (H s s' H1' H2' E').
  - exfalso. exact (H' t t' H1 H2 E).
  - destruct (meet_unique _ _ _ _ _ _ _ _ N E E') as [-> ->]. reflexivity.
Qed.
Theorem number_unique m x e ya yb Y u e' ya' yb' Y' v N N' :
  loop_number m x e ya yb Y u e' ya' yb' Y' v N -> loop_number m x e ya yb Y u e' ya' yb' Y' v N' -> N = N'.
Proof.
  intros (N1 & N2 & -> & (e0 & P0 & H1) & H2) (N1' & N2' & -> & (e1 & P1 & H1') & H2').
  assert (Q : 0 < Rmin e0 e1 / 2 < Rmin e0 e1) by (assert (0 < Rmin e0 e1) by (apply Rmin_pos; assumption); lra).
  assert (Q0 := Rmin_l e0 e1). assert (Q1 := Rmin_r e0 e1).
  rewrite (crossings_unique _ _ _ (H1 (Rmin e0 e1 / 2) ltac:(lra)) (H1' (Rmin e0 e1 / 2) ltac:(lra))). f_equal.
  destruct (_ && _)%bool; [congruence|]. eapply inside_unique; eassumption.
Qed.

(** ** sheets over a point *)
Lemma same_root m a b : (1 <= m)%Z -> root m a = root m b -> ((a - b) mod m = 0)%Z.
Proof.
  intros Hm E. assert (M0 : 0 < IZR m) by (apply IZR_lt; lia). assert (P := PI_RGT_0). unfold root in E. destruct (cis_eq _ _ E) as [k K].
  assert (X : IZR (a - b) = IZR (m * k)). { rewrite minus_IZR, mult_IZR. apply (Rmult_eq_reg_l (2 * PI / IZR m)); [|apply Rgt_not_eq, Rdiv_lt_0_compat; lra].
    replace (2 * PI / IZR m * (IZR m * IZR k)) with (2 * PI * IZR k) by (field; lra). unfold Rdiv in *. lra. }
  apply eq_IZR in X. rewrite X, Z.mul_comm. apply Z.mod_mul. lia.
Qed.
Lemma root_same m a b : (1 <= m)%Z -> ((a - b) mod m = 0)%Z -> root m a = root m b.
Proof.
  intros Hm E. rewrite <- (root_mod m a), <- (root_mod m b) by lia. f_equal. apply Z.mod_divide in E; [|lia]. destruct E as [k K].
  replace a with (b + k * m)%Z by lia. apply Z.mod_add. lia.
Qed.
Lemma equal_powers m y y' : (1 <= m)%nat -> y <> RtoC 0 -> y' <> RtoC 0 -> cpow y m = cpow y' m -> exists r, y' = (root (Z.of_nat m) r * y)%C.
Proof.
  intros Hm Hy Hy' E. assert (M0 : 0 < IZR (Z.of_nat m)) by (apply IZR_lt; lia).
  assert (P1 := proj1 (Cmod_gt_0 y) Hy). assert (P2 := proj1 (Cmod_gt_0 y') Hy').
  assert (Em : Cmod y = Cmod y').
  { apply (f_equal Cmod) in E. rewrite !cpow_mod in E. apply (pow_inj_pos m); lra || lia || assumption. }
  destruct (along_exists y Hy) as [a [_ A]]. destruct (along_exists y' Hy') as [b [_ B]].
  rewrite A, B, !cpow_mul, !cis_cpow, Em in E. apply Cmult_eq_reg_l' in E; [|apply cpow_neq_0; intro X; injection X; lra].
  apply cis_eq in E. destruct E as [k K]. exists (- k)%Z. rewrite A, B, Em. unfold root. transitivity (RtoC (Cmod y') * (cis a * cis (2 * PI * IZR (- k) / IZR (Z.of_nat m))))%C; [|ring].
  rewrite ProofCross.cis_add. do 2 f_equal. rewrite opp_IZR. rewrite !INR_IZR_INZ in K. apply (Rmult_eq_reg_l (IZR (Z.of_nat m))); [|lra]. rewrite Rmult_plus_distr_l.
  replace (IZR (Z.of_nat m) * (2 * PI * - IZR k / IZR (Z.of_nat m))) with (- (2 * PI * IZR k)) by (field; lra). lra.
Qed.
Lemma lifts_mod m y y' u v r : (1 <= m)%Z -> y <> RtoC 0 -> y' = (root m r * y)%C ->
  lifts m y y' u v = (2 * dlt0 m (u - v - r) - dlt0 m (u - v - 1 - r) - dlt0 m (u - v + 1 - r))%Z.
Proof.
  intros Hm Hy E. unfold lifts.
  assert (S : forall a b, (if Ceq_dec (root m a * y)%C (root m b * y')%C then 1 else 0)%Z = dlt0 m (a - b - r)).
  { intros a b. unfold dlt0. rewrite E. destruct (Ceq_dec _ _) as [Q|Q].
    - rewrite Cmult_assoc in Q. rewrite !(Cmult_comm _ y) in Q. apply Cmult_eq_reg_l' in Q; [|exact Hy]. rewrite <- root_add in Q. apply same_root in Q; [|exact Hm].
      replace (a - b - r)%Z with (a - (b + r))%Z by lia. now rewrite Q.
    - destruct (Z.eqb_spec ((a - b - r) mod m) 0) as [Z0|Z0]; [|reflexivity]. exfalso. apply Q. rewrite Cmult_assoc, <- root_add. f_equal. apply root_same; [exact Hm|].
      now replace (a - (b + r))%Z with (a - b - r)%Z by lia. }
  rewrite !S. replace (u + 1 - (v + 1) - r)%Z with (u - v - r)%Z by lia. replace (u - (v + 1) - r)%Z with (u - v - 1 - r)%Z by lia. replace (u + 1 - v - r)%Z with (u - v + 1 - r)%Z by lia. lia.
Qed.
Lemma dlt0_0 m a : (1 <= m)%Z -> (a mod m = 0)%Z -> dlt0 m a = 1%Z.
Proof. intros _ H. unfold dlt0. now rewrite H. Qed.
Lemma lifts_nonzero m y y' : (2 <= m)%nat -> y <> RtoC 0 -> y' <> RtoC 0 -> cpow y m = cpow y' m ->
  exists u v, (0 <= u < Z.of_nat m - 1)%Z /\ (0 <= v < Z.of_nat m - 1)%Z /\ lifts (Z.of_nat m) y y' u v <> 0%Z.
Proof.
  intros Hm Hy Hy' E. destruct (equal_powers m y y' ltac:(lia) Hy Hy' E) as [r R]. set (M := Z.of_nat m) in *. assert (M2 : (2 <= M)%Z) by (unfold M; lia).
  rewrite <- (root_mod M r) in R by lia. assert (B := Z.mod_pos_bound r M ltac:(lia)). set (s := (r mod M)%Z) in *.
  assert (D : forall u v, lifts M y y' u v = (2 * dlt0 M (u - v - s) - dlt0 M (u - v - 1 - s) - dlt0 M (u - v + 1 - s))%Z) by (intros; apply lifts_mod; [lia|exact Hy|exact R]).
  destruct (ProofInterMain.one_mod M M2) as [D1 D2].
  assert (N1 : dlt0 M 1 = 0%Z) by (unfold dlt0; destruct (Z.eqb_spec (1 mod M) 0); [contradiction|reflexivity]).
  assert (N2 : dlt0 M (-1) = 0%Z) by (unfold dlt0; destruct (Z.eqb_spec ((-1) mod M) 0); [contradiction|reflexivity]).
  assert (N0 : dlt0 M 0 = 1%Z) by (apply dlt0_0; [lia|apply Z.mod_0_l; lia]).
  destruct (Z.lt_ge_cases s (M - 1)) as [L|L].
  - exists s, 0%Z. split; [lia|]. split; [lia|]. rewrite D. replace (s - 0 - s)%Z with 0%Z by lia. replace (s - 0 - 1 - s)%Z with (-1)%Z by lia. replace (s - 0 + 1 - s)%Z with 1%Z by lia. lia.
  - assert (Es : s = (M - 1)%Z) by lia. destruct (Z.eq_dec M 2) as [E2|E2].
    + exists 0%Z, 0%Z. split; [lia|]. split; [lia|]. rewrite D, Es, E2. vm_compute. discriminate.
    + exists 0%Z, 1%Z. split; [lia|]. split; [lia|]. rewrite D, Es.
      assert (Q : forall a, dlt0 M (a - M) = dlt0 M a). { intro a. unfold dlt0. replace (a - M)%Z with (a + (-1) * M)%Z by lia. now rewrite Z.mod_add by lia. }
      replace (0 - 1 - (M - 1))%Z with (0 - M)%Z by lia. replace (0 - 1 - 1 - (M - 1))%Z with (-1 - M)%Z by lia. replace (0 - 1 + 1 - (M - 1))%Z with (1 - M)%Z by lia. rewrite !Q. lia.
Qed.
