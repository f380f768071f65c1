(** The search ends with valid parameters when the branch points are not spread over more than a
    power of the tolerance. *)
From Coq Require Import Reals Lra Lia List ZArith Permutation.
From Coquelicot Require Import Coquelicot.
From Verif Require Import CArg ModelTree ModelCurve ModelPeriod ModelEdge ModelGc SpecTree SpecEdge SpecDeq SpecGc SpecFree ModelDe ModelDeq
  ProofGc ProofEdge ProofTree ProofTreeEx ProofAngle ProofFree ProofSymp ProofDeq3 ProofErr6 ProofHyp.
Import ListNotations.
Local Open Scope R_scope.

(** half sum of a point scaled to the edge (a, b) *)
Lemma half_sum_scaled a b z : a <> b ->
  half_sum ((RtoC 2 * z - (b + a)) / (b - a))%C = (Cmod (z - a)%C + Cmod (z - b)%C) / Cmod (b - a)%C.
Proof.
  intro H. assert (N : (b - a)%C <> RtoC 0). { intro E. apply H. replace b with (a + (b - a))%C by ring. rewrite E. ring. }
  unfold half_sum.
  replace ((RtoC 2 * z - (b + a)) / (b - a) - RtoC 1)%C with (RtoC 2 * ((z - b) / (b - a)))%C.
  2:{ replace (RtoC 2) with (RtoC 1 + RtoC 1)%C by (rewrite <- RtoC_plus; f_equal; lra). field. exact N. }
  replace ((RtoC 2 * z - (b + a)) / (b - a) + RtoC 1)%C with (RtoC 2 * ((z - a) / (b - a)))%C.
  2:{ replace (RtoC 2) with (RtoC 1 + RtoC 1)%C by (rewrite <- RtoC_plus; f_equal; lra). field. exact N. }
  rewrite !Cmod_mult, !Cmod_div, Cmod_R, Rabs_pos_eq by (try exact N; lra). field. intro E. apply Cmod_eq_0 in E. now apply N.
Qed.
Lemma prod_bound q l : 0 <= q -> Forall (fun x => 0 <= x <= q) l -> fold_right Rmult 1 l <= q ^ length l.
Proof.
  intros Hq. induction 1 as [|x l [H0 H1] H IH]; cbn; [lra|]. apply Rmult_le_compat; try assumption.
  clear IH. induction H as [|y l [] H IH]; cbn; [lra|]. now apply Rmult_le_pos.
Qed.

Lemma spread_reach nonpos neg sort param x m n r mn es r' mn' ys d p lo hi : distinct x -> (3 <= length x)%nat -> (2 <= m)%nat -> (n < length x)%nat -> qsort_ok sort ->
  tells_apart x param ->
  spanning_tree sort param (length x) n r mn = Done (es, r', mn') -> tree_ydata nonpos neg x (Z.of_nat m) es = Done ys ->
  0 < lo -> (forall y z, In y x -> In z x -> y <> z -> lo <= Cmod (y - z)%C <= hi) -> (0 < p)%Z -> (2 * hi / lo) ^ (length x - 2) <= Rpower 4 (IZR p) ->
  forall ye, In ye ys -> y_u ye <> [] /\ within_reach d p (y_u ye).
Proof.
  intros Hd H3 Hm Hn Hs Ho Et Ey Hlo Hx Hp Hpow ye Hye.
  destruct (tree_parameters _ _ _ _ _ _ _ _ _ _ _ _ _ Hd H3 Hm Hn Hs Ho Et Ey ye Hye) as [H1 _].
  destruct (tree_ydata_in _ _ _ _ _ _ _ Ey Hye) as (e & He & Eye).
  destruct (tree_final sort param (length x) n r mn ltac:(intro; apply (Hs l)) Hn) as (l0 & r1 & mn1 & Et' & Hlen & Hgr & _ & _ & Hto & _).
  rewrite Et in Et'. injection Et' as <- <- <-. destruct (growing_edges es (length x) Hgr Hto e He) as (A1 & A2 & A3).
  assert (Nab := vget_neq x Hd _ _ A1 A2 A3).
  destruct (init_spec (nonpos e) (neg e) x (ea e) (eb e) m A1 A2 Nab ltac:(lia)) as (y & E & HP & _). rewrite Eye in E. injection E as <-.
  assert (HL := Permutation_length HP). rewrite map_length in HL. assert (HO := other_points_length (length x) (ea e) (eb e)).
  assert (HL' : length (y_u ye) = (length x - 2)%nat) by lia.
  split; [intro E; rewrite E in HL'; cbn in HL'; lia|]. split; [exact Hp|].
  assert (B : fold_right Rmult 1 (map half_sum (y_u ye)) <= Rpower 4 (IZR p)).
  { eapply Rle_trans; [|exact Hpow]. rewrite <- HL', <- (map_length half_sum). 
    assert (Dab := Hx _ _ (nth_In x (RtoC 0) A2) (nth_In x (RtoC 0) A1) (fun E => Nab (eq_sym E))). change (nth (ea e) x (RtoC 0)) with (vget x (ea e)) in Dab. change (nth (eb e) x (RtoC 0)) with (vget x (eb e)) in Dab.
    assert (Q : forall z, In z (y_u ye) -> half_sum z <= 2 * hi / lo).
    { intros z Hz. apply (Permutation_in z (Permutation_sym HP)) in Hz. apply in_map_iff in Hz. destruct Hz as (k & <- & Hk).
      apply filter_In in Hk. destruct Hk as [Hk1 Hk2]. apply in_seq in Hk1. apply Bool.negb_true_iff, Bool.orb_false_iff in Hk2. destruct Hk2 as [K1 K2]. apply Nat.eqb_neq in K1, K2.
      unfold scaled. rewrite half_sum_scaled by exact Nab.
      assert (Hk : (k < length x)%nat) by lia.
      assert (D1 := Hx _ _ (nth_In x (RtoC 0) Hk) (nth_In x (RtoC 0) A1) (vget_neq x Hd _ _ Hk A1 K1)).
      assert (D2 := Hx _ _ (nth_In x (RtoC 0) Hk) (nth_In x (RtoC 0) A2) (vget_neq x Hd _ _ Hk A2 K2)). fold (vget x k) (vget x (ea e)) (vget x (eb e)) in D1, D2.
      unfold Rdiv. apply Rmult_le_compat; [|left; apply Rinv_0_lt_compat; lra|lra|apply Rinv_le_contravar; lra].
      lra. }
    assert (Q0 : 0 <= 2 * hi / lo) by (apply Rdiv_le_0_compat; lra).
    apply prod_bound; [exact Q0|]. apply Forall_map, Forall_forall. intros z Hz. split; [|apply Q, Hz]. destruct (H1 z Hz). lra. }
  apply Forall_forall. intros z Hz. destruct (H1 z Hz) as [Hz1 _]. split; [exact Hz1|]. eapply Rle_trans; [exact B|].
  rewrite <- (Rmult_1_r (Rpower 4 (IZR p))) at 1. apply Rmult_le_compat_l; [left; apply exp_pos|]. apply pow_R1_Rle. lra.
Qed.
