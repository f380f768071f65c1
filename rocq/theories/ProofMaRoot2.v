(** The data of an edge in the Magma package and the branch evaluated along it. *)
From Coquelicot Require Import Coquelicot.
From Verif Require Import CArg ModelTree ModelVec ModelPeriod ModelTurn ModelEdge ModelMaRoot SpecEdge SpecTurn SpecMaRoot ProofEdge ProofTurn ProofMaRoot ProofErr3 ProofHol11.
Local Open Scope R_scope.

(** ** sorting *)
Lemma sort_spec v : let '(u, up) := sort_by_real_part v in
  Permutation v u /\ (up <= length u)%nat /\
  (forall p, In p (firstn up u) -> 0 < fst p) /\ (forall p, In p (skipn up u) -> fst p <= 0).
Proof.
  assert (H : forall (v o : list C) up, (up <= length o)%nat ->
    (forall p, In p (firstn up o) -> 0 < fst p) -> (forall p, In p (skipn up o) -> fst p <= 0) ->
    let '(u, up) := fold_left sort_step v (o, up) in
    Permutation (v ++ o) u /\ (up <= length u)%nat /\
    (forall p, In p (firstn up u) -> 0 < fst p) /\ (forall p, In p (skipn up u) -> fst p <= 0)).
  { clear v. induction v as [|z v IH]; intros o up H1 H2 H3; cbn [fold_left app]; [auto|]. cbn [sort_step].
    destruct (Rle_dec (fst z) 0) as [Hz|Hz].
    - specialize (IH (o ++ [z]) up). destruct (fold_left sort_step v (o ++ [z], up)) as [u up'].
      destruct IH as (P & L & A & B).
      + rewrite app_length. lia.
      + rewrite firstn_app. replace (up - length o)%nat with 0%nat by lia. cbn [firstn]. rewrite app_nil_r. exact H2.
      + rewrite skipn_app. replace (up - length o)%nat with 0%nat by lia. cbn [skipn]. intros p Hp.
        apply in_app_or in Hp. destruct Hp as [Hp|[<-|[]]]; [apply H3, Hp|exact Hz].
      + repeat split; try assumption. rewrite <- P. rewrite Permutation_middle. apply Permutation_app_head.
        apply Permutation_cons_append.
    - specialize (IH (z :: o) (S up)). destruct (fold_left sort_step v (z :: o, S up)) as [u up'].
      destruct IH as (P & L & A & B).
      + cbn [length]. lia.
      + cbn [firstn]. intros p [<-|Hp]; [lra|apply H2, Hp].
      + cbn [skipn]. exact H3.
      + repeat split; try assumption. rewrite <- P. apply Permutation_middle. }
  specialize (H v [] 0%nat). cbn [length firstn skipn In] in H. unfold sort_by_real_part.
  destruct (fold_left sort_step v ([], 0%nat)) as [u up]. rewrite app_nil_r in H. apply H; [lia|tauto|tauto].
Qed.

(** ** the other points *)
Lemma nth_remove (l : list C) i k d : (i < length l)%nat -> nth k (remove_at l i) d = nth (if (k <? i)%nat then k else S k) l d.
Proof.
  intros Hi. unfold remove_at. destruct (Nat.ltb_spec k i).
  - rewrite app_nth1 by (rewrite firstn_length; lia). rewrite <- (firstn_skipn i l) at 2.
    rewrite app_nth1 by (rewrite firstn_length; lia). reflexivity.
  - rewrite app_nth2 by (rewrite firstn_length; lia). rewrite firstn_length, Nat.min_l by lia.
    rewrite <- (firstn_skipn (S i) l) at 2. rewrite app_nth2; rewrite firstn_length, Nat.min_l by lia; [|lia].
    f_equal; lia.
Qed.
Lemma remove_length (l : list C) i : (i < length l)%nat -> (length (remove_at l i) + 1 = length l)%nat.
Proof. intros H. unfold remove_at. rewrite app_length, firstn_length, skipn_length. lia. Qed.
Lemma list_seq (l : list C) : l = map (vget l) (seq 0 (length l)).
Proof. symmetry. apply roots_list. Qed.

Lemma remove_split (l : list C) i : (i < length l)%nat -> Permutation (vget l i :: remove_at l i) l.
Proof.
  revert i. induction l as [|z l IH]; intros [|i] H; cbn [length] in H; try lia; [reflexivity|].
  unfold remove_at. cbn [firstn skipn app]. change (vget (z :: l) (S i)) with (vget l i).
  rewrite perm_swap. constructor. apply (IH i). lia.
Qed.

Lemma remove_two (l : list C) i j : (i < length l)%nat -> (j < length l)%nat -> i <> j ->
  Permutation (if (i <? j)%nat then remove_at (remove_at l i) (j - 1) else remove_at (remove_at l j) (i - 1))
    (map (vget l) (other_points (length l) i j)).
Proof.
  assert (H : forall i j, (i < j)%nat -> (j < length l)%nat ->
    Permutation (remove_at (remove_at l i) (j - 1)) (map (vget l) (other_points (length l) i j))).
  { intros i0 j0 Hij Hj.
    apply (Permutation_cons_inv (a := vget l j0)). apply (Permutation_cons_inv (a := vget l i0)).
    pose proof (remove_length l i0 ltac:(lia)) as HL.
    assert (E : vget (remove_at l i0) (j0 - 1) = vget l j0).
    { unfold vget. rewrite nth_remove by lia. destruct (Nat.ltb_spec (j0 - 1) i0); [lia|]. f_equal. lia. }
    transitivity (vget l i0 :: remove_at l i0).
    - constructor. rewrite <- E. apply remove_split. lia.
    - rewrite remove_split by lia. rewrite (list_seq l) at 1.
      rewrite (Permutation_map (vget l) (other_points_perm (length l) i0 j0 ltac:(lia) Hj ltac:(lia))). cbn [map]. reflexivity. }
  intros Hi Hj Hne. destruct (Nat.ltb_spec i j) as [Hij|Hij]; [apply H; assumption|].
  assert (E : other_points (length l) i j = other_points (length l) j i).
  { unfold other_points. apply filter_ext. intros k. rewrite orb_comm. reflexivity. }
  rewrite E. apply H; lia.
Qed.

(** ** the constant of an edge *)
Lemma clog_neg z : snd z = 0 -> fst z < 0 -> (clog (- z) + (0, PI))%C = clog z.
Proof.
  intros H1 H2. pose proof PI_RGT_0 as Hpi.
  assert (Ez : z = (RtoC (- fst z) * cis PI)%C) by (rewrite cis_PI; unfold Cmult, RtoC; cbn [fst snd]; rewrite (surjective_pairing z) at 1; rewrite H1; f_equal; ring).
  unfold clog. rewrite Cmod_opp, (carg_unique z (- fst z) PI); [|lra|lra|exact Ez].
  rewrite (carg_unique (- z)%C (- fst z) 0); [|lra|lra|].
  - unfold Cplus. cbn [fst snd]. f_equal; ring.
  - rewrite cis_0, Cmult_1_r. unfold Copp, RtoC. rewrite H1. f_equal. ring.
Qed.

Lemma cexp_power z m n : (0 < m)%nat -> z <> RtoC 0 -> cpow (cexp (RtoC (INR n / INR m) * clog z)%C) m = cpow z n.
Proof.
  intros Hm Hz. apply Cmod_gt_0 in Hz. assert (Hm0 : INR m <> 0) by (apply not_0_INR; lia).
  rewrite (carg_polar z) at 2. rewrite cpow_mul, cpow_RtoC, cis_cpow.
  assert (E : (RtoC (INR n / INR m) * clog z)%C = (INR n / INR m * ln (Cmod z), INR n / INR m * carg z)).
  { unfold clog, Cmult, RtoC. cbn [fst snd]. f_equal; ring. }
  rewrite E. unfold cexp. cbn [fst snd]. rewrite cpow_mul, cpow_RtoC, cis_cpow. f_equal.
  - f_equal.
    fold (Rpower (Cmod z) (INR n / INR m)). rewrite <- Rpower_pow by apply exp_pos.
    rewrite Rpower_mult. replace (INR n / INR m * INR m) with (INR n) by (field; exact Hm0). apply Rpower_pow, Hz.
  - f_equal. field. exact Hm0.
Qed.

Lemma c_ab_spec bma up m n : (2 <= m)%nat -> bma <> RtoC 0 ->
  exists c, c_ab bma up m n (zetas m) = Done c /\ cpow c m = (sg (S up) * cpow bma n)%C /\ c <> RtoC 0.
Proof.
  intros Hm Hb. unfold c_ab.
  pose proof (Nat.mod_upper_bound (up + 1) 2 ltac:(lia)) as Hr. set (r := ((up + 1) mod 2)%nat) in *.
  assert (Ez : vread (zetas m) r = Done (cis (PI * INR r / INR m))).
  { pose proof (zetas_read m (Z.of_nat r) ltac:(lia)) as E. rewrite Z.mod_small in E by lia. rewrite Nat2Z.id in E.
    rewrite E, <- INR_IZR_INZ. reflexivity. }
  rewrite Ez. cbn [bind].
  eexists. split; [reflexivity|]. cbv zeta. match goal with |- cpow ?z _ = _ /\ _ => set (c := z) end.
  assert (Ec : c = (cexp (RtoC (INR n / INR m) * clog bma) * cis (PI * INR r / INR m))%C).
  { unfold c. destruct (Req_EM_T (snd bma) 0) as [H1|]; [|reflexivity]. destruct (Rlt_dec (fst bma) 0) as [H2|]; [|reflexivity].
    rewrite clog_neg by assumption. reflexivity. }
  assert (E : cpow c m = (sg (S up) * cpow bma n)%C).
  { rewrite Ec, cpow_mul, cexp_power by (lia || assumption). rewrite Cmult_comm. f_equal.
    rewrite cis_cpow. assert (Hm0 : INR m <> 0) by (apply not_0_INR; lia).
    replace (INR m * (PI * INR r / INR m)) with (INR r * PI) by (field; exact Hm0).
    rewrite <- cis_cpow, cis_PI. unfold sg.
    assert (Hdm := Nat.div_mod (up + 1) 2 ltac:(lia)). fold r in Hdm.
    replace (S up) with (2 * ((up + 1) / 2) + r)%nat by lia. rewrite cpow_add.
    assert (E2 : forall q, cpow (RtoC (-1)) (2 * q) = RtoC 1).
    { induction q as [|q IHq]; [reflexivity|]. replace (2 * S q)%nat with (S (S (2 * q))) by lia. cbn [cpow]. rewrite IHq, m1. ring. }
    rewrite E2. ring. }
  split; [exact E|]. intros H. rewrite H in E. destruct m as [|m]; [lia|]. cbn [cpow] in E. rewrite Cmult_0_r in E.
  symmetry in E. revert E. apply Cmult_neq_0'; [apply sg_neq|apply cpow_neq_0, Hb].
Qed.

(** ** signs of the factors *)
Definition isgns (u : list C) (up : nat) : list Z :=
  map im_sgn (firstn up u) ++ map (fun z => (- im_sgn z)%Z) (skipn up u).
Lemma isgns_length u up : length (isgns u up) = length u.
Proof. unfold isgns. rewrite app_length, !map_length, <- app_length, firstn_skipn. reflexivity. Qed.
Lemma nth_split (u : list C) up k : nth k u (RtoC 0) =
  if (k <? length (firstn up u))%nat then nth k (firstn up u) (RtoC 0) else nth (k - length (firstn up u)) (skipn up u) (RtoC 0).
Proof.
  rewrite <- (firstn_skipn up u) at 1. destruct (Nat.ltb_spec k (length (firstn up u))); [rewrite app_nth1|rewrite app_nth2]; auto; lia.
Qed.
Lemma im_sgn_opp_ne p : snd p <> 0 -> im_sgn (- p)%C = (- im_sgn p)%Z.
Proof.
  intros H. unfold im_sgn, Copp. cbn [snd]. destruct (Req_EM_T (snd p) 0); [contradiction|].
  destruct (Req_EM_T (- snd p) 0); [lra|]. destruct (Rlt_dec 0 (snd p)), (Rlt_dec 0 (- snd p)); try lra; reflexivity.
Qed.

Section Factor.
Context (u : list C) (up : nat) (rest : list C) (t : R).
Hypothesis Hup : (up <= length u)%nat.
Hypothesis Hpos : forall p, In p (firstn up u) -> 0 < fst p.
Hypothesis Hneg : forall p, In p (skipn up u) -> fst p <= 0.
Hypothesis Hoff : forall p s, In p u -> -1 <= s <= 1 -> p <> RtoC s.
Hypothesis Ht : -1 <= t <= 1.
Let e := {| e_data := u ++ rest; e_up := up; e_isgn := isgns u up |}.

Lemma side k : (k < length u)%nat ->
  afac e t k = fac u up t k /\
  (k < up)%nat /\ 0 < fst (nth k u (RtoC 0)) /\ asg e k = im_sgn (nth k u (RtoC 0)) \/
  afac e t k = fac u up t k /\
  (up <= k)%nat /\ fst (nth k u (RtoC 0)) <= 0 /\ asg e k = (- im_sgn (nth k u (RtoC 0)))%Z.
Proof using All.
  intros Hk. assert (L1 : length (firstn up u) = up) by (rewrite firstn_length; lia).
  assert (E : afac e t k = fac u up t k).
  { unfold afac, fac, e, vget. cbn [e_data e_up]. rewrite app_nth1 by exact Hk. reflexivity. }
  unfold asg. cbn [e e_isgn]. unfold isgns. rewrite (nth_split u up k), L1.
  destruct (Nat.ltb_spec k up) as [H|H].
  - left. split; [exact E|]. split; [exact H|]. split.
    + apply Hpos, nth_In. lia.
    + rewrite app_nth1 by (rewrite map_length; lia). rewrite (nth_indep _ 0%Z (im_sgn (RtoC 0))) by (rewrite map_length; lia). apply map_nth.
  - right. split; [exact E|]. split; [exact H|]. assert (L2 : (k - up < length (skipn up u))%nat) by (rewrite skipn_length; lia). split.
    + apply Hneg, nth_In, L2.
    + rewrite app_nth2; rewrite map_length, L1; [|lia].
      rewrite (nth_indep _ 0%Z (- im_sgn (RtoC 0))%Z) by (rewrite map_length; lia).
      exact (map_nth (fun z => (- im_sgn z)%Z) (skipn up u) (RtoC 0) (k - up)).
Qed.

Lemma carg_real r : 0 < r -> carg (RtoC r) = 0.
Proof. intros H. pose proof PI_RGT_0. apply (carg_unique _ r 0); [exact H|lra|]. rewrite cis_0. ring. Qed.
Lemma carg_nonreal z : snd z <> 0 -> z <> RtoC 0 /\ (im_sgn z = 1%Z /\ 0 < carg z < PI \/ im_sgn z = (-1)%Z /\ - PI < carg z < 0).
Proof.
  intros H. assert (Hz : z <> RtoC 0) by (intros E; apply H; rewrite E; reflexivity).
  split; [exact Hz|]. destruct (re_im z) as [_ Ei].
  destruct (im_cases z Hz) as [[E R]|[E R]]; [left|right; auto]. split; [exact E|].
  split; apply Rnot_le_lt; intros H0.
  - apply H. rewrite Ei. replace (carg z) with 0 by lra. rewrite sin_0. ring.
  - apply H. rewrite Ei. replace (carg z) with PI by lra. rewrite sin_PI. ring.
Qed.

Lemma factor_good k : (k < length u)%nat -> good (afac e t k, asg e k) /\
  (carg (afac e t k) = 0 /\ asg e k = (-1)%Z <-> (up <= k)%nat /\ snd (nth k u (RtoC 0)) = 0).
Proof using All.
  intros Hk. pose proof PI_RGT_0 as Hpi. set (p := nth k u (RtoC 0)).
  assert (Hin : In p u) by (apply nth_In, Hk).
  destruct (side k Hk) as [(E & H & Hre & Es)|(E & H & Hre & Es)]; fold p in Hre, Es; rewrite E, Es; unfold fac; fold p;
    destruct (Nat.ltb_spec k up); try lia; destruct (Req_EM_T (snd p) 0) as [Hi|Hi].
  - assert (Ep : p = RtoC (fst p)) by (rewrite (surjective_pairing p), Hi; reflexivity).
    assert (H1 : 1 < fst p) by (apply Rnot_le_lt; intros H1; apply (Hoff p (fst p) Hin ltac:(lra) Ep)).
    assert (Ef : (p - RtoC t)%C = RtoC (fst p - t)) by (rewrite Ep at 1; rewrite RtoC_minus; reflexivity).
    rewrite Ef. split.
    + split; [cbn [fst]; intros Hz; injection Hz; lra|]. left. cbn [fst snd]. rewrite carg_real by lra. unfold im_sgn.
      destruct (Req_EM_T (snd p) 0); [|contradiction]. split; [reflexivity|lra].
    + split; [intros [_ Hs]|lia]. unfold im_sgn in Hs. destruct (Req_EM_T (snd p) 0); [discriminate|contradiction].
  - assert (Hn : snd (p - RtoC t)%C <> 0) by (cbn; lra).
    assert (Hsg : im_sgn (p - RtoC t)%C = im_sgn p).
    { unfold im_sgn. replace (snd (p - RtoC t)%C) with (snd p) by (cbn; ring). reflexivity. }
    destruct (carg_nonreal _ Hn) as [Hz Hc]. rewrite Hsg in Hc. split.
    + split; [exact Hz|]. cbn [fst snd]. destruct Hc as [[-> Hc]|[-> Hc]]; [left|right]; split; auto; lra.
    + split; [intros [Hs _]|lia]. lra.
  - assert (Ep : p = RtoC (fst p)) by (rewrite (surjective_pairing p), Hi; reflexivity).
    assert (H1 : fst p < -1) by (apply Rnot_le_lt; intros H1; apply (Hoff p (fst p) Hin ltac:(lra) Ep)).
    assert (Ef : (RtoC t - p)%C = RtoC (t - fst p)) by (rewrite Ep at 1; rewrite RtoC_minus; reflexivity).
    assert (Hsg : im_sgn p = 1%Z) by (unfold im_sgn; destruct (Req_EM_T (snd p) 0); [reflexivity|contradiction]).
    rewrite Ef, Hsg. split.
    + split; [cbn [fst]; intros Hz; injection Hz; lra|]. right. cbn [fst snd]. rewrite carg_real by lra. split; [reflexivity|lra].
    + split; [intros _; auto|intros _]. split; [apply carg_real; lra|reflexivity].
  - assert (Hn : snd (RtoC t - p)%C <> 0) by (cbn; lra).
    assert (Hsg : im_sgn (RtoC t - p)%C = (- im_sgn p)%Z).
    { rewrite <- im_sgn_opp_ne by exact Hi. unfold im_sgn. replace (snd (RtoC t - p)%C) with (snd (- p)%C) by (cbn; ring). reflexivity. }
    destruct (carg_nonreal _ Hn) as [Hz Hc]. rewrite <- Hsg. split.
    + split; [exact Hz|]. cbn [fst snd]. destruct Hc as [[-> Hc]|[-> Hc]]; [left|right]; split; auto; lra.
    + split; [intros [Hs _]; lra|intros [_ Hs]; contradiction].
Qed.

(** two real points behind the start of the edge *)
Definition spurious : Prop :=
  up = 0%nat /\ (2 <= length u)%nat /\ snd (nth 0 u (RtoC 0)) = 0 /\ snd (nth 1 u (RtoC 0)) = 0.

Lemma root_along m : (2 <= m)%nat -> (1 <= length u)%nat ->
  exists k : Z, (spurious /\ k = 1%Z \/ ~ spurious /\ k = 0%Z) /\
  ac_mth_root t e (zetas m) m (length u) = Done (root (Z.of_nat m) (- k) * y_tilde (Z.of_nat m) u up (RtoC t))%C.
Proof using All.
  intros Hm Hn.
  destruct (ac_mth_root_ok m (length u) e t Hm Hn) as (k & Hk & E).
  - cbn [e e_data]. rewrite app_length. lia.
  - cbn [e e_isgn]. rewrite isgns_length. lia.
  - apply Forall_forall. intros ts Hin. unfold pairs in Hin. apply in_map_iff in Hin. destruct Hin as (j & <- & Hj).
    apply in_seq in Hj. apply factor_good. lia.
  - exists k. split.
    + assert (Hiff : odd_start (pairs e t (seq 0 (length u))) <-> spurious).
      { unfold spurious. destruct (le_lt_dec 2 (length u)) as [HL|HL]; swap 1 2.
        - assert (EL : length u = 1%nat) by lia. rewrite EL. cbn. split; [tauto|lia].
        - destruct (factor_good 0 ltac:(lia)) as [_ F0]. destruct (factor_good 1 ltac:(lia)) as [_ F1].
          assert (EL : pairs e t (seq 0 (length u)) = (afac e t 0, asg e 0) :: (afac e t 1, asg e 1) :: pairs e t (seq 2 (length u - 2))).
          { replace (length u) with (S (S (length u - 2))) at 1 by lia. reflexivity. }
          rewrite EL. cbn [odd_start]. split.
          + intros (A & B & C & D). destruct (proj1 F0 (conj A B)). destruct (proj1 F1 (conj C D)). repeat split; auto; lia.
          + intros (A & B & C & D). destruct (proj2 F0 ltac:(split; [lia|exact C])). destruct (proj2 F1 ltac:(split; [lia|exact D])). auto. }
      tauto.
    + rewrite E. f_equal. f_equal. rewrite <- root_pol_tilde, edge_def_same. f_equal. unfold factors.
      apply map_ext_in. intros j Hj. apply in_seq in Hj. destruct (side j ltac:(lia)) as [(Ej & _)|(Ej & _)]; exact Ej.
Qed.
End Factor.
