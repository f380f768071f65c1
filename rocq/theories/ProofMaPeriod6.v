(** Period matrices of the Magma package: the leading coefficient. *)
From Coquelicot Require Import Coquelicot.
From Verif Require Import CArg ModelTree ModelVec ModelPeriod ModelTurn ModelSymp SpecSymp SpecInter ModelMaRoot ModelMaDiff ModelMaFactor ModelMaSum ModelMaTree ModelMaInter ModelMaSymp ModelMaAjm ModelMaPeriod SpecVec SpecPeriod SpecCurve SpecTree SpecTurn SpecMaRoot SpecMaFactor SpecQuad SpecMaSum SpecMaTree SpecDeq SpecCross SpecMaInter SpecMaSymp SpecMaPeriod ProofEdge ProofVec ProofTree ProofPeriod ProofSympRank ProofMaTree4 ProofMaTree5 ProofMaDiff ProofMaFactor2 ProofMaAjm ProofMaAjm3 ProofMaPeriod ProofMaPeriod2 ProofMaPeriod3 ProofMaPeriod4 ProofMaPeriod5 ProofAngle SpecEdge.
From Coq Require Import ClassicalEpsilon.
Local Open Scope nat_scope.

Lemma wroot_one m : wroot m (RtoC 1) = RtoC 1.
Proof.
  unfold wroot, clog. rewrite Cmod_1, ln_1.
  assert (E : carg (RtoC 1) = 0%R).
  { apply (carg_unique _ 1); [lra|pose proof PI_RGT_0; lra|]. unfold cis. rewrite cos_0, sin_0. apply injective_projections; cbn; ring. }
  rewrite E. replace (RtoC (1 / INR m) * (0%R, 0%R))%C with (RtoC 0) by (apply injective_projections; cbn; ring).
  unfold cexp. cbn [fst snd RtoC]. rewrite exp_0. unfold cis. rewrite cos_0, sin_0. apply injective_projections; cbn; ring.
Qed.

(** ** both calls *)
Lemma points_scaled rank inv rinv sort choose o p x m lc s err : sort_ok sort -> distinct x -> same_sides p x -> 3 <= length x -> 2 <= m -> lc <> RtoC 0 ->
  (forall d t, ma_differentials (Z.of_nat m) (Z.of_nat (length x)) = Done d -> spanning_tree_ma sort (chosen_type m OOpt) p = Done t ->
     schemes_fit m d (length x - 1) (choose t) s) ->
  exists d w, ma_differentials (Z.of_nat m) (Z.of_nat (length x)) = Done d /\ cpow w m = lc /\
  (big_of_polynomial rank inv rinv sort choose OOpt p x m lc err = Abort /\ big_of_points rank inv rinv sort choose o p x m lc err = Abort \/
   exists B B', big_of_polynomial rank inv rinv sort choose OOpt p x m lc err = Done B /\ big_of_points rank inv rinv sort choose o p x m lc err = Done B' /\
     forall q i col, q < length (md_df d) -> (Z.of_nat i < nth q (md_df d) 0)%Z -> col < 2 * Z.to_nat (md_g d) ->
       mget B' (offset (md_df d) q + i) col = (cpow w (Z.to_nat (md_jm d + Z.of_nat q)) * mget B (offset (md_df d) q + i)%nat col)%C).
Proof.
  intros Hso Hd Hp Hn Hm Hlc Hsch.
  destruct (curve_run sort choose OOpt p x m s Hso Hd Hp Hn Hm Hsch) as (t & ty' & d & ds & T & b & ya & yb & Y & B0 & E & Edd & Ed & ET & Sq & HS & HDS & HLM & Eb & Sb & Ub & G2 & LP & _ & _ & Hlcs).
  destruct (Hlcs lc Hlc) as (elem & big & Hrun & _ & _ & _ & Hsc). destruct (Hlcs (RtoC 1) one_nz) as (elem1 & big1 & Hrun1 & _ & _ & _ & Hsc1).
  exists d, (wroot m lc). split; [exact Edd|]. split; [exact (wroot_pow m lc Hm Hlc)|]. unfold big_of_polynomial, big_of_points. rewrite Hrun, Hrun1.
  destruct (negb (rank T =? 2 * Z.to_nat (md_g d))); [left; split; reflexivity|]. right. unfold reduction_matrix, small_matrix. cbn [bind p_big].
  exists big, big1. split; [reflexivity|]. split; [reflexivity|]. intros q i col Hq Hi Hc. rewrite Hsc, Hsc1 by assumption. rewrite wroot_one.
  assert (O1 : forall k, cpow (RtoC 1) k = RtoC 1) by (induction k as [|k IH]; cbn [cpow]; [reflexivity|rewrite IH; ring]). rewrite O1.
  field. split; [apply cpow_neq_0; apply wroot_neq|exact one_nz].
Qed.

(** ** the small matrix *)
Lemma inverse_unique n a b b' : inverse_of n a b -> inverse_of n a b' -> forall i j, i < n -> j < n -> mget b i j = mget b' i j.
Proof.
  intros H H' i j Hi Hj. rewrite <- (csum_delta n i (fun l => mget b' l j) Hi).
  transitivity (csum n (fun l => csum n (fun k => mget b i k * mget a k l * mget b' l j)))%C.
  - rewrite csum_swap. transitivity (csum n (fun k => mget b i k * cdelta k j)%C).
    + rewrite (csum_single n _ j Hj); unfold cdelta; [rewrite Nat.eqb_refl; ring|]. intros k Hk Nk. destruct (Nat.eqb_spec k j); [congruence|]. ring.
    + apply csum_ext. intros k Hk. destruct (H' k j Hk Hj) as [<- _]. rewrite <- csum_scal. apply csum_ext. intros. ring.
  - apply csum_ext. intros l Hl. destruct (H i l Hi Hl) as [_ <-]. rewrite <- csum_scal_r. reflexivity.
Qed.
Lemma small_scaled inv small err g big big' (c : nat -> C) : inv_ok inv -> (forall i, i < g -> c i <> RtoC 0) ->
  (forall i k, i < g -> k < 2 * g -> mget big' i k = (c i * mget big i k)%C) ->
  small_matrix inv small err g big' = small_matrix inv small err g big.
Proof.
  intros Hinv Hc HB. unfold small_matrix. destruct small; [|reflexivity].
  assert (HL : forall i k, i < g -> k < g -> mget (left_half g big) i k = mget big i k) by (intros i k Hi Hk; unfold left_half; apply (mget_rows g g (fun i k => mget big i k)); assumption).
  assert (HL' : forall i k, i < g -> k < g -> mget (left_half g big') i k = (c i * mget big i k)%C) by (intros i k Hi Hk; unfold left_half; rewrite (mget_rows g g (fun i k => mget big' i k)) by assumption; apply HB; lia).
  (* from an inverse of one half to one of the other *)
  set (sc := fun (f : nat -> C) (a : cmat) => map (fun i => vtab g (fun k => mget a i k * f k)%C) (seq 0 g)).
  assert (Hsc : forall f a i k, i < g -> k < g -> mget (sc f a) i k = (mget a i k * f k)%C) by (intros f a i k Hi Hk; unfold sc; apply (mget_rows g g (fun i k => mget a i k * f k)%C); assumption).
  assert (I1 : forall a, inverse_of g (left_half g big) a -> inverse_of g (left_half g big') (sc (fun k => / c k)%C a)).
  { intros a Ha i j Hi Hj. destruct (Ha i j Hi Hj) as [A1 A2]. split.
    - transitivity (c i * / c j * cdelta i j)%C; [|unfold cdelta; destruct (Nat.eqb_spec i j) as [->|]; [field; apply Hc, Hj|ring]].
      rewrite <- A1, <- csum_scal. apply csum_ext. intros k Hk. rewrite HL', Hsc, HL by assumption. ring.
    - rewrite <- A2. apply csum_ext. intros k Hk. rewrite HL', Hsc, HL by assumption. field. apply Hc, Hk. }
  assert (I2 : forall a, inverse_of g (left_half g big') a -> inverse_of g (left_half g big) (sc c a)).
  { intros a Ha i j Hi Hj. destruct (Ha i j Hi Hj) as [A1 A2]. split.
    - transitivity (/ c i * c j * cdelta i j)%C; [|unfold cdelta; destruct (Nat.eqb_spec i j) as [->|]; [field; apply Hc, Hj|ring]].
      rewrite <- A1, <- csum_scal. apply csum_ext. intros k Hk. rewrite HL', Hsc, HL by assumption. field. apply Hc, Hi.
    - rewrite <- A2. apply csum_ext. intros k Hk. rewrite HL', Hsc, HL by assumption. ring. }
  pose proof (Hinv g (left_half g big)) as J1. pose proof (Hinv g (left_half g big')) as J2.
  destruct (inv g (left_half g big)) as [a|], (inv g (left_half g big')) as [a'|].
  - assert (Et : times_right g a' big' = times_right g a big); [|rewrite Et; reflexivity].
    unfold times_right. apply map_ext_in. intros i Hi. apply in_seq in Hi. unfold vtab. apply map_ext_in. intros k Hk. apply in_seq in Hk. apply csum_ext. intros l Hl.
    rewrite (inverse_unique g _ a' _ J2 (I1 a J1) i l) by lia. rewrite Hsc, HB by lia. field. apply Hc. lia.
  - exfalso. exact (J2 _ (I1 a J1)).
  - exfalso. exact (J1 _ (I2 a' J2)).
  - reflexivity.
Qed.

Lemma small_same rank inv rinv sort choose o p x m lc s err : inv_ok inv -> sort_ok sort -> distinct x -> same_sides p x -> 3 <= length x -> 2 <= m -> lc <> RtoC 0 ->
  (forall d t, ma_differentials (Z.of_nat m) (Z.of_nat (length x)) = Done d -> spanning_tree_ma sort (chosen_type m o) p = Done t ->
     schemes_fit m d (length x - 1) (choose t) s) ->
  small_of_points rank inv rinv sort choose o p x m lc err = small_of_polynomial rank inv rinv sort choose o p x m lc err.
Proof.
  intros Hinv Hso Hd Hp Hn Hm Hlc Hsch.
  destruct (curve_run sort choose o p x m s Hso Hd Hp Hn Hm Hsch) as (t & ty' & d & ds & T & b & ya & yb & Y & B0 & E & Edd & Ed & ET & Sq & HS & HDS & HLM & Eb & Sb & Ub & G2 & LP & _ & _ & Hlcs).
  destruct (Hlcs lc Hlc) as (elem & big & Hrun & _ & _ & _ & Hsc). destruct (Hlcs (RtoC 1) one_nz) as (elem1 & big1 & Hrun1 & _ & _ & _ & Hsc1).
  unfold small_of_polynomial, small_of_points. rewrite Hrun, Hrun1. destruct (negb (rank T =? 2 * Z.to_nat (md_g d))); [reflexivity|]. unfold reduction_matrix. cbn [bind].
  pose proof (diff_facts (Z.of_nat m) (Z.of_nat (length x)) d Edd ltac:(lia) ltac:(lia)) as (_ & _ & _ & _ & TG & JP & _).
  set (c := fun ct => match nth_error (md_jpows d) ct with Some jp => (/ cpow (wroot m lc) (Z.to_nat jp))%C | None => RtoC 0 end).
  assert (Fi : forall ct, ct < Z.to_nat (md_g d) -> exists q i, q < length (md_df d) /\ (Z.of_nat i < nth q (md_df d) 0)%Z /\ ct = offset (md_df d) q + i) by (intros ct Hct; apply offset_find; lia).
  assert (Wn : forall k, cpow (wroot m lc) k <> RtoC 0) by (intros k; apply cpow_neq_0, wroot_neq).
  rewrite (small_scaled inv true err (Z.to_nat (md_g d)) big1 big c Hinv).
  - destruct (small_matrix inv true err (Z.to_nat (md_g d)) big1); reflexivity.
  - intros ct Hct. destruct (Fi ct Hct) as (q & i & Hq & Hi & ->). unfold c. rewrite (JP q i Hq Hi). intros X. apply one_nz. rewrite <- (Cinv_r _ (Wn (Z.to_nat (md_jm d + Z.of_nat q)))), X. ring.
  - intros ct k Hct Hk. destruct (Fi ct Hct) as (q & i & Hq & Hi & ->). unfold c. rewrite (JP q i Hq Hi). rewrite Hsc, Hsc1 by assumption. rewrite wroot_one.
    assert (O1 : forall k, cpow (RtoC 1) k = RtoC 1) by (induction k0 as [|k0 IH]; cbn [cpow]; [reflexivity|rewrite IH; ring]). rewrite O1. field. first [exact one_nz|split; [apply Wn|exact one_nz]|split; [exact one_nz|apply Wn]].
Qed.

(** ** three points: the two calls differ *)
Definition x98 : list C := [RtoC 0; RtoC 1; RtoC 3].
Lemma x98_distinct : distinct x98.
Proof.
  unfold distinct, x98. repeat constructor; cbn; intros H; repeat (destruct H as [H|H]); try (apply RtoC_inj in H; lra); try exact H.
Qed.
Definition one_node : sptree * itype -> list nat * list scheme := fun _ => ([0; 0], [GjScheme [] 1]).
Lemma one_node_fit d t : schemes_fit 2 d 2 (one_node t) (fun _ => GjScheme [] 1).
Proof. intros k Hk. exists 0. cbn. split; [destruct k as [|[|]]; [reflexivity|reflexivity|lia]|]. split; [reflexivity|]. lia. Qed.

Lemma root_two : (root (Z.of_nat 2) (- (Z.of_nat 0 * Z.of_nat 1)) - root (Z.of_nat 2) (- ((Z.of_nat 0 + 1) * Z.of_nat 1)))%C = RtoC 2.
Proof.
  unfold root. cbn [Z.of_nat Z.mul Z.add Z.opp Pos.of_succ_nat Pos.succ Pos.mul]. unfold cis.
  replace (2 * PI * IZR 0 / IZR 2)%R with 0%R by (simpl; field). replace (2 * PI * IZR (-1) / IZR 2)%R with (- PI)%R by (simpl; field).
  rewrite cos_0, sin_0, cos_neg, sin_neg, cos_PI, sin_PI. apply injective_projections; cbn; ring.
Qed.
Lemma diff23 : exists d, ma_differentials 2 (Z.of_nat 3) = Done d /\ md_df d = [1%Z] /\ md_jm d = 1%Z /\ md_g d = 1%Z.
Proof. eexists. split; [vm_compute; reflexivity|]. repeat split. Qed.

Lemma points_refuted rank inv rinv : rank_ok rank -> inv_ok inv -> rinv_ok rinv ->
  exists B B', big_of_polynomial rank inv rinv rsort one_node OOpt x98 x98 2 (RtoC 4) 0 = Done B /\ big_of_points rank inv rinv rsort one_node OOpt x98 x98 2 (RtoC 4) 0 = Done B' /\
    exists col, col < 2 /\ mget B' 0 col <> mget B 0 col.
Proof.
  intros Hrk Hinv Hrinv. assert (L4 : RtoC 4 <> RtoC 0) by (intros E; apply RtoC_inj in E; lra).
  assert (Hs : forall d t, ma_differentials (Z.of_nat 2) (Z.of_nat (length x98)) = Done d -> spanning_tree_ma rsort (chosen_type 2 OOpt) x98 = Done t ->
     schemes_fit 2 d (length x98 - 1) (one_node t) (fun _ => GjScheme [] 1)) by (intros d t _ _; apply one_node_fit).
  destruct (points_scaled rank inv rinv rsort one_node OOpt x98 x98 2 (RtoC 4) _ 0 rsort_ok x98_distinct (same_sides_refl _) (le_n 3) (le_n 2) L4 Hs) as (d & w & Edd & Hw & Hpt).
  destruct (hyper_periods rank inv rinv rsort one_node OOpt x98 x98 (RtoC 4) _ Hrk Hinv Hrinv rsort_ok x98_distinct (same_sides_refl _) (le_n 3) L4 Hs) as (_ & _ & _ & _ & _ & _ & _ & _ & _ & _ & _ & _ & _ & _ & _ & _ & _ & _ & _ & _ & (r & Er) & _).
  destruct (curve_run rsort one_node OOpt x98 x98 2 _ rsort_ok x98_distinct (same_sides_refl _) (le_n 3) (le_n 2) Hs) as (t & ty' & d2 & ds & T & b & ya & yb & Y & B0 & E & Edd2 & Ed & ET & Sq & HS & HDS & HLM & Eb & Sb & Ub & G2 & LP & HY & HE & Hlcs).
  destruct (Hlcs (RtoC 4) L4) as (elem & big & Hrun & _ & Hper & _ & _). clear Hlcs HS HDS HLM.
  change (Z.of_nat 2) with 2%Z in Edd, Edd2. change (length x98) with 3 in *. rewrite Edd in Edd2. injection Edd2 as <-.
  destruct diff23 as (d' & Ed' & D1 & D2 & D3). rewrite Edd in Ed'. injection Ed' as <-.
  destruct Hpt as [[A _]|(B & B' & EB & EB' & HBB)]; [unfold big_of_polynomial in A; rewrite Er in A; discriminate|].
  exists B, B'. split; [exact EB|]. split; [exact EB'|].
  assert (HB : B = big).
  { unfold big_of_polynomial in EB. rewrite Hrun in EB. destruct (negb _); [discriminate|]. unfold reduction_matrix, small_matrix in EB. cbn [bind p_big] in EB. injection EB as ->. reflexivity. }
  subst B. rewrite D1, D2, D3 in HBB. cbn [length] in HBB.
  assert (HW : forall col, col < 2 -> mget B' 0 col = (w * mget big 0 col)%C).
  { intros col Hc. pose proof (HBB 0 0 col ltac:(lia) ltac:(cbn; lia) Hc) as X. change (offset [1%Z] 0 + 0) with 0 in X. change (Z.to_nat (1 + Z.of_nat 0)) with 1 in X. cbn [cpow] in X. rewrite X. ring. }
  assert (Hw1 : w <> RtoC 1). { intros ->. cbn [cpow] in Hw. apply (f_equal fst) in Hw. cbn in Hw. lra. }
  assert (NZ : exists col, col < 2 /\ mget big 0 col <> RtoC 0).
  2: { destruct NZ as (col & Hc & N). exists col. split; [exact Hc|]. rewrite (HW col Hc). intros X. apply N.
    assert (Y0 : ((w - RtoC 1) * mget big 0 col)%C = RtoC 0) by (transitivity (w * mget big 0 col - mget big 0 col)%C; [ring|rewrite X; ring]).
    destruct (Ceq_dec (mget big 0 col) (RtoC 0)) as [Z0|Z0]; [exact Z0|]. exfalso. refine (Cmult_neq_0 _ _ _ Z0 Y0). intros W. apply Hw1. transitivity (w - RtoC 1 + RtoC 1)%C; [ring|rewrite W; ring]. }
  set (I := fun k => over_loop 2 1 0 (scheme_rule 2 (GjScheme [] 1) 0 1 (form_on_edge x98 (ea (nth k (plains (s_edges t)) no_edge)) (eb (nth k (plains (s_edges t)) no_edge)) (fun t => wroot 2 (RtoC 4) * Y k t)%C 1 0))).
  assert (HI : forall col, col < 2 -> mget big 0 col = csum 2 (fun k => ZC (get b col k) * I k)%C).
  { intros col Hc. unfold periods_over in Hper. rewrite D1, D2, D3 in Hper. pose proof (Hper 0 0 col ltac:(cbn; lia) ltac:(cbn; lia) Hc) as X. cbv zeta in X. rewrite LP in X. change (offset [1%Z] 0 + 0) with 0 in X. rewrite X.
    apply csum_ext. intros k Hk. change (2 - 1) with 1. cbn [csum]. rewrite Nat.mul_1_r, Nat.add_0_r. change (Z.to_nat (1 + Z.of_nat 0)) with 1. fold (I k). ring. }
  assert (I0 : I 0 <> RtoC 0).
  { unfold I, over_loop. rewrite root_two. cbn [scheme_rule Nat.eqb]. unfold gc_rule. cbn [csum].
    assert (N0 : gc_node 1 0 = 0%R). { unfold gc_node. cbn [Nat.mul Nat.add INR]. replace (1 * PI / (2 * 1))%R with (PI / 2)%R by field. apply cos_PI2. }
    rewrite N0. unfold form_on_edge. cbn [cpow]. replace (1 - 0 * 0)%R with 1%R by ring. rewrite sqrt_1.
    pose proof (HE 0 ltac:(lia)) as HE0. pose proof (HY 0 0%R ltac:(lia) ltac:(lra)) as HY0.
    set (A := vget x98 (ea (nth 0 (plains (s_edges t)) no_edge))) in *. set (A' := vget x98 (eb (nth 0 (plains (s_edges t)) no_edge))) in *.
    assert (P0 : RtoC (PI / INR 1) <> RtoC 0). { intros X. apply RtoC_inj in X. pose proof PI_RGT_0. cbn [INR] in X. lra. }
    assert (T0 : RtoC 2 <> RtoC 0) by (intros X; apply RtoC_inj in X; lra). pose proof (wroot_neq 2 (RtoC 4)) as W0.
    intros X. apply HE0. assert (X2 : (A' - A)%C = RtoC 0).
    { transitivity ((RtoC 2 * (RtoC (PI / INR 1) * (RtoC 0 + RtoC 1 * ((A' - A) / RtoC 2 * RtoC 1 / (wroot 2 (RtoC 4) * Y 0 0%R * RtoC 1))))) * (/ RtoC (PI / INR 1) * (wroot 2 (RtoC 4) * Y 0 0%R)))%C; [field; repeat split; assumption|].
      match type of X with ?l = _ => match goal with |- (?l' * _)%C = _ => replace l' with l end end; [rewrite X; ring|]. field. repeat split; assumption. }
    transitivity (A' - (A' - A))%C; [ring|rewrite X2; ring]. }
  destruct (Ceq_dec (mget big 0 0) (RtoC 0)) as [Z0|Z0]; [|exists 0; split; [lia|exact Z0]].
  destruct (Ceq_dec (mget big 0 1) (RtoC 0)) as [Z1|Z1]; [|exists 1; split; [lia|exact Z1]].
  exfalso. apply I0. destruct Ub as (q & _ & Hq). change ((3 - 1) * (2 - 1)) with 2 in Hq.
  destruct (Hq 0 0 ltac:(lia) ltac:(lia)) as [_ Q0]. destruct (Hq 0 1 ltac:(lia) ltac:(lia)) as [_ Q1]. cbn [zsum] in Q0, Q1. change (delta 0 0) with 1%Z in Q0. change (delta 0 1) with 0%Z in Q1.
  pose proof (HI 0 ltac:(lia)) as H0. pose proof (HI 1 ltac:(lia)) as H1. rewrite Z0 in H0. rewrite Z1 in H1. cbn [csum] in H0, H1.
  assert (C0 := f_equal ZC Q0). assert (C1 := f_equal ZC Q1). unfold ZC in *. rewrite !plus_IZR, !mult_IZR, !RtoC_plus, !RtoC_mult in C0, C1.
  match type of C0 with ?c0 = _ => match type of C1 with ?c1 = _ => transitivity (c0 * I 0 + c1 * I 1)%C end end; [rewrite C0, C1; simpl; ring|].
  transitivity (RtoC (IZR (get q 0 0)) * (RtoC 0 + RtoC (IZR (get b 0 0)) * I 0 + RtoC (IZR (get b 0 1)) * I 1) + RtoC (IZR (get q 0 1)) * (RtoC 0 + RtoC (IZR (get b 1 0)) * I 0 + RtoC (IZR (get b 1 1)) * I 1))%C; [ring|].
  rewrite <- H0, <- H1. ring.
Qed.

(** ** ranks and inverses exist *)
Lemma rank_bound r a n : r < n -> ~ rank_at_least r n a.
Proof.
  intros Hn (v & H). destruct (homogeneous r n (fun i j => zsum r (fun l => v i l * get a l j)%Z) Hn) as (c & (i & Hi & Ni) & Hc). apply Ni. exact (H c Hc i Hi).
Qed.
Lemma oracles_exist : exists rank inv rinv, rank_ok rank /\ inv_ok inv /\ rinv_ok rinv.
Proof.
  assert (Rk : forall a : mat, exists k, forall r, square r a -> rank_at_least r k a /\ ~ rank_at_least r (S k) a).
  { intros a. destruct (classic (exists r, square r a)) as [(r & Hr)|N].
    2: { exists 0. intros r Hr. exfalso. apply N. exists r. exact Hr. }
    assert (U : forall r', square r' a -> r' = r) by (intros r' [E' _]; destruct Hr as [E _]; congruence).
    assert (G : forall n, (exists k, rank_at_least r k a /\ ~ rank_at_least r (S k) a) \/ rank_at_least r n a).
    { induction n as [|n [IH|IH]]; [right; exists (fun _ _ => 0%Z); intros c _ i Hi; lia|left; exact IH|].
      destruct (classic (rank_at_least r (S n) a)) as [Y|Y]; [right; exact Y|]. left. exists n. split; assumption. }
    destruct (G (S r)) as [(k & Hk)|Hk]; [|exfalso; exact (rank_bound r a (S r) ltac:(lia) Hk)].
    exists k. intros r' Hr'. rewrite (U r' Hr'). exact Hk. }
  assert (A : forall {X} (P : X -> Prop), exists o, match o with Some b => P b | None => forall b, ~ P b end).
  { intros X P. destruct (classic (exists b, P b)) as [(b & Hb)|N]; [exists (Some b); exact Hb|]. exists None. intros b Hb. apply N. exists b. exact Hb. }
  exists (fun a => proj1_sig (constructive_indefinite_description _ (Rk a))).
  exists (fun n a => proj1_sig (constructive_indefinite_description _ (A cmat (inverse_of n a)))).
  exists (fun n a => proj1_sig (constructive_indefinite_description _ (A (list (list R)) (rinverse_of n a)))).
  split; [|split].
  - intros r a Hr. destruct (constructive_indefinite_description _ (Rk a)) as [k Hk]. exact (Hk r Hr).
  - intros n a. destruct (constructive_indefinite_description _ (A cmat (inverse_of n a))) as [o Ho]. exact Ho.
  - intros n a. destruct (constructive_indefinite_description _ (A (list (list R)) (rinverse_of n a))) as [o Ho]. exact Ho.
Qed.
