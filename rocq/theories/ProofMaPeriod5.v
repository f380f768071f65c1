(** Period matrices of the Magma package: from the polynomial. *)
From Coquelicot Require Import Coquelicot.
From Verif Require Import CArg ModelTree ModelVec ModelPeriod ModelTurn ModelSymp SpecSymp SpecInter ModelMaRoot ModelMaDiff ModelMaFactor ModelMaSum ModelMaTree ModelMaInter ModelMaSymp ModelMaAjm ModelMaPeriod SpecVec SpecPeriod SpecCurve SpecTree SpecTurn SpecMaRoot SpecMaFactor SpecQuad SpecMaSum SpecMaTree SpecDeq SpecCross SpecMaInter SpecMaSymp SpecMaPeriod ProofEdge ProofVec ProofTree ProofPeriod ProofMaTree5 ProofMaDiff ProofMaFactor2 ProofMaInter ProofMaInter2 ProofMaInter3 ProofMaInter4 ProofMaAjm ProofMaAjm2 ProofMaAjm3 ProofMaSymp ProofMaPU5 ProofMaPeriod ProofMaPeriod2 ProofMaPeriod3 ProofMaPeriod4 ProofAngle SpecEdge.
Local Open Scope nat_scope.

Lemma one_nz : RtoC 1 <> RtoC 0.
Proof. intros E. apply RtoC_inj in E. lra. Qed.
Lemma curve_run sort choose o p x m s : sort_ok sort -> distinct x -> same_sides p x -> 3 <= length x -> 2 <= m ->
  (forall d t, ma_differentials (Z.of_nat m) (Z.of_nat (length x)) = Done d -> spanning_tree_ma sort (chosen_type m o) p = Done t ->
     schemes_fit m d (length x - 1) (choose t) s) ->
  exists t ty' d ds T b ya yb Y (B0 : nat -> nat -> C),
    spanning_tree_ma sort (chosen_type m o) p = Done (t, ty') /\
    ma_differentials (Z.of_nat m) (Z.of_nat (length x)) = Done d /\
    tree_data x (zetas m) m (length x) (s_edges t) = Done ds /\
    se_intersections x (zetas m) m (length x) (s_edges t) ds = Done T /\
    square ((length x - 1) * (m - 1)) T /\
    sheets m x (plains (s_edges t)) ya yb Y /\ data_sheets m (length x) ds ya yb Y /\ loop_matrix m x (plains (s_edges t)) ya yb Y T /\
    symplectic_basis T = Done b /\ square ((length x - 1) * (m - 1)) b /\ unimodular ((length x - 1) * (m - 1)) b /\
    2 * Z.to_nat (md_g d) <= (length x - 1) * (m - 1) /\ length (plains (s_edges t)) = length x - 1 /\
    (forall k u, k < length x - 1 -> (-1 < u < 1)%R -> Y k u <> RtoC 0) /\
    (forall k, k < length x - 1 -> vget x (ea (nth k (plains (s_edges t)) no_edge)) <> vget x (eb (nth k (plains (s_edges t)) no_edge))) /\
    forall lc, lc <> RtoC 0 -> exists elem big, let g := Z.to_nat (md_g d) in
      (forall rank inv rinv small ajm err,
        se_curve_periods rank inv rinv sort choose o p x m lc small ajm err =
        if negb (rank T =? 2 * g) then Abort else
        do red <- reduction_matrix rinv ajm g big;
        do sm <- small_matrix inv small err g big;
        Done {| p_elem := elem; p_big := big; p_red := red; p_small := sm |}) /\
      (length big = g /\ forall row, In row big -> length row = 2 * g) /\
      periods_over m x d (plains (s_edges t)) s (wroot m lc) Y b (2 * g) (mget big) /\
      (length elem = length x - 1 /\
       forall k q i, k < length x - 1 -> q < length (md_df d) -> (Z.of_nat i < nth q (md_df d) 0)%Z ->
         let j := Z.to_nat (md_jm d + Z.of_nat q) in
         mget elem k (offset (md_df d) q + i) = scheme_rule m (s k) q j
           (form_on_edge x (ea (nth k (plains (s_edges t)) no_edge)) (eb (nth k (plains (s_edges t)) no_edge)) (fun t => wroot m lc * Y k t)%C j i)) /\
      (forall q i col, q < length (md_df d) -> (Z.of_nat i < nth q (md_df d) 0)%Z -> col < 2 * g ->
         mget big (offset (md_df d) q + i) col = (/ cpow (wroot m lc) (Z.to_nat (md_jm d + Z.of_nat q)) * B0 (offset (md_df d) q + i)%nat col)%C).
Proof.
  intros Hso Hd Hp Hn Hm Hsch. destruct (ma_spanning sort (chosen_type m o) p Hso) as (t & ty' & E & L & Hg & _ & _ & Ht); [rewrite (proj1 Hp); lia|].
  rewrite (proj1 Hp) in L, Ht. destruct (ma_apart _ _ _ _ _ _ Hso Hd Hp E) as (Hf & Ha).
  assert (Ht' : forall v, touched (plains (s_edges t)) v -> (v < length x)%nat) by (intros v; apply Ht).
  destruct (data_exist x m (s_edges t) Hd Hm Hn L Hg Ht' Hf Ha) as (ds & fs & Ed & Ld & HV).
  destruct (matrix_done x m (s_edges t) Hd Hm Hn L Hg Ht' Hf Ha ds fs Ld HV) as (T & ET & Sq & HT).
  destruct (ma_done (Z.of_nat m) (Z.of_nat (length x)) ltac:(lia) ltac:(lia)) as (Edd & _). cbv zeta in Edd. match type of Edd with _ = Done ?d0 => set (d := d0) in * end.
  pose proof (anti_blocks _ m T _ Hm HT) as HA.
  destruct (basis_dichotomy _ T Sq HA) as (b & g0 & Eb & Sb & Ub & _).
  pose proof (Hsch d (t, ty') Edd E) as Hs. destruct (choose (t, ty')) as [ix schemes] eqn:Ech.
  pose proof (genus_total x m (s_edges t) Hd Hm Hn L Hg Ht' Hf Ha ds fs Ld HV d Edd ix schemes s Hs (RtoC 1) one_nz) as (TG & G2 & LJ & J0).
  assert (LP : length (plains (s_edges t)) = length x - 1) by (unfold plains; rewrite map_length; exact L).
  exists t, ty', d, ds, T, b, (ya x m fs), (yb x m fs), (Yb x m fs).
  exists (fun ct col => csum (length x - 1) (fun k => csum (m - 1) (fun l => ZC (get b col (k * (m - 1) + l)%nat) *
     match nth_error (md_jpows d) ct with Some jp => 
       let j := Z.to_nat jp in let q := Z.to_nat (jp - md_jm d)%Z in let i := (ct - offset (md_df d) q)%nat in over_loop m j l (raw x m (s_edges t) fs s k j i q)
     | None => RtoC 0 end))%C).
  split; [exact E|]. split; [exact Edd|]. split; [exact Ed|]. split; [exact ET|]. split; [exact Sq|].
  split; [exact (sheets_ok x m (s_edges t) Hd Hm Hn L Hg Ht' Hf Ha ds fs Ld HV T HT)|].
  split. { intros k dd Hk. assert (K : (k < length ds)%nat) by (apply nth_error_Some; congruence). destruct (HV k ltac:(lia)) as (_ & _ & V & _).
    rewrite (nth_error_nth _ _ _ Hk) in V. exists (nth k fs (fun _ => RtoC 0)). split; [intros u Hu; split; [apply V, Hu|reflexivity]|]. split; reflexivity. }
  split; [exact (matrix_loops x m (s_edges t) Hd Hm Hn L Hg Ht' Hf Ha ds fs Ld HV T HT)|].
  split; [exact Eb|]. split; [exact Sb|]. split; [exact Ub|]. split; [exact G2|]. split; [exact LP|].
  split. { intros k u Hk Hu. exact (Y_neq x m (s_edges t) Hd Hm Hn L Hg Ht' Hf Ha ds fs Ld HV d Edd ix schemes s Hs (RtoC 1) one_nz k u Hk Hu). }
  split. { intros k Hk. destruct (ends_in x m (s_edges t) Hd Hm Hn L Hg Ht' Hf Ha k Hk) as (A & B & D & _). rewrite plains_nth by lia. cbn [plain ea eb]. intro X. exact (distinct_get x _ _ Hd A B D X). }
  intros lc Hlc. destruct (run_ok x m (s_edges t) Hd Hm Hn L Hg Ht' Hf Ha ds fs Ld HV d Edd ix schemes s Hs lc Hlc T b ET Eb (proj1 Sb)) as (elem & big & Hrun & Hdim & Hper & Hel).
  exists elem, big. cbv zeta. split; [|split; [exact Hdim|split; [exact Hper|split; [exact Hel|]]]].
  - intros rank inv rinv small ajm err. rewrite <- Hrun. unfold se_curve_periods. destruct (Nat.leb_spec 2 m); [|lia]. destruct (Nat.leb_spec 3 (length x)); [|lia]. cbn [andb negb].
    rewrite Edd. cbn [bind]. rewrite E. cbn [bind fst snd]. rewrite Ed. cbn [bind]. rewrite Ech. reflexivity.
  - intros q i col Hq Hi Hcol. rewrite (Hper q i col Hq Hi Hcol). cbv zeta. rewrite LP, <- csum_scal. apply csum_ext. intros k Hk. rewrite <- csum_scal. apply csum_ext. intros l Hlm.
    pose proof (diff_facts (Z.of_nat m) (Z.of_nat (length x)) d Edd ltac:(lia) ltac:(lia)) as (_ & _ & _ & _ & _ & JP & _). rewrite (JP q i Hq Hi).
    replace (Z.to_nat (md_jm d + Z.of_nat q - md_jm d)) with q by lia. replace (offset (md_df d) q + i - offset (md_df d) q) with i by lia.
    rewrite plains_nth by lia. cbn [plain ea eb].
    rewrite (raw_scaled x m (s_edges t) Hd Hm Hn L Hg Ht' Hf Ha ds fs Ld HV d Edd ix schemes s Hs lc Hlc k _ i q Hk Hq). unfold over_loop. ring.
Qed.

(** ** the two statements *)
Lemma ma_periods rank inv rinv sort choose o p x m lc s small ajm err : rank_ok rank -> inv_ok inv -> rinv_ok rinv ->
  sort_ok sort -> distinct x -> same_sides p x -> 3 <= length x -> 2 <= m -> lc <> RtoC 0 ->
  (forall d t, ma_differentials (Z.of_nat m) (Z.of_nat (length x)) = Done d -> spanning_tree_ma sort (chosen_type m o) p = Done t ->
     schemes_fit m d (length x - 1) (choose t) s) ->
  exists t ty' d ds T b ya yb Y w,
    spanning_tree_ma sort (chosen_type m o) p = Done (t, ty') /\
    ma_differentials (Z.of_nat m) (Z.of_nat (length x)) = Done d /\
    tree_data x (zetas m) m (length x) (s_edges t) = Done ds /\
    se_intersections x (zetas m) m (length x) (s_edges t) ds = Done T /\
    sheets m x (plains (s_edges t)) ya yb Y /\ data_sheets m (length x) ds ya yb Y /\ loop_matrix m x (plains (s_edges t)) ya yb Y T /\
    symplectic_basis T = Done b /\ unimodular ((length x - 1) * (m - 1)) b /\
    cpow w m = lc /\
    (forall g', 2 * g' <= (length x - 1) * (m - 1) -> is_symplectic_basis ((length x - 1) * (m - 1)) g' T b -> rank T = 2 * g') /\
    (se_curve_periods rank inv rinv sort choose o p x m lc small ajm err = Abort \/
     rank T = 2 * Z.to_nat (md_g d) /\ exists r, se_curve_periods rank inv rinv sort choose o p x m lc small ajm err = Done r /\ periods_ok m x d (plains (s_edges t)) s w Y b small ajm err r) /\
    (rank T = 2 * Z.to_nat (md_g d) -> small = false -> ajm = false -> exists r, se_curve_periods rank inv rinv sort choose o p x m lc small ajm err = Done r).
Proof.
  intros Hrk Hinv Hrinv Hso Hd Hp Hn Hm Hlc Hsch.
  destruct (curve_run sort choose o p x m s Hso Hd Hp Hn Hm Hsch) as (t & ty' & d & ds & T & b & ya & yb & Y & B0 & E & Edd & Ed & ET & Sq & HS & HDS & HLM & Eb & Sb & Ub & G2 & LP & _ & _ & Hlcs).
  destruct (Hlcs lc Hlc) as (elem & big & Hrun & Hdim & Hper & Hel & _).
  exists t, ty', d, ds, T, b, ya, yb, Y, (wroot m lc). repeat (split; [assumption|]). split; [exact (wroot_pow m lc Hm Hlc)|].
  split. { intros g' Hg' Hsb. exact (rank_is rank _ g' T b Hrk Sq Ub Hg' Hsb). }
  split.
  - rewrite Hrun. set (g := Z.to_nat (md_g d)) in *. destruct (Nat.eqb_spec (rank T) (2 * g)) as [Er|]; cbn [negb]; [|left; reflexivity].
    destruct (reduction_matrix rinv ajm g big) as [red| |f|] eqn:Ered.
    + cbn [bind]. destruct (small_matrix inv small err g big) as [sm| |f|] eqn:Esm; cbn [bind].
      * right. split; [exact Er|]. eexists. split; [reflexivity|]. unfold periods_ok. cbn [p_big p_elem p_small p_red]. fold g. rewrite LP.
        split; [exact Hdim|]. split; [exact Hper|]. split; [exact Hel|]. split; [exact (small_ok inv small err g big sm Hinv Esm)|exact (red_ok rinv ajm g big red Hrinv Ered)].
      * left. reflexivity.
      * exfalso. unfold small_matrix in Esm. destruct small; [|discriminate]. destruct (inv g (left_half g big)); [|discriminate]. destruct (Rlt_dec _ err); discriminate.
      * exfalso. unfold small_matrix in Esm. destruct small; [|discriminate]. destruct (inv g (left_half g big)); [|discriminate]. destruct (Rlt_dec _ err); discriminate.
    + left. reflexivity.
    + exfalso. unfold reduction_matrix in Ered. destruct ajm; [|discriminate]. destruct (rinv _ _); discriminate.
    + exfalso. unfold reduction_matrix in Ered. destruct ajm; [|discriminate]. destruct (rinv _ _); discriminate.
  - intros Er -> ->. rewrite Hrun, Er, Nat.eqb_refl. cbn [negb]. unfold reduction_matrix, small_matrix. cbn [bind]. eexists. reflexivity.
Qed.

Lemma genus_two n d : 3 <= n -> ma_differentials 2 (Z.of_nat n) = Done d -> Z.to_nat (md_g d) = (n - 1) / 2.
Proof.
  intros Hn E. destruct (ma_done 2 (Z.of_nat n) ltac:(lia) ltac:(lia)) as (E' & _). cbv zeta in E'. rewrite E in E'.
  assert (G : md_g d = (((2 - 1) * (Z.of_nat n - 1) - Z.gcd 2 (Z.of_nat n) + 1) / 2)%Z).
  { match type of E' with Done _ = Done ?t => assert (Hdd : d = t) by congruence end. rewrite Hdd. reflexivity. }
  rewrite G. clear E E' G.
  apply Nat2Z.inj. rewrite Nat2Z.inj_div, Nat2Z.inj_sub by lia. change (Z.of_nat 1) with 1%Z. change (Z.of_nat 2) with 2%Z.
  replace ((2 - 1) * (Z.of_nat n - 1) - Z.gcd 2 (Z.of_nat n) + 1)%Z with (Z.of_nat n - Z.gcd 2 (Z.of_nat n))%Z by lia.
  destruct (Z.Even_or_Odd (Z.of_nat n)) as [[q Hq]|[q Hq]]; rewrite Hq.
  - assert (Z.gcd 2 (2 * q) = 2)%Z as ->. { rewrite <- (Z.mul_1_r 2) at 1. rewrite Z.gcd_mul_mono_l_nonneg, Z.gcd_1_l by lia. reflexivity. }
    replace (2 * q - 2)%Z with ((q - 1) * 2)%Z by lia. rewrite Z.div_mul by lia. replace (2 * q - 1)%Z with (1 + (q - 1) * 2)%Z by lia. rewrite Z.div_add by lia. rewrite Z2Nat.id by lia. reflexivity.
  - assert (Z.gcd 2 (2 * q + 1) = 1)%Z as ->. { replace (2 * q + 1)%Z with (1 + q * 2)%Z by lia. rewrite Z.gcd_add_mult_diag_r. reflexivity. }
    replace (2 * q + 1 - 1)%Z with (q * 2)%Z by lia. rewrite Z.div_mul by lia. rewrite Z2Nat.id by lia. reflexivity.
Qed.
Lemma hyper_periods rank inv rinv sort choose o p x lc s : rank_ok rank -> inv_ok inv -> rinv_ok rinv ->
  sort_ok sort -> distinct x -> same_sides p x -> 3 <= length x -> lc <> RtoC 0 ->
  (forall d t, ma_differentials 2 (Z.of_nat (length x)) = Done d -> spanning_tree_ma sort (chosen_type 2 o) p = Done t ->
     schemes_fit 2 d (length x - 1) (choose t) s) ->
  exists t ty' d ds T b ya yb Y w,
    spanning_tree_ma sort (chosen_type 2 o) p = Done (t, ty') /\
    ma_differentials 2 (Z.of_nat (length x)) = Done d /\ Z.to_nat (md_g d) = (length x - 1) / 2 /\
    tree_data x (zetas 2) 2 (length x) (s_edges t) = Done ds /\
    sheets 2 x (plains (s_edges t)) ya yb Y /\ data_sheets 2 (length x) ds ya yb Y /\ loop_matrix 2 x (plains (s_edges t)) ya yb Y T /\
    unimodular (length x - 1) b /\ is_symplectic_basis (length x - 1) ((length x - 1) / 2) T b /\
    (w * w)%C = lc /\
    (exists r, se_curve_periods rank inv rinv sort choose o p x 2 lc false false 0 = Done r) /\
    forall small ajm err r, se_curve_periods rank inv rinv sort choose o p x 2 lc small ajm err = Done r -> periods_ok 2 x d (plains (s_edges t)) s w Y b small ajm err r.
Proof.
  intros Hrk Hinv Hrinv Hso Hd Hp Hn Hlc Hsch.
  destruct (curve_run sort choose o p x 2 s Hso Hd Hp Hn (le_n 2) Hsch) as (t & ty' & d & ds & T & b & ya & yb & Y & B0 & E & Edd & Ed & ET & Sq & HS & HDS & HLM & Eb & Sb & Ub & G2 & LP & _ & _ & Hlcs).
  destruct (Hlcs lc Hlc) as (elem & big & Hrun & Hdim & Hper & Hel & _). change (Z.of_nat 2) with 2%Z in *.
  destruct (hyper_basis sort (chosen_type 2 o) p x Hso Hd Hp Hn) as (t2 & ty2 & ds2 & T2 & b2 & E2 & Ed2 & ET2 & _ & Eb2 & _ & _ & Hsb).
  rewrite E in E2. injection E2 as <- <-. rewrite Ed in Ed2. injection Ed2 as <-. rewrite ET in ET2. injection ET2 as <-. rewrite Eb in Eb2. injection Eb2 as <-.
  pose proof (genus_two (length x) d Hn Edd) as Hg. replace ((length x - 1) * (2 - 1)) with (length x - 1) in * by lia.
  assert (Hg2 : 2 * ((length x - 1) / 2) <= length x - 1) by (apply Nat.mul_div_le; lia).
  pose proof (rank_is rank _ _ T b Hrk Sq Ub Hg2 Hsb) as Er.
  exists t, ty', d, ds, T, b, ya, yb, Y, (wroot 2 lc). repeat (split; [assumption|]). split; [transitivity (cpow (wroot 2 lc) 2); [cbn [cpow]; ring|exact (wroot_pow 2 lc (le_n 2) Hlc)]|].
  split.
  - rewrite Hrun, Er, Hg, Nat.eqb_refl. cbn [negb]. unfold reduction_matrix, small_matrix. cbn [bind]. eexists. reflexivity.
  - intros small ajm err r. rewrite Hrun, Er, Hg, Nat.eqb_refl. cbn [negb]. intros Erun.
    destruct (reduction_matrix rinv ajm ((length x - 1) / 2) big) as [red| |f|] eqn:Ered; try discriminate. cbn [bind] in Erun.
    destruct (small_matrix inv small err ((length x - 1) / 2) big) as [sm| |f|] eqn:Esm; try discriminate. cbn [bind] in Erun. injection Erun as <-.
    unfold periods_ok. cbn [p_big p_elem p_small p_red]. rewrite LP, Hg in *.
    split; [exact Hdim|]. split; [exact Hper|]. split; [exact Hel|]. split; [exact (small_ok inv small err _ big sm Hinv Esm)|exact (red_ok rinv ajm _ big red Hrinv Ered)].
Qed.
