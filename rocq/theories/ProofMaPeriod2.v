(** Period matrices of the Magma package: the run. *)
From Coquelicot Require Import Coquelicot.
From Verif Require Import CArg ModelTree ModelVec ModelPeriod ModelTurn ModelSymp SpecSymp SpecInter ModelMaRoot ModelMaDiff ModelMaFactor ModelMaSum ModelMaTree ModelMaInter ModelMaSymp ModelMaAjm ModelMaPeriod SpecVec SpecPeriod SpecCurve SpecTree SpecTurn SpecMaRoot SpecMaFactor SpecQuad SpecMaSum SpecMaTree SpecDeq SpecCross SpecMaInter SpecMaSymp SpecMaPeriod ProofEdge ProofVec ProofTree ProofPeriod ProofQuad ProofErr3 ProofMaRoot3 ProofMaDiff ProofMaFactor ProofMaFactor2 ProofMaFactor3 ProofMaSum ProofMaSum2 ProofMaSum3 ProofMaInter ProofMaInter2 ProofMaInter3 ProofMaAjm ProofMaAjm2 ProofMaAjm3 ProofMaSymp ProofMaPeriod ProofAngle SpecEdge.
From Verif Require ModelQuad ProofTrap.
Local Open Scope nat_scope.

Definition no_se : se_edge := {| e_data := []; e_up := 0; e_isgn := [] |}.

Lemma tree_collect schemes m n d ze : forall ds ix (s : nat -> scheme) (Q : nat -> list (list C) -> list C -> Prop),
  (forall k, k < length ds -> exists i, nth_error ix k = Some i /\ nth_error schemes i = Some (s k) /\
     exists P E, edge_periods (nth k ds no_se) m n d ze (s k) = Done (P, E) /\ Q k P E) ->
  exists Ps Es, tree_periods ds ix schemes m n d ze = Done (Ps, Es) /\ length Ps = length ds /\ length Es = length ds /\
    forall k, k < length ds -> Q k (nth k Ps []) (nth k Es []).
Proof.
  induction ds as [|e ds IH]; intros ix s Q H.
  - exists [], []. cbn [tree_periods length]. repeat split; try reflexivity. intros k Hk. lia.
  - destruct ix as [|i ix]; [destruct (H 0 ltac:(cbn; lia)) as (i & E & _); discriminate|].
    destruct (IH ix (fun k => s (S k)) (fun k => Q (S k))) as (Ps & Es & E1 & L1 & L2 & HQ).
    { intros k Hk. exact (H (S k) ltac:(cbn; lia)). }
    destruct (H 0 ltac:(cbn; lia)) as (i' & Ei & Es0 & P & E & Ee & HQ0). cbn in Ei. injection Ei as <-. cbn [nth] in Ee.
    exists (P :: Ps), (E :: Es). cbn [tree_periods]. unfold tget. rewrite Es0. cbn [bind]. rewrite Ee. cbn [bind]. rewrite E1. cbn [bind fst snd length].
    repeat split; try congruence. intros [|k] Hk; [exact HQ0|]. apply HQ. cbn in Hk. lia.
Qed.

Definition wroot (m : nat) (lc : C) : C := cexp (RtoC (1 / INR m) * clog lc)%C.
Lemma wroot_pow m lc : 2 <= m -> lc <> RtoC 0 -> cpow (wroot m lc) m = lc.
Proof.
  intros Hm Hlc. unfold wroot. rewrite cexp_cpow. rewrite Cmult_assoc, <- RtoC_mult. replace (INR m * (1 / INR m))%R with 1%R by (field; apply not_0_INR; lia).
  rewrite Cmult_1_l. apply cexp_clog_id, Hlc.
Qed.
Lemma wroot_inv m lc (j : Z) : (0 <= j)%Z -> cexp (RtoC (IZR j) * (- RtoC (1 / INR m) * clog lc))%C = (/ cpow (wroot m lc) (Z.to_nat j))%C.
Proof.
  intros Hj. unfold wroot. rewrite cexp_cpow. replace (INR (Z.to_nat j)) with (IZR j) by (rewrite INR_IZR_INZ, Z2Nat.id by exact Hj; reflexivity).
  set (z := (RtoC (IZR j) * (RtoC (1 / INR m) * clog lc))%C). replace (RtoC (IZR j) * (- RtoC (1 / INR m) * clog lc))%C with (- z)%C by (unfold z; ring).
  assert (W := cexp_inv z). assert (N := cexp_neq z). rewrite <- (Cmult_1_l (/ cexp z)%C), <- W. field. exact N.
Qed.
Lemma wroot_neq m lc : wroot m lc <> RtoC 0.
Proof. apply cexp_neq. Qed.

Section Run.
Context (x : list C) (m : nat) (es : list tedge).
Let n := length x.
Hypothesis Hd : distinct x.
Hypothesis Hm : 2 <= m.
Hypothesis Hn : 3 <= n.
Hypothesis Hl : length es = n - 1.
Hypothesis Hgr : growing (plains es).
Hypothesis Ht : forall v, touched (plains es) v -> v < n.
Hypothesis Hfree : forall e, In e es -> free_segment x (vget x (t_a e)) (vget x (t_b e)).
Hypothesis Hap : edges_apart x (plains es).
Notation e k := (nth k es no_tedge).
Context (ds : list se_edge) (fs : list (R -> C)).
Notation dk k := (nth k ds no_se).
Notation f k := (nth k fs (fun _ => RtoC 0)).
Hypothesis Ld : length ds = length es.
Hypothesis HV : forall k, k < n - 1 -> edge_values x m (t_a (e k)) (t_b (e k)) (dk k) (f k).
Context (d : ma_diff).
Hypothesis Hdiff : ma_differentials (Z.of_nat m) (Z.of_nat n) = Done d.
Context (ix : list nat) (schemes : list scheme) (s : nat -> scheme).
Hypothesis Hs : schemes_fit m d (n - 1) (ix, schemes) s.
Context (lc : C).
Hypothesis Hlc : lc <> RtoC 0.
Let g := Z.to_nat (md_g d).
Let Y := Yb x m fs.
Notation form k j i := (form_on_edge x (t_a (e k)) (t_b (e k)) (fun t => wroot m lc * Y k t)%C j i).

(** integrals along edge k, before the change of differentials *)
Definition raw k j i q : C := scheme_rule m (s k) q j (form_on_edge x (t_a (e k)) (t_b (e k)) (Y k) j i).

Lemma Y_edge k : k < n - 1 -> exists fk, 
  (forall t, continuous (fun t => fst (fk t)) t /\ continuous (fun t => snd (fk t)) t) /\
  (let c := edge_const n m (vget (e_data (dk k)) n) in
  (forall t, (-1 <= t <= 1)%R -> ac_mth_root t (dk k) (zetas m) m (n - 2) = Done (fk t) /\
      poly_at x (edge_point (vget x (t_a (e k))) (vget x (t_b (e k))) (RtoC t)) = ((RtoC 1 - RtoC t * RtoC t) * cpow (c * fk t)%C m)%C) /\
  forall t, (-1 <= t <= 1)%R -> Y k t = ys m c fk t).
Proof using All.
  intros Hk. destruct (ends_in x m es Hd Hm Hn Hl Hgr Ht Hfree Hap k Hk) as (A & B & D & F).
  destruct (edge_sheet x m (t_a (e k)) (t_b (e k)) A B (distinct_get x _ _ Hd A B D) Hm Hn (clear_of_free x _ _ Hd A B F)) as (e' & fk & Ee & Cf & Hf).
  destruct (HV k Hk) as (Ed & _ & V & _). fold n in Ee, Ed, V. rewrite Ed in Ee. injection Ee as <-.
  exists fk. split; [exact Cf|]. cbv zeta. split; [exact Hf|]. intros t It. destruct (V t It) as [V1 _]. destruct (Hf t It) as [F1 _].
  unfold ModelMaInter.end_value in V1. fold n in F1. rewrite F1 in V1. cbn [bind] in V1. unfold vread in V1. destruct (n <? length (e_data (dk k))); [|discriminate]. cbn [bind] in V1. injection V1 as V1.
  unfold Y, Yb, ys. rewrite same_sheet by exact Hm. fold n. rewrite <- V1. ring.
Qed.
Lemma Y_neq k t : k < n - 1 -> (-1 < t < 1)%R -> Y k t <> RtoC 0.
Proof using All.
  intros Hk It E. destruct (ends_in x m es Hd Hm Hn Hl Hgr Ht Hfree Hap k Hk) as (A & B & D & F).
  destruct (Y_edge k Hk) as (fk & Cf & Hf & HY). rewrite HY in E by lra.
  destruct (sheet_branch x _ _ m A B (distinct_get x _ _ Hd A B D) Hm Hn (clear_of_free x _ _ Hd A B F) (dk k) fk _ Cf Hf) as [[_ P] _].
  specialize (P t ltac:(lra)). fold n in P. rewrite E in P.
  apply (clear_nonzero x _ _ (distinct_get x _ _ Hd A B D) (clear_of_free x _ _ Hd A B F) t It). rewrite <- P. destruct m; [lia|apply cpow_zero].
Qed.
Lemma raw_scaled k j i q : k < n - 1 -> q < length (md_df d) -> scheme_rule m (s k) q j (form k j i) = (/ cpow (wroot m lc) j * raw k j i q)%C.
Proof using All.
  intros Hk Hq. destruct (Hs k Hk) as (_ & _ & _ & Ho). destruct (scheme_is_rule m d (s k) q j Ho Hq) as (Ex & _ & Sc).
  unfold raw. rewrite <- Sc. apply Ex. intros t It. apply form_scale; [apply wroot_neq|apply Y_neq; assumption].
Qed.

Lemma tree_ok : exists Ps Es, tree_periods ds ix schemes m n d (zetas m) = Done (Ps, Es) /\ length Ps = n - 1 /\ length Es = n - 1 /\
  forall k, k < n - 1 -> length (nth k Ps []) = g /\ length (nth k Es []) = g /\
    forall q i, q < length (md_df d) -> (Z.of_nat i < nth q (md_df d) 0)%Z ->
      let j := (md_jm d + Z.of_nat q)%Z in let ct := offset (md_df d) q + i in
      vget (nth k Es []) ct = raw k (Z.to_nat j) i q /\
      exists row, nth_error (nth k Ps []) ct = Some row /\ row_ok m j row (raw k (Z.to_nat j) i q).
Proof using All.
  destruct (tree_collect schemes m n d (zetas m) ds ix s (fun k P E => length P = g /\ length E = g /\
    forall q i, q < length (md_df d) -> (Z.of_nat i < nth q (md_df d) 0)%Z ->
      let j := (md_jm d + Z.of_nat q)%Z in let ct := offset (md_df d) q + i in
      vget E ct = raw k (Z.to_nat j) i q /\ exists row, nth_error P ct = Some row /\ row_ok m j row (raw k (Z.to_nat j) i q))) as (Ps & Es & E & L1 & L2 & H).
  2: { exists Ps, Es. rewrite Ld, Hl in *. repeat split; try assumption; intros; apply H; assumption. }
  intros k Hk. rewrite Ld, Hl in Hk. destruct (Hs k Hk) as (i & E1 & E2 & Ho). exists i. split; [exact E1|]. split; [exact E2|].
  destruct (ends_in x m es Hd Hm Hn Hl Hgr Ht Hfree Hap k Hk) as (A & B & D & F). destruct (HV k Hk) as (Ed & _). destruct (Y_edge k Hk) as (fk & Cf & Hf & HY).
  destruct (edge_any x (t_a (e k)) (t_b (e k)) m d (s k) (dk k) fk A B (distinct_get x _ _ Hd A B D) Hm Hn (clear_of_free x _ _ Hd A B F) Hdiff Ho Ed Cf Hf) as (P & E & EP & LP & LE & H).
  exists P, E. split; [exact EP|]. split; [unfold g; lia|]. split; [unfold g; lia|]. intros q i' Hq Hi. destruct (H q i' Hq Hi) as [H1 H2]. cbv zeta in H1 |- *.
  assert (X : vget E (offset (md_df d) q + i') = raw k (Z.to_nat (md_jm d + Z.of_nat q)) i' q).
  { rewrite H1. unfold raw. destruct (scheme_is_rule m d (s k) q (Z.to_nat (md_jm d + Z.of_nat q)) Ho Hq) as (Ex & _). apply Ex. intros t It. apply form_ext. symmetry. apply HY. lra. }
  split; [exact X|]. cbv zeta in H2. rewrite X in H2. exact H2.
Qed.

Lemma genus_total : total (md_df d) = g /\ 2 * g <= (n - 1) * (m - 1) /\ length (md_jpows d) = g /\ (0 <= md_jm d)%Z.
Proof using All.
  destruct (diff_facts (Z.of_nat m) (Z.of_nat n) d Hdiff ltac:(lia) ltac:(lia)) as (J1 & _ & _ & _ & TG & _).
  destruct (ma_done (Z.of_nat m) (Z.of_nat n) ltac:(lia) ltac:(lia)) as (E & _ & LJ & _). cbv zeta in E, LJ. rewrite Hdiff in E.
  assert (G : md_g d = (((Z.of_nat m - 1) * (Z.of_nat n - 1) - Z.gcd (Z.of_nat m) (Z.of_nat n) + 1) / 2)%Z).
  { match type of E with Done _ = Done ?t => assert (Hdd : d = t) by congruence end. rewrite Hdd. reflexivity. }
  assert (P : length (md_jpows d) = g).
  { assert (Q : Z.of_nat (length (md_jpows d)) = md_g d); [|unfold g; lia]. match type of E with Done _ = Done ?t => assert (Hdd : d = t) by congruence end. rewrite Hdd. cbn [md_jpows md_g]. exact LJ. }
  split; [unfold g; lia|]. split; [|split; [exact P|lia]].
  assert (1 <= Z.gcd (Z.of_nat m) (Z.of_nat n))%Z. { assert (0 <= Z.gcd (Z.of_nat m) (Z.of_nat n))%Z by apply Z.gcd_nonneg. assert (Z.gcd (Z.of_nat m) (Z.of_nat n) <> 0)%Z; [|lia]. intros Z0. apply Z.gcd_eq_0 in Z0. lia. }
  assert (2 * md_g d <= (Z.of_nat m - 1) * (Z.of_nat n - 1))%Z. { rewrite G. pose proof (Z.mul_div_le ((Z.of_nat m - 1) * (Z.of_nat n - 1) - Z.gcd (Z.of_nat m) (Z.of_nat n) + 1) 2 ltac:(lia)). lia. }
  unfold g. apply Nat2Z.inj_le. rewrite !Nat2Z.inj_mul, !Nat2Z.inj_sub by lia. lia.
Qed.
End Run.
