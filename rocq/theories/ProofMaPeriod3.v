(** Period matrices of the Magma package: matrices. *)
From Coquelicot Require Import Coquelicot.
From Verif Require Import CArg ModelTree ModelVec ModelPeriod ModelTurn ModelSymp SpecSymp SpecInter ModelMaRoot ModelMaDiff ModelMaFactor ModelMaSum ModelMaTree ModelMaInter ModelMaSymp ModelMaAjm ModelMaPeriod SpecVec SpecPeriod SpecCurve SpecTree SpecTurn SpecMaRoot SpecMaFactor SpecQuad SpecMaSum SpecMaTree SpecDeq SpecCross SpecMaInter SpecMaSymp SpecMaPeriod ProofEdge ProofVec ProofTree ProofPeriod ProofMaDiff ProofMaFactor2 ProofMaInter3 ProofMaAjm ProofMaAjm2 ProofMaAjm3 ProofMaPeriod ProofMaPeriod2 ProofAngle SpecEdge.
Local Open Scope nat_scope.

(** ** linear algebra *)
Lemma rsum_ext n f g : (forall k, k < n -> f k = g k) -> rsum n f = rsum n g.
Proof. induction n as [|n IH]; intros H; cbn [rsum]; [reflexivity|]. rewrite IH by (intros; apply H; lia). rewrite H by lia. reflexivity. Qed.
Lemma rsum_add n f g : rsum n (fun k => f k + g k)%R = (rsum n f + rsum n g)%R.
Proof. induction n as [|n IH]; cbn [rsum]; [ring|]. rewrite IH. ring. Qed.
Lemma rsum_scal n c f : rsum n (fun k => c * f k)%R = (c * rsum n f)%R.
Proof. induction n as [|n IH]; cbn [rsum]; [ring|]. rewrite IH. ring. Qed.
Lemma rsum_swap n p (f : nat -> nat -> R) : rsum n (fun i => rsum p (f i)) = rsum p (fun j => rsum n (fun i => f i j)).
Proof.
  induction n as [|n IH]; cbn [rsum]; [|rewrite IH, <- rsum_add; reflexivity].
  induction p as [|p IP]; cbn [rsum]; [reflexivity|]. rewrite <- IP. ring.
Qed.
Lemma rsum_delta n i (f : nat -> R) : i < n -> rsum n (fun k => (if i =? k then 1 else 0) * f k)%R = f i.
Proof.
  induction n as [|n IH]; intros Hi; [lia|]. cbn [rsum]. destruct (Nat.eqb_spec i n) as [->|N].
  - assert (Z : rsum n (fun k => (if n =? k then 1 else 0) * f k)%R = 0%R); [|rewrite Z; ring].
    assert (G : forall p, p <= n -> rsum p (fun k => (if n =? k then 1 else 0) * f k)%R = 0%R); [|apply G; lia].
    induction p as [|p IP]; intros Hp; cbn [rsum]; [reflexivity|]. rewrite IP by lia. destruct (Nat.eqb_spec n p); [lia|]. ring.
  - rewrite IH by lia. ring.
Qed.
Lemma csum_delta n i (f : nat -> C) : i < n -> csum n (fun k => cdelta i k * f k)%C = f i.
Proof.
  intros Hi. rewrite (csum_single n _ i Hi); unfold cdelta.
  - rewrite Nat.eqb_refl. ring.
  - intros k Hk Nk. destruct (Nat.eqb_spec i k); [congruence|]. ring.
Qed.
Lemma fst_csum n f : fst (csum n f) = rsum n (fun k => fst (f k)).
Proof. induction n as [|n IH]; cbn [csum rsum]; [reflexivity|]. rewrite <- IH. reflexivity. Qed.
Lemma snd_csum n f : snd (csum n f) = rsum n (fun k => snd (f k)).
Proof. induction n as [|n IH]; cbn [csum rsum]; [reflexivity|]. rewrite <- IH. reflexivity. Qed.
Lemma mget_rows n w (f : nat -> nat -> C) i k : i < n -> k < w -> mget (map (fun i => vtab w (f i)) (seq 0 n)) i k = f i k.
Proof. intros Hi Hk. unfold mget. rewrite nth_map_seq by exact Hi. apply vget_tab, Hk. Qed.
Lemma rget_rows n w (f : nat -> nat -> R) i k : i < n -> k < w -> rget (map (fun i => map (f i) (seq 0 w)) (seq 0 n)) i k = f i k.
Proof. intros Hi Hk. unfold rget. rewrite nth_map_seq by exact Hi. apply nth_map_seq, Hk. Qed.

Lemma fold_max_ge {A} (h : A -> R) : forall l d, (d <= fold_left (fun d a => Rmax d (h a)) l d)%R /\ forall a, In a l -> (h a <= fold_left (fun d a => Rmax d (h a)) l d)%R.
Proof.
  induction l as [|a l IH]; intros d; cbn [fold_left]; [split; [lra|intros ? []]|]. destruct (IH (Rmax d (h a))) as [H1 H2].
  pose proof (Rmax_l d (h a)). pose proof (Rmax_r d (h a)). split; [lra|]. intros a' [<-|I]; [lra|apply H2, I].
Qed.
Lemma asymmetry_ge g tau : (0 <= asymmetry g tau)%R /\ forall i j, i < g -> j < g -> (Cmod (mget tau i j - mget tau j i)%C <= asymmetry g tau)%R.
Proof.
  set (h := fun j k => Cmod (mget tau j k - mget tau k j)%C). set (inner := fun d j => fold_left (fun d k => Rmax d (h j k)) (seq (S j) (g - S j)) d).
  assert (G : forall l d, (d <= fold_left inner l d)%R /\ forall j k, In j l -> j < k < g -> (h j k <= fold_left inner l d)%R).
  { induction l as [|a l IH]; intros d; cbn [fold_left]; [split; [lra|intros ? ? []]|].
    destruct (IH (inner d a)) as [H1 H2]. destruct (fold_max_ge (h a) (seq (S a) (g - S a)) d) as [H3 H4]. fold (inner d a) in H3, H4. split; [lra|].
    intros j k [<-|I] Hk; [|apply H2; assumption]. assert (h a k <= inner d a)%R by (apply H4, in_seq; lia). lra. }
  destruct (G (seq 0 g) 0%R) as [H1 H2]. change (fold_left inner (seq 0 g) 0%R) with (asymmetry g tau) in *. split; [exact H1|].
  intros i j Hi Hj. destruct (lt_eq_lt_dec i j) as [[L| ->]|L].
  - apply (H2 i j); [apply in_seq; lia|lia].
  - replace (mget tau j j - mget tau j j)%C with (RtoC 0) by ring. rewrite Cmod_0. exact H1.
  - replace (mget tau i j - mget tau j i)%C with (- (mget tau j i - mget tau i j))%C by ring. rewrite Cmod_opp. apply (H2 j i); [apply in_seq; lia|lia].
Qed.

Lemma small_ok inv small err g big o : inv_ok inv -> small_matrix inv small err g big = Done o ->
  match o with
  | None => small = false
  | Some tau => small = true /\ forall i j, i < g -> j < g ->
      csum g (fun k => mget big i k * mget tau k j)%C = mget big i (g + j) /\ (Cmod (mget tau i j - mget tau j i)%C < err)%R
  end.
Proof.
  intros Hinv. unfold small_matrix. destruct small; [|intros E; injection E as <-; reflexivity].
  pose proof (Hinv g (left_half g big)) as Hi. destruct (inv g (left_half g big)) as [a|]; [|discriminate].
  destruct (Rlt_dec (asymmetry g (times_right g a big)) err) as [Hlt|]; [|discriminate]. intros E. injection E as <-. split; [reflexivity|].
  intros i j Hig Hjg. split.
  - transitivity (csum g (fun k => csum g (fun l => mget big i k * (mget a k l * mget big l (g + j))))%C).
    { apply csum_ext. intros k Hk. unfold times_right. rewrite (mget_rows g g (fun i k => csum g (fun l => mget a i l * mget big l (g + k))%C)) by assumption. rewrite <- csum_scal. reflexivity. }
    rewrite csum_swap. transitivity (csum g (fun l => cdelta i l * mget big l (g + j))%C).
    { apply csum_ext. intros l Hl. destruct (Hi i l Hig Hl) as [<- _]. rewrite <- csum_scal_r. apply csum_ext. intros k Hk.
      unfold left_half. rewrite (mget_rows g g (fun i k => mget big i k)) by assumption. ring. }
    apply csum_delta with (f := fun l => mget big l (g + j)). exact Hig.
  - pose proof (proj2 (asymmetry_ge g (times_right g a big)) i j Hig Hjg). lra.
Qed.

Lemma red_ok rinv ajm g big o : rinv_ok rinv -> reduction_matrix rinv ajm g big = Done o ->
  match o with
  | None => ajm = false
  | Some rd => ajm = true /\ forall v i, i < g ->
      v i = csum (2 * g) (fun k => mget big i k * RtoC (rsum (2 * g) (fun l => rget rd k l * parts g v l)%R))%C
  end.
Proof.
  intros Hinv. unfold reduction_matrix. destruct ajm; [|intros E; injection E as <-; reflexivity].
  pose proof (Hinv (2 * g) (embed g big)) as Hi. destruct (rinv (2 * g) (embed g big)) as [rd|]; [|discriminate]. intros E. injection E as <-. split; [reflexivity|].
  intros v i Hig.
  assert (G : forall r, r < 2 * g -> rsum (2 * g) (fun k => rget (embed g big) r k * rsum (2 * g) (fun l => rget rd k l * parts g v l))%R = parts g v r).
  { intros r Hr. transitivity (rsum (2 * g) (fun k => rsum (2 * g) (fun l => rget (embed g big) r k * (rget rd k l * parts g v l)))%R).
    { apply rsum_ext. intros k Hk. symmetry. apply rsum_scal. }
    rewrite rsum_swap. transitivity (rsum (2 * g) (fun l => (if r =? l then 1 else 0) * parts g v l)%R).
    { apply rsum_ext. intros l Hl. destruct (Hi r l Hr Hl) as [<- _]. rewrite Rmult_comm, <- rsum_scal. apply rsum_ext. intros k _. ring. }
    apply rsum_delta with (f := parts g v). exact Hr. }
  assert (E0 : forall r k, r < 2 * g -> k < 2 * g -> rget (embed g big) r k = if r <? g then fst (mget big r k) else snd (mget big (r - g) k)).
  { intros r k Hr Hk. unfold embed. rewrite (rget_rows (2 * g) (2 * g) (fun i k => if i <? g then fst (mget big i k) else snd (mget big (i - g) k))) by assumption. reflexivity. }
  apply injective_projections.
  - rewrite fst_csum. pose proof (G i ltac:(lia)) as Gi. unfold parts in Gi at 2. destruct (Nat.ltb_spec i g); [|lia]. rewrite <- Gi. apply rsum_ext. intros k Hk.
    rewrite E0 by lia. destruct (Nat.ltb_spec i g); [|lia]. cbn [fst snd Cmult RtoC]. ring.
  - rewrite snd_csum. pose proof (G (i + g) ltac:(lia)) as Gi. unfold parts in Gi at 2. destruct (Nat.ltb_spec (i + g) g); [lia|]. replace (i + g - g) with i in Gi by lia. rewrite <- Gi. apply rsum_ext. intros k Hk.
    rewrite E0 by lia. destruct (Nat.ltb_spec (i + g) g); [lia|]. replace (i + g - g) with i by lia. cbn [fst snd Cmult RtoC]. ring.
Qed.

(** ** the run *)
Section Run.
Context (x : list C) (m : nat) (es : list tedge).
Let n := length x.
Hypothesis Hd : distinct x.
Hypothesis Hm : 2 <= m.
Hypothesis Hn : 3 <= n.
Hypothesis Hl : length es = n - 1.
Hypothesis Hgr : growing (plains es).
Hypothesis Ht : forall v, touched (plains es) v -> v < n.
Hypothesis Hfree : forall e, In e es -> free_segment x (vget x (t_a e)) (vget x (t_b e)).
Hypothesis Hap : edges_apart x (plains es).
Notation e k := (nth k es no_tedge).
Context (ds : list se_edge) (fs : list (R -> C)).
Notation dk k := (nth k ds no_se).
Notation f k := (nth k fs (fun _ => RtoC 0)).
Hypothesis Ld : length ds = length es.
Hypothesis HV : forall k, k < n - 1 -> ProofMaInter2.edge_values x m (t_a (e k)) (t_b (e k)) (dk k) (f k).
Context (d : ma_diff).
Hypothesis Hdiff : ma_differentials (Z.of_nat m) (Z.of_nat n) = Done d.
Context (ix : list nat) (schemes : list scheme) (s : nat -> scheme).
Hypothesis Hs : schemes_fit m d (n - 1) (ix, schemes) s.
Context (lc : C).
Hypothesis Hlc : lc <> RtoC 0.
Let g := Z.to_nat (md_g d).
Let Y := Yb x m fs.
Let rw := raw x m es fs s.

Lemma rows_ok Ps : length Ps = n - 1 ->
  (forall k, k < n - 1 -> length (nth k Ps []) = g /\
    forall q i, q < length (md_df d) -> (Z.of_nat i < nth q (md_df d) 0)%Z ->
      exists row, nth_error (nth k Ps []) (offset (md_df d) q + i) = Some row /\ row_ok m (md_jm d + Z.of_nat q) row (rw k (Z.to_nat (md_jm d + Z.of_nat q)) i q)) ->
  exists pm, collect (period_row Ps m n) (seq 0 g) = Done pm /\ length pm = g /\
    forall q i, q < length (md_df d) -> (Z.of_nat i < nth q (md_df d) 0)%Z -> let row := nth (offset (md_df d) q + i) pm [] in
      length row = (m - 1) * (n - 1) /\
      forall k l, k < n - 1 -> l < m - 1 -> let j := Z.to_nat (md_jm d + Z.of_nat q) in vget row ((m - 1) * k + l) = over_loop m j l (rw k j i q).
Proof using All.
  intros LP HP. destruct (genus_total x m es Hd Hm Hn Hl Hgr Ht Hfree Hap ds fs Ld HV d Hdiff ix schemes s Hs lc Hlc) as (TG & _ & _ & J0). fold g in TG.
  destruct (collect_seq (period_row Ps m n) (fun ct row => forall q i, q < length (md_df d) -> (Z.of_nat i < nth q (md_df d) 0)%Z -> ct = offset (md_df d) q + i ->
      length row = (m - 1) * (n - 1) /\
      forall k l, k < n - 1 -> l < m - 1 -> let j := Z.to_nat (md_jm d + Z.of_nat q) in vget row ((m - 1) * k + l) = over_loop m j l (rw k j i q)) g []) as (pm & E & L & H).
  - intros ct Hct. destruct (offset_find (md_df d) ct ltac:(lia)) as (q & i & Hq & Hi & Ec).
    destruct (fill_outer (fun k l => read_period Ps k ct l) (fun k l => over_loop m (Z.to_nat (md_jm d + Z.of_nat q)) l (rw k (Z.to_nat (md_jm d + Z.of_nat q)) i q)) (m - 1) ltac:(lia) (n - 1) 0 (repeat (RtoC 0) ((m - 1) * (n - 1)))) as (row & Er & Lr & Vr & _).
    { intros k l Hk Hlm. destruct (HP k ltac:(lia)) as (_ & HPk). destruct (HPk q i Hq Hi) as (row & Er & Lr & Vr). unfold read_period.
      assert (Ek : tget Ps k = Done (nth k Ps [])) by (unfold tget; rewrite (nth_error_nth' Ps []) by lia; reflexivity). rewrite Ek. cbn [bind].
      assert (Ec' : tget (nth k Ps []) ct = Done row) by (unfold tget; rewrite Ec, Er; reflexivity). rewrite Ec'. cbn [bind].
      unfold vread. destruct (Nat.ltb_spec l (length row)); [|lia]. rewrite Vr by lia. unfold over_loop. rewrite Z2Nat.id by lia. reflexivity. }
    { rewrite repeat_length. lia. }
    exists row. split; [exact Er|]. intros q' i' Hq' Hi' Ec'.
    assert (q' = q /\ i' = i) as [-> ->].
    { destruct (diff_facts (Z.of_nat m) (Z.of_nat n) d Hdiff ltac:(lia) ltac:(lia)) as (_ & _ & _ & _ & _ & JP & _).
      pose proof (JP q i Hq Hi) as A1. pose proof (JP q' i' Hq' Hi') as A2. rewrite <- Ec in A1. rewrite <- Ec' in A2. rewrite A1 in A2. injection A2 as A2. assert (q' = q) by lia. subst q'. split; lia. }
    split; [rewrite Lr, repeat_length; reflexivity|]. intros k l Hk Hlm. apply Vr; lia.
  - exists pm. split; [exact E|]. split; [exact L|]. intros q i Hq Hi. assert (Ho : offset (md_df d) q + i < g).
    { rewrite <- TG. apply offset_total; [exact Hq|lia]. }
    exact (H _ Ho q i Hq Hi eq_refl).
Qed.

Lemma run_ok T b : se_intersections x (zetas m) m n es ds = Done T -> symplectic_basis T = Done b -> length b = (n - 1) * (m - 1) ->
  exists elem big,
    (forall rank inv rinv small ajm err,
      se_period_matrix rank inv rinv x (zetas m) m n lc d es ds ix schemes small ajm err =
      if negb (rank T =? 2 * g) then Abort else
      do red <- reduction_matrix rinv ajm g big;
      do sm <- small_matrix inv small err g big;
      Done {| p_elem := elem; p_big := big; p_red := red; p_small := sm |}) /\
    (length big = g /\ forall row, In row big -> length row = 2 * g) /\
    periods_over m x d (plains es) s (wroot m lc) Y b (2 * g) (mget big) /\
    (length elem = n - 1 /\
     forall k q i, k < n - 1 -> q < length (md_df d) -> (Z.of_nat i < nth q (md_df d) 0)%Z ->
       let j := Z.to_nat (md_jm d + Z.of_nat q) in
       mget elem k (offset (md_df d) q + i) = scheme_rule m (s k) q j
         (form_on_edge x (ea (nth k (plains es) no_edge)) (eb (nth k (plains es) no_edge)) (fun t => wroot m lc * Y k t)%C j i)).
Proof using All.
  intros ET Eb Lb. pose proof (genus_total x m es Hd Hm Hn Hl Hgr Ht Hfree Hap ds fs Ld HV d Hdiff ix schemes s Hs lc Hlc) as (TG & G2 & LJ & J0). fold n g in TG, G2, LJ.
  pose proof (diff_facts (Z.of_nat m) (Z.of_nat n) d Hdiff ltac:(lia) ltac:(lia)) as (_ & _ & _ & _ & _ & JP & _).
  destruct (tree_ok x m es Hd Hm Hn Hl Hgr Ht Hfree Hap ds fs Ld HV d Hdiff ix schemes s Hs lc Hlc) as (Ps & Es & ETP & LPs & LEs & HPE). fold n in ETP, LPs, LEs, HPE. fold g in HPE.
  destruct (rows_ok Ps LPs) as (pm & Epm & Lpm & Hpm).
  { intros k Hk. destruct (HPE k Hk) as (H1 & _ & H3). split; [exact H1|]. intros q i Hq Hi. exact (proj2 (H3 q i Hq Hi)). }
  assert (HJ : forall k, k < g -> exists j, nth_error (md_jpows d) k = Some j).
  { intros k Hk. destruct (nth_error (md_jpows d) k) eqn:Ek; [eexists; reflexivity|]. apply nth_error_None in Ek. lia. }
  destruct (collect_ok (change_differentials m lc (md_jpows d)) (fun v r => length r = length v /\
      forall k j, k < length v -> nth_error (md_jpows d) k = Some j -> vget r k = (cexp (RtoC (IZR j) * (- RtoC (1 / INR m) * clog lc)) * vget v k)%C) Es) as (elem & Eel & Fel).
  { intros v Hv. destruct (In_nth _ _ [] Hv) as (k & Hk & <-). destruct (HPE k ltac:(lia)) as (_ & Lk & _). apply change_ok. intros k' Hk'. apply HJ. lia. }
  destruct (collect_seq (change_entry m lc (md_jpows d)) (fun ct c => forall j, nth_error (md_jpows d) ct = Some j -> c = cexp (RtoC (IZR j) * (- RtoC (1 / INR m) * clog lc))%C) g (RtoC 0)) as (cs & Ecs & Lcs & Hcs).
  { intros ct Hct. destruct (HJ ct Hct) as (j & Ej). unfold change_entry, sread. rewrite Ej. cbn [bind]. eexists. split; [reflexivity|]. intros j' E'. congruence. }
  exists elem, (map (fun j => big_row g b (vget cs j) (nth j pm [])) (seq 0 g)). split; [|split; [|split]].
  - intros rank inv rinv small ajm err. unfold se_period_matrix. rewrite ETP. cbn [bind fst snd]. rewrite Eel. cbn [bind]. fold g. rewrite Epm. cbn [bind]. rewrite ET. cbn [bind].
    destruct (negb (rank T =? 2 * g)); [reflexivity|]. rewrite Eb. cbn [bind]. destruct (Nat.ltb_spec (length b) (2 * g)); [lia|]. rewrite Ecs. cbn [bind]. reflexivity.
  - split; [rewrite map_length, seq_length; reflexivity|]. intros row I. apply in_map_iff in I. destruct I as (j & <- & _). unfold big_row. apply vtab_length.
  - intros q i col Hq Hi Hcol. cbv zeta. set (j := Z.to_nat (md_jm d + Z.of_nat q)). assert (Ho : offset (md_df d) q + i < g). { rewrite <- TG. apply offset_total; [exact Hq|lia]. }
    unfold mget. rewrite nth_map_seq by exact Ho. unfold big_row. rewrite vget_tab by exact Hcol.
    destruct (Hpm q i Hq Hi) as (Lr & Vr). cbv zeta in Lr, Vr. rewrite Lr, csum_blocks, <- csum_scal.
    assert (LP : length (plains es) = n - 1) by (unfold plains; rewrite map_length; exact Hl). rewrite LP. apply csum_ext. intros k Hk. rewrite <- csum_scal. apply csum_ext. intros l Hlm.
    rewrite (Vr k l Hk Hlm). rewrite (Nat.mul_comm k (m - 1)). rewrite plains_nth by lia. cbn [plain ea eb]. unfold Y.
    rewrite (raw_scaled x m es Hd Hm Hn Hl Hgr Ht Hfree Hap ds fs Ld HV d Hdiff ix schemes s Hs lc Hlc k j i q Hk Hq).
    change (vget cs (offset (md_df d) q + i)) with (nth (offset (md_df d) q + i) cs (RtoC 0)). rewrite (Hcs _ Ho _ (JP q i Hq Hi)). rewrite wroot_inv by lia. fold j rw. unfold over_loop. ring.
  - assert (Lel : length elem = n - 1). { rewrite <- LEs. clear - Fel. induction Fel; cbn; congruence. }
    split; [exact Lel|]. intros k q i Hk Hq Hi. cbv zeta. set (j := Z.to_nat (md_jm d + Z.of_nat q)). assert (Ho : offset (md_df d) q + i < g). { rewrite <- TG. apply offset_total; [exact Hq|lia]. }
    assert (F : forall l bs, Forall2 (fun v r : vec => length r = length v /\
      forall k j, k < length v -> nth_error (md_jpows d) k = Some j -> vget r k = (cexp (RtoC (IZR j) * (- RtoC (1 / INR m) * clog lc)) * vget v k)%C) l bs -> forall k, k < length l ->
      forall c j, c < length (nth k l []) -> nth_error (md_jpows d) c = Some j -> vget (nth k bs []) c = (cexp (RtoC (IZR j) * (- RtoC (1 / INR m) * clog lc)) * vget (nth k l []) c)%C).
    { clear. induction 1 as [|a b l bs Pa F IH]; intros k Hk; cbn in *; [lia|]. destruct k; [exact (proj2 Pa)|]. apply IH. lia. }
    destruct (HPE k Hk) as (_ & Lk & H3). destruct (H3 q i Hq Hi) as (V & _). cbv zeta in V. unfold mget.
    rewrite (F _ _ Fel k (eq_ind_r (fun z => k < z) Hk LEs) (offset (md_df d) q + i) _ (eq_ind_r (fun z => _ < z) Ho Lk) (JP q i Hq Hi)). change (@nth vec k Es []) with (@nth (list C) k Es []). rewrite V, wroot_inv by lia. rewrite plains_nth by lia. cbn [plain ea eb].
    fold j. symmetry. apply (raw_scaled x m es Hd Hm Hn Hl Hgr Ht Hfree Hap ds fs Ld HV d Hdiff ix schemes s Hs lc Hlc k j i q Hk Hq).
Qed.
End Run.
