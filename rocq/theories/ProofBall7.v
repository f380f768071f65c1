(** Periods of superelliptic curves on balls, with the double exponential rule. *)
From Coq Require Import Reals Lra Lia List FunctionalExtensionality.
From Coquelicot Require Import Coquelicot.
From Verif Require Import CArg ModelTree SpecTree ProofTree ProofTreeEx ModelInter ModelCurve ProofCurve ModelSymp SpecSymp ProofSymp ProofSympMain ModelBasis SpecBasis
  ModelPeriod SpecPeriod ProofPeriod ProofPeriodMain ModelVec SpecVec ProofVec ModelQuad SpecQuad ProofQuad ProofTrap ModelCache SpecInter ModelEdge SpecEdge ProofEdge ProofAngle ModelTurn SpecTurn ProofTurn
  ModelDe SpecDe ModelDeq SpecErr SpecDeq ModelExtra SpecExtra ProofExtra ProofErr3 ProofErr5 ProofErr6 ProofLat9 ProofHol10 ProofHol11 ProofDeq ProofDeq2 ProofHyp
  ModelBall SpecBall ProofBall1 ProofBall2 ProofBall3 ProofBall4 ProofBall5 ProofBall6.
Import ListNotations.
Local Open Scope R_scope.

Section Edge.
Variables (A : arith) (mem : ball A -> C -> Prop).
Hypotheses (S : sound A mem) (W : widens A mem).
Notation mv := (Forall2 mem).
Context (p : Z) (nonpos neg : C -> bool) (x : list C) (a b : nat) (m : nat) (c : sec) (ye : ydata) (Ye : b_ydata A).
Let M := Z.of_nat m.
Hypothesis Hc : sec_init M (Z.of_nat (length x)) = Done c.
Hypothesis Hn : (3 <= length x)%nat.
Hypothesis Ha : (a < length x)%nat.
Hypothesis Hb : (b < length x)%nat.
Hypothesis Hab : vget x a <> vget x b.
Hypothesis Hye : ydata_init_edge nonpos neg x a b M = Done ye.
Hypothesis Hfree : forall q, In q (y_u ye) -> forall t, -1 <= t <= 1 -> q <> RtoC t.
Hypothesis HY : ydata_mem A mem Ye ye.

(** the row of an edge for given parameters *)
Definition b_row (rdef rprod rturn : bool) (s : b_store) : outcome (list (ball A)) :=
  do v <- b_de_integrals A p rdef rprod rturn (by_u A Ye) (by_n1 A Ye) (Z.to_nat (sec_n c - 2)) c (b_de_init A p (bs_h s) (bs_l s) (Z.to_nat (bs_n s)) (sec_m c));
  b_edge_factors A p (map (fun z => b_err A z (bs_e s)) v) (by_ba2 A Ye) (by_ab A Ye) (by_c A Ye) c.
Lemma edge_ball_de rdef rprod rturn s : de_usable A mem p rdef rprod rturn c s Ye ->
  exists V w, b_row rdef rprod rturn s = Done V /\ mv V w /\ Z.of_nat (length w) = sec_g c /\
    cycle_integrals m c x (vget x a) (vget x b) (y_ya ye) (y_yb ye) w.
Proof using S W Ha Hb Hab Hye Hc Hn Hfree HY.
  intros (Hrad & Hcl). assert (HY' := HY). destruct HY' as (HU & E1 & HB2 & HAB & HC & _).
  destruct (Hrad (y_u ye) HU) as (Hn0 & He). clear Hrad. rewrite E1 in He.
  assert (H2 : (2 <= M)%Z) by (destruct (sec_init_inv M _ c Hc ltac:(lia)) as (H & _); exact H).
  assert (Hgt : Z.of_nat (total (sec_ni c)) = sec_g c) by exact (g_total nonpos neg x a b m c ye Hc Hn Ha Hb Hab Hye Hfree).
  assert (Hlu : length (y_u ye) = (length x - 2)%nat) by apply (fields nonpos neg x a b m c ye Hc Hn Ha Hb Hab Hye Hfree).
  destruct (sec_init_fields M _ c Hc) as (Em & En).
  assert (Hd : Z.to_nat (sec_n c - 2) = length (y_u ye)) by (rewrite En, Hlu; lia).
  set (N := Z.to_nat (bs_n s)) in *. assert (HN : (1 <= N)%nat) by (unfold N; lia).
  set (yt := fun t : R => y_tilde M (y_u ye) (y_n1 ye) (RtoC t)).
  assert (Ey : (fun t => roots_product M (factors (y_u ye) (y_n1 ye) (length (y_u ye)) t)) = yt).
  { apply functional_extensionality. intro t. unfold yt. rewrite <- root_pol_tilde. symmetry. apply edge_def_same. }
  assert (Hz : forall t q, -1 < t < 1 -> In q (y_u ye) -> (q - RtoC t)%C <> RtoC 0 /\ (RtoC t - q)%C <> RtoC 0).
  { intros t q Ht Hq. assert (K := Hfree q Hq t ltac:(lra)). split; intro E0; apply K.
    - transitivity ((q - RtoC t) + RtoC t)%C; [ring|]. rewrite E0. ring.
    - transitivity (RtoC t - (RtoC t - q))%C; [ring|]. rewrite E0. ring. }
  (* sums *)
  destruct (de_sums M _ c (bs_h s) (bs_l s) N yt Hc ltac:(lia) HN) as (v & Ev & HLv & Hv).
  { intros t Ht. unfold yt. apply y_neq_m; [lia|]. intros q Hq. now apply Hz. }
  assert (S2 := de_integrals_sim A mem S p (why := False) rdef rprod rturn (by_u A Ye) (y_u ye) (y_n1 ye) (length (y_u ye)) c (bs_h s) (bs_l s) N HU).
  rewrite Em in S2. specialize (S2 ltac:(lia) ltac:(lia)). cbv zeta in S2. rewrite Ey in S2.
  specialize (S2 ltac:(intros t z Ht Hin; unfold factors in Hin; apply in_map_iff in Hin; destruct Hin as (k & <- & Hk); apply in_seq in Hk;
    assert (Hin' : In (nth k (y_u ye) (RtoC 0)) (y_u ye)) by (apply nth_In; lia); destruct (Hz t _ Ht Hin'); destruct (k <? y_n1 ye)%nat; assumption)).
  specialize (S2 ltac:(intro k; apply node_open)).
  rewrite Hd, Em, E1 in Hcl. specialize (S2 Hcl). unfold vec in *. rewrite Ev in S2. destruct (sim_exact _ _ _ (fun f => f) S2) as (V & EV & HV).
  (* integrals *)
  destruct (blocks_choice (sec_ni c) (fun q i I => is_int (SpecQuad.integrand M yt (Z.to_nat (sec_j1 c + Z.of_nat q)) i) I /\
    match bs_e s with None => True | Some e => Cmod (vget v (offset (sec_ni c) q + i) - I)%C <= e end)) as (w & HLw & Hw).
  { intros q i Hbk. destruct (block_j nonpos neg x a b m c ye Hc Hn Ha Hb Hab Hye Hfree q i Hbk) as [J1 J2]. destruct Hbk as [Hq Hi].
    destruct (bs_e s) as [e|].
    - destruct He as (Hl & Hh & He). destruct (He q i Hq Hi) as (r & r0 & m1 & m2 & R1 & R2 & R3 & R4 & R5 & R6 & R7 & R8). rewrite Em in R5, R6, R7, R8.
      destruct (de_error_bound (bs_l s) r r0 (bs_h s) M (y_u ye) (y_n1 ye) (Z.to_nat (sec_j1 c + Z.of_nat q)) i m1 m2 Hl R1 R2 R3 Hh ltac:(lia) R4 R5 R6) as (I & I1 & I2).
      exists I. split; [exact I1|]. rewrite (Hv q i Hq Hi). eapply Rle_trans; [apply I2; exact R7|exact R8].
    - destruct (tau_points (y_u ye) Hfree) as (Hpts & r1 & Hr1). destruct (choose_r_scaled _ _ Hr1) as ((Hr0 & _) & _).
      destruct (de_single (y_u ye) (map de_tau (y_u ye)) r1 r1 M (y_n1 ye) (Z.to_nat (sec_j1 c + Z.of_nat q)) i Hr1 Hpts ltac:(lra) ltac:(lia)) as (K & I & _ & HI & _).
      exists I. split; [exact HI|exact Logic.I]. }
  assert (HVw : mv (map (fun z => b_err A z (bs_e s)) V) w).
  { apply (err_mem A mem W V v w (bs_e s) HV); [lia|]. destruct (bs_e s) as [e|]; [|exact Logic.I]. intros l Hl.
    destruct (offset_split (sec_ni c) l ltac:(lia)) as (q & i & Hbk & ->). apply (Hw q i Hbk). }
  (* factors *)
  assert (Hgg : (0 <= sec_g c)%Z) by apply (genus_exact_final _ _ _ Hc ltac:(lia)).
  destruct (edge_cycle nonpos neg x a b m c ye Hc Hn Ha Hb Hab Hye Hfree w) as (w' & Ew & HLw' & Hcy).
  { lia. }
  { intros q i Hbk. apply (Hw q i Hbk). }
  assert (S3 := edge_factors_sim A mem S (why := False) p _ _ _ _ _ _ _ _ c HVw HB2 HAB HC). rewrite Ew in S3.
  destruct (sim_exact _ _ _ (fun f => f) S3) as (V' & EV' & HV').
  exists V', w'. split; [|split; [exact HV'|split; [lia|exact Hcy]]].
  unfold b_row. rewrite Hd, Em. fold N. rewrite E1. rewrite EV. cbn [bind]. exact EV'.
Qed.
End Edge.

(** ** All the edges *)
Fixpoint chain {X : Type} (ok : X -> X -> Prop) (l : list X) : Prop :=
  match l with [] => True | a :: l => (forall b, In b (a :: l) -> ok a b) /\ chain ok l end.
Lemma chain_nth {X : Type} (ok : X -> X -> Prop) d : forall l, (forall i j, (i <= j < length l)%nat -> ok (nth i l d) (nth j l d)) -> chain ok l.
Proof.
  induction l as [|a l IH]; intro H; cbn [chain]; [exact I|]. split.
  - intros b Hb. destruct (In_nth _ _ d Hb) as (j & Hj & <-). apply (H 0%nat j). lia.
  - apply IH. intros i j Hij. apply (H (S i) (S j)). cbn. lia.
Qed.
Lemma tree_loop_de {Row Store Key : Type} (integ : Store -> nat -> outcome (Row * Store)) (fresh : Store -> Prop) (st : nat -> Store) (usable : Store -> nat -> Prop) (good : nat -> Row -> Prop) (d : Row) :
  (forall a k, fresh a -> usable (st k) k -> exists row, integ a k = Done (row, st k) /\ good k row) ->
  (forall a k, usable a k -> usable (st k) k -> exists row s, integ a k = Done (row, s) /\ good k row /\ (s = a \/ s = st k)) ->
  forall (t : list (Key * nat)) a rows,
  (fresh a \/ forall k, In k (map snd t) -> usable a k) -> chain (fun k k' => usable (st k) k') (map snd t) ->
  NoDup (map snd t) -> (forall k, In k (map snd t) -> (k < length rows)%nat) ->
  exists rows', edge_loop integ t a rows = Done rows' /\ length rows' = length rows /\
    (forall k, In k (map snd t) -> good k (nth k rows' d)) /\ (forall k, ~ In k (map snd t) -> nth k rows' d = nth k rows d).
Proof.
  intros H0 H1. induction t as [|[key k] t IH]; intros a rows Ha Hch Hnd Hlt; cbn [edge_loop map snd chain] in *.
  - exists rows. split; [reflexivity|]. split; [reflexivity|]. split; [intros k []|reflexivity].
  - destruct Hch as [Hk Hch].
    assert (Hs : exists row s, integ a k = Done (row, s) /\ good k row /\ (forall k', In k' (map snd t) -> usable s k')).
    { destruct Ha as [Ha|Ha].
      - destruct (H0 a k Ha (Hk k (or_introl eq_refl))) as (row & E & G). exists row, (st k). split; [exact E|]. split; [exact G|]. intros k' Hk'. apply Hk. now right.
      - destruct (H1 a k (Ha k (or_introl eq_refl)) (Hk k (or_introl eq_refl))) as (row & s & E & G & Hs). exists row, s. split; [exact E|]. split; [exact G|].
        intros k' Hk'. destruct Hs as [->| ->]; [apply Ha|apply Hk]; now right. }
    destruct Hs as (row & s & Er & Hrow & Hs). rewrite Er. cbn [bind snd fst].
    assert (Hkl := Hlt k (or_introl eq_refl)). rewrite (proj2 (Nat.ltb_lt _ _) Hkl).
    inversion Hnd as [|? ? Hk0 Hnd']; subst.
    destruct (IH s (upd rows k row) (or_intror Hs) Hch Hnd') as (rows' & E & HL & Hin & Hout).
    { intros k' Hk'. rewrite upd_length. apply Hlt. now right. }
    rewrite upd_length in HL. exists rows'. split; [exact E|]. split; [exact HL|]. split.
    + intros q [<-|Hq]; [|now apply Hin]. rewrite Hout by exact Hk0. rewrite (nth_upd d rows k row k Hkl), Nat.eqb_refl. exact Hrow.
    + intros q Hq. rewrite Hout by (intro; apply Hq; now right). rewrite (nth_upd d rows k row q Hkl). destruct (Nat.eqb_spec q k) as [->|_]; [|reflexivity]. exfalso. apply Hq. now left.
Qed.

Lemma super_balls (A : arith) (mem : ball A -> C -> Prop) {Key : Type} xgcd sort param p q X x m cv r0 mn es r' mn' Ys inter
  (qsort : list (Key * nat) -> list (Key * nat)) keys rows rdef rprod rturn same params (st : nat -> b_store) :
  sound A mem -> widens A mem -> mems mem X x -> distinct x -> (3 <= length x)%nat -> sec_init (Z.of_nat m) (Z.of_nat (length x)) = Done cv ->
  (forall l, Permutation l (sort l)) -> (forall l, Permutation (qsort l) l) -> xgcd_ok xgcd ->
  let t := Z.to_nat (tree_edges cv) in let g := Z.to_nat (sec_g cv) in let gens := (t * (m - 1))%nat in
  spanning_tree sort param (length x) t r0 mn = Done (es, r', mn') ->
  (forall e, In e es -> free_segment x (vget x (ea e)) (vget x (eb e))) ->
  b_tree_ydata A p X (Z.of_nat m) es = Done Ys ->
  directions_clear A q Ys es -> b_intersection A q Ys es (Z.of_nat m) = Done inter ->
  length keys = t -> length rows = t ->
  (forall k, (k < t)%nat -> params (by_u A (nth k Ys (b_no_ydata A))) = Done (st k)) ->
  let order := map snd (qsort (combine keys (seq 0 t))) in
  (forall i j, (i <= j < t)%nat -> de_usable A mem p rdef rprod rturn cv (st (nth i order 0%nat)) (nth (nth j order 0%nat) Ys (b_no_ydata A))) ->
  exists nonpos neg ys s V b, tree_ydata nonpos neg x (Z.of_nat m) es = Done ys /\ intersection_of_data ys es (Z.of_nat m) = Done inter /\
    symplectic_reduction xgcd (to_rows inter) g = Done s /\
    SpecSymp.square gens (stP s) /\ unimodular gens (stP s) /\ congruent gens (stP s) (to_rows inter) (stM s) /\
    (Z.gcd (Z.of_nat m) (Z.of_nat (length x)) = 1%Z \/ Z.gcd (Z.of_nat m) (Z.of_nat (length x)) = Z.of_nat m -> canonical gens g (stM s)) /\
    b_tree_de A p qsort rdef rprod rturn same params cv Ys keys rows = Done V /\ length b = t /\
    (forall k, (k < t)%nat -> let ye := nth k ys no_ydata in
      mem (by_ya A (nth k Ys (b_no_ydata A))) (y_ya ye) /\ mem (by_yb A (nth k Ys (b_no_ydata A))) (y_yb ye) /\ mems mem (nth k V []) (nth k b []) /\
      cycle_integrals m cv x (vget x (ea (nth k es no_edge))) (vget x (eb (nth k es no_edge))) (y_ya ye) (y_yb ye) (nth k b [])) /\
    (~ rows_fit (2 * g) (stP s) -> symplectic_basis xgcd (to_rows inter) g (Z.of_nat m) = Abort) /\
    (rows_small (2 * g) (stP s) -> exists loops OA OB,
      symplectic_basis xgcd (to_rows inter) g (Z.of_nat m) = Done loops /\
      b_period_matrix A p cv (map fst loops) V = Done OA /\ length OA = g /\
      b_period_matrix A p cv (map snd loops) V = Done OB /\ length OB = g /\
      forall k q i, (k < g)%nat -> (q < length (sec_ni cv))%nat -> (Z.of_nat i < nth q (sec_ni cv) 0)%Z ->
        let j := (sec_j1 cv + Z.of_nat q)%Z in let pos := (offset (sec_ni cv) q + i)%nat in
        mem (nth k (nth pos OA []) (b_zero A)) (row_period cv b (nth (2 * k) (stP s) []) j pos) /\
        mem (nth k (nth pos OB []) (b_zero A)) (row_period cv b (nth (2 * k + 1) (stP s) []) j pos)).
Proof.
  intros S W HX Hdi Hn Hc Hs Hq Hx t g gens Et Hfree EY Hdir EI Hkeys Hrows Hpar order Huse.
  destruct (curve_counts m (length x) cv Hc ltac:(lia)) as (Hm & Htn & _ & Hr & Hg1). fold t g in Htn, Hr, Hg1.
  destruct (tree_final sort param (length x) t r0 mn Hs Htn) as (l0 & r1 & mn1 & Et' & Hlen & Hgr & _ & _ & Hto & _).
  rewrite Et in Et'. injection Et' as <- <- <-.
  assert (Hes0 := growing_edges es (length x) Hgr Hto).
  assert (Hes : edges_of x es).
  { intros d Hd. destruct (Hes0 d Hd) as (A1 & A2 & A3). split; [exact A1|]. split; [exact A2|].
    intro E. apply A3. apply (proj1 (NoDup_nth x (RtoC 0)) Hdi); [exact A1|exact A2|exact E]. }
  (* data of the edges *)
  assert (S1 := tree_ydata_sim A mem S p X x HX (Z.of_nat m) es ltac:(lia) Hdi Hes). rewrite EY in S1.
  destruct (sim_done _ _ _ S1) as (ys & Ey & HY). clear S1.
  set (nonpos := test_pos A p X x) in Ey. set (neg := test_neg A p X x) in Ey.
  destruct (curve_reduces xgcd sort param nonpos neg x m cv r0 mn es r' mn' Hdi ltac:(lia) Hc Hs Hx Et)
    as (ys' & inter' & s & H1 & H2 & H3 & HS & HA & HU & HC & _ & _ & _ & Hcan).
  rewrite Ey in H1. injection H1 as <-. fold t g gens in H3, HS, HA, HU, HC, Hcan.
  (* intersections *)
  assert (S2 := b_intersection_sim A mem S q nonpos neg x m es Ys ys Hdi ltac:(lia) Hes0 Ey HY Hdir).
  rewrite EI, H2 in S2. cbn [simu] in S2. subst inter'.
  destruct (reduction_congruence gens _ g xgcd s Hx HS HA H3) as (HP & _).
  (* integrals *)
  assert (HPm : Permutation order (seq 0 t)).
  { unfold order. rewrite Hq. rewrite map_snd_combine by (rewrite seq_length; lia). reflexivity. }
  assert (Hin : forall k, In k order <-> (k < t)%nat).
  { intro k. split; intro H.
    - apply (Permutation_in _ HPm), in_seq in H. lia.
    - apply (Permutation_in _ (Permutation_sym HPm)), in_seq. lia. }
  assert (Hol : length order = t) by (rewrite (Permutation_length HPm); apply seq_length).
  set (usable := fun s k => (k < t)%nat /\ de_usable A mem p rdef rprod rturn cv s (nth k Ys (b_no_ydata A))).
  set (good := fun k V => exists w, Forall2 mem V w /\ Z.of_nat (length w) = sec_g cv /\
      cycle_integrals m cv x (vget x (ea (nth k es no_edge))) (vget x (eb (nth k es no_edge))) (y_ya (nth k ys no_ydata)) (y_yb (nth k ys no_ydata)) w).
  assert (HYk : forall k, ydata_mem A mem (nth k Ys (b_no_ydata A)) (nth k ys no_ydata)) by (intro k; apply Forall2_nth; [exact HY|apply (no_ydata_mem A mem S)]).
  assert (Hrow : forall s k, usable s k -> exists V, b_row A p cv (nth k Ys (b_no_ydata A)) rdef rprod rturn s = Done V /\ good k V).
  { intros s0 k [Hk Hu]. assert (Hke : (k < length es)%nat) by (rewrite Hlen; exact Hk).
    destruct (Hes (nth k es no_edge) (nth_In es no_edge Hke)) as (A1 & A2 & A3).
    assert (Ek := tree_ydata_nth nonpos neg x (Z.of_nat m) es ys k Ey Hke).
    assert (Hf := free_points _ _ x (ea (nth k es no_edge)) (eb (nth k es no_edge)) m (nth k ys no_ydata) Hdi ltac:(lia) A1 A2 A3 Ek (Hfree _ (nth_In es no_edge Hke))).
    destruct (edge_ball_de A mem S W p _ _ x (ea (nth k es no_edge)) (eb (nth k es no_edge)) m cv (nth k ys no_ydata) (nth k Ys (b_no_ydata A))
      Hc Hn A1 A2 A3 Ek Hf (HYk k) rdef rprod rturn s0 Hu) as (V & w & B1 & B2 & B3 & B4).
    exists V. split; [exact B1|]. exists w. auto. }
  assert (Hlu : forall k, (k < t)%nat -> firstn (Z.to_nat (sec_n cv - 2)) (by_u A (nth k Ys (b_no_ydata A))) = by_u A (nth k Ys (b_no_ydata A))).
  { intros k Hk. assert (Hke : (k < length es)%nat) by (rewrite Hlen; exact Hk).
    destruct (Hes (nth k es no_edge) (nth_In es no_edge Hke)) as (A1 & A2 & A3).
    assert (Ek := tree_ydata_nth nonpos neg x (Z.of_nat m) es ys k Ey Hke).
    assert (Hf := free_points _ _ x (ea (nth k es no_edge)) (eb (nth k es no_edge)) m (nth k ys no_ydata) Hdi ltac:(lia) A1 A2 A3 Ek (Hfree _ (nth_In es no_edge Hke))).
    apply firstn_all2. rewrite (Forall2_len _ _ _ (proj1 (HYk k))). destruct (sec_init_fields _ _ cv Hc) as (_ & En).
    rewrite (proj1 (fields _ _ x _ _ m cv _ Hc Hn A1 A2 A3 Ek Hf)), En. lia. }
  destruct (tree_loop_de (Key := Key) (fun s k => b_edge_de A p rdef rprod rturn same params cv s (nth k Ys (b_no_ydata A))) (fun s => bs_n s = 0%Z) st usable good [])
    with (t := qsort (combine keys (seq 0 t))) (a := b_no_store) (rows := rows) as (V & EV & HLV & HV & _).
  { intros a0 k Hf Hu. destruct (Hrow _ _ Hu) as (V & EV & GV). exists V. split; [|exact GV]. destruct Hu as [Hk _].
    unfold b_edge_de. cbv zeta. rewrite Hf. cbn [Z.eqb orb]. rewrite Hlu by exact Hk. rewrite (Hpar k Hk). cbn [bind].
    unfold b_row in EV. destruct (b_de_integrals _ _ _ _ _ _ _ _ _ _) as [v| | |]; try discriminate. cbn [bind] in *. rewrite EV. reflexivity. }
  { intros a0 k Hu Hu'. destruct (Hrow _ _ Hu) as (V & EV & GV). destruct (Hrow _ _ Hu') as (V' & EV' & GV'). destruct Hu as [Hk _].
    unfold b_edge_de. cbv zeta. rewrite Hlu by exact Hk. rewrite (Hpar k Hk). cbn [bind].
    assert (Hsel : exists s0, (if (bs_n a0 =? 0)%Z || negb same
      then Done (if (bs_n a0 =? 0)%Z || (wrap (wrap (bs_n a0 - bs_n (st k)) * wrap (sec_n cv + sec_g cv)) >? wrap (bs_n (st k)))%Z then st k else a0)
      else Done a0) = Done s0 /\ (s0 = a0 \/ s0 = st k)).
    { destruct ((bs_n a0 =? 0)%Z || negb same); [|exists a0; auto]. destruct ((bs_n a0 =? 0)%Z || _); [exists (st k); auto|exists a0; auto]. }
    destruct Hsel as (s0 & Es & Hs0). rewrite Es. cbn [bind].
    assert (Hb : exists V, b_row A p cv (nth k Ys (b_no_ydata A)) rdef rprod rturn s0 = Done V /\ good k V) by (destruct Hs0 as [->| ->]; [exists V|exists V']; auto).
    destruct Hb as (V0 & EV0 & GV0). exists V0, s0. split; [|split; [exact GV0|exact Hs0]].
    unfold b_row in EV0. destruct (b_de_integrals _ _ _ _ _ _ _ _ _ _) as [v| | |]; try discriminate. cbn [bind] in *. rewrite EV0. reflexivity. }
  { left. reflexivity. }
  { fold order. apply (chain_nth _ 0%nat). intros i j Hij. rewrite Hol in Hij. split; [|now apply Huse]. apply Hin, nth_In. lia. }
  { fold order. apply (Permutation_NoDup (Permutation_sym HPm)), seq_NoDup. }
  { fold order. intros k Hk. rewrite Hrows. now apply Hin. }
  assert (HLV' : length V = t) by lia.
  destruct (rows_choice t (fun k w => Forall2 mem (nth k V []) w /\ Z.of_nat (length w) = sec_g cv /\
      cycle_integrals m cv x (vget x (ea (nth k es no_edge))) (vget x (eb (nth k es no_edge))) (y_ya (nth k ys no_ydata)) (y_yb (nth k ys no_ydata)) w))
    as (b & HLb & Hb).
  { intros k Hk. apply HV. fold order. now apply Hin. }
  assert (Hb2 : forall row, In row b -> Z.of_nat (length row) = sec_g cv).
  { intros row Hrow'. destruct (In_nth b row [] Hrow') as (k & Hk & <-). apply Hb. lia. }
  destruct (curve_periods xgcd sort param nonpos neg x m cv r0 mn es r' mn' b Hdi ltac:(lia) Hc Hs Hx Et) as (ys2 & inter2 & s2 & K1 & K2 & K3 & K4 & K5).
  { split; [exact HLb|exact Hb2]. }
  rewrite Ey in K1. injection K1 as <-. rewrite H2 in K2. injection K2 as <-. fold g in K3, K4, K5. rewrite H3 in K3. injection K3 as <-.
  exists nonpos, neg, ys, s, V, b. split; [exact Ey|]. split; [exact H2|]. split; [exact H3|]. split; [exact HP|]. split; [exact HU|]. split; [exact HC|].
  split; [exact Hcan|].
  split. { unfold b_tree_de, integrals_tree. rewrite Hkeys. exact EV. }
  split; [exact HLb|]. split.
  { intros k Hk ye. destruct (HYk k) as (_ & _ & _ & _ & _ & Y1 & Y2). split; [exact Y1|]. split; [exact Y2|]. destruct (Hb k Hk) as (B1 & _ & B2). split; [exact B1|exact B2]. }
  split; [exact K4|]. intro Hsm. destruct (K5 Hsm) as (loops & omA & omB & P1 & P2 & P3 & P4 & P5 & P6).
  assert (HVb : Forall2 (Forall2 mem) V b).
  { apply (Forall2_of_nth _ [] []); [transitivity t; [exact HLV'|symmetry; exact HLb]|]. intros k Hk. apply Hb. apply (Nat.lt_le_trans _ _ _ Hk). apply Nat.eq_le_incl. exact HLV'. }
  assert (SA := period_matrix_sim A mem S (why := False) p cv (map fst loops) V b HVb). rewrite P2 in SA. destruct (sim_exact _ _ _ (fun f => f) SA) as (OA & EA & HOA).
  assert (SB := period_matrix_sim A mem S (why := False) p cv (map snd loops) V b HVb). rewrite P4 in SB. destruct (sim_exact _ _ _ (fun f => f) SB) as (OB & EB & HOB).
  exists loops, OA, OB. split; [exact P1|]. split; [exact EA|]. split; [rewrite (Forall2_len _ _ _ HOA); exact P3|].
  split; [exact EB|]. split; [rewrite (Forall2_len _ _ _ HOB); exact P5|].
  intros k q0 i Hk' Hq0 Hi. destruct (P6 k q0 i Hk' Hq0 Hi) as (PA & PB). cbv zeta. rewrite <- PA, <- PB.
  split; apply (mget A mem S); apply Forall2_nth; try assumption; constructor.
Qed.
