(** Periods of hyperelliptic curves on balls. *)
From Coq Require Import Reals Lra Lia List FunctionalExtensionality.
From Coquelicot Require Import Coquelicot.
From Verif Require Import CArg ModelTree SpecTree ProofTree ProofTreeEx ModelInter ModelCurve ProofCurve ModelSymp SpecSymp ProofSymp ProofSympMain ModelBasis SpecBasis
  ModelPeriod SpecPeriod ProofPeriod ProofPeriodMain ModelVec ModelQuad SpecQuad ProofQuad ModelCache SpecInter ModelEdge SpecEdge ProofEdge ProofAngle ModelTurn SpecTurn ProofTurn
  ModelGc SpecGc ProofGc ProofErr1 ProofErr2 ProofErr3 ProofErr4 ModelExtra SpecExtra ProofExtra ModelErr SpecErr ProofErr5 ProofErr6 ProofLat9 SpecHyp ProofHyp
  ModelBall SpecBall ProofBall1 ProofBall2 ProofBall3 ProofBall4 ProofBall5.
Import ListNotations.
Local Open Scope R_scope.

(** the parameters of the exact computation satisfy the contract *)
Lemma gc_params_ok fuel u g prec n e r : gc_params fuel u g prec = Done (n, e, r) -> avoids r u -> (0 < n)%Z -> gc_radius_ok g u n e.
Proof.
  intros H Ha Hn. assert (Hr := gc_r_ge_1 _ _ _ _ _ _ _ H). assert (HPI := PI_RGT_0).
  destruct (gc_radius_value _ _ _ _ _ _ _ H Ha Hr Hn) as (e' & r0 & E1 & (Hr1 & Hr0) & E2).
  split; [exact Hn|]. exists (acosh r). set (eta := acosh r) in *.
  assert (Heta : 0 < eta) by now apply acosh_pos. assert (Ech : cosh eta = r) by now apply cosh_acosh.
  split; [lra|]. split; [rewrite Ech; exact Ha|]. rewrite E1. intros l Hl. rewrite E2, Ech.
  change (fold_right Rmult 1 (map (fun z => half_sum z - r) u)) with (prodR (map (fun z => half_sum z - r) u)).
  match goal with |- _ <= ?rhs => set (rhs0 := rhs) end. set (P := prodR _).
  assert (HP : 0 < P). { apply prodR_pos, Forall_map. eapply Forall_impl; [|exact Ha]. cbn. intros. lra. }
  assert (Hs : 0 < sqrt P) by now apply sqrt_lt_R0.
  assert (Hn' : 0 < 2 * eta * IZR n) by (apply Rmult_lt_0_compat; [lra|]; now apply IZR_lt).
  assert (Hq : 1 < exp (2 * eta * IZR n)) by (apply exp_increasing in Hn'; rewrite exp_0 in Hn'; lra).
  assert (Hpow : r ^ l <= r0 ^ g).
  { apply Rle_trans with (r0 ^ l); [apply pow_incr; lra|]. apply Rle_pow; [lra|lia]. }
  assert (Hp0 : 0 < r ^ l) by (apply pow_lt; lra).
  assert (Hex : exp (- (2 * eta * IZR n)) <= / (exp (2 * eta * IZR n) - 1)).
  { rewrite exp_Ropp. apply Rinv_le_contravar; lra. }
  assert (Hse : 0 < exp (- (2 * eta * IZR n))) by apply exp_pos.
  set (ex := exp (- (2 * eta * IZR n))) in *.
  assert (Hsi : 0 < / sqrt P) by now apply Rinv_0_lt_compat.
  apply Rle_trans with (2 * PI * / (exp (2 * eta * IZR n) - 1) * (r0 ^ g / sqrt P)).
  - apply Rmult_le_compat; [nra|unfold Rdiv; nra| |].
    + apply Rmult_le_compat_l; [lra|exact Hex].
    + unfold Rdiv. apply Rmult_le_compat_r; lra.
  - right. unfold rhs0. fold P. unfold Rdiv. ring.
Qed.

Lemma err_mem (A : arith) (mem : ball A -> C -> Prop) (W : widens A mem) V v w e : Forall2 mem V v -> length w = length v ->
  match e with None => True | Some e => forall l, (l < length v)%nat -> Cmod (vget v l - vget w l)%C <= e end ->
  Forall2 mem (map (fun z => b_err A z e) V) w.
Proof.
  intro H. revert w. induction H as [|X y V v Hm H IH]; intros w HL He; destruct w as [|z w]; cbn in HL; try discriminate; cbn [map]; constructor.
  - destruct e as [e|].
    + apply (s_err A mem W _ y); [exact Hm|]. specialize (He 0%nat ltac:(cbn; lia)). cbn in He.
      replace (z - y)%C with (- (y - z))%C by ring. rewrite Cmod_opp. exact He.
    + apply (s_err_inf A mem W _ y), Hm.
  - apply IH; [lia|]. destruct e as [e|]; [|exact I]. intros l Hl. apply (He (Datatypes.S l)). cbn. lia.
Qed.

Section Edge.
Variables (A : arith) (mem : ball A -> C -> Prop).
Hypotheses (S : sound A mem) (W : widens A mem).
Notation mv := (Forall2 mem).
Context (p : Z) (nonpos neg : C -> bool) (x : list C) (a b : nat) (n : Z) (c : sec) (ye : ydata) (Ye : b_ydata A).
Hypothesis Hc : sec_init 2 n = Done c.
Hypothesis Hn : (3 <= n)%Z.
Hypothesis Hx : Z.of_nat (length x) = n.
Hypothesis Ha : (a < length x)%nat.
Hypothesis Hb : (b < length x)%nat.
Hypothesis Hab : vget x a <> vget x b.
Hypothesis Hye : ydata_init_edge nonpos neg x a b 2 = Done ye.
Hypothesis HY : ydata_mem A mem Ye ye.

Lemma edge_ball rdef rturn params wp cached np e s :
  params (by_u A Ye) = Done (np, e) -> gc_radius_ok (Z.to_nat (sec_g c)) (y_u ye) np e ->
  gc_scheme c cached np = Done s -> (np <= s)%Z ->
  (forall Xs, b_gc_int_init A p (wp s) (Z.to_nat s) = Done Xs -> gc_clear A p rdef (by_u A Ye) (by_n1 A Ye) (length x - 2) Xs) ->
  exists V w, b_edge_gc A p rdef rturn params wp c cached Ye = Done (V, s) /\ mv V w /\ Z.of_nat (length w) = sec_g c /\
    edge_integrals x (vget x a) (vget x b) (y_ya ye) (y_yb ye) (sec_g c) w.
Proof using S W Ha Hb Hab Hye Hc Hn Hx HY.
  intros Hp (Hnp & eta & Heta & Hav & He) Hs Hle Hcl. destruct (hyper_shape n c Hc Hn) as (Hg & En & Ej & Eni).
  destruct (edge_fields nonpos neg x a b n ye Hn Hx Ha Hb Hab Hye) as (Hlu & _).
  assert (HY' := HY). destruct HY' as (HU & E1 & HB2 & HAB & HC & _).
  assert (Hlu2 : length (by_u A Ye) = length (y_u ye)) by exact (Forall2_len _ _ _ HU).
  set (N := Z.to_nat s) in *. assert (HN : (1 <= N)%nat) by (unfold N; lia).
  set (yt := fun t : R => y_tilde 2 (y_u ye) (y_n1 ye) (RtoC t)).
  assert (Ey : (fun t => roots_product 2 (factors (y_u ye) (y_n1 ye) (length (y_u ye)) t)) = yt).
  { apply functional_extensionality. intro t. unfold yt. rewrite <- root_pol_tilde. symmetry. apply edge_def_same. }
  destruct (gc_sums yt (yt 0) (Z.to_nat (sec_g c)) N HN ltac:(lia) eq_refl) as (v & Ev & HLv & Hv).
  unfold gc_integrals in Ev. destruct (gc_int_init N) as [xs| | |] eqn:Ex; try discriminate. cbn [bind] in Ev.
  (* nodes *)
  assert (S1 := gc_int_init_sim A mem S p (why := False) (wp s) N). rewrite Ex in S1.
  destruct (sim_exact _ _ _ (fun f => f) S1) as (Xs & EX & HX).
  (* sums *)
  assert (S2 := gc_integrals_sim A mem S p (why := False) rdef rturn (by_u A Ye) (y_u ye) (y_n1 ye) (length (y_u ye)) (Z.to_nat (sec_g c)) N Xs xs HU HX ltac:(lia) HN).
  cbv zeta in S2. rewrite Ey in S2. rewrite <- E1, Hlu in S2. replace (Z.to_nat (n - 2)) with (length x - 2)%nat in S2 by lia.
  specialize (S2 (Hcl Xs EX)). unfold vec in *. rewrite Ev in S2. destruct (sim_exact _ _ _ (fun f => f) S2) as (V & EV & HV).
  (* integrals *)
  destruct (finite_choice (Z.to_nat (sec_g c)) (fun l I => is_int (SpecQuad.integrand 2 yt 1 l) I /\
    match e with None => True | Some e => Cmod (vget v l - I)%C <= e end)) as (w & HLw & Hw).
  { intros l Hl. destruct (moment_error (y_u ye) (y_n1 ye) eta Heta Hav N l HN) as (I & I1 & I2). exists I. split; [exact I1|].
    destruct e as [e|]; [|exact Logic.I]. rewrite (Hv l Hl). eapply Rle_trans; [exact I2|]. eapply Rle_trans; [|apply (He l Hl)].
    change (fold_right Rmult 1 (map (fun z => half_sum z - cosh eta) (y_u ye))) with (prodR (map (fun p => half_sum p - cosh eta) (y_u ye))).
    assert (HP : 0 < prodR (map (fun p => half_sum p - cosh eta) (y_u ye))).
    { apply prodR_pos, Forall_map. eapply Forall_impl; [|exact Hav]. cbn. intros. lra. }
    assert (Hch := cosh_ge_1 eta). assert (Hpl : 0 < cosh eta ^ l) by (apply pow_lt; lra).
    apply Rmult_le_compat_r; [left; apply Rdiv_lt_0_compat; [exact Hpl|now apply sqrt_lt_R0]|].
    apply Rmult_le_compat_l; [assert (H := PI_RGT_0); lra|].
    assert (H3 : - (2 * eta * INR N) <= - (2 * eta * IZR np)).
    { apply Ropp_le_contravar, Rmult_le_compat_l; [lra|]. rewrite INR_IZR_INZ. apply IZR_le. unfold N. lia. }
    destruct H3 as [H3|H3]; [left; now apply exp_increasing|rewrite H3; lra]. }
  assert (HVw : mv (map (fun z => b_err A z e) V) w).
  { apply (err_mem A mem W V v w e HV); [lia|]. destruct e as [e|]; [|exact Logic.I]. intros l Hl. apply Hw. lia. }
  (* factors *)
  destruct (edge_factors_vec 2 n c w (y_ba2 ye) (y_ab ye) (y_c ye) Hc ltac:(lia) ltac:(lia)) as (w' & Ew & HLw' & _).
  assert (S3 := edge_factors_sim A mem S (why := False) p _ _ _ _ _ _ _ _ c HVw HB2 HAB HC). rewrite Ew in S3.
  destruct (sim_exact _ _ _ (fun f => f) S3) as (V' & EV' & HV').
  exists V', w'. split.
  - unfold b_edge_gc. rewrite En. replace (Z.to_nat (n - 2)) with (length x - 2)%nat by lia.
    rewrite firstn_all2 by lia. rewrite Hp. cbn [bind]. rewrite Hs. cbn [bind]. fold N. rewrite EX. cbn [bind]. rewrite EV. cbn [bind]. rewrite EV'. reflexivity.
  - split; [exact HV'|]. split; [lia|].
    exists (edge_branch ye). split; [exact (edge_branch_ok nonpos neg x a b ye Ha Hb Hab Hye)|]. intros i Hi.
    apply (edge_integral nonpos neg x a b n c ye Hc Hn Hx Ha Hb Hab Hye w w' i).
    + intros t Ht. apply (y_neq_0 (y_u ye) (y_n1 ye) eta Hav). lra.
    + exact HLw.
    + intros l Hl. apply Hw, Hl.
    + exact Ew.
    + exact Hi.
Qed.
End Edge.

(** ** All the edges *)
Lemma tree_loop_in {Row Key : Type} (c : sec) (integ : Z -> nat -> outcome (Row * Z)) (req : nat -> Z) (good : nat -> Row -> Prop) (d : Row) (all : list Z) :
  forall (t : list (Key * nat)) a rows ss,
  (forall k a s, In k (map snd t) -> In s all -> gc_scheme c a (req k) = Done s -> (req k <= s)%Z -> exists row, integ a k = Done (row, s) /\ good k row) ->
  NoDup (map snd t) -> (forall k, In k (map snd t) -> (k < length rows)%nat) -> incl ss all ->
  gc_schemes c a (map req (map snd t)) = Done ss -> Forall2 (fun s n => (n <= s)%Z) ss (map req (map snd t)) ->
  exists rows', edge_loop integ t a rows = Done rows' /\ length rows' = length rows /\
    (forall k, In k (map snd t) -> good k (nth k rows' d)) /\ (forall k, ~ In k (map snd t) -> nth k rows' d = nth k rows d).
Proof.
  induction t as [|[key k] t IH]; intros a rows ss Hg Hnd Hlt Hi Hss Hen; cbn [edge_loop map snd gc_schemes] in *.
  - exists rows. split; [reflexivity|]. split; [reflexivity|]. split; [intros k []|reflexivity].
  - destruct (gc_scheme c a (req k)) as [s| | |] eqn:Es; try discriminate. cbn [bind] in Hss.
    destruct (gc_schemes c s (map req (map snd t))) as [ss'| | |] eqn:Ess; try discriminate. injection Hss as <-.
    inversion Hen as [|? ? ? ? Hs Hen']; subst.
    destruct (Hg k a s (or_introl eq_refl) (Hi s (or_introl eq_refl)) Es Hs) as (row & Er & Hrow). rewrite Er. cbn [bind snd fst].
    assert (Hk := Hlt k (or_introl eq_refl)). rewrite (proj2 (Nat.ltb_lt _ _) Hk).
    inversion Hnd as [|? ? Hk0 Hnd']; subst.
    destruct (IH s (upd rows k row) ss') as (rows' & E & HL & Hin & Hout).
    + intros k' a' s' Hk'. apply Hg. now right.
    + exact Hnd'.
    + intros k' Hk'. rewrite upd_length. apply Hlt. now right.
    + intros q Hq. apply Hi. now right.
    + exact Ess.
    + exact Hen'.
    + rewrite upd_length in HL. exists rows'. split; [exact E|]. split; [exact HL|]. split.
      * intros q [<-|Hq]; [|now apply Hin]. rewrite Hout by exact Hk0. rewrite (nth_upd d rows k row k Hk), Nat.eqb_refl. exact Hrow.
      * intros q Hq. rewrite Hout by (intro; apply Hq; now right). rewrite (nth_upd d rows k row q Hk). destruct (Nat.eqb_spec q k) as [->|_]; [|reflexivity]. exfalso. apply Hq. now left.
Qed.
Lemma Forall2_of_nth {X Y} (P : X -> Y -> Prop) d d' : forall l k, length l = length k -> (forall i, (i < length l)%nat -> P (nth i l d) (nth i k d')) -> Forall2 P l k.
Proof.
  induction l as [|a l IH]; intros [|b k] HL H; cbn in HL; try discriminate; constructor.
  - apply (H 0%nat). cbn. lia.
  - apply IH; [lia|]. intros i Hi. apply (H (S i)). cbn. lia.
Qed.
Lemma Forall2_two {X Y} (P : X -> Y -> Prop) l k d d' i : Forall2 P l k -> (i < length k)%nat -> P (nth i l d) (nth i k d').
Proof. intro H. revert i. induction H as [|a b l k Hp H IH]; intros i Hi; cbn in Hi; [lia|]. destruct i; cbn; [exact Hp|]. apply IH. lia. Qed.

Lemma hyper_balls (A : arith) (mem : ball A -> C -> Prop) {Key : Type} xgcd sort param p q X x cv r0 mn es r' mn' Ys inter
  (qsort : list (Key * nat) -> list (Key * nat)) keys rows rdef rturn params wp (np : nat -> Z) (e : nat -> option R) ss :
  sound A mem -> widens A mem -> mems mem X x -> distinct x -> (3 <= length x)%nat -> sec_init 2 (Z.of_nat (length x)) = Done cv ->
  (forall l, Permutation l (sort l)) -> (forall l, Permutation (qsort l) l) -> xgcd_ok xgcd ->
  let t := Z.to_nat (tree_edges cv) in let g := Z.to_nat (sec_g cv) in
  spanning_tree sort param (length x) t r0 mn = Done (es, r', mn') -> b_tree_ydata A p X 2 es = Done Ys ->
  directions_clear A q Ys es -> b_intersection A q Ys es 2 = Done inter ->
  length keys = t -> length rows = t ->
  (forall k, (k < t)%nat -> let U := by_u A (nth k Ys (b_no_ydata A)) in
    params U = Done (np k, e k) /\ forall u, mems mem U u -> gc_radius_ok g u (np k) (e k)) ->
  let order := map snd (qsort (combine keys (seq 0 t))) in
  gc_schemes cv 0 (map np order) = Done ss -> Forall2 (fun s n => (n <= s)%Z) ss (map np order) ->
  (forall k s Xs, (k < t)%nat -> In s ss -> b_gc_int_init A p (wp s) (Z.to_nat s) = Done Xs ->
    gc_clear A p rdef (by_u A (nth k Ys (b_no_ydata A))) (by_n1 A (nth k Ys (b_no_ydata A))) (length x - 2) Xs) ->
  exists nonpos neg ys s V b, tree_ydata nonpos neg x 2 es = Done ys /\ intersection_of_data ys es 2 = Done inter /\
    symplectic_reduction xgcd (to_rows inter) g = Done s /\
    SpecSymp.square t (stP s) /\ unimodular t (stP s) /\ congruent t (stP s) (to_rows inter) (stM s) /\ canonical t g (stM s) /\
    b_tree_gc A p qsort rdef rturn params wp cv Ys keys rows = Done V /\ length b = t /\
    (forall k, (k < t)%nat -> let ye := nth k ys no_ydata in
      mem (by_ya A (nth k Ys (b_no_ydata A))) (y_ya ye) /\ mem (by_yb A (nth k Ys (b_no_ydata A))) (y_yb ye) /\ mems mem (nth k V []) (nth k b []) /\
      edge_integrals x (vget x (ea (nth k es no_edge))) (vget x (eb (nth k es no_edge))) (y_ya ye) (y_yb ye) (sec_g cv) (nth k b [])) /\
    (~ rows_fit (2 * g) (stP s) -> symplectic_basis xgcd (to_rows inter) g 2 = Abort) /\
    (rows_small (2 * g) (stP s) -> exists loops OA OB,
      symplectic_basis xgcd (to_rows inter) g 2 = Done loops /\
      b_period_matrix A p cv (map fst loops) V = Done OA /\ length OA = g /\
      b_period_matrix A p cv (map snd loops) V = Done OB /\ length OB = g /\
      forall i k, (i < g)%nat -> (k < g)%nat ->
        mem (nth k (nth i OA []) (b_zero A)) (cycle_period b (nth (2 * k) (stP s) []) i) /\
        mem (nth k (nth i OB []) (b_zero A)) (cycle_period b (nth (2 * k + 1) (stP s) []) i)).
Proof.
  intros S W HX Hdi Hn Hc Hs Hq Hx t g Et EY Hdir EI Hkeys Hrows Hpar order Hss Hen Hcl.
  destruct (curve_counts 2 (length x) cv Hc ltac:(lia)) as (Hm & Htn & _ & Hr & Hg1). fold t g in Htn, Hr, Hg1.
  destruct (tree_final sort param (length x) t r0 mn Hs Htn) as (l0 & r1 & mn1 & Et' & Hlen & Hgr & _ & _ & Hto & _).
  rewrite Et in Et'. injection Et' as <- <- <-.
  assert (Hes0 := growing_edges es (length x) Hgr Hto).
  assert (Hes : edges_of x es).
  { intros d Hd. destruct (Hes0 d Hd) as (A1 & A2 & A3). split; [exact A1|]. split; [exact A2|].
    intro E. apply A3. apply (proj1 (NoDup_nth x (RtoC 0)) Hdi); [exact A1|exact A2|exact E]. }
  (* data of the edges *)
  assert (S1 := tree_ydata_sim A mem S p X x HX 2 es ltac:(lia) Hdi Hes). rewrite EY in S1.
  destruct (sim_done _ _ _ S1) as (ys & Ey & HY). clear S1.
  set (nonpos := test_pos A p X x) in Ey. set (neg := test_neg A p X x) in Ey.
  destruct (curve_reduces xgcd sort param nonpos neg x 2 cv r0 mn es r' mn' Hdi ltac:(lia) Hc Hs Hx Et)
    as (ys' & inter' & s & H1 & H2 & H3 & HS & HA & HU & HC & _ & _ & _ & Hcan).
  change (Z.of_nat 2) with 2%Z in *. rewrite Ey in H1. injection H1 as <-. fold t g in H3, HS, HA, HU, HC, Hcan.
  replace (t * (2 - 1))%nat with t in * by lia.
  (* intersections *)
  assert (S2 := b_intersection_sim A mem S q nonpos neg x 2 es Ys ys Hdi ltac:(lia) Hes0 Ey HY Hdir).
  change (Z.of_nat 2) with 2%Z in S2. rewrite EI, H2 in S2. cbn [simu] in S2. subst inter'.
  destruct (reduction_congruence t _ g xgcd s Hx HS HA H3) as (HP & _).
  (* integrals *)
  assert (HPm : Permutation order (seq 0 t)).
  { unfold order. rewrite Hq. rewrite map_snd_combine by (rewrite seq_length; lia). reflexivity. }
  assert (Hin : forall k, In k order <-> (k < t)%nat).
  { intro k. split; intro H.
    - apply (Permutation_in _ HPm), in_seq in H. lia.
    - apply (Permutation_in _ (Permutation_sym HPm)), in_seq. lia. }
  destruct (tree_loop_in cv (fun s k => b_edge_gc A p rdef rturn params wp cv s (nth k Ys (b_no_ydata A))) np
    (fun k V => exists w, Forall2 mem V w /\ Z.of_nat (length w) = sec_g cv /\
      edge_integrals x (vget x (ea (nth k es no_edge))) (vget x (eb (nth k es no_edge))) (y_ya (nth k ys no_ydata)) (y_yb (nth k ys no_ydata)) (sec_g cv) w)
    [] ss (qsort (combine keys (seq 0 t))) 0%Z rows ss) as (V & EV & HLV & HV & _).
  { intros k a s0 Hk Hs0 Es0 Hle. fold order in Hk. apply Hin in Hk.
    assert (Hke : (k < length es)%nat) by (rewrite Hlen; exact Hk).
    destruct (Hes (nth k es no_edge) (nth_In es no_edge Hke)) as (A1 & A2 & A3).
    assert (HYk : ydata_mem A mem (nth k Ys (b_no_ydata A)) (nth k ys no_ydata)) by (apply Forall2_nth; [exact HY|apply (no_ydata_mem A mem S)]).
    destruct (Hpar k Hk) as (P1 & P2).
    destruct (edge_ball A mem S W p _ _ x (ea (nth k es no_edge)) (eb (nth k es no_edge)) (Z.of_nat (length x)) cv (nth k ys no_ydata) (nth k Ys (b_no_ydata A))
      Hc ltac:(lia) eq_refl A1 A2 A3 (tree_ydata_nth nonpos neg x 2 es ys k Ey Hke) HYk rdef rturn params wp a (np k) (e k) s0 P1 (P2 _ (proj1 HYk)) Es0 Hle)
      as (V & w & B1 & B2 & B3 & B4).
    { intros Xs EX. now apply (Hcl k s0 Xs). }
    exists V. split; [exact B1|]. exists w. auto. }
  { fold order. apply (Permutation_NoDup (Permutation_sym HPm)), seq_NoDup. }
  { fold order. intros k Hk. rewrite Hrows. now apply Hin. }
  { intros z Hz. exact Hz. }
  { exact Hss. }
  { exact Hen. }
  assert (HLV' : length V = t) by lia.
  destruct (rows_choice t (fun k w => Forall2 mem (nth k V []) w /\ Z.of_nat (length w) = sec_g cv /\
      edge_integrals x (vget x (ea (nth k es no_edge))) (vget x (eb (nth k es no_edge))) (y_ya (nth k ys no_ydata)) (y_yb (nth k ys no_ydata)) (sec_g cv) w))
    as (b & HLb & Hb).
  { intros k Hk. apply HV. fold order. now apply Hin. }
  assert (Hb2 : forall row, In row b -> Z.of_nat (length row) = sec_g cv).
  { intros row Hrow. destruct (In_nth b row [] Hrow) as (k & Hk & <-). apply Hb. lia. }
  destruct (curve_periods xgcd sort param nonpos neg x 2 cv r0 mn es r' mn' b Hdi ltac:(lia) Hc Hs Hx Et) as (ys2 & inter2 & s2 & K1 & K2 & K3 & K4 & K5).
  { split; [exact HLb|exact Hb2]. }
  change (Z.of_nat 2) with 2%Z in *. rewrite Ey in K1. injection K1 as <-. rewrite H2 in K2. injection K2 as <-. fold g in K3, K4, K5. rewrite H3 in K3. injection K3 as <-.
  destruct (hyper_shape _ cv Hc ltac:(lia)) as (Hg & En & Ej & Eni).
  exists nonpos, neg, ys, s, V, b. split; [exact Ey|]. split; [exact H2|]. split; [exact H3|]. split; [exact HP|]. split; [exact HU|]. split; [exact HC|].
  split.
  { apply Hcan. assert (0 <= Z.gcd 2 (Z.of_nat (length x)))%Z by apply Z.gcd_nonneg. 
    assert (Hdiv := Z.gcd_divide_l 2 (Z.of_nat (length x))). assert (Z.gcd 2 (Z.of_nat (length x)) <= 2)%Z by (apply Z.divide_pos_le; [lia|exact Hdiv]).
    assert (Z.gcd 2 (Z.of_nat (length x)) <> 0)%Z by (intro E0; rewrite E0 in Hdiv; destruct Hdiv as [z Hz]; lia). lia. }
  split. { unfold b_tree_gc, integrals_tree. rewrite Hkeys. exact EV. }
  split; [exact HLb|]. split.
  { intros k Hk ye. assert (HYk : ydata_mem A mem (nth k Ys (b_no_ydata A)) (nth k ys no_ydata)) by (apply Forall2_nth; [exact HY|apply (no_ydata_mem A mem S)]).
    destruct HYk as (_ & _ & _ & _ & _ & Y1 & Y2). split; [exact Y1|]. split; [exact Y2|]. destruct (Hb k Hk) as (B1 & _ & B2). split; [exact B1|exact B2]. }
  split; [exact K4|]. intro Hsm. destruct (K5 Hsm) as (loops & omA & omB & P1 & P2 & P3 & P4 & P5 & P6).
  assert (HVb : Forall2 (Forall2 mem) V b).
  { apply (Forall2_of_nth _ [] []); [transitivity t; [exact HLV'|symmetry; exact HLb]|]. intros k Hk. apply Hb. apply (Nat.lt_le_trans _ _ _ Hk). apply Nat.eq_le_incl. exact HLV'. }
  assert (SA := period_matrix_sim A mem S (why := False) p cv (map fst loops) V b HVb). rewrite P2 in SA. destruct (sim_exact _ _ _ (fun f => f) SA) as (OA & EA & HOA).
  assert (SB := period_matrix_sim A mem S (why := False) p cv (map snd loops) V b HVb). rewrite P4 in SB. destruct (sim_exact _ _ _ (fun f => f) SB) as (OB & EB & HOB).
  exists loops, OA, OB. split; [exact P1|]. split; [exact EA|]. split; [rewrite (Forall2_len _ _ _ HOA); exact P3|].
  split; [exact EB|]. split; [rewrite (Forall2_len _ _ _ HOB); exact P5|].
  assert (Em : sec_m cv = 2%Z) by (destruct (sec_init_curve_ok 2 _ cv Hc ltac:(lia)) as (_ & Em & _); exact Em).
  intros i k Hi Hk'. specialize (P6 k 0%nat i Hk'). rewrite Eni in P6. cbn [length nth] in P6.
  destruct (P6 ltac:(lia) ltac:(unfold g in Hi; lia)) as (PA & PB).
  change (offset [sec_g cv] 0) with 0%nat in PA, PB. rewrite !Nat.add_0_l in PA, PB. rewrite row_period_2 in PA, PB by exact Em. rewrite <- PA, <- PB.
  split; apply (mget A mem S); apply Forall2_nth; try assumption; constructor.
Qed.
