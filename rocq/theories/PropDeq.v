(** C65-C67: the double exponential rule, from the branch points to the period matrices.
    Statements only.  [x] are the branch points, [sort] and [qsort] are qsort on the candidate
    edges and on the edges of the tree, [param] the weights of the edges, [nonpos] and [neg] the
    sign tests on complex balls, [xgcd] FLINT's extended gcd, [rdef], [rprod], [rturn] and [same]
    the flags AJ_ROOT_DEF, AJ_ROOT_PROD, AJ_ROOT_TURN and AJ_DE_SAME, [p] the working precision. *)
From Coq Require Import Reals Lra Lia Sorting.Sorted.
From Coquelicot Require Import Coquelicot.
From Verif Require Import CArg ModelTree SpecTree ProofTreeEx ModelInter ModelCurve ModelSymp SpecSymp ProofSymp ProofSympMain ProofSympEx ModelBasis SpecBasis
  ModelPeriod SpecPeriod ModelVec ModelQuad SpecQuad ModelCache ModelEdge SpecInter SpecEdge ProofEdge ProofAngle ModelTurn SpecTurn
  SpecGc ModelDe SpecDe ModelDeq ModelExtra SpecExtra ProofExtra SpecErr SpecDeq SpecFree ProofFree ProofFree2 ProofDe2 ProofLat9 SpecHyp ProofHol2 ProofHol10 ProofHol9 ProofHol8 ProofHol11 ProofDeq ProofDeq2 ProofDeq3 PropErr PropHyp.
From Verif Require PropDe ProofHol5 ProofHol7 ProofDe3.
Local Open Scope R_scope.

(** C65: for every usable step h and strip half-width r, if no branch point of the edge is
    u = tanh(l sinh z) for a z with |Im z| < r0, the sum of 2N+1 terms applied to
    t^i / ((1-t^2)^(1/m) y(t))^j differs from the improper integral by at most the truncation
    error of the published theorem plus 4/3 of its discretization error. *)
Theorem C65_rule_error :
  forall l r r0 h m u n1 j i m1 m2, 1 <= l -> 0 < r < r0 -> r0 <= PI / 2 -> l * sin r0 <= PI / 2 -> 0 < h -> (0 <= Z.of_nat j < m)%Z ->
    (forall z p, Rabs (snd z) < r0 -> In p u -> SpecDe.de_map l z <> p) ->
    (forall t, -1 < t < 1 -> Cmod (cpow (RtoC t) i / cpow (y_tilde m u n1 (RtoC t)) j)%C <= m1) ->
    (forall z, Rabs (snd z) <= r -> Cmod (cpow (SpecDe.de_map l z) i / cpow (y_tilde m u n1 (SpecDe.de_map l z)) j)%C <= m2) ->
    let f := SpecQuad.integrand m (fun t => y_tilde m u n1 (RtoC t)) j i in
    exists I, is_int f I /\ forall N, 1 <= 2 * alpha (Z.of_nat j) m * l * cosh (INR N * h) ->
      Cmod (de_rule l h N f - I)%C <= e_T h l N m1 (alpha (Z.of_nat j) m) + 4 / 3 * e_Q h l r m2 (alpha (Z.of_nat j) m).
Proof. exact de_error_bound. Qed.
Print Assumptions C65_rule_error.

(** the branch point i: |Im z| >= pi/6 whenever tanh(pi/2 sinh z) = i *)
Example C65_rule_nonvacuous : exists m1 m2, let l := PI / 2 in let r := 1 / 2 in let r0 := PI / 6 in let u := [Ci] in
  1 <= l /\ 0 < r < r0 /\ r0 <= PI / 2 /\ l * sin r0 <= PI / 2 /\
  (forall z p, Rabs (snd z) < r0 -> In p u -> SpecDe.de_map l z <> p) /\
  (forall t, -1 < t < 1 -> Cmod (cpow (RtoC t) 1 / cpow (y_tilde 3 u 0 (RtoC t)) 2)%C <= m1) /\
  (forall z, Rabs (snd z) <= r -> Cmod (cpow (SpecDe.de_map l z) 1 / cpow (y_tilde 3 u 0 (SpecDe.de_map l z)) 2)%C <= m2) /\
  1 <= 2 * alpha 2 3 * l * cosh (INR 20 * (1 / 10)).
Proof.
  assert (HP := PI_RGT_0). assert (HP2 := PI2_3_2). assert (H4 := PI_4). assert (HL := lam_bounds).
  assert (Hs : PI / 2 * sin (PI / 6) <= PI / 2) by (rewrite sin_PI6; lra).
  assert (Hu : forall z p, strip (PI / 6) z -> In p [Ci] -> cmap (PI / 2) z <> p).
  { intros z p Hz [<-|[]] E.
    assert (Hn : ccosh (ProofHol5.lsinh (PI / 2) z) <> RtoC 0) by (apply (ProofHol5.strip_nonzero (PI / 2) (PI / 6)); lra || assumption).
    assert (HS := ProofDe3.principal_smallest (PI / 2) Ci z (0, PI / 6) ltac:(lra) (proj1 PropDe.C58_point) Hn E). cbn [snd] in HS.
    rewrite (Rabs_pos_eq (PI / 6)) in HS by lra. unfold strip in Hz. lra. }
  destruct (ratio_bounded (PI / 2) (1 / 2) (PI / 6) 3 [Ci] 0 2 1 ltac:(lra) ltac:(lra) ltac:(lra) Hs ltac:(lia) Hu) as (M & HM & HB).
  { intros p [<-|[]]. split; intro E; injection E; lra. }
  exists M, M. cbv zeta. split; [lra|]. split; [lra|]. split; [lra|]. split; [exact Hs|]. split; [exact Hu|]. split; [|split; [exact HB|]].
  - intros t Ht. specialize (HB (ProofHol7.de_inv (PI / 2) t, 0)). cbn [snd] in HB. rewrite Rabs_R0 in HB. specialize (HB ltac:(lra)).
    rewrite cmap_real, ProofHol7.de_map_inv in HB by lra. exact HB.
  - unfold alpha. replace (INR 20 * (1 / 10)) with (1 + 1) by (cbn; lra).
    assert (HC := ProofDe2.cosh_ge_exp (1 + 1)). assert (HE := exp_ineq1 1 ltac:(lra)). rewrite exp_plus in HC.
    assert (2 < cosh (1 + 1)) by nra. change (IZR (3 - 2)) with 1. nra.
Qed.

(** C65: the integrals of one edge.  If the edge does not go through another branch point, the
    computation ends at every precision, and its value for x^i dx / y^j tends to the integral
    over the elementary cycle of the edge at the rate 2^(-p (m-j)/(m-1)).
    Partial: the constant is not explicit and the rounding of the balls is not modelled. *)
Theorem C65_edge_partial :
  forall nonpos neg x a b m c ye, distinct x -> (3 <= length x)%nat -> sec_init (Z.of_nat m) (Z.of_nat (length x)) = Done c ->
  (a < length x)%nat -> (b < length x)%nat -> a <> b -> ydata_init_edge nonpos neg x a b (Z.of_nat m) = Done ye -> free_segment x (vget x a) (vget x b) ->
  exists w K, 0 <= K /\ Z.of_nat (length w) = sec_g c /\ cycle_integrals m c x (vget x a) (vget x b) (y_ya ye) (y_yb ye) w /\
    forall rdef rprod rturn same p, (0 <= p)%Z -> safe_roots rdef rprod rturn p (y_u ye) (y_n1 ye) ->
      exists v s, edge_integrals_de rdef rprod rturn same c no_store ye p = Done (v, s) /\ Z.of_nat (length v) = sec_g c /\
        forall q i, (q < length (sec_ni c))%nat -> (Z.of_nat i < nth q (sec_ni c) 0)%Z ->
          let pos := (offset (sec_ni c) q + i)%nat in
          Cmod (vget v pos - vget w pos)%C <= K * de_rate (Z.of_nat m) (sec_j1 c + Z.of_nat q) p.
Proof. exact edge_first. Qed.
Print Assumptions C65_edge_partial.

(** y^3 = x^3 - x and the edge from 0 to 1: the hypotheses hold for every sign test that finishes,
    and there is one differential, dx / y^2 *)
Definition c33 : sec := match sec_init 3 3 with Done c => c | _ => c23 end.
Lemma free_01 : free_segment x62 (vget x62 0) (vget x62 1).
Proof.
  intros t Ht. unfold edge_point, x62, vget. cbn [nth In].
  intros [E|[E|[E|[]]]]; apply (f_equal fst) in E; cbn in E; lra.
Qed.
Example C65_edge_nonvacuous : distinct x62 /\ sec_init (Z.of_nat 3) (Z.of_nat (length x62)) = Done c33 /\
  sec_g c33 = 1%Z /\ sec_j1 c33 = 2%Z /\ sec_ni c33 = [1%Z] /\ free_segment x62 (vget x62 0) (vget x62 1) /\
  exists ye, ydata_init_edge nonpos62 (fun _ => false) x62 0 1 3 = Done ye /\
  forall p, safe_roots false false false p (y_u ye) (y_n1 ye).
Proof.
  split; [exact distinct62|]. do 4 (split; [reflexivity|]). split; [exact free_01|].
  destruct (init_spec nonpos62 (fun _ => false) x62 0 1 3) as (ye & Ey & HP & _); [cbn; lia|cbn; lia| |lia|].
  { cbn [x62 vget nth]. intro E. injection E. lra. }
  exists ye. split; [exact Ey|]. intro p. right. right. left. split; [reflexivity|]. right.
  rewrite <- (Permutation_length HP). cbn. lia.
Qed.

(** C66: the periods.  For every curve y^m = (x - x_1) ... (x - x_n) with distinct branch points,
    if the weights of the edges compare as the exact ones, the whole computation ends at every
    precision: the base change is unimodular and brings the intersection matrix to the reduced
    one, and each entry of both period matrices, for the differential x^i dx / y^j, is at a
    distance of the period of this differential on the k-th cycle of the basis that is at most
    K 2^(-p (m-j)/(m-1)) times the sum of the absolute values of the coordinates of the cycle,
    where K does not depend on the precision or on the flags.
    Partial: K is not explicit, the rounding of the balls is not modelled, and the method by
    quadrants is asked never to meet a negative product. *)
Theorem C66_periods_partial :
  forall xgcd sort param nonpos neg x m cv r0 mn es r' mn' (qsort : list (R * nat) -> list (R * nat)),
  distinct x -> (3 <= length x)%nat -> sec_init (Z.of_nat m) (Z.of_nat (length x)) = Done cv ->
  qsort_ok sort -> tells_apart x param -> (forall l, Permutation (qsort l) l /\ StronglySorted Rle (map fst (qsort l))) -> xgcd_ok xgcd ->
  let t := Z.to_nat (tree_edges cv) in let g := Z.to_nat (sec_g cv) in let gens := (t * (m - 1))%nat in
  spanning_tree sort param (length x) t r0 mn = Done (es, r', mn') ->
  exists ys inter s b K, tree_ydata nonpos neg x (Z.of_nat m) es = Done ys /\ length ys = t /\
    intersection_of_data ys es (Z.of_nat m) = Done inter /\ symplectic_reduction xgcd (to_rows inter) g = Done s /\
    SpecSymp.square gens (stP s) /\ unimodular gens (stP s) /\ congruent gens (stP s) (to_rows inter) (stM s) /\
    (Z.gcd (Z.of_nat m) (Z.of_nat (length x)) = 1%Z \/ Z.gcd (Z.of_nat m) (Z.of_nat (length x)) = Z.of_nat m -> canonical gens g (stM s)) /\
    0 <= K /\ length b = t /\
    (forall k, (k < t)%nat -> let ye := nth k ys no_ydata in
      cycle_integrals m cv x (vget x (ea (nth k es no_edge))) (vget x (eb (nth k es no_edge))) (y_ya ye) (y_yb ye) (nth k b [])) /\
    (~ rows_fit (2 * g) (stP s) -> symplectic_basis xgcd (to_rows inter) g (Z.of_nat m) = Abort) /\
    forall rdef rprod rturn same p (rows : cmat), (0 <= p)%Z -> length rows = t ->
      (forall ye, In ye ys -> safe_roots rdef rprod rturn p (y_u ye) (y_n1 ye)) ->
      exists a, tree_integrals_de qsort rdef rprod rturn same cv ys p (map (fun ye => edge_key (y_u ye)) ys) rows = Done a /\
      (rows_small (2 * g) (stP s) -> exists loops omA omB,
        symplectic_basis xgcd (to_rows inter) g (Z.of_nat m) = Done loops /\
        period_matrix cv (map fst loops) a = Done omA /\ length omA = g /\
        period_matrix cv (map snd loops) a = Done omB /\ length omB = g /\
        forall k q i, (k < g)%nat -> (q < length (sec_ni cv))%nat -> (Z.of_nat i < nth q (sec_ni cv) 0)%Z ->
          let j := (sec_j1 cv + Z.of_nat q)%Z in let pos := (offset (sec_ni cv) q + i)%nat in
          Cmod (vget (nth pos omA []) k - row_period cv b (nth (2 * k) (stP s) []) j pos)%C
            <= cycle_norm (nth (2 * k) (stP s) []) * (K * de_rate (Z.of_nat m) j p) /\
          Cmod (vget (nth pos omB []) k - row_period cv b (nth (2 * k + 1) (stP s) []) j pos)%C
            <= cycle_norm (nth (2 * k + 1) (stP s) []) * (K * de_rate (Z.of_nat m) j p)).
Proof. exact super_periods. Qed.
Print Assumptions C66_periods_partial.

(** an insertion sort of the keys, and y^3 = x^3 - x *)
Fixpoint rins (a : R * nat) (l : list (R * nat)) : list (R * nat) :=
  match l with [] => [a] | b :: l' => if Rle_dec (fst a) (fst b) then a :: l else b :: rins a l' end.
Definition rsort (l : list (R * nat)) : list (R * nat) := fold_right rins [] l.
Lemma rins_perm a l : Permutation (rins a l) (a :: l).
Proof.
  induction l as [|b l IH]; [apply Permutation_refl|]. cbn [rins]. destruct (Rle_dec _ _); [apply Permutation_refl|].
  eapply Permutation_trans; [apply perm_skip, IH|apply perm_swap].
Qed.
Lemma rins_sorted a l : StronglySorted Rle (map fst l) -> StronglySorted Rle (map fst (rins a l)).
Proof.
  induction l as [|b l IH]; intro H; cbn [rins].
  - repeat constructor.
  - cbn [map] in H. inversion H as [|? ? H1 H2]; subst. destruct (Rle_dec _ _) as [Q|Q]; cbn [map].
    + constructor; [exact H|]. constructor; [exact Q|]. eapply Forall_impl; [|exact H2]. intros z Hz. cbv beta in Hz. lra.
    + constructor; [now apply IH|]. apply Forall_forall. intros z Hz. apply in_map_iff in Hz. destruct Hz as (y & <- & Hy).
      apply (Permutation_in _ (rins_perm a l)) in Hy. destruct Hy as [<-|Hy]; [lra|]. rewrite Forall_forall in H2. apply H2. now apply in_map.
Qed.
Lemma rsort_ok l : Permutation (rsort l) l /\ StronglySorted Rle (map fst (rsort l)).
Proof.
  induction l as [|a l (IH1 & IH2)]; [split; constructor|]. change (rsort (a :: l)) with (rins a (rsort l)). split.
  - eapply Permutation_trans; [apply rins_perm|now apply perm_skip].
  - now apply rins_sorted.
Qed.
(** the base change of a genus one curve with two loops has entries -1, 0, 1 *)
Lemma small_two M s : SpecSymp.square 2 M -> antisymmetric 2 M -> symplectic_reduction egcd M 1 = Done s ->
  congruent 2 (stP s) M (stM s) -> canonical 2 1 (stM s) -> rows_small 2 (stP s).
Proof.
  intros HS HA Es HC Hcan. destruct (Hcan 0%nat ltac:(lia)) as (Hc1 & _). change (get (stM s) 0 1 = 1%Z) in Hc1. rewrite (HC 0%nat 1%nat) in Hc1 by lia.
  destruct HS as (HS1 & HS2).
  destruct M as [|[|x00 [|x01 [|? ?]]] [|[|x10 [|x11 [|? ?]]] [|? ?]]]; cbn [length] in HS1; try discriminate;
    try (specialize (HS2 _ (or_introl eq_refl)); cbn in HS2; discriminate);
    try (specialize (HS2 _ (or_intror (or_introl eq_refl))); cbn in HS2; discriminate).
  assert (A00 := HA 0%nat 0%nat ltac:(lia) ltac:(lia)). assert (A01 := HA 0%nat 1%nat ltac:(lia) ltac:(lia)). assert (A11 := HA 1%nat 1%nat ltac:(lia) ltac:(lia)).
  change (x00 = - x00)%Z in A00. change (x01 = - x10)%Z in A01. change (x11 = - x11)%Z in A11.
  assert (x00 = 0)%Z by lia. assert (x11 = 0)%Z by lia. assert (x10 = - x01)%Z by lia. subst x00 x11 x10. clear A00 A01 A11 HA HS1 HS2 HC Hcan.
  assert (E : (x01 * (get (stP s) 0 0 * get (stP s) 1 1 - get (stP s) 0 1 * get (stP s) 1 0) = 1)%Z).
  { rewrite <- Hc1. unfold zsum, get. cbn [nth]. ring. }
  apply Z.mul_eq_1 in E. destruct E as [-> | ->]; vm_compute in Es; injection Es as <-; intros i z Hi Hz;
    (destruct i as [|[|i]]; [..|lia]); cbn [stP nth In] in Hz; destruct Hz as [<-|[<-|[]]]; lia.
Qed.
Example C66_nonvacuous : exists param es r' mn' ys inter s,
  distinct x62 /\ sec_init (Z.of_nat 3) (Z.of_nat (length x62)) = Done c33 /\ tree_edges c33 = 1%Z /\ sec_g c33 = 1%Z /\
  qsort_ok isort /\ tells_apart x62 param /\ (forall l, Permutation (rsort l) l /\ StronglySorted Rle (map fst (rsort l))) /\ xgcd_ok egcd /\
  spanning_tree isort param 3 1 (Some 0%Z) 0 = Done (es, r', mn') /\
  tree_ydata (fun _ => nonpos62) (fun _ _ => false) x62 3 es = Done ys /\
  (forall p ye, In ye ys -> safe_roots false false false p (y_u ye) (y_n1 ye)) /\
  intersection_of_data ys es 3 = Done inter /\ symplectic_reduction egcd (to_rows inter) 1 = Done s /\
  rows_small 2 (stP s).
Proof.
  assert (Hc : sec_init (Z.of_nat 3) (Z.of_nat (length x62)) = Done c33) by reflexivity.
  assert (Ho := ordered_apart _ _ _ flat_tau (rank_ordered de_tau x62)). set (param := rank de_tau x62) in *.
  destruct (tree_final isort param 3 1 (Some 0%Z) 0 isort_perm ltac:(lia)) as (es & r' & mn' & Et & _ & Hg & _ & _ & Hto & _).
  destruct (super_periods egcd isort param (fun _ => nonpos62) (fun _ _ => false) x62 3 c33 (Some 0%Z) 0 es r' mn' rsort distinct62 ltac:(cbn; lia) Hc isort_ok Ho rsort_ok egcd_ok Et)
    as (ys & inter & s & b & K & Ey & Hly & Hi & Hs & HP & _ & HC & Hcan & _).
  exists param, es, r', mn', ys, inter, s. split; [exact distinct62|]. split; [exact Hc|]. do 2 (split; [reflexivity|]).
  split; [exact isort_ok|]. split; [exact Ho|]. split; [exact rsort_ok|]. split; [exact egcd_ok|]. split; [exact Et|]. split; [exact Ey|].
  split.
  { intros p ye Hye. destruct (tree_ydata_in _ _ _ _ _ _ _ Ey Hye) as (e & He & Eye).
    destruct (growing_edges es 3 Hg Hto e He) as (A1 & A2 & A3).
    destruct (init_spec nonpos62 (fun _ => false) x62 (ea e) (eb e) 3 A1 A2) as (y & Ey' & HP' & _); [now apply (distinct_get x62 _ _ distinct62)|lia|].
    change (Z.of_nat 3) with 3%Z in *. assert (y = ye) by congruence. subst y. right. right. left. split; [reflexivity|]. right.
    rewrite <- (Permutation_length HP'), map_length. unfold other_points. cbn [length x62 seq filter].
    repeat match goal with |- context [if ?b then _ else _] => destruct b end; cbn [length]; lia. }
  split; [exact Hi|]. split; [exact Hs|].
  destruct (curve_reduces egcd isort param (fun _ => nonpos62) (fun _ _ => false) x62 3 c33 (Some 0%Z) 0 es r' mn' distinct62 ltac:(cbn; lia) Hc isort_perm egcd_ok Et)
    as (ys' & inter' & s' & H1 & H2 & H3 & HS & HA & _).
  change (Z.of_nat 3) with 3%Z in *. rewrite Ey in H1. injection H1 as <-. rewrite Hi in H2. injection H2 as <-. clear H3 s'.
  apply (small_two (to_rows inter)); [exact HS|exact HA|exact Hs|exact HC|]. apply Hcan. now right.
Qed.

(** C67: whatever the branch points, if the program gives smaller weights to branch points inside
    an edge than to those that are not on the edge, no edge of the tree goes through a branch
    point other than its ends. *)
Theorem C67_edges_free :
  forall sort param x n r mn l r' mn', distinct x -> (3 <= length x)%nat -> (n < length x)%nat -> qsort_ok sort ->
    tells_apart x param ->
    spanning_tree sort param (length x) n r mn = Done (l, r', mn') ->
    forall e, In e l -> free_segment x (vget x (ea e)) (vget x (eb e)).
Proof. exact tree_free_both. Qed.
Print Assumptions C67_edges_free.

(** It does so when the weights compare as the exact ones, both with those of the double
    exponential rule and with those of Gauss-Chebychev ... *)
Theorem C67_exact_weights : forall x param, ordered_by de_tau x param \/ ordered_by half_sum x param -> tells_apart x param.
Proof. intros x param [H|H]; [exact (ordered_apart _ _ _ flat_tau H)|exact (ordered_apart _ _ _ flat_half_sum H)]. Qed.
Print Assumptions C67_exact_weights.
(** ... or when they do up to an error [eps] and the exact weights of branch points that are not on
    an edge exceed by more than [eps] that of branch points inside one, which is 0 or 1. *)
Theorem C67_rounded_weights : forall eps x param,
  (ordered_within eps de_tau x param /\ forall i j k, triple x i j k -> off x i j k -> eps < de_tau (position x i j k)) \/
  (ordered_within eps half_sum x param /\ forall i j k, triple x i j k -> off x i j k -> 1 + eps < half_sum (position x i j k)) -> tells_apart x param.
Proof. intros eps x param [[H1 H2]|[H1 H2]]; [exact (tau_apart _ _ _ H1 H2)|exact (half_sum_apart _ _ _ H1 H2)]. Qed.
Print Assumptions C67_rounded_weights.

(** So the points of each edge are outside the segment [-1,1], the parameter of the double
    exponential rule is found without an abort, and the ellipses of Gauss-Chebychev are not
    flat. *)
Theorem C67_parameters :
  forall nonpos neg sort param x m n r mn es r' mn' ys, distinct x -> (3 <= length x)%nat -> (2 <= m)%nat -> (n < length x)%nat -> qsort_ok sort ->
    tells_apart x param ->
    spanning_tree sort param (length x) n r mn = Done (es, r', mn') -> tree_ydata nonpos neg x (Z.of_nat m) es = Done ys ->
    forall ye, In ye ys -> (forall p, In p (y_u ye) -> 1 < half_sum p /\ 0 < de_tau p) /\
      forall prec, exists rr h N, de_params_d (map de_tau (y_u ye)) (Z.of_nat m) prec = Done (rr, h, N) /\ 0 < rr.
Proof. exact tree_parameters. Qed.
Print Assumptions C67_parameters.

(** for all branch points there are weights as asked for, and the tree exists *)
Example C67_nonvacuous : forall x n, distinct x -> (n < length x)%nat ->
  qsort_ok isort /\ tells_apart x (rank de_tau x) /\ tells_apart x (rank half_sum x) /\
  (exists l r' mn', spanning_tree isort (rank de_tau x) (length x) n (Some 0%Z) 0 = Done (l, r', mn') /\ length l = n) /\
  exists l r' mn', spanning_tree isort (rank half_sum x) (length x) n (Some 0%Z) 0 = Done (l, r', mn') /\ length l = n.
Proof.
  intros x n _ Hn. split; [exact isort_ok|]. split; [apply C67_exact_weights; left; apply rank_ordered|]. split; [apply C67_exact_weights; right; apply rank_ordered|]. split.
  - destruct (tree_final isort (rank de_tau x) (length x) n (Some 0%Z) 0 isort_perm Hn) as (l & r' & mn' & E & L & _). now exists l, r', mn'.
  - destruct (tree_final isort (rank half_sum x) (length x) n (Some 0%Z) 0 isort_perm Hn) as (l & r' & mn' & E & L & _). now exists l, r', mn'.
Qed.
