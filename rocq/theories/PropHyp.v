(** C64: periods of hyperelliptic curves, from the branch points to the period matrices.
    Statement only.  [x] are the branch points, [sort] and [qsort] are qsort on the candidate
    edges and on the edges of the tree, [param] the weights of the edges, [nonpos] and [neg] the
    sign tests on complex balls, [xgcd] FLINT's extended gcd, [up] and [lg] the upward rounding
    and the logarithm of [mag_t], [rdef] and [rturn] the two compile-time choices of square root. *)
From Coq Require Import Reals Lra Lia.
From Coquelicot Require Import Coquelicot.
From Verif Require Import CArg ModelTree SpecTree ProofTreeEx ModelInter ModelCurve ModelSymp SpecSymp ProofSymp ProofSympMain ProofSympEx ModelBasis SpecBasis
  ModelPeriod SpecPeriod ModelVec ModelQuad SpecQuad ModelCache ModelEdge SpecInter SpecEdge ProofEdge ModelTurn SpecTurn
  ModelGc SpecGc ProofGc ProofGc2 PropGc ModelExtra SpecExtra ProofExtra ModelErr SpecErr ProofLat9 SpecHyp ProofHyp PropErr.
Local Open Scope R_scope.

(** For every curve y^2 = (x - x_1) ... (x - x_n) with distinct branch points, if the working
    precision is large enough compared with the branch points, no product of factors is a
    negative number (or the default square root is the one compiled), and no edge is integrated
    with fewer points than it asks for: the whole computation ends, the base change is
    symplectic and unimodular, and each entry of both period matrices is at a distance of the
    period of the i-th differential on the k-th cycle of the basis that is at most
    4 (i+1) 2^-prec times the sum of the absolute values of the coordinates of this cycle. *)
Theorem C64_periods_partial :
  forall (Key : Type) xgcd sort param nonpos neg x cv r0 mn es r' mn' ys
    (qsort : list (Key * nat) -> list (Key * nat)) keys (rows : list (vec * option R)) rdef rturn fuel up lg d prec (np : nat -> Z) ss,
    distinct x -> (3 <= length x)%nat -> sec_init 2 (Z.of_nat (length x)) = Done cv ->
    (forall l, Permutation l (sort l)) -> (forall l, Permutation (qsort l) l) -> xgcd_ok xgcd ->
    rounds_up up -> 0 <= d -> log2_within lg d -> (2 <= fuel)%nat ->
    let t := Z.to_nat (tree_edges cv) in let g := Z.to_nat (sec_g cv) in let p := intprec up lg prec x es cv in
    spanning_tree sort param (length x) t r0 mn = Done (es, r', mn') -> tree_ydata nonpos neg x 2 es = Done ys ->
    length keys = t -> length rows = t ->
    (forall k, (k < t)%nat -> let u := y_u (nth k ys no_ydata) in
      within_reach g p u /\
      (rdef = true \/ forall t, -1 < t < 1 -> ~ negative_real (SpecTurn.cprod (factors u (y_n1 (nth k ys no_ydata)) (length u) t)))) ->
    (forall k, (k < t)%nat -> exists e r, gc_params fuel (y_u (nth k ys no_ydata)) g p = Done (np k, e, r)) ->
    let order := map snd (qsort (combine keys (seq 0 t))) in
    gc_schemes cv 0 (map np order) = Done ss -> Forall2 (fun s n => (n <= s)%Z) ss (map np order) ->
    exists inter s rows' a b, intersection_of_data ys es 2 = Done inter /\ symplectic_reduction xgcd (to_rows inter) g = Done s /\
      SpecSymp.square t (stP s) /\ unimodular t (stP s) /\ congruent t (stP s) (to_rows inter) (stM s) /\ canonical t g (stM s) /\
      tree_moments_gc qsort rdef rturn fuel cv ys p keys rows = Done rows' /\ length a = t /\ length b = t /\
      (forall k, (k < t)%nat -> let ye := nth k ys no_ydata in
        edge_result_gc cv ye (fst (nth k rows' ([], None))) = Done (nth k a []) /\
        edge_integrals x (vget x (ea (nth k es no_edge))) (vget x (eb (nth k es no_edge))) (y_ya ye) (y_yb ye) (sec_g cv) (nth k b [])) /\
      (~ rows_fit (2 * g) (stP s) -> symplectic_basis xgcd (to_rows inter) g 2 = Abort) /\
      (rows_small (2 * g) (stP s) -> exists loops omA omB,
        symplectic_basis xgcd (to_rows inter) g 2 = Done loops /\
        period_matrix cv (map fst loops) a = Done omA /\ length omA = g /\
        period_matrix cv (map snd loops) a = Done omB /\ length omB = g /\
        forall i k, (i < g)%nat -> (k < g)%nat ->
          Cmod (vget (nth i omA []) k - cycle_period b (nth (2 * k) (stP s) []) i)%C
            <= cycle_norm (nth (2 * k) (stP s) []) * (4 * INR (S i) * two_to (d - IZR prec)) /\
          Cmod (vget (nth i omB []) k - cycle_period b (nth (2 * k + 1) (stP s) []) i)%C
            <= cycle_norm (nth (2 * k + 1) (stP s) []) * (4 * INR (S i) * two_to (d - IZR prec))).
Proof. exact @hyper_periods. Qed.
Print Assumptions C64_periods_partial.

(** y^2 = x^3 - x with any precision from 2 on: all the hypotheses hold, and the rows of the
    base change are small whatever the signs of the intersections *)
Definition param64 (i j k : nat) : dbl := if (i =? 0)%nat then Some 10%Z else Some 1%Z.
Definition es64 : list edge := [{| er := Some 10%Z; ea := 0; eb := 2 |}; {| er := Some 10%Z; ea := 0; eb := 1 |}].
Lemma edges64 : edges_of x62 es64.
Proof.
  assert (H : forall a b, a <> b -> RtoC a <> RtoC b) by (intros a b Hab E; injection E; exact Hab).
  intros e [<-|[<-|[]]]; cbn [ea eb length x62 vget nth]; (split; [lia|split; [lia|apply H; lra]]).
Qed.
Lemma distinct62 : distinct x62.
Proof.
  assert (H : forall a b, a <> b -> RtoC a <> RtoC b) by (intros a b Hab E; injection E; exact Hab).
  unfold distinct, x62. constructor.
  - intros [E|[E|[]]]; revert E; apply H; lra.
  - constructor; [intros [E|[]]; revert E; apply H; lra|]. constructor; [intros []|constructor].
Qed.
Lemma tree64 : exists r' mn', spanning_tree isort param64 3 2 (Some 0%Z) 0 = Done (es64, r', mn').
Proof. do 2 eexists. vm_compute. reflexivity. Qed.
Lemma small64 nonpos neg ys inter s : tree_ydata nonpos neg x62 2 es64 = Done ys -> intersection_of_data ys es64 2 = Done inter ->
  symplectic_reduction egcd (to_rows inter) 1 = Done s -> rows_small 2 (stP s).
Proof.
  intros Ey Ei Es. destruct tree64 as (r' & mn' & Et).
  destruct (curve_reduces egcd isort param64 nonpos neg x62 2 c23 (Some 0%Z) 0 es64 r' mn' distinct62 ltac:(cbn; lia) eq_refl isort_perm egcd_ok Et)
    as (ys' & inter' & s' & H1 & H2 & H3 & HS & HA & _ & HC & _ & _ & _ & Hcan).
  change (Z.of_nat 2) with 2%Z in *. rewrite Ey in H1. injection H1 as <-. rewrite Ei in H2. injection H2 as <-.
  change (Z.to_nat (sec_g c23)) with 1%nat in *. rewrite Es in H3. injection H3 as <-.
  change (Z.to_nat (tree_edges c23) * (2 - 1))%nat with 2%nat in *.
  destruct (Hcan (or_introl eq_refl) 0%nat ltac:(lia)) as (Hc1 & _). change (get (stM s) 0 1 = 1%Z) in Hc1. rewrite (HC 0%nat 1%nat) in Hc1 by lia.
  destruct HS as (HS1 & HS2). revert Es Hc1 HS1 HS2 HA. generalize (to_rows inter). intros M Es Hc1 HS1 HS2 HA.
  destruct M as [|[|x00 [|x01 [|? ?]]] [|[|x10 [|x11 [|? ?]]] [|? ?]]]; cbn [length] in HS1; try discriminate;
    try (specialize (HS2 _ (or_introl eq_refl)); cbn in HS2; discriminate);
    try (specialize (HS2 _ (or_intror (or_introl eq_refl))); cbn in HS2; discriminate).
  assert (A00 := HA 0%nat 0%nat ltac:(lia) ltac:(lia)). assert (A01 := HA 0%nat 1%nat ltac:(lia) ltac:(lia)). assert (A11 := HA 1%nat 1%nat ltac:(lia) ltac:(lia)).
  change (x00 = - x00)%Z in A00. change (x01 = - x10)%Z in A01. change (x11 = - x11)%Z in A11.
  assert (x00 = 0)%Z by lia. assert (x11 = 0)%Z by lia. assert (x10 = - x01)%Z by lia. subst x00 x11 x10. clear A00 A01 A11 HA HS1 HS2.
  assert (E : (x01 * (get (stP s) 0 0 * get (stP s) 1 1 - get (stP s) 0 1 * get (stP s) 1 0) = 1)%Z).
  { rewrite <- Hc1. unfold zsum, get. cbn [nth]. ring. }
  apply Z.mul_eq_1 in E. destruct E as [-> | ->]; vm_compute in Es; injection Es as <-; intros i z Hi Hz;
    (destruct i as [|[|i]]; [..|lia]); cbn [stP nth In] in Hz; destruct Hz as [<-|[<-|[]]]; lia.
Qed.
Example C64_nonvacuous : forall prec, (2 <= prec)%Z ->
  distinct x62 /\ sec_init 2 (Z.of_nat (length x62)) = Done c23 /\ tree_edges c23 = 2%Z /\ sec_g c23 = 1%Z /\
  (forall l, Permutation l (isort l)) /\ xgcd_ok egcd /\ rounds_up (fun r => r) /\ log2_within log2 0 /\
  (exists r' mn', spanning_tree isort param64 3 2 (Some 0%Z) 0 = Done (es64, r', mn')) /\
  let p := intprec (fun r => r) log2 prec x62 es64 c23 in
  exists ys np, tree_ydata (fun _ => nonpos62) (fun _ _ => false) x62 2 es64 = Done ys /\
    (forall k, (k < 2)%nat -> let u := y_u (nth k ys no_ydata) in
      within_reach 1 p u /\
      (forall t, -1 < t < 1 -> ~ negative_real (SpecTurn.cprod (factors u (y_n1 (nth k ys no_ydata)) (length u) t))) /\
      exists e r, gc_params 2 u 1 p = Done (np, e, r)) /\
    gc_schemes c23 0 [np; np] = Done [np; np] /\ Forall2 (fun s n => (n <= s)%Z) [np; np] [np; np] /\
    exists inter s, intersection_of_data ys es64 2 = Done inter /\ symplectic_reduction egcd (to_rows inter) 1 = Done s /\ rows_small 2 (stP s).
Proof.
  intros prec Hp. split; [exact distinct62|]. do 3 (split; [reflexivity|]). split; [exact isort_perm|]. split; [exact egcd_ok|].
  split; [intros z _; lra|]. split; [intros z _; lra|]. split; [exact tree64|]. intro p.
  assert (Hpp : (2 <= p)%Z).
  { assert (prec < p)%Z; [|lia]. apply (short_edge_final (fun r => r) log2 prec 2 3 c23 x62 es64 {| er := Some 10%Z; ea := 0; eb := 1 |});
      [intros z _; lra|intros z _; lra|reflexivity|lia|cbn; lia|reflexivity|exact edges64|right; now left|].
    cbn [ea eb x62 vget nth]. rewrite <- RtoC_minus, Cmod_R, Rabs_pos_eq; lra. }
  destruct (data62 1) as (y1 & E1 & U1 & N1); [now left|]. destruct (data62 2) as (y2 & E2 & U2 & N2); [now right|].
  assert (Hpt := points62 p Hpp).
  destruct (C44_tolerance_partial 2 [RtoC (-3)] 1 p ltac:(lia) ltac:(discriminate) Hpt) as (n & e & r & H & Hn & Hr & Ha & _).
  assert (Ey : tree_ydata (fun _ => nonpos62) (fun _ _ => false) x62 2 es64 = Done [y2; y1]).
  { unfold es64. cbn [tree_ydata ea eb]. rewrite E1, E2. reflexivity. }
  exists [y2; y1], n. split; [exact Ey|]. split; [|split; [|split]].
  - intros k Hk. assert (Hk' : (k = 0 \/ k = 1)%nat) by lia.
    destruct Hk' as [-> | ->]; cbn [nth]; rewrite ?U1, ?U2, ?N1, ?N2; (split; [exact Hpt|]; split; [exact positive62|]; exists (Some e), r; exact H).
  - cbn [gc_schemes]. unfold gc_scheme. rewrite Z.eqb_refl. cbn [bind].
    rewrite (proj2 (Z.eqb_neq n 0)) by lia. rewrite Z.sub_diag, Z.mul_0_l. change (negb _) with false. cbn iota.
    destruct (0 >? n)%Z; reflexivity.
  - repeat constructor; lia.
  - destruct tree64 as (r' & mn' & Et).
    destruct (curve_reduces egcd isort param64 (fun _ => nonpos62) (fun _ _ => false) x62 2 c23 (Some 0%Z) 0 es64 r' mn' distinct62 ltac:(cbn; lia) eq_refl isort_perm egcd_ok Et)
      as (ys' & inter & s & H1 & H2 & H3 & _).
    change (Z.of_nat 2) with 2%Z in *. rewrite Ey in H1. injection H1 as <-.
    exists inter, s. split; [exact H2|]. split; [exact H3|]. exact (small64 _ _ _ _ _ Ey H2 H3).
Qed.
