(** C68-C71: computations on balls.
    Statements only.  [A] is the ball arithmetic of Arb and [mem X x] says that the ball X contains
    x; its contract is [sound] and [widens].  [p] and [q] are precisions, [X] the balls given for
    the branch points [x], [sort] and [qsort] are qsort on the candidate edges and on the edges of
    the tree, [param] the weights of the edges, [xgcd] FLINT's extended gcd, [params] the number
    of points, step and error radius chosen for an edge, [rdef], [rprod], [rturn] and [same] the
    compile-time flags. *)
From Coq Require Import Reals Lra Lia.
From Coquelicot Require Import Coquelicot.
From Verif Require ProofHol8.
From Verif Require Import CArg ModelTree SpecTree ProofTreeEx ModelInter ModelCurve ModelSymp SpecSymp ProofSymp ProofSympMain ProofSympEx ModelBasis SpecBasis
  ModelPeriod SpecPeriod ModelVec ModelQuad SpecQuad ModelCache ModelEdge SpecInter SpecEdge ProofEdge ProofAngle ModelTurn SpecTurn
  ModelGc SpecGc ProofGc2 PropGc ModelDe SpecDe ModelDeq ModelExtra SpecExtra ProofExtra SpecErr SpecDeq SpecFree ProofLat9 SpecHyp ModelBall SpecBall
  ProofQuad ProofBall1 ProofBall2 ProofBall3 ProofBall4 ProofBall5 ProofBall6 ProofBall7 ProofMid ProofMid2 ProofHol2 ProofDe2 ProofHol7 ProofHol8 ProofHol9 ProofHol10 ProofHol11 PropErr PropHyp PropDeq.
Local Open Scope R_scope.

(** C68: hyperelliptic curves.  If the balls given for the branch points contain distinct points,
    the directions of the edges are known well enough, the radius returned for each edge is at
    least the error bound of the Gauss-Chebychev rule, no edge is integrated with fewer points
    than it asks for, and the turns are counted on balls that do not meet the real axis: then,
    whenever the data and the intersections are computed, the integrals are computed as well, the
    intersection matrix is the exact one, and each entry of both period matrices is a ball that
    contains the period of the i-th differential on the k-th cycle of the basis.
    Partial: the code does not check the conditions on the turns, the number of points and the
    directions, and computes its radius from centres. *)
Theorem C68_periods_partial :
  forall (A : arith) (mem : ball A -> C -> Prop) (Key : Type) xgcd sort param p q X x cv r0 mn es r' mn' Ys inter
    (qsort : list (Key * nat) -> list (Key * nat)) keys rows rdef rturn params wp (np : nat -> Z) (e : nat -> option R) ss,
  sound A mem -> widens A mem -> mems mem X x -> distinct x -> (3 <= length x)%nat -> sec_init 2 (Z.of_nat (length x)) = Done cv ->
  (forall l, Permutation l (sort l)) -> (forall l, Permutation (qsort l) l) -> xgcd_ok xgcd ->
  let t := Z.to_nat (tree_edges cv) in let g := Z.to_nat (sec_g cv) in
  spanning_tree sort param (length x) t r0 mn = Done (es, r', mn') -> b_tree_ydata A p X 2 es = Done Ys ->
  directions_clear A q Ys es -> b_intersection A q Ys es 2 = Done inter ->
  length keys = t -> length rows = t ->
  (forall k, (k < t)%nat -> let U := by_u A (nth k Ys (b_no_ydata A)) in
    params U = Done (np k, e k) /\ forall u, mems mem U u -> gc_radius_ok g u (np k) (e k)) ->
  let order := map snd (qsort (combine keys (seq 0 t))) in
  gc_schemes cv 0 (map np order) = Done ss -> Forall2 (fun s n => (n <= s)%Z) ss (map np order) ->
  (forall k s Xs, (k < t)%nat -> In s ss -> b_gc_int_init A p (wp s) (Z.to_nat s) = Done Xs ->
    gc_clear A p rdef (by_u A (nth k Ys (b_no_ydata A))) (by_n1 A (nth k Ys (b_no_ydata A))) (length x - 2) Xs) ->
  exists nonpos neg ys s V b, tree_ydata nonpos neg x 2 es = Done ys /\ intersection_of_data ys es 2 = Done inter /\
    symplectic_reduction xgcd (to_rows inter) g = Done s /\
    SpecSymp.square t (stP s) /\ unimodular t (stP s) /\ congruent t (stP s) (to_rows inter) (stM s) /\ canonical t g (stM s) /\
    b_tree_gc A p qsort rdef rturn params wp cv Ys keys rows = Done V /\ length b = t /\
    (forall k, (k < t)%nat -> let ye := nth k ys no_ydata in
      mem (by_ya A (nth k Ys (b_no_ydata A))) (y_ya ye) /\ mem (by_yb A (nth k Ys (b_no_ydata A))) (y_yb ye) /\ mems mem (nth k V []) (nth k b []) /\
      edge_integrals x (vget x (ea (nth k es no_edge))) (vget x (eb (nth k es no_edge))) (y_ya ye) (y_yb ye) (sec_g cv) (nth k b [])) /\
    (~ rows_fit (2 * g) (stP s) -> symplectic_basis xgcd (to_rows inter) g 2 = Abort) /\
    (rows_small (2 * g) (stP s) -> exists loops OA OB,
      symplectic_basis xgcd (to_rows inter) g 2 = Done loops /\
      b_period_matrix A p cv (map fst loops) V = Done OA /\ length OA = g /\
      b_period_matrix A p cv (map snd loops) V = Done OB /\ length OB = g /\
      forall i k, (i < g)%nat -> (k < g)%nat ->
        mem (nth k (nth i OA []) (b_zero A)) (cycle_period b (nth (2 * k) (stP s) []) i) /\
        mem (nth k (nth i OB []) (b_zero A)) (cycle_period b (nth (2 * k + 1) (stP s) []) i)).
Proof. exact @hyper_balls. Qed.
Print Assumptions C68_periods_partial.

(** C69: superelliptic curves and the double exponential rule.  The same, for y^m = f(x), if no
    edge goes through another branch point and the parameters kept from an edge are usable for all
    the edges integrated after it.
    Partial: the radius computed by the code is not proved to meet [de_radius_ok] (see C43), and
    the other conditions are not checked by the code. *)
Theorem C69_periods_partial :
  forall (A : arith) (mem : ball A -> C -> Prop) (Key : Type) xgcd sort param p q X x m cv r0 mn es r' mn' Ys inter
    (qsort : list (Key * nat) -> list (Key * nat)) keys rows rdef rprod rturn same params (st : nat -> b_store),
  sound A mem -> widens A mem -> mems mem X x -> distinct x -> (3 <= length x)%nat -> sec_init (Z.of_nat m) (Z.of_nat (length x)) = Done cv ->
  (forall l, Permutation l (sort l)) -> (forall l, Permutation (qsort l) l) -> xgcd_ok xgcd ->
  let t := Z.to_nat (tree_edges cv) in let g := Z.to_nat (sec_g cv) in let gens := (t * (m - 1))%nat in
  spanning_tree sort param (length x) t r0 mn = Done (es, r', mn') ->
  (forall e, In e es -> free_segment x (vget x (ea e)) (vget x (eb e))) ->
  b_tree_ydata A p X (Z.of_nat m) es = Done Ys ->
  directions_clear A q Ys es -> b_intersection A q Ys es (Z.of_nat m) = Done inter ->
  length keys = t -> length rows = t ->
  (forall k, (k < t)%nat -> params (by_u A (nth k Ys (b_no_ydata A))) = Done (st k)) ->
  let order := map snd (qsort (combine keys (seq 0 t))) in
  (forall i j, (i <= j < t)%nat -> de_usable A mem p rdef rprod rturn cv (st (nth i order 0%nat)) (nth (nth j order 0%nat) Ys (b_no_ydata A))) ->
  exists nonpos neg ys s V b, tree_ydata nonpos neg x (Z.of_nat m) es = Done ys /\ intersection_of_data ys es (Z.of_nat m) = Done inter /\
    symplectic_reduction xgcd (to_rows inter) g = Done s /\
    SpecSymp.square gens (stP s) /\ unimodular gens (stP s) /\ congruent gens (stP s) (to_rows inter) (stM s) /\
    (Z.gcd (Z.of_nat m) (Z.of_nat (length x)) = 1%Z \/ Z.gcd (Z.of_nat m) (Z.of_nat (length x)) = Z.of_nat m -> canonical gens g (stM s)) /\
    b_tree_de A p qsort rdef rprod rturn same params cv Ys keys rows = Done V /\ length b = t /\
    (forall k, (k < t)%nat -> let ye := nth k ys no_ydata in
      mem (by_ya A (nth k Ys (b_no_ydata A))) (y_ya ye) /\ mem (by_yb A (nth k Ys (b_no_ydata A))) (y_yb ye) /\ mems mem (nth k V []) (nth k b []) /\
      cycle_integrals m cv x (vget x (ea (nth k es no_edge))) (vget x (eb (nth k es no_edge))) (y_ya ye) (y_yb ye) (nth k b [])) /\
    (~ rows_fit (2 * g) (stP s) -> symplectic_basis xgcd (to_rows inter) g (Z.of_nat m) = Abort) /\
    (rows_small (2 * g) (stP s) -> exists loops OA OB,
      symplectic_basis xgcd (to_rows inter) g (Z.of_nat m) = Done loops /\
      b_period_matrix A p cv (map fst loops) V = Done OA /\ length OA = g /\
      b_period_matrix A p cv (map snd loops) V = Done OB /\ length OB = g /\
      forall k q i, (k < g)%nat -> (q < length (sec_ni cv))%nat -> (Z.of_nat i < nth q (sec_ni cv) 0)%Z ->
        let j := (sec_j1 cv + Z.of_nat q)%Z in let pos := (offset (sec_ni cv) q + i)%nat in
        mem (nth k (nth pos OA []) (b_zero A)) (row_period cv b (nth (2 * k) (stP s) []) j pos) /\
        mem (nth k (nth pos OB []) (b_zero A)) (row_period cv b (nth (2 * k + 1) (stP s) []) j pos)).
Proof. exact @super_balls. Qed.
Print Assumptions C69_periods_partial.

(** C70: for balls that contain distinct branch points, the data of the edges of the tree and
    their intersection matrix are computed or the program aborts, whatever the size of the balls;
    the points and the values at the ends are in the balls found, and if the directions of the
    edges are known well enough the matrix found is the exact one.
    Partial: the code does not check the condition on the directions. *)
Theorem C70_intersections_partial :
  forall (A : arith) mem p q X x m sort param n r mn es r' mn', sound A mem -> mems mem X x -> distinct x -> (2 <= m)%nat ->
  (forall l, Permutation l (sort l)) -> (n < length x)%nat -> spanning_tree sort param (length x) n r mn = Done (es, r', mn') ->
  b_tree_ydata A p X (Z.of_nat m) es = Abort \/
  exists Ys nonpos neg ys inter, b_tree_ydata A p X (Z.of_nat m) es = Done Ys /\
    (forall e z, In e es -> nonpos e z = true -> fst z <= 0) /\
    tree_ydata nonpos neg x (Z.of_nat m) es = Done ys /\ intersection_of_data ys es (Z.of_nat m) = Done inter /\
    (forall k, (k < length es)%nat -> let Y := nth k Ys (b_no_ydata A) in let y := nth k ys no_ydata in
      mems mem (by_u A Y) (y_u y) /\ by_n1 A Y = y_n1 y /\ mem (by_ya A Y) (y_ya y) /\ mem (by_yb A Y) (y_yb y)) /\
    (directions_clear A q Ys es -> b_intersection A q Ys es (Z.of_nat m) = Done inter \/ b_intersection A q Ys es (Z.of_nat m) = Abort).
Proof. exact intersections_or_abort. Qed.
Print Assumptions C70_intersections_partial.

(** C71: the product of the m-th roots of u_k - x, k < d1, and of x - u_k, k >= d1, on balls.  Root
    by root and through logarithms, the result is a ball that contains the product, whatever the
    size of the balls. *)
Theorem C71_roots :
  forall (A : arith) mem p m U u X x d1 d, sound A mem -> mems mem U u -> mem X (RtoC x) -> (0 < m)%Z -> (d <= length u)%nat ->
  (exists W, b_pol_def A p m U d1 d X = Done W /\ mem W (roots_product m (factors u d1 d x))) /\
  ((forall z, In z (factors u d1 d x) -> z <> RtoC 0) ->
   exists W, b_pol_prod A p m U d1 d X = Done W /\ mem W (roots_product m (factors u d1 d x))).
Proof.
  intros A mem p m U u X x d1 d S HU HX Hm Hd. split.
  - exact (b_pol_def_ok A mem S p U u d1 X x HU HX m d Hm Hd).
  - intro Hz. exact (b_pol_prod_ok A mem S p U u d1 X x HU HX m d Hm Hd Hz).
Qed.
Print Assumptions C71_roots.
(** By counting turns, it does if each ball from which a sign is read is clear of the real axis or
    on its right in the way stated by [turns_clear]. *)
Theorem C71_turns_partial :
  forall (A : arith) mem p m U u X x d1 d, sound A mem -> mems mem U u -> mem X (RtoC x) -> (0 < m)%Z -> (0 < d <= length u)%nat ->
  turns_clear A p U d1 d X ->
  (exists W, b_pol_turn A p m U d1 d X (b_unit_roots A p m) = Done W /\ mem W (roots_product m (factors u d1 d x))) /\
  (exists W, b_sqrt_turn A p U d1 d X = Done W /\ mem W (roots_product 2 (factors u d1 d x))).
Proof.
  intros A mem p m U u X x d1 d S HU HX Hm Hd Hc. split.
  - exact (b_pol_turn_ok A mem S p U u d1 X x HU HX m d Hm Hd Hc).
  - exact (b_sqrt_turn_ok A mem S p U u d1 X x HU HX d Hd Hc).
Qed.
Print Assumptions C71_turns_partial.
(** Otherwise it may not: a ball arithmetic that meets the contract, balls around two points, and a
    ball found by counting turns that does not contain the product of the square roots. *)
Theorem C71_turns_refuted :
  exists (A : arith) mem U u X, sound A mem /\ widens A mem /\ mems mem U u /\ mem X (RtoC 0) /\ (forall z, In z u -> z <> RtoC 0) /\
  forall p, exists W, b_sqrt_turn A p U 2 2 X = Done W /\ ~ mem W (roots_product 2 (factors u 2 2 0)).
Proof. exact turns_refuted. Qed.
Print Assumptions C71_turns_refuted.

(** ** The hypotheses hold for y^2 = x^3 - x and for y^3 = x^3 - x, with discs as balls and the
    branch points 0, 1, -1 given as points *)
Definition X68 : list disc := map point x62.
Lemma pos68 p e k : In k (other_points 3 (ea e) (eb e)) -> (ea e < 3)%nat -> (eb e < 3)%nat -> ea e <> eb e ->
  fst (scaled_pt x62 (ea e) (eb e) k) <= 0 -> test_pos discs p X68 x62 e (scaled_pt x62 (ea e) (eb e) k) = true.
Proof.
  intros Hk Ha Hb Hab H. rewrite <- (test_pos_ok discs p X68 x62 e k distinct62); [|now apply (distinct_get x62 _ _ distinct62)|exact Hk].
  assert (E := scaled_mem discs is_point discs_point_sound p X68 x62 (points_mem x62) (ea e) (eb e) k). unfold is_point in E. rewrite E.
  cbn [discs b_re_nonpos d_test point]. unfold yes. destruct (Rle_dec _ 0); [reflexivity|lra].
Qed.
Lemma data68 p m b y : (2 <= m)%nat -> (b = 1 \/ b = 2)%nat -> let e := {| er := Some 10%Z; ea := 0; eb := b |} in
  ydata_init_edge (test_pos discs p X68 x62 e) (test_neg discs p X68 x62 e) x62 0 b (Z.of_nat m) = Done y ->
  y_u y = [RtoC (-3)] /\ y_n1 y = 0%nat /\ y_ba2 y = RtoC (if (b =? 1)%nat then 1 / 2 else - (1 / 2)).
Proof.
  intros Hm Hb e E. assert (H : forall a b, a <> b -> RtoC a <> RtoC b) by (intros a' b' Hab E0; injection E0; exact Hab).
  destruct (init_spec (test_pos discs p X68 x62 e) (test_neg discs p X68 x62 e) x62 0 b m) as (y0 & E0 & HP & Hn & H1 & H2 & H3 & _); [cbn; lia|cbn; lia| |lia|].
  { destruct Hb as [-> | ->]; cbn [x62 vget nth]; apply H; lra. }
  rewrite E in E0. injection E0 as <-.
  assert (S1 : scaled_pt x62 0 1 2 = RtoC (-3)).
  { unfold scaled_pt. cbn [x62 vget nth]. rewrite <- !RtoC_mult, <- RtoC_plus, <- !RtoC_minus, <- RtoC_div by lra. f_equal. field. }
  assert (S2 : scaled_pt x62 0 2 1 = RtoC (-3)).
  { unfold scaled_pt. cbn [x62 vget nth]. rewrite <- !RtoC_mult, <- RtoC_plus, <- !RtoC_minus, <- RtoC_div by lra. f_equal. field. }
  assert (Eu : y_u y = [RtoC (-3)]).
  { apply Permutation_length_1_inv.
    destruct Hb as [-> | ->]; cbn [x62 length other_points seq filter map Nat.eqb orb negb vget nth] in HP.
    - change (scaled x62 0 1 2) with (scaled_pt x62 0 1 2) in HP. rewrite S1 in HP. exact HP.
    - change (scaled x62 0 2 1) with (scaled_pt x62 0 2 1) in HP. rewrite S2 in HP. exact HP. }
  split; [exact Eu|]. split.
  - rewrite Eu in *. destruct (y_n1 y) as [|k]; [reflexivity|]. exfalso.
    cbn [firstn] in H1. specialize (H1 (RtoC (-3)) (or_introl eq_refl)).
    destruct Hb as [-> | ->].
    + assert (Q := pos68 p e 2). cbn [ea eb e] in Q. rewrite S1 in Q. fold e in Q. rewrite Q in H1; [discriminate|cbn; tauto|lia|lia|lia|cbn; lra].
    + assert (Q := pos68 p e 1). cbn [ea eb e] in Q. rewrite S2 in Q. fold e in Q. rewrite Q in H1; [discriminate|cbn; tauto|lia|lia|lia|cbn; lra].
  - rewrite H3. destruct Hb as [-> | ->]; cbn [x62 vget nth Nat.eqb]; rewrite <- RtoC_minus, <- RtoC_div by lra; f_equal; field.
Qed.

Lemma clear68 p r : -1 <= r <= 1 -> turns_clear discs p [point (RtoC (-3))] 0 1 (point (RtoC r)).
Proof.
  intro Hr. unfold turns_clear, factor_balls. cbn [seq map Nat.leb nth discs b_sub b_neg d_sub d_neg point turn_clear].
  unfold b_sgn_imag. cbn [discs b_im_has0 b_re_nonneg b_im_sgn d_test]. unfold yes. cbn [fst snd Copp Cminus Cplus RtoC].
  replace (- (0 + - 0)) with 0 by ring. rewrite Rabs_R0.
  destruct (Rle_dec 0 _) as [_|N]; [|lra]. destruct (Rle_dec _ _) as [_|N]; [discriminate|lra].
Qed.
Lemma nodes68 p wp n Xs X : (1 <= n)%nat -> b_gc_int_init discs p wp n = Done Xs -> In X Xs -> exists r, -1 <= r <= 1 /\ X = point (RtoC r).
Proof.
  intros Hn E Hi. destruct (gc_table n Hn) as (c & Ec & Hl & Hc).
  assert (S1 := gc_int_init_sim (why := False) discs is_point discs_point_sound p wp n). rewrite E, Ec in S1. cbn [simu] in S1.
  destruct (In_nth Xs X (point (RtoC 0)) Hi) as (k & Hk & Ek). exists (rget c k).
  assert (Hlen := Forall2_len _ _ _ S1). split.
  - rewrite Hc by lia. unfold gc_node. apply COS_bound.
  - rewrite <- Ek. apply (Forall2_nth (memr discs is_point) Xs c (point (RtoC 0)) 0 k S1). reflexivity.
Qed.
Lemma edges64' e : In e es64 -> (ea e < 3)%nat /\ (eb e < 3)%nat /\ ea e <> eb e.
Proof. intros [<-|[<-|[]]]; cbn; lia. Qed.
Lemma centres68 (u : list disc) v : Forall2 is_point u v -> map (fun X : disc => match X with Some (c, _) => c | None => RtoC 0 end) u = v.
Proof. intro H. induction H as [|X c u v H HF IH]; [reflexivity|]. cbn [map]. rewrite IH, H. reflexivity. Qed.
(** the parameters computed from the centres *)
Definition params68 (prec : Z) (U : list disc) : outcome (Z * option R) :=
  do r <- gc_params 2 (map (fun X : disc => match X with Some (c, _) => c | None => RtoC 0 end) U) 1 prec;
  let '(n, e, _) := r in Done (n, e).

Example C68_nonvacuous : forall p q rdef wp prec, (2 <= prec)%Z -> exists Ys inter n e,
  sound discs disc_mem /\ widens discs disc_mem /\ mems (A := discs) disc_mem X68 x62 /\ distinct x62 /\ sec_init 2 (Z.of_nat (length x62)) = Done c23 /\
  (forall l, Permutation l (isort l)) /\ xgcd_ok egcd /\ tree_edges c23 = 2%Z /\ sec_g c23 = 1%Z /\
  (exists r' mn', spanning_tree isort param64 3 2 (Some 0%Z) 0 = Done (es64, r', mn')) /\
  b_tree_ydata discs p X68 2 es64 = Done Ys /\ directions_clear discs q Ys es64 /\ b_intersection discs q Ys es64 2 = Done inter /\
  (forall k, (k < 2)%nat -> let U := by_u discs (nth k Ys (b_no_ydata discs)) in
    params68 prec U = Done (n, Some e) /\ forall u, mems (A := discs) disc_mem U u -> gc_radius_ok 1 u n (Some e)) /\
  gc_schemes c23 0 [n; n] = Done [n; n] /\ Forall2 (fun s k => (k <= s)%Z) [n; n] [n; n] /\
  (forall k s Xs, (k < 2)%nat -> In s [n; n] -> b_gc_int_init discs p (wp s) (Z.to_nat s) = Done Xs ->
    gc_clear discs p rdef (by_u discs (nth k Ys (b_no_ydata discs))) (by_n1 discs (nth k Ys (b_no_ydata discs))) (length x62 - 2) Xs) /\
  exists s, symplectic_reduction egcd (to_rows inter) 1 = Done s /\ rows_small 2 (stP s).
Proof.
  intros p q rdef wp prec Hp.
  destruct (point_data p x62 2 es64 distinct62 ltac:(lia) edges64') as (Ys & ys & EY & Ey & HlY & Hly & HY).
  change (Z.of_nat 2) with 2%Z in *. fold X68 in EY, Ey.
  assert (Hk : forall k, (k < 2)%nat -> exists Y, nth k Ys (b_no_ydata discs) = Y /\ by_u discs Y = [point (RtoC (-3))] /\ by_n1 discs Y = 0%nat /\
    by_ba2 discs Y = point (RtoC (if (k =? 1)%nat then 1 / 2 else - (1 / 2)))).
  { intros k Hk. exists (nth k Ys (b_no_ydata discs)). split; [reflexivity|].
    assert (H : ydata_mem discs is_point (nth k Ys (b_no_ydata discs)) (nth k ys no_ydata)) by (apply Forall2_nth; [exact HY|exact (no_ydata_mem discs is_point discs_point_sound)]).
    destruct H as (H1 & H2 & H3 & _).
    assert (D : y_u (nth k ys no_ydata) = [RtoC (-3)] /\ y_n1 (nth k ys no_ydata) = 0%nat /\ y_ba2 (nth k ys no_ydata) = RtoC (if (k =? 1)%nat then 1 / 2 else - (1 / 2))).
    { destruct (tree_ydata_done (test_pos discs p X68 x62) (test_neg discs p X68 x62) x62 2 es64 distinct62 ltac:(lia) edges64') as (ys0 & E0 & _ & Hn0).
      change (Z.of_nat 2) with 2%Z in E0. rewrite Ey in E0. injection E0 as <-. specialize (Hn0 k Hk).
      assert (Hk' : (k = 0 \/ k = 1)%nat) by lia. destruct Hk' as [-> | ->]; cbn [nth es64 ea eb Nat.eqb] in Hn0 |- *.
      - exact (data68 p 2 2 _ ltac:(lia) ltac:(lia) Hn0).
      - exact (data68 p 2 1 _ ltac:(lia) ltac:(lia) Hn0). }
    destruct D as (D1 & D2 & D3). rewrite D1 in H1. rewrite D2 in H2. rewrite D3 in H3. split; [|split; [exact H2|exact H3]].
    inversion H1 as [|a b u v Ha Hu]; subst. inversion Hu. rewrite Ha. reflexivity. }
  assert (Hdir : directions_clear discs q Ys es64).
  { intros k l Hkl. cbn [length es64] in Hkl. assert (k = 0%nat /\ l = 1%nat) as [-> ->] by lia. cbv zeta.
    destruct (Hk 0%nat ltac:(lia)) as (Y0 & -> & _ & _ & ->). destruct (Hk 1%nat ltac:(lia)) as (Y1 & -> & _ & _ & ->).
    cbn [es64 nth ea eb Nat.eqb]. split; [|lia]. intros _. unfold direction_clear.
    assert (E : b_div discs q (point (RtoC (- (1 / 2)))) (point (RtoC (1 / 2))) = point (RtoC (-1))).
    { cbn [discs b_div lift2 point]. destruct (Req_EM_T 0 0); [|lra]. rewrite <- RtoC_div by lra. do 3 f_equal. field. }
    rewrite E. cbn [discs b_re_nonpos b_neg b_arg b_re_nonneg b_im_nonpos d_test d_neg lift1 point]. unfold yes. cbn [fst snd RtoC].
    destruct (Rle_dec (-1 + 0) 0) as [_|N]; [|lra]. destruct (Req_EM_T 0 0); [|lra]. cbn [d_test point fst RtoC].
    replace (- RtoC (-1))%C with (1, 0) by (apply injective_projections; cbn; ring). rewrite (ProofHol8.carg_real_pos 1) by lra.
    destruct (Rle_dec 0 0) as [_|N]; [|lra]. destruct (Rle_dec (0 + 0) 0) as [_|N]; [reflexivity|lra]. }
  destruct tree64 as (r' & mn' & Et).
  destruct (curve_reduces egcd isort param64 (test_pos discs p X68 x62) (test_neg discs p X68 x62) x62 2 c23 (Some 0%Z) 0 es64 r' mn' distinct62 ltac:(cbn; lia) eq_refl isort_perm egcd_ok Et)
    as (ys' & inter & s & H1 & H2 & H3 & _).
  change (Z.of_nat 2) with 2%Z in *. rewrite Ey in H1. injection H1 as <-.
  assert (Hpt := points62 prec Hp).
  destruct (C44_tolerance_partial 2 [RtoC (-3)] 1 prec ltac:(lia) ltac:(discriminate) Hpt) as (n & e & r & H & Hn & Hr & Ha & _).
  exists Ys, inter, n, e. split; [exact discs_sound|]. split; [exact discs_widens|]. split; [apply points_disc|]. split; [exact distinct62|].
  split; [reflexivity|]. split; [exact isort_perm|]. split; [exact egcd_ok|]. do 2 (split; [reflexivity|]). split; [now exists r', mn'|].
  split; [exact EY|]. split; [exact Hdir|].
  split; [exact (point_intersection x62 2 es64 distinct62 ltac:(lia) edges64' q Ys ys _ _ HY Ey Hdir inter H2)|]. split.
  { intros k Hk'. destruct (Hk k Hk') as (Y & -> & -> & _). cbv zeta. split.
    - unfold params68. cbn [map point]. rewrite H. reflexivity.
    - intros u Hu. rewrite (points_unique [point (RtoC (-3))] [RtoC (-3)] ltac:(repeat constructor) u Hu). exact (gc_params_ok _ _ _ _ _ _ _ H Ha Hn). }
  split.
  { cbn [gc_schemes]. unfold gc_scheme. rewrite Z.eqb_refl. cbn [bind].
    rewrite (proj2 (Z.eqb_neq n 0)) by lia. rewrite Z.sub_diag, Z.mul_0_l. change (negb _) with false. cbn iota.
    destruct (0 >? n)%Z; reflexivity. }
  split; [repeat constructor; lia|]. split.
  { intros k s' Xs Hk' Hs' EX _ X HX. destruct (Hk k Hk') as (Y & -> & -> & -> & _).
    assert (s' = n) as -> by (destruct Hs' as [<-|[<-|[]]]; reflexivity).
    destruct (nodes68 p (wp n) (Z.to_nat n) Xs X ltac:(lia) EX HX) as (r1 & Hr1 & ->). change (length x62 - 2)%nat with 1%nat.
    split; [now apply clear68|]. cbn [discs b_neg d_neg point]. replace (- RtoC r1)%C with (RtoC (- r1)) by (now rewrite RtoC_opp). apply clear68. lra. }
  exists s. split; [exact H3|]. exact (small64 _ _ _ _ _ Ey H2 H3).
Qed.

(** the step is 2, there are 3 points and the parameter is pi/2; the radius is the error bound *)
Definition es69 : list edge := [{| er := Some 10%Z; ea := 0; eb := 2 |}].
Lemma free_02 : free_segment x62 (vget x62 0) (vget x62 2).
Proof.
  intros t Ht. unfold edge_point, x62, vget. cbn [nth In].
  intros [E|[E|[E|[]]]]; apply (f_equal fst) in E; cbn in E; lra.
Qed.
Lemma radius69 : exists e, de_radius_ok c33 [RtoC (-3)] 0 2 (PI / 2) 2 (Some e).
Proof.
  assert (HP := PI_RGT_0). assert (HP2 := PI2_3_2).
  destruct (tau_points [RtoC (-3)]) as (Hpts & r1 & Hr1).
  { intros w [<-|[]] t Ht E. apply (f_equal fst) in E. cbn in E. lra. }
  destruct (open_strip [RtoC (-3)] _ r1 Hr1 Hpts) as (Q1 & Q2 & Q3 & Q4 & Q5). set (r0 := r1 * (10 / 9)) in *.
  destruct (ratio_bounded (PI / 2) r1 r0 3 [RtoC (-3)] 0 2 0 ltac:(lra) Q1 Q2 Q3 ltac:(lia) Q4 Q5) as (M & HM & HB).
  exists (e_T 2 (PI / 2) 1 M (alpha 2 3) + 4 / 3 * e_Q 2 (PI / 2) r1 M (alpha 2 3)).
  split; [lia|]. split; [lra|]. split; [lra|]. intros q i Hq Hi. change (length (sec_ni c33)) with 1%nat in Hq. assert (q = 0%nat) as -> by lia.
  change (nth 0 (sec_ni c33) 0%Z) with 1%Z in Hi. assert (i = 0%nat) as -> by lia. cbv zeta.
  change (sec_j1 c33 + Z.of_nat 0)%Z with 2%Z. change (sec_m c33) with 3%Z. change (Z.to_nat 2) with 2%nat. change (Z.of_nat 2) with 2%Z.
  change (2 - 1)%nat with 1%nat.
  exists r1, r0, M, M. split; [exact Q1|]. split; [exact Q2|]. split; [exact Q3|]. split; [exact Q4|]. split; [|split; [exact HB|]].
  - intros t Ht. specialize (HB (ProofHol7.de_inv (PI / 2) t, 0)). cbn [snd] in HB. rewrite Rabs_R0 in HB. specialize (HB ltac:(lra)).
    rewrite cmap_real, ProofHol7.de_map_inv in HB by lra. exact HB.
  - split; [|lra]. cbn [INR]. rewrite Rmult_1_l. unfold alpha. change (IZR (3 - 2)) with 1.
    assert (HC := cosh_ge_exp (1 + 1)). assert (HE := exp_ineq1 1 ltac:(lra)). rewrite exp_plus in HC. replace (1 + 1) with 2 in HC by ring.
    assert (2 < cosh 2) by nra.
    nra.
Qed.
Example C69_nonvacuous : forall p q, (p <= 1000)%Z -> exists Ys inter e,
  let st := {| bs_n := 2; bs_h := 2; bs_l := PI / 2; bs_e := Some e |} in
  sound discs disc_mem /\ widens discs disc_mem /\ mems (A := discs) disc_mem X68 x62 /\ distinct x62 /\ sec_init (Z.of_nat 3) (Z.of_nat (length x62)) = Done c33 /\
  (forall l, Permutation l (isort l)) /\ xgcd_ok egcd /\ tree_edges c33 = 1%Z /\ sec_g c33 = 1%Z /\ sec_ni c33 = [1%Z] /\
  (exists r' mn', spanning_tree isort param64 3 1 (Some 0%Z) 0 = Done (es69, r', mn')) /\
  (forall e, In e es69 -> free_segment x62 (vget x62 (ea e)) (vget x62 (eb e))) /\
  b_tree_ydata discs p X68 (Z.of_nat 3) es69 = Done Ys /\ directions_clear discs q Ys es69 /\ b_intersection discs q Ys es69 (Z.of_nat 3) = Done inter /\
  de_usable discs disc_mem p false false false c33 st (nth 0 Ys (b_no_ydata discs)) /\
  exists s, symplectic_reduction egcd (to_rows inter) 1 = Done s /\ rows_small 2 (stP s).
Proof.
  intros p q Hp. assert (He : forall e, In e es69 -> (ea e < 3)%nat /\ (eb e < 3)%nat /\ ea e <> eb e) by (intros e [<-|[]]; cbn; lia).
  destruct (point_data p x62 3 es69 distinct62 ltac:(lia) He) as (Ys & ys & EY & Ey & HlY & Hly & HY). fold X68 in EY, Ey.
  assert (Et : spanning_tree isort param64 3 1 (Some 0%Z) 0 = Done (es69, Some 10%Z, 0%nat)) by (vm_compute; reflexivity).
  destruct (curve_reduces egcd isort param64 (test_pos discs p X68 x62) (test_neg discs p X68 x62) x62 3 c33 (Some 0%Z) 0 es69 (Some 10%Z) 0%nat distinct62 ltac:(cbn; lia) eq_refl isort_perm egcd_ok Et)
    as (ys' & inter & s & H1 & H2 & H3 & HS & HA & _ & HC & _ & _ & _ & Hcan).
  rewrite Ey in H1. injection H1 as <-.
  destruct radius69 as (e & Hrad). exists Ys, inter, e. cbv zeta.
  assert (Hdir : directions_clear discs q Ys es69) by (intros k l Hkl; cbn [length es69] in Hkl; lia).
  split; [exact discs_sound|]. split; [exact discs_widens|]. split; [apply points_disc|]. split; [exact distinct62|].
  split; [reflexivity|]. split; [exact isort_perm|]. split; [exact egcd_ok|]. do 3 (split; [reflexivity|]). split; [now do 2 eexists|].
  split; [intros e0 [<-|[]]; exact free_02|]. split; [exact EY|]. split; [exact Hdir|].
  split; [exact (point_intersection x62 3 es69 distinct62 ltac:(lia) He q Ys ys _ _ HY Ey Hdir inter H2)|]. split.
  { assert (H : ydata_mem discs is_point (nth 0 Ys (b_no_ydata discs)) (nth 0 ys no_ydata)) by (apply Forall2_nth; [exact HY|exact (no_ydata_mem discs is_point discs_point_sound)]).
    destruct H as (G1 & G2 & _).
    destruct (tree_ydata_done (test_pos discs p X68 x62) (test_neg discs p X68 x62) x62 3 es69 distinct62 ltac:(lia) He) as (ys0 & E0 & _ & Hn0).
    rewrite Ey in E0. injection E0 as <-. specialize (Hn0 0%nat ltac:(cbn; lia)). cbn [nth es69 ea eb] in Hn0.
    destruct (data68 p 3 2 _ ltac:(lia) ltac:(lia) Hn0) as (D1 & D2 & _). rewrite D1 in G1. rewrite D2 in G2. split.
    - intros u Hu. rewrite (points_unique _ _ G1 u Hu), G2. exact Hrad.
    - unfold de_clear, by_turns. rewrite (proj2 (Z.ltb_ge 1000 p)) by lia. cbn [negb andb orb]. discriminate. }
  exists s. split; [exact H3|]. apply (small_two (to_rows inter)); [exact HS|exact HA|exact H3|exact HC|]. apply Hcan. now right.
Qed.
Example C70_nonvacuous : forall p q, sound discs disc_mem /\ mems (A := discs) disc_mem X68 x62 /\ distinct x62 /\
  (exists r' mn', spanning_tree isort param64 3 2 (Some 0%Z) 0 = Done (es64, r', mn')) /\
  exists Ys inter, b_tree_ydata discs p X68 2 es64 = Done Ys /\ directions_clear discs q Ys es64 /\ b_intersection discs q Ys es64 2 = Done inter.
Proof.
  intros p q. destruct (C68_nonvacuous p q true (fun s => s) 2 ltac:(lia)) as (Ys & inter & n & e & H1 & _ & H3 & H4 & _ & _ & _ & _ & _ & Ht & H5 & H6 & H7 & _).
  split; [exact H1|]. split; [exact H3|]. split; [exact H4|]. split; [exact Ht|]. now exists Ys, inter.
Qed.
(** a disc of radius 1/10 around -3 and the point 1/2 *)
Example C71_nonvacuous : forall p, let U : list disc := [Some (RtoC (-3), 1 / 10)] in let u : list C := [(-3, 1 / 20)] in
  sound discs disc_mem /\ mems (A := discs) disc_mem U u /\ disc_mem (point (RtoC (1 / 2))) (RtoC (1 / 2)) /\
  (forall z, In z (factors u 0 1 (1 / 2)) -> z <> RtoC 0) /\ turns_clear discs p U 0 1 (point (RtoC (1 / 2))).
Proof.
  intros p U u. split; [exact discs_sound|]. split.
  { apply Forall2_cons; [|apply Forall2_nil]. cbn [disc_mem]. replace (((-3)%R, (1 / 20)%R) - RtoC (-3))%C with (Cmult (RtoC (1 / 20)) Ci) by (apply injective_projections; cbn; ring).
    rewrite Cmod_mult, Cmod_R, Rabs_pos_eq by lra. unfold Ci, Cmod. cbn [fst snd]. replace (0 ^ 2 + 1 ^ 2) with 1 by ring. rewrite sqrt_1. lra. }
  split; [apply point_mem|]. split.
  { intros z [<-|[]] E. apply (f_equal fst) in E. cbn in E. lra. }
  unfold turns_clear, factor_balls, U. cbn [seq map Nat.leb nth discs b_sub b_neg d_sub d_neg point turn_clear].
  unfold b_sgn_imag. cbn [discs b_im_has0 b_re_nonneg b_im_sgn d_test]. unfold yes. cbn [fst snd Copp Cminus Cplus RtoC].
  replace (- (0 + - 0)) with 0 by ring. rewrite Rabs_R0.
  destruct (Rle_dec 0 _) as [_|N]; [|lra]. destruct (Rle_dec _ _) as [_|N]; [discriminate|lra].
Qed.
