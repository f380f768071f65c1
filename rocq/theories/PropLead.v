(** C78: the polynomial of the curve and its leading coefficient, from the coefficients to the two
    period matrices.  Statements only.  [branch_points] is FLINT's root finder followed by the sort,
    [squarefree] FLINT's test; the other oracles are those of C64 and C66. *)
From Coq Require Import Reals Lra Lia Sorting.Sorted.
From Coquelicot Require Import Coquelicot.
From Verif Require Import CArg ModelTree SpecTree ProofTreeEx ModelInter ModelCurve ModelSymp SpecSymp ProofSymp ProofSympMain ProofSympEx ModelBasis SpecBasis
  ModelPeriod SpecPeriod ModelVec ModelQuad SpecQuad ModelCache ModelEdge SpecInter SpecEdge ProofEdge ModelTurn SpecTurn
  ModelGc SpecGc ProofGc ModelExtra SpecExtra ProofExtra ModelErr SpecErr SpecHyp ModelDe ModelDeq SpecDe SpecDeq SpecFree
  ModelRun SpecLead ProofLead ProofLead2 PropErr PropHyp PropDeq.
Local Open Scope R_scope.

(** Whatever the polynomial f and the square root s of its leading coefficient, with the hypotheses
    of C64: each entry of the matrices returned is close to s times the period of the curve
    y^2 = f(x).  (It is the period of this curve exactly when f is monic, s = 1.) *)
Theorem C78_gc_partial :
  forall (Key : Type) branch_points squarefree sort param nonpos neg xgcd up lg (qsort : list (Key * nat) -> list (Key * nat)) keys
  rdef rturn fuel d f s c es r' mn' ys prec (np : nat -> Z) ss,
  let x := branch_points f in let t := Z.to_nat (tree_edges c) in let g := Z.to_nat (sec_g c) in
  roots_of f x -> distinct x -> (3 <= length x)%nat -> squarefree f = true -> sec_init 2 (degree f) = Done c -> (s * s)%C = ZC (leading f) ->
  (forall l, Permutation l (sort l)) -> (forall l, Permutation (qsort l) l) -> xgcd_ok xgcd ->
  rounds_up up -> 0 <= d -> log2_within lg d -> (2 <= fuel)%nat ->
  spanning_tree sort (param x) (length x) t (Some 0%Z) 0 = Done (es, r', mn') -> tree_ydata nonpos neg x 2 es = Done ys ->
  length (keys ys) = t -> let p := intprec up lg prec x es c in
  (forall k, (k < t)%nat -> let u := y_u (nth k ys no_ydata) in
    within_reach g p u /\
    (rdef = true \/ forall t, -1 < t < 1 -> ~ negative_real (SpecTurn.cprod (factors u (y_n1 (nth k ys no_ydata)) (length u) t)))) ->
  (forall k, (k < t)%nat -> exists e r, gc_params fuel (y_u (nth k ys no_ydata)) g p = Done (np k, e, r)) ->
  let order := map snd (qsort (combine (keys ys) (seq 0 t))) in
  gc_schemes c 0 (map np order) = Done ss -> Forall2 (fun s n => (n <= s)%Z) ss (map np order) ->
  exists inter st b, intersection_of_data ys es 2 = Done inter /\ symplectic_reduction xgcd (to_rows inter) g = Done st /\
    SpecSymp.square t (stP st) /\ unimodular t (stP st) /\ congruent t (stP st) (to_rows inter) (stM st) /\ canonical t g (stM st) /\ length b = t /\
    (forall k, (k < t)%nat -> let ye := nth k ys no_ydata in
      curve_integrals 2 c f (vget x (ea (nth k es no_edge))) (vget x (eb (nth k es no_edge))) (s * y_ya ye)%C (s * y_yb ye)%C (nth k b [])) /\
    (rows_small (2 * g) (stP st) -> exists omA omB,
      periods_gc branch_points squarefree sort param nonpos neg xgcd up lg qsort keys rdef rturn fuel f prec = Done (omA, omB) /\
      length omA = g /\ length omB = g /\
      forall i k, (i < g)%nat -> (k < g)%nat ->
        Cmod (vget (nth i omA []) k - s * cycle_period b (nth (2 * k) (stP st) []) i)%C
          <= cycle_norm (nth (2 * k) (stP st) []) * (4 * INR (S i) * two_to (d - IZR prec)) /\
        Cmod (vget (nth i omB []) k - s * cycle_period b (nth (2 * k + 1) (stP st) []) i)%C
          <= cycle_norm (nth (2 * k + 1) (stP st) []) * (4 * INR (S i) * two_to (d - IZR prec))).
Proof. exact @lead_gc. Qed.
Print Assumptions C78_gc_partial.

(** For y^m = f(x) and the double exponential rule, with the hypotheses of C66: the row of x^i dx / y^j
    is multiplied by s^j, where s^m is the leading coefficient of f. *)
Theorem C78_de_partial :
  forall branch_points squarefree sort (param : list C -> nat -> nat -> nat -> dbl) nonpos neg xgcd up lg m f s c es r' mn' (qsort : list (R * nat) -> list (R * nat)),
  let x : list C := branch_points f in let t := Z.to_nat (tree_edges c) in let g := Z.to_nat (sec_g c) in
  roots_of f x -> distinct x -> (3 <= length x)%nat -> squarefree f = true -> sec_init (Z.of_nat m) (degree f) = Done c -> cpow s m = ZC (leading f) ->
  xgcd_ok xgcd -> spanning_tree sort (param x) (length x) t (Some 0%Z) 0 = Done (es, r', mn') ->
  qsort_ok sort -> tells_apart x (param x) -> (forall l, Permutation (qsort l) l /\ StronglySorted Rle (map fst (qsort l))) ->
  let gens := (t * (m - 1))%nat in
  exists ys inter st b K, tree_ydata nonpos neg x (Z.of_nat m) es = Done ys /\
    intersection_of_data ys es (Z.of_nat m) = Done inter /\ symplectic_reduction xgcd (to_rows inter) g = Done st /\
    SpecSymp.square gens (stP st) /\ unimodular gens (stP st) /\ congruent gens (stP st) (to_rows inter) (stM st) /\
    (Z.gcd (Z.of_nat m) (degree f) = 1%Z \/ Z.gcd (Z.of_nat m) (degree f) = Z.of_nat m -> canonical gens g (stM st)) /\
    0 <= K /\ length b = t /\
    (forall k, (k < t)%nat -> let ye := nth k ys no_ydata in
      curve_integrals m c f (vget x (ea (nth k es no_edge))) (vget x (eb (nth k es no_edge))) (s * y_ya ye)%C (s * y_yb ye)%C (nth k b [])) /\
    forall rdef rprod rturn same prec, let p := intprec up lg prec x es c in (0 <= p)%Z ->
      (forall ye, In ye ys -> safe_roots rdef rprod rturn p (y_u ye) (y_n1 ye)) -> rows_small (2 * g) (stP st) ->
      exists omA omB,
        periods_de branch_points squarefree sort param nonpos neg xgcd up lg qsort (map (fun ye => edge_key (y_u ye)))
          rdef rprod rturn same (Z.of_nat m) f prec = Done (omA, omB) /\ length omA = g /\ length omB = g /\
        forall k q i, (k < g)%nat -> (q < length (sec_ni c))%nat -> (Z.of_nat i < nth q (sec_ni c) 0)%Z ->
          let j := (sec_j1 c + Z.of_nat q)%Z in let pos := (offset (sec_ni c) q + i)%nat in
          Cmod (vget (nth pos omA []) k - cpow s (Z.to_nat j) * row_period c b (nth (2 * k) (stP st) []) j pos)%C
            <= cycle_norm (nth (2 * k) (stP st) []) * (K * de_rate (Z.of_nat m) j p) /\
          Cmod (vget (nth pos omB []) k - cpow s (Z.to_nat j) * row_period c b (nth (2 * k + 1) (stP st) []) j pos)%C
            <= cycle_norm (nth (2 * k + 1) (stP st) []) * (K * de_rate (Z.of_nat m) j p).
Proof.
  intros branch_points squarefree sort param nonpos neg xgcd up lg m f s c es r' mn' qsort x t g H1 H2 H3 H4 H5 H6 H7 H8.
  exact (lead_de branch_points squarefree sort param nonpos neg xgcd up lg m f s c es r' mn' H1 H2 H3 H4 H5 H6 H7 H8 qsort).
Qed.
Print Assumptions C78_de_partial.

(** the polynomial enters only through its degree, its roots and the test of squares *)
Theorem C78_only_roots :
  forall (Key : Type) branch_points squarefree sort param nonpos neg xgcd up lg (qsort : list (Key * nat) -> list (Key * nat)) keys f f',
    degree f = degree f' -> branch_points f = branch_points f' -> squarefree f = squarefree f' ->
    (forall rdef rturn fuel prec,
      periods_gc branch_points squarefree sort param nonpos neg xgcd up lg qsort keys rdef rturn fuel f prec =
      periods_gc branch_points squarefree sort param nonpos neg xgcd up lg qsort keys rdef rturn fuel f' prec) /\
    (forall rdef rprod rturn same m prec,
      periods_de branch_points squarefree sort param nonpos neg xgcd up lg qsort keys rdef rprod rturn same m f prec =
      periods_de branch_points squarefree sort param nonpos neg xgcd up lg qsort keys rdef rprod rturn same m f' prec).
Proof. exact @lead_only_roots. Qed.
Print Assumptions C78_only_roots.

(** y^2 = 2 x^3 - 2 x: at every precision of at least 4 bits the program ends, and the first entry of
    the first matrix is at a distance of more than 1/2 from the integral of dx / y over every cycle
    of the curve: any sheets over the two edges, from 0 to -1 and from 0 to 1, any coordinates. *)
Theorem C78_leading_refuted :
  forall (Key : Type) branch_points squarefree (qsort : list (Key * nat) -> list (Key * nat)) keys rdef rturn prec,
  branch_points f78 = x62 -> squarefree f78 = true -> (forall l, Permutation (qsort l) l) -> (forall ys : list ydata, length (keys ys) = length ys) -> (4 <= prec)%Z ->
  exists omA omB,
    periods_gc branch_points squarefree isort (fun _ => param64) (fun _ => nonpos62) (fun _ _ => false) egcd (fun r => r) log2 qsort keys rdef rturn 2 f78 prec = Done (omA, omB) /\
    (exists w ya yb, curve_integrals 2 c23 f78 (RtoC 0) (RtoC (-1)) ya yb w) /\ (exists w ya yb, curve_integrals 2 c23 f78 (RtoC 0) (RtoC 1) ya yb w) /\
    forall w0 w1 ya0 yb0 ya1 yb1 n0 n1,
      curve_integrals 2 c23 f78 (RtoC 0) (RtoC (-1)) ya0 yb0 w0 -> curve_integrals 2 c23 f78 (RtoC 0) (RtoC 1) ya1 yb1 w1 ->
      Cmod (vget (nth 0 omA []) 0 - (ZC n0 * vget w0 0 + ZC n1 * vget w1 0))%C > 1 / 2.
Proof. exact @lead_wrong. Qed.
Print Assumptions C78_leading_refuted.

(** the hypotheses of the first theorem for this curve, s = sqrt 2; the others are in C64_nonvacuous *)
Example C78_gc_nonvacuous : roots_of f78 x62 /\ leading f78 = 2%Z /\ sec_init 2 (degree f78) = Done c23 /\ (RtoC (sqrt 2) * RtoC (sqrt 2))%C = ZC (leading f78) /\
  forall (Key : Type) squarefree (qsort : list (Key * nat) -> list (Key * nat)) keys rdef rturn prec,
    squarefree f78 = true -> (forall l, Permutation (qsort l) l) -> (forall ys : list ydata, length (keys ys) = length ys) -> (4 <= prec)%Z ->
    exists omA omB, periods_gc (fun _ => x62) squarefree isort (fun _ => param64) (fun _ => nonpos62) (fun _ _ => false) egcd (fun r => r) log2 qsort keys rdef rturn 2 f78 prec
      = Done (omA, omB).
Proof.
  split; [exact roots78|]. do 2 (split; [reflexivity|]). split.
  - rewrite <- RtoC_mult, sqrt_sqrt by lra. reflexivity.
  - intros Key squarefree qsort keys rdef rturn prec H1 H2 H3 H4.
    destruct (lead_wrong (fun _ => x62) squarefree qsort keys rdef rturn prec eq_refl H1 H2 H3 H4) as (omA & omB & E & _). exists omA, omB. exact E.
Qed.
(** y^3 = 2 x^3 - 2 x for the second one, s the cube root of 2; the others are in C66_nonvacuous *)
Example C78_de_nonvacuous : roots_of f78 x62 /\ sec_init (Z.of_nat 3) (degree f78) = Done c33 /\ cpow (RtoC (rroot 3 2)) 3 = ZC (leading f78) /\ rroot 3 2 <> 1.
Proof.
  assert (H : rroot 3 2 ^ 3 = 2) by (apply (CArg.rroot_pow 3 2); [lia|lra]).
  split; [exact roots78|]. split; [reflexivity|]. split; [rewrite cpow_RtoC, H; reflexivity|]. intro E. rewrite E in H. lra.
Qed.
