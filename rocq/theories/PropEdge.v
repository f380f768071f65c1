(** C20, C32, C33: data attached to an edge, sheet numbers.  Statements only.  [nonpos] and
    [neg] are the sign tests on balls, arbitrary since they may fail for lack of precision;
    x is the list of the roots of f. *)
From Verif Require Import CArg ModelTree SpecTree ModelInter ModelEdge SpecEdge SpecInter ProofEdge ProofAngle ProofTreeEx.

(** C32: the stored points are the n-2 roots other than a and b, each once, in the coordinate
    of the edge; the first n1 are those the sign test does not reject. *)
Theorem C32_partition_of_the_other_roots :
  forall nonpos neg x a b m, (a < length x)%nat -> (b < length x)%nat -> vget x a <> vget x b -> (0 < m)%nat ->
    exists y, ydata_init_edge nonpos neg x a b (Z.of_nat m) = Done y /\
      Permutation
        (map (fun k => (RtoC 2 * vget x k - (vget x b + vget x a)) / (vget x b - vget x a))%C
             (filter (fun k => negb ((k =? a) || (k =? b)))%nat (seq 0 (length x))))
        (y_u y) /\
      (y_n1 y <= length (y_u y))%nat /\ (length (y_u y) + 2 = length x)%nat /\
      (forall p, In p (firstn (y_n1 y) (y_u y)) -> nonpos p = false) /\
      (forall p, In p (skipn (y_n1 y) (y_u y)) -> nonpos p = true) /\
      y_ba2 y = ((vget x b - vget x a) / RtoC 2)%C /\
      y_ab y = ((vget x a + vget x b) / (vget x b - vget x a))%C.
Proof. exact partition_final. Qed.
Print Assumptions C32_partition_of_the_other_roots.

(** the same for any array and test: the loop loses and duplicates nothing *)
Theorem C32_arrangement :
  forall (A : Type) (d : A) (nonpos : A -> bool) (u : list A),
    let '(u', l) := arrange d nonpos (length u) u 0 in
    Permutation u u' /\ (l <= length u)%nat /\
    (forall i, (i < l)%nat -> nonpos (nth i u' d) = false) /\
    (forall i, (l <= i < length u)%nat -> nonpos (nth i u' d) = true).
Proof.
  intros A d nonpos u. pose proof (arrange_spec d nonpos (length u) u 0) as H.
  destruct (arrange d nonpos (length u) u 0) as [u' l].
  destruct H as (P & Hl & H1 & H2); try (intros; lia). conj; try assumption. lia.
Qed.
Print Assumptions C32_arrangement.

(** C33: the constant of the edge, whichever branch the sign test chooses ... *)
Theorem C33_edge_constant :
  forall nonpos neg x a b m y, (a < length x)%nat -> (b < length x)%nat -> vget x a <> vget x b -> (0 < m)%nat ->
    ydata_init_edge nonpos neg x a b (Z.of_nat m) = Done y ->
    cpow (y_c y) m = (cpow (RtoC (-1)) (y_n1 y + 1) * cpow ((vget x b - vget x a) / RtoC 2) (length x))%C.
Proof. exact constant_final. Qed.
Print Assumptions C33_edge_constant.

(** ... and the equation of the curve along the edge. *)
Theorem C33_curve_equation :
  forall nonpos neg x a b m y, (a < length x)%nat -> (b < length x)%nat -> vget x a <> vget x b -> (0 < m)%nat ->
    ydata_init_edge nonpos neg x a b (Z.of_nat m) = Done y ->
    forall t : C, poly_at x (edge_point (vget x a) (vget x b) t) =
      ((RtoC 1 - t * t) * cpow (y_c y * y_tilde (Z.of_nat m) (y_u y) (y_n1 y) t)%C m)%C.
Proof. intros nonpos neg x a b m y Ha Hb Hab Hm E t. exact (curve_equation nonpos neg x a b m Ha Hb Hab Hm y t E). Qed.
Print Assumptions C33_curve_equation.

(** The product computed point by point is the product of principal roots. *)
Theorem C33_root_product :
  forall m u n1 t, mth_root_pol_def m u n1 t = y_tilde m u n1 t.
Proof. exact root_pol_tilde. Qed.
Print Assumptions C33_root_product.

(** hypotheses of C32 and C33: four points, the edge from the first to the second, cube roots *)
Example C33_nonvacuous :
  let x : list C := [(0, 0); (1, 2); (3, -1); (-2, 1)]%R in
  vget x 0 <> vget x 1 /\
  exists y, ydata_init_edge (fun u => if Rle_dec (fst u) 0 then true else false) (fun _ => true) x 0 1 (Z.of_nat 3) = Done y /\
    length (y_u y) = 2%nat.
Proof.
  cbn zeta. assert (H01 : vget [(0, 0); (1, 2); (3, -1); (-2, 1)]%R 0 <> vget [(0, 0); (1, 2); (3, -1); (-2, 1)]%R 1).
  { unfold vget. cbn [nth]. intros E. injection E. lra. }
  split; [exact H01|].
  destruct (C32_partition_of_the_other_roots (fun u => if Rle_dec (fst u) 0 then true else false) (fun _ => true)
    [(0, 0); (1, 2); (3, -1); (-2, 1)]%R 0 1 3) as (y & E & _ & _ & HL & _); [cbn; lia|cbn; lia|exact H01|lia|].
  exists y. split; [exact E|]. cbn [length] in HL. lia.
Qed.

(** C20: for two edges with a common point the angle computation meets an integer s.  It is
    the sheet number: with h the half differences and y the limits of the two branches at the
    common point, arg (h_k/h_l) = 2 pi rho and y_l / y_k = |..| e^(-2 i pi rho/m) zeta^s (with
    rho + 1/2 when the first edge ends there). *)
Theorem C20_common_start :
  forall nonpos neg nonpos' neg' x m a b d yk yl, distinct x -> (0 < m)%nat ->
    (a < length x)%nat -> (b < length x)%nat -> (d < length x)%nat -> a <> b -> a <> d ->
    ydata_init_edge nonpos neg x a b (Z.of_nat m) = Done yk ->
    ydata_init_edge nonpos' neg' x a d (Z.of_nat m) = Done yl ->
    exists s rho, shift_number yk yl (Z.of_nat m) ABAD = Done s /\ (- / 2 <= rho < / 2)%R /\
      (y_ba2 yk / y_ba2 yl)%C = (RtoC (Cmod (y_ba2 yk / y_ba2 yl)) * cis (2 * PI * rho))%C /\
      (y_ya yl / y_ya yk)%C = (RtoC (Cmod (y_ya yl / y_ya yk)) * (cis (- (2 * PI * rho / IZR (Z.of_nat m))) * root (Z.of_nat m) s))%C /\
      2 * Z.abs s <= Z.of_nat m + 2.
Proof. exact common_start_final. Qed.
Print Assumptions C20_common_start.

Theorem C20_end_to_start :
  forall nonpos neg nonpos' neg' x m a b d yk yl, distinct x -> (0 < m)%nat ->
    (a < length x)%nat -> (b < length x)%nat -> (d < length x)%nat -> a <> b -> b <> d ->
    ydata_init_edge nonpos neg x a b (Z.of_nat m) = Done yk ->
    ydata_init_edge nonpos' neg' x b d (Z.of_nat m) = Done yl ->
    exists s rho, shift_number yk yl (Z.of_nat m) ABBD = Done s /\ (- / 2 <= rho < / 2)%R /\
      (y_ba2 yk / y_ba2 yl)%C = (RtoC (Cmod (y_ba2 yk / y_ba2 yl)) * cis (2 * PI * rho))%C /\
      (y_ya yl / y_yb yk)%C = (RtoC (Cmod (y_ya yl / y_yb yk)) * (cis (- (2 * PI * (rho + / 2) / IZR (Z.of_nat m))) * root (Z.of_nat m) s))%C /\
      2 * Z.abs s <= Z.of_nat m + 2.
Proof. exact end_to_start_final. Qed.
Print Assumptions C20_end_to_start.

(** The limits at the ends of the edge are m-th roots of +-h f'/2. *)
Theorem C20_values_at_the_ends :
  forall nonpos neg x m a b y, distinct x -> (0 < m)%nat ->
    (a < length x)%nat -> (b < length x)%nat -> a <> b ->
    ydata_init_edge nonpos neg x a b (Z.of_nat m) = Done y ->
    let slope i := cprod (fun k => vget x i - vget x k)%C (filter (fun k => negb (k =? i)%nat) (seq 0 (length x))) in
    (RtoC 2 * cpow (y_ya y) m)%C = (y_ba2 y * slope a)%C /\
    (RtoC 2 * cpow (y_yb y) m)%C = (- (y_ba2 y * slope b))%C.
Proof.
  intros nonpos neg x m a b y Hd Hm Ha Hb Hab E.
  destruct (ends_pow x m Hd Hm nonpos neg a b y Ha Hb Hab E) as (_ & H1 & H2 & _). exact (conj H1 H2).
Qed.
Print Assumptions C20_values_at_the_ends.

(** So, for exact roots, the intersection matrix of every tree the library builds is
    computed without any abort. *)
Theorem C20_intersection_matrix_always_computed :
  forall nonpos neg x m sort param n r mn es r' mn', distinct x -> (2 <= m)%nat ->
    (forall l, Permutation l (sort l)) -> (n < length x)%nat ->
    spanning_tree sort param (length x) n r mn = Done (es, r', mn') ->
    exists ys c, tree_ydata nonpos neg x (Z.of_nat m) es = Done ys /\
      intersection_of_data ys es (Z.of_nat m) = Done c.
Proof. exact always_computed_final. Qed.
Print Assumptions C20_intersection_matrix_always_computed.

(** four points, two edges from the first one *)
Definition x_ex : list C := [(0, 0); (1, 2); (3, -1); (-2, 1)]%R.
Example C20_nonvacuous : distinct x_ex /\ vget x_ex 0 <> vget x_ex 1 /\
  exists yk yl, ydata_init_edge (fun _ => false) (fun _ => true) x_ex 0 1 3 = Done yk /\
    ydata_init_edge (fun _ => false) (fun _ => true) x_ex 0 2 3 = Done yl /\ y_n1 yk = 2%nat.
Proof.
  assert (Hd : distinct x_ex).
  { unfold distinct, x_ex. repeat constructor; cbn [In]; intros H; repeat (destruct H as [H|H]; [injection H; intros; lra|]); exact H. }
  assert (H01 : vget x_ex 0 <> vget x_ex 1) by (apply distinct_get; cbn; auto; lia).
  assert (H02 : vget x_ex 0 <> vget x_ex 2) by (apply distinct_get; cbn; auto; lia).
  conj; [exact Hd|exact H01|].
  destruct (init_spec (fun _ => false) (fun _ => true) x_ex 0 1 3) as (yk & Ek & P & Hn & _ & Hf & _); [cbn; lia|cbn; lia|exact H01|lia|].
  destruct (init_spec (fun _ => false) (fun _ => true) x_ex 0 2 3) as (yl & El & _); [cbn; lia|cbn; lia|exact H02|lia|].
  exists yk, yl. conj; [exact Ek|exact El|].
  apply Permutation_length in P. rewrite map_length in P. cbn [length other_points filter seq x_ex] in P.
  change (2%nat = length (y_u yk)) in P.
  destruct (le_lt_eq_dec _ _ Hn) as [H|H]; [|lia]. exfalso.
  destruct (skipn (y_n1 yk) (y_u yk)) as [|p q] eqn:E.
  - pose proof (skipn_length (y_n1 yk) (y_u yk)) as HL. rewrite E in HL. cbn in HL. lia.
  - specialize (Hf p (or_introl eq_refl)). discriminate.
Qed.
