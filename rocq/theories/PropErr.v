(** C61, C62: the error of the Gauss-Chebyshev rule and of the integrals of the edges of a
    hyperelliptic curve. *)
From Coq Require Import Reals Lra Lia.
From Coquelicot Require Import Coquelicot.
From Verif Require Import CArg ModelTree ModelCurve ModelVec ModelQuad SpecQuad ModelCache ModelEdge SpecInter SpecEdge ProofEdge ModelTurn SpecTurn
  ModelGc SpecGc ProofGc ProofGc2 PropGc ModelExtra SpecExtra ProofExtra ModelErr SpecErr ProofErr5 ProofErr6.
Local Open Scope R_scope.

(** When the ellipse chosen avoids the branch points, each moment computed with at least the
    number of points chosen is at a distance of the integral that is at most the radius returned. *)
Theorem C61_error_partial fuel u n1 d prec n e r N g : gc_params fuel u d prec = Done (n, e, r) ->
  avoids r u -> (0 < n)%Z -> (n <= Z.of_nat N)%Z -> (1 <= g)%nat ->
  let y := fun t : R => y_tilde 2 u n1 (RtoC t) in
  exists e' res, e = Some e' /\ gc_integrals y (y 0) g N = Done res /\ length res = g /\
    forall l, (l < g)%nat -> (l <= d)%nat ->
      exists I, is_int (SpecQuad.integrand 2 y 1 l) I /\ Cmod (vget res l - I)%C <= e'.
Proof.
  intros H Ha. apply (computed_error fuel u n1 d prec n e r N g); [exact H|exact Ha|].
  exact (gc_r_ge_1 _ _ _ _ _ _ _ H).
Qed.
Print Assumptions C61_error_partial.

(** If the precision is large enough compared with the branch points, the number of points chosen
    computes all moments with an error of at most twice the tolerance. *)
Theorem C61_tolerance_partial fuel u n1 g prec : (2 <= fuel)%nat -> u <> [] -> (1 <= g)%nat ->
  within_reach g prec u ->
  let y := fun t : R => y_tilde 2 u n1 (RtoC t) in
  exists n e r res, gc_params fuel u g prec = Done (n, Some e, r) /\ (0 < n)%Z /\
    gc_integrals y (y 0) g (Z.to_nat n) = Done res /\ length res = g /\
    forall l, (l < g)%nat -> exists I, is_int (SpecQuad.integrand 2 y 1 l) I /\
      Cmod (vget res l - I)%C <= 2 * Rpower 2 (- IZR prec).
Proof.
  intros Hf Hu Hg Hp y. destruct (C44_tolerance_partial fuel u g prec Hf Hu Hp) as (n & e & r & H & Hn & Hr & Ha & He).
  destruct (C61_error_partial fuel u n1 g prec n (Some e) r (Z.to_nat n) g H Ha Hn ltac:(lia) Hg) as (e' & res & E1 & E2 & E3 & E4).
  injection E1 as <-. exists n, e, r, res. split; [exact H|]. split; [exact Hn|]. split; [exact E2|]. split; [exact E3|].
  intros l Hl. destruct (E4 l Hl ltac:(lia)) as (I & HI & HE). exists I. split; [exact HI|]. fold y in HE. lra.
Qed.
Print Assumptions C61_tolerance_partial.
Lemma point61 : within_reach 1 64 [RtoC 3].
Proof. apply reach_single; [lia|lia|]. unfold half_sum. rewrite <- RtoC_minus, <- RtoC_plus, !Cmod_R, !Rabs_pos_eq by lra. lra. Qed.
(** the integral of 1 / sqrt((1-t^2)(3-t)) *)
Example C61_nonvacuous : let y := fun t : R => y_tilde 2 [RtoC 3] 1 (RtoC t) in
  exists n e r res, gc_params 2 [RtoC 3] 1 64 = Done (n, Some e, r) /\ (0 < n)%Z /\
    gc_integrals y (y 0) 1 (Z.to_nat n) = Done res /\ length res = 1%nat /\
    forall l, (l < 1)%nat -> exists I, is_int (SpecQuad.integrand 2 y 1 l) I /\
      Cmod (vget res l - I)%C <= 2 * Rpower 2 (- 64).
Proof. exact (C61_tolerance_partial 2 [RtoC 3] 1 1 64 ltac:(lia) ltac:(discriminate) ltac:(lia) point61). Qed.

(** C62: for each edge, when the ellipse chosen avoids the branch points and the scheme kept has
    enough points, the balls returned contain the integrals over the edge. *)
Theorem C62_edge_partial :
  forall nonpos neg x a b n c ye rdef rturn fuel cached prec np e r s,
    sec_init 2 n = Done c -> (3 <= n)%Z -> Z.of_nat (length x) = n ->
    (a < length x)%nat -> (b < length x)%nat -> vget x a <> vget x b -> ydata_init_edge nonpos neg x a b 2 = Done ye ->
    gc_params fuel (y_u ye) (Z.to_nat (sec_g c)) prec = Done (np, e, r) -> avoids r (y_u ye) -> (0 < np)%Z ->
    gc_scheme c cached np = Done s -> (np <= s)%Z ->
    (rdef = true \/ forall k, (k < Z.to_nat s)%nat ->
      ~ negative_real (SpecTurn.cprod (factors (y_u ye) (y_n1 ye) (length (y_u ye)) (gc_node (Z.to_nat s) k)))) ->
    exists v e' w w', e = Some e' /\ edge_moments_gc rdef rturn fuel c cached ye prec = Done (v, Some e', s) /\
      length v = Z.to_nat (sec_g c) /\ within e' v w /\ edge_result_gc c ye w = Done w' /\
      edge_integrals x (vget x a) (vget x b) (y_ya ye) (y_yb ye) (sec_g c) w'.
Proof.
  intros nonpos neg x a b n c ye rdef rturn fuel cached prec np e r s H1 H2 H3 H4 H5 H6 H7.
  exact (edge_gc nonpos neg x a b n c ye H1 H2 H3 H4 H5 H6 H7 rdef rturn fuel cached prec np e r s).
Qed.
Print Assumptions C62_edge_partial.

(** The same for all the edges of a tree, when no edge is integrated with fewer points than it
    asks for (C39 gives a sufficient condition, and shows that this may fail). *)
Theorem C62_tree_partial :
  forall (Key : Type) (qsort : list (Key * nat) -> list (Key * nat)) rdef rturn fuel n c x es nonpos neg ys prec keys rows
    (np : nat -> Z) (e : nat -> option R) (r : nat -> R) ss,
    (forall l, Permutation (qsort l) l) -> sec_init 2 n = Done c -> (3 <= n)%Z -> Z.of_nat (length x) = n ->
    edges_of x es -> tree_ydata nonpos neg x 2 es = Done ys -> length keys = length es -> length rows = length es ->
    (forall k, (k < length es)%nat -> let u := y_u (nth k ys no_ydata) in
      gc_params fuel u (Z.to_nat (sec_g c)) prec = Done (np k, e k, r k) /\ avoids (r k) u /\ (0 < np k)%Z /\
      (rdef = true \/ forall t, -1 < t < 1 -> ~ negative_real (SpecTurn.cprod (factors u (y_n1 (nth k ys no_ydata)) (length u) t)))) ->
    let order := map snd (qsort (combine keys (seq 0 (length keys)))) in
    gc_schemes c 0 (map np order) = Done ss -> Forall2 (fun s n => (n <= s)%Z) ss (map np order) ->
    exists rows', tree_moments_gc qsort rdef rturn fuel c ys prec keys rows = Done rows' /\ length rows' = length es /\
      forall k, (k < length es)%nat -> let ye := nth k ys no_ydata in
        let a := vget x (ea (nth k es no_edge)) in let b := vget x (eb (nth k es no_edge)) in
        exists v e' w w', nth k rows' ([], None) = (v, Some e') /\ e k = Some e' /\ Z.of_nat (length v) = sec_g c /\ within e' v w /\ edge_result_gc c ye w = Done w' /\
          edge_integrals x a b (y_ya ye) (y_yb ye) (sec_g c) w'.
Proof.
  intros Key qsort rdef rturn fuel n c x es nonpos neg ys prec keys rows np e r ss.
  exact (tree_gc qsort rdef rturn fuel n c x es nonpos neg ys prec keys rows np e r ss).
Qed.
Print Assumptions C62_tree_partial.

(** When the working precision is large enough compared with the branch points, the centres are
    at most 4 (i+1) 2^-prec from the integrals, for the precision asked for. *)
Theorem C62_precision_partial :
  forall up lg d prec n c x es ed nonpos neg ye rdef rturn fuel,
    rounds_up up -> 0 <= d -> log2_within lg d -> sec_init 2 n = Done c -> (3 <= n)%Z -> Z.of_nat (length x) = n ->
    edges_of x es -> In ed es -> ydata_init_edge nonpos neg x (ea ed) (eb ed) 2 = Done ye -> (2 <= fuel)%nat ->
    let p := intprec up lg prec x es c in
    within_reach (Z.to_nat (sec_g c)) p (y_u ye) ->
    (rdef = true \/ forall t, -1 < t < 1 -> ~ negative_real (SpecTurn.cprod (factors (y_u ye) (y_n1 ye) (length (y_u ye)) t))) ->
    exists v e s v' w', edge_moments_gc rdef rturn fuel c 0 ye p = Done (v, Some e, s) /\ edge_result_gc c ye v = Done v' /\
      edge_integrals x (vget x (ea ed)) (vget x (eb ed)) (y_ya ye) (y_yb ye) (sec_g c) w' /\
      forall i, (Z.of_nat i < sec_g c)%Z -> Cmod (vget v' i - vget w' i)%C <= 4 * INR (S i) * two_to (d - IZR prec).
Proof. exact edge_precision. Qed.
Print Assumptions C62_precision_partial.

(** y^2 = x^3 - x, the tree with edges (0, 1) and (0, -1): all the hypotheses hold *)
Definition x62 : list C := [RtoC 0; RtoC 1; RtoC (-1)].
Definition es62 : list edge := [{| er := Some 0%Z; ea := 0; eb := 1 |}; {| er := Some 0%Z; ea := 0; eb := 2 |}].
Definition nonpos62 (z : C) : bool := if Rle_dec (fst z) 0 then true else false.
Lemma edges62 : edges_of x62 es62.
Proof.
  assert (H : forall a b, a <> b -> RtoC a <> RtoC b) by (intros a b Hab E; injection E; exact Hab).
  intros e [<-|[<-|[]]]; cbn [ea eb length x62 vget nth]; (split; [lia|split; [lia|apply H; lra]]).
Qed.
Lemma data62 b : (b = 1 \/ b = 2)%nat -> exists y, ydata_init_edge nonpos62 (fun _ => false) x62 0 b 2 = Done y /\ y_u y = [RtoC (-3)] /\ y_n1 y = 0%nat.
Proof.
  intro Hb. assert (H : forall a b, a <> b -> RtoC a <> RtoC b) by (intros a' b' Hab E; injection E; exact Hab).
  destruct (init_spec nonpos62 (fun _ => false) x62 0 b 2) as (y & E & HP & Hn & H1 & _); [cbn; lia|cbn; lia| |lia|].
  { destruct Hb as [-> | ->]; cbn [x62 vget nth]; apply H; lra. }
  exists y. split; [exact E|].
  assert (Eu : y_u y = [RtoC (-3)]).
  { assert (EP : Permutation [RtoC (-3)] (y_u y)).
    { destruct Hb as [-> | ->]; cbn [x62 length other_points seq filter map Nat.eqb orb negb vget nth] in HP.
      - replace (scaled x62 0 1 2) with (RtoC (-3)) in HP; [exact HP|]. unfold scaled. cbn [x62 vget nth].
        rewrite <- !RtoC_mult, <- RtoC_plus, <- !RtoC_minus, <- RtoC_div by lra. f_equal. field.
      - replace (scaled x62 0 2 1) with (RtoC (-3)) in HP; [exact HP|]. unfold scaled. cbn [x62 vget nth].
        rewrite <- !RtoC_mult, <- RtoC_plus, <- !RtoC_minus, <- RtoC_div by lra. f_equal. field. }
    apply Permutation_length_1_inv in EP. exact EP. }
  split; [exact Eu|]. rewrite Eu in *. destruct (y_n1 y) as [|k]; [reflexivity|]. exfalso.
  cbn [firstn] in H1. specialize (H1 (RtoC (-3)) (or_introl eq_refl)). unfold nonpos62 in H1. cbn [fst RtoC] in H1.
  destruct (Rle_dec (-3) 0); [discriminate|lra].
Qed.
Lemma points62 p : (2 <= p)%Z -> within_reach 1 p [RtoC (-3)].
Proof.
  intro Hp. apply reach_single; [lia|lia|]. unfold half_sum. rewrite <- RtoC_minus, <- RtoC_plus, !Cmod_R, !Rabs_left by lra. lra.
Qed.
Lemma positive62 t : -1 < t < 1 -> ~ negative_real (SpecTurn.cprod (factors [RtoC (-3)] 0 1 t)).
Proof.
  intros Ht [_ H]. unfold SpecTurn.cprod, factors in H. cbn [seq map Nat.ltb Nat.leb nth fold_right fst snd Cmult RtoC Cminus Cplus Copp] in H. lra.
Qed.
Example C62_nonvacuous : exists c ys np e r, sec_init 2 3 = Done c /\ sec_g c = 1%Z /\ edges_of x62 es62 /\
  tree_ydata (fun _ => nonpos62) (fun _ _ => false) x62 2 es62 = Done ys /\
  (forall k, (k < 2)%nat -> let u := y_u (nth k ys no_ydata) in
      gc_params 2 u (Z.to_nat (sec_g c)) 64 = Done (np, e, r) /\ avoids r u /\ (0 < np)%Z /\
      forall t, -1 < t < 1 -> ~ negative_real (SpecTurn.cprod (factors u (y_n1 (nth k ys no_ydata)) (length u) t))) /\
  gc_schemes c 0 [np; np] = Done [np; np] /\ Forall2 (fun s n => (n <= s)%Z) [np; np] [np; np].
Proof.
  destruct (data62 1) as (y1 & E1 & U1 & N1); [now left|]. destruct (data62 2) as (y2 & E2 & U2 & N2); [now right|].
  assert (Hpt : within_reach 1 64 [RtoC (-3)]) by (apply points62; lia).
  destruct (C44_tolerance_partial 2 [RtoC (-3)] 1 64 ltac:(lia) ltac:(discriminate) Hpt) as (n & e & r & H & Hn & Hr & Ha & _).
  exists c23, [y1; y2], n, (Some e), r. split; [reflexivity|]. split; [reflexivity|]. split; [exact edges62|].
  split. { unfold es62. cbn [tree_ydata ea eb]. rewrite E1, E2. reflexivity. }
  split.
  - intros k Hk. assert (Hk' : (k = 0 \/ k = 1)%nat) by lia.
    destruct Hk' as [-> | ->]; cbn [nth]; rewrite ?U1, ?U2, ?N1, ?N2; (split; [exact H|]; split; [exact Ha|]; split; [exact Hn|exact positive62]).
  - split; [|repeat constructor; lia]. cbn [gc_schemes]. unfold gc_scheme. rewrite Z.eqb_refl. cbn [bind].
    rewrite (proj2 (Z.eqb_neq n 0)) by lia. rewrite Z.sub_diag, Z.mul_0_l. change (negb _) with false. cbn iota.
    destruct (0 >? n)%Z; reflexivity.
Qed.
(** and those of the last theorem, for each precision *)
Example C62_precision_nonvacuous : forall prec, (2 <= prec)%Z ->
  rounds_up (fun r => r) /\ log2_within log2 0 /\ In {| er := Some 0%Z; ea := 0; eb := 1 |} es62 /\
  let p := intprec (fun r => r) log2 prec x62 es62 c23 in
  exists y, ydata_init_edge nonpos62 (fun _ => false) x62 0 1 2 = Done y /\
    within_reach 1 p (y_u y).
Proof.
  intros prec Hp. split; [intros z _; lra|]. split; [intros z _; lra|]. split; [now left|]. intro p.
  destruct (data62 1) as (y1 & E1 & U1 & N1); [now left|]. exists y1. split; [exact E1|]. rewrite U1. apply points62.
  assert (prec < p)%Z; [|lia]. apply (short_edge_final (fun r => r) log2 prec 2 3 c23 x62 es62 {| er := Some 0%Z; ea := 0; eb := 1 |});
    [intros z _; lra|intros z _; lra|reflexivity|lia|cbn; lia|reflexivity|exact edges62|now left|].
  cbn [ea eb x62 vget nth]. rewrite <- RtoC_minus, Cmod_R, Rabs_pos_eq; lra.
Qed.
