(** C77: the search for the parameters of the Gauss-Chebyshev rule ends with parameters, for all
    the edges of the tree.  [sort] and [qsort] are qsort on the candidate edges and on the edges
    of the tree, [param] the weights of the edges, [nonpos] and [neg] the sign tests on complex
    balls, [fuel] a bound on the rounds of the search. *)
From Coq Require Import Reals Lra Lia List ZArith Permutation.
From Coquelicot Require Import Coquelicot.
From Verif Require Import CArg ModelTree ModelCurve ModelPeriod ModelEdge ModelCache ModelExtra ModelGc ModelErr ModelDeq ModelInter ModelSymp ModelBasis ModelVec ModelQuad ModelTurn SpecTree SpecSymp SpecBasis SpecPeriod SpecTurn SpecErr SpecHyp SpecInter SpecEdge SpecExtra SpecVec SpecGc SpecDeq SpecFree
  ProofTreeEx ProofCurve ProofSymp ProofSympMain ProofLat9 ProofGc ProofHyp PropHyp ProofDeq3 ProofFree ProofFree2 ProofGcLoop2 ProofGcLoop3 ProofGcLoop4.
Import ListNotations.
Local Open Scope R_scope.

(** It does when, of all the branch points, two are at a distance between lo and hi, with
    (2 hi / lo)^(n-2) at most 4^prec: two rounds are enough, the ellipse avoids the branch points
    and the radius is at most twice the tolerance.  Missing: points spread more widely. *)
Theorem C77_spread_partial :
  forall nonpos neg sort param x m n r mn es r' mn' ys d prec lo hi,
    distinct x -> (3 <= length x)%nat -> (2 <= m)%nat -> (n < length x)%nat -> qsort_ok sort ->
    tells_apart x param ->
    spanning_tree sort param (length x) n r mn = Done (es, r', mn') -> tree_ydata nonpos neg x (Z.of_nat m) es = Done ys ->
    0 < lo -> (forall y z, In y x -> In z x -> y <> z -> lo <= Cmod (y - z)%C <= hi) ->
    (0 < prec)%Z -> (2 * hi / lo) ^ (length x - 2) <= Rpower 4 (IZR prec) ->
    forall ye fuel, In ye ys -> (2 <= fuel)%nat ->
    exists N e rr, gc_params fuel (y_u ye) d prec = Done (N, Some e, rr) /\ (0 < N)%Z /\ 1 < rr /\ avoids rr (y_u ye) /\ 0 < e <= 2 * Rpower 2 (- IZR prec).
Proof.
  intros nonpos neg sort param x m n r mn es r' mn' ys d prec lo hi Hd H3 Hm Hn Hs Ho Et Ey Hlo Hx Hp Hpow ye fuel Hye Hf.
  destruct (spread_reach nonpos neg sort param x m n r mn es r' mn' ys d prec lo hi Hd H3 Hm Hn Hs Ho Et Ey Hlo Hx Hp Hpow ye Hye) as [H1 H2].
  destruct fuel as [|[|fuel]]; [lia|lia|]. now apply gc_enough.
Qed.
Print Assumptions C77_spread_partial.

(** So the conclusions of C64 hold with a condition on the distances of the branch points: the
    searches end, and the periods are right if no product of factors is a negative number (or the
    default square root is the one compiled) and no edge is integrated with fewer points than it
    asks for. *)
Theorem C64_spread_partial :
  forall (Key : Type) xgcd sort param nonpos neg x cv r0 mn es r' mn' ys
    (qsort : list (Key * nat) -> list (Key * nat)) keys (rows : list (vec * option R)) rdef rturn fuel up lg d prec lo hi,
    distinct x -> (3 <= length x)%nat -> sec_init 2 (Z.of_nat (length x)) = Done cv ->
    qsort_ok sort -> tells_apart x param -> (forall l, Permutation (qsort l) l) -> xgcd_ok xgcd ->
    rounds_up up -> 0 <= d -> log2_within lg d -> (2 <= fuel)%nat ->
    let t := Z.to_nat (tree_edges cv) in let g := Z.to_nat (sec_g cv) in let p := intprec up lg prec x es cv in
    spanning_tree sort param (length x) t r0 mn = Done (es, r', mn') -> tree_ydata nonpos neg x 2 es = Done ys ->
    length keys = t -> length rows = t ->
    0 < lo -> (forall y z, In y x -> In z x -> y <> z -> lo <= Cmod (y - z)%C <= hi) ->
    (0 < p)%Z -> (2 * hi / lo) ^ (length x - 2) <= Rpower 4 (IZR p) ->
    (rdef = true \/ forall k t0, (k < t)%nat -> -1 < t0 < 1 -> let ye := nth k ys no_ydata in ~ negative_real (SpecTurn.cprod (factors (y_u ye) (y_n1 ye) (length (y_u ye)) t0))) ->
    exists np, (forall k, (k < t)%nat -> exists e r, gc_params fuel (y_u (nth k ys no_ydata)) g p = Done (np k, e, r)) /\
    let order := map snd (qsort (combine keys (seq 0 t))) in
    forall ss, gc_schemes cv 0 (map np order) = Done ss -> Forall2 (fun s n => (n <= s)%Z) ss (map np order) ->
      exists inter s rows' a b, intersection_of_data ys es 2 = Done inter /\ symplectic_reduction xgcd (to_rows inter) g = Done s /\
        SpecSymp.square t (stP s) /\ unimodular t (stP s) /\ congruent t (stP s) (to_rows inter) (stM s) /\ canonical t g (stM s) /\
        tree_moments_gc qsort rdef rturn fuel cv ys p keys rows = Done rows' /\ length a = t /\ length b = t /\
        (forall k, (k < t)%nat -> let ye := nth k ys no_ydata in
          edge_result_gc cv ye (fst (nth k rows' ([], None))) = Done (nth k a []) /\
          edge_integrals x (vget x (ea (nth k es no_edge))) (vget x (eb (nth k es no_edge))) (y_ya ye) (y_yb ye) (sec_g cv) (nth k b [])) /\
        (~ rows_fit (2 * g) (stP s) -> symplectic_basis xgcd (to_rows inter) g 2 = Abort) /\
        (rows_small (2 * g) (stP s) -> exists loops omA omB,
          symplectic_basis xgcd (to_rows inter) g 2 = Done loops /\
          period_matrix cv (map fst loops) a = Done omA /\ length omA = g /\
          period_matrix cv (map snd loops) a = Done omB /\ length omB = g /\
          forall i k, (i < g)%nat -> (k < g)%nat ->
            Cmod (vget (nth i omA []) k - cycle_period b (nth (2 * k) (stP s) []) i)%C
              <= cycle_norm (nth (2 * k) (stP s) []) * (4 * INR (S i) * two_to (d - IZR prec)) /\
            Cmod (vget (nth i omB []) k - cycle_period b (nth (2 * k + 1) (stP s) []) i)%C
              <= cycle_norm (nth (2 * k + 1) (stP s) []) * (4 * INR (S i) * two_to (d - IZR prec))).
Proof.
  intros Key xgcd sort param nonpos neg x cv r0 mn es r' mn' ys qsort keys rows rdef rturn fuel up lg d prec lo hi Hd H3 Hc Hs Ho Hq Hx Hup Hd0 Hlg Hf t g p Et Ey Hk Hr Hlo Hdist Hp Hpow Hneg.
  destruct (curve_counts 2 (length x) cv Hc ltac:(lia)) as (_ & Htn & _). fold t in Htn.
  destruct (tree_final sort param (length x) t r0 mn ltac:(intro; apply (Hs l)) Htn) as (l0 & r1 & mn1 & Et' & Hlen & _).
  rewrite Et in Et'. injection Et' as <- <- <-.
  assert (Hys : length ys = t) by (rewrite <- Hlen; eapply tree_ydata_length; exact Ey).
  assert (HR : forall k, (k < t)%nat -> y_u (nth k ys no_ydata) <> [] /\ within_reach g p (y_u (nth k ys no_ydata))).
  { intros k Hkt. apply (spread_reach nonpos neg sort param x 2 t r0 mn es r' mn' ys g p lo hi Hd H3 ltac:(lia) Htn Hs Ho Et Ey Hlo Hdist Hp Hpow). apply nth_In. lia. }
  set (np := fun k => match gc_params fuel (y_u (nth k ys no_ydata)) g p with Done (N, _, _) => N | _ => 0%Z end).
  assert (HN : forall k, (k < t)%nat -> exists e r, gc_params fuel (y_u (nth k ys no_ydata)) g p = Done (np k, e, r)).
  { intros k Hkt. destruct (HR k Hkt) as [H1 H2]. destruct fuel as [|[|f]]; [lia|lia|].
    destruct (gc_enough f _ g p H1 H2) as (N & e & rr & E & _). exists (Some e), rr. unfold np. rewrite E. reflexivity. }
  exists np. split; [exact HN|]. intros order ss Hss Hen.
  apply (C64_periods_partial Key xgcd sort param nonpos neg x cv r0 mn es r' mn' ys qsort keys rows rdef rturn fuel up lg d prec np ss); try assumption.
  { intro l. apply (Hs l). }
  intros k Hkt u. split; [apply HR, Hkt|]. destruct Hneg as [->|Hneg]; [now left|right]. intros t0 Ht0. now apply (Hneg k t0).
Qed.
Print Assumptions C64_spread_partial.

(** It does for one edge in all cases when there is only one other branch point: cubics. *)
Theorem C77_cubic :
  forall fuel z d prec, (2 <= fuel)%nat -> (0 < prec)%Z -> (1 <= d)%nat -> 1 < half_sum z ->
    exists N e rr, gc_params fuel [z] d prec = Done (N, Some e, rr) /\ (0 < N)%Z /\ 1 < rr /\ avoids rr [z] /\ 0 < e <= 2 * Rpower 2 (- IZR prec).
Proof. intros fuel z d prec Hf Hp Hd Hz. destruct fuel as [|[|fuel]]; [lia|lia|]. apply gc_enough; [discriminate|now apply reach_single]. Qed.
Print Assumptions C77_cubic.

(** It does not for all curves.  For every precision from 8 on there is a polynomial with
    integer coefficients, with the five distinct real roots [x], for which the program aborts
    although no branch point is on an edge: the logarithm of a negative number is taken. *)
Theorem C77_abort_refuted :
  forall prec, (8 <= prec)%Z -> exists p x c t, aj_init 2 p true = Done (c, t) /\ distinct x /\ length x = 5%nat /\ (forall z, poly_at x z = poly_value p z) /\
    forall nonpos neg sort param r mn, qsort_ok sort -> ordered_within (/ 2) half_sum x param ->
    exists es r' mn' ys, spanning_tree sort param 5 (Z.to_nat t) r mn = Done (es, r', mn') /\ tree_ydata nonpos neg x 2 es = Done ys /\
      let w := intprec (fun r => r) log2 prec x es c in (prec < w <= prec + 5)%Z /\
      exists k, (k < length es)%nat /\ (forall z, In z (y_u (nth k ys no_ydata)) -> 1 < half_sum z) /\
      (forall fuel, gc_params (S fuel) (y_u (nth k ys no_ydata)) (Z.to_nat (sec_g c)) w = Abort) /\
      forall (Key : Type) (qsort : list (Key * nat) -> list (Key * nat)) rdef rturn fuel keys rows res, (forall l, Permutation (qsort l) l) -> length keys = length es ->
        tree_moments_gc qsort rdef rturn fuel c ys w keys rows <> Done res.
Proof. exact curve_abort. Qed.
Print Assumptions C77_abort_refuted.

(** And for every precision from 8 on there are five real branch points for which the search,
    with exact numbers, never ends. *)
Theorem C77_endless_refuted :
  forall prec, (8 <= prec)%Z -> exists x cv, distinct x /\ length x = 5%nat /\ sec_init 2 5 = Done cv /\ tree_edges cv = 4%Z /\ sec_g cv = 2%Z /\
    forall nonpos neg sort param r mn, qsort_ok sort -> ordered_within (/ 2) half_sum x param ->
    exists es r' mn' ys k, spanning_tree sort param 5 4 r mn = Done (es, r', mn') /\ tree_ydata nonpos neg x 2 es = Done ys /\
      (k < 4)%nat /\ (forall z, In z (y_u (nth k ys no_ydata)) -> 1 < half_sum z) /\
      (forall fuel, gc_params fuel (y_u (nth k ys no_ydata)) 2 prec = OutOfFuel) /\
      forall (Key : Type) (qsort : list (Key * nat) -> list (Key * nat)) rdef rturn fuel keys rows res, (forall l, Permutation (qsort l) l) -> length keys = 4%nat ->
        tree_moments_gc qsort rdef rturn fuel cv ys prec keys rows <> Done res.
Proof. exact curve_endless. Qed.
Print Assumptions C77_endless_refuted.

(** The weights and sorts asked for exist for all branch points ... *)
Example C77_weights : forall x eps, distinct x -> 0 <= eps -> qsort_ok isort /\ tells_apart x (rank half_sum x) /\ ordered_within eps half_sum x (rank half_sum x).
Proof. intros x eps _ He. split; [exact isort_ok|]. split; [exact (ordered_apart _ _ _ flat_half_sum (rank_ordered _ _))|now apply ordered_to_within, rank_ordered]. Qed.
(** ... and the roots 0, 1, -1, 5, -7 with 16 bits are not spread too widely. *)
Example C77_spread_nonvacuous : let x := [RtoC 0; RtoC 1; RtoC (-1); RtoC 5; RtoC (-7)] in
  distinct x /\ (forall y z, In y x -> In z x -> y <> z -> 1 <= Cmod (y - z)%C <= 12) /\ (2 * 12 / 1) ^ (length x - 2) <= Rpower 4 (IZR 16).
Proof.
  intro x. split.
  { unfold distinct, x. repeat (constructor; [cbn [In]; intro H; repeat (destruct H as [H|H]; [apply RtoC_inj in H; lra|]); exact H|]). constructor. }
  split.
  { intros y z Hy Hz N. unfold x in *. cbn [In] in Hy, Hz.
    repeat (destruct Hy as [<-|Hy]; [repeat (destruct Hz as [<-|Hz]; [try (exfalso; now apply N); rewrite <- RtoC_minus, Cmod_R; unfold Rabs; destruct (Rcase_abs _); lra|]); destruct Hz|]). destruct Hy. }
  replace (IZR 16) with (INR 16) by (cbn; lra). rewrite Rpower_pow by lra. cbn [length x Nat.sub]. simpl. lra.
Qed.
