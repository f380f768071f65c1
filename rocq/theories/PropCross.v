(** C75, C76: the intersection matrix computed for a tree holds the intersection numbers of the
    loops over its edges exactly when the edges do not cross; and the edges can cross.
    [sort] is qsort on the candidate edges, [param] the weights of the edges, [nonpos] and [neg]
    the sign tests on complex balls, [xgcd] FLINT's extended gcd. *)
From Coq Require Import Reals Lra Lia List ZArith Permutation.
From Coquelicot Require Import Coquelicot.
From Verif Require Import CArg ModelTree ModelPeriod ModelSymp ModelInter ModelEdge SpecTree SpecInter SpecSymp SpecEdge SpecDeq SpecCross SpecGc SpecFree ModelDeq ModelCurve
  ProofTreeEx ProofAngle ProofSymp ProofSympEx ProofLat9 ProofFree ProofFree2 ProofCross3 ProofCross4 ProofCross5 ProofFree3 ProofCross6 ProofCross7.
Import ListNotations.
Local Open Scope R_scope.

(** At most one number is the intersection number of two loops. *)
Theorem C75_number_unique :
  forall m x e ya yb Y u e' ya' yb' Y' v N N',
    loop_number m x e ya yb Y u e' ya' yb' Y' v N -> loop_number m x e ya yb Y u e' ya' yb' Y' v N' -> N = N'.
Proof. exact number_unique. Qed.
Print Assumptions C75_number_unique.

(** The matrix is right if no two edges of the tree meet outside their ends.  Missing: edges that
    cross, for which it is wrong. *)
Theorem C75_matrix_partial :
  forall nonpos neg sort param x m n r mn es r' mn' ys c, distinct x -> (3 <= length x)%nat -> (2 <= m)%nat -> (n < length x)%nat -> qsort_ok sort ->
    tells_apart x param ->
    spanning_tree sort param (length x) n r mn = Done (es, r', mn') ->
    tree_ydata nonpos neg x (Z.of_nat m) es = Done ys -> intersection_of_data ys es (Z.of_nat m) = Done c ->
    let ya k := y_ya (nth k ys no_ydata) in let yb k := y_yb (nth k ys no_ydata) in
    edges_apart x es -> forall Y, sheets m x es ya yb Y -> loop_matrix m x es ya yb Y (to_rows c).
Proof. intros * Hd H3 Hm Hn Hs Ho Et Ey Ec ya yb Ha Y _. eapply matrix_right; eassumption. Qed.
Print Assumptions C75_matrix_partial.

(** ... and only then. *)
Theorem C75_right_iff_apart :
  forall nonpos neg sort param x m n r mn es r' mn' ys c, distinct x -> (3 <= length x)%nat -> (2 <= m)%nat -> (n < length x)%nat -> qsort_ok sort ->
    tells_apart x param ->
    spanning_tree sort param (length x) n r mn = Done (es, r', mn') ->
    tree_ydata nonpos neg x (Z.of_nat m) es = Done ys -> intersection_of_data ys es (Z.of_nat m) = Done c ->
    let ya k := y_ya (nth k ys no_ydata) in let yb k := y_yb (nth k ys no_ydata) in
    (exists Y, sheets m x es ya yb Y) /\
    forall Y, sheets m x es ya yb Y -> (loop_matrix m x es ya yb Y (to_rows c) <-> edges_apart x es).
Proof.
  intros * Hd H3 Hm Hn Hs Ho Et Ey Ec ya yb. split; [eapply sheets_exist; eassumption|]. intros Y HY. split; intro H.
  - eapply matrix_wrong; eassumption.
  - eapply matrix_right; eassumption.
Qed.
Print Assumptions C75_right_iff_apart.

(** In particular the matrix is right for all branch points on a line, and for all trees of at
    most two edges. *)
Theorem C75_points_on_a_line :
  forall nonpos neg sort param x m n r mn es r' mn' ys c p d, distinct x -> (3 <= length x)%nat -> (2 <= m)%nat -> (n < length x)%nat -> qsort_ok sort ->
    tells_apart x param ->
    spanning_tree sort param (length x) n r mn = Done (es, r', mn') ->
    tree_ydata nonpos neg x (Z.of_nat m) es = Done ys -> intersection_of_data ys es (Z.of_nat m) = Done c ->
    (d <> RtoC 0 /\ (forall z, In z x -> exists s, z = (p + RtoC s * d)%C)) \/ (n <= 2)%nat ->
    let ya k := y_ya (nth k ys no_ydata) in let yb k := y_yb (nth k ys no_ydata) in
    forall Y, sheets m x es ya yb Y -> loop_matrix m x es ya yb Y (to_rows c).
Proof.
  intros * Hd H3 Hm Hn Hs Ho Et Ey Ec Hl ya yb Y HY. eapply matrix_right; try eassumption. destruct Hl as [[Nd Hl]|H2].
  - eapply line_apart; eassumption.
  - eapply two_apart; eassumption.
Qed.
Print Assumptions C75_points_on_a_line.

(** For 10, 11, -10, -11, 24i, -24i, 100i, m = 2 and the weights of Gauss-Chebychev it is wrong,
    whatever the order of equal weights. *)
Theorem C75_matrix_refuted :
  exists x m n, distinct x /\ (n < length x)%nat /\ forall nonpos neg sort param r mn, qsort_ok sort -> ordered_within (/ 200) half_sum x param ->
    exists es r' mn' ys c, spanning_tree sort param (length x) n r mn = Done (es, r', mn') /\
      tree_ydata nonpos neg x (Z.of_nat m) es = Done ys /\ intersection_of_data ys es (Z.of_nat m) = Done c /\
      let ya k := y_ya (nth k ys no_ydata) in let yb k := y_yb (nth k ys no_ydata) in
      (exists Y, sheets m x es ya yb Y) /\ forall Y, sheets m x es ya yb Y -> ~ loop_matrix m x es ya yb Y (to_rows c).
Proof.
  exists x75, 2%nat, 6%nat. split; [exact x75_distinct|]. split; [cbn; lia|]. intros nonpos neg sort param r mn Hs Ho.
  destruct (tree_final sort param 7 6 r mn (fun l => proj1 (Hs l)) ltac:(lia)) as (es & r' & mn' & Et & Hlen & _).
  destruct (always_computed_final nonpos neg x75 2 sort param 6 r mn es r' mn' x75_distinct ltac:(lia) (fun l => proj1 (Hs l)) ltac:(cbn; lia) Et) as (ys & c & Ey & Ec).
  exists es, r', mn', ys, c. split; [exact Et|]. split; [exact Ey|]. split; [exact Ec|]. cbn zeta.
  destruct (C75_right_iff_apart nonpos neg sort param x75 2 6 r mn es r' mn' ys c x75_distinct ltac:(cbn; lia) ltac:(lia) ltac:(cbn; lia) Hs (x75_apart param Ho) Et Ey Ec) as [H1 H2].
  split; [exact H1|]. intros Y HY HL. apply (H2 Y HY) in HL. destruct (x75_cross sort param r mn es r' mn' Hs Ho Et) as (i & j & Hij & E).
  apply (HL i j 0 0 ltac:(lia) ltac:(lra) ltac:(lra) E).
Qed.
Print Assumptions C75_matrix_refuted.

(** The cycles chosen by the reduction are a canonical basis for the intersection numbers of the
    loops if no two edges meet outside their ends (and if the blocks have the right sign, which is
    so when gcd(m,n) is 1 or m). *)
Theorem C75_basis_partial :
  forall xgcd sort param nonpos neg x m cv r0 mn es r' mn', distinct x -> (3 <= length x)%nat ->
    sec_init (Z.of_nat m) (Z.of_nat (length x)) = Done cv -> qsort_ok sort -> xgcd_ok xgcd ->
    tells_apart x param ->
    let t := Z.to_nat (tree_edges cv) in let g := Z.to_nat (sec_g cv) in let r := (t * (m - 1))%nat in
    spanning_tree sort param (length x) t r0 mn = Done (es, r', mn') ->
    Z.gcd (Z.of_nat m) (Z.of_nat (length x)) = 1%Z \/ Z.gcd (Z.of_nat m) (Z.of_nat (length x)) = Z.of_nat m ->
    edges_apart x es ->
    exists ys inter s, tree_ydata nonpos neg x (Z.of_nat m) es = Done ys /\ intersection_of_data ys es (Z.of_nat m) = Done inter /\
      symplectic_reduction xgcd (to_rows inter) g = Done s /\ unimodular r (stP s) /\
      let ya k := y_ya (nth k ys no_ydata) in let yb k := y_yb (nth k ys no_ydata) in
      forall Y T M, sheets m x es ya yb Y -> loop_matrix m x es ya yb Y T -> congruent r (stP s) T M -> canonical r g M.
Proof.
  intros * Hd H3 Hc Hs Hx Ho t g r Et Hg Ha.
  destruct (curve_reduces xgcd sort param nonpos neg x m cv r0 mn es r' mn' Hd ltac:(lia) Hc (fun l => proj1 (Hs l)) Hx Et) as (ys & inter & s & Ey & Ec & Es & _ & _ & Hu & Hco & _ & _ & _ & Hcan).
  destruct (curve_counts m (length x) cv Hc ltac:(lia)) as (Hm & Htn & _ & Hr & _). fold t g in Htn, Hr, Hu, Hco, Hcan, Es. fold r in Hu, Hco, Hcan.
  exists ys, inter, s. split; [exact Ey|]. split; [exact Ec|]. split; [exact Es|]. split; [exact Hu|]. intros ya yb Y T M HY HT HM.
  assert (Hl : length es = t) by (destruct (tree_facts sort param x t r0 mn es r' mn' Hd H3 Htn Hs Ho Et) as [L _]; exact L).
  assert (Hr' : r = (length es * (m - 1))%nat) by (rewrite Hl; reflexivity). rewrite Hr' in *.
  apply (basis_right m x es ya yb Y (to_rows inter) s g M T Hco (Hcan Hg)); [lia| |exact HT|exact HM].
  eapply (matrix_right nonpos neg sort param x m t r0 mn es r' mn' ys inter); eassumption.
Qed.
Print Assumptions C75_basis_partial.

(** For the seven points, a curve of genus 3, they are not. *)
Theorem C75_basis_refuted :
  exists x m cv, distinct x /\ sec_init (Z.of_nat m) (Z.of_nat (length x)) = Done cv /\
    let t := Z.to_nat (tree_edges cv) in let g := Z.to_nat (sec_g cv) in (g = 3)%nat /\ (t * (m - 1) = 2 * g)%nat /\
    forall xgcd sort param nonpos neg r0 mn, qsort_ok sort -> xgcd_ok xgcd -> ordered_within (/ 200) half_sum x param ->
    exists es r' mn' ys inter s, spanning_tree sort param (length x) t r0 mn = Done (es, r', mn') /\
      tree_ydata nonpos neg x (Z.of_nat m) es = Done ys /\ intersection_of_data ys es (Z.of_nat m) = Done inter /\
      symplectic_reduction xgcd (to_rows inter) g = Done s /\
      let ya k := y_ya (nth k ys no_ydata) in let yb k := y_yb (nth k ys no_ydata) in
      forall Y T M, sheets m x es ya yb Y -> loop_matrix m x es ya yb Y T -> congruent (2 * g) (stP s) T M -> ~ canonical (2 * g) g M.
Proof.
  exists x75, 2%nat. destruct (sec_init (Z.of_nat 2) (Z.of_nat (length x75))) as [cv| | |] eqn:Hc; try discriminate Hc. exists cv. split; [exact x75_distinct|]. split; [reflexivity|].
  assert (Hc' := Hc). vm_compute in Hc'. injection Hc' as Ecv. assert (Et0 : Z.to_nat (tree_edges cv) = 6%nat) by (rewrite <- Ecv; reflexivity). assert (Eg : Z.to_nat (sec_g cv) = 3%nat) by (rewrite <- Ecv; reflexivity).
  cbn zeta. split; [exact Eg|]. split; [rewrite Et0, Eg; reflexivity|]. intros xgcd sort param nonpos neg r0 mn Hs Hx Ho.
  destruct (tree_final sort param 7 6 r0 mn (fun l => proj1 (Hs l)) ltac:(lia)) as (es & r' & mn' & Et & Hlen & _).
  assert (Et' : spanning_tree sort param (length x75) (Z.to_nat (tree_edges cv)) r0 mn = Done (es, r', mn')) by (rewrite Et0; exact Et).
  destruct (curve_reduces xgcd sort param nonpos neg x75 2 cv r0 mn es r' mn' x75_distinct ltac:(cbn; lia) Hc (fun l => proj1 (Hs l)) Hx Et') as (ys & inter & s & Ey & Ec & Es & _ & _ & Hu & Hco & _ & _ & _ & Hcan).
  exists es, r', mn', ys, inter, s. split; [exact Et'|]. split; [exact Ey|]. split; [exact Ec|]. split; [exact Es|]. intros Y T M HY HT HM Hk.
  specialize (Hcan (or_introl eq_refl)). rewrite Et0, Eg in *. change (6 * (2 - 1))%nat with (2 * 3)%nat in *.
  assert (HL := basis_wrong 2 x75 es _ _ Y (to_rows inter) s 3 M T ltac:(rewrite Hlen; reflexivity) Hu Hco Hcan HT HM Hk).
  assert (HA := matrix_wrong nonpos neg sort param x75 2 6 r0 mn es r' mn' ys inter x75_distinct ltac:(cbn; lia) ltac:(lia) ltac:(cbn; lia) Hs (x75_apart param Ho) Et Ey Ec Y HY HL).
  destruct (x75_cross sort param r0 mn es r' mn' Hs Ho Et) as (i & j & Hij & E). apply (HA i j 0 0 ltac:(lia) ltac:(lra) ltac:(lra) E).
Qed.
Print Assumptions C75_basis_refuted.

(** C76: a point common to two edges is an end of both, or they cross there, no end of one being an
    end of the other.  Missing: that they do not cross. *)
Theorem C76_meeting_partial :
  forall sort param x n r mn es r' mn', distinct x -> (3 <= length x)%nat -> (n < length x)%nat -> qsort_ok sort ->
    tells_apart x param ->
    spanning_tree sort param (length x) n r mn = Done (es, r', mn') ->
    forall k l t t', (k < l < length es)%nat -> -1 <= t <= 1 -> -1 <= t' <= 1 ->
    let e := nth k es no_edge in let e' := nth l es no_edge in
    edge_point (vget x (ea e)) (vget x (eb e)) (RtoC t) = edge_point (vget x (ea e')) (vget x (eb e')) (RtoC t') ->
    (exists i, ((t = -1 /\ ea e = i) \/ (t = 1 /\ eb e = i)) /\ ((t' = -1 /\ ea e' = i) \/ (t' = 1 /\ eb e' = i))) \/
    (-1 < t < 1 /\ -1 < t' < 1 /\ turn_sign (vget x (eb e) - vget x (ea e))%C (vget x (eb e') - vget x (ea e'))%C <> 0%Z /\
     ea e <> ea e' /\ ea e <> eb e' /\ eb e <> ea e' /\ eb e <> eb e').
Proof. exact meeting. Qed.
Print Assumptions C76_meeting_partial.

Theorem C76_apart_refuted :
  exists x n, distinct x /\ (n < length x)%nat /\ forall sort param r mn, qsort_ok sort -> ordered_within (/ 200) half_sum x param ->
    exists es r' mn', spanning_tree sort param (length x) n r mn = Done (es, r', mn') /\ ~ edges_apart x es.
Proof.
  exists x75, 6%nat. split; [exact x75_distinct|]. split; [cbn; lia|]. intros sort param r mn Hs Ho.
  destruct (tree_final sort param 7 6 r mn (fun l => proj1 (Hs l)) ltac:(lia)) as (es & r' & mn' & Et & Hlen & _).
  exists es, r', mn'. split; [exact Et|]. intro HL. destruct (x75_cross sort param r mn es r' mn' Hs Ho Et) as (i & j & Hij & E).
  apply (HL i j 0 0 ltac:(lia) ltac:(lra) ltac:(lra) E).
Qed.
Print Assumptions C76_apart_refuted.

(** for all branch points on the real line, all m and both rules, the hypotheses hold *)
Example C75_nonvacuous : forall (s : list R) m nonpos neg, NoDup s -> (3 <= length s)%nat -> (2 <= m)%nat -> let x := map RtoC s in
  exists es r' mn' ys c Y, distinct x /\ qsort_ok isort /\ tells_apart x (rank de_tau x) /\
    spanning_tree isort (rank de_tau x) (length x) (length x - 1) (Some 0%Z) 0 = Done (es, r', mn') /\
    tree_ydata nonpos neg x (Z.of_nat m) es = Done ys /\ intersection_of_data ys es (Z.of_nat m) = Done c /\ edges_apart x es /\
    sheets m x es (fun k => y_ya (nth k ys no_ydata)) (fun k => y_yb (nth k ys no_ydata)) Y.
Proof.
  intros s m nonpos neg Hs H3 Hm x. assert (Lx : length x = length s) by apply map_length.
  assert (Hd : distinct x). { unfold distinct, x. apply FinFun.Injective_map_NoDup; [|exact Hs]. intros a b E. now injection E. }
  destruct (tree_final isort (rank de_tau x) (length x) (length x - 1) (Some 0%Z) 0 isort_perm ltac:(lia)) as (es & r' & mn' & Et & _).
  destruct (always_computed_final nonpos neg x m isort (rank de_tau x) (length x - 1) _ _ es r' mn' Hd Hm isort_perm ltac:(lia) Et) as (ys & c & Ey & Ec).
  assert (Ho : tells_apart x (rank de_tau x)) by (apply (ordered_apart de_tau); [exact flat_tau|apply rank_ordered]).
  destruct (sheets_exist nonpos neg isort (rank de_tau x) x m (length x - 1) _ _ es r' mn' ys c Hd ltac:(lia) Hm ltac:(lia) isort_ok Ho Et Ey) as (Y & HY).
  exists es, r', mn', ys, c, Y. split; [exact Hd|]. split; [exact isort_ok|]. split; [exact Ho|]. split; [exact Et|]. split; [exact Ey|]. split; [exact Ec|]. split; [|exact HY].
  apply (line_apart isort (rank de_tau x) x (length x - 1) _ _ es r' mn' Hd ltac:(lia) ltac:(lia) isort_ok Ho Et (RtoC 0) (RtoC 1)); [intro E; injection E; lra|].
  intros z Hz. apply in_map_iff in Hz. destruct Hz as (a & <- & _). exists a. ring.
Qed.
(** weights as in the refutations exist for all branch points *)
Example C76_weights : forall x eps, 0 <= eps -> qsort_ok isort /\ ordered_within eps half_sum x (rank half_sum x).
Proof. intros x eps He. split; [exact isort_ok|now apply ordered_to_within, rank_ordered]. Qed.
