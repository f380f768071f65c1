(** Seven branch points whose tree, with the weights of Gauss-Chebychev, has two crossing edges. *)
From Coq Require Import Reals Lra Lia List ZArith.
From Coquelicot Require Import Coquelicot.
From Verif Require Import CArg ModelTree ModelPeriod ModelInter ModelEdge SpecTree SpecInter SpecEdge SpecDeq SpecCross SpecGc SpecFree ModelDeq ModelCurve
  ProofTree ProofTreeMax ProofTreeEx ProofAngle ProofFree ProofFree2 ProofDeq3 ProofCross4.
Import ListNotations.
Local Open Scope R_scope.

(** ** an edge heavier than all others across a cut is in the tree *)
Lemma cut_edge l (S : nat -> bool) u v : linked l u v -> S u <> S v -> exists y, In y l /\ S (ea y) <> S (eb y).
Proof.
  induction 1 as [|v w y L IH Hy J]; intro N; [congruence|]. destruct (Bool.bool_dec (S u) (S v)) as [E|E]; [|now apply IH].
  exists y. split; [exact Hy|]. destruct J as [[-> ->]|[-> ->]]; congruence.
Qed.
Lemma exists_third len i j : (3 <= len)%nat -> exists k, In k (seq 0 len) /\ k <> i /\ k <> j.
Proof.
  intro H3. destruct (Nat.eq_dec i 0) as [Ei|Ei], (Nat.eq_dec j 0) as [Ej|Ej], (Nat.eq_dec i 1) as [Ei1|Ei1], (Nat.eq_dec j 1) as [Ej1|Ej1];
    first [exists 0%nat; split; [apply in_seq; lia|lia] | exists 1%nat; split; [apply in_seq; lia|lia] | exists 2%nat; split; [apply in_seq; lia|lia]].
Qed.
Lemma forced_edge eps f sort param x n r mn l r' mn' (S : nat -> bool) i0 j0 : (3 <= length x)%nat -> qsort_ok sort -> Datatypes.S n = length x ->
  ordered_within eps f x param -> spanning_tree sort param (length x) n r mn = Done (l, r', mn') ->
  (i0 < j0 < length x)%nat -> S i0 <> S j0 ->
  (forall i j, (i < j < length x)%nat -> S i <> S j -> (i, j) <> (i0, j0) ->
     exists k, triple x i j k /\ forall k', triple x i0 j0 k' -> f (position x i j k) + eps < f (position x i0 j0 k')) ->
  exists e, In e l /\ joins e i0 j0.
Proof.
  intros H3 Hs Hn (Hp & Ho) Et H0 HS Hlow.
  assert (Hn' : (n < length x)%nat) by lia.
  destruct (tree_final sort param (length x) n r mn (fun l => proj1 (Hs l)) Hn') as (l0 & r1 & mn1 & Et' & Hlen & Hgr & _ & _ & Hto & Hall).
  rewrite Et in Et'. injection Et' as <- <- <-. specialize (Hall ltac:(lia) Hn).
  destruct (param_loop_first (param i0 j0) i0 j0 (seq 0 (length x)) (fun k _ _ _ => Hp i0 j0 k) (exists_third _ _ _ H3)) as (z & Ez & Hz & Hmin & k0 & Hk0 & K1 & K2 & Ek0).
  assert (Hnum : forall y, In y (edges_init param (length x)) -> is_number (er y)).
  { intros y Hy. apply edges_init_in in Hy. destruct Hy as (Hy & Ey). rewrite Ey.
    destruct (param_loop_first (param (ea y) (eb y)) (ea y) (eb y) (seq 0 (length x)) (fun k _ _ _ => Hp _ _ k) (exists_third _ _ _ H3)) as (w & Ew & _).
    unfold param_edge. rewrite Ew. discriminate. }
  assert (Hlk : linked (heavy z (edges_init param (length x))) i0 j0).
  { apply (linked_one _ {| er := Some z; ea := i0; eb := j0 |}); [|left; split; reflexivity]. apply filter_In. split; [|cbn [er]; apply Z.leb_refl].
    apply edges_init_in. cbn [ea eb er]. split; [lia|]. symmetry. exact Ez. }
  assert (HL := tree_max_final sort param (length x) n r mn l r' mn' z Hs Hn' Hnum Et i0 j0 (Hall i0 ltac:(lia)) (Hall j0 ltac:(lia)) Hlk).
  destruct (cut_edge _ S _ _ HL HS) as (y & Hy & Sy). apply filter_In in Hy. destruct Hy as [Hy Wy]. exists y. split; [exact Hy|].
  assert (Ya : (ea y < length x)%nat) by (apply Hto; exists y; split; [exact Hy|now left]). assert (Yb : (eb y < length x)%nat) by (apply Hto; exists y; split; [exact Hy|now right]).
  assert (Yn : ea y <> eb y) by (intro E; apply Sy; now rewrite E).
  rewrite (tree_weights sort param (length x) n r mn l r' mn' (fun l => proj1 (Hs l)) Hn' Et y Hy) in Wy.
  set (i := Nat.min (ea y) (eb y)) in *. set (j := Nat.max (ea y) (eb y)) in *. assert (Hij : (i < j < length x)%nat) by (unfold i, j; lia).
  assert (Sij : S i <> S j). { unfold i, j. destruct (Nat.lt_ge_cases (ea y) (eb y)); [rewrite Nat.min_l, Nat.max_r by lia; exact Sy|rewrite Nat.min_r, Nat.max_l by lia; congruence]. }
  assert (D0 : (i = i0 /\ j = j0) \/ (i, j) <> (i0, j0)).
  { destruct (Nat.eq_dec i i0), (Nat.eq_dec j j0); [now left|right; congruence..]. }
  destruct D0 as [[Ei Ej]|Np].
  - unfold joins. unfold i, j in Ei, Ej. lia.
  - exfalso.
    destruct (Hlow i j Hij Sij Np) as (k & Tk & Hlt).
    destruct (param_loop_first (param i j) i j (seq 0 (length x)) (fun k _ _ _ => Hp i j k) (exists_third _ _ _ H3)) as (w & Ew & _ & Hw & _).
    destruct (Hp i j k) as (v & Ev & _). assert (Tk0 : triple x i0 j0 k0) by (apply in_seq in Hk0; repeat split; lia).
    assert (D : dlt (param i j k) (param i0 j0 k0) = true) by (apply Ho; [exact Tk|exact Tk0|now apply Hlt]). rewrite Ev, Ek0 in D. cbn [dlt] in D. apply Z.ltb_lt in D.
    destruct Tk as (T1 & T2 & T3 & T4 & T5 & T6). assert (W := Hw k v ltac:(apply in_seq; lia) T5 T6 Ev). unfold param_edge in Wy. rewrite Ew in Wy. apply Z.leb_le in Wy. lia.
Qed.

(** ** the points *)
Definition x75 : list C := [(10, 0); (11, 0); (-10, 0); (-11, 0); (0, 24); (0, -24); (0, 100)].
Lemma x75_distinct : distinct x75.
Proof. unfold distinct, x75. repeat (constructor; [cbn [In]; intro H; repeat (destruct H as [H|H]; [injection H; lra|]); exact H|]). constructor. Qed.
Lemma half_sum_position x i j k : vget x j <> vget x i ->
  half_sum (position x i j k) = (Cmod (vget x k - vget x j)%C + Cmod (vget x k - vget x i)%C) / Cmod (vget x j - vget x i)%C.
Proof.
  intro N. set (a := vget x i) in *. set (b := vget x j) in *. set (z := vget x k).
  assert (Nd : (b - a)%C <> RtoC 0) by (intro X; apply N; transitivity (a + (b - a))%C; [ring|rewrite X; ring]). assert (P := proj1 (Cmod_gt_0 _) Nd).
  unfold half_sum, position. fold a b z.
  assert (E1 : ((RtoC 2 * z - (b + a)) / (b - a) - RtoC 1)%C = (RtoC 2 * ((z - b) / (b - a)))%C).
  { rewrite ProofCross2.two_C. field. exact Nd. }
  assert (E2 : ((RtoC 2 * z - (b + a)) / (b - a) + RtoC 1)%C = (RtoC 2 * ((z - a) / (b - a)))%C).
  { rewrite ProofCross2.two_C. field. exact Nd. }
  rewrite E1, E2, !Cmod_mult, !Cmod_div, Cmod_R, Rabs_pos_eq by (lra || exact Nd). field. lra.
Qed.
Lemma dist_le p q r s d : 0 <= d -> (p - r) * (p - r) + (q - s) * (q - s) <= d * d -> Cmod ((p, q) - (r, s))%C <= d.
Proof. intros Hd H. unfold Cmod. cbn. rewrite <- (sqrt_square d Hd). apply sqrt_le_1_alt. lra. Qed.
Lemma dist_ge p q r s d : 0 <= d -> d * d <= (p - r) * (p - r) + (q - s) * (q - s) -> d <= Cmod ((p, q) - (r, s))%C.
Proof. intros Hd H. unfold Cmod. cbn. rewrite <- (sqrt_square d Hd) at 1. apply sqrt_le_1_alt. lra. Qed.
Lemma hs_low x i j k d1 d2 d3 w : vget x j <> vget x i -> 0 < d3 -> Cmod (vget x k - vget x j)%C <= d1 -> Cmod (vget x k - vget x i)%C <= d2 -> d3 <= Cmod (vget x j - vget x i)%C ->
  0 < w -> d1 + d2 < w * d3 -> half_sum (position x i j k) < w.
Proof.
  intros N H3 H1 H2 H H0 Hw. rewrite half_sum_position by exact N. set (D := Cmod (vget x j - vget x i)%C) in *. apply (Rmult_lt_reg_r D); [lra|]. unfold Rdiv. rewrite Rmult_assoc, Rinv_l by lra. assert (w * d3 <= w * D) by (apply Rmult_le_compat_l; lra). lra.
Qed.
Lemma hs_high x i j k d1 d2 d3 w : vget x j <> vget x i -> 0 < d3 -> d1 <= Cmod (vget x k - vget x j)%C -> d2 <= Cmod (vget x k - vget x i)%C -> Cmod (vget x j - vget x i)%C <= d3 ->
  0 < w -> w * d3 <= d1 + d2 -> w <= half_sum (position x i j k).
Proof.
  intros N H3 H1 H2 H H0 Hw. rewrite half_sum_position by exact N.
  assert (P : 0 < Cmod (vget x j - vget x i)%C) by (apply Cmod_gt_0; intro X; apply N; transitivity (vget x i + (vget x j - vget x i))%C; [ring|rewrite X; ring]).
  set (D := Cmod (vget x j - vget x i)%C) in *. apply (Rmult_le_reg_r D); [lra|]. unfold Rdiv. rewrite Rmult_assoc, Rinv_l by lra. assert (w * D <= w * d3) by (apply Rmult_le_compat_l; lra). lra.
Qed.
Ltac pts := unfold vget, x75; cbn [nth].
Ltac ne := pts; let E := fresh in intro E; injection E; lra.
Ltac low d1 d2 d3 := apply (hs_low x75 _ _ _ d1 d2 d3); [ne|lra|pts; apply dist_le; lra|pts; apply dist_le; lra|pts; apply dist_ge; lra|lra|lra].
Ltac high d1 d2 d3 := apply (hs_high x75 _ _ _ d1 d2 d3); [ne|lra|pts; apply dist_ge; lra|pts; apply dist_ge; lra|pts; apply dist_le; lra|lra|lra].
Ltac tri := repeat split; cbn [length x75]; lia.
Lemma weight_a k : triple x75 0 2 k -> 11 / 10 <= half_sum (position x75 0 2 k).
Proof.
  intros (_ & _ & H & _ & N0 & N2). cbn [length x75] in H. destruct k as [|[|[|[|[|[|[|k]]]]]]]; try lia.
  - high 21 1 20.
  - high 1 21 20.
  - high 26 26 20.
  - high 26 26 20.
  - high 100 100 20.
Qed.
Lemma weight_b k : triple x75 4 5 k -> 13 / 12 <= half_sum (position x75 4 5 k).
Proof.
  intros (_ & _ & H & _ & N0 & N2). cbn [length x75] in H. destruct k as [|[|[|[|[|[|[|k]]]]]]]; try lia.
  - high 26 26 48.
  - high 26 26 48.
  - high 26 26 48.
  - high 26 26 48.
  - high 124 76 48.
Qed.
Definition cut_a (i : nat) : bool := match i with 0 | 1 => true | _ => false end%nat.
Definition cut_b (i : nat) : bool := match i with 5 => true | _ => false end%nat.
Lemma across_a i j : (i < j < 7)%nat -> cut_a i <> cut_a j -> (i, j) <> (0, 2)%nat ->
  exists k, triple x75 i j k /\ half_sum (position x75 i j k) < 108 / 100.
Proof.
  intros Hij HS HN.
  destruct i as [|[|[|[|[|[|[|i]]]]]]]; try lia; destruct j as [|[|[|[|[|[|[|j]]]]]]]; try lia; cbn [cut_a] in HS; try (exfalso; now apply HS); try (exfalso; now apply HN).
  - exists 2%nat. split; [tri|low 1 20 21].
  - exists 1%nat. split; [tri|low 27 1 26].
  - exists 1%nat. split; [tri|low 27 1 26].
  - exists 1%nat. split; [tri|low 101 1 100].
  - exists 0%nat. split; [tri|low 20 1 21].
  - exists 0%nat. split; [tri|low 21 1 22].
  - exists 0%nat. split; [tri|low 26 1 26].
  - exists 0%nat. split; [tri|low 26 1 26].
  - exists 0%nat. split; [tri|low 101 1 100].
Qed.
Lemma across_b i j : (i < j < 7)%nat -> cut_b i <> cut_b j -> (i, j) <> (4, 5)%nat ->
  exists k, triple x75 i j k /\ half_sum (position x75 i j k) < 106 / 100.
Proof.
  intros Hij HS HN.
  destruct i as [|[|[|[|[|[|[|i]]]]]]]; try lia; destruct j as [|[|[|[|[|[|[|j]]]]]]]; try lia; cbn [cut_b] in HS; try (exfalso; now apply HS); try (exfalso; now apply HN).
  - exists 1%nat. split; [tri|low (265 / 10) 1 26].
  - exists 0%nat. split; [tri|low 26 1 26].
  - exists 3%nat. split; [tri|low (265 / 10) 1 26].
  - exists 2%nat. split; [tri|low 26 1 26].
  - exists 4%nat. split; [tri|low 76 48 124].
Qed.

Theorem x75_edges sort param r mn l r' mn' : qsort_ok sort -> ordered_within (/ 200) half_sum x75 param -> spanning_tree sort param 7 6 r mn = Done (l, r', mn') ->
  exists e e', In e l /\ In e' l /\ joins e 0 2 /\ joins e' 4 5.
Proof.
  intros Hs Ho Et.
  destruct (forced_edge (/ 200) half_sum sort param x75 6 r mn l r' mn' cut_a 0 2) as (e & He & Je); try assumption; try reflexivity; try (cbn; lia); try discriminate.
  { intros i j Hij HS HN. destruct (across_a i j Hij HS HN) as (k & Tk & Hk). exists k. split; [exact Tk|]. intros k' Hk'. apply weight_a in Hk'. lra. }
  destruct (forced_edge (/ 200) half_sum sort param x75 6 r mn l r' mn' cut_b 4 5) as (e' & He' & Je'); try assumption; try reflexivity; try (cbn; lia); try discriminate.
  { intros i j Hij HS HN. destruct (across_b i j Hij HS HN) as (k & Tk & Hk). exists k. split; [exact Tk|]. intros k' Hk'. apply weight_b in Hk'. lra. }
  exists e, e'. auto.
Qed.
Lemma middle a b : edge_point a b (RtoC 0) = ((a + b) / RtoC 2)%C.
Proof. unfold edge_point. rewrite Cmult_0_r, Cplus_0_l. reflexivity. Qed.
Theorem x75_cross sort param r mn l r' mn' : qsort_ok sort -> ordered_within (/ 200) half_sum x75 param -> spanning_tree sort param 7 6 r mn = Done (l, r', mn') ->
  exists i j, (i < j < 6)%nat /\
    edge_point (vget x75 (ea (nth i l no_edge))) (vget x75 (eb (nth i l no_edge))) (RtoC 0) = edge_point (vget x75 (ea (nth j l no_edge))) (vget x75 (eb (nth j l no_edge))) (RtoC 0).
Proof.
  intros Hs Ho Et. destruct (x75_edges _ _ _ _ _ _ _ Hs Ho Et) as (e & e' & He & He' & Je & Je').
  destruct (tree_final sort param 7 6 r mn (fun l => proj1 (Hs l)) ltac:(lia)) as (l0 & r1 & mn1 & Et' & Hlen & _).
  rewrite Et in Et'. injection Et' as <- <- <-.
  apply (In_nth l _ no_edge) in He. destruct He as (i & Hi & Ei). apply (In_nth l _ no_edge) in He'. destruct He' as (j & Hj & Ej).
  assert (Pe : edge_point (vget x75 (ea e)) (vget x75 (eb e)) (RtoC 0) = RtoC 0).
  { rewrite middle. destruct Je as [[-> ->]|[-> ->]]; pts; apply injective_projections; cbn; field. }
  assert (Pe' : edge_point (vget x75 (ea e')) (vget x75 (eb e')) (RtoC 0) = RtoC 0).
  { rewrite middle. destruct Je' as [[-> ->]|[-> ->]]; pts; apply injective_projections; cbn; field. }
  destruct (Nat.lt_total i j) as [L|[L|L]].
  - exists i, j. split; [lia|]. now rewrite Ei, Ej, Pe, Pe'.
  - exfalso. subst j. rewrite Ei in Ej. subst e'. unfold joins in *. lia.
  - exists j, i. split; [lia|]. now rewrite Ei, Ej, Pe, Pe'.
Qed.
