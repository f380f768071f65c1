(** Hyperelliptic curves: from the branch points to the period matrices. *)
From Coq Require Import Reals Lra Lia List.
From Coquelicot Require Import Coquelicot.
From Verif Require Import CArg ModelTree SpecTree ProofTree ProofTreeEx ModelInter ModelCurve ProofCurve ModelSymp SpecSymp ProofSymp ProofSympMain ModelBasis SpecBasis
  ModelPeriod SpecPeriod ProofPeriod ProofPeriodMain ModelVec SpecVec ProofVec ModelQuad SpecQuad ModelCache SpecCache ProofCache SpecInter ModelEdge SpecEdge ProofEdge ProofAngle
  ModelTurn SpecTurn ProofTurn ModelGc SpecGc ProofGc ModelErr SpecErr ModelExtra SpecExtra ProofQuad ProofGauss ProofExtra ProofErr1 ProofErr3 ProofErr4 ProofErr5 ProofErr6 ProofLat9 SpecHyp.
Import ListNotations.
Local Open Scope R_scope.

Lemma cycle_norm_sum row : cycle_norm row = rsum (length row) (fun p => Rabs (IZR (nth p row 0%Z))).
Proof.
  induction row as [|x row IH]; [reflexivity|]. cbn [length]. rewrite rsum_S_l. cbn [nth]. rewrite <- IH. reflexivity.
Qed.
Lemma cycle_norm_pos row : 0 <= cycle_norm row.
Proof. rewrite cycle_norm_sum. apply rsum_pos. intros. apply Rabs_pos. Qed.

Lemma cycle_period_close a b row i eps : (forall p, (p < length row)%nat -> Cmod (vget (nth p a []) i - vget (nth p b []) i)%C <= eps) ->
  Cmod (cycle_period a row i - cycle_period b row i)%C <= cycle_norm row * eps.
Proof.
  intro H. rewrite cycle_norm_sum.
  assert (E : (cycle_period a row i - cycle_period b row i)%C = csum (length row) (fun p => (ZC (nth p row 0%Z) * (vget (nth p a []) i - vget (nth p b []) i))%C)).
  { unfold cycle_period. transitivity (csum (length row) (fun p => ZC (nth p row 0%Z) * vget (nth p a []) i + (- RtoC 1) * (ZC (nth p row 0%Z) * vget (nth p b []) i))%C).
    - rewrite csum_add, csum_scal. match goal with |- (?a - ?b)%C = (?c + _ * ?d)%C => change c with a; change d with b; generalize a b end. intros. ring.
    - apply csum_ext. intros. ring. }
  rewrite E. eapply Rle_trans; [apply csum_mod|]. rewrite Rmult_comm, <- rsum_scal. apply rsum_le. intros p Hp.
  rewrite Cmod_mult. unfold ZC. rewrite Cmod_R. rewrite (Rmult_comm eps). apply Rmult_le_compat_l; [apply Rabs_pos|]. now apply H.
Qed.

Lemma row_period_2 c a row coord j : sec_m c = 2%Z -> row_period c a row j coord = cycle_period a row coord.
Proof.
  intro Em. unfold row_period, cycle_period. rewrite Em. apply csum_ext. intros p Hp.
  replace (2 - 1)%Z with 1%Z by lia. rewrite Z.mod_1_r, Z.div_1_r, Nat2Z.id. change (- (0 * j))%Z with 0%Z. rewrite root_0. ring.
Qed.

Lemma rows_choice n (P : nat -> vec -> Prop) : (forall l, (l < n)%nat -> exists I, P l I) ->
  exists w : cmat, length w = n /\ forall l, (l < n)%nat -> P l (nth l w []).
Proof.
  induction n as [|n IH]; intro H.
  - exists []. split; [reflexivity|]. intros l Hl. lia.
  - destruct IH as (w & HL & Hw); [intros l Hl; apply H; lia|]. destruct (H n ltac:(lia)) as (I & HI).
    exists (w ++ [I]). split; [rewrite app_length; cbn; lia|]. intros l Hl.
    destruct (Nat.eq_dec l n) as [->|Hne].
    + rewrite app_nth2 by lia. rewrite HL, Nat.sub_diag. exact HI.
    + rewrite app_nth1 by lia. apply Hw. lia.
Qed.

Section Hyper.
Context {Key : Type} (qsort : list (Key * nat) -> list (Key * nat)) (rdef rturn : bool) (fuel : nat)
  (up lg : R -> R) (d : R) (prec : Z) (nonpos neg : edge -> C -> bool) (x : list C) (c : sec) (es : list edge) (ys : list ydata)
  (keys : list Key) (rows : list (vec * option R)).
Let p := intprec up lg prec x es c.
Hypothesis (Hq : forall l, Permutation (qsort l) l) (Hup : rounds_up up) (Hd : 0 <= d) (Hlg : log2_within lg d) (Hf : (2 <= fuel)%nat)
  (Hc : sec_init 2 (Z.of_nat (length x)) = Done c) (Hn : (3 <= length x)%nat) (Hes : edges_of x es)
  (Hys : tree_ydata nonpos neg x 2 es = Done ys) (Hkeys : length keys = length es) (Hrows : length rows = length es)
  (Hpt : forall k, (k < length es)%nat -> let u := y_u (nth k ys no_ydata) in
    within_reach (Z.to_nat (sec_g c)) p u /\
    (rdef = true \/ forall t, -1 < t < 1 -> ~ negative_real (SpecTurn.cprod (factors u (y_n1 (nth k ys no_ydata)) (length u) t)))).

(** the numbers of points asked for are those of [gc_params]; the scheme kept has enough of them *)
Lemma tree_integrals (np : nat -> Z) ss :
  (forall k, (k < length es)%nat -> exists e r, gc_params fuel (y_u (nth k ys no_ydata)) (Z.to_nat (sec_g c)) p = Done (np k, e, r)) ->
  let order := map snd (qsort (combine keys (seq 0 (length keys)))) in
  gc_schemes c 0 (map np order) = Done ss -> Forall2 (fun s n => (n <= s)%Z) ss (map np order) ->
  exists rows' a b, tree_moments_gc qsort rdef rturn fuel c ys p keys rows = Done rows' /\
    length a = length es /\ length b = length es /\
    (forall row, In row a -> Z.of_nat (length row) = sec_g c) /\
    forall k, (k < length es)%nat -> let ye := nth k ys no_ydata in
      edge_result_gc c ye (fst (nth k rows' ([], None))) = Done (nth k a []) /\
      edge_integrals x (vget x (ea (nth k es no_edge))) (vget x (eb (nth k es no_edge))) (y_ya ye) (y_yb ye) (sec_g c) (nth k b []) /\
      forall i, (Z.of_nat i < sec_g c)%Z -> Cmod (vget (nth k a []) i - vget (nth k b []) i)%C <= 4 * INR (S i) * two_to (d - IZR prec).
Proof using Hq Hup Hd Hlg Hf Hc Hn Hes Hys Hkeys Hrows Hpt.
  intros Hnp order Hss Hen. destruct (hyper_shape _ c Hc ltac:(lia)) as (Hg & En & Ej & Eni).
  assert (Hfield : forall k, (k < length es)%nat -> y_u (nth k ys no_ydata) <> []).
  { intros k Hk. destruct (Hes (nth k es no_edge) (nth_In es no_edge Hk)) as (A1 & A2 & A3).
    destruct (edge_fields _ _ x (ea (nth k es no_edge)) (eb (nth k es no_edge)) (Z.of_nat (length x)) (nth k ys no_ydata)
      ltac:(lia) eq_refl A1 A2 A3 (tree_ydata_nth nonpos neg x 2 es ys k Hys Hk)) as (HL & _).
    intro E. rewrite E in HL. cbn in HL. lia. }
  assert (Hpar : forall k, (k < length es)%nat -> exists e r, gc_params fuel (y_u (nth k ys no_ydata)) (Z.to_nat (sec_g c)) p = Done (np k, Some e, r) /\
    (0 < np k)%Z /\ avoids r (y_u (nth k ys no_ydata)) /\ 0 < e <= 2 * Rpower 2 (- IZR p)).
  { intros k Hk. destruct fuel as [|[|f]]; [lia|lia|].
    destruct (gc_enough f (y_u (nth k ys no_ydata)) (Z.to_nat (sec_g c)) p (Hfield k Hk) (proj1 (Hpt k Hk))) as (n & e & r & H1 & H2 & H3 & H4 & H5).
    destruct (Hnp k Hk) as (e' & r' & E'). rewrite E' in H1. injection H1 as E1 -> ->. rewrite E1 in E' |- *.
    exists e, r. split; [exact E'|]. split; [exact H2|]. split; [exact H4|exact H5]. }
  set (gp := fun k => gc_params fuel (y_u (nth k ys no_ydata)) (Z.to_nat (sec_g c)) p).
  set (ef := fun k => match gp k with Done (_, e, _) => e | _ => None end).
  set (rf := fun k => match gp k with Done (_, _, r) => r | _ => 0 end).
  destruct (tree_gc qsort rdef rturn fuel (Z.of_nat (length x)) c x es nonpos neg ys p keys rows np ef rf ss Hq Hc ltac:(lia) eq_refl Hes Hys Hkeys Hrows)
    as (rows' & E & HL & Hk).
  - intros k Hk u. destruct (Hpar k Hk) as (e & r & H1 & H2 & H3 & _). unfold ef, rf, gp. rewrite H1.
    split; [exact H1|]. split; [exact H3|]. split; [exact H2|]. exact (proj2 (Hpt k Hk)).
  - exact Hss.
  - exact Hen.
  - destruct (rows_choice (length es) (fun k a => exists b, edge_result_gc c (nth k ys no_ydata) (fst (nth k rows' ([], None))) = Done a /\
        Z.of_nat (length a) = sec_g c /\
        edge_integrals x (vget x (ea (nth k es no_edge))) (vget x (eb (nth k es no_edge))) (y_ya (nth k ys no_ydata)) (y_yb (nth k ys no_ydata)) (sec_g c) b /\
        forall i, (Z.of_nat i < sec_g c)%Z -> Cmod (vget a i - vget b i)%C <= 4 * INR (S i) * two_to (d - IZR prec))) as (a & HLa & Ha).
    { intros k Hk'. destruct (Hk k Hk') as (v & e' & w & w' & B1 & B2 & Lv & (L1 & L2) & B5 & B6).
      destruct (Hpar k Hk') as (e & r & H1 & _ & _ & H4). unfold ef, gp in B2. rewrite H1 in B2. injection B2 as <-.
      assert (Hin : In (nth k es no_edge) es) by (apply nth_In; exact Hk').
      assert (Eye := tree_ydata_nth nonpos neg x 2 es ys k Hys Hk').
      assert (Lw : Z.of_nat (length w) = sec_g c) by lia.
      destruct (precision_final up lg d prec 2 (Z.of_nat (length x)) c x es (nth k es no_edge) _ _ (nth k ys no_ydata) v w 2
        Hup Hd Hlg Hc ltac:(lia) eq_refl Hes Hin Eye ltac:(lia) Lw ltac:(lra)) as (v' & w2 & C1 & C2 & C3).
      { intro l. fold p. destruct (Nat.lt_ge_cases l (length v)) as [Lk|Lk].
        - eapply Rle_trans; [apply L2, Lk|]. unfold two_to. apply H4.
        - unfold vget. rewrite !nth_overflow by lia. replace (RtoC 0 - RtoC 0)%C with (RtoC 0) by ring. rewrite Cmod_0.
          apply Rmult_le_pos; [lra|]. unfold two_to. left. apply exp_pos. }
      unfold edge_result_gc in B5. assert (w2 = w') by congruence. subst w2.
      destruct (edge_factors_vec 2 (Z.of_nat (length x)) c v (y_ba2 (nth k ys no_ydata)) (y_ab (nth k ys no_ydata)) (y_c (nth k ys no_ydata)) Hc ltac:(lia) ltac:(lia))
        as (v2 & D1 & D2 & _). assert (v2 = v') by congruence. subst v2.
      exists v', w'. rewrite B1. cbn [fst]. split; [exact C1|]. split; [lia|]. split; [exact B6|].
      intros i Hi. specialize (C3 0%nat i). rewrite Eni in C3. specialize (C3 ltac:(cbn; lia) Hi).
      change (offset [sec_g c] 0) with 0%nat in C3. rewrite !Nat.add_0_l in C3. lra. }
    destruct (rows_choice (length es) (fun k b => 
        edge_integrals x (vget x (ea (nth k es no_edge))) (vget x (eb (nth k es no_edge))) (y_ya (nth k ys no_ydata)) (y_yb (nth k ys no_ydata)) (sec_g c) b /\
        forall i, (Z.of_nat i < sec_g c)%Z -> Cmod (vget (nth k a []) i - vget b i)%C <= 4 * INR (S i) * two_to (d - IZR prec))) as (b & HLb & Hb).
    { intros k Hk'. destruct (Ha k Hk') as (b & _ & _ & H). exists b. exact H. }
    exists rows', a, b. split; [exact E|]. split; [exact HLa|]. split; [exact HLb|]. split.
    + intros row Hr. destruct (In_nth a row [] Hr) as (k & Hk' & <-). rewrite HLa in Hk'. destruct (Ha k Hk') as (_ & _ & H & _). exact H.
    + intros k Hk' ye. destruct (Ha k Hk') as (_ & H1 & _). destruct (Hb k Hk') as (H2 & H3).
      split; [exact H1|]. split; [exact H2|exact H3].
Qed.
End Hyper.

Lemma hyper_periods {Key : Type} xgcd sort param nonpos neg x cv r0 mn es r' mn' ys
  (qsort : list (Key * nat) -> list (Key * nat)) keys (rows : list (vec * option R)) rdef rturn fuel up lg d prec (np : nat -> Z) ss :
  distinct x -> (3 <= length x)%nat -> sec_init 2 (Z.of_nat (length x)) = Done cv ->
  (forall l, Permutation l (sort l)) -> (forall l, Permutation (qsort l) l) -> xgcd_ok xgcd ->
  rounds_up up -> 0 <= d -> log2_within lg d -> (2 <= fuel)%nat ->
  let t := Z.to_nat (tree_edges cv) in let g := Z.to_nat (sec_g cv) in let p := intprec up lg prec x es cv in
  spanning_tree sort param (length x) t r0 mn = Done (es, r', mn') -> tree_ydata nonpos neg x 2 es = Done ys ->
  length keys = t -> length rows = t ->
  (forall k, (k < t)%nat -> let u := y_u (nth k ys no_ydata) in
    within_reach g p u /\
    (rdef = true \/ forall t, -1 < t < 1 -> ~ negative_real (SpecTurn.cprod (factors u (y_n1 (nth k ys no_ydata)) (length u) t)))) ->
  (forall k, (k < t)%nat -> exists e r, gc_params fuel (y_u (nth k ys no_ydata)) g p = Done (np k, e, r)) ->
  let order := map snd (qsort (combine keys (seq 0 t))) in
  gc_schemes cv 0 (map np order) = Done ss -> Forall2 (fun s n => (n <= s)%Z) ss (map np order) ->
  exists inter s rows' a b, intersection_of_data ys es 2 = Done inter /\ symplectic_reduction xgcd (to_rows inter) g = Done s /\
    SpecSymp.square t (stP s) /\ unimodular t (stP s) /\ congruent t (stP s) (to_rows inter) (stM s) /\ canonical t g (stM s) /\
    tree_moments_gc qsort rdef rturn fuel cv ys p keys rows = Done rows' /\ length a = t /\ length b = t /\
    (forall k, (k < t)%nat -> let ye := nth k ys no_ydata in
      edge_result_gc cv ye (fst (nth k rows' ([], None))) = Done (nth k a []) /\
      edge_integrals x (vget x (ea (nth k es no_edge))) (vget x (eb (nth k es no_edge))) (y_ya ye) (y_yb ye) (sec_g cv) (nth k b [])) /\
    (~ rows_fit (2 * g) (stP s) -> symplectic_basis xgcd (to_rows inter) g 2 = Abort) /\
    (rows_small (2 * g) (stP s) -> exists loops omA omB,
      symplectic_basis xgcd (to_rows inter) g 2 = Done loops /\
      period_matrix cv (map fst loops) a = Done omA /\ length omA = g /\
      period_matrix cv (map snd loops) a = Done omB /\ length omB = g /\
      forall i k, (i < g)%nat -> (k < g)%nat ->
        Cmod (vget (nth i omA []) k - cycle_period b (nth (2 * k) (stP s) []) i)%C
          <= cycle_norm (nth (2 * k) (stP s) []) * (4 * INR (S i) * two_to (d - IZR prec)) /\
        Cmod (vget (nth i omB []) k - cycle_period b (nth (2 * k + 1) (stP s) []) i)%C
          <= cycle_norm (nth (2 * k + 1) (stP s) []) * (4 * INR (S i) * two_to (d - IZR prec))).
Proof.
  intros Hdi Hn Hc Hs Hq Hx Hup Hd Hlg Hf t g p Et Ey Hkeys Hrows Hpt Hnp order Hss Hen.
  destruct (curve_counts 2 (length x) cv Hc ltac:(lia)) as (Hm & Htn & _ & Hr & Hg1). fold t g in Htn, Hr, Hg1.
  destruct (tree_final sort param (length x) t r0 mn Hs Htn) as (l0 & r1 & mn1 & Et' & Hlen & Hgr & _ & _ & Hto & _).
  rewrite Et in Et'. injection Et' as <- <- <-.
  assert (Hes : edges_of x es).
  { intros e He. destruct (growing_edges es (length x) Hgr Hto e He) as (A1 & A2 & A3). split; [exact A1|]. split; [exact A2|].
    intro E. apply A3. apply (proj1 (NoDup_nth x (RtoC 0)) Hdi); [exact A1|exact A2|exact E]. }
  destruct (tree_integrals qsort rdef rturn fuel up lg d prec nonpos neg x cv es ys keys rows Hq Hup Hd Hlg Hf Hc Hn Hes Ey) with (np := np) (ss := ss)
    as (rows' & a & b & E1 & La & Lb & Ra & Hk).
  { lia. } { lia. } { rewrite Hlen. exact Hpt. } { rewrite Hlen. exact Hnp. } { rewrite Hkeys. exact Hss. } { rewrite Hkeys. exact Hen. }
  fold p in E1. rewrite Hlen in *.
  destruct (curve_reduces xgcd sort param nonpos neg x 2 cv r0 mn es r' mn' Hdi ltac:(lia) Hc Hs Hx Et)
    as (ys' & inter & s & H1 & H2 & H3 & HS & HA & HU & HC & _ & _ & _ & Hcan).
  change (Z.of_nat 2) with 2%Z in *. rewrite Ey in H1. injection H1 as <-. fold t g in H3, HS, HA, HU, HC, Hcan.
  replace (t * (2 - 1))%nat with t in * by lia.
  destruct (reduction_congruence t _ g xgcd s Hx HS HA H3) as (HP & _).
  destruct (curve_periods xgcd sort param nonpos neg x 2 cv r0 mn es r' mn' a Hdi ltac:(lia) Hc Hs Hx Et) as (ys2 & inter2 & s2 & K1 & K2 & K3 & K4 & K5).
  { split; [exact La|exact Ra]. }
  change (Z.of_nat 2) with 2%Z in *. rewrite Ey in K1. injection K1 as <-. rewrite H2 in K2. injection K2 as <-. fold g in K3, K4, K5. rewrite H3 in K3. injection K3 as <-.
  destruct (hyper_shape _ cv Hc ltac:(lia)) as (Hg & En & Ej & Eni).
  exists inter, s, rows', a, b. split; [exact H2|]. split; [exact H3|]. split; [exact HP|]. split; [exact HU|]. split; [exact HC|].
  split.
  { apply Hcan. assert (0 <= Z.gcd 2 (Z.of_nat (length x)))%Z by apply Z.gcd_nonneg. 
    assert (Hdiv := Z.gcd_divide_l 2 (Z.of_nat (length x))). assert (Z.gcd 2 (Z.of_nat (length x)) <= 2)%Z by (apply Z.divide_pos_le; [lia|exact Hdiv]).
    assert (Z.gcd 2 (Z.of_nat (length x)) <> 0)%Z by (intro E0; rewrite E0 in Hdiv; destruct Hdiv as [q Hq']; lia). lia. }
  split; [exact E1|]. split; [exact La|]. split; [exact Lb|]. split.
  { intros k Hk' ye. destruct (Hk k Hk') as (B1 & B2 & _). split; [exact B1|exact B2]. }
  split; [exact K4|]. intro Hsm. destruct (K5 Hsm) as (loops & omA & omB & P1 & P2 & P3 & P4 & P5 & P6).
  exists loops, omA, omB. split; [exact P1|]. split; [exact P2|]. split; [exact P3|]. split; [exact P4|]. split; [exact P5|].
  assert (Em : sec_m cv = 2%Z) by (destruct (sec_init_curve_ok 2 _ cv Hc ltac:(lia)) as (_ & Em & _); exact Em).
  intros i k Hi Hk'. specialize (P6 k 0%nat i Hk'). rewrite Eni in P6. cbn [length nth] in P6.
  destruct (P6 ltac:(lia) ltac:(unfold g in Hi; lia)) as (PA & PB).
  change (offset [sec_g cv] 0) with 0%nat in PA, PB. rewrite !Nat.add_0_l in PA, PB. rewrite PA, PB, !row_period_2 by exact Em.
  assert (Hrow : forall q, (q < 2 * g)%nat -> length (nth q (stP s) []) = t).
  { intros q Hq'. destruct HP as (HP1 & HP2). apply HP2, nth_In. lia. }
  split; apply cycle_period_close; (intros q Hq'; rewrite Hrow in Hq' by lia; destruct (Hk q Hq') as (_ & _ & B3); apply B3; unfold g in Hi; lia).
Qed.
