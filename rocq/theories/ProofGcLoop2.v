(** A curve whose integration never ends: the tree holds the edge of ProofGcLoop. *)
From Coq Require Import Reals Lra Lia List ZArith Permutation.
From Coquelicot Require Import Coquelicot.
From Verif Require Import CArg ModelTree ModelCurve ModelPeriod ModelEdge ModelCache ModelGc ModelErr SpecTree SpecInter SpecEdge SpecGc SpecFree
  ProofTreeEx ProofAngle ProofGc ProofFree2 ProofErr6 ProofCross5 ProofGcLoop.
Import ListNotations.
Local Open Scope R_scope.

Lemma half_sum_in t : -1 <= t <= 1 -> half_sum (RtoC t) = 1.
Proof. intro H. unfold half_sum. rewrite <- RtoC_minus, <- RtoC_plus, !Cmod_R. rewrite (Rabs_left1 (t - 1)), (Rabs_pos_eq (t + 1)) by lra. field. Qed.
Lemma half_sum_out t : 1 <= Rabs t -> half_sum (RtoC t) = Rabs t.
Proof.
  intro H. unfold half_sum. rewrite <- RtoC_minus, <- RtoC_plus, !Cmod_R. destruct (Rle_dec 0 t) as [L|L].
  - rewrite (Rabs_pos_eq t) in * by lra. rewrite !Rabs_pos_eq by lra. field.
  - rewrite (Rabs_left t) in * by lra. rewrite !Rabs_left1 by lra. field.
Qed.

Lemma loop_done {Row Scheme Key : Type} (integ : Scheme -> nat -> outcome (Row * Scheme)) (t : list (Key * nat)) : forall s rows res,
  edge_loop integ t s rows = Done res -> forall k, In k (map snd t) -> exists s' r, integ s' k = Done r.
Proof.
  induction t as [|[key i] t IH]; intros s rows res H k Hk; [destruct Hk|]. cbn [edge_loop] in H.
  destruct (integ s i) as [r| | |] eqn:E; try discriminate. cbn [bind] in H. destruct (_ <? _)%nat; [|discriminate].
  destruct Hk as [Hk|Hk]; [cbn in Hk; subst k; eauto|]. now apply (IH _ _ _ H).
Qed.
Lemma never_done {Key : Type} (qsort : list (Key * nat) -> list (Key * nat)) rdef rturn fuel c ys prec keys rows k res :
  (forall l, Permutation (qsort l) l) -> (k < length keys)%nat ->
  gc_params fuel (firstn (Z.to_nat (sec_n c - 2)) (y_u (nth k ys no_ydata))) (Z.to_nat (sec_g c)) prec = OutOfFuel ->
  tree_moments_gc qsort rdef rturn fuel c ys prec keys rows <> Done res.
Proof.
  intros Hq Hk Hg H. unfold tree_moments_gc, integrals_tree in H. apply loop_done with (k := k) in H.
  - destruct H as (s & r & H). unfold edge_moments_gc in H. rewrite Hg in H. discriminate.
  - apply (Permutation_in k (Permutation_map snd (Permutation_sym (Hq _)))). rewrite map_snd_combine by (now rewrite seq_length). apply in_seq. lia.
Qed.

Definition x77 (V : R) : list C := [RtoC (- (1 + V / 2)); RtoC (-1); RtoC 1; RtoC 2; RtoC V].
Definition r77 (V : R) : list R := [- (1 + V / 2); -1; 1; 2; V].
Definition cut77 (i : nat) : bool := (i <=? 1)%nat.
Section Points.
Context (V : R).
Hypothesis HV : 3 < V.
Lemma x77_distinct : distinct (x77 V).
Proof.
  unfold distinct, x77. repeat (constructor; [cbn [In]; intro H; repeat (destruct H as [H|H]; [apply RtoC_inj in H; lra|]); exact H|]). constructor.
Qed.
Lemma x77_get k : vget (x77 V) k = RtoC (nth k (r77 V) 0).
Proof. unfold vget. do 5 (destruct k as [|k]; [reflexivity|]). destruct k; reflexivity. Qed.
Lemma position77 i j k : nth j (r77 V) 0 <> nth i (r77 V) 0 ->
  position (x77 V) i j k = RtoC ((2 * nth k (r77 V) 0 - (nth j (r77 V) 0 + nth i (r77 V) 0)) / (nth j (r77 V) 0 - nth i (r77 V) 0)).
Proof.
  intro H. unfold position. rewrite !x77_get. set (a := nth i (r77 V) 0) in *. set (b := nth j (r77 V) 0) in *. set (z := nth k (r77 V) 0).
  rewrite <- RtoC_plus, <- RtoC_mult, <- !RtoC_minus, <- RtoC_div by lra. reflexivity.
Qed.
Lemma between i j k a b z : nth i (r77 V) 0 = a -> nth j (r77 V) 0 = b -> nth k (r77 V) 0 = z -> a < z < b -> half_sum (position (x77 V) i j k) = 1.
Proof.
  intros Ea Eb Ez H. rewrite position77 by lra. rewrite Ea, Eb, Ez. apply half_sum_in. split.
  - apply Rle_div_r; lra.
  - apply Rle_div_l; lra.
Qed.
Lemma heavy77 k : triple (x77 V) 1 2 k -> 1 + / 2 < half_sum (position (x77 V) 1 2 k).
Proof.
  intros (_ & _ & H & _ & N0 & N2). cbn [length x77] in H. rewrite position77 by (cbn; lra). change (nth 2 (r77 V) 0) with 1. change (nth 1 (r77 V) 0) with (-1).
  replace ((2 * nth k (r77 V) 0 - (1 + -1)) / (1 - -1)) with (nth k (r77 V) 0) by field.
  destruct k as [|[|[|[|[|k]]]]]; try lia; cbn [nth r77].
  - rewrite half_sum_out; rewrite Rabs_left by lra; lra.
  - rewrite half_sum_out; rewrite Rabs_pos_eq by lra; lra.
  - rewrite half_sum_out; rewrite Rabs_pos_eq by lra; lra.
Qed.
Lemma across77 i j : (i < j < 5)%nat -> cut77 i <> cut77 j -> (i, j) <> (1, 2)%nat -> exists k, triple (x77 V) i j k /\ half_sum (position (x77 V) i j k) = 1.
Proof.
  intros Hij HS HN.
  destruct i as [|[|[|[|[|i]]]]]; try lia; destruct j as [|[|[|[|[|j]]]]]; try lia; cbn [cut77 Nat.leb] in HS; try (exfalso; now apply HS); try (exfalso; now apply HN).
  1-3: exists 1%nat; (split; [repeat split; cbn [length x77]; lia|]); eapply between; try reflexivity; cbn; lra.
  1-2: exists 2%nat; (split; [repeat split; cbn [length x77]; lia|]); eapply between; try reflexivity; cbn; lra.
Qed.
Lemma tree77 sort param r mn l r' mn' : qsort_ok sort -> ordered_within (/ 2) half_sum (x77 V) param -> spanning_tree sort param 5 4 r mn = Done (l, r', mn') ->
  exists e, In e l /\ joins e 1 2.
Proof.
  intros Hs Ho Et. apply (forced_edge (/ 2) half_sum sort param (x77 V) 4 r mn l r' mn' cut77 1 2); try assumption; try reflexivity; try (cbn; lia); try discriminate.
  intros i j Hij HS HN. destruct (across77 i j Hij HS HN) as (k & Tk & Hk). exists k. split; [exact Tk|]. intros k' Hk'. apply heavy77 in Hk'. lra.
Qed.
Lemma points77 nonpos neg a b y : (a = 1 /\ b = 2 \/ a = 2 /\ b = 1)%nat -> ydata_init_edge nonpos neg (x77 V) a b 2 = Done y ->
  length (y_u y) = 3%nat /\ Permutation (map half_sum (y_u y)) [2; 1 + V / 2; V].
Proof.
  intros Hab Ey. destruct (partition_final nonpos neg (x77 V) a b 2) as (y' & Ey' & P & _ & L & _).
  - cbn; lia.
  - cbn; lia.
  - rewrite !x77_get. intro E. apply RtoC_inj in E. destruct Hab as [[-> ->]|[-> ->]]; cbn in E; lra.
  - lia.
  - change (Z.of_nat 2) with 2%Z in Ey'. rewrite Ey in Ey'. injection Ey' as <-. split; [cbn [length x77] in L; lia|].
    rewrite <- (Permutation_map half_sum P). rewrite map_map.
    assert (F : filter (fun k => negb ((k =? a) || (k =? b))%nat) (seq 0 (length (x77 V))) = [0; 3; 4]%nat) by (destruct Hab as [[-> ->]|[-> ->]]; reflexivity).
    rewrite F. cbn [map].
    assert (Q : forall k, half_sum ((RtoC 2 * vget (x77 V) k - (vget (x77 V) b + vget (x77 V) a)) / (vget (x77 V) b - vget (x77 V) a))%C = half_sum (RtoC (nth k (r77 V) 0))).
    { intro k. change (half_sum (position (x77 V) a b k) = half_sum (RtoC (nth k (r77 V) 0))). destruct Hab as [[-> ->]|[-> ->]]; (rewrite position77 by (cbn; lra)); change (nth 2 (r77 V) 0) with 1; change (nth 1 (r77 V) 0) with (-1).
      - replace ((2 * nth k (r77 V) 0 - (1 + -1)) / (1 - -1)) with (nth k (r77 V) 0) by field. reflexivity.
      - replace ((2 * nth k (r77 V) 0 - (-1 + 1)) / (-1 - 1)) with (- nth k (r77 V) 0) by field. unfold half_sum. rewrite <- !RtoC_minus, <- !RtoC_plus, !Cmod_R.
        set (t := nth k (r77 V) 0). rewrite <- (Rabs_Ropp (t - 1)), <- (Rabs_Ropp (t + 1)). replace (- (t - 1)) with (- t + 1) by ring. replace (- (t + 1)) with (- t - 1) by ring. lra. }
    rewrite !Q. cbn [nth r77]. rewrite !half_sum_out.
    + rewrite Rabs_left by lra. rewrite !Rabs_pos_eq by lra. replace (- - (1 + V / 2)) with (1 + V / 2) by ring. apply perm_swap.
    + rewrite Rabs_pos_eq; lra.
    + rewrite Rabs_pos_eq; lra.
    + rewrite Rabs_left; lra.
Qed.
End Points.

Theorem curve_endless prec : (8 <= prec)%Z -> exists x cv, distinct x /\ length x = 5%nat /\ sec_init 2 5 = Done cv /\ tree_edges cv = 4%Z /\ sec_g cv = 2%Z /\
  forall nonpos neg sort param r mn, qsort_ok sort -> ordered_within (/ 2) half_sum x param ->
  exists es r' mn' ys k, spanning_tree sort param 5 4 r mn = Done (es, r', mn') /\ tree_ydata nonpos neg x 2 es = Done ys /\
    (k < 4)%nat /\ (forall z, In z (y_u (nth k ys no_ydata)) -> 1 < half_sum z) /\
    (forall fuel, gc_params fuel (y_u (nth k ys no_ydata)) 2 prec = OutOfFuel) /\
    forall (Key : Type) (qsort : list (Key * nat) -> list (Key * nat)) rdef rturn fuel keys rows res, (forall l, Permutation (qsort l) l) -> length keys = 4%nat ->
      tree_moments_gc qsort rdef rturn fuel cv ys prec keys rows <> Done res.
Proof.
  intro Hp. destruct (params_endless prec Hp) as (V & HV & HE).
  destruct (sec_init 2 5) as [cv| | |] eqn:Ec; try discriminate.
  exists (x77 V), cv. split; [now apply x77_distinct|]. split; [reflexivity|]. split; [reflexivity|].
  assert (Ev := Ec). vm_compute in Ev. injection Ev as <-. split; [reflexivity|]. split; [reflexivity|].
  intros nonpos neg sort param r mn Hs Ho.
  destruct (tree_final sort param 5 4 r mn (fun l => proj1 (Hs l)) ltac:(lia)) as (es & r' & mn' & Et & Hlen & _).
  destruct (always_computed_final nonpos neg (x77 V) 2 sort param 4 r mn es r' mn' (x77_distinct V HV) ltac:(lia) (fun l => proj1 (Hs l)) ltac:(cbn; lia) Et) as (ys & c & Ey & _).
  change (Z.of_nat 2) with 2%Z in Ey.
  destruct (tree77 V HV sort param r mn es r' mn' Hs Ho Et) as (e & He & Je).
  apply (In_nth es _ no_edge) in He. destruct He as (k & Hk & Ek). exists es, r', mn', ys, k.
  assert (Yk := tree_ydata_nth nonpos neg (x77 V) 2 es ys k Ey Hk). rewrite Ek in Yk.
  destruct (points77 V HV _ _ _ _ _ Je Yk) as [L3 P].
  split; [exact Et|]. split; [exact Ey|]. split; [lia|]. split.
  { intros z Hz. assert (I : In (half_sum z) [2; 1 + V / 2; V]) by (apply (Permutation_in _ P), in_map, Hz). cbn [In] in I. lra. }
  split; [exact (HE _ P)|]. intros Key qsort rdef rturn fuel keys rows res Hq Hkeys.
  apply never_done with (k := k); [exact Hq|lia|]. cbn [sec_n sec_g]. change (Z.to_nat (5 - 2)) with 3%nat. change (Z.to_nat 2) with 2%nat.
  rewrite firstn_all2 by lia. apply HE, P.
Qed.
