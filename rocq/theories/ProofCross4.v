(** Edges of a tree that meet cross, and the matrix is then wrong. *)
From Coq Require Import Reals Lra Lia List ZArith.
From Coquelicot Require Import Coquelicot.
From Verif Require Import CArg ModelTree ModelPeriod ModelInter ModelEdge SpecTree SpecInter SpecEdge SpecDeq SpecCross SpecGc SpecFree ModelDeq ModelCurve
  ProofTreeEx ProofErr3 ProofDeq2 ProofErr5 ProofHol11 ProofFree2 ProofInterMain ProofEdge ProofAngle ProofLat7 ProofLat8 ProofFree ProofDeq ProofDeq3 ProofExtra ProofCross ProofCross2 ProofCross3.
Import ListNotations.
Local Open Scope R_scope.

(** the points of a line *)
Definition on (a b : C) (g : R) : C := (a + RtoC g * (b - a))%C.
Lemma parallel p q : p <> RtoC 0 -> turn_sign p q = 0%Z -> exists l, q = (RtoC l * p)%C.
Proof.
  intros Np H. assert (D : fst p * snd q - snd p * fst q = 0).
  { unfold turn_sign in H. destruct (Rlt_dec 0 _); [discriminate|]. destruct (Rlt_dec _ 0); [discriminate|]. lra. }
  assert (S0 : fst p * fst p + snd p * snd p <> 0).
  { intro E. apply Np. assert (0 <= fst p * fst p) by apply Rle_0_sqr. assert (0 <= snd p * snd p) by apply Rle_0_sqr. apply injective_projections; cbn; apply Rsqr_0_uniq; unfold Rsqr; lra. }
  exists ((fst p * fst q + snd p * snd q) / (fst p * fst p + snd p * snd p)). apply injective_projections; cbn.
  - assert (E : fst q * (fst p * fst p + snd p * snd p) - (fst p * fst q + snd p * snd q) * fst p = - snd p * (fst p * snd q - snd p * fst q)) by ring.
    rewrite D, Rmult_0_r in E. rewrite Rmult_0_l, Rminus_0_r. apply (Rmult_eq_reg_r (fst p * fst p + snd p * snd p)); [|exact S0].
    replace ((fst p * fst q + snd p * snd q) / (fst p * fst p + snd p * snd p) * fst p * (fst p * fst p + snd p * snd p)) with ((fst p * fst q + snd p * snd q) * fst p) by (field; exact S0). lra.
  - assert (E : snd q * (fst p * fst p + snd p * snd p) - (fst p * fst q + snd p * snd q) * snd p = fst p * (fst p * snd q - snd p * fst q)) by ring.
    rewrite D, Rmult_0_r in E. rewrite Rmult_0_l, Rplus_0_r. apply (Rmult_eq_reg_r (fst p * fst p + snd p * snd p)); [|exact S0].
    replace ((fst p * fst q + snd p * snd q) / (fst p * fst p + snd p * snd p) * snd p * (fst p * fst p + snd p * snd p)) with ((fst p * fst q + snd p * snd q) * snd p) by (field; exact S0). lra.
Qed.
Lemma on_between x a b a' b' al be g : a' = on a b al -> b' = on a b be -> (al < g < be \/ be < g < al) -> free_segment x a' b' -> ~ In (on a b g) x.
Proof.
  intros -> -> H F I. assert (N : be - al <> 0) by lra. set (nu := (g - al) / (be - al)).
  assert (B : 0 < nu < 1).
  { unfold nu. destruct H as [H|H].
    - split; [apply Rdiv_lt_0_compat; lra|]. apply (Rmult_lt_reg_r (be - al)); [lra|]. unfold Rdiv. rewrite Rmult_assoc, Rinv_l by lra. lra.
    - replace ((g - al) / (be - al)) with ((al - g) / (al - be)) by (field; lra). split; [apply Rdiv_lt_0_compat; lra|]. apply (Rmult_lt_reg_r (al - be)); [lra|]. unfold Rdiv. rewrite Rmult_assoc, Rinv_l by lra. lra. }
  apply (F (2 * nu - 1)); [lra|]. rewrite point_from. replace (on a b al + RtoC nu * (on a b be - on a b al))%C with (on a b g); [exact I|].
  unfold on. transitivity (a + (RtoC al + RtoC nu * (RtoC be - RtoC al)) * (b - a))%C; [|ring]. f_equal. f_equal. rewrite <- RtoC_minus, <- RtoC_mult, <- RtoC_plus. f_equal. unfold nu. field. exact N.
Qed.
Lemma meet_turns x a b a' b' t t' : In a x -> In b x -> In a' x -> In b' x -> b <> a -> b' <> a -> b' <> b -> b' <> a' ->
  free_segment x a b -> free_segment x a' b' -> -1 < t < 1 -> -1 < t' < 1 -> edge_point a b (RtoC t) = edge_point a' b' (RtoC t') ->
  turn_sign (b - a)%C (b' - a')%C <> 0%Z.
Proof.
  intros Ia Ib Ia' Ib' N1 N2 N3 N4 F F' Ht Ht' E Z.
  destruct (parallel (b - a)%C (b' - a')%C) as [l L]; [intro X; apply N1; transitivity (a + (b - a))%C; [ring|rewrite X; ring]|exact Z|].
  rewrite !point_lin, L in E. set (mu := (1 + t) / 2) in *. set (nu := (1 + t') / 2) in *. assert (Bm : 0 < mu < 1) by (unfold mu; lra). assert (Bn : 0 < nu < 1) by (unfold nu; lra).
  assert (Nl : l <> 0). { intro X. apply N4. transitivity (a' + (b' - a'))%C; [ring|]. rewrite L, X. ring. }
  assert (Ea : a' = on a b (mu - nu * l)).
  { unfold on. rewrite RtoC_minus, RtoC_mult. transitivity (a' + RtoC nu * (RtoC l * (b - a)) - RtoC nu * (RtoC l * (b - a)))%C; [ring|]. rewrite <- E. ring. }
  assert (Eb : b' = on a b (mu + (1 - nu) * l)).
  { transitivity (a' + (b' - a'))%C; [ring|]. rewrite L, Ea. unfold on. rewrite RtoC_plus, RtoC_minus, !RtoC_mult, RtoC_minus. ring. }
  assert (O0 : on a b 0 = a) by (unfold on; ring). assert (O1 : on a b 1 = b) by (unfold on; ring).
  set (al := mu - nu * l) in *. set (be := mu + (1 - nu) * l) in *.
  assert (B1 : (al < mu < be \/ be < mu < al)).
  { unfold al, be. destruct (Rtotal_order l 0) as [L0|[L0|L0]]; [right|contradiction|left]; (split; [assert (0 < (1 - nu) * Rabs l) by (apply Rmult_lt_0_compat; [lra|apply Rabs_pos_lt; lra])|assert (0 < nu * Rabs l) by (apply Rmult_lt_0_compat; [lra|apply Rabs_pos_lt; lra])]); try rewrite Rabs_left in * by lra; try rewrite Rabs_pos_eq in * by lra; nra. }
  assert (Fo : forall g, In (on a b g) x -> g <= 0 \/ 1 <= g).
  { intros g Hg. destruct (Rle_dec g 0) as [?|G0]; [now left|]. destruct (Rle_dec 1 g) as [?|G1]; [now right|]. exfalso.
    apply (on_between x a b a b 0 1 g); [now rewrite O0|now rewrite O1|left; lra|exact F|exact Hg]. }
  assert (K1 := Fo al ltac:(rewrite <- Ea; exact Ia')). assert (K2 := Fo be ltac:(rewrite <- Eb; exact Ib')).
  assert (Q0 : be <> 0) by (intro X; apply N2; rewrite Eb, X; exact O0). assert (Q1 : be <> 1) by (intro X; apply N3; rewrite Eb, X; exact O1).
  destruct (Rlt_dec be 0) as [Bn0|Bn0].
  - apply (on_between x a b a' b' al be 0 Ea Eb); [right; lra|exact F'|rewrite O0; exact Ia].
  - apply (on_between x a b a' b' al be 1 Ea Eb); [left; lra|exact F'|rewrite O1; exact Ib].
Qed.

Lemma branch_exists nonpos neg x a b m ye : (2 <= m)%nat -> (a < length x)%nat -> (b < length x)%nat -> vget x a <> vget x b ->
  ydata_init_edge nonpos neg x a b (Z.of_nat m) = Done ye -> (forall p, In p (y_u ye) -> forall t, -1 <= t <= 1 -> p <> RtoC t) ->
  exists Y, branch_over m x (vget x a) (vget x b) (y_ya ye) (y_yb ye) Y.
Proof.
  intros Hm Ha Hb Hab Hye Hfree.
  destruct (init_spec nonpos neg x a b m Ha Hb Hab ltac:(lia)) as (y & E & _ & _ & _ & _ & _ & _ & _ & _ & Eya & Eyb).
  assert (y = ye) by congruence. subst y. set (M := Z.of_nat m) in *. set (yt := fun t => y_tilde M (y_u ye) (y_n1 ye) (RtoC t)).
  exists (fun t => y_c ye * RtoC (rroot M (1 - t * t)) * yt t)%C. exists (fun t => y_c ye * yt t)%C. split; [rewrite Eya; unfold yt; ring|]. split; [rewrite Eyb; unfold yt; ring|]. split.
  - intros t _. apply (ccont_mult (fun _ => y_c ye) yt); [apply ccont_const|apply y_cont_m; unfold M; lia].
  - intros t Ht. split; [fold M; ring|].
    assert (Eq := curve_equation nonpos neg x a b m Ha Hb Hab ltac:(lia) ye (RtoC t) Hye). rewrite Eq. fold M. change (y_tilde M (y_u ye) (y_n1 ye) (RtoC t)) with (yt t).
    assert (E1 : cpow (RtoC (rroot M (1 - t * t))) m = (RtoC 1 - RtoC t * RtoC t)%C).
    { rewrite cpow_RtoC. unfold M. rewrite CArg.rroot_pow; [|lia|assert (K := Rmult_le_pos (1 - t) (1 + t) ltac:(lra) ltac:(lra)); lra]. now rewrite RtoC_minus, RtoC_mult. }
    rewrite <- E1. rewrite !cpow_mul. ring.
Qed.
Lemma branch_value m x a b ya yb Y t : branch_over m x a b ya yb Y -> free_segment x a b -> -1 < t < 1 ->
  (1 <= m)%nat -> Y t <> RtoC 0 /\ cpow (Y t) m = poly_at x (edge_point a b (RtoC t)).
Proof.
  intros (Zf & _ & _ & _ & H) F Ht Hm. destruct (H t ltac:(lra)) as [_ P]. split; [|exact P]. intro X. rewrite X in P.
  assert (N : poly_at x (edge_point a b (RtoC t)) <> RtoC 0).
  { unfold poly_at. apply cprod_neq. intros r Hr E. apply (F t Ht). replace (edge_point a b (RtoC t)) with r; [exact Hr|]. transitivity (edge_point a b (RtoC t) - (edge_point a b (RtoC t) - r))%C; [ring|]. rewrite E. ring. }
  apply N. rewrite <- P. destruct m; [lia|]. cbn [cpow]. ring.
Qed.

Section Tree.
Context (nonpos neg : edge -> C -> bool) (sort : list edge -> list edge) (param : nat -> nat -> nat -> dbl) (x : list C) (m n : nat) (r : dbl) (mn : nat) (es : list edge) (r' : dbl) (mn' : nat) (ys : list ydata) (c : imat).
Hypothesis Hd : distinct x.
Hypothesis H3 : (3 <= length x)%nat.
Hypothesis Hm : (2 <= m)%nat.
Hypothesis Hn : (n < length x)%nat.
Hypothesis Hs : qsort_ok sort.
Hypothesis Ho : tells_apart x param.
Hypothesis Et : spanning_tree sort param (length x) n r mn = Done (es, r', mn').
Hypothesis Ey : tree_ydata nonpos neg x (Z.of_nat m) es = Done ys.
Hypothesis Ec : intersection_of_data ys es (Z.of_nat m) = Done c.
Let M := Z.of_nat m.
Notation e k := (nth k es no_edge).
Notation Y k := (nth k ys no_ydata).
Let entry k l u v := cell c (Z.of_nat k * (M - 1) + u) (Z.of_nat l * (M - 1) + v).
Let meet k l t t' := edge_point (vget x (ea (e k))) (vget x (eb (e k))) (RtoC t) = edge_point (vget x (ea (e l))) (vget x (eb (e l))) (RtoC t').
Let over k Yk := branch_over m x (vget x (ea (e k))) (vget x (eb (e k))) (y_ya (Y k)) (y_yb (Y k)) Yk.

Lemma tree_facts : length es = n /\ growing es /\ (forall v, touched es v -> (v < length x)%nat) /\ (forall y, In y es -> free_segment x (vget x (ea y)) (vget x (eb y))).
Proof.
  destruct (tree_final sort param (length x) n r mn (fun l => proj1 (Hs l)) Hn) as (l0 & r1 & mn1 & Et' & Hlen & Hgr & _ & _ & Hto & _).
  rewrite Et in Et'. injection Et' as <- <- <-. split; [exact Hlen|]. split; [exact Hgr|]. split; [exact Hto|].
  exact (tree_free_both sort param x n r mn es r' mn' Hd H3 Hn Hs Ho Et).
Qed.
Lemma tree_numbers k l u v Yk Yl : (k <= l < n)%nat -> (0 <= u < M - 1)%Z -> (0 <= v < M - 1)%Z ->
  ((k < l)%nat -> forall t t', -1 < t < 1 -> -1 < t' < 1 -> ~ meet k l t t') ->
  loop_number M x (e k) (y_ya (Y k)) (y_yb (Y k)) Yk u (e l) (y_ya (Y l)) (y_yb (Y l)) Yl v (entry k l u v).
Proof.
  destruct tree_facts as (Hl & Hg & Ht & Hf). intros Hkl Hu Hv Hx. rewrite <- Hl in Hkl.
  exact (loops_number nonpos neg x m es ys c Hd Hm Hg Ht Hf Ey Ec k l u v Yk Yl Hkl Hu Hv Hx).
Qed.
Lemma tree_meet k l t t' : (k < l < n)%nat -> -1 < t < 1 -> -1 < t' < 1 -> meet k l t t' ->
  turn_sign (vget x (eb (e k)) - vget x (ea (e k)))%C (vget x (eb (e l)) - vget x (ea (e l)))%C <> 0%Z.
Proof.
  destruct tree_facts as (Hl & Hg & Ht & Hf). intros Hkl H1 H2 H.
  destruct (data_edge nonpos neg x m es ys Hd Hm Hg Ht Ey k ltac:(lia)) as (_ & A1 & A2 & A3 & _).
  destruct (data_edge nonpos neg x m es ys Hd Hm Hg Ht Ey l ltac:(lia)) as (_ & B1 & B2 & B3 & _).
  destruct (growing_new es k l Hg ltac:(lia)) as [N1 N2].
  apply (meet_turns x _ _ _ _ t t'); try (apply nth_In; assumption); try (apply (vget_neq x Hd); auto; fail); try assumption; apply Hf, nth_In; lia.
Qed.
Lemma tree_branch k : (k < n)%nat -> exists Yk, over k Yk.
Proof.
  destruct tree_facts as (Hl & Hg & Ht & Hf). intros Hk.
  destruct (data_edge nonpos neg x m es ys Hd Hm Hg Ht Ey k ltac:(lia)) as (Ek & A1 & A2 & A3 & _).
  apply (branch_exists _ _ _ _ _ _ _ Hm A1 A2 (vget_neq x Hd _ _ A1 A2 A3) Ek).
  apply (free_points _ _ x (ea (e k)) (eb (e k)) m (Y k) Hd ltac:(lia) A1 A2 (vget_neq x Hd _ _ A1 A2 A3) Ek). apply Hf, nth_In. lia.
Qed.
Lemma tree_wrong k l t t' Yk Yl : (k < l < n)%nat -> -1 < t < 1 -> -1 < t' < 1 -> meet k l t t' -> over k Yk -> over l Yl ->
  exists u v, (0 <= u < M - 1)%Z /\ (0 <= v < M - 1)%Z /\
    forall N, loop_number M x (e k) (y_ya (Y k)) (y_yb (Y k)) Yk u (e l) (y_ya (Y l)) (y_yb (Y l)) Yl v N -> N <> entry k l u v.
Proof.
  intros Hkl H1 H2 H Ok Ol. assert (T := tree_meet k l t t' Hkl H1 H2 H). destruct tree_facts as (Hl & Hg & Ht & Hf).
  assert (Ik : In (e k) es) by (apply nth_In; lia). assert (Il : In (e l) es) by (apply nth_In; lia).
  destruct (branch_value _ _ _ _ _ _ _ t Ok (Hf _ Ik) H1 ltac:(lia)) as [V1 V2].
  destruct (branch_value _ _ _ _ _ _ _ t' Ol (Hf _ Il) H2 ltac:(lia)) as [W1 W2].
  destruct (lifts_nonzero m (Yk t) (Yl t') Hm V1 W1) as (u & v & Hu & Hv & HL). { rewrite V2, W2. unfold meet in H. now rewrite H. }
  exists u, v. split; [exact Hu|]. split; [exact Hv|]. intros N HN E. rewrite <- Hl in Hkl.
  assert (HN' := loops_crossed nonpos neg x m es ys c Hd Hm Hg Ht Hf Ey Ec k l u v Yk Yl t t' Hkl Hu Hv H1 H2 H T).
  assert (X := number_unique _ _ _ _ _ _ _ _ _ _ _ _ _ _ HN HN').
  set (sg := turn_sign _ _) in *. assert (G : forall a b f : Z, a = (b + sg * f)%Z -> a = b -> f = 0%Z) by (intros a b f G1 G2; assert (Q : (sg * f = 0)%Z) by lia; apply Z.mul_eq_0 in Q; tauto).
  exact (HL (G _ _ _ X E)).
Qed.
End Tree.
