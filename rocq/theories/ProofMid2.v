(** Branch points known exactly: on points the ball program computes the exact data.  Facts on
    y^2 = x^3 - x and y^3 = x^3 - x used by the examples, and the counterexample for turns. *)
From Coq Require Import Reals Lra Lia.
From Coquelicot Require Import Coquelicot.
From Verif Require Import CArg ModelTree SpecTree ProofTreeEx ModelInter ModelCurve ModelSymp SpecSymp ProofSymp ProofSympMain ProofSympEx ModelBasis SpecBasis
  ModelPeriod SpecPeriod ModelVec ModelQuad SpecQuad ModelCache ModelEdge SpecInter SpecEdge ProofEdge ProofAngle ModelTurn SpecTurn
  SpecGc ModelDe SpecDe ModelDeq ModelExtra SpecExtra ProofExtra ModelBall SpecBall ProofQuad ProofBall1 ProofBall2 ProofBall3 ProofBall4 ProofBall5 ProofMid.
Local Open Scope R_scope.

Section Points.
Variables (p : Z) (x : list C) (m : nat) (es : list edge).
Hypothesis Hd : distinct x.
Hypothesis Hm : (2 <= m)%nat.
Hypothesis He : forall e, In e es -> (ea e < length x)%nat /\ (eb e < length x)%nat /\ ea e <> eb e.

Lemma points_mem : Forall2 is_point (map point x) x.
Proof. clear. induction x; constructor; [reflexivity|assumption]. Qed.
Lemma points_disc : mems (A := discs) disc_mem (map point x) x.
Proof. clear. induction x; constructor; [apply point_mem|assumption]. Qed.
Lemma points_unique : forall u v, Forall2 is_point u v -> forall w, mems (A := discs) disc_mem u w -> w = v.
Proof.
  clear. intros u v H. induction H as [|X a u v H HF IH]; intros w Hw; inversion Hw; subst; [reflexivity|]. f_equal; [|now apply IH].
  match goal with H1 : is_point X a, H2 : disc_mem X ?b |- _ => unfold is_point in H1; subst X; now apply Cmod_zero_eq end.
Qed.
Lemma point_data : exists Ys ys, b_tree_ydata discs p (map point x) (Z.of_nat m) es = Done Ys /\
  tree_ydata (test_pos discs p (map point x) x) (test_neg discs p (map point x) x) x (Z.of_nat m) es = Done ys /\
  length Ys = length es /\ length ys = length es /\ Forall2 (ydata_mem discs is_point) Ys ys.
Proof using Hd Hm He.
  assert (Hes : edges_of x es).
  { intros e Hi. destruct (He e Hi) as (A1 & A2 & A3). split; [exact A1|]. split; [exact A2|].
    intro E. apply A3. apply (proj1 (NoDup_nth x (RtoC 0)) Hd); [exact A1|exact A2|exact E]. }
  assert (S1 := tree_ydata_sim discs is_point discs_point_sound p (map point x) x points_mem (Z.of_nat m) es ltac:(lia) Hd Hes).
  destruct (tree_ydata_done (test_pos discs p (map point x) x) (test_neg discs p (map point x) x) x m es Hd ltac:(lia) He) as (ys & Ey & Hl & _).
  rewrite Ey in S1. destruct (sim_exact _ _ _ discs_decided S1) as (Ys & EY & HY).
  exists Ys, ys. conj; try assumption. rewrite <- Hl. now apply Forall2_len in HY.
Qed.
Lemma point_intersection q Ys ys nonpos neg : Forall2 (ydata_mem discs is_point) Ys ys -> tree_ydata nonpos neg x (Z.of_nat m) es = Done ys ->
  directions_clear discs q Ys es -> forall inter, intersection_of_data ys es (Z.of_nat m) = Done inter -> b_intersection discs q Ys es (Z.of_nat m) = Done inter.
Proof using Hd Hm He.
  intros HY Ey Hc inter Ei.
  assert (S1 := b_intersection_sim discs is_point discs_point_sound q nonpos neg x m es Ys ys Hd Hm He Ey HY Hc).
  rewrite Ei in S1. destruct (sim_exact _ _ _ discs_decided S1) as (i & E & ->). exact E.
Qed.
End Points.

(** on any balls: the data and the intersections are computed or the program aborts *)
Lemma intersections_or_abort (A : arith) mem p q X x m sort param n r mn es r' mn' : sound A mem -> mems mem X x -> distinct x -> (2 <= m)%nat ->
  (forall l, Permutation l (sort l)) -> (n < length x)%nat -> spanning_tree sort param (length x) n r mn = Done (es, r', mn') ->
  b_tree_ydata A p X (Z.of_nat m) es = Abort \/
  exists Ys nonpos neg ys inter, b_tree_ydata A p X (Z.of_nat m) es = Done Ys /\
    (forall e z, In e es -> nonpos e z = true -> fst z <= 0) /\
    tree_ydata nonpos neg x (Z.of_nat m) es = Done ys /\ intersection_of_data ys es (Z.of_nat m) = Done inter /\
    (forall k, (k < length es)%nat -> let Y := nth k Ys (b_no_ydata A) in let y := nth k ys no_ydata in
      mems mem (by_u A Y) (y_u y) /\ by_n1 A Y = y_n1 y /\ mem (by_ya A Y) (y_ya y) /\ mem (by_yb A Y) (y_yb y)) /\
    (directions_clear A q Ys es -> b_intersection A q Ys es (Z.of_nat m) = Done inter \/ b_intersection A q Ys es (Z.of_nat m) = Abort).
Proof.
  intros S HX Hdi Hm Hs Hn Et.
  destruct (tree_final sort param (length x) n r mn Hs Hn) as (l0 & r1 & mn1 & Et' & Hlen & Hgr & _ & _ & Hto & _).
  rewrite Et in Et'. injection Et' as <- <- <-.
  assert (Hes0 := growing_edges es (length x) Hgr Hto).
  assert (Hes : edges_of x es).
  { intros d Hd. destruct (Hes0 d Hd) as (A1 & A2 & A3). split; [exact A1|]. split; [exact A2|].
    intro E. apply A3. apply (proj1 (NoDup_nth x (RtoC 0)) Hdi); [exact A1|exact A2|exact E]. }
  assert (S1 := tree_ydata_sim A mem S p X x HX (Z.of_nat m) es ltac:(lia) Hdi Hes).
  set (nonpos := test_pos A p X x) in *. set (neg := test_neg A p X x) in *.
  destruct (whole_tree nonpos neg x m es Hdi Hm Hgr Hto) as (ys & inter & Ey & Ei).
  rewrite Ey in S1. destruct (b_tree_ydata A p X (Z.of_nat m) es) as [Ys| | |] eqn:EY; cbn [simu] in S1; try contradiction; [|now left].
  right. exists Ys, nonpos, neg, ys, inter. split; [reflexivity|]. split; [|split; [exact Ey|split; [exact Ei|split]]].
  - intros e z Hi. unfold nonpos, test_pos. destruct (find _ _) as [k|] eqn:Ef; [|discriminate]. apply find_some in Ef. destruct Ef as [Hk Ek].
    destruct (Req_EM_T _ 0) as [E0|]; [|discriminate]. apply Cmod_diff_0 in E0. intro Hp. rewrite <- E0.
    apply (s_re_nonpos A mem S _ _ Hp). now apply scaled_mem.
  - intros k Hk. cbv zeta. assert (H : ydata_mem A mem (nth k Ys (b_no_ydata A)) (nth k ys no_ydata)) by (apply Forall2_nth; [exact S1|now apply no_ydata_mem]).
    destruct H as (H1 & H2 & _ & _ & _ & H3 & H4). conj; assumption.
  - intro Hc. assert (S2 := b_intersection_sim A mem S q nonpos neg x m es Ys ys Hdi Hm Hes0 Ey S1 Hc). rewrite Ei in S2.
    destruct (b_intersection A q Ys es (Z.of_nat m)); cbn [simu] in S2; try contradiction; [left; now subst|now right].
Qed.

(** ** Turns counted on balls that are too large: two factors below the real axis, whose product
    meets it on the right *)
Definition c71 : C := (1, - (1 / 10)).
Definition r71 : R := 999 / 10000.
Lemma c71_mod : 1 <= Cmod c71 <= 1005 / 1000.
Proof.
  unfold Cmod, c71. cbn [fst snd]. split.
  - rewrite <- sqrt_1 at 1. apply sqrt_le_1_alt. lra.
  - rewrite <- (sqrt_Rsqr (1005 / 1000)) by lra. apply sqrt_le_1_alt. unfold Rsqr. lra.
Qed.
Lemma turns_refuted : exists (A : arith) mem U u X, sound A mem /\ widens A mem /\ mems mem U u /\ mem X (RtoC 0) /\ (forall z, In z u -> z <> RtoC 0) /\
  forall p, exists W, b_sqrt_turn A p U 2 2 X = Done W /\ ~ mem W (roots_product 2 (factors u 2 2 0)).
Proof.
  exists discs, disc_mem, [Some (c71, r71); Some (c71, r71)], [c71; c71], (point (RtoC 0)).
  assert (Hm : disc_mem (Some (c71, r71)) c71).
  { cbn [disc_mem]. replace (c71 - c71)%C with (RtoC 0) by ring. rewrite Cmod_0. unfold r71. lra. }
  split; [exact discs_sound|]. split; [exact discs_widens|].
  split; [apply Forall2_cons; [exact Hm|apply Forall2_cons; [exact Hm|apply Forall2_nil]]|]. split; [apply point_mem|]. split.
  { intros z [<-|[<-|[]]] E; apply (f_equal fst) in E; cbn in E; lra. }
  intro p. assert (Hc := c71_mod).
  set (y := (c71 * c71)%C). set (r := Cmod c71 * r71 + Cmod c71 * r71 + r71 * r71).
  assert (Ec : (c71 - RtoC 0)%C = c71) by ring. assert (Er : r71 + 0 = r71) by ring.
  assert (Hr : 2 / 10 < r < 22 / 100) by (unfold r, r71 in *; split; nra).
  assert (Ey : fst y = 99 / 100 /\ snd y = - (2 / 10)) by (unfold y, c71; cbn; split; field).
  assert (ET : b_sub discs p (Some (c71, r71)) (point (RtoC 0)) = Some (c71, r71)) by (cbn; rewrite Ec, Er; reflexivity).
  assert (SI : b_sgn_imag discs (Some (c71, r71)) = (-1)%Z).
  { unfold b_sgn_imag. cbn [discs b_im_has0 b_re_nonneg b_im_sgn d_test]. unfold yes. unfold c71, r71; cbn [fst snd].
    destruct (Rle_dec _ _) as [H|H]; [rewrite Rabs_left in H; lra|]. destruct (Rlt_dec 0 _); [lra|]. destruct (Rlt_dec _ 0); [reflexivity|lra]. }
  assert (EM : b_mul discs p (Some (c71, r71)) (Some (c71, r71)) = Some (y, r)) by reflexivity.
  assert (SY : b_sgn_imag discs (Some (y, r)) = 1%Z).
  { unfold b_sgn_imag. cbn [discs b_im_has0 b_re_nonneg b_im_sgn d_test]. unfold yes. destruct Ey as [Ey1 Ey2]. rewrite Ey1, Ey2.
    destruct (Rle_dec _ _) as [H|H]; [|rewrite Rabs_left in H; lra]. destruct (Rle_dec _ _); [reflexivity|lra]. }
  assert (EB : b_prod_turn discs p [Some (c71, r71); Some (c71, r71)] 2 2 (point (RtoC 0)) = Done ((-1)%Z, Some (y, r))).
  { unfold b_prod_turn, bread, bget. cbn [length Nat.ltb Nat.leb bind nth Nat.eqb Nat.sub]. rewrite ET, SI.
    cbn [b_turn_loop]. change (-1 =? 0)%Z with false. cbn iota. unfold b_factor_at, bread, bget. cbn [length Nat.ltb Nat.leb bind nth].
    rewrite ET, SI, EM, SY. reflexivity. }
  destruct Ey as [Ey1 Ey2]. unfold b_sqrt_turn. rewrite EB. cbn [bind fst snd]. change (-1 =? 2147483647)%Z with false. cbn iota.
  change (Z.rem (-1) 2 =? 0)%Z with false. cbn iota. eexists. split; [reflexivity|].
  cbn [discs b_root b_neg d_root]. destruct (Req_EM_T r 0); [lra|]. change (2 =? 2)%Z with true. cbn iota.
  destruct (Rlt_dec r (fst y)) as [_|H]; [|lra]. cbn [d_neg disc_mem].
  destruct (root2_parts y ltac:(lra)) as (W1 & W2 & W3 & W4). set (w := croot 2 y) in *.
  assert (F : roots_product 2 (factors [c71; c71] 2 2 0) = c71).
  { unfold roots_product, factors, SpecTurn.cprod. cbn [seq map Nat.ltb Nat.leb nth fold_right]. rewrite Ec.
    destruct (root2_parts c71 ltac:(unfold c71; cbn; lra)) as (V1 & _). rewrite Cmult_1_r. exact V1. }
  rewrite F. assert (Hw : 0 <= fst w).
  { assert (HC : 0 < cos (carg y / 2)) by (apply cos_gt_0; assert (HP := PI_RGT_0); lra). assert (HS := sqrt_pos (Cmod y)).
    assert (E : fst w = sqrt (Cmod y) * cos (carg y / 2)) by (rewrite W4; unfold cis, Cmult, RtoC; cbn [fst snd]; ring). rewrite E. apply Rmult_le_pos; lra. }
  assert (Hy : 1 <= sqrt (Cmod y)).
  { rewrite <- sqrt_1 at 1. apply sqrt_le_1_alt. unfold y. rewrite Cmod_mult. nra. }
  intro H. destruct (part_le (c71 - - w)%C) as [H1 _].
  assert (E : fst (c71 - - w)%C = 1 + fst w) by (unfold c71; cbn; ring). rewrite E, Rabs_pos_eq in H1 by lra.
  assert (r / sqrt (Cmod y) <= r). { apply Rmult_le_reg_r with (sqrt (Cmod y)); [lra|]. unfold Rdiv. rewrite Rmult_assoc, Rinv_l by lra. nra. }
  lra.
Qed.
