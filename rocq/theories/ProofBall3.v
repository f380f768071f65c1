(** Quadrature sums on balls. *)
From Coq Require Import Reals Lra Lia.
From Verif Require Import CArg ModelTree ModelCurve ModelBasis ModelPeriod ModelVec ModelCache ModelTurn SpecTurn ProofTurn ModelQuad SpecQuad ProofQuad
  ModelBall SpecBall ProofBall1 ProofBall2 ProofEdge.
Local Open Scope R_scope.

Lemma croot_real m x : 0 < x -> croot m (RtoC x) = RtoC (rroot m x).
Proof.
  intro H. unfold croot. assert (E : carg (RtoC x) = 0).
  { assert (G : RtoC x <> RtoC 0) by (intro E0; injection E0; lra). pose proof (Cmod_gt_0 (RtoC x)) as [Hm _]. specialize (Hm G).
    destruct (re_im (RtoC x)) as [Er Ei]. cbn [fst snd RtoC] in Er, Ei. pose proof (carg_range (RtoC x)) as Hr. pose proof PI_RGT_0.
    assert (Hs : sin (carg (RtoC x)) = 0) by nra. assert (Hc : 0 < cos (carg (RtoC x))) by nra.
    destruct (Rtotal_order (carg (RtoC x)) 0) as [L|[L|L]]; [|exact L|].
    - assert (sin (carg (RtoC x)) < 0) by (apply sin_lt_0_var; lra). lra.
    - destruct (Rlt_le_dec (carg (RtoC x)) PI) as [L'|L']; [assert (0 < sin (carg (RtoC x))) by (apply sin_gt_0; lra); lra|].
      assert (carg (RtoC x) = PI) as E by lra. rewrite E, cos_PI in Hc. lra. }
  rewrite E. unfold Rdiv. rewrite Rmult_0_l, cis_0. rewrite Cmod_R, Rabs_right by lra. ring.
Qed.

Section Sound.
Variable A : arith.
Variable mem : ball A -> C -> Prop.
Hypothesis S : sound A mem.
Notation mv := (Forall2 mem).
Context {why : Prop}.
Local Notation sim := (simu why).
Definition memr (X : ball A) (r : R) : Prop := mem X (RtoC r).
Notation mr := (Forall2 memr).
Variable p : Z.

(** ** Gauss-Chebyshev nodes *)
Lemma rwrite_sim V v i X x : mr V v -> memr X x -> sim mr (bwrite A V i X) (rwrite v i x).
Proof.
  intros H Hx. unfold bwrite, rwrite. rewrite (Forall2_len _ _ _ H). destruct (i <? length v)%nat; cbn; [now apply Forall2_upd|reflexivity].
Qed.
Lemma cos_loop_sim len s X x : mv X x -> forall todo k C0 c, mr C0 c -> sim mr (b_cos_loop A p todo k len s X C0) (cos_loop todo k len s x c).
Proof using S.
  intros HX. induction todo as [|todo IH]; intros k C0 c H; cbn [b_cos_loop cos_loop]; [exact H|].
  eapply sim_bind; [apply (mread A mem S), HX|]. intros a a' Ha.
  eapply sim_bind; [apply rwrite_sim; [exact H|]; now apply (s_re A mem S)|]. intros C1 c1 H1.
  eapply sim_bind; [apply (mread A mem S), HX|]. intros b b' Hb. destruct (_ <? _)%nat; [reflexivity|].
  eapply sim_bind; [apply rwrite_sim; [exact H1|]; now apply (s_im A mem S)|]. intros C2 c2 H2. now apply IH.
Qed.
Lemma vec_cos_pi_sim wp len n : (1 <= n)%nat -> sim mr (b_vec_cos_pi A p wp len n) (vec_cos_pi len n).
Proof using S.
  intro Hn. unfold b_vec_cos_pi, vec_cos_pi.
  assert (HX : mv (btab A (len + 1) (b_pow A wp (b_unit A wp (4 * Z.of_nat n)))) (vtab (len + 1) (fun k => root (4 * Z.of_nat n) (Z.of_nat k)))).
  { apply Forall2_tab. intros i _. replace (Z.of_nat i) with (Z.of_nat i * 1)%Z by ring. rewrite <- root_pow. apply (s_pow A mem S), (s_unit A mem S). lia. }
  eapply sim_bind.
  - apply cos_loop_sim; [exact HX|]. clear HX. induction len; cbn; [constructor|]. constructor; [apply (s_zero A mem S)|assumption].
  - intros C0 c H. destruct (2 <=? n mod 4)%nat; [|exact H].
    eapply sim_bind; [apply (mread A mem S), HX|]. intros a a' Ha. apply rwrite_sim; [exact H|]. now apply (s_re A mem S).
Qed.
Lemma gc_int_init_sim wp n : sim mr (b_gc_int_init A p wp n) (gc_int_init n).
Proof using S.
  unfold b_gc_int_init, gc_int_init. destruct (Nat.eqb_spec n 0); [constructor|]. apply vec_cos_pi_sim. lia.
Qed.

(** ** Gauss-Chebyshev sums *)
Definition root_at (root : ball A -> outcome (ball A)) (y : R -> C) (X : ball A) (x : R) : Prop := exists W, root X = Done W /\ mem W (y x).
Lemma gc_nodes_sim root y g : forall Xs xs V v, mr Xs xs ->
  Forall2 (fun X x => root_at root y X x /\ root_at root y (b_neg A X) (- x)) Xs xs -> mv V v ->
  sim mv (b_gc_nodes A p root g Xs V) (gc_nodes y g xs v).
Proof using S.
  induction Xs as [|X Xs IH]; intros xs V v Hx Hr H; inversion Hx; subst; inversion Hr; subst; cbn [b_gc_nodes gc_nodes]; [exact H|].
  match goal with H : root_at _ _ _ _ /\ _ |- _ => destruct H as [(W & E & HW) (W' & E' & HW')] end.
  rewrite E. cbn [bind]. eapply sim_bind; [apply (add_geom_sim A mem S); [exact H|now apply (s_inv A mem S)|assumption]|].
  intros r r' [Hr1 _]. rewrite E'. cbn [bind]. eapply sim_bind.
  - apply (add_geom_sim A mem S); [exact Hr1|now apply (s_inv A mem S)|]. rewrite RtoC_opp. now apply (s_neg A mem S).
  - intros q q' [Hq _]. now apply IH.
Qed.
Lemma gc_integrals_sim rdef rturn U u d1 d g n Xs xs : mv U u -> mr Xs xs -> (0 < d <= length u)%nat -> (1 <= n)%nat ->
  gc_clear A p rdef U d1 d Xs ->
  let y := fun t => roots_product 2 (factors u d1 d t) in
  sim mv (b_gc_integrals A p rdef rturn U d1 d g n Xs) (gc_integrals_precomp y (y 0) g n xs).
Proof using S.
  intros HU HX Hd Hn Hc y. unfold b_gc_integrals, gc_integrals_precomp. eapply sim_bind.
  { apply gc_nodes_sim; [exact HX| |apply (zeros_mem A mem S)].
    assert (G : forall Ys, incl Ys Xs -> forall ys, mr Ys ys ->
      Forall2 (fun X x => root_at (b_gc_root A p rdef rturn U d1 d) y X x /\ root_at (b_gc_root A p rdef rturn U d1 d) y (b_neg A X) (- x)) Ys ys).
    { intros Ys Hi ys HY. induction HY as [|X x Ys ys Hm HY IH]; constructor; [|apply IH; intros a Ha; apply Hi; now right].
      assert (Hin : In X Xs) by (apply Hi; now left). split.
      - apply (b_gc_root_ok A mem S p U u d1 X x HU Hm rdef rturn d Hd). intro E. now apply (Hc E).
      - apply (b_gc_root_ok A mem S p U u d1 (b_neg A X) (- x) HU); [|exact Hd|intro E; now apply (Hc E)].
        rewrite RtoC_opp. now apply (s_neg A mem S). }
    now apply G. }
  intros V v H. eapply (sim_bind mv).
  - destruct (n mod 2 =? 0)%nat; [exact H|].
    destruct (b_pol_def_ok A mem S p U u d1 (b_zero A) 0 HU (s_zero A mem S) 2 d ltac:(lia) ltac:(lia)) as (W & E & HW).
    rewrite E. cbn [bind]. eapply sim_bind; [apply (mread A mem S), H|]. intros a a' Ha.
    apply (mwrite A mem S); [exact H|]. apply (s_add A mem S); [exact Ha|]. now apply (s_inv A mem S).
  - intros V1 v1 H1. apply (scalar_mul_sim A mem S); [exact H1|]. rewrite RtoC_div, INR_IZR_INZ.
    + apply (s_div A mem S); [apply (s_pi A mem S)|apply (s_int A mem S)].
    + apply not_0_INR. lia.
Qed.

(** ** double exponential nodes *)
Definition memn (N : b_node A) (nd : de_node) : Prop := memr (bn_x A N) (de_x nd) /\ memr (bn_dx A N) (de_dx nd) /\ memr (bn_ch2m A N) (de_ch2m nd).
Lemma de_node_mem h l m k : (0 < m)%Z -> memn (b_de_node A p h l m k) (de_int_node h l m k).
Proof using S.
  intro Hm. unfold memn, b_de_node, de_int_node. destruct (k =? 0)%nat.
  - conj; cbn; [apply (s_zero A mem S)|apply (one_mem A mem S)|apply (one_mem A mem S)].
  - set (kh := b_mul_int A p (b_real A h) (Z.of_nat k)). set (sh := b_mul A p (b_sinh A p kh) (b_real A l)).
    assert (Hkh : memr kh (h * INR k)).
    { unfold memr. rewrite RtoC_mult, INR_IZR_INZ. apply (s_mul_int A mem S), (s_real A mem S). }
    assert (Hsh : memr sh (sinh (h * INR k) * l)).
    { unfold memr. rewrite RtoC_mult. apply (s_mul A mem S); [now apply (s_sinh A mem S)|apply (s_real A mem S)]. }
    set (s := sinh (h * INR k) * l) in *.
    assert (Hp : 0 < cosh s) by (unfold cosh; assert (E1 := exp_pos s); assert (E2 := exp_pos (- s)); lra).
    assert (Hch : memr (b_cosh A p sh) (cosh s)) by now apply (s_cosh A mem S).
    assert (Hch2 : memr (b_mul A p (b_cosh A p sh) (b_cosh A p sh)) (cosh s * cosh s)).
    { unfold memr. rewrite RtoC_mult. now apply (s_mul A mem S). }
    conj; cbn [bn_x bn_dx bn_ch2m de_x de_dx de_ch2m]; unfold memr.
    + rewrite RtoC_div by lra. apply (s_div A mem S); [now apply (s_sinh A mem S)|exact Hch].
    + rewrite RtoC_div by nra. apply (s_div A mem S); [now apply (s_cosh A mem S)|exact Hch2].
    + rewrite <- croot_real by nra. now apply (s_root A mem S).
Qed.
Lemma de_init_mem h l n m : (0 < m)%Z ->
  Forall2 memn (fst (b_de_init A p h l n m)) (fst (de_int_init h l n m)) /\ memr (snd (b_de_init A p h l n m)) (snd (de_int_init h l n m)).
Proof using S.
  intro Hm. split; [apply Forall2_tab; intros; now apply de_node_mem|]. cbn [snd b_de_init de_int_init]. unfold memr. rewrite RtoC_mult.
  apply (s_mul A mem S); apply (s_real A mem S).
Qed.

(** ** double exponential sums *)
Definition add_ok (ADD : list (ball A) -> nat -> nat -> ball A -> ball A -> outcome (list (ball A) * ball A)) (add : vec -> nat -> nat -> C -> C -> outcome (vec * C)) : Prop :=
  forall V v off len X x Y y, mv V v -> mem X x -> mem Y y -> sim (mpair A mem) (ADD V off len X Y) (add v off len x y).
Lemma de_blocks_sim ADD add Y y X x : add_ok ADD add -> mem Y y -> mem X x -> forall ni first off WY wy V v, mem WY wy -> mv V v ->
  sim mv (b_de_blocks A p ADD ni first off WY Y X V) (de_blocks add ni first off wy y x v).
Proof using S.
  intros Ha Hy Hx. induction ni as [|n ni IH]; intros first off WY wy V v Hw H; cbn [b_de_blocks de_blocks]; [exact H|].
  assert (Hw' : mem (if first then WY else b_mul A p WY Y) (if first then wy else (wy * y)%C)) by (destruct first; [exact Hw|now apply (s_mul A mem S)]).
  eapply sim_bind; [now apply Ha|]. intros r r' [Hr _]. now apply IH.
Qed.
Lemma de_start_mem Y y c N nd : mem Y y -> memn N nd ->
  mem (fst (b_de_start A p Y c N)) (fst (de_start y c nd)) /\ mem (snd (b_de_start A p Y c N)) (snd (de_start y c nd)).
Proof using S.
  intros Hy (_ & Hdx & Hch). unfold b_de_start, de_start. cbn [fst snd].
  assert (H1 : mem (b_div A p (bn_ch2m A N) Y) (RtoC (de_ch2m nd) / y)%C) by now apply (s_div A mem S). split; [exact H1|].
  destruct (1 <? sec_j1 c)%Z; apply (s_mul A mem S); try assumption. now apply (s_pow A mem S).
Qed.
Lemma de_nodes_sim root y c : forall Ns ns l V v, Forall2 memn Ns ns ->
  Forall2 (fun N nd => root_at root y (bn_x A N) (de_x nd) /\ root_at root y (b_neg A (bn_x A N)) (- de_x nd)) Ns ns -> mv V v ->
  sim mv (b_de_nodes A p root c l Ns V) (de_nodes y c l ns v).
Proof using S.
  induction Ns as [|N Ns IH]; intros ns l V v Hx Hr H; inversion Hx; subst; inversion Hr; subst; cbn [b_de_nodes de_nodes]; [exact H|].
  rename y0 into nd.
  match goal with H : root_at _ _ _ _ /\ _ |- _ => destruct H as [(W & E & HW) (W' & E' & HW')] end.
  match goal with H : memn N nd |- _ => rename H into HN end.
  rewrite E. cbn [bind].
  destruct (de_start_mem W _ c N nd HW HN) as [D1 D2].
  destruct (b_de_start A p W c N) as [Y1 WY]. destruct (de_start (y (de_x nd)) c nd) as [y1 wy]. cbn [fst snd] in D1, D2.
  eapply sim_bind; [apply de_blocks_sim; try eassumption; [|apply HN]; intros ?; intros; now apply (add_geom_sim A mem S)|].
  intros V1 v1 H1. eapply (sim_bind mv).
  - destruct (l =? 0)%nat; [exact H1|]. rewrite E'. cbn [bind].
    destruct (de_start_mem W' _ c N nd HW' HN) as [D3 D4].
    destruct (b_de_start A p W' c N) as [Y2 WY2]. destruct (de_start (y (- de_x nd)) c nd) as [y2 wy2]. cbn [fst snd] in D3, D4.
    apply de_blocks_sim; try eassumption; [|apply HN]. intros ?; intros; now apply (sub_geom_sim A mem S).
  - intros V2 v2 H2. now apply IH.
Qed.
Lemma de_integrals_sim rdef rprod rturn U u d1 d c h l n : mv U u -> (0 < sec_m c)%Z -> (0 < d <= length u)%nat ->
  (forall t z, -1 < t < 1 -> In z (factors u d1 d t) -> z <> RtoC 0) ->
  (forall k, -1 < de_x (de_int_node h l (sec_m c) k) < 1) ->
  de_clear A p rdef rprod rturn U d1 d (fst (b_de_init A p h l n (sec_m c))) ->
  let y := fun t => roots_product (sec_m c) (factors u d1 d t) in
  sim mv (b_de_integrals A p rdef rprod rturn U d1 d c (b_de_init A p h l n (sec_m c))) (de_integrals_precomp y c (de_int_init h l n (sec_m c))).
Proof using S.
  intros HU Hm Hd Hz Ho Hc y. unfold b_de_integrals, de_integrals_precomp.
  destruct (de_init_mem h l n (sec_m c) Hm) as [HN HF]. eapply sim_bind.
  - apply de_nodes_sim; [exact HN| |apply (zeros_mem A mem S)].
    assert (Ho' : forall nd, In nd (fst (de_int_init h l n (sec_m c))) -> -1 < de_x nd < 1).
    { intros nd Hin. cbn [fst de_int_init] in Hin. apply in_map_iff in Hin. destruct Hin as (k & <- & _). apply Ho. }
    revert Ho' Hc HN. generalize (fst (b_de_init A p h l n (sec_m c))) (fst (de_int_init h l n (sec_m c))). intros Ns ns Ho' Hc HN.
    induction HN as [|N nd Ns ns HM HN IH]; constructor.
    + assert (Hnd := Ho' nd (or_introl eq_refl)). split.
      * apply (b_de_root_ok A mem S p U u d1 (bn_x A N) (de_x nd) HU); [apply HM|exact Hm|exact Hd| |].
        -- intros z. now apply Hz.
        -- intro E. apply (Hc E). now left.
      * apply (b_de_root_ok A mem S p U u d1 (b_neg A (bn_x A N)) (- de_x nd) HU); [|exact Hm|exact Hd| |].
        -- rewrite RtoC_opp. apply (s_neg A mem S), HM.
        -- intros z. apply Hz. lra.
        -- intro E. apply (Hc E). now left.
    + apply IH; [intros nd' Hin; apply Ho'; now right|]. intros E N' Hin. apply (Hc E). now right.
  - intros V v H. apply (scalar_mul_sim A mem S); assumption.
Qed.
End Sound.
