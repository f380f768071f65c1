(** The parameters of the Gauss-Chebyshev rule computed on balls. *)
From Coq Require Import Reals Lra Lia List.
From Coquelicot Require Import Coquelicot.
From Verif Require Import CArg ModelTree ModelCurve ModelGc SpecGc ProofGc ModelBall SpecBall ModelBallGc SpecBallGc.
Import ListNotations.
Local Open Scope R_scope.

Section Params.
Variables (A : arith) (B : reals A) (mem : ball A -> C -> Prop).
Hypotheses (S : sound A mem) (W : widens A mem) (T : rsound A B mem).
Definition memR (X : ball A) (r : R) : Prop := mem X (RtoC r).

Lemma m_add p X Y r s : memR X r -> memR Y s -> memR (b_add A p X Y) (r + s).
Proof using S. intros H1 H2. unfold memR. rewrite RtoC_plus. now apply (s_add A mem S). Qed.
Lemma m_sub p X Y r s : memR X r -> memR Y s -> memR (b_sub A p X Y) (r - s).
Proof using S. intros H1 H2. unfold memR. rewrite RtoC_minus. now apply (s_sub A mem S). Qed.
Lemma m_mul p X Y r s : memR X r -> memR Y s -> memR (b_mul A p X Y) (r * s).
Proof using S. intros H1 H2. unfold memR. rewrite RtoC_mult. now apply (s_mul A mem S). Qed.
Lemma m_mul_int p X r k : memR X r -> memR (b_mul_int A p X k) (r * IZR k).
Proof using S. intros H1. unfold memR. rewrite RtoC_mult. now apply (s_mul_int A mem S). Qed.
Lemma m_addmul_int p Z X z r k : memR Z z -> memR X r -> memR (b_addmul_int A p Z X k) (z + r * IZR k).
Proof using S. intros H1 H2. unfold memR. rewrite RtoC_plus, RtoC_mult. now apply (s_addmul_int A mem S). Qed.
Lemma m_2exp X r k : memR X r -> memR (b_2exp A X k) (r * powerRZ 2 k).
Proof using S. intros H1. unfold memR. rewrite RtoC_mult. now apply (s_2exp A mem S). Qed.

Lemma func_r_mem U u X : mem U u -> b_func_r_gc A B U = Done X -> memR X (half_sum u) /\ 1 < half_sum u.
Proof using S T.
  intros HU. unfold b_func_r_gc.
  assert (H1 := t_abs A B mem T pp _ _ (s_add A mem S pp _ _ _ _ HU (s_int A mem S 1))).
  assert (H2 := t_abs A B mem T pp _ _ (s_add A mem S pp _ _ _ _ HU (s_int A mem S (-1)))).
  assert (H3 := m_2exp _ _ (-1) (m_add pp _ _ _ _ H2 H1)).
  assert (E : (Cmod (u + RtoC (-1))%C + Cmod (u + RtoC 1)%C) * powerRZ 2 (-1) = half_sum u).
  { unfold half_sum. replace (u + RtoC (-1))%C with (u - RtoC 1)%C by (apply injective_projections; cbn; ring).
    change (powerRZ 2 (-1)) with (/ (2 * 1)). field. }
  rewrite E in H3. assert (H4 := m_sub pp _ _ _ _ H3 (s_int A mem S 1)).
  destruct (r_pos A B _) eqn:Ep; [|discriminate]. intro H. injection H as <-. split; [exact H3|].
  assert (H5 := t_pos A B mem T _ _ Ep H4). lra.
Qed.
Lemma vec_r_mem U u : Forall2 mem U u -> forall s vr r0, b_vec_r A B U s = Done (vr, r0) ->
  Forall2 memR vr (map half_sum u) /\
  match r0 with
  | Some r => (forall t, s = Some t -> r <= t) /\ Forall (fun z => r <= half_sum z) u
  | None => s = None /\ u = []
  end.
Proof using S T.
  intro HF. induction HF as [|X z U u Hz HF IH]; intros s vr r0.
  - cbn. intro H. injection H as <- <-. split; [constructor|]. destruct s as [s|]; [|easy]. split; [|constructor]. intros t Et. injection Et as <-. lra.
  - cbn [b_vec_r]. destruct (b_func_r_gc A B X) as [r| | |] eqn:E; cbn [bind]; try discriminate.
    destruct (func_r_mem _ _ _ Hz E) as [H1 H2]. assert (L := t_low A B mem T pp _ _ H1). rewrite Rabs_pos_eq in L by lra.
    set (t := r_low A B pp r) in *.
    set (s' := match s with Some s0 => if Rlt_dec t s0 then Some t else Some s0 | None => Some t end).
    assert (Hs' : exists t', s' = Some t' /\ t' <= t /\ forall t0, s = Some t0 -> t' <= t0).
    { unfold s'. destruct s as [s|].
      - destruct (Rlt_dec t s).
        + exists t. repeat split; [lra|]. intros t0 E0. injection E0 as <-. lra.
        + exists s. repeat split; [lra|]. intros t0 E0. injection E0 as <-. lra.
      - exists t. repeat split; [lra|]. discriminate. }
    destruct Hs' as (t' & Es' & Ht' & Hs'). clearbody s'. subst s'.
    destruct (b_vec_r A B U (Some t')) as [[vr' r']| | |] eqn:Ev; cbn [bind fst snd]; try discriminate.
    intro H. injection H as <- <-. destruct (IH _ _ _ Ev) as [I1 I2]. cbn [map]. split; [now constructor|].
    destruct r' as [r'|]; [|easy]. destruct I2 as [I2 I3]. specialize (I2 _ eq_refl). split.
    + intros t0 E0. specialize (Hs' _ E0). lra.
    + constructor; [lra|exact I3].
Qed.

Lemma maj_prod_mem r c VR vr : memR r c -> Forall2 memR VR vr -> forall K M m K' M', memR M m -> b_maj_prod A B r c VR K M = (K', M') -> (K <= K')%nat /\
  (K' = K -> memR M' (m * prodR (map (fun x => x - c) vr)) /\ Forall (fun x => x <> c) vr).
Proof using S T.
  intros Hr HF. induction HF as [|X x VR vr Hx HF IH]; intros K M m K' M' HM; cbn [b_maj_prod].
  - intro E. injection E as <- <-. split; [lia|]. intros _. cbn. rewrite Rmult_1_r. now split.
  - destruct (r_overlaps A B r X) eqn:Eo; intro E.
    + destruct (IH _ _ m _ _ HM E) as [H _]. split; [lia|]. intros ->. lia.
    + assert (HM' := m_mul pp _ _ _ _ HM (m_sub pp _ _ _ _ Hx (s_real A mem S c))).
      destruct (IH _ _ _ _ _ HM' E) as [H H']. split; [lia|]. intro HK. destruct (H' HK) as [H1 H2]. cbn [map prodR fold_right]. split.
      * unfold prodR in H1. now rewrite <- Rmult_assoc.
      * constructor; [|exact H2]. intros ->. rewrite (t_overlaps A B mem T _ _ _ Hr Hx) in Eo. discriminate.
Qed.
Lemma maj_mem m0 M0 r c VR vr M : memR M0 m0 -> memR r c -> Forall2 memR VR vr -> Forall (fun x => c <= x) vr ->
  b_maj_yr A B M0 r c VR = Done (0%nat, M) ->
  Forall (fun x => c < x) vr /\ memR M (m0 - ln (prodR (map (fun x => x - c) vr)) / 2).
Proof using S T.
  intros H0 Hr HF Hle. unfold b_maj_yr. destruct (negb (b_finite A r)); [discriminate|].
  destruct (b_maj_prod A B r c VR 0 (b_one A)) as [K M1] eqn:E. destruct (negb (b_finite A M1)); [discriminate|].
  intro H. injection H as -> <-.
  destruct (maj_prod_mem r c VR vr Hr HF _ _ 1 _ _ (s_int A mem S 1) E) as [_ H]. destruct (H eq_refl) as [H1 H2]. rewrite Rmult_1_l in H1.
  assert (Hlt : Forall (fun x => c < x) vr).
  { rewrite Forall_forall in *. intros x Hx. specialize (Hle x Hx). specialize (H2 x Hx). lra. }
  split; [exact Hlt|]. assert (HP : 0 < prodR (map (fun x => x - c) vr)).
  { apply prodR_pos, Forall_map. eapply Forall_impl; [|exact Hlt]. cbn. intros. lra. }
  replace (ln (prodR (map (fun x => x - c) vr)) / 2) with (ln (prodR (map (fun x => x - c) vr)) * powerRZ 2 (-1)) by (change (powerRZ 2 (-1)) with (/ (2 * 1)); field).
  apply m_sub; [exact H0|]. apply m_2exp. exact (t_log A B mem T pp _ _ H1 HP).
Qed.
Lemma loop_mem choose M0 r0 VR vr : Forall2 memR VR vr -> forall fuel r c r' c' M, memR r c ->
  b_gc_loop A B choose fuel M0 r0 r c VR = Done (r', c', M) ->
  memR r' c' /\ b_maj_yr A B M0 r' c' VR = Done (0%nat, M).
Proof using S.
  intros HF fuel. induction fuel as [|fuel IH]; intros r c r' c' M Hr; cbn [b_gc_loop]; [discriminate|].
  destruct (b_maj_yr A B M0 r c VR) as [[K m]| | |] eqn:E; cbn [bind]; try discriminate.
  destruct K as [|K].
  - intro H. injection H as <- <- <-. now split.
  - destruct (choose r0 m (Datatypes.S K)) as [c1|]; [|discriminate]. destruct (Rlt_dec c1 1); [discriminate|].
    apply IH. apply (s_real A mem S).
Qed.

Lemma rpow2 z : Rpower 2 (IZR z) * powerRZ 2 (- z) = 1.
Proof.
  rewrite powerRZ_neg'. assert (E : powerRZ 2 z = Rpower 2 (IZR z)) by (apply powerRZ_Rpower; lra). rewrite E.
  apply Rinv_r. unfold Rpower. apply Rgt_not_eq, exp_pos.
Qed.
Lemma ceil_ge t : t <= IZR (- Int_part (- t)).
Proof. destruct (base_Int_part (- t)) as [H _]. rewrite opp_IZR. lra. Qed.
Lemma swrap_double n : (0 < n < 2 ^ 63)%Z -> swrap (2 * n) = (2 * n)%Z \/ (swrap (2 * n) < 0)%Z.
Proof.
  intro H. unfold swrap. destruct (Z_lt_dec n (2 ^ 62)) as [L|L].
  - left. rewrite Z.mod_small; lia.
  - right. assert (E : ((2 * n + 2 ^ 63) mod 2 ^ 64 = 2 * n + 2 ^ 63 - 2 ^ 64)%Z).
    { symmetry. apply (Z.mod_unique _ _ 1); lia. }
    rewrite E. lia.
Qed.

Lemma params_ball choose fuel U d prec n e r0 r u : b_gc_params A B choose fuel U d prec = Done (n, e, r0, r) -> r <= r0 -> (0 < n)%Z ->
  Forall2 mem U u ->
  1 < r /\ avoids r u /\ gc_radius_ok d u n e /\ gc_radius_ok d u n (Some (powerRZ 2 (- prec))).
Proof using S W T.
  unfold b_gc_params. intros H Hr Hn HU.
  destruct (b_vec_r A B U None) as [[VR s]| | |] eqn:Ev; cbn [bind fst snd] in H; try discriminate.
  destruct (vec_r_mem U u HU _ _ _ Ev) as [HV Hs].
  set (r1 := match s with Some s => s | None => 0 end) in *.
  set (M0 := b_addmul_int A pp (b_addmul_int A pp (b_2exp A (r_lsq2pi A B pp) 1) (r_log A B pp (b_real A r1)) (Z.of_nat d)) (r_log2 A B pp) prec) in *.
  set (rad := if Z.eqb prec 0 then None else Some (Rabs (2 / IZR prec))) in *.
  assert (Hstart : memR (b_err A (b_real A r1) rad) r1).
  { unfold memR, rad. destruct (Z.eqb prec 0).
    - apply (s_err_inf A mem W _ (RtoC r1)), (s_real A mem S).
    - apply (s_err A mem W _ (RtoC r1)); [apply (s_real A mem S)|]. replace (RtoC r1 - RtoC r1)%C with (RtoC 0) by (apply injective_projections; cbn; ring).
      rewrite Cmod_0. apply Rabs_pos. }
  destruct (b_gc_loop A B choose fuel M0 r1 _ r1 VR) as [[[X c] M]| | |] eqn:El; cbn [bind] in H; try discriminate.
  destruct (loop_mem choose M0 r1 VR _ HV _ _ _ _ _ _ Hstart El) as [HX Hm].
  set (a := r_acosh A B pp X) in *.
  destruct (r_up A B pp _) as [t|] eqn:Eu; [|discriminate]. set (n1 := (- Int_part (- t))%Z) in *.
  destruct (negb (fits_slong n1)) eqn:Ef; [discriminate|]. injection H as E1 E2 E3 E4. subst n1. rewrite E1 in *. subst r1 c.
  set (r1 := match s with Some s => s | None => 0 end) in *. subst r0.
  assert (Hn63 : (0 < n < 2 ^ 63)%Z).
  { apply Bool.negb_false_iff in Ef. unfold fits_slong in Ef. apply andb_prop in Ef. destruct Ef as [_ Ef]. apply Z.ltb_lt in Ef. lia. }
  (* the quotient is bounded: the half sum is more than 1 *)
  assert (Hdiv0 : ~ memR a 0).
  { intro Ha0. assert (Q := t_up A B mem T _ _ _ _ Eu (m_2exp _ _ (-1) (t_div_nan A B mem T pp M a (2 * (t + 1)) Ha0))). change (powerRZ 2 (-1)) with (/ (2 * 1)) in Q. lra. }
  assert (Hr1 : 1 < r).
  { destruct (Rlt_dec 1 r) as [L|L]; [exact L|exfalso]. apply Hdiv0. destruct (Rlt_dec r 1) as [L1|L1].
    - exact (t_acosh_nan A B mem T pp X r 0 HX L1).
    - replace r with 1 in HX by lra. assert (Q := t_acosh A B mem T pp X 1 HX ltac:(lra)). unfold acosh in Q.
      replace (1 * 1 - 1) with 0 in Q by ring. rewrite sqrt_0, Rplus_0_r, ln_1 in Q. exact Q. }
  assert (HPI := PI_RGT_0).
  assert (Hu : Forall (fun z => r1 <= half_sum z) u).
  { destruct s as [s|]; [exact (proj2 Hs)|]. unfold r1 in Hr. lra. }
  assert (HM0 : memR M0 (m0_of d prec r1)).
  { unfold M0, m0_of. rewrite (Rmult_comm 2), (Rmult_comm (INR d)), (Rmult_comm (IZR prec)), INR_IZR_INZ.
    replace (ln (sqrt (2 * PI)) * 2) with (ln (sqrt (2 * PI)) * powerRZ 2 1) by (change (powerRZ 2 1) with (2 * 1); ring).
    apply m_addmul_int; [apply m_addmul_int|].
    - apply m_2exp. apply (t_lsq2pi A B mem T).
    - apply (t_log A B mem T); [apply (s_real A mem S)|lra].
    - apply (t_log2 A B mem T). }
  destruct (maj_mem (m0_of d prec r1) M0 X r VR (map half_sum u) M HM0 HX HV) as [Hlt HM]; [|exact Hm|].
  { apply Forall_map. eapply Forall_impl; [|exact Hu]. cbn. intros. lra. }
  rewrite map_map in HM.
  assert (Ha : avoids r u) by (unfold avoids; now rewrite Forall_map in Hlt).
  set (P := prodR (map (fun z => half_sum z - r) u)) in *.
  assert (HP : 0 < P). { apply prodR_pos, Forall_map. eapply Forall_impl; [|exact Ha]. cbn. intros. lra. }
  set (m := m0_of d prec r1 - ln P / 2) in *.
  assert (Em : exp m = 2 * PI * r1 ^ d / sqrt P * Rpower 2 (IZR prec)).
  { unfold m. rewrite exp_m, exp_m0 by lra. unfold Rdiv. ring. }
  set (Bd := 2 * PI * r1 ^ d / sqrt P) in *.
  assert (Hs' : 0 < sqrt P) by now apply sqrt_lt_R0. assert (Hsi : 0 < / sqrt P) by now apply Rinv_0_lt_compat.
  assert (HBd : 0 < Bd).
  { unfold Bd, Rdiv. apply Rmult_lt_0_compat; [|exact Hsi]. apply Rmult_lt_0_compat; [lra|]. apply pow_lt. lra. }
  assert (Em' : exp m * powerRZ 2 (- prec) = Bd) by (rewrite Em, Rmult_assoc, rpow2; ring).
  set (eta := acosh r) in *. assert (Heta : 0 < eta) by now apply acosh_pos. assert (Ech : cosh eta = r) by (apply cosh_acosh; lra).
  assert (Hxa : memR a eta) by (apply (t_acosh A B mem T); [exact HX|lra]).
  assert (Hterm : forall l, (l < d)%nat -> cosh eta ^ l / sqrt (fold_right Rmult 1 (map (fun z => half_sum z - cosh eta) u)) <= r1 ^ d / sqrt P).
  { intros l Hl. rewrite Ech. fold (prodR (map (fun z => half_sum z - r) u)). fold P. apply Rmult_le_compat_r; [lra|].
    apply Rle_trans with (r1 ^ l); [apply pow_incr; lra|]. apply Rle_pow; [lra|lia]. }
  assert (Hq : forall l, (l < d)%nat -> forall b, 0 <= b -> 2 * PI * b * (cosh eta ^ l / sqrt (fold_right Rmult 1 (map (fun z => half_sum z - cosh eta) u))) <= b * Bd).
  { intros l Hl b Hb. replace (b * Bd) with (2 * PI * b * (r1 ^ d / sqrt P)) by (unfold Bd, Rdiv; ring). apply Rmult_le_compat_l; [|now apply Hterm].
    apply Rmult_le_pos; lra. }
  assert (Hen : 0 < 2 * eta * IZR n) by (apply Rmult_lt_0_compat; [lra|]; apply IZR_lt; lia).
  assert (Hx1 : 1 < exp (2 * eta * IZR n)) by (apply exp_increasing in Hen; rewrite exp_0 in Hen; lra).
  split; [exact Hr1|]. split; [exact Ha|]. split.
  - split; [exact Hn|]. exists eta. split; [lra|]. split; [rewrite Ech; exact Ha|]. destruct e as [e|]; [|exact I]. intros l Hl.
    eapply Rle_trans; [apply Hq; [exact Hl|left; apply exp_pos]|].
    set (k := swrap (2 * n)) in *. set (q := exp (eta * IZR k) - 1).
    assert (Hq0 : q <> 0 /\ exp (- (2 * eta * IZR n)) <= / Rabs q).
    { destruct (swrap_double n Hn63) as [Ek|Ek]; fold k in Ek.
      - unfold q. rewrite Ek, mult_IZR. replace (eta * (2 * IZR n)) with (2 * eta * IZR n) by ring. split; [lra|].
        rewrite Rabs_pos_eq by lra. rewrite exp_Ropp. apply Rinv_le_contravar; lra.
      - assert (Q : eta * IZR k < 0). { apply IZR_lt in Ek. assert (0 < eta * - IZR k) by (apply Rmult_lt_0_compat; lra). lra. }
        apply exp_increasing in Q. rewrite exp_0 in Q. assert (Q0 := exp_pos (eta * IZR k)). split; [unfold q; lra|].
        assert (G : exp (- (2 * eta * IZR n)) <= 1) by (rewrite <- exp_0; left; apply exp_increasing; lra).
        apply Rle_trans with 1; [exact G|]. rewrite <- Rinv_1 at 1. apply Rinv_le_contravar.
        + apply Rabs_pos_lt. unfold q. lra.
        + unfold q. rewrite Rabs_left by lra. lra. }
    destruct Hq0 as [Hq0 Hqe].
    assert (HE : memR (r_div A B pp (b_2exp A (r_exp A B pp M) (- prec)) (b_sub A pp (r_exp A B pp (b_mul_int A pp a k)) (b_int A 1))) (Bd / q)).
    { apply (t_div A B mem T); [|unfold q|exact Hq0].
      - rewrite <- Em'. apply m_2exp. exact (t_exp A B mem T pp _ _ HM).
      - apply m_sub; [|apply (s_int A mem S)]. apply (t_exp A B mem T). now apply m_mul_int. }
    assert (G := t_mag A B mem T _ _ _ E2 HE). eapply Rle_trans; [|exact G].
    unfold Rdiv. rewrite Rabs_mult, Rabs_inv, (Rabs_pos_eq Bd) by lra. rewrite Rmult_comm. apply Rmult_le_compat_l; lra.
  - split; [exact Hn|]. exists eta. split; [lra|]. split; [rewrite Ech; exact Ha|]. intros l Hl.
    eapply Rle_trans; [apply Hq; [exact Hl|left; apply exp_pos]|].
    assert (Q := t_up A B mem T _ _ _ _ Eu (m_2exp _ _ (-1) (t_div A B mem T pp _ _ _ _ HM Hxa ltac:(lra)))).
    assert (Q1 := ceil_ge t). rewrite E1 in Q1.
    assert (Q2 : m <= 2 * eta * IZR n).
    { assert (Q3 : m / eta * powerRZ 2 (-1) <= IZR n) by lra. change (powerRZ 2 (-1)) with (/ (2 * 1)) in Q3.
      assert (Q4 : m = 2 * eta * (m / eta * / (2 * 1))) by (field; lra). rewrite Q4. apply Rmult_le_compat_l; lra. }
    rewrite <- Em'. rewrite <- (Rmult_1_l (powerRZ 2 (- prec))) at 2. rewrite <- Rmult_assoc. apply Rmult_le_compat_r.
    + left. apply powerRZ_lt. lra.
    + rewrite <- exp_plus. rewrite <- exp_0. destruct (Req_EM_T m (2 * eta * IZR n)) as [Q3|Q3].
      * rewrite Q3. right. f_equal. ring.
      * left. apply exp_increasing. lra.
Qed.
End Params.

(** ** Errors of the moments *)
From Coq Require Import FunctionalExtensionality.
From Verif Require ProofHol10.
From Verif Require Import SpecTree ProofTree ProofTreeEx ModelInter ProofCurve ModelSymp SpecSymp ProofSymp ProofSympMain ModelBasis SpecBasis
  ModelPeriod SpecPeriod ProofPeriod ProofPeriodMain ModelVec ModelQuad SpecQuad ProofQuad ModelCache SpecInter ModelEdge SpecEdge ProofEdge ProofAngle ModelTurn SpecTurn ProofTurn
  ProofErr1 ProofErr2 ProofErr3 ProofErr4 ModelExtra SpecExtra ProofExtra ModelErr SpecErr ProofErr5 ProofErr6 ProofLat9 SpecHyp ProofHyp
  ProofBall1 ProofBall2 ProofBall3 ProofBall4 ProofBall5 ProofBall6.

Lemma radius_error d u n1 n N : (1 <= d)%nat -> (0 < n)%Z -> (n <= Z.of_nat N)%Z ->
  let y := fun t : R => y_tilde 2 u n1 (RtoC t) in
  forall e1 e2, gc_radius_ok d u n e1 -> gc_radius_ok d u n e2 ->
  exists res, gc_integrals y (y 0) d N = Done res /\ length res = d /\
    forall l, (l < d)%nat -> exists I, is_int (SpecQuad.integrand 2 y 1 l) I /\
      forall e, e1 = Some e \/ e2 = Some e -> Cmod (vget res l - I)%C <= e.
Proof.
  intros Hd Hn HN y e1 e2 H1 H2.
  destruct (gc_sums y (y 0) d N ltac:(lia) ltac:(lia) eq_refl) as (v & Ev & HLv & Hv).
  exists v. split; [exact Ev|]. split; [exact HLv|]. intros l Hl.
  assert (G : forall e, gc_radius_ok d u n e -> exists I, is_int (SpecQuad.integrand 2 y 1 l) I /\ match e with Some e => Cmod (vget v l - I)%C <= e | None => True end).
  { intros e (_ & eta & Heta & Hav & He). destruct (moment_error u n1 eta Heta Hav N l ltac:(lia)) as (I & I1 & I2). exists I. split; [exact I1|].
    destruct e as [e|]; [|exact Logic.I]. rewrite (Hv l Hl). eapply Rle_trans; [exact I2|]. eapply Rle_trans; [|apply (He l Hl)].
    change (fold_right Rmult 1 (map (fun z => half_sum z - cosh eta) u)) with (prodR (map (fun p => half_sum p - cosh eta) u)).
    assert (HP : 0 < prodR (map (fun p => half_sum p - cosh eta) u)).
    { apply prodR_pos, Forall_map. eapply Forall_impl; [|exact Hav]. cbn. intros. lra. }
    assert (Hch := cosh_ge_1 eta). assert (Hpl : 0 < cosh eta ^ l) by (apply pow_lt; lra).
    apply Rmult_le_compat_r; [left; apply Rdiv_lt_0_compat; [exact Hpl|now apply sqrt_lt_R0]|].
    apply Rmult_le_compat_l; [assert (H := PI_RGT_0); lra|].
    assert (H3 : - (2 * eta * INR N) <= - (2 * eta * IZR n)).
    { apply Ropp_le_contravar, Rmult_le_compat_l; [lra|]. rewrite INR_IZR_INZ. apply IZR_le. lia. }
    destruct H3 as [H3|H3]; [left; now apply exp_increasing|rewrite H3; lra]. }
  destruct (G e1 H1) as (I & HI & B1). destruct (G e2 H2) as (I' & HI' & B2).
  assert (I' = I) as -> by exact (ProofHol10.is_int_unique _ _ _ HI' HI).
  exists I. split; [exact HI|]. intros e [E|E]; rewrite E in *; assumption.
Qed.
Lemma params_error (A : arith) (B : reals A) mem choose fuel U d prec n e r0 r : sound A mem -> widens A mem -> rsound A B mem ->
  b_gc_params A B choose fuel U d prec = Done (n, e, r0, r) -> r <= r0 -> (0 < n)%Z -> (1 <= d)%nat ->
  forall u n1 N, mems mem U u -> (n <= Z.of_nat N)%Z ->
  let y := fun t : R => y_tilde 2 u n1 (RtoC t) in
  exists res, gc_integrals y (y 0) d N = Done res /\ length res = d /\
    forall l, (l < d)%nat -> exists I, is_int (SpecQuad.integrand 2 y 1 l) I /\
      Cmod (vget res l - I)%C <= powerRZ 2 (- prec) /\ forall e', e = Some e' -> Cmod (vget res l - I)%C <= e'.
Proof.
  intros S W T E Hr Hn Hd u n1 N HU HN y. destruct (params_ball A B mem S W T _ _ _ _ _ _ _ _ _ u E Hr Hn HU) as (_ & _ & H1 & H2).
  destruct (radius_error d u n1 n N Hd Hn HN _ _ H1 H2) as (res & E1 & E2 & E3). exists res. split; [exact E1|]. split; [exact E2|].
  intros l Hl. destruct (E3 l Hl) as (I & HI & HE). exists I. split; [exact HI|]. split; [apply HE; now right|]. intros e' Ee. apply HE. now left.
Qed.
