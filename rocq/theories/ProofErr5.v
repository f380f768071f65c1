(** The error of the Gauss-Chebyshev integrals. *)
From Coq Require Import Reals Lra Lia List.
From Coquelicot Require Import Coquelicot.
From Verif Require Import CArg ModelTree ModelVec ModelQuad SpecQuad SpecEdge ModelGc SpecGc SpecErr ProofQuad ProofGauss ProofGc ProofErr1 ProofErr2 ProofErr3 ProofErr4.
Import ListNotations.
Local Open Scope R_scope.

(** ** The principal square root *)
Definition half_sign (y : R) : R := if Rle_dec 0 y then 1 else -1.
Lemma sqrt_unique a b : 0 <= a -> a * a = b -> a = sqrt b.
Proof. intros H <-. now rewrite sqrt_square. Qed.
Lemma rroot_2 x : 0 <= x -> rroot 2 x = sqrt x.
Proof.
  intro H. apply sqrt_unique; [apply rroot_nonneg|]. assert (E := rroot_pow 2 x ltac:(lia) H).
  change (Z.of_nat 2) with 2%Z in E. cbn [pow] in E. lra.
Qed.
Lemma croot_2 z : croot 2 z = (sqrt ((Cmod z + fst z) / 2), half_sign (snd z) * sqrt ((Cmod z - fst z) / 2)).
Proof.
  assert (P := carg_polar z). assert (R := carg_range z). set (a := carg z) in *. set (r := Cmod z) in *.
  assert (Hr : 0 <= r) by apply Cmod_ge_0. assert (HPI := PI_RGT_0).
  assert (Ef : fst z = r * cos a) by (rewrite P at 1; cbn; ring).
  assert (Es : snd z = r * sin a) by (rewrite P at 1; cbn; ring).
  unfold croot. fold a r. rewrite rroot_2 by easy. unfold cis, Cmult, RtoC. cbn [fst snd].
  set (h := a / 2). assert (Ea : a = 2 * h) by (unfold h; field).
  assert (C1 : cos a = 2 * cos h * cos h - 1) by (rewrite Ea, cos_2a_cos; ring).
  assert (C2 : cos a = 1 - 2 * sin h * sin h) by (rewrite Ea, cos_2a_sin; ring).
  assert (Sq := sqrt_sqrt r Hr).
  assert (F1 : sqrt r * cos h - 0 * sin h = sqrt ((r + fst z) / 2)).
  { apply sqrt_unique.
    - replace (sqrt r * cos h - 0 * sin h) with (sqrt r * cos h) by ring. apply Rmult_le_pos; [apply sqrt_pos|].
      apply cos_ge_0; lra.
    - rewrite Ef, C1. transitivity (sqrt r * sqrt r * (cos h * cos h)); [ring|]. rewrite Sq. field. }
  assert (F2 : forall s, s * s = 1 -> 0 <= s * (sqrt r * sin h) -> sqrt r * sin h + 0 * cos h = s * sqrt ((r - fst z) / 2)).
  { intros s Hs H. rewrite <- (sqrt_unique (s * (sqrt r * sin h)) ((r - fst z) / 2)); [|easy|].
    - transitivity (s * s * (sqrt r * sin h)); [rewrite Hs; ring|ring].
    - rewrite Ef, C2. transitivity ((s * s) * (sqrt r * sqrt r) * (sin h * sin h)); [ring|]. rewrite Sq, Hs. field. }
  rewrite F1. f_equal. unfold half_sign. destruct (Rle_dec 0 (snd z)) as [L|L].
  - apply F2; [ring|]. rewrite Rmult_1_l. destruct (Rle_dec 0 a) as [La|La].
    + apply Rmult_le_pos; [apply sqrt_pos|]. apply sin_ge_0; lra.
    + assert (Hn : sin a < 0).
      { assert (0 < sin (- a)) by (apply sin_gt_0; lra). rewrite sin_neg in H. lra. }
      assert (r = 0); [|subst r; rewrite H, sqrt_0; lra].
      apply Rle_antisym; [|easy]. apply Rnot_lt_le. intro Lr. rewrite Es in L.
      assert (r * sin a < 0); [|lra]. rewrite <- (Rmult_0_r r). now apply Rmult_lt_compat_l.
  - apply F2; [ring|]. assert (La : a < 0).
    { apply Rnot_le_lt. intro La. apply L. rewrite Es. apply Rmult_le_pos; [easy|]. apply sin_ge_0; lra. }
    replace (-1 * (sqrt r * sin h)) with (sqrt r * sin (- h)) by (rewrite sin_neg; ring).
    apply Rmult_le_pos; [apply sqrt_pos|]. apply sin_ge_0; unfold h; lra.
Qed.
Lemma cont_sqrt (f : R -> R) t : continuous f t -> continuous (fun t => sqrt (f t)) t.
Proof. apply (continuous_sqrt_comp f t). Qed.
Lemma cont_ext (f g : R -> R) t : (forall t, f t = g t) -> continuous f t -> continuous g t.
Proof. intros E H. now apply (continuous_ext f). Qed.
(** continuity along a line where the imaginary part is constant *)
Lemma croot_line (z : R -> C) y t : (forall t, snd (z t) = y) -> continuous (fun t => fst (z t)) t ->
  ccont (fun t => croot 2 (z t)) t.
Proof.
  intros Hy Hx.
  assert (Hm : continuous (fun t => Cmod (z t)) t).
  { apply (cont_ext (fun t => sqrt (fst (z t) * fst (z t) + y * y))).
    - intro s. unfold Cmod. rewrite Hy. f_equal. ring.
    - apply cont_sqrt. apply (cont_plus (fun t => fst (z t) * fst (z t)) (fun _ => y * y)).
      + now apply cont_mult.
      + apply continuous_const. }
  split.
  - apply (cont_ext (fun t => sqrt ((Cmod (z t) + fst (z t)) * / 2))).
    { intro s. now rewrite croot_2. }
    apply cont_sqrt. apply (cont_mult (fun t => Cmod (z t) + fst (z t)) (fun _ => / 2)); [|apply continuous_const].
    now apply cont_plus.
  - apply (cont_ext (fun t => half_sign y * sqrt ((Cmod (z t) + - fst (z t)) * / 2))).
    { intro s. rewrite croot_2. cbn [snd]. now rewrite Hy. }
    apply (cont_mult (fun _ => half_sign y)); [apply continuous_const|].
    apply cont_sqrt. apply (cont_mult (fun t => Cmod (z t) + - fst (z t)) (fun _ => / 2)); [|apply continuous_const].
    apply cont_plus; [easy|]. now apply cont_opp.
Qed.
Lemma root_right p t : ccont (fun t => croot 2 (p - RtoC t)%C) t.
Proof.
  apply (croot_line _ (snd p)).
  - intro s. destruct p. cbn. ring.
  - cbn [fst Cminus Cplus Copp RtoC]. apply (cont_plus (fun _ => fst p) (fun t => - t)); [apply continuous_const|].
    apply cont_opp, continuous_id.
Qed.
Lemma root_left p t : ccont (fun t => croot 2 (RtoC t - p)%C) t.
Proof.
  apply (croot_line _ (- snd p)).
  - intro s. destruct p. cbn. ring.
  - cbn [fst Cminus Cplus Copp RtoC]. apply (cont_plus (fun t => t) (fun _ => - fst p)); [apply continuous_id|apply continuous_const].
Qed.
Lemma ccont_comp (f : R -> C) (g : R -> R) t : continuous g t -> ccont f (g t) -> ccont (fun t => f (g t)) t.
Proof.
  intros Hg [H1 H2]. split.
  - now apply (continuous_comp g (fun t => fst (f t))).
  - now apply (continuous_comp g (fun t => snd (f t))).
Qed.
Lemma cont_cos1 t : continuous cos t.
Proof. apply (ex_derive_continuous cos). auto_derive. exact I. Qed.
Lemma ccont_ext f g t : (forall t, f t = g t) -> ccont f t -> ccont g t.
Proof. intros E [H1 H2]. split; [apply (cont_ext (fun t => fst (f t)))|apply (cont_ext (fun t => snd (f t)))]; try easy; intro; now rewrite E. Qed.
Lemma ccont_inv f t : ccont f t -> f t <> RtoC 0 -> ccont (fun t => / f t)%C t.
Proof.
  intros [H1 H2] H0.
  assert (N : fst (f t) ^ 2 + snd (f t) ^ 2 <> 0).
  { intro E. apply H0. destruct (f t) as [a b]. cbn [fst snd] in E.
    assert (A := pow2_ge_0 a). assert (B := pow2_ge_0 b).
    assert (a ^ 2 = 0) by lra. assert (b ^ 2 = 0) by lra.
    assert (a = 0) by (apply Rsqr_0_uniq; unfold Rsqr; lra). assert (b = 0) by (apply Rsqr_0_uniq; unfold Rsqr; lra). now subst. }
  assert (M : continuous (fun t => / (fst (f t) ^ 2 + snd (f t) ^ 2)) t).
  { apply (continuous_comp (fun t => fst (f t) ^ 2 + snd (f t) ^ 2) Rinv).
    - apply (cont_plus (fun t => fst (f t) ^ 2) (fun t => snd (f t) ^ 2)).
      + apply (cont_ext (fun t => fst (f t) * fst (f t))); [intro; ring|]. now apply cont_mult.
      + apply (cont_ext (fun t => snd (f t) * snd (f t))); [intro; ring|]. now apply cont_mult.
    - apply (ex_derive_continuous Rinv). auto_derive. exact N. }
  split; cbn [Cinv fst snd].
  - now apply (cont_mult (fun t => fst (f t)) (fun t => / (fst (f t) ^ 2 + snd (f t) ^ 2))).
  - apply (cont_mult (fun t => - snd (f t)) (fun t => / (fst (f t) ^ 2 + snd (f t) ^ 2))); [now apply cont_opp|easy].
Qed.

(** ** Products of roots *)
Lemma cprod_cont {A} (f : R -> A -> C) l t : (forall p, In p l -> ccont (fun t => f t p) t) -> ccont (fun t => cprod (f t) l) t.
Proof.
  induction l as [|p l IH]; intro H; cbn [cprod].
  - apply ccont_const.
  - apply (ccont_mult (fun t => f t p) (fun t => cprod (f t) l)); [apply H; now left|]. apply IH. intros q Hq. apply H. now right.
Qed.
Lemma cprod_neq_0 {A} (f : A -> C) l : (forall p, In p l -> f p <> RtoC 0) -> cprod f l <> RtoC 0.
Proof.
  induction l as [|p l IH]; intro H; cbn [cprod].
  - intro E. apply (f_equal fst) in E. cbn in E. lra.
  - apply Cmult_neq_0'; [apply H; now left|]. apply IH. intros q Hq. apply H. now right.
Qed.
Lemma croot_neq_0 z : z <> RtoC 0 -> croot 2 z <> RtoC 0.
Proof.
  intros H E. assert (P := croot_pow 2 z ltac:(lia)). change (Z.of_nat 2) with 2%Z in P. cbn [cpow] in P. rewrite E in P.
  apply H. rewrite <- P. ring.
Qed.
Lemma croot_sqr z : (croot 2 z * croot 2 z)%C = z.
Proof. assert (P := croot_pow 2 z ltac:(lia)). change (Z.of_nat 2) with 2%Z in P. cbn [cpow] in P. rewrite <- P at 3. ring. Qed.
Lemma approx_prod eta (f : R -> C -> C) sg l : 0 <= eta -> Cmod sg = 1 -> Forall (fun p => cosh eta < half_sum p) l ->
  (forall p t, ccont (fun t => f t p) t) -> (forall p t, (f t p * f t p = sg * (p - RtoC (cos t)))%C) ->
  approx eta (fun t => / cprod (f t) l)%C (/ sqrt (prodR (map (fun p => half_sum p - cosh eta) l))).
Proof.
  intros He Hsg Hl Hc Hf.
  assert (H1 := cosh_ge_1 eta).
  assert (Nf : forall p t, cosh eta < half_sum p -> f t p <> RtoC 0).
  { intros p t Hp E. assert (H := Hf p t). rewrite E in H.
    assert (Z : (p - RtoC (cos t))%C = RtoC 0).
    { assert (Nsg : sg <> RtoC 0) by (intro Z; rewrite Z, Cmod_0 in Hsg; lra).
      transitivity (/ sg * (sg * (p - RtoC (cos t))))%C; [field; easy|]. rewrite <- H. ring. }
    assert (p = RtoC (cos t)) by (transitivity (p - RtoC (cos t) + RtoC (cos t))%C; [ring|rewrite Z; ring]).
    subst p. rewrite half_sum_real in Hp by apply COS_bound. lra. }
  induction Hl as [|p l Hp Hl IH]; cbn [cprod map].
  - unfold prodR. cbn [fold_right]. rewrite sqrt_1, Rinv_1.
    apply (approx_ext eta (fun _ => RtoC 1)).
    + intros t _. field. intro E. apply (f_equal fst) in E. cbn in E. lra.
    + assert (A := approx_const eta (RtoC 1)). now rewrite Cmod_1 in A.
  - change (prodR ((half_sum p - cosh eta) :: map (fun p => half_sum p - cosh eta) l))
      with ((half_sum p - cosh eta) * prodR (map (fun p => half_sum p - cosh eta) l)).
    set (Q := prodR (map (fun p => half_sum p - cosh eta) l)) in *.
    assert (HQ : 0 < Q). { apply prodR_pos, Forall_map. eapply Forall_impl; [|exact Hl]. cbn. intros. lra. }
    rewrite sqrt_mult by lra. rewrite Rinv_mult.
    apply (approx_ext eta (fun t => / f t p * / cprod (f t) l)%C).
    + intros t _. assert (N1 := Nf p t Hp). assert (N2 : cprod (f t) l <> RtoC 0).
      { apply cprod_neq_0. intros q Hq. apply Nf. rewrite Forall_forall in Hl. now apply Hl. }
      field. now split.
    + apply approx_mul; [|exact IH]. now apply (approx_root eta p (fun t => f t p) sg).
Qed.
Lemma prodR_app l k : prodR (l ++ k) = prodR l * prodR k.
Proof. unfold prodR. induction l as [|x l IH]; cbn [app fold_right]; [ring|]. rewrite IH. ring. Qed.

Section Rule.
  Context (u : list C) (n1 : nat) (eta : R).
  Hypothesis (He : 0 <= eta) (Hu : Forall (fun p => cosh eta < half_sum p) u).
  Let y (t : R) : C := y_tilde 2 u n1 (RtoC t).
  Let P := prodR (map (fun p => half_sum p - cosh eta) u).
  Lemma points_off p t : In p u -> -1 <= t <= 1 -> p <> RtoC t.
  Proof.
    intros Hp Ht E. rewrite Forall_forall in Hu. specialize (Hu p Hp). subst p.
    rewrite half_sum_real in Hu by easy. assert (H := cosh_ge_1 eta). lra.
  Qed.
  Lemma in_firstn p : In p (firstn n1 u) -> In p u.
  Proof. intro H. rewrite <- (firstn_skipn n1 u). apply in_or_app. now left. Qed.
  Lemma in_skipn p : In p (skipn n1 u) -> In p u.
  Proof. intro H. rewrite <- (firstn_skipn n1 u). apply in_or_app. now right. Qed.
  Lemma y_neq_0 t : -1 <= t <= 1 -> y t <> RtoC 0.
  Proof.
    intro Ht. apply Cmult_neq_0'; apply cprod_neq_0; intros p Hp; apply croot_neq_0; intro E.
    - apply (points_off p t (in_firstn p Hp) Ht). transitivity (p - RtoC t + RtoC t)%C; [ring|rewrite E; ring].
    - apply (points_off p t (in_skipn p Hp) Ht). transitivity (RtoC t - (RtoC t - p))%C; [ring|rewrite E; ring].
  Qed.
  Lemma y_cont t : ccont y t.
  Proof.
    unfold y, y_tilde. apply ccont_mult; apply cprod_cont; intros p _; [apply root_right|apply root_left].
  Qed.
  Lemma y_approx : approx eta (fun t => / y (cos t))%C (/ sqrt P).
  Proof.
    assert (H1 := cosh_ge_1 eta).
    assert (FF : Forall (fun p => cosh eta < half_sum p) (firstn n1 u)).
    { rewrite Forall_forall in *. intros p Hp. now apply Hu, in_firstn. }
    assert (FS : Forall (fun p => cosh eta < half_sum p) (skipn n1 u)).
    { rewrite Forall_forall in *. intros p Hp. now apply Hu, in_skipn. }
    set (g p := half_sum p - cosh eta).
    assert (EP : P = prodR (map g (firstn n1 u)) * prodR (map g (skipn n1 u))).
    { unfold P. fold g. rewrite <- prodR_app, <- map_app, firstn_skipn. reflexivity. }
    assert (Pos : forall l, Forall (fun p => cosh eta < half_sum p) l -> 0 < prodR (map g l)).
    { intros l Hl. apply prodR_pos, Forall_map. eapply Forall_impl; [|exact Hl]. cbn. unfold g. intros. lra. }
    rewrite EP, sqrt_mult by (left; now apply Pos). rewrite Rinv_mult.
    apply (approx_ext eta (fun t => / cprod (fun p => croot 2 (p - RtoC (cos t))) (firstn n1 u)
                                    * / cprod (fun p => croot 2 (RtoC (cos t) - p)) (skipn n1 u))%C).
    { intros t _. assert (Ny := y_neq_0 (cos t) (COS_bound t)). unfold y, y_tilde in Ny |- *. field.
      split; intro E; apply Ny; rewrite E; ring. }
    apply approx_mul.
    - apply (approx_prod eta (fun t p => croot 2 (p - RtoC (cos t))%C) (RtoC 1) (firstn n1 u)); try easy.
      + apply Cmod_1.
      + intros p t. apply (ccont_comp (fun t => croot 2 (p - RtoC t)%C) cos); [apply cont_cos1|apply root_right].
      + intros p t. rewrite croot_sqr. ring.
    - apply (approx_prod eta (fun t p => croot 2 (RtoC (cos t) - p)%C) (RtoC (-1)) (skipn n1 u)); try easy.
      + rewrite Cmod_R, Rabs_left by lra. ring.
      + intros p t. apply (ccont_comp (fun t => croot 2 (RtoC t - p)%C) cos); [apply cont_cos1|apply root_left].
      + intros p t. rewrite croot_sqr. replace (RtoC (-1)) with (- RtoC 1)%C by (rewrite <- RtoC_opp; reflexivity). ring.
  Qed.
  Lemma cpow_cont l t : ccont (fun t => cpow (RtoC t) l) t.
  Proof.
    apply (ccont_ext (fun t => RtoC (t ^ l))); [intro; now rewrite cpow_RtoC|]. apply ccont_R.
    apply (ex_derive_continuous (fun t => t ^ l)). auto_derive. exact I.
  Qed.
  (** error of the rule on t^l / y *)
  Lemma moment_error N l : (1 <= N)%nat -> exists I, is_int (SpecQuad.integrand 2 y 1 l) I /\
    Cmod (gc_rule N (fun t => cpow (RtoC t) l / y t)%C - I)%C <= 2 * PI * exp (- (2 * eta * INR N)) * (cosh eta ^ l / sqrt P).
  Proof.
    intro HN. apply (gauss_error N eta (fun t => cpow (RtoC t) l / y t)%C); try easy.
    - intros t Ht. unfold Cdiv. apply ccont_mult; [apply cpow_cont|]. apply (ccont_inv y t); [apply y_cont|now apply y_neq_0].
    - unfold Rdiv. unfold Cdiv. apply approx_mul; [apply approx_cospow|apply y_approx].
    - intros t Ht. unfold SpecQuad.integrand. assert (0 < 1 - t * t) by nra. assert (0 < sqrt (1 - t * t)) by now apply sqrt_lt_R0.
      rewrite rroot_2 by lra. rewrite cpow_1. field. split; [apply y_neq_0; lra|].
      intro E. apply (f_equal fst) in E. cbn [fst RtoC] in E. lra.
  Qed.
End Rule.

(** ** The integrals with the number of points and the radius of gc_params *)
Lemma computed_error fuel u n1 d prec n e r N g : gc_params fuel u d prec = Done (n, e, r) -> avoids r u -> 1 <= r ->
  (0 < n)%Z -> (n <= Z.of_nat N)%Z -> (1 <= g)%nat ->
  let y := fun t : R => y_tilde 2 u n1 (RtoC t) in
  exists e' res, e = Some e' /\ gc_integrals y (y 0) g N = Done res /\ length res = g /\
    forall l, (l < g)%nat -> (l <= d)%nat -> exists I, is_int (SpecQuad.integrand 2 y 1 l) I /\ Cmod (vget res l - I)%C <= e'.
Proof.
  intros H Ha Hr Hn HN Hg y. assert (HPI := PI_RGT_0).
  destruct (gc_radius_value _ _ _ _ _ _ _ H Ha Hr Hn) as (e' & r0 & E1 & (Hr1 & Hr0) & E2).
  assert (HN1 : (1 <= N)%nat) by lia.
  destruct (gc_sums y (y 0) g N HN1 Hg eq_refl) as (res & Er & Lr & Hres).
  exists e', res. split; [exact E1|]. split; [exact Er|]. split; [exact Lr|].
  intros l Hl Hld. set (eta := acosh r).
  assert (Heta : 0 < eta) by now apply acosh_pos.
  assert (Ech : cosh eta = r) by now apply cosh_acosh.
  assert (Hu : Forall (fun p => cosh eta < half_sum p) u) by (rewrite Ech; exact Ha).
  destruct (moment_error u n1 eta (Rlt_le _ _ Heta) Hu N l HN1) as (I & I1 & I2).
  exists I. split; [exact I1|]. rewrite (Hres l Hl). eapply Rle_trans; [exact I2|].
  rewrite E2, Ech. set (P := prodR _).
  assert (HP : 0 < P). { apply prodR_pos, Forall_map. eapply Forall_impl; [|exact Ha]. cbn. intros. lra. }
  assert (Hs : 0 < sqrt P) by now apply sqrt_lt_R0.
  assert (Hn' : 0 < 2 * eta * IZR n) by (apply Rmult_lt_0_compat; [lra|]; now apply IZR_lt).
  assert (Hq : 1 < exp (2 * eta * IZR n)) by (apply exp_increasing in Hn'; rewrite exp_0 in Hn'; lra).
  assert (Hpow : r ^ l <= r0 ^ d).
  { apply Rle_trans with (r0 ^ l); [apply pow_incr; lra|]. apply Rle_pow; [lra|easy]. }
  assert (Hp0 : 0 < r ^ l) by (apply pow_lt; lra).
  assert (Hex : exp (- (2 * eta * INR N)) <= / (exp (2 * eta * IZR n) - 1)).
  { rewrite exp_Ropp. apply Rinv_le_contravar; [lra|].
    assert (H3 : 2 * eta * IZR n <= 2 * eta * INR N).
    { apply Rmult_le_compat_l; [lra|]. rewrite INR_IZR_INZ. now apply IZR_le. }
    assert (exp (2 * eta * IZR n) <= exp (2 * eta * INR N)); [|lra].
    destruct H3 as [H3|H3]; [left; now apply exp_increasing|rewrite H3; lra]. }
  fold eta. assert (Hse : 0 < exp (- (2 * eta * INR N))) by apply exp_pos.
  set (ex := exp (- (2 * eta * INR N))) in *. set (q := exp (2 * eta * IZR n) - 1) in *.
  unfold Rdiv. rewrite !Rmult_assoc.
  apply Rmult_le_compat_l; [lra|]. apply Rmult_le_compat_l; [lra|].
  rewrite (Rmult_comm ex). rewrite <- (Rmult_assoc (r0 ^ d)).
  apply Rmult_le_compat; [|lra| |exact Hex].
  - apply Rmult_le_pos; [lra|]. left. now apply Rinv_0_lt_compat.
  - apply Rmult_le_compat_r; [left; now apply Rinv_0_lt_compat|easy].
Qed.
