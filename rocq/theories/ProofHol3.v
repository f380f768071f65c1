(** The trapezoidal rule for functions holomorphic in a strip. *)
From Coq Require Import Reals Lra Lia.
From Coquelicot Require Import Coquelicot.
From Verif Require Import CArg SpecDe ProofGauss ProofErr1 ProofErr2 ProofErr3 ProofErr4 ProofErr5 ProofHol1 ProofHol2.
Local Open Scope R_scope.

Lemma der_sin_over a t : 0 < a -> is_derive (fun t => sin (a * t) / a) t (cos (a * t)).
Proof. intro Ha. auto_derive; [easy|]. field. lra. Qed.
(** ** Fejer's kernel *)
Section Fejer.
Variable h : R.
Hypothesis Hh : 0 < h.
Let om := 2 * PI / h.
Definition dirichlet (M : nat) (t : R) : R := 1 + 2 * rsum M (fun n => cos (INR (S n) * (2 * PI / h) * t)).
Definition fejer (N : nat) (t : R) : R := rsum N (fun M => dirichlet M t) / INR N.
Lemma om_pos : 0 < om.
Proof using Hh. unfold om. apply Rdiv_lt_0_compat; [|exact Hh]. assert (H := PI_RGT_0). lra. Qed.
Lemma inr_odd M : INR (2 * M + 1) = 2 * INR M + 1.
Proof. rewrite plus_INR, mult_INR. reflexivity. Qed.
Lemma dirichlet_sin M t : dirichlet M t * sin (om * t / 2) = sin (INR (2 * M + 1) * (om * t / 2)).
Proof.
  unfold dirichlet. fold om. induction M as [|M IH]; cbn [rsum].
  - replace (INR (2 * 0 + 1)) with 1 by (cbn; ring). rewrite Rmult_1_l. ring.
  - replace ((1 + 2 * (rsum M (fun n => cos (INR (S n) * om * t)) + cos (INR (S M) * om * t))) * sin (om * t / 2))
      with ((1 + 2 * rsum M (fun n => cos (INR (S n) * om * t))) * sin (om * t / 2) + 2 * sin (om * t / 2) * cos (INR (S M) * om * t)) by ring.
    rewrite IH. set (th := om * t / 2). rewrite !inr_odd, S_INR. set (al := (2 * INR M + 2) * th). replace ((INR M + 1) * om * t) with al by (unfold al, th; field).
    replace ((2 * (INR M + 1) + 1) * th) with (al + th) by (unfold al; ring).
    replace ((2 * INR M + 1) * th) with (al - th) by (unfold al; ring).
    rewrite sin_plus, sin_minus. ring.
Qed.
Lemma fejer_sin N t : rsum N (fun M => dirichlet M t) * (sin (om * t / 2) * sin (om * t / 2)) = sin (INR N * (om * t / 2)) * sin (INR N * (om * t / 2)).
Proof.
  induction N as [|N IH]; cbn [rsum].
  - cbn [INR]. rewrite !Rmult_0_l, sin_0. ring.
  - rewrite Rmult_plus_distr_r, IH. replace (dirichlet N t * (sin (om * t / 2) * sin (om * t / 2))) with (dirichlet N t * sin (om * t / 2) * sin (om * t / 2)) by ring.
    rewrite dirichlet_sin. set (th := om * t / 2). rewrite S_INR.
    replace (INR (2 * N + 1) * th) with (INR N * th + (INR N * th + th)) by (rewrite inr_odd; ring).
    replace ((INR N + 1) * th) with (INR N * th + th) by ring. set (a := INR N * th).
    rewrite !sin_plus, !cos_plus. assert (H1 := sin2_cos2 a). assert (H2 := sin2_cos2 th). unfold Rsqr in *.
    set (sa := sin a) in *. set (ca := cos a) in *. set (s := sin th) in *. set (c := cos th) in *.
    replace ((sa * c + ca * s) * (sa * c + ca * s)) with (sa * sa * (c * c) + 2 * sa * ca * s * c + ca * ca * (s * s)) by ring.
    replace (c * c) with (1 - s * s) by lra.
    replace ((sa * (ca * c - sa * s) + ca * (sa * c + ca * s)) * s) with (2 * sa * ca * s * c - sa * sa * (s * s) + ca * ca * (s * s)) by ring. ring.
Qed.
Lemma fejer_pos N t : (1 <= N)%nat -> 0 <= fejer N t.
Proof.
  intro HN. assert (P : 0 < INR N) by (apply lt_0_INR; lia). unfold fejer. apply Rdiv_le_0_compat; [|exact P].
  destruct (Req_dec (sin (om * t / 2)) 0) as [E|E].
  - assert (Hc : forall n, cos (INR (S n) * (2 * PI / h) * t) = 1).
    { intro n. replace (INR (S n) * (2 * PI / h) * t) with (2 * (INR (S n) * (om * t / 2))) by (unfold om; field; lra).
      rewrite cos_2a_sin. assert (sin (INR (S n) * (om * t / 2)) = 0).
      { generalize (S n). intro k. induction k as [|k IHk]; [cbn [INR]; rewrite Rmult_0_l; apply sin_0|].
        rewrite S_INR, Rmult_plus_distr_r, Rmult_1_l, sin_plus, IHk, E. ring. }
      rewrite H. ring. }
    apply rsum_pos. intros k _. unfold dirichlet. rewrite (rsum_ext k _ (fun _ => 1)) by (intros; apply Hc).
    assert (0 <= rsum k (fun _ => 1)) by (apply rsum_pos; intros; lra). lra.
  - assert (H := fejer_sin N t). assert (0 < sin (om * t / 2) * sin (om * t / 2)) by nra.
    assert (0 <= sin (INR N * (om * t / 2)) * sin (INR N * (om * t / 2))) by nra. nra.
Qed.
Lemma fejer_le N t s : (1 <= N)%nat -> 0 < s -> s <= sin (om * t / 2) * sin (om * t / 2) -> fejer N t <= / (INR N * s).
Proof.
  intros HN Hs Hst. assert (P : 0 < INR N) by (apply lt_0_INR; lia). assert (H := fejer_sin N t).
  assert (HP := fejer_pos N t HN). assert (E : rsum N (fun M => dirichlet M t) = fejer N t * INR N) by (unfold fejer; field; lra).
  rewrite E in H. assert (Hb := SIN_bound (INR N * (om * t / 2))). set (sn := sin (INR N * (om * t / 2))) in *.
  assert (sn * sn <= 1) by nra.
  assert (fejer N t * (INR N * s) <= 1).
  { apply Rle_trans with (fejer N t * INR N * (sin (om * t / 2) * sin (om * t / 2))); [|lra].
    rewrite Rmult_assoc. apply Rmult_le_compat_l; [exact HP|]. apply Rmult_le_compat_l; lra. }
  apply (Rmult_le_reg_r (INR N * s)); [nra|]. rewrite Rinv_l by nra. exact H1.
Qed.
Lemma rsum_der n (f : nat -> R -> R) (d : nat -> R) x : (forall k, (k < n)%nat -> is_derive (f k) x (d k)) -> is_derive (fun t => rsum n (fun k => f k t)) x (rsum n d).
Proof.
  induction n as [|n IH]; intro H; cbn [rsum]; [exact (is_derive_const 0 x)|]. apply der_plus; [apply IH; intros; apply H; lia|apply H; lia].
Qed.
Lemma rsum_cont n (f : nat -> R -> R) x : (forall k, (k < n)%nat -> continuous (f k) x) -> continuous (fun t => rsum n (fun k => f k t)) x.
Proof.
  induction n as [|n IH]; intro H; cbn [rsum]; [apply continuous_const|]. apply cont_plus; [apply IH; intros; apply H; lia|apply H; lia].
Qed.
Lemma dirichlet_cont M t : continuous (dirichlet M) t.
Proof.
  unfold dirichlet. apply cont_plus; [apply continuous_const|]. apply cont_mult; [apply continuous_const|].
  apply (rsum_cont M (fun n t => cos (INR (S n) * (2 * PI / h) * t))). intros. apply cont_cos.
Qed.
Lemma fejer_cont N t : continuous (fejer N) t.
Proof.
  unfold fejer, Rdiv. apply cont_mult; [|apply continuous_const]. apply (rsum_cont N dirichlet). intros. apply dirichlet_cont.
Qed.
Lemma dirichlet_int M (k : Z) : is_RInt (dirichlet M) (IZR k * h - h / 2) (IZR k * h + h / 2) h.
Proof using Hh.
  assert (Hom := om_pos).
  set (P := fun t => t + 2 * rsum M (fun n => sin (INR (S n) * om * t) / (INR (S n) * om))).
  assert (HP : forall t, is_derive P t (dirichlet M t)).
  { intro t. unfold P, dirichlet. apply der_plus; [exact (is_derive_id t)|].
    eapply der_eq; [apply (der_mult (fun _ => 2)); [exact (is_derive_const 2 t)|]|].
    - apply (rsum_der M (fun n t => sin (INR (S n) * om * t) / (INR (S n) * om)) (fun n => cos (INR (S n) * om * t))). intros n _.
      assert (0 < INR (S n) * om) by (apply Rmult_lt_0_compat; [apply lt_0_INR; lia|exact Hom]).
      now apply der_sin_over.
    - cbn. fold om. unfold zero; cbn. ring. }
  assert (HE : P (IZR k * h + h / 2) - P (IZR k * h - h / 2) = h).
  { assert (Hs : forall n (b : Z), (b = 1 \/ b = -1)%Z -> sin (INR (S n) * om * (IZR k * h + IZR b * (h / 2))) = 0).
    { intros n b Hb. apply sin_eq_0_1. exists (Z.of_nat (S n) * (2 * k + b))%Z. rewrite mult_IZR, plus_IZR, mult_IZR, <- INR_IZR_INZ. unfold om. field. lra. }
    unfold P. rewrite (rsum_ext M (fun n => sin (INR (S n) * om * (IZR k * h + h / 2)) / (INR (S n) * om)) (fun _ => 0)),
      (rsum_ext M (fun n => sin (INR (S n) * om * (IZR k * h - h / 2)) / (INR (S n) * om)) (fun _ => 0)).
    - field.
    - intros n _. replace (IZR k * h - h / 2) with (IZR k * h + IZR (-1) * (h / 2)) by ring. rewrite Hs by (now right). unfold Rdiv. ring.
    - intros n _. replace (IZR k * h + h / 2) with (IZR k * h + IZR 1 * (h / 2)) by ring. rewrite Hs by (now left). unfold Rdiv. ring. }
  assert (HI := is_RInt_derive (V := R_CompleteNormedModule) P (dirichlet M) (IZR k * h - h / 2) (IZR k * h + h / 2) (fun t _ => HP t) (fun t _ => dirichlet_cont M t)).
  change (minus (P (IZR k * h + h / 2)) (P (IZR k * h - h / 2))) with (P (IZR k * h + h / 2) - P (IZR k * h - h / 2)) in HI. rewrite HE in HI. exact HI.
Qed.
Lemma rsum_int n (f : nat -> R -> R) a b (J : nat -> R) : (forall k, (k < n)%nat -> is_RInt (f k) a b (J k)) -> is_RInt (fun t => rsum n (fun k => f k t)) a b (rsum n J).
Proof.
  induction n as [|n IH]; intro H; cbn [rsum].
  - assert (HC := is_RInt_const (V := R_NormedModule) a b 0). change (is_RInt (fun _ : R => 0) a b ((b - a) * 0)) in HC. rewrite Rmult_0_r in HC. exact HC.
  - apply (is_RInt_plus (V := R_NormedModule)); [apply IH; intros; apply H; lia|apply H; lia].
Qed.
Lemma rsum_const n c : rsum n (fun _ => c) = INR n * c.
Proof. induction n as [|n IH]; cbn [rsum]; [cbn; ring|]. rewrite IH, S_INR. ring. Qed.
Lemma fejer_int N (k : Z) : (1 <= N)%nat -> is_RInt (fejer N) (IZR k * h - h / 2) (IZR k * h + h / 2) h.
Proof using Hh.
  intro HN. assert (P : 0 < INR N) by (apply lt_0_INR; lia).
  assert (H := rsum_int N dirichlet (IZR k * h - h / 2) (IZR k * h + h / 2) (fun _ => h) (fun M _ => dirichlet_int M k)).
  rewrite rsum_const in H. apply (is_RInt_scal (V := R_NormedModule) _ _ _ (/ INR N)) in H.
  change (scal (/ INR N) (INR N * h)) with (/ INR N * (INR N * h)) in H. replace (/ INR N * (INR N * h)) with h in H by (field; lra).
  revert H. apply (is_RInt_ext (V := R_NormedModule)). intros t _. unfold fejer, scal. cbn. unfold mult; cbn. unfold Rdiv. ring.
Qed.
End Fejer.

Lemma ccont_bounded f a b : a <= b -> (forall t, a <= t <= b -> ccont f t) -> exists M, 0 <= M /\ forall t, a <= t <= b -> Cmod (f t) <= M.
Proof.
  intros Hab Hf.
  assert (aux : forall g : R -> R, (forall t, a <= t <= b -> continuous g t) -> exists M, forall t, a <= t <= b -> Rabs (g t) <= M).
  { intros g Hg. destruct (continuity_ab_maj (fun t => Rabs (g t)) a b Hab) as (mx & H1 & _).
    - intros t Ht. apply (continuity_pt_comp g Rabs); [|apply Rcontinuity_abs]. apply continuity_pt_filterlim. now apply Hg.
    - exists (Rabs (g mx)). exact H1. }
  destruct (aux (fun t => fst (f t)) (fun t Ht => proj1 (Hf t Ht))) as (M1 & H1).
  destruct (aux (fun t => snd (f t)) (fun t Ht => proj2 (Hf t Ht))) as (M2 & H2).
  exists (M1 + M2). split.
  - assert (H := H1 a ltac:(lra)). assert (H' := H2 a ltac:(lra)). assert (P := Rabs_pos (fst (f a))). assert (P' := Rabs_pos (snd (f a))). lra.
  - intros t Ht. eapply Rle_trans; [apply Cmod_le_sum|]. specialize (H1 t Ht). specialize (H2 t Ht). lra.
Qed.
Lemma ccont_near f c e : ccont f c -> 0 < e -> exists d, 0 < d /\ forall t, Rabs (t - c) < d -> Cmod (f t - f c)%C <= e.
Proof.
  intros [H1 H2] He.
  assert (aux : forall g : R -> R, continuous g c -> exists d, 0 < d /\ forall t, Rabs (t - c) < d -> Rabs (g t - g c) <= e / 2).
  { intros g Hg. assert (He2 : 0 < e / 2) by lra. destruct (Hg (fun y => Rabs (y - g c) < e / 2)) as [d Hd].
    - exists (mkposreal _ He2). intros y Hy. exact Hy.
    - exists d. split; [apply cond_pos|]. intros t Ht. left. apply Hd. exact Ht. }
  destruct (aux _ H1) as (d1 & P1 & Q1). destruct (aux _ H2) as (d2 & P2 & Q2).
  exists (Rmin d1 d2). split; [now apply Rmin_glb_lt|]. intros t Ht.
  eapply Rle_trans; [apply Cmod_le_sum|]. cbn [fst snd Cminus Cplus Copp].
  assert (M1 := Rmin_l d1 d2). assert (M2 := Rmin_r d1 d2). specialize (Q1 t ltac:(lra)). specialize (Q2 t ltac:(lra)). unfold Rminus in Q1, Q2. lra.
Qed.
Lemma sin_shift_sq (k : Z) x : sin (IZR k * PI + x) * sin (IZR k * PI + x) = sin x * sin x.
Proof.
  assert (S0 : sin (IZR k * PI) = 0) by (apply sin_eq_0_1; now exists k).
  assert (H := sin2_cos2 (IZR k * PI)). rewrite S0 in H. unfold Rsqr in H. rewrite sin_plus, S0.
  replace ((0 * cos x + cos (IZR k * PI) * sin x) * (0 * cos x + cos (IZR k * PI) * sin x)) with (cos (IZR k * PI) * cos (IZR k * PI) * (sin x * sin x)) by ring.
  replace (cos (IZR k * PI) * cos (IZR k * PI)) with 1 by lra. ring.
Qed.
Lemma sin_sq_ge d x : 0 < d -> d <= Rabs x <= PI / 2 -> sin d * sin d <= sin x * sin x.
Proof.
  intros Hd Hx. assert (HP := PI_RGT_0).
  assert (E : sin x * sin x = sin (Rabs x) * sin (Rabs x)) by (unfold Rabs; destruct (Rcase_abs x); [rewrite sin_neg; ring|reflexivity]).
  rewrite E. assert (H1 : sin d <= sin (Rabs x)) by (apply sin_incr_1; lra).
  assert (H2 : 0 < sin d) by (apply sin_gt_0; lra). nra.
Qed.
Lemma fejer_limit h f (k : Z) e : 0 < h -> 0 < e -> (forall t, Rabs (t - IZR k * h) <= h / 2 -> ccont f t) ->
  exists N0, (1 <= N0)%nat /\ forall N, (N0 <= N)%nat ->
    Cmod (CInt (fun t => f t * RtoC (fejer h N t))%C (IZR k * h - h / 2)%R (IZR k * h + h / 2)%R - RtoC h * f (IZR k * h)%R)%C <= e.
Proof.
  intros Hh He Hf. set (c := IZR k * h) in *. assert (HP := PI_RGT_0).
  assert (Hin : forall t, c - h / 2 <= t <= c + h / 2 -> Rabs (t - c) <= h / 2) by (intros; apply Rabs_le; lra).
  destruct (ccont_bounded f (c - h / 2) (c + h / 2) ltac:(lra) (fun t Ht => Hf t (Hin t Ht))) as (M & HM & Hb).
  destruct (ccont_near f c (e / (2 * h))) as (d0 & Hd0 & Hn).
  { apply Hf. replace (c - c) with 0 by ring. rewrite Rabs_R0. lra. } { apply Rdiv_lt_0_compat; lra. }
  set (d := Rmin d0 (h / 2)). assert (Hd : 0 < d <= h / 2) by (unfold d; split; [apply Rmin_glb_lt; lra|apply Rmin_r]).
  assert (Hd1 : d <= d0) by apply Rmin_l.
  set (sg := sin (PI * d / h) * sin (PI * d / h)).
  assert (Hpd : 0 < PI * d / h <= PI / 2).
  { split; [apply Rdiv_lt_0_compat; nra|]. apply Rle_div_l; [lra|]. nra. }
  assert (Hsg : 0 < sg) by (unfold sg; assert (0 < sin (PI * d / h)) by (apply sin_gt_0; lra); nra).
  destruct (nfloor_ex (4 * h * M / (e * sg))) as (n0 & Hn0).
  { apply Rdiv_le_0_compat; nra. }
  exists (S n0). split; [lia|]. intros N HN.
  assert (HN1 : (1 <= N)%nat) by lia. assert (PN : 0 < INR N) by (apply lt_0_INR; lia).
  assert (HNb : 4 * h * M / (e * sg) <= INR N).
  { apply Rle_trans with (INR (S n0)); [rewrite S_INR; lra|]. now apply le_INR. }
  assert (HI : cint (fun t => (f t - f c) * RtoC (fejer h N t))%C (c - h / 2) (c + h / 2)
    (CInt (fun t => f t * RtoC (fejer h N t))%C (c - h / 2) (c + h / 2) - RtoC h * f c)%C).
  { apply (cint_ext (fun t => f t * RtoC (fejer h N t) + - (f c * RtoC (fejer h N t)))%C).
    { intros t _. ring. }
    apply cint_plus.
    - apply cint_ex. unfold between. rewrite Rmin_left, Rmax_right by lra. intros t Ht. apply ccont_mult; [now apply Hf, Hin|]. apply ccont_R, fejer_cont.
    - apply cint_opp. rewrite (Cmult_comm (RtoC h)). apply cint_scal. split; cbn [fst snd RtoC].
      + now apply fejer_int.
      + assert (HC := is_RInt_const (V := R_NormedModule) (c - h / 2) (c + h / 2) 0). 
        change (is_RInt (fun _ : R => 0) (c - h / 2) (c + h / 2) ((c + h / 2 - (c - h / 2)) * 0)) in HC. rewrite Rmult_0_r in HC. exact HC. }
  assert (HB : is_RInt (fun t => e / (2 * h) * fejer h N t + 2 * M * / (INR N * sg)) (c - h / 2) (c + h / 2) (e / (2 * h) * h + h * (2 * M * / (INR N * sg)))).
  { apply (is_RInt_plus (V := R_NormedModule)).
    - apply (is_RInt_scal (V := R_NormedModule)). now apply fejer_int.
    - assert (HC := is_RInt_const (V := R_NormedModule) (c - h / 2) (c + h / 2) (2 * M * / (INR N * sg))).
      change (is_RInt (fun _ : R => 2 * M * / (INR N * sg)) (c - h / 2) (c + h / 2) ((c + h / 2 - (c - h / 2)) * (2 * M * / (INR N * sg)))) in HC.
      replace (c + h / 2 - (c - h / 2)) with h in HC by field. exact HC. }
  assert (Hcc : c - h / 2 <= c + h / 2) by lra. eapply Rle_trans; [apply (cint_bound _ _ _ _ _ _ Hcc HI HB)|].
  - intros t Ht. rewrite Cmod_mult, Cmod_R. assert (HF := fejer_pos h Hh N t HN1). rewrite (Rabs_pos_eq (fejer h N t)) by exact HF.
    assert (Hq : 0 <= 2 * M * / (INR N * sg)) by (apply Rmult_le_pos; [lra|]; left; apply Rinv_0_lt_compat; nra).
    assert (He2 : 0 < e / (2 * h)) by (apply Rdiv_lt_0_compat; lra).
    destruct (Rlt_le_dec (Rabs (t - c)) d) as [Hl|Hl].
    + assert (H := Hn t ltac:(lra)). assert (Cmod (f t - f c)%C * fejer h N t <= e / (2 * h) * fejer h N t) by (apply Rmult_le_compat_r; assumption). lra.
    + assert (H := fejer_le h Hh N t sg HN1 Hsg).
      assert (Hs : sg <= sin (2 * PI / h * t / 2) * sin (2 * PI / h * t / 2)).
      { replace (2 * PI / h * t / 2) with (IZR k * PI + PI * (t - c) / h) by (unfold c; field; lra). rewrite sin_shift_sq. unfold sg. apply sin_sq_ge; [lra|].
        unfold Rdiv. rewrite !Rabs_mult, (Rabs_pos_eq PI), (Rabs_pos_eq (/ h)) by (try lra; left; apply Rinv_0_lt_compat; lra).
        assert (Hih : 0 < / h) by (apply Rinv_0_lt_compat; lra). assert (Ht' := Hin t ltac:(lra)). split.
        - apply Rmult_le_compat_r; [lra|]. apply Rmult_le_compat_l; lra.
        - apply Rle_trans with (PI * (h / 2) * / h); [|right; field; lra]. apply Rmult_le_compat_r; [lra|]. apply Rmult_le_compat_l; lra. }
      specialize (H Hs).
      assert (H2 : Cmod (f t - f c)%C <= 2 * M).
      { eapply Rle_trans; [apply Cmod_minus_le|]. assert (A1 := Hb t ltac:(lra)). assert (A2 := Hb c ltac:(lra)). lra. }
      assert (Cmod (f t - f c)%C * fejer h N t <= 2 * M * / (INR N * sg)).
      { apply Rmult_le_compat; try assumption. apply Cmod_ge_0. }
      assert (0 <= e / (2 * h) * fejer h N t) by (apply Rmult_le_pos; lra). lra.
  - assert (h * (2 * M * / (INR N * sg)) <= e / 2); [|replace (e / (2 * h) * h) with (e / 2) by (field; lra); lra].
    apply Rle_div_l in HNb; [|nra]. replace (h * (2 * M * / (INR N * sg))) with ((2 * h * M) / (INR N * sg)) by (field; split; lra).
    apply Rle_div_l; [nra|]. nra.
Qed.
