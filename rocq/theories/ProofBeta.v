(** The integral of (1 - t^2)^(s-1) over [-1, 1] by the Gamma function. *)
From Coq Require Import Reals Lra Lia.
From Coquelicot Require Import Coquelicot.
From Verif Require Import SpecErr ProofErr4 ProofErr6 ProofGauss ProofHol7 SpecGamma.
Local Open Scope R_scope.

Definition gen (f : R -> R) (I : R) : Prop := is_RInt_gen f (at_right (-1)) (at_left 1) I.

Lemma inside : filter_prod (at_right (-1)) (at_left 1) (fun ab => -1 < fst ab < 0 /\ 0 < snd ab < 1).
Proof.
  apply (Filter_prod _ _ _ (fun a => -1 < a < 0) (fun b => 0 < b < 1)).
  - apply (near_left _ 0); [lra|auto].
  - apply (near_right _ 0); [lra|auto].
  - intros x y Hx Hy. cbn [fst snd]. auto.
Qed.
Lemma gen_ext_in f g I : (forall t, -1 < t < 1 -> f t = g t) -> gen f I -> gen g I.
Proof.
  intros E H. refine (@is_RInt_gen_ext R_NormedModule (at_right (-1)) (at_left 1) _ _ f g I _ H). generalize inside. apply filter_imp. intros [a b] [A B] x Hx. cbn [fst snd] in *.
  rewrite Rmin_left, Rmax_right in Hx by lra. apply E. lra.
Qed.
Lemma gen_unique f I J : gen f I -> gen f J -> I = J.
Proof. intros H K. transitivity (RInt_gen f (at_right (-1)) (at_left 1)); [symmetry|]; now apply is_RInt_gen_unique. Qed.
Lemma gen_le f g I J : (forall t, -1 < t < 1 -> 0 <= f t <= g t) -> gen f I -> gen g J -> 0 <= I <= J.
Proof.
  intros H Hf Hg.
  assert (P : forall a b, gen a I -> gen b J -> (forall t, -1 < t < 1 -> Rabs (a t) <= b t) -> Rabs I <= J).
  { intros a b Ha Hb L. refine (@RInt_gen_norm R_CompleteNormedModule (at_right (-1)) (at_left 1) _ _ a b I J _ _ Ha Hb).
    - generalize inside. apply filter_imp. intros [p q] [A B]. cbn [fst snd] in *. lra.
    - generalize inside. apply filter_imp. intros [p q] [A B] x Hx. cbn [fst snd] in *. apply L. lra. }
  assert (L1 : Rabs I <= J).
  { apply (P f g Hf Hg). intros t Ht. specialize (H t Ht). rewrite Rabs_pos_eq; lra. }
  assert (L2 : 0 <= I).
  { assert (Q : Rabs 0 <= I).
    { refine (@RInt_gen_norm R_CompleteNormedModule (at_right (-1)) (at_left 1) _ _ (fun t => 0 * f t) f 0 I _ _ _ Hf).
      - generalize inside. apply filter_imp. intros [p q] [A B]. cbn [fst snd] in *. lra.
      - generalize inside. apply filter_imp. intros [p q] [A B] x Hx. cbn [fst snd] in *. specialize (H x ltac:(lra)).
        unfold norm; cbn; unfold abs; cbn. rewrite Rmult_0_l, Rabs_R0. lra.
      - replace 0 with (0 * I) by ring. apply (gen_ext_in (fun t => 0 * f t)); [intros; ring|]. exact (gen_scal f 0 I Hf). }
    rewrite Rabs_R0 in Q. exact Q. }
  rewrite Rabs_pos_eq in L1 by exact L2. lra.
Qed.

(** (1 - t^2)^a, zero outside *)
Definition pw (a t : R) : R := if Rlt_dec 0 (1 - t * t) then Rpower (1 - t * t) a else 0.
Lemma pw_in a t : -1 < t < 1 -> pw a t = Rpower (1 - t * t) a.
Proof. intros H. unfold pw. destruct (Rlt_dec 0 (1 - t * t)); [reflexivity|]. nra. Qed.
Lemma sq_pos t : -1 < t < 1 -> 0 < 1 - t * t.
Proof. intros. nra. Qed.

Lemma pw_cont a t : 0 < a -> continuous (pw a) t.
Proof.
  intros Ha. destruct (Rlt_dec 0 (1 - t * t)) as [H|H].
  - apply (continuous_ext_loc _ (fun t => Rpower (1 - t * t) a)).
    + assert (L : locally t (fun y => 0 < 1 - y * y)).
      { assert (K : continuous (fun y => 1 - y * y) t) by (apply (ex_derive_continuous (fun y => 1 - y * y)); auto_derive; exact I).
        exact (K (fun z => 0 < z) (open_gt 0 _ H)). }
      revert L. apply filter_imp. intros y Hy. unfold pw. destruct (Rlt_dec 0 (1 - y * y)); [reflexivity|contradiction].
    + unfold Rpower. apply (ex_derive_continuous (fun t => exp (a * ln (1 - t * t)))). auto_derive. lra.
  - assert (E : pw a t = 0) by (unfold pw; destruct (Rlt_dec 0 (1 - t * t)); [contradiction|reflexivity]).
    unfold continuous. rewrite E. apply filterlim_locally. intros eps.
    assert (L : locally t (fun y => 1 - y * y < Rpower eps (/ a))).
    { assert (K : continuous (fun y => 1 - y * y) t) by (apply (ex_derive_continuous (fun y => 1 - y * y)); auto_derive; exact I).
      refine (K (fun z => z < Rpower eps (/ a)) (open_lt _ _ _)). assert (0 < Rpower eps (/ a)) by apply exp_pos. lra. }
    revert L. apply filter_imp. intros y Hy. unfold ball; cbn; unfold AbsRing_ball, abs, minus, plus, opp; cbn. rewrite Ropp_0, Rplus_0_r.
    unfold pw. destruct (Rlt_dec 0 (1 - y * y)) as [P|P].
    + rewrite Rabs_pos_eq by (left; apply exp_pos).
      replace (pos eps) with (Rpower (Rpower eps (/ a)) a).
      * unfold Rpower at 1 2. apply exp_increasing. apply Rmult_lt_compat_l; [exact Ha|]. apply ln_increasing; assumption.
      * rewrite Rpower_mult. rewrite Rinv_l by lra. apply Rpower_1, cond_pos.
    + rewrite Rabs_R0. apply cond_pos.
Qed.

Definition bint (s I : R) : Prop := gen (fun t => Rpower (1 - t * t) (s - 1)) I.

Lemma bint_unique s I J : bint s I -> bint s J -> I = J.
Proof. apply gen_unique. Qed.

(** existence above 1/2 *)
Lemma bint_large s : / 2 < s -> exists I, bint s I.
Proof.
  intros Hs. exists (RInt (fun t => pw (s - / 2) (cos t)) 0 PI). unfold bint.
  apply (gen_ext_in (fun t => pw (s - / 2) t / sqrt (1 - t * t))).
  - intros t Ht. rewrite pw_in by exact Ht. assert (P := sq_pos t Ht). rewrite <- Rpower_sqrt by exact P.
    unfold Rdiv. rewrite <- Rpower_Ropp, <- Rpower_plus. f_equal. lra.
  - exact (improper_general (pw (s - / 2)) (fun t _ => pw_cont (s - / 2) t ltac:(lra))).
Qed.
Lemma bint_half : bint (/ 2) PI.
Proof.
  unfold bint. apply (gen_ext_in (fun t => t ^ 0 / sqrt (1 - t * t))).
  - intros t Ht. assert (P := sq_pos t Ht). rewrite <- Rpower_sqrt by exact P. cbn [pow]. unfold Rdiv. rewrite Rmult_1_l, <- Rpower_Ropp. f_equal. lra.
  - assert (H := improper 0). assert (E : F 0 PI - F 0 0 = PI).
    { unfold F. rewrite RInt_point. rewrite (RInt_ext _ (fun _ => 1)) by (intros; reflexivity). rewrite RInt_const. unfold scal, zero; cbn; unfold mult; cbn. ring. }
    rewrite E in H. exact H.
Qed.

(** integration by parts *)
Lemma parts s : 0 < s -> gen (fun t => (1 + 2 * s) * Rpower (1 - t * t) s - 2 * s * Rpower (1 - t * t) (s - 1)) 0.
Proof.
  intros Hs. set (F0 := fun t => t * pw s t).
  assert (D : forall t, -1 < t < 1 -> is_derive F0 t ((1 + 2 * s) * Rpower (1 - t * t) s - 2 * s * Rpower (1 - t * t) (s - 1))).
  { intros t Ht. assert (P := sq_pos t Ht).
    apply (is_derive_ext_loc (fun t => t * Rpower (1 - t * t) s)).
    - assert (L : locally t (fun y => 0 < 1 - y * y)).
      { assert (K : continuous (fun y => 1 - y * y) t) by (apply (ex_derive_continuous (fun y => 1 - y * y)); auto_derive; exact I).
        exact (K (fun z => 0 < z) (open_gt 0 _ P)). }
      revert L. apply filter_imp. intros y Hy. unfold F0, pw. destruct (Rlt_dec 0 (1 - y * y)); [reflexivity|contradiction].
    - unfold Rpower at 1. auto_derive; [lra|].
      assert (E1 : Rpower (1 - t * t) s = Rpower (1 - t * t) (s - 1) * (1 - t * t)).
      { replace s with (s - 1 + 1) at 1 by ring. rewrite Rpower_plus, Rpower_1 by exact P. reflexivity. }
      change (1 + - (t * t)) with (1 - t * t). change (exp (s * ln (1 - t * t))) with (Rpower (1 - t * t) s).
      rewrite E1. field. lra. }
  assert (Fin : gen (Derive F0) (0 - 0)).
  { unfold gen. apply is_RInt_gen_Derive.
    - generalize inside. apply filter_imp. intros [a b] [A B] x Hx. cbn [fst snd] in *. rewrite Rmin_left, Rmax_right in Hx by lra.
      eexists. apply D. lra.
    - generalize inside. apply filter_imp. intros [a b] [A B] x Hx. cbn [fst snd] in *. rewrite Rmin_left, Rmax_right in Hx by lra.
      assert (Hx' : -1 < x < 1) by lra. assert (P := sq_pos x Hx').
      apply (continuous_ext_loc _ (fun t => (1 + 2 * s) * Rpower (1 - t * t) s - 2 * s * Rpower (1 - t * t) (s - 1))).
      + assert (L : locally x (fun y => -1 < y < 1)).
        { apply filter_and; [apply (open_gt (-1)); lra|apply (open_lt 1); lra]. }
        revert L. apply filter_imp. intros y Hy. symmetry. apply is_derive_unique, D, Hy.
      + unfold Rpower. apply (ex_derive_continuous (fun t => (1 + 2 * s) * exp (s * ln (1 - t * t)) - 2 * s * exp ((s - 1) * ln (1 - t * t)))). auto_derive. lra.
    - assert (E : F0 (-1) = 0) by (unfold F0, pw; destruct (Rlt_dec 0 (1 - -1 * -1)); [lra|ring]). rewrite <- E.
      apply (filterlim_filter_le_1 (F := locally (-1)) (G := at_right (-1))); [apply filter_le_within|].
      apply (continuous_mult (fun t => t) (pw s)); [apply continuous_id|apply pw_cont, Hs].
    - assert (E : F0 1 = 0) by (unfold F0, pw; destruct (Rlt_dec 0 (1 - 1 * 1)); [lra|ring]). rewrite <- E.
      apply (filterlim_filter_le_1 (F := locally 1) (G := at_left 1)); [apply filter_le_within|].
      apply (continuous_mult (fun t => t) (pw s)); [apply continuous_id|apply pw_cont, Hs]. }
  replace 0 with (0 - 0) by ring. apply (gen_ext_in (Derive F0)); [|exact Fin]. intros t Ht. apply is_derive_unique, D, Ht.
Qed.

Lemma bint_down s I : 0 < s -> bint (s + 1) I -> bint s ((1 + 2 * s) / (2 * s) * I).
Proof.
  intros Hs H. assert (P := parts s Hs). unfold bint in *.
  assert (A := gen_plus _ _ _ _ (gen_scal _ ((1 + 2 * s) / (2 * s)) _ H) (gen_scal _ (- / (2 * s)) _ P)).
  replace ((1 + 2 * s) / (2 * s) * I) with ((1 + 2 * s) / (2 * s) * I + - / (2 * s) * 0) by ring.
  eapply gen_ext_in; [|exact A]. intros t Ht. cbv beta. replace (s + 1 - 1) with s by ring. field. lra.
Qed.
Lemma bint_ex s : 0 < s -> exists I, bint s I.
Proof. intros H. destruct (bint_large (s + 1) ltac:(lra)) as (I & HI). eexists. apply bint_down; [exact H|exact HI]. Qed.
Lemma bint_step s I J : 0 < s -> bint s I -> bint (s + 1) J -> (1 + 2 * s) * J = 2 * s * I.
Proof. intros Hs HI HJ. rewrite (bint_unique s I _ HI (bint_down s J Hs HJ)). field. lra. Qed.

Lemma bint_mono s s' I J : 0 < s -> s <= s' -> bint s I -> bint s' J -> 0 <= J <= I.
Proof.
  intros Hs Hss HI HJ. apply (gen_le _ _ J I) with (2 := HJ) (3 := HI). intros t Ht. assert (P := sq_pos t Ht). split; [left; apply exp_pos|].
  unfold Rpower. assert (ln (1 - t * t) <= 0).
  { rewrite <- ln_1. destruct (Req_dec t 0) as [->|N]; [right; f_equal; ring|]. left. apply ln_increasing; [exact P|]. nra. }
  destruct (Req_dec ((s' - 1) * ln (1 - t * t)) ((s - 1) * ln (1 - t * t))) as [->|N]; [lra|]. left. apply exp_increasing. nra.
Qed.

Lemma bint_one : bint 1 2.
Proof.
  assert (H := bint_down (/ 2) PI). destruct (bint_ex 1 ltac:(lra)) as (I & HI). 
  assert (E : I = 2); [|now rewrite <- E].
  apply (gen_unique (fun _ => 1)).
  - unfold bint in HI. eapply gen_ext_in; [|exact HI]. intros t Ht. cbv beta. replace (1 - 1) with 0 by ring. apply Rpower_O, sq_pos, Ht.
  - assert (Fin : gen (Derive (fun t => t)) (1 - -1)).
    { unfold gen. apply is_RInt_gen_Derive.
      - apply filter_forall. intros ab x _. auto_derive. exact Logic.I.
      - apply filter_forall. intros ab x _. apply (continuous_ext (fun _ => 1)); [|apply continuous_const]. intros y. symmetry. apply Derive_id.
      - apply (filterlim_filter_le_1 (F := locally (-1)) (G := at_right (-1))); [apply filter_le_within|apply continuous_id].
      - apply (filterlim_filter_le_1 (F := locally 1) (G := at_left 1)); [apply filter_le_within|apply continuous_id]. }
    replace 2 with (1 - -1) by ring. eapply gen_ext_in; [|exact Fin]. intros. apply Derive_id.
Qed.
