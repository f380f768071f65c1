(** The image of the closed strip |Im w| <= r by tanh(l sinh w), together with 1 and -1, as the set
    where a continuous function is not negative. *)
From Coq Require Import Reals Lra Lia List.
From Coquelicot Require Import Coquelicot.
From Verif Require Import CArg SpecDe ModelDeq ProofMaxmod ProofCompact ProofDe2 ProofDe3 ProofHol1 ProofHol5 ProofHol11.
Import ListNotations.
Local Open Scope R_scope.

(** ** Continuous real functions of a complex number *)
Definition contR (F : C -> R) (p : C) : Prop := forall e, 0 < e -> exists d, 0 < d /\ forall z, Cmod (z - p)%C <= d -> Rabs (F z - F p) < e.
Lemma contR_const c p : contR (fun _ => c) p.
Proof. intros e He. exists 1. split; [lra|]. intros z _. unfold Rminus. now rewrite Rplus_opp_r, Rabs_R0. Qed.
Lemma contR_comp g F p : contR F p -> continuity_pt g (F p) -> contR (fun z => g (F z)) p.
Proof.
  intros HF Hg e He. destruct (Hg e He) as (a & Ha & H). destruct (HF a Ha) as (d & Hd & G). exists d. split; [exact Hd|].
  intros z Hz. specialize (G z Hz). destruct (Req_dec (F z) (F p)) as [->|N]; [unfold Rminus; rewrite Rplus_opp_r, Rabs_R0; exact He|].
  specialize (H (F z)). cbn in H. unfold R_dist in H. apply H. repeat split; auto.
Qed.
Lemma contR_plus F G p : contR F p -> contR G p -> contR (fun z => F z + G z) p.
Proof.
  intros HF HG e He. destruct (HF (e / 2) ltac:(lra)) as (d & Hd & A). destruct (HG (e / 2) ltac:(lra)) as (d' & Hd' & B).
  exists (Rmin d d'). split; [now apply Rmin_glb_lt|]. intros z Hz. assert (L := Rmin_l d d'). assert (L' := Rmin_r d d').
  specialize (A z ltac:(lra)). specialize (B z ltac:(lra)). replace (F z + G z - (F p + G p)) with ((F z - F p) + (G z - G p)) by ring.
  eapply Rle_lt_trans; [apply Rabs_triang|]. lra.
Qed.
Lemma contR_mult F G p : contR F p -> contR G p -> contR (fun z => F z * G z) p.
Proof.
  intros HF HG.
  assert (E : contR (fun z => / 4 * ((F z + G z) * (F z + G z)) + - / 4 * ((F z + - 1 * G z) * (F z + - 1 * G z))) p).
  { apply contR_plus.
    - apply (contR_comp (fun x => / 4 * (x * x)) (fun z => F z + G z)); [now apply contR_plus|]. apply derivable_continuous_pt. reg.
    - apply (contR_comp (fun x => - / 4 * (x * x)) (fun z => F z + - 1 * G z)).
      + apply contR_plus; [exact HF|]. apply (contR_comp (fun x => - 1 * x) G); [exact HG|]. apply derivable_continuous_pt. reg.
      + apply derivable_continuous_pt. reg. }
  intros e He. destruct (E e He) as (d & Hd & H). exists d. split; [exact Hd|]. intros z Hz. specialize (H z Hz).
  match goal with H : Rabs ?a < e |- Rabs ?b < e => replace b with a by field; exact H end.
Qed.
Lemma contR_mod f p : pol f -> contR (fun z => Cmod (f z)) p.
Proof.
  intros Hf e He. destruct (pol_cont f p Hf e He) as (d & Hd & H). exists d. split; [exact Hd|]. intros z Hz. specialize (H z Hz).
  eapply Rle_lt_trans; [|exact H]. apply Rabs_le. split.
  - assert (Cmod (f p) <= Cmod (f z) + Cmod (f z - f p)%C); [|lra]. rewrite <- (Cmod_opp (f z - f p)%C).
    eapply Rle_trans; [|apply Cmod_triangle]. right. f_equal. ring.
  - assert (Cmod (f z) <= Cmod (f p) + Cmod (f z - f p)%C); [|lra].
    eapply Rle_trans; [|apply Cmod_triangle]. right. f_equal. ring.
Qed.
Lemma contR_below F p : contR F p -> below_at F p.
Proof. intros H e He. destruct (H e He) as (d & Hd & G). exists d. split; [exact Hd|]. intros z Hz. specialize (G z Hz). apply Rabs_lt_between in G. lra. Qed.
Lemma contR_pos F p : contR F p -> 0 < F p -> exists d, 0 < d /\ forall z, Cmod (z - p)%C <= d -> 0 < F z.
Proof. intros H Hp. destruct (H (F p) Hp) as (d & Hd & G). exists d. split; [exact Hd|]. intros z Hz. specialize (G z Hz). apply Rabs_lt_between in G. lra. Qed.
Lemma contR_neg F p : contR F p -> F p < 0 -> exists d, 0 < d /\ forall z, Cmod (z - p)%C <= d -> F z < 0.
Proof. intros H Hp. destruct (H (- F p) ltac:(lra)) as (d & Hd & G). exists d. split; [exact Hd|]. intros z Hz. specialize (G z Hz). apply Rabs_lt_between in G. lra. Qed.

(** ** The cosine, continued by a line after pi *)
Definition psi (x : R) : R := cos ((x + PI - Rabs (x - PI)) / 2) - (x - PI + Rabs (x - PI)) / 2.
Lemma psi_low x : x <= PI -> psi x = cos x.
Proof. intro H. unfold psi. rewrite Rabs_left1 by lra. replace ((x + PI - - (x - PI)) / 2) with x by field. replace ((x - PI + - (x - PI)) / 2) with 0 by field. ring. Qed.
Lemma psi_high x : PI <= x -> psi x = -1 - (x - PI).
Proof. intro H. unfold psi. rewrite Rabs_pos_eq by lra. replace ((x + PI - (x - PI)) / 2) with PI by field. rewrite cos_PI. field. Qed.
Lemma psi_cont x : continuity_pt psi x.
Proof.
  unfold psi. apply continuity_pt_minus.
  - apply (continuity_pt_comp (fun x => (x + PI - Rabs (x - PI)) / 2) cos); [|apply continuity_cos].
    apply (continuity_pt_mult (fun x => x + PI - Rabs (x - PI)) (fun _ => / 2)); [|apply continuity_pt_const; now intros ? ?].
    apply continuity_pt_minus; [apply derivable_continuous_pt; reg|].
    apply (continuity_pt_comp (fun x => x - PI) Rabs); [apply derivable_continuous_pt; reg|apply Rcontinuity_abs].
  - apply (continuity_pt_mult (fun x => x - PI + Rabs (x - PI)) (fun _ => / 2)); [|apply continuity_pt_const; now intros ? ?].
    apply continuity_pt_plus; [apply derivable_continuous_pt; reg|].
    apply (continuity_pt_comp (fun x => x - PI) Rabs); [apply derivable_continuous_pt; reg|apply Rcontinuity_abs].
Qed.
Lemma psi_decr x y : 0 <= x < y -> psi y < psi x.
Proof.
  intros [H1 H2]. destruct (Rle_dec y PI).
  - rewrite !psi_low by lra. apply cos_decreasing_1; lra.
  - rewrite (psi_high y) by lra. destruct (Rle_dec x PI); [rewrite psi_low by lra; assert (B := COS_bound x); lra|rewrite psi_high by lra; lra].
Qed.
Lemma psi_le_cos x : 0 <= x -> psi x <= cos x.
Proof. intro H. destruct (Rle_dec x PI); [rewrite psi_low by lra; lra|]. rewrite psi_high by lra. assert (B := COS_bound x). lra. Qed.

(** ** Coordinates *)
Section Strip.
Variables (l r : R).
Hypotheses (Hl : 0 < l) (Hr : 0 < r < PI / 2) (Hs : l * sin r < PI / 2).

Definition Th (x : R) : R := 2 * (l * sin r) * sqrt (1 + (x / (2 * l * cos r)) * (x / (2 * l * cos r))).
Definition Lz (z : C) : R := ln (Cmod (RtoC 1 + z)%C) - ln (Cmod (RtoC 1 - z)%C).
Definition Cz (z : C) : R := (1 - Cmod z * Cmod z) * / (Cmod (RtoC 1 + z)%C * Cmod (RtoC 1 - z)%C).
Definition Ph (z : C) : R := Cz z - psi (Th (Lz z)).
Definition Kset (z : C) : Prop := z = RtoC 1 \/ z = RtoC (-1) \/ 0 <= Ph z.

Lemma sr : 0 < sin r. Proof. apply sin_gt_0; lra. Qed.
Lemma cr : 0 < cos r. Proof. apply cos_gt_0; lra. Qed.
Lemma Th_pos x : 0 <= Th x.
Proof. unfold Th. assert (S := sr). assert (Q := sqrt_pos (1 + x / (2 * l * cos r) * (x / (2 * l * cos r)))). assert (0 < l * sin r) by nra. nra. Qed.
Lemma Th_cont x : continuity_pt Th x.
Proof.
  unfold Th. apply (continuity_pt_mult (fun _ => 2 * (l * sin r)) (fun x => sqrt (1 + x / (2 * l * cos r) * (x / (2 * l * cos r))))); [apply continuity_pt_const; now intros ? ?|].
  apply (continuity_pt_comp (fun x => 1 + x / (2 * l * cos r) * (x / (2 * l * cos r))) sqrt).
  - apply derivable_continuous_pt. unfold Rdiv. reg.
  - apply continuity_pt_sqrt. assert (0 <= x / (2 * l * cos r) * (x / (2 * l * cos r))); [|lra]. generalize (x / (2 * l * cos r)). intro. nra.
Qed.
Lemma Th_ge x : sin r / cos r * Rabs x <= Th x.
Proof.
  assert (S := sr). assert (K := cr). assert (LS : 0 < l * sin r) by nra. assert (LC : 0 < l * cos r) by nra. unfold Th. set (q := x / (2 * l * cos r)).
  assert (E : Rabs x = 2 * l * cos r * Rabs q). { unfold q, Rdiv. rewrite Rabs_mult, (Rabs_pos_eq (/ _)) by (left; apply Rinv_0_lt_compat; nra). field. lra. }
  rewrite E. apply Rle_trans with (2 * (l * sin r) * Rabs q); [right; field; lra|]. apply Rmult_le_compat_l; [lra|].
  rewrite <- sqrt_Rsqr_abs. apply sqrt_le_1_alt. unfold Rsqr. lra.
Qed.
Lemma Th_le x : Th x <= 2 * (l * sin r) + sin r / cos r * Rabs x.
Proof.
  assert (S := sr). assert (K := cr). assert (LS : 0 < l * sin r) by nra. assert (LC : 0 < l * cos r) by nra. unfold Th. set (q := x / (2 * l * cos r)).
  assert (E : Rabs x = 2 * l * cos r * Rabs q). { unfold q, Rdiv. rewrite Rabs_mult, (Rabs_pos_eq (/ _)) by (left; apply Rinv_0_lt_compat; nra). field. lra. }
  rewrite E. apply Rle_trans with (2 * (l * sin r) * (1 + Rabs q)); [|right; field; lra]. apply Rmult_le_compat_l; [lra|].
  assert (Q := Rabs_pos q). rewrite <- (sqrt_Rsqr (1 + Rabs q)) by lra. apply sqrt_le_1_alt. unfold Rsqr.
  replace (q * q) with (Rabs q * Rabs q) by (rewrite <- Rabs_mult, Rabs_pos_eq; nra). nra.
Qed.
Lemma Th_even x : Th (- x) = Th x.
Proof. unfold Th. f_equal. f_equal. unfold Rdiv. ring. Qed.

Lemma one_sep z : z <> RtoC 1 -> z <> RtoC (-1) -> 0 < Cmod (RtoC 1 - z)%C /\ 0 < Cmod (RtoC 1 + z)%C.
Proof.
  intros H1 H2. split; apply Cmod_gt_0; intro E.
  - apply H1. transitivity (RtoC 1 - (RtoC 1 - z))%C; [ring|]. rewrite E. ring.
  - apply H2. transitivity ((RtoC 1 + z) - RtoC 1)%C; [ring|]. rewrite E. apply injective_projections; cbn; ring.
Qed.
Lemma pol_1p : pol (fun z => RtoC 1 + z)%C. Proof. apply pol_add; [apply pol_const|apply pol_id]. Qed.
Lemma pol_1m : pol (fun z => RtoC 1 - z)%C.
Proof. destruct (pol_add _ _ (pol_const (RtoC 1)) (pol_scal (RtoC (-1)) _ pol_id)) as [k Hk]. exists k. intro z. rewrite <- Hk. apply injective_projections; cbn; ring. Qed.
Lemma cont_ln x : 0 < x -> continuity_pt ln x.
Proof. intro H. apply derivable_continuous_pt. exists (/ x). now apply derivable_pt_lim_ln. Qed.
Lemma Lz_cont p : p <> RtoC 1 -> p <> RtoC (-1) -> contR Lz p.
Proof.
  intros H1 H2. destruct (one_sep p H1 H2) as [A B].
  assert (E : contR (fun z => ln (Cmod (RtoC 1 + z)%C) + (fun x => - ln x) (Cmod (RtoC 1 - z)%C)) p); [|exact E].
  apply contR_plus.
  - apply (contR_comp ln (fun z => Cmod (RtoC 1 + z)%C)); [apply contR_mod, pol_1p|now apply cont_ln].
  - apply (contR_comp (fun x => - ln x) (fun z => Cmod (RtoC 1 - z)%C)); [apply contR_mod, pol_1m|]. apply continuity_pt_opp. now apply cont_ln.
Qed.
Lemma Cz_cont p : p <> RtoC 1 -> p <> RtoC (-1) -> contR Cz p.
Proof.
  intros H1 H2. destruct (one_sep p H1 H2) as [A B]. unfold Cz. apply contR_mult.
  - apply (contR_comp (fun x => 1 - x * x) Cmod); [|apply derivable_continuous_pt; reg]. exact (contR_mod (fun z => z) p pol_id).
  - apply (contR_comp Rinv (fun z => Cmod (RtoC 1 + z)%C * Cmod (RtoC 1 - z)%C)).
    + apply contR_mult; apply contR_mod; [apply pol_1p|apply pol_1m].
    + apply continuity_pt_inv; [apply derivable_continuous_pt; reg|]. apply Rmult_integral_contrapositive. lra.
Qed.
Lemma Ph_cont p : p <> RtoC 1 -> p <> RtoC (-1) -> contR Ph p.
Proof.
  intros H1 H2. assert (E : contR (fun z => Cz z + (fun x => - psi (Th x)) (Lz z)) p); [|exact E].
  apply contR_plus; [now apply Cz_cont|]. apply (contR_comp (fun x => - psi (Th x)) Lz); [now apply Lz_cont|].
  apply continuity_pt_opp. apply (continuity_pt_comp Th psi); [apply Th_cont|apply psi_cont].
Qed.
Lemma mod_m1 : Cmod (RtoC (-1)) = 1.
Proof. rewrite Cmod_R. unfold Rabs. destruct (Rcase_abs (-1)); lra. Qed.
Lemma Cz_abs z : -1 <= Cz z <= 1.
Proof.
  destruct (Ceq_dec z (RtoC 1)) as [->|H1]; [|destruct (Ceq_dec z (RtoC (-1))) as [->|H2]].
  - unfold Cz. rewrite Cmod_R, Rabs_R1. lra.
  - unfold Cz. rewrite mod_m1. lra.
  - destruct (one_sep z H1 H2) as [A B]. unfold Cz. set (a := Cmod (RtoC 1 - z)%C) in *. set (b := Cmod (RtoC 1 + z)%C) in *.
    assert (AB : 0 < b * a) by nra.
    assert (E : (b * a) * (b * a) = (1 - Cmod z * Cmod z) * (1 - Cmod z * Cmod z) + 4 * (snd z * snd z)).
    { replace ((b * a) * (b * a)) with ((b * b) * (a * a)) by ring. unfold a, b. rewrite !Cmod_sq. destruct z as [x y]. cbn. ring. }
    assert (P : 0 <= snd z * snd z) by nra. set (c := 1 - Cmod z * Cmod z) in *.
    split; apply (Rmult_le_reg_r (b * a)); try assumption; rewrite Rmult_assoc, Rinv_l by lra; nra.
Qed.

(** ** Closed *)
Lemma K_near1 : exists d, 0 < d /\ forall z, Cmod (RtoC 1 - z)%C <= d \/ Cmod (RtoC 1 + z)%C <= d -> Kset z.
Proof.
  assert (S := sr). assert (K := cr). assert (HP := PI_RGT_0). set (T := PI * cos r / sin r).
  assert (T0 : 0 < T) by (unfold T; apply Rdiv_lt_0_compat; nra).
  exists (exp (- T)). split; [apply exp_pos|]. intros z Hz.
  destruct (Ceq_dec z (RtoC 1)) as [->|H1]; [now left|]. destruct (Ceq_dec z (RtoC (-1))) as [->|H2]; [right; now left|]. right; right.
  destruct (one_sep z H1 H2) as [A B].
  assert (E1 : exp (- T) <= 1). { rewrite <- exp_0. apply ProofDe2.exp_le. lra. }
  assert (Tr : 2 <= Cmod (RtoC 1 + z)%C + Cmod (RtoC 1 - z)%C).
  { replace 2 with (Cmod (RtoC 2)) by (rewrite Cmod_R; apply Rabs_pos_eq; lra). replace (RtoC 2) with ((RtoC 1 + z) + (RtoC 1 - z))%C by (apply injective_projections; cbn; ring). apply Cmod_triangle. }
  assert (HL : T <= Rabs (Lz z)).
  { unfold Lz. destruct Hz as [Hz|Hz].
    - eapply Rle_trans; [|apply Rle_abs]. assert (0 <= ln (Cmod (RtoC 1 + z)%C)) by (rewrite <- ln_1; apply ln_le; lra).
      assert (ln (Cmod (RtoC 1 - z)%C) <= - T) by (rewrite <- (ln_exp (- T)); apply ln_le; lra). lra.
    - rewrite <- Rabs_Ropp. eapply Rle_trans; [|apply Rle_abs]. assert (0 <= ln (Cmod (RtoC 1 - z)%C)) by (rewrite <- ln_1; apply ln_le; lra).
      assert (ln (Cmod (RtoC 1 + z)%C) <= - T) by (rewrite <- (ln_exp (- T)); apply ln_le; lra). lra. }
  assert (HT : PI <= Th (Lz z)).
  { eapply Rle_trans; [|apply Th_ge]. apply Rle_trans with (sin r / cos r * T); [right; unfold T; field; lra|]. apply Rmult_le_compat_l; [|exact HL]. left. now apply Rdiv_lt_0_compat. }
  unfold Ph. rewrite psi_high by exact HT. assert (X := Cz_abs z). lra.
Qed.
Lemma dist_sym (a b : C) : Cmod (a - b)%C = Cmod (b - a)%C.
Proof. rewrite <- Cmod_opp. f_equal. ring. Qed.
Lemma K_open1 p : p = RtoC 1 \/ p = RtoC (-1) -> exists d, 0 < d /\ forall z, Cmod (z - p)%C <= d -> Kset z.
Proof.
  intro Hp. destruct K_near1 as (d & Hd & H). exists d. split; [exact Hd|]. intros z Hz. apply H. destruct Hp as [->| ->]; [left|right].
  - now rewrite dist_sym.
  - replace (RtoC 1 + z)%C with (z - RtoC (-1))%C by (apply injective_projections; cbn; ring). exact Hz.
Qed.
Lemma K_open p : p <> RtoC 1 -> p <> RtoC (-1) -> 0 < Ph p -> exists d, 0 < d /\ forall z, Cmod (z - p)%C <= d -> Kset z.
Proof. intros H1 H2 H. destruct (contR_pos Ph p (Ph_cont p H1 H2) H) as (d & Hd & G). exists d. split; [exact Hd|]. intros z Hz. right; right. specialize (G z Hz). lra. Qed.
Lemma K_closed : closed_at Kset.
Proof.
  intros p Hp. assert (H1 : p <> RtoC 1) by (intros ->; apply Hp; now left). assert (H2 : p <> RtoC (-1)) by (intros ->; apply Hp; right; now left).
  assert (H3 : Ph p < 0) by (apply Rnot_le_lt; intro; apply Hp; now right; right).
  destruct (contR_neg Ph p (Ph_cont p H1 H2) H3) as (d & Hd & G).
  assert (A : 0 < Cmod (RtoC 1 - p)%C) by apply (one_sep p H1 H2). assert (B : 0 < Cmod (RtoC (-1) - p)%C).
  { replace (RtoC (-1) - p)%C with (- (RtoC 1 + p))%C by (apply injective_projections; cbn; ring). rewrite Cmod_opp. apply (one_sep p H1 H2). }
  set (e := Rmin d (Rmin (Cmod (RtoC 1 - p)%C / 2) (Cmod (RtoC (-1) - p)%C / 2))).
  exists e. split; [unfold e; repeat apply Rmin_glb_lt; lra|]. assert (L1 : e <= d) by apply Rmin_l.
  assert (L2 : e <= Cmod (RtoC 1 - p)%C / 2) by (eapply Rle_trans; [apply Rmin_r|apply Rmin_l]). assert (L3 : e <= Cmod (RtoC (-1) - p)%C / 2) by (eapply Rle_trans; [apply Rmin_r|apply Rmin_r]).
  intros z Hz [->|[->|K]]; [lra|lra|]. specialize (G z ltac:(lra)). lra.
Qed.

(** ** Bounded *)
Lemma K_bounded : exists B, forall z, Kset z -> Cmod z <= B.
Proof.
  assert (S := sr). assert (K := cr). assert (HP := PI_RGT_0). assert (LS : 0 < l * sin r) by nra.
  set (D := (PI - 2 * (l * sin r)) / 2 * cos r / sin r). assert (D0 : 0 < D) by (unfold D; apply Rdiv_lt_0_compat; nra).
  set (th := (PI + 2 * (l * sin r)) / 2). assert (Hth : 0 < th < PI) by (unfold th; lra).
  assert (Hc : -1 < cos th). { rewrite <- cos_PI. apply cos_decreasing_1; lra. }
  set (c := cos th) in *. set (x := exp D). assert (Hx : 1 < x). { unfold x. rewrite <- exp_0. now apply exp_increasing. }
  exists (Rmax 1 (Rmax ((x + 1) / (x - 1)) (2 / (1 + c)))).
  set (B := Rmax 1 (Rmax ((x + 1) / (x - 1)) (2 / (1 + c)))).
  assert (B1 : 1 <= B) by apply Rmax_l. assert (B2 : (x + 1) / (x - 1) <= B) by (eapply Rle_trans; [|apply Rmax_r]; apply Rmax_l).
  assert (B3 : 2 / (1 + c) <= B) by (eapply Rle_trans; [|apply Rmax_r]; apply Rmax_r).
  intros z [->|[->|HK]]; [rewrite Cmod_R, Rabs_R1; lra|rewrite mod_m1; lra|].
  destruct (Ceq_dec z (RtoC 1)) as [->|H1]; [rewrite Cmod_R, Rabs_R1; lra|]. destruct (Ceq_dec z (RtoC (-1))) as [->|H2]; [rewrite mod_m1; lra|].
  destruct (one_sep z H1 H2) as [A A']. destruct (Rle_dec (Cmod z) 1) as [|Hz]; [lra|]. apply Rnot_le_lt in Hz.
  assert (T1 : Cmod (RtoC 1 - z)%C <= Cmod z + 1). { eapply Rle_trans; [apply Cmod_triangle|]. rewrite Cmod_opp, Cmod_R, Rabs_R1. lra. }
  assert (T2 : Cmod (RtoC 1 + z)%C <= Cmod z + 1). { eapply Rle_trans; [apply Cmod_triangle|]. rewrite Cmod_R, Rabs_R1. lra. }
  assert (T3 : Cmod z - 1 <= Cmod (RtoC 1 - z)%C). { assert (Cmod z <= Cmod (- (RtoC 1 - z))%C + Cmod (RtoC 1)); [eapply Rle_trans; [|apply Cmod_triangle]; right; f_equal; ring|]. rewrite Cmod_opp, Cmod_R, Rabs_R1 in H. lra. }
  assert (T4 : Cmod z - 1 <= Cmod (RtoC 1 + z)%C). { assert (Cmod z <= Cmod (RtoC 1 + z)%C + Cmod (RtoC (-1))); [eapply Rle_trans; [|apply Cmod_triangle]; right; f_equal; apply injective_projections; cbn; ring|]. rewrite mod_m1 in H. lra. }
  set (a := Cmod (RtoC 1 - z)%C) in *. set (b := Cmod (RtoC 1 + z)%C) in *. set (m := Cmod z) in *.
  destruct (Rle_dec D (Rabs (Lz z))) as [HD|HD].
  - assert (Q : x * (m - 1) <= m + 1).
    { unfold Lz in HD. fold a b in HD. destruct (Rle_dec 0 (ln b - ln a)) as [P|P].
      - rewrite Rabs_pos_eq in HD by lra. assert (x * a <= b); [|nra]. unfold x. rewrite <- (exp_ln a), <- (exp_ln b), <- exp_plus by assumption. apply ProofDe2.exp_le. lra.
      - rewrite Rabs_left in HD by lra. assert (x * b <= a); [|nra]. unfold x. rewrite <- (exp_ln a), <- (exp_ln b), <- exp_plus by assumption. apply ProofDe2.exp_le. lra. }
    eapply Rle_trans; [|exact B2]. apply (Rmult_le_reg_r (x - 1)); [lra|]. unfold Rdiv. rewrite Rmult_assoc, Rinv_l by lra. lra.
  - apply Rnot_le_lt in HD.
    assert (HT : Th (Lz z) < th).
    { eapply Rle_lt_trans; [apply Th_le|]. unfold th. assert (sin r / cos r * Rabs (Lz z) < sin r / cos r * D) by (apply Rmult_lt_compat_l; [now apply Rdiv_lt_0_compat|exact HD]).
      assert (E : sin r / cos r * D = (PI - 2 * (l * sin r)) / 2) by (unfold D; field; lra). lra. }
    assert (HC : c < Cz z). { unfold Ph in HK. assert (X := psi_decr (Th (Lz z)) th (conj (Th_pos _) HT)). rewrite (psi_low th) in X by lra. fold c in X. lra. }
    unfold Cz in HC. fold a b m in HC. assert (AB : 0 < b * a) by nra.
    assert (HC' : c * (b * a) < 1 - m * m). { apply Rmult_lt_compat_r with (r := b * a) in HC; [|exact AB]. rewrite Rmult_assoc, Rinv_l, Rmult_1_r in HC by lra. exact HC. }
    assert (Hcn : c < 0) by nra.
    assert (AB2 : b * a <= 1 + m * m).
    { unfold a, b. rewrite <- Cmod_mult. replace ((RtoC 1 + z) * (RtoC 1 - z))%C with (RtoC 1 + - (z * z))%C by ring. eapply Rle_trans; [apply Cmod_triangle|]. rewrite Cmod_opp, Cmod_mult, Cmod_R, Rabs_R1. unfold m. lra. }
    assert (Q : (1 + c) * (m * m) <= 1 - c) by nra.
    eapply Rle_trans; [|exact B3]. apply (Rmult_le_reg_r (1 + c)); [lra|]. unfold Rdiv. rewrite Rmult_assoc, Rinv_l by lra. nra.
Qed.

(** ** Values on the image *)
Lemma tanh_one v : ccosh v <> RtoC 0 ->
  Cmod (RtoC 1 - ctanh v)%C = exp (- fst v) / Cmod (ccosh v) /\ Cmod (RtoC 1 + ctanh v)%C = exp (fst v) / Cmod (ccosh v).
Proof.
  intro Hn. assert (E2 : (RtoC (/ 2) + RtoC (/ 2))%C = RtoC 1) by (rewrite <- RtoC_plus; f_equal; field). split.
  - replace (RtoC 1 - ctanh v)%C with (ProofHol1.cexp (- v) / ccosh v)%C.
    + unfold Cdiv. rewrite Cmod_mult, Cmod_inv by exact Hn. rewrite Cmod_cexp. reflexivity.
    + assert (E : (ccosh v - csinh v)%C = ProofHol1.cexp (- v)%C).
      { rewrite csinh_exp, ccosh_exp. transitivity ((RtoC (/ 2) + RtoC (/ 2)) * ProofHol1.cexp (- v))%C; [ring|]. rewrite E2. ring. }
      rewrite <- E. unfold ctanh. field. exact Hn.
  - replace (RtoC 1 + ctanh v)%C with (ProofHol1.cexp v / ccosh v)%C.
    + unfold Cdiv. rewrite Cmod_mult, Cmod_inv by exact Hn. rewrite Cmod_cexp. reflexivity.
    + assert (E : (ccosh v + csinh v)%C = ProofHol1.cexp v).
      { rewrite csinh_exp, ccosh_exp. transitivity ((RtoC (/ 2) + RtoC (/ 2)) * ProofHol1.cexp v)%C; [ring|]. rewrite E2. ring. }
      rewrite <- E. unfold ctanh. field. exact Hn.
Qed.
Lemma csinh_sq w : Cmod (csinh w) * Cmod (csinh w) = sinh (fst w) * sinh (fst w) + sin (snd w) * sin (snd w).
Proof. rewrite Cmod_sq. unfold csinh. cbn [fst snd]. assert (E := cosh_sqr (fst w)). assert (E2 := sin2_cos2 (snd w)). unfold Rsqr in E2. nra. Qed.
Lemma tanh_mod v : ccosh v <> RtoC 0 -> Cmod (ctanh v) * Cmod (ctanh v) * (sinh (fst v) * sinh (fst v) + cos (snd v) * cos (snd v)) = sinh (fst v) * sinh (fst v) + sin (snd v) * sin (snd v).
Proof.
  intro Hn. rewrite <- ccosh_sq, <- csinh_sq. unfold ctanh, Cdiv. rewrite Cmod_mult, Cmod_inv by exact Hn.
  assert (0 < Cmod (ccosh v)) by now apply Cmod_gt_0. field. lra.
Qed.
Lemma Lz_tanh v : ccosh v <> RtoC 0 -> Lz (ctanh v) = 2 * fst v.
Proof.
  intro Hn. unfold Lz. destruct (tanh_one v Hn) as [-> ->]. assert (P : 0 < Cmod (ccosh v)) by now apply Cmod_gt_0.
  rewrite !ln_div by (apply exp_pos || exact P). rewrite !ln_exp. ring.
Qed.
Lemma Cz_tanh v : ccosh v <> RtoC 0 -> Cz (ctanh v) = cos (2 * snd v).
Proof.
  intro Hn. unfold Cz. assert (M := tanh_mod v Hn). destruct (tanh_one v Hn) as [-> ->]. assert (P : 0 < Cmod (ccosh v)) by now apply Cmod_gt_0.
  assert (E := ccosh_sq v). rewrite cos_2a. set (m := Cmod (ctanh v) * Cmod (ctanh v)) in *. set (q := Cmod (ccosh v)) in *.
  replace (/ (exp (fst v) / q * (exp (- fst v) / q))) with (q * q).
  - rewrite E. nra.
  - rewrite exp_Ropp. assert (X := exp_pos (fst v)). field. lra.
Qed.
Lemma tanh_not1 v : ccosh v <> RtoC 0 -> ctanh v <> RtoC 1 /\ ctanh v <> RtoC (-1).
Proof.
  intro Hn. destruct (tanh_one v Hn) as [A B]. assert (P : 0 < Cmod (ccosh v)) by now apply Cmod_gt_0.
  split; intro E; rewrite E in A, B.
  - replace (RtoC 1 - RtoC 1)%C with (RtoC 0) in A by ring. rewrite Cmod_0 in A. assert (0 < exp (- fst v) / Cmod (ccosh v)) by (apply Rdiv_lt_0_compat; [apply exp_pos|exact P]). lra.
  - replace (RtoC 1 + RtoC (-1))%C with (RtoC 0) in B by (apply injective_projections; cbn; ring). rewrite Cmod_0 in B. assert (0 < exp (fst v) / Cmod (ccosh v)) by (apply Rdiv_lt_0_compat; [apply exp_pos|exact P]). lra.
Qed.
Lemma strip_cosh w : Rabs (snd w) <= r -> ccosh (lsinh l w) <> RtoC 0.
Proof.
  intros Hw E. assert (H := ccosh_sq (lsinh l w)). rewrite E, Cmod_0, lsinh_fst, lsinh_snd in H. apply Rabs_le_between in Hw.
  assert (Hc : 0 < cos (snd w)) by (apply cos_gt_0; lra).
  set (X := l * sinh (fst w) * cos (snd w)) in *. set (Y := l * cosh (fst w) * sin (snd w)) in *.
  assert (HX : sinh X = 0) by nra. assert (HY : cos Y = 0) by nra.
  apply sinh_0_inv in HX. unfold X in HX. assert (Hs0 : sinh (fst w) = 0).
  { apply Rmult_integral in HX. destruct HX as [HX|HX]; [apply Rmult_integral in HX; destruct HX; lra|lra]. }
  apply sinh_0_inv in Hs0. unfold Y in HY. rewrite Hs0, cosh_0, Rmult_1_r in HY.
  assert (A : sin (snd w) <= sin r) by (apply sin_incr_1; lra). assert (B : sin (- r) <= sin (snd w)) by (apply sin_incr_1; lra). rewrite sin_neg in B.
  assert (0 < cos (l * sin (snd w))); [|lra]. apply cos_gt_0; nra.
Qed.

(** position with respect to the strip: 2|Y| and Th (2X), squared *)
Lemma Th_sq x : Th x * Th x = 4 * (l * sin r * (l * sin r)) * (1 + (x / (2 * l * cos r)) * (x / (2 * l * cos r))).
Proof.
  unfold Th. set (q := x / (2 * l * cos r)). assert (Q : 0 <= 1 + q * q) by nra. assert (E := sqrt_sqrt _ Q).
  replace (2 * (l * sin r) * sqrt (1 + q * q) * (2 * (l * sin r) * sqrt (1 + q * q))) with (4 * (l * sin r * (l * sin r)) * (sqrt (1 + q * q) * sqrt (1 + q * q))) by ring. now rewrite E.
Qed.
Lemma sq_pos (x : R) : 0 <= x * x. Proof. nra. Qed.
Lemma gap (w : C) : let v := lsinh l w in
  (Th (2 * fst v) * Th (2 * fst v) - (2 * snd v) * (2 * snd v)) * (cos r * cos r)
  = 4 * (l * l) * (cosh (fst w) * cosh (fst w) - sin r * sin r) * (sin r * sin r - sin (snd w) * sin (snd w)).
Proof.
  cbv zeta. rewrite Th_sq, lsinh_fst, lsinh_snd. assert (K := cr).
  assert (A := cosh_sqr (fst w)). assert (B := sin2_cos2 (snd w)). assert (D := sin2_cos2 r). unfold Rsqr in B, D.
  transitivity (4 * (l * l) * (sin r * sin r * (cos r * cos r) + sin r * sin r * (sinh (fst w) * sinh (fst w)) * (cos (snd w) * cos (snd w)) - cosh (fst w) * cosh (fst w) * (sin (snd w) * sin (snd w)) * (cos r * cos r))).
  - field. lra.
  - replace (cos r * cos r) with (1 - sin r * sin r) by lra. replace (cos (snd w) * cos (snd w)) with (1 - sin (snd w) * sin (snd w)) by lra. rewrite A. ring.
Qed.
Lemma sq_le x y : 0 <= y -> x * x <= y * y -> Rabs x <= y.
Proof. intros Hy H. rewrite <- (Rabs_pos_eq y) by exact Hy. apply Rsqr_le_abs_0. exact H. Qed.
Lemma sin_abs y : Rabs y <= PI / 2 -> sin y * sin y = sin (Rabs y) * sin (Rabs y).
Proof. intros _. unfold Rabs. destruct (Rcase_abs y); [rewrite sin_neg; ring|reflexivity]. Qed.
Lemma factor_pos (w : C) : 0 < 4 * (l * l) * (cosh (fst w) * cosh (fst w) - sin r * sin r).
Proof.
  assert (A := cosh_sqr (fst w)). assert (D := sin2_cos2 r). unfold Rsqr in D. assert (K := cr). assert (S2 := sq_pos (sinh (fst w))).
  assert (0 < cos r * cos r) by nra. assert (0 < l * l) by nra. nra.
Qed.

(** the strip is in the set *)
Lemma strip_K w : Rabs (snd w) <= r -> Kset (de_map l w).
Proof.
  intro Hw. assert (Hn := strip_cosh w Hw). right; right. unfold Ph, SpecDe.de_map. fold (lsinh l w). rewrite Lz_tanh, Cz_tanh by exact Hn.
  assert (G := gap w). cbv zeta in G. set (v := lsinh l w) in *.
  assert (HS : sin (snd w) * sin (snd w) <= sin r * sin r).
  { rewrite sin_abs by lra. assert (P := Rabs_pos (snd w)). assert (0 <= sin (Rabs (snd w))) by (apply sin_ge_0; lra). assert (sin (Rabs (snd w)) <= sin r) by (apply sin_incr_1; lra). nra. }
  assert (F := factor_pos w). assert (K := cr). assert (K2 : 0 < cos r * cos r) by nra.
  assert (Q : (2 * snd v) * (2 * snd v) <= Th (2 * fst v) * Th (2 * fst v)). { apply Rnot_lt_le. intro. nra. }
  assert (A := sq_le _ _ (Th_pos _) Q).
  assert (P := psi_le_cos (Rabs (2 * snd v)) (Rabs_pos _)).
  assert (C2 : cos (Rabs (2 * snd v)) = cos (2 * snd v)) by (unfold Rabs; destruct (Rcase_abs (2 * snd v)); [apply cos_neg|reflexivity]). rewrite C2 in P.
  destruct A as [A|A]; [assert (X := psi_decr _ _ (conj (Rabs_pos _) A)); lra|rewrite <- A; lra].
Qed.
(** a point of the set that is not 1 or -1 is the image of a point of the strip; where the function
    vanishes, of a point of the lines |Im w| = r with small argument *)
Lemma K_point z : z <> RtoC 1 -> z <> RtoC (-1) -> 0 <= Ph z ->
  exists w, Rabs (snd w) <= r /\ de_map l w = z /\ Rabs (snd (lsinh l w)) <= PI / 2 /\ (Ph z = 0 -> Rabs (snd w) = r).
Proof.
  intros H1 H2 HK. destruct (atanh_ok z H1 H2) as (A1 & A2 & A3). destruct (asinh_ok (c_atanh z / RtoC l)%C) as [B1 B2].
  set (w := c_asinh (c_atanh z / RtoC l)%C) in *.
  assert (EL : lsinh l w = c_atanh z). { unfold lsinh. rewrite B1. field. intro X. apply RtoC_inj in X. lra. }
  set (v := c_atanh z) in *. assert (G := gap w). cbv zeta in G. rewrite EL in G.
  assert (EP : Ph z = cos (2 * snd v) - psi (Th (2 * fst v))) by (unfold Ph; rewrite <- A2, Lz_tanh, Cz_tanh by exact A1; reflexivity).
  assert (C2 : cos (2 * snd v) = psi (Rabs (2 * snd v))).
  { rewrite psi_low by (rewrite Rabs_mult, (Rabs_pos_eq 2) by lra; lra). unfold Rabs. destruct (Rcase_abs (2 * snd v)); [now rewrite cos_neg|reflexivity]. }
  rewrite C2 in EP. assert (F := factor_pos w). assert (K := cr). assert (K2 : 0 < cos r * cos r) by nra. assert (HT := Th_pos (2 * fst v)).
  assert (Q : Rabs (2 * snd v) <= Th (2 * fst v)). { apply Rnot_lt_le. intro N. assert (X := psi_decr _ _ (conj HT N)). lra. }
  assert (SQ : (2 * snd v) * (2 * snd v) = Rabs (2 * snd v) * Rabs (2 * snd v)) by (rewrite <- Rabs_mult, Rabs_pos_eq; [ring|apply sq_pos]).
  assert (Y0 := Rabs_pos (2 * snd v)). assert (W0 := Rabs_pos (snd w)).
  assert (S0 : 0 <= sin (Rabs (snd w))) by (apply sin_ge_0; lra). assert (S := sr).
  assert (HS : sin (Rabs (snd w)) <= sin r). { rewrite (sin_abs _ B2) in G. apply Rnot_lt_le. intro N.
    assert (N1 : 0 <= (Th (2 * fst v) * Th (2 * fst v) - 2 * snd v * (2 * snd v)) * (cos r * cos r)).
    { apply Rmult_le_pos; [|lra]. rewrite SQ. assert (Rabs (2 * snd v) * Rabs (2 * snd v) <= Th (2 * fst v) * Th (2 * fst v)) by (apply Rmult_le_compat; assumption). lra. }
    rewrite G in N1. assert (N2 : sin r * sin r < sin (Rabs (snd w)) * sin (Rabs (snd w))) by (apply Rmult_le_0_lt_compat; lra).
    match type of N1 with _ <= ?f * ?x => assert (f * x < f * 0) by (apply Rmult_lt_compat_l; [exact F|lra]); lra end. }
  exists w. split; [|split; [|split]].
  - apply sin_incr_0; lra.
  - unfold SpecDe.de_map. fold (lsinh l w). rewrite EL. exact A2.
  - rewrite EL. exact A3.
  - intro E0. assert (QE : Rabs (2 * snd v) = Th (2 * fst v)).
    { destruct Q as [Q|Q]; [|exact Q]. assert (X := psi_decr _ _ (conj Y0 Q)). lra. }
    rewrite (sin_abs _ B2) in G. rewrite SQ, QE in G.
    assert (E2 : sin r * sin r - sin (Rabs (snd w)) * sin (Rabs (snd w)) = 0).
    { match type of G with _ = ?f * ?x => assert (Z : f * x = 0) by (rewrite <- G; ring); apply Rmult_integral in Z; destruct Z as [Z|Z]; [lra|exact Z] end. }
    assert (E3 : sin (Rabs (snd w)) = sin r) by nra. apply Rle_antisym; apply sin_incr_0; lra.
Qed.
Lemma K_image z : Kset z -> z = RtoC 1 \/ z = RtoC (-1) \/ in_strip_image l r z.
Proof.
  intro HK. destruct (Ceq_dec z (RtoC 1)) as [->|H1]; [now left|]. destruct (Ceq_dec z (RtoC (-1))) as [->|H2]; [right; now left|].
  right; right. destruct HK as [E|[E|HK]]; [easy|easy|]. destruct (K_point z H1 H2 HK) as (w & A & B & _). exists w. now split.
Qed.
(** symmetries *)
Lemma K_sym z z' : Rabs (fst z') = Rabs (fst z) -> Rabs (snd z') = Rabs (snd z) -> Kset z -> Kset z'.
Proof.
  intros E1 E2.
  assert (Q : (Cmod (RtoC 1 + z')%C = Cmod (RtoC 1 + z)%C /\ Cmod (RtoC 1 - z')%C = Cmod (RtoC 1 - z)%C) \/ (Cmod (RtoC 1 + z')%C = Cmod (RtoC 1 - z)%C /\ Cmod (RtoC 1 - z')%C = Cmod (RtoC 1 + z)%C)).
  { assert (S2 : snd z' * snd z' = snd z * snd z) by (rewrite <- (Rabs_pos_eq (snd z' * snd z')), <- (Rabs_pos_eq (snd z * snd z)) by apply sq_pos; rewrite !Rabs_mult, E2; reflexivity).
    unfold Cmod. destruct z as [a b], z' as [a' b']. cbn [fst snd] in *.
    assert (Ea : a' = a \/ a' = - a). { unfold Rabs in E1. destruct (Rcase_abs a'), (Rcase_abs a); lra. }
    destruct Ea as [->| ->]; [left|right]; split; f_equal; cbn; nra. }
  assert (M : Cmod z' = Cmod z).
  { unfold Cmod. f_equal. rewrite <- (pow2_abs (fst z')), <- (pow2_abs (snd z')), <- (pow2_abs (fst z)), <- (pow2_abs (snd z)), E1, E2. reflexivity. }
  intros HK. destruct (Ceq_dec z' (RtoC 1)) as [->|H1]; [now left|]. destruct (Ceq_dec z' (RtoC (-1))) as [->|H2]; [right; now left|].
  assert (N : z <> RtoC 1 /\ z <> RtoC (-1)).
  { assert (P := one_sep z' H1 H2). split; intros ->.
    - replace (RtoC 1 - RtoC 1)%C with (RtoC 0) in Q by ring. rewrite Cmod_0 in Q. lra.
    - replace (RtoC 1 + RtoC (-1))%C with (RtoC 0) in Q by (apply injective_projections; cbn; ring). rewrite Cmod_0 in Q. lra. }
  destruct HK as [->|[->|HK]]; [tauto|tauto|]. right; right. unfold Ph in *.
  assert (C' : Cz z' = Cz z). { unfold Cz. rewrite M. destruct Q as [[-> ->]|[-> ->]]; [reflexivity|]. f_equal. f_equal. ring. }
  assert (T' : Th (Lz z') = Th (Lz z)). { unfold Lz. destruct Q as [[-> ->]|[-> ->]]; [reflexivity|]. rewrite <- Th_even. f_equal. ring. }
  rewrite C', T'. exact HK.
Qed.
End Strip.
