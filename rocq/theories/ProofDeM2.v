(** Proofs about the constant M2: the largest value of |x^i/y| over the strip is taken on its edges,
    and there in the part that is searched. *)
From Coq Require Import Reals Lra Lia List.
From Coquelicot Require Import Coquelicot.
From Verif Require Import CArg ModelMag ModelGc SpecMag SpecDe ModelDeM2 SpecDeM2 SpecEdge ProofMaxmod ProofCompact ProofDe2 ProofDe3 ProofHol1 ProofHol5 ProofHol8 ProofStrip.
Import ListNotations.
Local Open Scope R_scope.

Definition dprod (u : list C) (z : C) : C := SpecEdge.cprod (fun p => (z - p)%C) u.
Lemma pol_sub p : pol (fun z => z - p)%C.
Proof. destruct (pol_add _ _ pol_id (pol_const (- p)%C)) as [k Hk]. exists k. intro z. rewrite <- Hk. reflexivity. Qed.
Lemma pol_dprod u : pol (dprod u).
Proof. induction u as [|p u IH]; [apply pol_const|]. unfold dprod. cbn. exact (pol_mul _ _ (pol_sub p) IH). Qed.
Lemma pol_pow k : pol (fun z => cpow z k).
Proof. induction k as [|k IH]; cbn; [apply pol_const|]. exact (pol_mul _ _ IH pol_id). Qed.
Lemma dprod_nz u z : (forall p, In p u -> z <> p) -> dprod u z <> RtoC 0.
Proof.
  induction u as [|p u IH]; intros H; unfold dprod; cbn.
  - intro E. apply RtoC_inj in E. lra.
  - apply Cmult_neq_0; [|apply IH; intros q Hq; apply H; now right]. intro E. apply (H p (or_introl eq_refl)).
    transitivity (z - p + p)%C; [ring|]. rewrite E. ring.
Qed.

(** ** Roots *)
Lemma rroot_le m a b : (0 < m)%Z -> 0 <= a <= b -> rroot m a <= rroot m b.
Proof.
  intros Hm [[H|<-] Hb]; [now apply ProofDe.rroot_mono|]. rewrite ProofTurn.rroot_0. apply rroot_nonneg.
Qed.
Lemma rroot_of_pow m y : (0 < m)%nat -> 0 <= y -> rroot (Z.of_nat m) (y ^ m) = y.
Proof.
  intros Hm [H|<-].
  - unfold rroot. assert (P : 0 < y ^ m) by now apply pow_lt. destruct (Rlt_dec 0 (y ^ m)); [|lra].
    rewrite <- Rpower_pow, Rpower_mult, <- INR_IZR_INZ, Rinv_r, Rpower_1 by (try apply not_0_INR; lia || lra). reflexivity.
  - rewrite pow_i by lia. apply ProofTurn.rroot_0.
Qed.
Lemma y_tilde_mod m u n1 z : Cmod (y_tilde m u n1 z) = rroot m (Cmod (dprod u z)).
Proof.
  assert (G : forall s us, s = 1 \/ s = -1 -> Cmod (SpecEdge.cprod (fun p => croot m (RtoC s * (z - p))%C) us) = rroot m (Cmod (dprod us z))).
  { intros s us Es. induction us as [|p us IH]; unfold dprod; cbn.
    - rewrite !Cmod_R, Rabs_R1. symmetry. apply ProofTurn.rroot_1.
    - rewrite !Cmod_mult, IH, croot_mod, ProofTurn.rroot_mult by apply Cmod_ge_0. f_equal. f_equal. rewrite Cmod_mult, Cmod_R.
      replace (Rabs s) with 1 by (destruct Es as [->| ->]; unfold Rabs; destruct (Rcase_abs _); lra). ring. }
  rewrite y_tilde_split, Cmod_mult, (G (-1)), (G 1) by auto. rewrite <- ProofTurn.rroot_mult by apply Cmod_ge_0. f_equal.
  rewrite <- Cmod_mult. f_equal. rewrite <- (firstn_skipn n1 u) at 3. generalize (firstn n1 u) (skipn n1 u). clear. intros a b.
  unfold dprod. induction a as [|x a IH]; cbn; [ring|]. rewrite <- IH. ring.
Qed.
(** |z|^i / |y(z)| *)
Definition val (m : Z) (u : list C) (i : nat) (z : C) : R := Cmod z ^ i / rroot m (Cmod (dprod u z)).
Lemma val_le m u i z p : (0 < m)%nat -> dprod u z <> RtoC 0 -> dprod u p <> RtoC 0 ->
  Cmod z ^ (i * m) * Cmod (dprod u p) <= Cmod p ^ (i * m) * Cmod (dprod u z) -> val (Z.of_nat m) u i z <= val (Z.of_nat m) u i p.
Proof.
  intros Hm Hz Hp H. apply Cmod_gt_0 in Hz. apply Cmod_gt_0 in Hp. assert (Z0 := Cmod_ge_0 z). assert (P0 := Cmod_ge_0 p).
  assert (Rz := rroot_pos (Z.of_nat m) _ Hz). assert (Rp := rroot_pos (Z.of_nat m) _ Hp).
  assert (X := rroot_le (Z.of_nat m) _ _ ltac:(lia) (conj (Rmult_le_pos _ _ (pow_le _ (i * m) Z0) (Rlt_le _ _ Hp)) H)).
  rewrite !ProofTurn.rroot_mult in X by (try apply pow_le; lra). rewrite !pow_mult, !rroot_of_pow in X by (try apply pow_le; lia || lra).
  unfold val. apply (Rmult_le_reg_r (rroot (Z.of_nat m) (Cmod (dprod u z)))); [exact Rz|]. apply (Rmult_le_reg_r (rroot (Z.of_nat m) (Cmod (dprod u p)))); [exact Rp|].
  unfold Rdiv. rewrite (Rmult_assoc (Cmod z ^ i)), Rinv_l, Rmult_1_r by lra.
  replace (Cmod p ^ i * / rroot (Z.of_nat m) (Cmod (dprod u p)) * rroot (Z.of_nat m) (Cmod (dprod u z)) * rroot (Z.of_nat m) (Cmod (dprod u p))) with (Cmod p ^ i * rroot (Z.of_nat m) (Cmod (dprod u z))) by (field; lra).
  exact X.
Qed.
Lemma ratio_val m u n1 i z : dprod u z <> RtoC 0 -> Cmod (cpow z i / cpow (y_tilde m u n1 z) 1)%C = val m u i z.
Proof.
  intro Hz. assert (Y : 0 < Cmod (y_tilde m u n1 z)) by (rewrite y_tilde_mod; apply rroot_pos; now apply Cmod_gt_0).
  unfold val, Cdiv. rewrite Cmod_mult, Cmod_inv, !cpow_mod, pow_1, y_tilde_mod; [reflexivity|].
  cbn [cpow]. intro E. assert (Cmod (RtoC 1 * y_tilde m u n1 z)%C = 0) by (rewrite E; apply Cmod_0). rewrite Cmod_mult, Cmod_1 in H. lra.
Qed.

Section Max.
Variables (l r : R) (u : list C).
Hypotheses (Hl : 0 < l) (Hr : 0 < r < PI / 2) (Hs : l * sin r < PI / 2).
Hypothesis Hu : forall p, In p u -> ~ Kset l r p.

Lemma K_nz z : Kset l r z -> dprod u z <> RtoC 0.
Proof. intro HK. apply dprod_nz. intros p Hp ->. exact (Hu p Hp HK). Qed.
Definition corner : C := de_map l (0, r).
Lemma abs_r : Rabs (snd ((0, r) : C)) = r. Proof. cbn. apply Rabs_pos_eq. lra. Qed.
Theorem boundary_max k : exists w, Rabs (snd w) = r /\ Rabs (snd (lsinh l w)) <= PI / 2 /\
  forall z, Kset l r z -> Cmod z ^ k * Cmod (dprod u (de_map l w)) <= Cmod (de_map l w) ^ k * Cmod (dprod u z).
Proof.
  set (F := fun z => Cmod (cpow z k) * / Cmod (dprod u z)).
  destruct (K_bounded l r Hl Hr Hs) as [B HB].
  destruct (max_attained (Kset l r) F B) as (p & Kp & Hmax).
  { exists (de_map l (0, r)). apply strip_K; try assumption. rewrite abs_r. lra. }
  { exact HB. } { now apply K_closed. }
  { intros p Hp. apply contR_below. unfold F. apply contR_mult; [apply contR_mod, pol_pow|].
    apply (contR_comp Rinv (fun z => Cmod (dprod u z))); [apply contR_mod, pol_dprod|].
    apply continuity_pt_inv; [apply derivable_continuous_pt; reg|]. assert (0 < Cmod (dprod u p)) by now apply Cmod_gt_0, K_nz. lra. }
  assert (FM : forall z, Kset l r z -> Cmod z ^ k * Cmod (dprod u p) <= Cmod p ^ k * Cmod (dprod u z)).
  { intros z Kz. specialize (Hmax z Kz). unfold F in Hmax. rewrite !cpow_mod in Hmax.
    assert (A : 0 < Cmod (dprod u p)) by now apply Cmod_gt_0, K_nz. assert (A' : 0 < Cmod (dprod u z)) by now apply Cmod_gt_0, K_nz.
    apply (Rmult_le_compat_r (Cmod (dprod u p) * Cmod (dprod u z))) in Hmax; [|nra].
    replace (Cmod z ^ k * / Cmod (dprod u z) * (Cmod (dprod u p) * Cmod (dprod u z))) with (Cmod z ^ k * Cmod (dprod u p)) in Hmax by (field; lra).
    replace (Cmod p ^ k * / Cmod (dprod u p) * (Cmod (dprod u p) * Cmod (dprod u z))) with (Cmod p ^ k * Cmod (dprod u z)) in Hmax by (field; lra). exact Hmax. }
  assert (In : forall d, 0 < d -> (forall z, Cmod (z - p)%C <= d -> Kset l r z) -> forall z, Kset l r z ->
     Cmod z ^ k * Cmod (dprod u corner) <= Cmod corner ^ k * Cmod (dprod u z)).
  { intros d Hd Hin z Kz. assert (Kc : Kset l r corner) by (apply strip_K; try assumption; rewrite abs_r; lra).
    destruct (growth (fun z => cpow z k) (dprod u) p d (pol_pow k) (pol_dprod u) (K_nz p Kp) Hd) as [G|(z' & Hz' & G)].
    - assert (G1 := f_equal Cmod (G corner)). rewrite !Cmod_mult, !cpow_mod in G1. specialize (FM z Kz).
      assert (A : 0 < Cmod (dprod u p)) by now apply Cmod_gt_0, K_nz. assert (A' : 0 < Cmod (dprod u corner)) by now apply Cmod_gt_0, K_nz.
      apply (Rmult_le_reg_r (Cmod (dprod u p))); [exact A|].
      replace (Cmod corner ^ k * Cmod (dprod u z) * Cmod (dprod u p)) with ((Cmod corner ^ k * Cmod (dprod u p)) * Cmod (dprod u z)) by ring. rewrite G1.
      replace (Cmod z ^ k * Cmod (dprod u corner) * Cmod (dprod u p)) with (Cmod z ^ k * Cmod (dprod u p) * Cmod (dprod u corner)) by ring.
      replace (Cmod p ^ k * Cmod (dprod u corner) * Cmod (dprod u z)) with (Cmod p ^ k * Cmod (dprod u z) * Cmod (dprod u corner)) by ring.
      apply Rmult_le_compat_r; lra.
    - exfalso. specialize (FM z' (Hin z' Hz')). rewrite !cpow_mod in G. lra. }
  assert (Cn : Rabs (snd ((0, r) : C)) = r /\ Rabs (snd (lsinh l (0, r))) <= PI / 2).
  { split; [apply abs_r|]. rewrite lsinh_snd. cbn [fst snd]. rewrite cosh_0, Rmult_1_r. assert (S := sr r Hr). rewrite Rabs_pos_eq by nra. lra. }
  destruct (Ceq_dec p (RtoC 1)) as [E1|H1].
  { destruct (K_open1 l r Hl Hr p (or_introl E1)) as (d & Hd & Hin). exists (0, r). destruct Cn as [Ca Cb]. split; [exact Ca|]. split; [exact Cb|]. exact (In d Hd Hin). }
  destruct (Ceq_dec p (RtoC (-1))) as [E2|H2].
  { destruct (K_open1 l r Hl Hr p (or_intror E2)) as (d & Hd & Hin). exists (0, r). destruct Cn as [Ca Cb]. split; [exact Ca|]. split; [exact Cb|]. exact (In d Hd Hin). }
  destruct Kp as [E|[E|Kp]]; [easy|easy|].
  destruct (Rlt_dec 0 (Ph l r p)) as [Hpos|Hpos].
  { destruct (K_open l r p H1 H2 Hpos) as (d & Hd & Hin). exists (0, r). destruct Cn as [Ca Cb]. split; [exact Ca|]. split; [exact Cb|]. exact (In d Hd Hin). }
  destruct (K_point l r Hl Hr p H1 H2 Kp) as (w & W1 & W2 & W3 & W4). exists w. split; [apply W4; lra|]. split; [exact W3|]. rewrite W2. exact FM.
Qed.
End Max.

(** ** The point found, in the first quadrant *)
Lemma sinh_abs x : sinh (Rabs x) = Rabs (sinh x).
Proof.
  destruct (Rle_dec 0 x) as [H|H].
  - rewrite (Rabs_pos_eq x) by exact H. rewrite Rabs_pos_eq; [reflexivity|]. rewrite <- sinh_0. now apply sinh_le.
  - rewrite (Rabs_left x), sinh_Ropp by lra. rewrite Rabs_left; [reflexivity|]. rewrite <- sinh_0. apply sinh_lt. lra.
Qed.
Lemma sin_abs_eq x : Rabs x <= PI -> sin (Rabs x) = Rabs (sin x).
Proof.
  intro Hx. destruct (Rle_dec 0 x) as [H|H].
  - rewrite (Rabs_pos_eq x) in * by exact H. rewrite Rabs_pos_eq; [reflexivity|]. now apply sin_ge_0.
  - rewrite (Rabs_left x) in * by lra. rewrite sin_neg. rewrite Rabs_left1; [reflexivity|]. assert (0 <= sin (- x)) by (apply sin_ge_0; lra). rewrite sin_neg in H0. lra.
Qed.
Lemma tanh_coords v : ccosh v <> RtoC 0 -> ctanh v = (sinh (fst v) * cosh (fst v) / (Cmod (ccosh v) * Cmod (ccosh v)), sin (snd v) * cos (snd v) / (Cmod (ccosh v) * Cmod (ccosh v))).
Proof.
  intro Hn. assert (P : 0 < Cmod (ccosh v)) by now apply Cmod_gt_0. rewrite ccosh_sq. assert (Q := ccosh_sq v). set (q := sinh (fst v) * sinh (fst v) + cos (snd v) * cos (snd v)) in *.
    assert (Q0 : 0 < q) by nra. assert (A := cosh_sqr (fst v)). assert (B := sin2_cos2 (snd v)). unfold Rsqr in B.
    assert (E : (ctanh v * ccosh v)%C = csinh v) by (unfold ctanh; field; exact Hn).
    transitivity (csinh v / ccosh v)%C; [reflexivity|]. 
    unfold Cdiv, Cinv, Cmult, csinh, ccosh. cbn [fst snd].
    replace ((cosh (fst v) * cos (snd v)) ^ 2 + (sinh (fst v) * sin (snd v)) ^ 2) with q.
    - apply injective_projections; cbn [fst snd].
      + transitivity ((sinh (fst v) * cosh (fst v)) * (cos (snd v) * cos (snd v) + sin (snd v) * sin (snd v)) / q); [field; lra|]. replace (cos (snd v) * cos (snd v) + sin (snd v) * sin (snd v)) with 1 by lra. field. lra.
      + transitivity ((sin (snd v) * cos (snd v)) * (cosh (fst v) * cosh (fst v) - sinh (fst v) * sinh (fst v)) / q); [field; lra|]. rewrite A. field. lra.
    - unfold q. cbn [pow]. replace (sin (snd v) * (sinh (fst v) * sin (snd v) * 1)) with (sinh (fst v) * (sin (snd v) * sin (snd v))) by ring. nra. 
Qed.
Lemma quadrant l r w : 0 < l -> 0 < r < PI / 2 -> l * sin r < PI / 2 -> Rabs (snd w) = r -> Rabs (snd (lsinh l w)) <= PI / 2 ->
  let z := de_map l w in let z1 := de_map l (Rabs (fst w), r) in
  fst z1 = Rabs (fst z) /\ snd z1 = Rabs (snd z) /\ cosh (fst w) <= PI / (2 * (l * sin r)).
Proof.
  intros Hl Hr Hs Hw HY. cbv zeta. assert (S := sr r Hr). assert (K := cr r Hr). assert (LS : 0 < l * sin r) by nra.
  assert (Ec := tanh_coords).
  set (w1 := (Rabs (fst w), r) : C). assert (W1 : Rabs (snd w1) = r) by (cbn; apply Rabs_pos_eq; lra).
  assert (N := strip_cosh l r Hl Hr Hs w ltac:(lra)). assert (N1 := strip_cosh l r Hl Hr Hs w1 ltac:(lra)).
  unfold SpecDe.de_map. fold (lsinh l w) (lsinh l w1). rewrite !Ec by assumption. rewrite !ccosh_sq.
  assert (Sc : cosh (Rabs (fst w)) = cosh (fst w)) by apply ProofGc.cosh_abs.
  assert (Cs : cos (snd w) = cos r). { rewrite <- Hw. unfold Rabs. destruct (Rcase_abs (snd w)); [symmetry; apply cos_neg|reflexivity]. }
  assert (X1 : fst (lsinh l w1) = Rabs (fst (lsinh l w))).
  { rewrite !lsinh_fst. change (fst w1) with (Rabs (fst w)). change (snd w1) with r. rewrite Cs, !Rabs_mult, (Rabs_pos_eq l), (Rabs_pos_eq (cos r)) by lra. do 2 f_equal.
    apply sinh_abs. }
  assert (Y1 : snd (lsinh l w1) = Rabs (snd (lsinh l w))).
  { rewrite !lsinh_snd. change (fst w1) with (Rabs (fst w)). change (snd w1) with r. rewrite Sc, !Rabs_mult, (Rabs_pos_eq l), (Rabs_pos_eq (cosh (fst w))) by (try apply Rlt_le, ProofDe2.cosh_pos; lra). f_equal.
    rewrite <- Hw. apply sin_abs_eq. lra. }
  set (X := fst (lsinh l w)) in *. set (Y := snd (lsinh l w)) in *. rewrite X1, Y1.
  assert (Sx : sinh (Rabs X) * sinh (Rabs X) = sinh X * sinh X) by (unfold Rabs; destruct (Rcase_abs X); rewrite ?sinh_Ropp; ring).
  assert (Cx : cosh (Rabs X) = cosh X) by apply ProofGc.cosh_abs.
  assert (Cy : cos (Rabs Y) = cos Y) by (unfold Rabs; destruct (Rcase_abs Y); rewrite ?cos_neg; reflexivity).
  assert (CP := ProofDe2.cosh_pos X). assert (Y0 := Rabs_pos Y).
  assert (Cy0 : 0 <= cos Y) by (rewrite <- Cy; apply cos_ge_0; lra).
  assert (Q : 0 < sinh X * sinh X + cos Y * cos Y). { assert (E := ccosh_sq (lsinh l w)). fold X Y in E. rewrite <- E. assert (0 < Cmod (ccosh (lsinh l w))) by now apply Cmod_gt_0. nra. }
  rewrite Sx, Cx, Cy. cbn [fst snd]. split; [|split].
  - unfold Rdiv. rewrite !Rabs_mult, (Rabs_pos_eq (/ _)), (Rabs_pos_eq (cosh X)) by (try (left; now apply Rinv_0_lt_compat); lra). do 2 f_equal.
    apply sinh_abs.
  - unfold Rdiv. rewrite !Rabs_mult, (Rabs_pos_eq (/ _)), (Rabs_pos_eq (cos Y)) by (try (left; now apply Rinv_0_lt_compat); lra). do 2 f_equal.
    apply sin_abs_eq. assert (HP := PI_RGT_0). lra.
  - unfold Y in HY. rewrite lsinh_snd in HY. rewrite !Rabs_mult, (Rabs_pos_eq l), (Rabs_pos_eq (cosh (fst w))) in HY by (try apply Rlt_le, ProofDe2.cosh_pos; lra).
    assert (Sr : Rabs (sin (snd w)) = sin r).
    { rewrite <- Hw. symmetry. apply sin_abs_eq. lra. }
    rewrite Sr in HY. apply (Rmult_le_reg_r (2 * (l * sin r))); [lra|]. unfold Rdiv. rewrite Rmult_assoc, Rinv_l by lra. lra.
Qed.

Lemma mf_product_spec z u p : 0 < p -> (forall x, In x u -> z <> x) -> mf_product z u p = Some (p * Cmod (dprod u z)).
Proof.
  revert p. induction u as [|x u IH]; intros p Hp H; cbn [mf_product].
  - unfold dprod. cbn. rewrite Cmod_R, Rabs_R1. f_equal. ring.
  - destruct (Ceq_dec (z - x)%C (RtoC 0)) as [E|E].
    + exfalso. apply (H x (or_introl eq_refl)). transitivity (z - x + x)%C; [ring|]. rewrite E. ring.
    + rewrite IH; [|apply Rmult_lt_0_compat; [exact Hp|now apply Cmod_gt_0]|intros y Hy; apply H; now right].
      unfold dprod. cbn. rewrite Cmod_mult. f_equal. ring.
Qed.
Lemma mf_map l r t : ctanh (csinh (t, r) * RtoC l)%C = de_map l (t, r).
Proof. unfold SpecDe.de_map. f_equal. ring. Qed.
Lemma abs_sub a b : Rabs (Rabs a - Rabs b) <= Rabs (a - b).
Proof. apply Rabs_triang_inv2. Qed.
Lemma abs_dist z z1 x : fst z1 = Rabs (fst z) -> snd z1 = Rabs (snd z) -> Cmod (z1 - (Rabs (fst x), Rabs (snd x)))%C <= Cmod (z - x)%C.
Proof.
  intros E1 E2. unfold Cmod. apply sqrt_le_1_alt. destruct z as [a b], z1 as [a1 b1], x as [c d]. cbn [fst snd] in *. subst. cbn [Cminus Cplus Copp fst snd].
  rewrite <- (pow2_abs (Rabs a + - Rabs c)), <- (pow2_abs (Rabs b + - Rabs d)), <- (pow2_abs (a + - c)), <- (pow2_abs (b + - d)).
  assert (H1 := abs_sub a c). assert (H2 := abs_sub b d). unfold Rminus in H1, H2. apply Rplus_le_compat; apply pow_incr; split; try apply Rabs_pos; assumption.
Qed.
Lemma abs_dprod z z1 u : fst z1 = Rabs (fst z) -> snd z1 = Rabs (snd z) -> Cmod (dprod (vec_abs u) z1) <= Cmod (dprod u z).
Proof.
  intros E1 E2. unfold dprod. induction u as [|x u IH]; cbn; [lra|]. rewrite !Cmod_mult. apply Rmult_le_compat; try apply Cmod_ge_0; [|exact IH].
  now apply abs_dist.
Qed.
Lemma abs_mod z z1 : fst z1 = Rabs (fst z) -> snd z1 = Rabs (snd z) -> Cmod z1 = Cmod z.
Proof. intros E1 E2. unfold Cmod. rewrite E1, E2, !pow2_abs. reflexivity. Qed.

(** on the lines |Im w| = r *)
Lemma low_le l r w : 0 < l -> 0 < r < PI / 2 -> l * sin r < PI / 2 -> Rabs (snd w) = r -> Rabs (snd (lsinh l w)) <= PI / 2 -> 0 < low l r <= Cmod (de_map l w).
Proof.
  intros Hl Hr Hs Hw HY. assert (S := sr r Hr). assert (LS : 0 < l * sin r) by nra.
  assert (HT : 0 < tan (l * sin r)) by (apply tan_gt_0; lra). split; [unfold low; apply Rmin_glb_lt; lra|].
  assert (N := strip_cosh l r Hl Hr Hs w ltac:(lra)). assert (M := tanh_mod (lsinh l w) N). fold (de_map l w) in M. unfold SpecDe.de_map. fold (lsinh l w).
  set (v := lsinh l w) in *. set (q := Cmod (ctanh v)) in *. assert (Q0 : 0 <= q) by apply Cmod_ge_0.
  assert (CQ := ccosh_sq v). assert (P : 0 < Cmod (ccosh v)) by now apply Cmod_gt_0.
  assert (Yr : l * sin r <= Rabs (snd v)).
  { unfold v. rewrite lsinh_snd, !Rabs_mult, (Rabs_pos_eq l), (Rabs_pos_eq (cosh (fst w))) by (try apply Rlt_le, ProofDe2.cosh_pos; lra).
    rewrite <- sin_abs_eq, Hw by lra. assert (G := ProofDe2.cosh_ge_1 (fst w)). nra. }
  assert (Sv : sin (snd v) * sin (snd v) = sin (Rabs (snd v)) * sin (Rabs (snd v))) by now apply sin_abs.
  assert (S1 : sin (l * sin r) <= sin (Rabs (snd v))) by (apply sin_incr_1; lra). assert (S0 : 0 < sin (l * sin r)) by (apply sin_gt_0; lra).
  assert (C0 : 0 < cos (l * sin r)) by (apply cos_gt_0; lra).
  assert (B := sin2_cos2 (snd v)). assert (B' := sin2_cos2 (l * sin r)). unfold Rsqr in B, B'.
  set (a := sinh (fst v) * sinh (fst v)) in *. assert (A0 : 0 <= a) by (unfold a; nra).
  set (s2 := sin (snd v) * sin (snd v)) in *. set (c2 := cos (snd v) * cos (snd v)) in *.
  assert (Hs2 : sin (l * sin r) * sin (l * sin r) <= s2) by (rewrite Sv; nra).
  assert (AC : 0 < a + c2) by nra.
  unfold low. destruct (Rle_dec (cos (l * sin r)) (sin (l * sin r))) as [T|T].
  - eapply Rle_trans; [apply Rmin_l|]. assert (cos (l * sin r) * cos (l * sin r) <= sin (l * sin r) * sin (l * sin r)) by (apply Rmult_le_compat; lra).
    assert (c2 <= s2) by lra. apply Rnot_lt_le. intro Hq. assert (Q2 : q * q < 1 * 1) by (apply Rmult_le_0_lt_compat; lra).
    assert (q * q * (a + c2) < 1 * 1 * (a + c2)) by (apply Rmult_lt_compat_r; assumption). lra.
  - eapply Rle_trans; [apply Rmin_r|]. apply Rnot_le_lt in T.
    set (t := tan (l * sin r)) in *. assert (Et : t * cos (l * sin r) = sin (l * sin r)) by (unfold t, tan; field; lra).
    set (cc := cos (l * sin r)) in *. set (ss := sin (l * sin r)) in *. apply Rnot_lt_le. intro Hq.
    assert (T1 : t < 1) by (apply (Rmult_lt_reg_r cc); [exact C0|lra]). assert (Q2 : q * q < t * t) by (apply Rmult_le_0_lt_compat; lra).
    assert (c2 <= cc * cc) by lra. assert (E2 : t * t * (cc * cc) = ss * ss) by (rewrite <- Et; ring).
    assert (q * q * (a + c2) < t * t * (a + c2)) by (apply Rmult_lt_compat_r; assumption).
    assert (t * t * c2 <= t * t * (cc * cc)) by (apply Rmult_le_compat_l; nra). assert (t * t <= 1) by nra. assert (t * t * a <= 1 * a) by (apply Rmult_le_compat_r; assumption). lra.
Qed.
