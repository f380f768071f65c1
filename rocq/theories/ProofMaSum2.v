(** Quadrature sums of the Magma package: sums of a differential along an edge. *)
From Coquelicot Require Import Coquelicot.
From Verif Require Import CArg ModelTree ModelVec ModelPeriod ModelTurn ModelMaRoot ModelMaDiff ModelMaFactor ModelMaSum SpecVec SpecPeriod SpecCurve SpecMaRoot SpecMaFactor SpecQuad SpecMaSum ProofEdge ProofVec ProofPeriod ProofQuad ProofErr3 ProofMaRoot3 ProofMaFactor ProofMaFactor2 ProofMaFactor3 ProofMaSum SpecEdge.
From Verif Require ModelQuad ProofTrap ProofHol11 ProofMaPoint ProofErr5.
Local Open Scope nat_scope.

(** rules that use the values on ]-1,1[ *)
Definition rule (S : (R -> C) -> C) : Prop :=
  (forall F G, (forall t, (-1 < t < 1)%R -> F t = G t) -> S F = S G) /\
  (forall F G, S (fun t => F t + G t)%C = (S F + S G)%C) /\ forall c F, S (fun t => c * F t)%C = (c * S F)%C.

Lemma rule_linear S (g : R -> C) : rule S -> linear_functional (fun p => S (fun t => p (RtoC t) * g t)%C).
Proof.
  intros (He & Ha & Hc) n a. induction n as [|n IH]; cbn [csum].
  - rewrite (He _ (fun t => RtoC 0 * (RtoC 0))%C) by (intros; ring). rewrite (Hc (RtoC 0) (fun _ => RtoC 0)). ring.
  - rewrite (He _ (fun t => csum n (fun i => a i * cpow (RtoC t) i) * g t + a n * (cpow (RtoC t) n * g t))%C) by (intros; ring).
    rewrite Ha, Hc, IH. reflexivity.
Qed.

Lemma rule_weight S (w : R -> C) : rule S -> rule (fun F => S (fun t => w t * F t)%C).
Proof.
  intros (He & Ha & Hc). split; [|split].
  - intros F G E. apply He. intros t Ht. rewrite E by exact Ht. reflexivity.
  - intros F G. rewrite <- Ha. apply He. intros; ring.
  - intros c F. rewrite <- Hc. apply He. intros; ring.
Qed.

Lemma de_is_rule lam h K : rule (de_rule lam h K).
Proof.
  unfold de_rule. split; [|split].
  - intros F G E. f_equal. apply csum_ext. intros k _. cbv zeta. rewrite E by apply ProofTrap.de_map_range. reflexivity.
  - intros F G. rewrite <- Cmult_plus_distr_l, <- csum_add. f_equal. apply csum_ext. intros k _. cbv zeta. ring.
  - intros c F. rewrite (Cmult_assoc c), (Cmult_comm c), <- Cmult_assoc. f_equal. rewrite <- csum_scal. apply csum_ext. intros k _. cbv zeta. ring.
Qed.

Lemma gc_node_in N k : k < N -> (-1 < gc_node N k < 1)%R.
Proof.
  intros Hk. unfold gc_node. set (u := (INR (2 * k + 1) * PI / (2 * INR N))%R).
  assert (HN : (0 < INR N)%R) by (apply lt_0_INR; lia). pose proof PI_RGT_0 as Hp.
  assert (Hk1 : (0 < INR (2 * k + 1))%R) by (apply lt_0_INR; lia).
  assert (Hk2 : (INR (2 * k + 1) < 2 * INR N)%R) by (replace (2 * INR N)%R with (INR (2 * N)) by (rewrite mult_INR; reflexivity); apply lt_INR; lia).
  assert (U : (0 < u < PI)%R).
  { unfold u. split; [apply Rdiv_lt_0_compat; nra|]. apply Rmult_lt_reg_r with (2 * INR N)%R; [lra|]. unfold Rdiv. rewrite Rmult_assoc, Rinv_l by lra. nra. }
  split; [rewrite <- cos_PI; apply cos_decreasing_1; lra|rewrite <- cos_0; apply cos_decreasing_1; lra].
Qed.

Lemma gc_is_rule N : rule (gc_rule N).
Proof.
  unfold gc_rule. split; [|split].
  - intros F G E. f_equal. apply csum_ext. intros k Hk. apply E, gc_node_in, Hk.
  - intros F G. rewrite <- Cmult_plus_distr_l, <- csum_add. reflexivity.
  - intros c F. rewrite (Cmult_assoc c), (Cmult_comm c), <- Cmult_assoc. f_equal. rewrite <- csum_scal. reflexivity.
Qed.

Lemma sym_is_rule N xs ws : (forall t, t < N / 2 -> (-1 < nth t xs 0 < 1)%R) -> rule (sym_rule N xs ws).
Proof.
  intros H. unfold sym_rule. split; [|split].
  - intros F G E. f_equal.
    + apply csum_ext. intros k Hk. specialize (H k Hk). rewrite !E by lra. reflexivity.
    + destruct (N mod 2 =? 0); [reflexivity|]. rewrite E by lra. reflexivity.
  - intros F G. rewrite (csum_ext (N / 2) _ (fun t => RtoC (nth t ws 0%R) * (F (nth t xs 0%R) + F (- nth t xs 0)%R) + RtoC (nth t ws 0%R) * (G (nth t xs 0%R) + G (- nth t xs 0)%R))%C).
    2:{ intros k _. ring. }
    rewrite csum_add. destruct (N mod 2 =? 0); ring.
  - intros c F. rewrite (csum_ext (N / 2) _ (fun t => c * (RtoC (nth t ws 0%R) * (F (nth t xs 0%R) + F (- nth t xs 0)%R)))%C).
    2:{ intros k _. ring. }
    rewrite csum_scal. destruct (N mod 2 =? 0); ring.
Qed.

Section Edge.
Context (x : list C) (a b m : nat).
Notation n := (length x).
Hypothesis Ha : a < n.
Hypothesis Hb : b < n.
Hypothesis Hab : vget x a <> vget x b.
Hypothesis Hm : 2 <= m.
Hypothesis Hn : 3 <= n.
Hypothesis Hclear : clear_edge x a b.

Definition ys (c : C) (f : R -> C) (t : R) : C := (c * f t * RtoC (rroot (Z.of_nat m) (1 - t * t)))%C.

Lemma clear_nonzero t : (-1 < t < 1)%R -> poly_at x (edge_point (vget x a) (vget x b) (RtoC t)) <> RtoC 0.
Proof using Hab Hclear.
  intros Ht E. apply ProofMaPoint.poly_at_zero in E. apply (In_nth _ _ (RtoC 0)) in E. destruct E as (k & Hk & E). fold (vget x k) in E.
  assert (T2 : RtoC 2 = (RtoC 1 + RtoC 1)%C) by (rewrite <- RtoC_plus; f_equal; lra).
  assert (D : (vget x b - vget x a)%C <> RtoC 0) by (apply (diff_neq x a b), Hab).
  destruct (Nat.eq_dec k a) as [->|Ka].
  - assert (Q : ((vget x b - vget x a) * RtoC (1 + t))%C = RtoC 0).
    { transitivity (RtoC 2 * edge_point (vget x a) (vget x b) (RtoC t) - (vget x a + vget x a))%C; [unfold edge_point; rewrite RtoC_plus; field; apply two_neq|]. rewrite <- E, T2. ring. }
    destruct (Req_dec (1 + t) 0) as [Z|Z]; [lra|]. revert Q. apply Cmult_neq_0'; [exact D|]. intros W. apply RtoC_inj in W. contradiction.
  - destruct (Nat.eq_dec k b) as [->|Kb].
    + assert (Q : ((vget x b - vget x a) * RtoC (1 - t))%C = RtoC 0).
      { transitivity ((vget x b + vget x b) - RtoC 2 * edge_point (vget x a) (vget x b) (RtoC t))%C; [unfold edge_point; rewrite RtoC_minus; field; apply two_neq|]. rewrite <- E, T2. ring. }
      destruct (Req_dec (1 - t) 0) as [Z|Z]; [lra|]. revert Q. apply Cmult_neq_0'; [exact D|]. intros W. apply RtoC_inj in W. contradiction.
    + apply (Hclear k t Hk Ka Kb); [lra|exact E].
Qed.

Lemma sheet_branch e (f : R -> C) c :
  (forall t, continuous (fun t => fst (f t)) t /\ continuous (fun t => snd (f t)) t) ->
  (forall t, (-1 <= t <= 1)%R -> ac_mth_root t e (zetas m) m (n - 2) = Done (f t) /\
      poly_at x (edge_point (vget x a) (vget x b) (RtoC t)) = ((RtoC 1 - RtoC t * RtoC t) * cpow (c * f t)%C m)%C) ->
  branch_over_edge x a b m (ys c f) /\ forall t, (-1 < t < 1)%R -> f t <> RtoC 0.
Proof using Ha Hb Hab Hclear Hm Hn.
  intros Cf Hf. split; [split|].
  - intros t Ht. unfold ys. apply (ccont_mult (fun t => c * f t)%C (fun t => RtoC (rroot (Z.of_nat m) (1 - t * t)))).
    + apply (ccont_mult (fun _ => c) f); [apply ccont_const|apply Cf].
    + apply (ccont_R (fun t => rroot (Z.of_nat m) (1 - t * t))). apply (ProofHol11.cont_comp (rroot (Z.of_nat m)) (fun t => 1 - t * t)%R); [|apply ProofHol11.rroot_cont; lia].
      apply continuity_pt_filterlim. apply derivable_continuous_pt. reg.
  - intros t Ht. destruct (Hf t Ht) as [_ E]. rewrite E. unfold ys. rewrite !cpow_mul, cpow_RtoC, rroot_pow by (lia || nra).
    rewrite RtoC_minus, RtoC_mult. ring.
  - intros t Ht F0. destruct (Hf t ltac:(lra)) as [_ E]. apply (clear_nonzero t Ht). rewrite E, F0, Cmult_0_r.
    destruct m as [|m']; [lia|]. rewrite cpow_zero. ring.
Qed.

Context (d : ma_diff).
Hypothesis Hd : ma_differentials (Z.of_nat m) (Z.of_nat n) = Done d.

Lemma assemble e (f : R -> C) (S : nat -> (R -> C) -> C) v (c := edge_const n m (vget (e_data e) n)) :
  edge_data x (zetas m) m n a b = Done e -> (forall t, (-1 < t < 1)%R -> f t <> RtoC 0) ->
  (forall q, q < length (md_df d) -> rule (S q)) -> Z.of_nat (length v) = md_g d ->
  (forall q i, q < length (md_df d) -> (Z.of_nat i < nth q (md_df d) 0)%Z ->
     vget v (offset (md_df d) q + i) = S q (integrand (Z.of_nat m) f (Z.to_nat (md_jm d) + q) i)) ->
  exists P E, de_integrals_factor v e m n d (zetas m) = Done (P, E) /\
    Z.of_nat (length P) = md_g d /\ Z.of_nat (length E) = md_g d /\
    forall q i, q < length (md_df d) -> (Z.of_nat i < nth q (md_df d) 0)%Z ->
      let j := (md_jm d + Z.of_nat q)%Z in let ct := offset (md_df d) q + i in
      vget E ct = S q (form_on_edge x a b (ys c f) (Z.to_nat j) i) /\
      exists row, nth_error P ct = Some row /\ row_ok m j row (vget E ct).
Proof using Ha Hb Hab Hm Hn Hd.
  intros He Hf HS Hv HV. destruct (diff_facts (Z.of_nat m) (Z.of_nat n) d Hd ltac:(lia) ltac:(lia)) as (J1 & _).
  set (S' := fun q => if q <? length (md_df d) then S q else gc_rule 0).
  assert (HS' : forall q, rule (S' q)) by (intros q; unfold S'; destruct (Nat.ltb_spec q (length (md_df d))); [apply HS; assumption|apply gc_is_rule]).
  set (g := fun q t => (/ cpow (RtoC (rroot (Z.of_nat m) (1 - t * t)) * f t) (Z.to_nat (md_jm d) + q))%C).
  destruct (de_factor_ok x a b m d Ha Hb Hab Hm Hn Hd (fun q p => S' q (fun t => p (RtoC t) * g q t)%C) v) as (e' & P & E & E1 & E2 & LP & LE & Hc0 & H).
  { intros q. apply rule_linear, HS'. } { exact Hv. }
  { intros q Hq l Hl. rewrite HV by lia. unfold S'. destruct (Nat.ltb_spec q (length (md_df d))); [reflexivity|lia]. }
  rewrite He in E1. injection E1 as <-. exists P, E. split; [exact E2|]. split; [exact LP|]. split; [exact LE|].
  intros q i Hq Hi. destruct (H q i Hq Hi) as [V R]. split; [|exact R].
  fold c in V. cbv zeta. rewrite V. unfold S'. destruct (Nat.ltb_spec q (length (md_df d))) as [_|]; [|lia].
  destruct (HS q Hq) as (Hext & _ & Hsc). assert (Cn : c <> RtoC 0) by (apply edge_const_neq, Hc0).
  set (j := (md_jm d + Z.of_nat q)%Z). replace (Z.to_nat (md_jm d) + q) with (Z.to_nat j) in * by lia.
  assert (Cj : cpow c (Z.to_nat j) <> RtoC 0) by (apply cpow_neq_0, Cn).
  unfold Cdiv at 1. rewrite Cmult_comm, <- Hsc. apply Hext. intros t Ht. unfold form_on_edge, ys, g.
  replace (Z.to_nat (md_jm d) + q) with (Z.to_nat j) by lia.
  assert (Rt : RtoC (rroot (Z.of_nat m) (1 - t * t)) <> RtoC 0) by (apply ProofTrap.RtoC_neq, Rgt_not_eq, ProofTrap.rroot_gt; nra).
  rewrite !cpow_mul. assert (Fn := cpow_neq_0 _ (Z.to_nat j) (Hf t Ht)). assert (Rn := cpow_neq_0 _ (Z.to_nat j) Rt). field. repeat split; try assumption. apply two_neq.
Qed.

Lemma de_edge_ok h lam N : exists e Y P E, edge_data x (zetas m) m n a b = Done e /\ branch_over_edge x a b m Y /\
  de_integrals_edge e m n d (zetas m) h lam N = Done (P, E) /\ Z.of_nat (length P) = md_g d /\ Z.of_nat (length E) = md_g d /\
  forall q i, q < length (md_df d) -> (Z.of_nat i < nth q (md_df d) 0)%Z ->
    let j := (md_jm d + Z.of_nat q)%Z in let ct := offset (md_df d) q + i in
    vget E ct = de_rule lam h (N - 1) (form_on_edge x a b Y (Z.to_nat j) i) /\
    exists row, nth_error P ct = Some row /\ row_ok m j row (vget E ct).
Proof using All.
  destruct (edge_sheet x m a b Ha Hb Hab Hm Hn Hclear) as (e & f & He & Cf & Hf).
  destruct (diff_facts (Z.of_nat m) (Z.of_nat n) d Hd ltac:(lia) ltac:(lia)) as (J1 & _ & _ & _ & TG & _).
  destruct (sheet_branch e f _ Cf Hf) as [B F0].
  destruct (de_integrals_ok (fun t => ac_mth_root t e (zetas m) m (n - 2)) f d h lam m N ltac:(lia)) as (v & Ev & Lv & Hv).
  { intros t Ht. split; [apply Hf; lra|apply F0, Ht]. }
  { apply (df_nonneg _ _ _ Hd); lia. } { exact TG. }
  destruct (assemble e f (fun _ => de_rule lam h (N - 1)) v He F0) as (P & E & EP & LP & LE & H).
  { intros q _. apply de_is_rule. } { lia. } { exact Hv. }
  exists e, (ys (edge_const n m (vget (e_data e) n)) f), P, E. split; [exact He|]. split; [exact B|].
  split; [unfold de_integrals_edge; rewrite Ev; exact EP|]. split; [exact LP|]. split; [exact LE|]. exact H.
Qed.
End Edge.
