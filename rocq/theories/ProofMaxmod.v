(** The modulus of a quotient of polynomials has no local maximum where the quotient is defined,
    unless the quotient is constant (d'Alembert's argument). *)
From Coq Require Import Reals Lra Lia List.
From Coquelicot Require Import Coquelicot.
From Verif Require Import CArg.
Import ListNotations.
Local Open Scope R_scope.

(** polynomial functions, by Horner's scheme *)
Fixpoint ev (l : list C) (z : C) : C := match l with [] => RtoC 0 | a :: l => (a + z * ev l z)%C end.
Definition pol (f : C -> C) : Prop := exists l, forall z, f z = ev l z.
Lemma pol_const c : pol (fun _ => c).
Proof. exists [c]. intro z. cbn. ring. Qed.
Lemma pol_id : pol (fun z => z).
Proof. exists [RtoC 0; RtoC 1]. intro z. cbn. ring. Qed.
Lemma pol_add f g : pol f -> pol g -> pol (fun z => f z + g z)%C.
Proof.
  intros [l Hl] [k Hk]. revert f g k Hl Hk. induction l as [|a l IH]; intros f g k Hl Hk.
  - exists k. intro z. rewrite Hl, Hk. cbn. ring.
  - destruct k as [|b k].
    + exists (a :: l). intro z. rewrite Hl, Hk. cbn. ring.
    + destruct (IH (ev l) (ev k) k (fun _ => eq_refl) (fun _ => eq_refl)) as [s Hs]. exists ((a + b)%C :: s). intro z. rewrite Hl, Hk. cbn. rewrite <- Hs. ring.
Qed.
Lemma pol_scal c f : pol f -> pol (fun z => c * f z)%C.
Proof.
  intros [l Hl]. exists (map (Cmult c) l). intro z. rewrite Hl. clear Hl. induction l as [|a l IH]; cbn; [ring|]. rewrite <- IH. ring.
Qed.
Lemma pol_mul f g : pol f -> pol g -> pol (fun z => f z * g z)%C.
Proof.
  intros [l Hl]. revert f Hl. induction l as [|a l IH]; intros f Hl Hg.
  - exists []. intro z. rewrite Hl. cbn. ring.
  - destruct (IH (ev l) (fun _ => eq_refl) Hg) as [s Hs]. destruct (pol_scal a g Hg) as [b Hb].
    destruct (pol_add (ev b) (ev (RtoC 0 :: s)) (ex_intro _ b (fun _ => eq_refl)) (ex_intro _ (RtoC 0 :: s) (fun _ => eq_refl))) as [k Hk].
    exists k. intro z. rewrite Hl, <- Hk. cbn. rewrite <- Hs, <- Hb. ring.
Qed.
Lemma pol_shift f p : pol f -> pol (fun h => f (p + h)%C).
Proof.
  intros [l Hl]. revert f Hl. induction l as [|a l IH]; intros f Hl.
  - exists []. intro z. now rewrite Hl.
  - assert (H := pol_add _ _ (pol_const a) (pol_mul _ _ (pol_add _ _ (pol_const p) pol_id) (IH (ev l) (fun _ => eq_refl)))).
    destruct H as [k Hk]. exists k. intro z. rewrite Hl, <- Hk. reflexivity.
Qed.

(** ** Continuity *)
Definition cont (f : C -> C) (p : C) : Prop := forall e, 0 < e -> exists d, 0 < d /\ forall z, Cmod (z - p)%C <= d -> Cmod (f z - f p)%C < e.
Lemma pol_bound f p : pol f -> exists M, 0 <= M /\ forall z, Cmod (z - p)%C <= 1 -> Cmod (f z - f p)%C <= M * Cmod (z - p)%C.
Proof.
  intros [l Hl]. revert f Hl. induction l as [|a l IH]; intros f Hl.
  - exists 0. split; [lra|]. intros z _. rewrite !Hl. cbn. replace (RtoC 0 - RtoC 0)%C with (RtoC 0) by ring. rewrite Cmod_0. lra.
  - destruct (IH (ev l) (fun _ => eq_refl)) as (M & HM & H).
    exists ((Cmod p + 1) * M + Cmod (ev l p)). assert (G := Cmod_ge_0 p). assert (G' := Cmod_ge_0 (ev l p)). split; [nra|].
    intros z Hz. rewrite !Hl. cbn.
    replace (a + z * ev l z - (a + p * ev l p))%C with (z * (ev l z - ev l p) + (z - p) * ev l p)%C by ring.
    eapply Rle_trans; [apply Cmod_triangle|]. rewrite !Cmod_mult. specialize (H z Hz).
    assert (Z : Cmod z <= Cmod p + 1). { replace z with (p + (z - p))%C by ring. eapply Rle_trans; [apply Cmod_triangle|]. lra. }
    assert (H1 := Cmod_ge_0 (z - p)%C). assert (H2 := Cmod_ge_0 (ev l z - ev l p)%C). assert (H3 := Cmod_ge_0 z).
    assert (Cmod z * Cmod (ev l z - ev l p)%C <= (Cmod p + 1) * (M * Cmod (z - p)%C)) by (apply Rmult_le_compat; lra). nra.
Qed.
Lemma pol_cont f p : pol f -> cont f p.
Proof.
  intros Hf e He. destruct (pol_bound f p Hf) as (M & HM & H). exists (Rmin 1 (e / (2 * (M + 1)))). split.
  - apply Rmin_glb_lt; [lra|]. apply Rdiv_lt_0_compat; lra.
  - intros z Hz. assert (L := Rmin_l 1 (e / (2 * (M + 1)))). assert (L' := Rmin_r 1 (e / (2 * (M + 1)))).
    specialize (H z ltac:(lra)). eapply Rle_lt_trans; [exact H|].
    assert (Cmod (z - p)%C * (2 * (M + 1)) <= e). { apply Rle_trans with (e / (2 * (M + 1)) * (2 * (M + 1))); [apply Rmult_le_compat_r; lra|]. right. field. lra. }
    assert (G := Cmod_ge_0 (z - p)%C). nra.
Qed.

(** ** The lowest term *)
Lemma pol_low f : pol f -> (forall h, f h = RtoC 0) \/ exists k c g, c <> RtoC 0 /\ pol g /\ forall h, f h = (cpow h k * (c + h * g h))%C.
Proof.
  intros [l Hl]. revert f Hl. induction l as [|a l IH]; intros f Hl.
  - left. intro h. apply Hl.
  - destruct (Ceq_dec a (RtoC 0)) as [->|Ha].
    + destruct (IH (ev l) (fun _ => eq_refl)) as [H|(k & c & g & Hc & Hg & H)].
      * left. intro h. rewrite Hl. cbn. rewrite H. ring.
      * right. exists (S k), c, g. split; [exact Hc|]. split; [exact Hg|]. intro h. rewrite Hl. cbn. rewrite H. ring.
    + right. exists 0%nat, a, (ev l). split; [exact Ha|]. split; [now exists l|]. intro h. rewrite Hl. cbn. ring.
Qed.
Lemma small_point d : 0 < d -> Cmod (RtoC (d / 2)) <= d /\ RtoC (d / 2) <> RtoC 0.
Proof. intro H. rewrite Cmod_R, Rabs_pos_eq by lra. split; [lra|]. intro E. apply RtoC_inj in E. lra. Qed.
Lemma shift_near (p h : C) : (p + h - p = h)%C.
Proof. ring. Qed.

Theorem growth P D p d : pol P -> pol D -> D p <> RtoC 0 -> 0 < d ->
  (forall z, P z * D p = P p * D z)%C \/ exists z, Cmod (z - p)%C <= d /\ Cmod (P p) * Cmod (D z) < Cmod (P z) * Cmod (D p).
Proof.
  intros HP HD Dp Hd.
  set (T := fun h => (P (p + h) * D p - P p * D (p + h))%C).
  assert (HT : pol T).
  { destruct (pol_add _ _ (pol_scal (D p) _ (pol_shift P p HP)) (pol_scal (- P p)%C _ (pol_shift D p HD))) as [l Hl]. exists l. intro z. rewrite <- Hl. unfold T. ring. }
  destruct (pol_low T HT) as [H0|(k & c & g & Hc & Hg & HTk)].
  { left. intro z. specialize (H0 (z - p)%C). unfold T in H0. replace (p + (z - p))%C with z in H0 by ring.
    replace (P z * D p)%C with (P z * D p - P p * D z + P p * D z)%C by ring. rewrite H0. ring. }
  right. assert (C0 : 0 < Cmod c) by now apply Cmod_gt_0.
  assert (Hhg : pol (fun h => h * g h)%C) by now apply pol_mul; [apply pol_id|].
  destruct (pol_cont _ (RtoC 0) Hhg (Cmod c / 4) ltac:(lra)) as (d1 & Hd1 & G1).
  destruct (Ceq_dec (P p) (RtoC 0)) as [P0|P0].
  - (* P vanishes at p *)
    set (rho := Rmin d d1). assert (Hr : 0 < rho) by now apply Rmin_glb_lt.
    destruct (small_point rho Hr) as [R1 R2]. assert (L := Rmin_l d d1). assert (L' := Rmin_r d d1). fold rho in L, L'.
    exists (p + RtoC (rho / 2))%C. rewrite shift_near. split; [lra|]. rewrite P0, Cmod_0, Rmult_0_l, <- Cmod_mult.
    apply Cmod_gt_0. specialize (HTk (RtoC (rho / 2))). unfold T in HTk. rewrite P0 in HTk.
    replace (P (p + RtoC (rho / 2)) * D p)%C with (P (p + RtoC (rho / 2)) * D p - RtoC 0 * D (p + RtoC (rho / 2)))%C by ring. rewrite HTk.
    apply Cmult_neq_0; [now apply cpow_neq_0|]. intro E.
    assert (G := G1 (RtoC (rho / 2))). replace (RtoC (rho / 2) - RtoC 0)%C with (RtoC (rho / 2)) in G by ring. specialize (G ltac:(lra)).
    replace (RtoC (rho / 2) * g (RtoC (rho / 2)) - RtoC 0 * g (RtoC 0))%C with (- c)%C in G.
    + rewrite Cmod_opp in G. lra.
    + replace (RtoC (rho / 2) * g (RtoC (rho / 2)))%C with (c + RtoC (rho / 2) * g (RtoC (rho / 2)) - c)%C by ring. rewrite E. ring.
  - assert (Hk : (0 < k)%nat).
    { destruct k as [|k]; [|lia]. exfalso. specialize (HTk (RtoC 0)). unfold T in HTk. replace (p + RtoC 0)%C with p in HTk by ring. cbn [cpow] in HTk.
      apply Hc. replace c with (RtoC 1 * (c + RtoC 0 * g (RtoC 0)))%C by ring. rewrite <- HTk. ring. }
    set (A := (P p * D p)%C). assert (HA : A <> RtoC 0) by now apply Cmult_neq_0. assert (A0 : 0 < Cmod A) by now apply Cmod_gt_0.
    assert (HPD : pol (fun z => P p * D z)%C) by now apply pol_scal.
    destruct (pol_cont _ p HPD (Cmod A / 8) ltac:(lra)) as (d2 & Hd2 & G2). fold A in G2.
    set (rho := Rmin d (Rmin d1 d2)). assert (Hr : 0 < rho) by now repeat apply Rmin_glb_lt.
    assert (L1 : rho <= d) by apply Rmin_l. assert (L2 : rho <= d1) by (eapply Rle_trans; [apply Rmin_r|apply Rmin_l]). assert (L3 : rho <= d2) by (eapply Rle_trans; [apply Rmin_r|apply Rmin_r]).
    set (w := croot (Z.of_nat k) (RtoC (Cmod c) * A / (RtoC (Cmod A) * c))%C).
    assert (HcA : RtoC (Cmod A) <> RtoC 0) by (intro E; apply RtoC_inj in E; lra).
    assert (Hw : cpow w k = (RtoC (Cmod c) * A / (RtoC (Cmod A) * c))%C) by now apply croot_pow.
    assert (Mw : Cmod w = 1).
    { assert (E := cpow_mod w k). rewrite Hw in E. rewrite Cmod_div in E by now apply Cmult_neq_0. rewrite !Cmod_mult, !Cmod_R, !Rabs_pos_eq in E by lra.
      replace (Cmod c * Cmod A / (Cmod A * Cmod c)) with 1 in E by (field; lra).
      assert (G := Cmod_ge_0 w). destruct (Rtotal_order (Cmod w) 1) as [L|[L|L]]; [|exact L|].
      - assert (Cmod w ^ k < 1); [|lra]. destruct k as [|k']; [lia|]. apply pow_lt_1_compat; [lra|lia].
      - assert (1 < Cmod w ^ k); [|lra]. apply Rlt_pow_R1; [exact L|exact Hk]. }
    set (h := (RtoC rho * w)%C). assert (Mh : Cmod h = rho) by (unfold h; rewrite Cmod_mult, Cmod_R, Mw, Rabs_pos_eq; lra).
    exists (p + h)%C. rewrite shift_near. split; [lra|].
    set (B := (P p * D (p + h))%C).
    assert (E2 : Cmod (B - A)%C < Cmod A / 8). { assert (G := G2 (p + h)%C). rewrite shift_near in G. apply G. lra. }
    set (err := (h * g h)%C).
    assert (E1 : Cmod err < Cmod c / 4).
    { assert (G := G1 h). replace (h - RtoC 0)%C with h in G by ring. specialize (G ltac:(lra)). replace (h * g h - RtoC 0 * g (RtoC 0))%C with err in G by (unfold err; ring). exact G. }
    assert (ET : (P (p + h) * D p)%C = (B + T h)%C) by (unfold B, T; ring).
    rewrite <- !Cmod_mult. fold B. rewrite ET, HTk. fold err.
    assert (Ek : cpow h k = (RtoC (rho ^ k) * cpow w k)%C).
    { unfold h. generalize w. intro v. clear. induction k as [|k IH]; cbn [cpow pow]; [ring|]. rewrite IH, RtoC_mult. ring. }
    assert (Hrk : 0 < rho ^ k) by now apply pow_lt.
    set (s := rho ^ k) in *. set (q := Cmod c / Cmod A).
    assert (Hq : 0 < q) by (apply Rdiv_lt_0_compat; lra).
    assert (EB : (B + cpow h k * (c + err))%C = (B * RtoC (1 + s * q) + - (RtoC s * (RtoC q * (B - A) + - (cpow w k * err))))%C).
    { rewrite Ek, Hw. unfold q. rewrite !RtoC_plus, !RtoC_mult, RtoC_div by lra. field. split; [exact Hc|exact HcA]. }
    rewrite EB.
    assert (LB : Cmod (RtoC s * (RtoC q * (B - A) + - (cpow w k * err)))%C < s * (Cmod c / 8 + Cmod c / 4)).
    { rewrite Cmod_mult, Cmod_R, Rabs_pos_eq by lra. apply Rmult_lt_compat_l; [lra|]. eapply Rle_lt_trans; [apply Cmod_triangle|].
      rewrite Cmod_opp, !Cmod_mult, Cmod_R, cpow_mod, Mw, pow1, Rabs_pos_eq by lra.
      assert (q * Cmod (B - A)%C <= q * (Cmod A / 8)) by (apply Rmult_le_compat_l; lra).
      replace (q * (Cmod A / 8)) with (Cmod c / 8) in H by (unfold q; field; lra). lra. }
    assert (MB : 7 / 8 * Cmod A < Cmod B).
    { assert (G := Cmod_triangle B (- (B - A))%C). replace (B + - (B - A))%C with A in G by ring. rewrite Cmod_opp in G. lra. }
    assert (TB : Cmod B * (1 + s * q) <= Cmod (B * RtoC (1 + s * q) + - (RtoC s * (RtoC q * (B - A) + - (cpow w k * err))))%C + Cmod (RtoC s * (RtoC q * (B - A) + - (cpow w k * err)))%C).
    { set (V := (RtoC s * (RtoC q * (B - A) + - (cpow w k * err)))%C). assert (Hsq : 0 < s * q) by now apply Rmult_lt_0_compat.
      replace (Cmod B * (1 + s * q)) with (Cmod (B * RtoC (1 + s * q))%C) by (rewrite Cmod_mult, Cmod_R, Rabs_pos_eq by lra; reflexivity).
      replace (B * RtoC (1 + s * q))%C with (B * RtoC (1 + s * q) + - V + V)%C at 1 by ring. apply Cmod_triangle. }
    assert (SQ : s * (7 / 8 * Cmod c) < s * q * Cmod B).
    { replace (s * (7 / 8 * Cmod c)) with (s * q * (7 / 8 * Cmod A)) by (unfold q; field; lra). apply Rmult_lt_compat_l; [now apply Rmult_lt_0_compat|exact MB]. }
    assert (s * (Cmod c / 8 + Cmod c / 4) < s * (7 / 8 * Cmod c)) by (apply Rmult_lt_compat_l; lra). lra.
Qed.
