(** The two weights used by the program. *)
From Coq Require Import Reals Lra Lia List.
From Coquelicot Require Import Coquelicot.
From Verif Require Import CArg ModelTree SpecTree SpecGc SpecEdge SpecInter ProofErr3 SpecDeq ModelTurn ModelDeq ProofHol8 ProofHol11 SpecFree ProofFree.
Import ListNotations.
Local Open Scope R_scope.

Lemma Cmod_ge_fst a b : Rabs a <= Cmod (a, b).
Proof. unfold Cmod. cbn [fst snd]. rewrite <- sqrt_Rsqr_abs. apply sqrt_le_1_alt. unfold Rsqr. nra. Qed.
Lemma Cmod_gt_fst a b : b <> 0 -> Rabs a < Cmod (a, b).
Proof. intro H. unfold Cmod. cbn [fst snd]. rewrite <- sqrt_Rsqr_abs. apply sqrt_lt_1_alt. unfold Rsqr. assert (0 < b * b) by nra. split; nra. Qed.
Lemma flat_half_sum : flat half_sum.
Proof.
  exists 1. split; [intros t Ht; apply half_sum_real; lra|]. intros [a b] H. unfold half_sum.
  replace ((a, b) - RtoC 1)%C with (a - 1, b) by (apply injective_projections; cbn; ring).
  replace ((a, b) + RtoC 1)%C with (a + 1, b) by (apply injective_projections; cbn; ring).
  assert (T : 2 <= Rabs (a - 1) + Rabs (a + 1)) by (assert (T := Rabs_triang (a + 1) (- (a - 1))); rewrite Rabs_Ropp in T; replace (a + 1 + - (a - 1)) with 2 in T by ring; rewrite (Rabs_pos_eq 2) in T by lra; lra).
  destruct (Req_dec b 0) as [->|Hb].
  - assert (Ha : a < -1 \/ 1 < a).
    { destruct (Rlt_dec a (-1)); [now left|]. destruct (Rlt_dec 1 a); [now right|]. exfalso. apply (H a); [lra|reflexivity]. }
    assert (H1 := Cmod_ge_fst (a - 1) 0). assert (H2 := Cmod_ge_fst (a + 1) 0).
    destruct Ha as [Ha|Ha]; [rewrite Rabs_left in H1, H2 by lra|rewrite Rabs_pos_eq in H1, H2 by lra]; lra.
  - assert (H1 := Cmod_gt_fst (a - 1) b Hb). assert (H2 := Cmod_gt_fst (a + 1) b Hb). lra.
Qed.
Lemma tau_zero t : -1 < t < 1 -> de_tau (RtoC t) = 0.
Proof.
  intro Ht. unfold de_tau.
  assert (E : snd (c_atanh (RtoC t) / RtoC (PI / 2))%C = 0).
  { unfold c_atanh. assert (E1 : ((RtoC 1 + RtoC t) / (RtoC 1 - RtoC t))%C = RtoC ((1 + t) / (1 - t))).
    { rewrite RtoC_div, RtoC_plus, RtoC_minus by lra. reflexivity. }
    rewrite E1. unfold clog. unfold RtoC at 2; rewrite carg_real_pos by (apply Rdiv_lt_0_compat; lra). unfold Cdiv, Cmult, Cinv. cbn [fst snd RtoC]. unfold Rdiv. ring. }
  set (s := (c_atanh (RtoC t) / RtoC (PI / 2))%C) in *. destruct s as [p q]. cbn [snd] in E. subst q. unfold c_asinh. cbn [snd].
  replace (Cmod ((p, 0%R) + Ci)%C) with (Cmod ((p, 0%R) - Ci)%C).
  - unfold Rminus at 1. rewrite Rplus_opp_r. unfold Rdiv. rewrite Rmult_0_l, asin_0. apply Rabs_R0.
  - unfold Cmod. f_equal. cbn. ring.
Qed.
Lemma flat_tau : flat de_tau.
Proof.
  exists 0. split; [exact tau_zero|]. intros p H. apply tau_pos; [apply H; lra|apply H; lra|]. intros t Ht. apply H. lra.
Qed.

(** such numbers exist for any function and any points *)
Definition triples (n : nat) : list (nat * nat * nat) := list_prod (list_prod (seq 0 n) (seq 0 n)) (seq 0 n).
Definition rank (f : C -> R) (x : list C) (i j k : nat) : dbl :=
  Some (Z.of_nat (length (filter (fun p => let '(i', j', k') := p in if Rlt_dec (f (position x i' j' k')) (f (position x i j k)) then true else false) (triples (length x))))).
Lemma rank_ordered f x : ordered_by f x (rank f x).
Proof.
  split.
  - intros i j k. eexists. split; [reflexivity|lia].
  - intros i j k i' j' k' T T'. unfold rank. cbn [dlt]. rewrite Z.ltb_lt, <- Nat2Z.inj_lt.
    assert (In3 : In (i, j, k) (triples (length x))) by (destruct T as (A & B & C0 & _); repeat apply in_prod; apply in_seq; lia).
    set (F := fun v => fun p : nat * nat * nat => let '(i', j', k') := p in if Rlt_dec (f (position x i' j' k')) v then true else false).
    change ((length (filter (F (f (position x i j k))) (triples (length x))) < length (filter (F (f (position x i' j' k'))) (triples (length x))))%nat <-> f (position x i j k) < f (position x i' j' k')).
    assert (Hle : forall v v', v' <= v -> (length (filter (F v') (triples (length x))) <= length (filter (F v) (triples (length x))))%nat).
    { intros v v' Hv. clear In3. induction (triples (length x)) as [|q l IH]; cbn [filter]; [lia|].
      assert (F v' q = true -> F v q = true). { destruct q as [[q1 q2] q3]. unfold F. destruct (Rlt_dec _ v'); [|discriminate]. destruct (Rlt_dec _ v); [reflexivity|lra]. }
      destruct (F v' q); [rewrite H by reflexivity; cbn; lia|]. destruct (F v q); cbn; lia. }
    split; intro H.
    + destruct (Rlt_dec (f (position x i j k)) (f (position x i' j' k'))) as [L|L]; [exact L|]. exfalso. apply Rnot_lt_le in L. specialize (Hle _ _ L). lia.
    + apply (filter_shorter _ _ _ (i, j, k)); [|exact In3| |].
      * intros [[q1 q2] q3] _. unfold F. destruct (Rlt_dec _ (f (position x i j k))); [|discriminate]. destruct (Rlt_dec _ (f (position x i' j' k'))); [reflexivity|lra].
      * unfold F. destruct (Rlt_dec _ _); [lra|reflexivity].
      * unfold F. destruct (Rlt_dec _ _); [reflexivity|lra].
Qed.
Lemma half_sum_apart eps x param : ordered_within eps half_sum x param ->
  (forall i j k, triple x i j k -> off x i j k -> 1 + eps < half_sum (position x i j k)) -> tells_apart x param.
Proof. apply within_apart. intros t Ht. apply half_sum_real. lra. Qed.
Lemma tau_apart eps x param : ordered_within eps de_tau x param ->
  (forall i j k, triple x i j k -> off x i j k -> eps < de_tau (position x i j k)) -> tells_apart x param.
Proof. intros H1 H2. apply (within_apart eps 0 de_tau); [exact tau_zero|exact H1|]. intros i j k T F. rewrite Rplus_0_l. now apply H2. Qed.
