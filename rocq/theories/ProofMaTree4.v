(** The numbers stored with the edges of the tree. *)
From Coq Require Import Reals Lra Lia List Permutation ZArith Bool.
From Coquelicot Require Import Coquelicot.
From Verif Require Import CArg ModelTree ModelPeriod ModelDeq ModelMaTree SpecTree SpecEdge SpecDeq SpecInter SpecCross SpecGc SpecFree SpecMaTree ProofTree ProofTreeEx ProofFree ProofFree2 ProofDeq3 ProofHol11
  ProofCross2 ProofCross3 ProofCross5 ProofMaTree ProofMaTree2 ProofMaTree3.
Import ListNotations.
Local Open Scope R_scope.

Lemma ellipse_half u : ellipse u = half_sum u.
Proof. unfold ellipse, half_sum. lra. Qed.
Lemma u_k_position p a b k : u_k p a b k = position p a b k.
Proof. unfold u_k, position. f_equal. ring. Qed.
Lemma others_in len a b k : In k (others len a b) <-> (k < len)%nat /\ k <> a /\ k <> b.
Proof.
  unfold others. rewrite filter_In, in_seq, negb_true_iff, orb_false_iff, !Nat.eqb_neq. intuition lia.
Qed.
Lemma fold_rmin {A} (f : A -> R) (l : list A) : forall r0, let r := fold_left (fun r k => Rmin r (f k)) l r0 in
  r <= r0 /\ (forall k, In k l -> r <= f k) /\ (r = r0 \/ exists k, In k l /\ r = f k).
Proof.
  induction l as [|a l IH]; intros r0; cbn.
  - split; [lra|]. split; [intros k []|now left].
  - destruct (IH (Rmin r0 (f a))) as (H1 & H2 & H3). assert (M1 := Rmin_l r0 (f a)). assert (M2 := Rmin_r r0 (f a)).
    split; [eapply Rle_trans; eassumption|]. split.
    + intros k [->|K]; [eapply Rle_trans; eassumption|now apply H2].
    + destruct H3 as [H3|(k & K & H3)].
      * destruct (Rle_dec r0 (f a)) as [L|L]; [left; rewrite H3; now apply Rmin_left|]. right. exists a. split; [now left|]. rewrite H3. apply Rmin_right. lra.
      * right. exists k. split; [now right|exact H3].
Qed.

Lemma weight_spec ty p a b : least_gauge ty p a b (edge_weight ty p a b).
Proof.
  assert (E : edge_weight ty p a b = fold_left (fun r k => Rmin r (gauge ty (position p a b k))) (others (length p) a b) 5).
  { unfold edge_weight. assert (G : forall f g l r0, (forall k, f k = g k) -> fold_left (fun r (k : nat) => Rmin r (f k)) l r0 = fold_left (fun r k => Rmin r (g k)) l r0).
    { intros f g l. induction l as [|k l IH]; intros r0 H; cbn; [reflexivity|]. rewrite H. now apply IH. }
    destruct ty; cbn [gauge]; apply G; intro k; rewrite u_k_position; [reflexivity|apply ellipse_half]. }
  unfold least_gauge. rewrite E. destruct (fold_rmin (fun k => gauge ty (position p a b k)) (others (length p) a b) 5) as (H1 & H2 & H3).
  split; [exact H1|]. split.
  - intros k K1 K2 K3. apply H2. apply others_in. auto.
  - destruct H3 as [H3|(k & K & H3)]; [now left|]. right. exists k. apply others_in in K. tauto.
Qed.

Lemma position_flip x i j k : (vget x j - vget x i)%C <> RtoC 0 -> position x j i k = (- position x i j k)%C.
Proof.
  intro N. unfold position. assert (N' : (vget x i - vget x j)%C <> RtoC 0). { intro E. apply N. transitivity (- (vget x i - vget x j))%C; [ring|]. rewrite E. ring. }
  field. split; assumption.
Qed.
Lemma half_sum_even u : half_sum (- u)%C = half_sum u.
Proof.
  unfold half_sum. replace (- u - RtoC 1)%C with (- (u + RtoC 1))%C by ring. replace (- u + RtoC 1)%C with (- (u - RtoC 1))%C by ring. rewrite !Cmod_opp. lra.
Qed.

(** ** de_tau is less than pi/2 *)
Lemma cmod2 (z : C) : Cmod z * Cmod z = fst z * fst z + snd z * snd z.
Proof. unfold Cmod. rewrite sqrt_sqrt; cbn; nra. Qed.
Lemma tau_lt w : w <> RtoC 1 -> w <> RtoC (-1) -> de_tau w < PI / 2.
Proof.
  intros H1 H2. destruct (atanh_ok w H1 H2) as (A1 & _ & A3). unfold de_tau. assert (P := PI_RGT_0).
  set (s := (c_atanh w / RtoC (PI / 2))%C). assert (Es : c_atanh w = (RtoC (PI / 2) * s)%C) by (unfold s; field; intro X; injection X; lra).
  assert (Bs : Rabs (snd s) <= 1).
  { rewrite Es in A3. replace (snd (RtoC (PI / 2) * s)%C) with (PI / 2 * snd s) in A3 by (cbn; ring). rewrite Rabs_mult, (Rabs_pos_eq (PI / 2)) in A3 by lra. nra. }
  assert (Ns : ~ (fst s = 0 /\ Rabs (snd s) = 1)).
  { intros [F0 S1]. apply A1. rewrite Es. unfold SpecDe.ccosh. cbn [fst snd Cmult RtoC]. rewrite F0. replace (PI / 2 * 0 - 0 * snd s) with 0 by ring.
    assert (D : snd s = 1 \/ snd s = -1) by (unfold Rabs in S1; destruct (Rcase_abs (snd s)); [right|left]; lra).
    destruct D as [-> | ->].
    - replace (PI / 2 * 1 + 0 * 0) with (PI / 2) by ring. apply injective_projections; cbn; rewrite ?cos_PI2, ?sinh_0; ring.
    - replace (PI / 2 * -1 + 0 * 0) with (- (PI / 2)) by ring. apply injective_projections; cbn; rewrite ?cos_neg, ?cos_PI2, ?sinh_0; ring. }
  unfold c_asinh. cbn [snd]. set (a := Cmod (s + Ci)%C). set (b := Cmod (s - Ci)%C). set (x := fst s) in *. set (y := snd s) in *.
  assert (Pa : 0 <= a) by apply Cmod_ge_0. assert (Pb : 0 <= b) by apply Cmod_ge_0.
  assert (Ea : a * a = x * x + (y + 1) * (y + 1)). { unfold a. rewrite cmod2. cbn. fold x y. ring. }
  assert (Eb : b * b = x * x + (y - 1) * (y - 1)). { unfold b. rewrite cmod2. cbn. fold x y. ring. }
  assert (Y : -1 <= y <= 1) by (unfold Rabs in Bs; destruct (Rcase_abs y); lra).
  assert (L : -1 < (a - b) / 2 < 1).
  { assert (K : (a - b) * (a - b) < 4); [|split; nra].
    assert (N2 : x <> 0 \/ -1 < y < 1).
    { destruct (Req_dec x 0) as [X0|X0]; [right|now left]. assert (y <> 1) by (intro E; apply Ns; rewrite E, Rabs_R1; auto). assert (y <> -1) by (intro E; apply Ns; split; [exact X0|rewrite E, Rabs_left; lra]). lra. }
    assert (Pab : 0 <= a * b) by now apply Rmult_le_pos.
    assert (Q : (a * b) * (a * b) = (x * x + y * y - 1) * (x * x + y * y - 1) + 4 * (x * x)).
    { replace (a * b * (a * b)) with ((a * a) * (b * b)) by ring. rewrite Ea, Eb. ring. }
    assert (x * x + y * y - 1 < a * b); [|nra]. destruct N2 as [N2|N2]; [assert (0 < x * x) by nra; nra|].
    destruct (Req_dec x 0) as [X0|X0]; [rewrite X0; nra|assert (0 < x * x) by nra; nra]. }
  assert (B := asin_bound_lt _ L). apply Rabs_def1; lra.
Qed.

Lemma same_sides_refl p : same_sides p p.
Proof. split; [reflexivity|auto]. Qed.
Lemma off_edge p es e k : distinct p -> growing es -> cheapest p es -> (forall v, touched es v -> (v < length p)%nat) -> In e es ->
  (k < length p)%nat -> k <> ea e -> k <> eb e -> forall t, -1 <= t <= 1 -> position p (ea e) (eb e) k <> RtoC t /\ position p (eb e) (ea e) k <> RtoC t.
Proof.
  intros Hd Hg Hc Ht Ie Hk Na Nb t B. destruct (ends p es Hg Ht e Ie) as (A1 & A2 & A3).
  assert (K : forall t, -1 <= t <= 1 -> position p (ea e) (eb e) k <> RtoC t).
  { clear t B. intros t B E. apply (position_point p Hd) in E; [|assumption..]. assert (Ik : In (vget p k) p) by (apply nth_In; exact Hk).
    rewrite point_lin in E. destruct (Req_dec t (-1)) as [T1|N1].
    { apply (vget_neq p Hd k (ea e) Hk A1 Na). rewrite E, T1. replace ((1 + -1) / 2) with 0 by field. ring. }
    destruct (Req_dec t 1) as [T1|N2].
    { apply (vget_neq p Hd k (eb e) Hk A2 Nb). rewrite E, T1. replace ((1 + 1) / 2) with 1 by field. ring. }
    apply (tree_free p p es Hd (same_sides_refl p) Hg Ht Hc e Ie t); [lra|]. rewrite point_lin, <- E. exact Ik. }
  split; [now apply K|]. rewrite position_flip by (apply (diff_neq p Hd); assumption). intro E. apply (K (- t)); [lra|]. rewrite RtoC_opp, <- E. ring.
Qed.

Lemma gauge_pos ty u : (forall t, -1 <= t <= 1 -> u <> RtoC t) -> match ty with GJ => 1 < gauge ty u | DE => 0 < gauge ty u < PI / 2 end.
Proof.
  intro H. destruct ty; cbn [gauge].
  - split; [apply tau_pos|apply tau_lt]; try (apply H; lra). intros t T. apply H. lra.
  - now apply half_sum_outside.
Qed.
Lemma weight_range ty p a b : (3 <= length p)%nat -> (a < length p)%nat -> (b < length p)%nat ->
  (forall k, (k < length p)%nat -> k <> a -> k <> b -> forall t, -1 <= t <= 1 -> position p a b k <> RtoC t) ->
  match ty with GJ => 1 < edge_weight ty p a b <= 5 | DE => 0 < edge_weight ty p a b < PI / 2 end.
Proof.
  intros H3 Ha Hb Ho. destruct (weight_spec ty p a b) as (W1 & W2 & W3).
  assert (Ek : exists k, (k < length p)%nat /\ k <> a /\ k <> b).
  { destruct (exists_third (length p) a b H3) as (k & K1 & K2 & K3). exists k. apply in_seq in K1. repeat split; [lia|exact K2|exact K3]. }
  destruct Ek as (k0 & K1 & K2 & K3). assert (G := fun k A B D => gauge_pos ty (position p a b k) (Ho k A B D)). assert (P := PI_4).
  destruct ty.
  - assert (U := W2 k0 K1 K2 K3). assert (G0 := G k0 K1 K2 K3). cbn [gauge] in U, G0. split; [|lra]. destruct W3 as [->|(k & A & B & D & ->)]; [lra|]. specialize (G k A B D). cbn [gauge] in *. lra.
  - split; [|exact W1]. destruct W3 as [->|(k & A & B & D & ->)]; [lra|]. exact (G k A B D).
Qed.

(** the tree that is built, with its numbers *)
Lemma built sort ty p : sort_ok sort -> distinct p -> (3 <= length p)%nat -> exists t, build_tree sort ty p = Done t /\
  length (s_edges t) = (length p - 1)%nat /\ growing (plains (s_edges t)) /\ (forall v, touched (plains (s_edges t)) v -> (v < length p)%nat) /\
  cheapest p (plains (s_edges t)) /\
  (forall e, In e (s_edges t) -> (exists a b, joins (plain e) a b /\ least_gauge ty p a b (t_r e)) /\
     s_min t <= t_r e <= s_max t /\ match ty with GJ => 1 < t_r e <= 5 | DE => 0 < t_r e < PI / 2 end) /\
  (exists e, In e (s_edges t) /\ t_r e = s_min t) /\ (exists e, In e (s_edges t) /\ t_r e = s_max t).
Proof.
  intros Hs Hd H3. destruct (build_done sort ty p Hs ltac:(lia)) as (t & E & L & Hg & Ht & Hc & [Hw Hb] & Hwt).
  exists t. split; [exact E|]. split; [exact L|]. split; [exact Hg|]. split; [exact Ht|]. split; [exact Hc|].
  assert (R : forall e, In e (s_edges t) -> match ty with GJ => 1 < t_r e <= 5 | DE => 0 < t_r e < PI / 2 end).
  { intros e Ie. destruct (Hwt e Ie) as (a & b & Hab & -> & J). assert (Ie' : In (plain e) (plains (s_edges t))) by (apply in_map; exact Ie).
    destruct (ends p _ Hg Ht _ Ie') as (A1 & A2 & A3). assert (O := off_edge p (plains (s_edges t)) (plain e)).
    destruct J as [[J1 J2]|[J1 J2]]; rewrite J1, J2 in *; apply weight_range; try assumption; intros k K1 K2 K3 u U; destruct (O k Hd Hg Hc Ht Ie' K1) with (t := u) as [O1 O2]; try congruence. }
  assert (P := PI_4). assert (P0 := PI_RGT_0). assert (R5 : forall e, In e (s_edges t) -> 0 < t_r e <= 5).
  { intros e Ie. specialize (R e Ie). destruct ty; lra. }
  assert (N : exists e, In e (s_edges t)). { destruct (s_edges t) as [|e l]; [cbn in L; lia|exists e; now left]. }
  destruct N as (e0 & I0). assert (R0 := R5 e0 I0).
  split; [|split].
  - intros e Ie. split; [destruct (Hwt e Ie) as (a & b & Hab & -> & J); exists a, b; split; [exact J|apply weight_spec]|]. split; [|now apply R]. split.
    + destruct Hw as [(_ & -> & A)|(k & f & _ & _ & _ & _ & A)]; now apply A.
    + destruct Hb as [(_ & -> & A)|(k & f & _ & _ & _ & _ & A)]; now apply A.
  - destruct Hw as [(_ & -> & A)|(k & f & _ & A1 & A2 & _ & _)]; [exists e0; split; [exact I0|specialize (A e0 I0); lra]|exists f; split; [eapply nth_error_In; exact A1|exact A2]].
  - destruct Hb as [(_ & -> & A)|(k & f & _ & A1 & A2 & _ & _)]; [specialize (A e0 I0); lra|exists f; split; [eapply nth_error_In; exact A1|exact A2]].
Qed.
