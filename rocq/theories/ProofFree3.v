(** The seven points: every point that is not on an edge has a weight above 1 + 1/200. *)
From Coq Require Import Reals Lra Lia List ZArith Bool.
From Coquelicot Require Import Coquelicot.
From Verif Require Import CArg ModelTree SpecTree SpecEdge SpecGc SpecFree ModelDeq ProofErr3 ProofFree ProofFree2 ProofCross5.
Import ListNotations.
Local Open Scope R_scope.

Definition zpoint (p : Z * Z) : C := (IZR (fst p), IZR (snd p)).
Definition zdist2 (p q : Z * Z) : Z := ((fst p - fst q) * (fst p - fst q) + (snd p - snd q) * (snd p - snd q))%Z.
Definition zinside (a b c : Z * Z) : bool :=
  let dx := (fst b - fst a)%Z in let dy := (snd b - snd a)%Z in let ex := (fst c - fst a)%Z in let ey := (snd c - snd a)%Z in
  ((ex * dy =? ey * dx) && (0 <? ex * dx + ey * dy) && (ex * dx + ey * dy <? dx * dx + dy * dy))%Z.
Definition zfar (a b c : Z * Z) : bool :=
  ((0 <? zdist2 b a) && (201 * (Z.sqrt (zdist2 b a * 1000000) + 1) <? 200 * (Z.sqrt (zdist2 c b * 1000000) + Z.sqrt (zdist2 c a * 1000000))))%Z.

Lemma zdist p q : Cmod (zpoint p - zpoint q)%C = sqrt (IZR (zdist2 p q)).
Proof.
  unfold Cmod, zpoint, zdist2. f_equal. cbn [fst snd Cminus Cplus Copp]. rewrite plus_IZR, !mult_IZR, !minus_IZR. unfold Rminus. ring.
Qed.
Lemma sqrt_bounds n : (0 <= n)%Z -> IZR (Z.sqrt (n * 1000000)) <= 1000 * sqrt (IZR n) <= IZR (Z.sqrt (n * 1000000) + 1).
Proof.
  intro H. assert (S := Z.sqrt_spec (n * 1000000) ltac:(lia)). assert (P := Z.sqrt_nonneg (n * 1000000)). cbv zeta in S. set (s := Z.sqrt (n * 1000000)) in *.
  replace (1000 * sqrt (IZR n)) with (sqrt (IZR (n * 1000000))).
  2:{ rewrite mult_IZR. rewrite sqrt_mult by (try (apply (IZR_le 0); lia); lra). replace (IZR 1000000) with (1000 * 1000) by lra. rewrite sqrt_square by lra. ring. }
  split.
  - rewrite <- (sqrt_square (IZR s)) by (apply (IZR_le 0); lia). apply sqrt_le_1_alt. rewrite <- mult_IZR. apply IZR_le. lia.
  - rewrite <- (sqrt_square (IZR (s + 1))) by (apply (IZR_le 0); lia). apply sqrt_le_1_alt. rewrite <- mult_IZR. apply IZR_le. lia.
Qed.
Lemma zdist2_pos p q : (0 <= zdist2 p q)%Z. Proof. unfold zdist2. apply Z.add_nonneg_nonneg; apply Z.square_nonneg. Qed.

Section Points.
Variable zs : list (Z * Z).
Definition zget (i : nat) : Z * Z := nth i zs (0, 0)%Z.
Let x := map zpoint zs.
Lemma zget_point i : vget x i = zpoint (zget i).
Proof. unfold vget, x, zget. change (RtoC 0) with (zpoint (0, 0)%Z). apply map_nth. Qed.
Lemma far_point i j k : zfar (zget i) (zget j) (zget k) = true -> 1 + / 200 < half_sum (position x i j k).
Proof.
  unfold zfar. rewrite andb_true_iff, !Z.ltb_lt. intros [D H].
  assert (N : vget x j <> vget x i).
  { rewrite !zget_point. intro E. unfold zpoint in E. injection E as E1 E2. apply eq_IZR in E1, E2. unfold zdist2 in D. rewrite E1, E2 in D. lia. }
  rewrite half_sum_position by exact N. rewrite !zget_point, !zdist.
  assert (B1 := sqrt_bounds _ (zdist2_pos (zget j) (zget i))). assert (B2 := sqrt_bounds _ (zdist2_pos (zget k) (zget j))). assert (B3 := sqrt_bounds _ (zdist2_pos (zget k) (zget i))).
  assert (P : 0 < sqrt (IZR (zdist2 (zget j) (zget i)))) by (apply sqrt_lt_R0, (IZR_lt 0); exact D).
  apply IZR_lt in H. rewrite !mult_IZR in H. rewrite (plus_IZR (Z.sqrt (zdist2 (zget k) (zget j) * 1000000))) in H.
  set (A := sqrt (IZR (zdist2 (zget k) (zget j)))) in *. set (B := sqrt (IZR (zdist2 (zget k) (zget i)))) in *. set (D0 := sqrt (IZR (zdist2 (zget j) (zget i)))) in *.
  apply (Rmult_lt_reg_r D0); [exact P|]. unfold Rdiv. rewrite Rmult_assoc, Rinv_l by lra. lra.
Qed.
Lemma inside_point i j k : zinside (zget i) (zget j) (zget k) = true -> inside x i j k.
Proof.
  unfold zinside. rewrite !andb_true_iff, Z.eqb_eq, !Z.ltb_lt. intros [[E H1] H2]. unfold inside, position. rewrite !zget_point. unfold zpoint.
  destruct (zget i) as [ax ay], (zget j) as [bx by_], (zget k) as [cx cy]. cbn [fst snd] in *.
  apply (f_equal IZR) in E. apply IZR_lt in H1, H2. rewrite ?plus_IZR, ?mult_IZR, ?minus_IZR in *.
  set (a1 := IZR ax) in *. set (a2 := IZR ay) in *. set (b1 := IZR bx) in *. set (b2 := IZR by_) in *. set (c1 := IZR cx) in *. set (c2 := IZR cy) in *.
  set (dx := b1 - a1) in *. set (dy := b2 - a2) in *. set (ex := c1 - a1) in *. set (ey := c2 - a2) in *.
  set (n := dx * dx + dy * dy) in *. set (s := (ex * dx + ey * dy) / n). assert (Hn : 0 < n) by lra.
  exists (2 * s - 1). assert (Hs : 0 < s < 1).
  { unfold s. split; [apply Rdiv_lt_0_compat; lra|]. apply (Rmult_lt_reg_r n); [exact Hn|]. unfold Rdiv. rewrite Rmult_assoc, Rinv_l by lra. lra. }
  split; [lra|].
  assert (X : ex = s * dx). { unfold s. apply (Rmult_eq_reg_r n); [|lra]. unfold Rdiv. replace ((ex * dx + ey * dy) * / n * dx * n) with ((ex * dx + ey * dy) * dx * (/ n * n)) by ring. rewrite Rinv_l by lra. unfold n. replace ((ex * dx + ey * dy) * dx * 1) with (ex * dx * dx + (ey * dx) * dy) by ring. rewrite <- E. ring. }
  assert (Y : ey = s * dy). { unfold s. apply (Rmult_eq_reg_r n); [|lra]. unfold Rdiv. replace ((ex * dx + ey * dy) * / n * dy * n) with ((ex * dx + ey * dy) * dy * (/ n * n)) by ring. rewrite Rinv_l by lra. unfold n. replace ((ex * dx + ey * dy) * dy * 1) with ((ex * dy) * dx + ey * dy * dy) by ring. rewrite E. ring. }
  assert (Nd : ((b1, b2) - (a1, a2))%C <> RtoC 0).
  { intro Z. injection Z as Z1 Z2. fold dx in Z1. fold dy in Z2. assert (dx = 0) by (unfold dx; lra). assert (dy = 0) by (unfold dy; lra). unfold n in Hn. rewrite H, H0 in Hn. lra. }
  replace (RtoC 2 * (c1, c2) - ((b1, b2) + (a1, a2)))%C with (RtoC (2 * s - 1) * ((b1, b2) - (a1, a2)))%C.
  { field. exact Nd. }
  replace c1 with (a1 + s * dx) by (rewrite <- X; unfold ex; ring). replace c2 with (a2 + s * dy) by (rewrite <- Y; unfold ey; ring). unfold dx, dy.
  apply injective_projections; cbn; ring.
Qed.
Definition zcheck : bool :=
  forallb (fun i => forallb (fun j => forallb (fun k => (i =? j)%nat || (k =? i)%nat || (k =? j)%nat || zinside (zget i) (zget j) (zget k) || zfar (zget i) (zget j) (zget k))
    (seq 0 (length zs))) (seq 0 (length zs))) (seq 0 (length zs)).
Lemma zcheck_off : zcheck = true -> forall i j k, triple x i j k -> off x i j k -> 1 + / 200 < half_sum (position x i j k).
Proof.
  unfold zcheck. intros H i j k (Hi & Hj & Hk & N1 & N2 & N3) Ho. unfold x in Hi, Hj, Hk. rewrite map_length in *.
  rewrite forallb_forall in H. specialize (H i ltac:(apply in_seq; lia)). cbv beta in H.
  rewrite forallb_forall in H. specialize (H j ltac:(apply in_seq; lia)). cbv beta in H.
  rewrite forallb_forall in H. specialize (H k ltac:(apply in_seq; lia)). cbv beta in H.
  rewrite !orb_true_iff in H. destruct H as [[[[H|H]|H]|H]|H].
  - apply Nat.eqb_eq in H. now exfalso.
  - apply Nat.eqb_eq in H. now exfalso.
  - apply Nat.eqb_eq in H. now exfalso.
  - destruct (inside_point _ _ _ H) as (t & Ht & E). exfalso. apply (Ho t); [lra|exact E].
  - now apply far_point.
Qed.
End Points.

Definition z75 : list (Z * Z) := [(10, 0); (11, 0); (-10, 0); (-11, 0); (0, 24); (0, -24); (0, 100)]%Z.
Lemma x75_z : x75 = map zpoint z75. Proof. reflexivity. Qed.
Lemma x75_off i j k : triple x75 i j k -> off x75 i j k -> 1 + / 200 < half_sum (position x75 i j k).
Proof. rewrite x75_z. apply zcheck_off. vm_compute. reflexivity. Qed.
Lemma x75_apart param : ordered_within (/ 200) half_sum x75 param -> tells_apart x75 param.
Proof. intro H. apply (half_sum_apart (/ 200)); [exact H|exact x75_off]. Qed.
