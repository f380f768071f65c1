(** Complex numbers: finite sums, powers, roots of unity.
    Complex numbers are those of Coquelicot (pairs of Coq's reals). *)
From Verif Require Export Base.
From Coq Require Export Reals Lra.
From Coquelicot Require Export Complex.
Open Scope Z_scope.

Definition ZC (z : Z) : C := RtoC (IZR z).

Fixpoint csum (n : nat) (f : nat -> C) : C :=
  match n with
  | O => RtoC 0
  | S k => (csum k f + f k)%C
  end.

Fixpoint cpow (z : C) (n : nat) : C :=
  match n with
  | O => RtoC 1
  | S k => (cpow z k * z)%C
  end.

(** sum over a list *)
Definition clsum {A} (f : A -> C) (l : list A) : C :=
  fold_right (fun x s => (f x + s)%C) (RtoC 0) l.

(** entry of a vector *)
Definition vget (v : list C) (k : nat) : C := nth k v (RtoC 0).

Definition vtab (n : nat) (f : nat -> C) : list C := map f (seq 0 n).

Lemma vtab_length n f : length (vtab n f) = n.
Proof. unfold vtab. rewrite map_length, seq_length. reflexivity. Qed.
Lemma vget_tab n f k : (k < n)%nat -> vget (vtab n f) k = f k.
Proof. intros H. unfold vget, vtab. apply nth_map_seq, H. Qed.
Lemma vget_out v k : (length v <= k)%nat -> vget v k = RtoC 0.
Proof. intros H. unfold vget. apply nth_overflow, H. Qed.

Lemma csum_ext n f g : (forall k, (k < n)%nat -> f k = g k) -> csum n f = csum n g.
Proof.
  induction n as [|n IH]; intros H; cbn [csum]; [reflexivity|].
  rewrite IH by (intros; apply H; lia). rewrite H by lia. reflexivity.
Qed.
Lemma csum_add n f g : csum n (fun k => (f k + g k)%C) = (csum n f + csum n g)%C.
Proof. induction n as [|n IH]; cbn [csum]; [ring|]. rewrite IH. ring. Qed.
Lemma csum_scal n c f : csum n (fun k => (c * f k)%C) = (c * csum n f)%C.
Proof. induction n as [|n IH]; cbn [csum]; [ring|]. rewrite IH. ring. Qed.
Lemma csum_scal_r n c f : csum n (fun k => (f k * c)%C) = (csum n f * c)%C.
Proof. induction n as [|n IH]; cbn [csum]; [ring|]. rewrite IH. ring. Qed.
Lemma csum_zero n f : (forall k, (k < n)%nat -> f k = RtoC 0) -> csum n f = RtoC 0.
Proof.
  induction n as [|n IH]; intros H; cbn [csum]; [reflexivity|].
  rewrite IH by (intros; apply H; lia). rewrite H by lia. ring.
Qed.
Lemma csum_app n p f : csum (n + p) f = (csum n f + csum p (fun k => f (n + k)%nat))%C.
Proof.
  induction p as [|p IH]; cbn [csum].
  - rewrite Nat.add_0_r. ring.
  - rewrite Nat.add_succ_r. cbn [csum]. rewrite IH. ring.
Qed.
Lemma csum_S_l n f : csum (S n) f = (f O + csum n (fun k => f (S k)))%C.
Proof. change (S n) with (1 + n)%nat. rewrite (csum_app 1 n f). cbn [csum Nat.add]. ring. Qed.
Lemma csum_swap n k (f : nat -> nat -> C) :
  csum n (fun i => csum k (fun j => f i j)) = csum k (fun j => csum n (fun i => f i j)).
Proof.
  induction n as [|n IH]; cbn [csum].
  - symmetry. apply csum_zero. reflexivity.
  - rewrite IH. rewrite <- csum_add. reflexivity.
Qed.
Lemma csum_single n (f : nat -> C) x : (x < n)%nat -> (forall k, (k < n)%nat -> k <> x -> f k = RtoC 0) ->
  csum n f = f x.
Proof.
  induction n as [|n IH]; intros Hx H; [lia|]. cbn [csum].
  destruct (Nat.eq_dec x n) as [->|].
  - rewrite csum_zero; [ring|]. intros k Hk. apply H; lia.
  - rewrite IH by (try lia; intros; apply H; lia). rewrite (H n) by lia. ring.
Qed.
Lemma csum_rev n f : csum n (fun k => f (n - 1 - k)%nat) = csum n f.
Proof.
  revert f. induction n as [|n IH]; intros f; [reflexivity|].
  rewrite csum_S_l. cbn [csum].
  replace (S n - 1 - 0)%nat with n by lia.
  rewrite (csum_ext n (fun k => f (S n - 1 - S k)%nat) (fun k => f (n - 1 - k)%nat)).
  - rewrite IH. ring.
  - intros k Hk. f_equal. lia.
Qed.

Lemma clsum_ext {A} (f g : A -> C) l : (forall x, In x l -> f x = g x) -> clsum f l = clsum g l.
Proof.
  induction l as [|x l IH]; intros H; cbn; [reflexivity|].
  rewrite (H x (or_introl eq_refl)). f_equal. apply IH. intros y Hy. apply H. right. exact Hy.
Qed.

Lemma ZC_add a b : ZC (a + b) = (ZC a + ZC b)%C.
Proof. unfold ZC. rewrite plus_IZR, RtoC_plus. reflexivity. Qed.
Lemma ZC_mul a b : ZC (a * b) = (ZC a * ZC b)%C.
Proof. unfold ZC. rewrite mult_IZR, RtoC_mult. reflexivity. Qed.
Lemma ZC_opp a : ZC (- a) = (- ZC a)%C.
Proof. unfold ZC. rewrite opp_IZR, RtoC_opp. reflexivity. Qed.

Lemma cpow_mul a b n : cpow (a * b)%C n = (cpow a n * cpow b n)%C.
Proof. induction n as [|n IH]; cbn [cpow]; [ring|]. rewrite IH. ring. Qed.
Lemma cpow_add z n p : cpow z (n + p) = (cpow z n * cpow z p)%C.
Proof.
  induction p as [|p IH]; cbn [cpow].
  - rewrite Nat.add_0_r. ring.
  - rewrite Nat.add_succ_r. cbn [cpow]. rewrite IH. ring.
Qed.
Lemma cpow_1 z : cpow z 1 = z.
Proof. cbn [cpow]. ring. Qed.
Lemma cpow_one n : cpow (RtoC 1) n = RtoC 1.
Proof. induction n as [|n IH]; cbn [cpow]; [reflexivity|]. rewrite IH. ring. Qed.
Lemma cpow_cpow z n p : cpow (cpow z n) p = cpow z (n * p).
Proof.
  induction p as [|p IH].
  - rewrite Nat.mul_0_r. reflexivity.
  - cbn [cpow]. rewrite IH. rewrite Nat.mul_succ_r, cpow_add. reflexivity.
Qed.

(** exp (I t) *)
Definition cis (t : R) : C := (cos t, sin t).

Lemma cis_add a b : cis (a + b) = (cis a * cis b)%C.
Proof. unfold cis, Cmult. cbn [fst snd]. rewrite cos_plus, sin_plus. f_equal; ring. Qed.
Lemma cis_0 : cis 0 = RtoC 1.
Proof. unfold cis, RtoC. rewrite cos_0, sin_0. reflexivity. Qed.
Lemma cis_opp a : (cis (- a) * cis a)%C = RtoC 1.
Proof. rewrite <- cis_add. replace (- a + a)%R with 0%R by ring. apply cis_0. Qed.
Lemma cis_2PI_nat n : cis (2 * PI * INR n) = RtoC 1.
Proof.
  induction n as [|n IH].
  - cbn [INR]. rewrite Rmult_0_r. apply cis_0.
  - rewrite S_INR. replace (2 * PI * (INR n + 1))%R with (2 * PI * INR n + 2 * PI)%R by ring.
    rewrite cis_add, IH. unfold cis. rewrite cos_2PI, sin_2PI. fold (RtoC 1). ring.
Qed.
Lemma cis_2PI_Z z : cis (2 * PI * IZR z) = RtoC 1.
Proof.
  destruct (Z.le_ge_cases 0 z) as [H|H].
  - rewrite <- (Z2Nat.id z H), <- INR_IZR_INZ. apply cis_2PI_nat.
  - pose proof (cis_2PI_nat (Z.to_nat (- z))) as E.
    rewrite INR_IZR_INZ, Z2Nat.id, opp_IZR in E by lia.
    pose proof (cis_opp (2 * PI * - IZR z)%R) as E2. rewrite E in E2.
    replace (- (2 * PI * - IZR z))%R with (2 * PI * IZR z)%R in E2 by ring.
    rewrite <- E2. ring.
Qed.
Lemma cis_cpow t n : cpow (cis t) n = cis (INR n * t).
Proof.
  induction n as [|n IH].
  - cbn [cpow INR]. rewrite Rmult_0_l. symmetry. apply cis_0.
  - cbn [cpow]. rewrite IH, S_INR, <- cis_add. f_equal. ring.
Qed.

(** exp (2 I pi k / m) *)
Definition root (m k : Z) : C := cis (2 * PI * IZR k / IZR m).

Lemma root_add m a b : root m (a + b) = (root m a * root m b)%C.
Proof. unfold root. rewrite <- cis_add. f_equal. rewrite plus_IZR. unfold Rdiv. ring. Qed.
Lemma root_0 m : root m 0 = RtoC 1.
Proof. unfold root. rewrite Rmult_0_r. unfold Rdiv. rewrite Rmult_0_l. apply cis_0. Qed.
Lemma root_mult m q : m <> 0 -> root m (m * q) = RtoC 1.
Proof.
  intros Hm. unfold root. rewrite mult_IZR.
  replace (2 * PI * (IZR m * IZR q) / IZR m)%R with (2 * PI * IZR q)%R.
  - apply cis_2PI_Z.
  - field. apply not_0_IZR, Hm.
Qed.
Lemma root_mod m k : m <> 0 -> root m (k mod m) = root m k.
Proof.
  intros Hm. rewrite (Z.div_mod k m Hm) at 2. rewrite root_add, root_mult by exact Hm. ring.
Qed.
Lemma root_pow m k n : cpow (root m k) n = root m (Z.of_nat n * k).
Proof.
  unfold root. rewrite cis_cpow. f_equal. rewrite mult_IZR, INR_IZR_INZ. unfold Rdiv. ring.
Qed.
