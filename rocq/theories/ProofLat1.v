(** The lattice of N x m integer tables with zero row and column sums, and the tables
    that are constant along the diagonals. *)
From Verif Require Import Base ProofSymp ProofSympMain ProofSympRank.

Lemma zsum_sub n f g : zsum n (fun k => f k - g k) = zsum n f - zsum n g.
Proof. induction n as [|n IH]; cbn [zsum]; [reflexivity|]. rewrite IH. ring. Qed.
Lemma zsum_div n f d : (forall k, (k < n)%nat -> (d | f k)) -> (d | zsum n f).
Proof.
  induction n as [|n IH]; intros H; cbn [zsum]; [apply Z.divide_0_r|].
  apply Z.divide_add_r; [apply IH; intros; apply H; lia|apply H; lia].
Qed.
Lemma zsum_tele n (f : nat -> Z) : zsum n (fun k => f (S k) - f k) = f n - f O.
Proof. induction n as [|n IH]; cbn [zsum]; [ring|]. rewrite IH. ring. Qed.

Lemma div_sub_trans d a b c : (d | a - b) -> (d | b - c) -> (d | a - c).
Proof. intros H1 H2. replace (a - c) with ((a - b) + (b - c)) by ring. apply Z.divide_add_r; assumption. Qed.
Lemma div_sub_sym d a b : (d | a - b) -> (d | b - a).
Proof. intros H. replace (b - a) with (- (a - b)) by ring. apply Z.divide_opp_r, H. Qed.

(** ** functions periodic modulo d *)
Section Period.
Context (d : Z).
Definition permod (f : Z -> Z) (q : Z) : Prop := forall v, (d | f (v + q) - f v).

Lemma period_neg f q : permod f q -> permod f (- q).
Proof.
  intros H v. apply div_sub_sym. specialize (H (v + - q)). replace (v + - q + q) with v in H by ring. exact H.
Qed.
Lemma period_nat f q : permod f q -> forall k : nat, permod f (Z.of_nat k * q).
Proof.
  intros H. induction k as [|k IH]; intros v.
  - replace (v + Z.of_nat 0 * q) with v by lia. rewrite Z.sub_diag. apply Z.divide_0_r.
  - apply (div_sub_trans d _ (f (v + Z.of_nat k * q))); [|apply IH].
    replace (v + Z.of_nat (S k) * q) with ((v + Z.of_nat k * q) + q) by lia. apply H.
Qed.
Lemma period_mul f q k : permod f q -> permod f (k * q).
Proof.
  intros H. destruct (Z.le_gt_cases 0 k) as [Hk|Hk].
  - rewrite <- (Z2Nat.id k Hk). apply period_nat, H.
  - replace (k * q) with (- (Z.of_nat (Z.to_nat (- k)) * q)) by (rewrite Z2Nat.id by lia; ring).
    apply period_neg, period_nat, H.
Qed.
Lemma period_add f p q : permod f p -> permod f q -> permod f (p + q).
Proof.
  intros Hp Hq v. apply (div_sub_trans d _ (f (v + p))); [|apply Hp].
  replace (v + (p + q)) with (v + p + q) by ring. apply Hq.
Qed.
Lemma period_gcd f p q : permod f p -> permod f q -> permod f (Z.gcd p q).
Proof.
  intros Hp Hq. destruct (Z.gcd_bezout p q (Z.gcd p q) eq_refl) as (a & b & E). rewrite <- E.
  apply period_add; apply period_mul; assumption.
Qed.

(** sums over whole periods *)
Lemma period_blocks f (q : nat) : permod f (Z.of_nat q) -> forall k : nat,
  (d | zsum (k * q) (fun i => f (Z.of_nat i)) - Z.of_nat k * zsum q (fun i => f (Z.of_nat i))).
Proof.
  intros H. induction k as [|k IH].
  - cbn. apply Z.divide_0_r.
  - replace (S k * q)%nat with (k * q + q)%nat by lia. rewrite zsum_app.
    replace (zsum (k * q) (fun i => f (Z.of_nat i)) + zsum q (fun i => f (Z.of_nat (k * q + i))) - Z.of_nat (S k) * zsum q (fun i => f (Z.of_nat i)))
      with ((zsum (k * q) (fun i => f (Z.of_nat i)) - Z.of_nat k * zsum q (fun i => f (Z.of_nat i)))
            + (zsum q (fun i => f (Z.of_nat (k * q + i))) - zsum q (fun i => f (Z.of_nat i)))).
    2:{ rewrite Nat2Z.inj_succ. ring. }
    apply Z.divide_add_r; [exact IH|]. rewrite <- zsum_sub. apply zsum_div. intros i _.
    replace (Z.of_nat (k * q + i)) with (Z.of_nat i + Z.of_nat k * Z.of_nat q) by lia.
    apply period_mul, H.
Qed.
End Period.

Lemma period_exact f q : permod 0 f q <-> forall v, f (v + q) = f v.
Proof.
  split; intros H v.
  - specialize (H v). apply Z.divide_0_l in H. lia.
  - rewrite H, Z.sub_diag. apply Z.divide_refl.
Qed.

(** the sum over one permod does not depend on where it starts *)
Lemma period_sum_shift f (q : nat) a : (forall v, f (v + Z.of_nat q) = f v) ->
  zsum q (fun i => f (Z.of_nat i + a)) = zsum q (fun i => f (Z.of_nat i)).
Proof.
  intros H.
  assert (Hstep : forall b, zsum q (fun i => f (Z.of_nat i + (b + 1))) = zsum q (fun i => f (Z.of_nat i + b))).
  { intros b. apply Z.sub_move_0_r. rewrite <- zsum_sub.
    rewrite (zsum_ext q _ (fun i => (fun j => f (Z.of_nat j + b)) (S i) - (fun j => f (Z.of_nat j + b)) i)).
    - rewrite (zsum_tele q (fun j => f (Z.of_nat j + b))). cbn [Z.of_nat]. rewrite (Z.add_comm (Z.of_nat q) b), H. ring_simplify (0 + b). ring.
    - intros i _. cbn beta. replace (Z.of_nat i + (b + 1)) with (Z.of_nat (S i) + b) by lia. reflexivity. }
  assert (Hup : forall n : nat, zsum q (fun i => f (Z.of_nat i + Z.of_nat n)) = zsum q (fun i => f (Z.of_nat i))).
  { induction n as [|n IH].
    - apply zsum_ext. intros. f_equal. lia.
    - rewrite <- IH. rewrite <- (Hstep (Z.of_nat n)). apply zsum_ext. intros. f_equal. lia. }
  assert (Hdn : forall n : nat, zsum q (fun i => f (Z.of_nat i + - Z.of_nat n)) = zsum q (fun i => f (Z.of_nat i))).
  { induction n as [|n IH].
    - apply zsum_ext. intros. f_equal. lia.
    - rewrite <- IH. rewrite <- (Hstep (- Z.of_nat (S n))). apply zsum_ext. intros. f_equal. lia. }
  destruct (Z.le_gt_cases 0 a) as [Ha|Ha].
  - rewrite <- (Hup (Z.to_nat a)). apply zsum_ext. intros. f_equal. lia.
  - rewrite <- (Hdn (Z.to_nat (- a))). apply zsum_ext. intros. f_equal. lia.
Qed.
(** ... nor on the direction *)
Lemma period_sum_rev f (q : nat) a : (forall v, f (v + Z.of_nat q) = f v) ->
  zsum q (fun i => f (a - Z.of_nat i)) = zsum q (fun i => f (Z.of_nat i)).
Proof.
  intros H. rewrite <- (period_sum_shift f q (a - Z.of_nat q + 1) H).
  rewrite <- (zsum_rev q (fun i => f (Z.of_nat i + (a - Z.of_nat q + 1)))).
  apply zsum_ext. intros k Hk. f_equal. lia.
Qed.

(** ** the lattice *)
Section Lattice.
Context (N m : nat).
Hypothesis HN : (0 < N)%nat.
Hypothesis Hm : (0 < m)%nat.

Record ztable (F : nat -> Z -> Z) : Prop := {
  t_per : forall p v, F p (v + Z.of_nat m) = F p v;
  t_row : forall p, (p < N)%nat -> zsum m (fun v => F p (Z.of_nat v)) = 0;
  t_col : forall v, zsum N (fun p => F p v) = 0 }.

Definition toeplitz (d : Z) (F : nat -> Z -> Z) : Prop :=
  forall p v, (S p < N)%nat -> (d | F (S p) (v + 1) - F p v).

Definition dl : nat := Z.to_nat (Z.gcd (Z.of_nat m) (Z.of_nat N)).
Lemma dl_Z : Z.of_nat dl = Z.gcd (Z.of_nat m) (Z.of_nat N).
Proof. unfold dl. apply Z2Nat.id, Z.gcd_nonneg. Qed.
Lemma dl_pos : (0 < dl)%nat.
Proof.
  pose proof dl_Z as E. destruct (Z.eq_dec (Z.gcd (Z.of_nat m) (Z.of_nat N)) 0) as [H|H]; [apply Z.gcd_eq_0_l in H; lia|lia].
Qed.
Lemma dl_m : exists q, m = (q * dl)%nat.
Proof.
  destruct (Z.gcd_divide_l (Z.of_nat m) (Z.of_nat N)) as [q E]. rewrite <- dl_Z in E. pose proof dl_pos.
  exists (Z.to_nat q). assert (0 <= q) by nia. apply Nat2Z.inj. rewrite Nat2Z.inj_mul, Z2Nat.id by assumption. exact E.
Qed.
Lemma dl_N : exists q, N = (q * dl)%nat.
Proof.
  destruct (Z.gcd_divide_r (Z.of_nat m) (Z.of_nat N)) as [q E]. rewrite <- dl_Z in E. pose proof dl_pos.
  exists (Z.to_nat q). assert (0 <= q) by nia. apply Nat2Z.inj. rewrite Nat2Z.inj_mul, Z2Nat.id by assumption. exact E.
Qed.

Section OneTable.
Context (d : Z) (F : nat -> Z -> Z).
Hypothesis HF : ztable F.
Hypothesis HT : toeplitz d F.
Definition diag (v : Z) : Z := F 0 v.

Lemma diag_spec p v : (p < N)%nat -> (d | F p v - diag (v - Z.of_nat p)).
Proof.
  revert v. induction p as [|p IH]; intros v Hp.
  - unfold diag. replace (v - Z.of_nat 0) with v by lia. rewrite Z.sub_diag. apply Z.divide_0_r.
  - apply (div_sub_trans d _ (F p (v - 1))).
    + pose proof (HT p (v - 1) Hp) as H. replace (v - 1 + 1) with v in H by ring. exact H.
    + replace (v - Z.of_nat (S p)) with (v - 1 - Z.of_nat p) by lia. apply IH. lia.
Qed.
Lemma diag_col v : (d | zsum N (fun p => diag (v - Z.of_nat p))).
Proof.
  pose proof (t_col F HF v) as H.
  replace (zsum N (fun p => diag (v - Z.of_nat p))) with (zsum N (fun p => diag (v - Z.of_nat p)) - zsum N (fun p => F p v)) by (rewrite H; ring).
  rewrite <- zsum_sub. apply zsum_div. intros p Hp. apply div_sub_sym, diag_spec, Hp.
Qed.
Lemma diag_m : permod d diag (Z.of_nat m).
Proof. intros v. unfold diag. rewrite (t_per F HF), Z.sub_diag. apply Z.divide_0_r. Qed.
Lemma diag_N : permod d diag (Z.of_nat N).
Proof.
  intros v. pose proof (diag_col (v + Z.of_nat N)) as H1. pose proof (diag_col (v + Z.of_nat N - 1)) as H2.
  replace (diag (v + Z.of_nat N) - diag v) with
    (zsum N (fun p => diag (v + Z.of_nat N - Z.of_nat p)) - zsum N (fun p => diag (v + Z.of_nat N - 1 - Z.of_nat p))).
  - apply Z.divide_sub_r; assumption.
  - rewrite <- zsum_sub.
    rewrite (zsum_ext N _ (fun p => (fun j => - diag (v + Z.of_nat N - Z.of_nat j)) (S p) - (fun j => - diag (v + Z.of_nat N - Z.of_nat j)) p)).
    + rewrite (zsum_tele N (fun j => - diag (v + Z.of_nat N - Z.of_nat j))).
      replace (v + Z.of_nat N - Z.of_nat N) with v by ring. replace (v + Z.of_nat N - Z.of_nat 0) with (v + Z.of_nat N) by lia. ring.
    + intros p _. cbn beta. replace (v + Z.of_nat N - 1 - Z.of_nat p) with (v + Z.of_nat N - Z.of_nat (S p)) by lia. ring.
Qed.
Lemma diag_dl : permod d diag (Z.of_nat dl).
Proof. rewrite dl_Z. apply period_gcd; [apply diag_m|apply diag_N]. Qed.

Lemma diag_sum : (d | zsum dl (fun i => diag (Z.of_nat i))).
Proof.
  destruct dl_m as [q Eq]. destruct dl_N as [q' Eq']. set (s := zsum dl (fun i => diag (Z.of_nat i))).
  assert (H1 : (d | Z.of_nat q * s)).
  { pose proof (period_blocks d diag dl diag_dl q) as H. rewrite <- Eq in H. pose proof (t_row F HF 0 HN) as R.
    change (zsum m (fun v => diag (Z.of_nat v)) = 0) in R. rewrite R in H. fold s in H.
    replace (Z.of_nat q * s) with (- (0 - Z.of_nat q * s)) by ring. apply Z.divide_opp_r, H. }
  assert (H2 : (d | Z.of_nat q' * s)).
  { pose proof (period_blocks d diag dl diag_dl q') as H. rewrite <- Eq' in H. fold s in H.
    pose proof (diag_col (Z.of_nat N - 1)) as R.
    rewrite (zsum_ext N _ (fun p => (fun i => diag (Z.of_nat i)) (N - 1 - p)%nat)) in R.
    2:{ intros p Hp. cbn beta. f_equal. lia. }
    rewrite (zsum_rev N (fun i => diag (Z.of_nat i))) in R.
    replace (Z.of_nat q' * s) with (zsum N (fun i => diag (Z.of_nat i)) - (zsum N (fun i => diag (Z.of_nat i)) - Z.of_nat q' * s)) by ring.
    apply Z.divide_sub_r; assumption. }
  assert (G : Z.gcd (Z.of_nat q) (Z.of_nat q') = 1).
  { pose proof dl_Z as G. pose proof dl_pos as P. rewrite Eq, Eq' in G at 1. rewrite !Nat2Z.inj_mul in G.
    rewrite Z.gcd_mul_mono_r_nonneg in G by lia.
    assert (0 <= Z.gcd (Z.of_nat q) (Z.of_nat q')) by apply Z.gcd_nonneg. nia. }
  destruct (Z.gcd_bezout _ _ _ G) as (a & b & E).
  replace s with (a * (Z.of_nat q * s) + b * (Z.of_nat q' * s)).
  - apply Z.divide_add_r; apply Z.divide_mul_r; assumption.
  - transitivity ((a * Z.of_nat q + b * Z.of_nat q') * s); [ring|]. rewrite E. ring.
Qed.
End OneTable.

(** ** tables constant along the diagonals *)
(** the function of permod dl with prescribed first values and zero sum *)
Definition lift (x : nat -> Z) (v : Z) : Z :=
  let k := Z.to_nat (v mod Z.of_nat dl) in
  if (k =? dl - 1)%nat then - zsum (dl - 1) x else x k.
Definition lift_table (x : nat -> Z) (p : nat) (v : Z) : Z := lift x (v - Z.of_nat p).

Lemma lift_per x v : lift x (v + Z.of_nat dl) = lift x v.
Proof. unfold lift. pose proof dl_pos. replace (v + Z.of_nat dl) with (v + 1 * Z.of_nat dl) by ring. rewrite Z_mod_plus_full. reflexivity. Qed.
Lemma lift_per_mul x k v : lift x (v + k * Z.of_nat dl) = lift x v.
Proof. unfold lift. rewrite Z_mod_plus_full. reflexivity. Qed.
Lemma lift_small x k : (k < dl)%nat -> lift x (Z.of_nat k) = if (k =? dl - 1)%nat then - zsum (dl - 1) x else x k.
Proof. intros H. unfold lift. rewrite Z.mod_small by lia. rewrite Nat2Z.id. reflexivity. Qed.
Lemma lift_sum x : zsum dl (fun i => lift x (Z.of_nat i)) = 0.
Proof.
  pose proof dl_pos as P. replace dl with (S (dl - 1)) at 1 by lia. cbn [zsum].
  rewrite (zsum_ext (dl - 1) _ x).
  - rewrite lift_small by lia. rewrite Nat.eqb_refl. ring.
  - intros k Hk. rewrite lift_small by lia. destruct (Nat.eqb_spec k (dl - 1)); [lia|reflexivity].
Qed.
Lemma lift_blocks x k : zsum (k * dl) (fun i => lift x (Z.of_nat i)) = 0.
Proof.
  pose proof (period_blocks 0 (lift x) dl (proj2 (period_exact _ _) (lift_per x)) k) as H.
  rewrite lift_sum in H. apply Z.divide_0_l in H. lia.
Qed.
Lemma lift_table_ok x : ztable (lift_table x) /\ forall p v, lift_table x (S p) (v + 1) = lift_table x p v.
Proof.
  destruct dl_m as [q Eq]. destruct dl_N as [q' Eq'].
  assert (Pm : forall v, lift x (v + Z.of_nat m) = lift x v).
  { intros v. rewrite Eq at 1. rewrite Nat2Z.inj_mul. apply lift_per_mul. }
  assert (PN : forall v, lift x (v + Z.of_nat N) = lift x v).
  { intros v. rewrite Eq' at 1. rewrite Nat2Z.inj_mul. apply lift_per_mul. }
  split; [split|].
  - intros p v. unfold lift_table. replace (v + Z.of_nat m - Z.of_nat p) with (v - Z.of_nat p + Z.of_nat m) by ring. apply Pm.
  - intros p _. unfold lift_table.
    rewrite (zsum_ext m _ (fun v => lift x (Z.of_nat v + - Z.of_nat p))) by (intros; f_equal; lia).
    rewrite (period_sum_shift (lift x) m _ Pm). rewrite Eq at 1. apply lift_blocks.
  - intros v. unfold lift_table. rewrite (period_sum_rev (lift x) N v PN). rewrite Eq' at 1. apply lift_blocks.
  - intros p v. unfold lift_table. f_equal. lia.
Qed.

(** ** the two facts used for the homology *)
Lemma table_saturated d F : ztable F -> toeplitz d F ->
  exists x, forall p v, (p < N)%nat -> (d | F p v - lift_table x p v).
Proof.
  intros HF HT. exists (fun i => F 0%nat (Z.of_nat i)). intros p v Hp.
  apply (div_sub_trans d _ (diag F (v - Z.of_nat p))); [apply (diag_spec d F HT); exact Hp|].
  unfold lift_table. set (w := v - Z.of_nat p). pose proof dl_pos as P.
  pose proof (Z.mod_pos_bound w (Z.of_nat dl) ltac:(lia)) as Hb.
  apply (div_sub_trans d _ (diag F (w mod Z.of_nat dl))).
  - pose proof (period_mul d _ _ (w / Z.of_nat dl) (diag_dl d F HF HT) (w mod Z.of_nat dl)) as H.
    replace (w mod Z.of_nat dl + w / Z.of_nat dl * Z.of_nat dl) with w in H; [exact H|].
    pose proof (Z.div_mod w (Z.of_nat dl) ltac:(lia)). lia.
  - unfold lift. set (k := Z.to_nat (w mod Z.of_nat dl)). assert (Ek : w mod Z.of_nat dl = Z.of_nat k) by (unfold k; lia).
    rewrite Ek. destruct (Nat.eqb_spec k (dl - 1)) as [E|E].
    + rewrite E. pose proof (diag_sum d F HF HT) as H. replace dl with (S (dl - 1)) in H at 1 by lia. cbn [zsum] in H.
      unfold diag in *. replace (F 0%nat (Z.of_nat (dl - 1)) - - zsum (dl - 1) (fun i => F 0%nat (Z.of_nat i)))
        with (zsum (dl - 1) (fun k => F 0%nat (Z.of_nat k)) + F 0%nat (Z.of_nat (dl - 1))) by ring. exact H.
    + unfold diag. rewrite Z.sub_diag. apply Z.divide_0_r.
Qed.

Lemma table_small F : ztable F -> toeplitz 0 F -> (forall a, (a < dl - 1)%nat -> F 0%nat (Z.of_nat a) = 0) ->
  forall p v, (p < N)%nat -> F p v = 0.
Proof.
  intros HF HT H0 p v Hp. pose proof (diag_spec 0 F HT p v Hp) as E. apply Z.divide_0_l in E.
  replace (F p v) with (diag F (v - Z.of_nat p)) by lia. clear E. set (w := v - Z.of_nat p). pose proof dl_pos as P.
  pose proof (Z.mod_pos_bound w (Z.of_nat dl) ltac:(lia)) as Hb.
  pose proof (period_mul 0 _ _ (w / Z.of_nat dl) (diag_dl 0 F HF HT) (w mod Z.of_nat dl)) as H.
  replace (w mod Z.of_nat dl + w / Z.of_nat dl * Z.of_nat dl) with w in H by (pose proof (Z.div_mod w (Z.of_nat dl) ltac:(lia)); lia).
  apply Z.divide_0_l in H. replace (diag F w) with (diag F (w mod Z.of_nat dl)) by lia. clear H.
  set (k := Z.to_nat (w mod Z.of_nat dl)). assert (Ek : w mod Z.of_nat dl = Z.of_nat k) by (unfold k; lia).
  rewrite Ek. unfold diag. destruct (Nat.eq_dec k (dl - 1)) as [E|E]; [|apply H0; lia].
  pose proof (diag_sum 0 F HF HT) as H. apply Z.divide_0_l in H. replace dl with (S (dl - 1)) in H at 1 by lia. cbn [zsum] in H.
  rewrite zsum_zero in H by (intros; apply H0; lia). unfold diag in H. rewrite E. lia.
Qed.
End Lattice.
