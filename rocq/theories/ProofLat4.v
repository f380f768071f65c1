(** The form of a tree on N points meets the conditions of the reduction. *)
From Verif Require Import Base ModelSymp SpecSymp ProofSymp ProofSympRed ProofSympMain ProofSympRank ProofLat1 ProofLat2 ProofLat3.

Lemma zsum_flat n w f : zsum (n * w) f = zsum n (fun k => zsum w (fun u => f (k * w + u)%nat)).
Proof.
  induction n as [|n IH]; [reflexivity|].
  replace (S n * w)%nat with (n * w + w)%nat by lia. rewrite zsum_app, IH. reflexivity.
Qed.

Section Form.
Context (m N o n : nat) (A B : nat -> nat) (G : nat -> Z) (M0 : mat).
Hypothesis Hm : (2 <= m)%nat.
Hypothesis Ho : (o < N)%nat.
Hypothesis Hg : grows N o A B n.
Hypothesis Hall : forall p, (p < N)%nat -> reach o B n p.
Let w := (m - 1)%nat.
Let r := (n * w)%nat.
Hypothesis HM : forall k u l v, (k < n)%nat -> (u < w)%nat -> (l < n)%nat -> (v < w)%nat ->
  get M0 (k * w + u) (l * w + v) = pair A B G (cyc m A B G k u) l (Z.of_nat v).

Notation cmb := (comb m A B G n).
Notation two c := (fun k u => c (k * w + u)%nat).

Lemma idx_lt k u : (k < n)%nat -> (u < w)%nat -> (k * w + u < r)%nat.
Proof. unfold r. nia. Qed.
Lemma idx_split i : (i < r)%nat -> exists k u, (k < n)%nat /\ (u < w)%nat /\ i = (k * w + u)%nat.
Proof.
  intros Hi. unfold r, w in *. exists (i / (m - 1))%nat, (i mod (m - 1))%nat.
  pose proof (Nat.div_mod i (m - 1) ltac:(lia)) as E. pose proof (Nat.mod_upper_bound i (m - 1) ltac:(lia)).
  conj; try lia. apply Nat.div_lt_upper_bound; lia.
Qed.
Lemma form_pair c l v : (l < n)%nat -> (v < w)%nat ->
  zsum r (fun i => c i * get M0 i (l * w + v)) = pair A B G (cmb (two c)) l (Z.of_nat v).
Proof.
  intros Hl Hv. rewrite (pair_comb m A B G). unfold r. rewrite zsum_flat. apply zsum_ext. intros k Hk.
  apply zsum_ext. intros u Hu. rewrite HM by assumption. reflexivity.
Qed.
(** coefficients from a table *)
Lemma gen F : ztable N m F -> exists c, forall p v, (p < N)%nat -> cmb (two c) p v = F p v.
Proof.
  intros HF. destruct (comb_gen m N o A B G Hm n Hg Ho F HF) as [c Hc].
  { intros p v Hp Hn. exfalso. apply Hn, Hall, Hp. }
  exists (fun i => c (i / w)%nat (i mod w)%nat). intros p v Hp. rewrite <- (Hc p v Hp).
  unfold comb. apply zsum_ext. intros k Hk. apply zsum_ext. intros u Hu. fold w in Hu.
  f_equal. f_equal.
  - rewrite Nat.div_add_l by lia. rewrite Nat.div_small by exact Hu. lia.
  - rewrite Nat.add_comm, Nat.mod_add by lia. apply Nat.mod_small, Hu.
Qed.
Lemma comb_lin d c c' p v : cmb (fun k u => d * c k u + c' k u) p v = d * cmb c p v + cmb c' p v.
Proof.
  unfold comb. rewrite <- zsum_scal, <- zsum_add. apply zsum_ext. intros k _.
  rewrite <- zsum_scal, <- zsum_add. apply zsum_ext. intros; ring.
Qed.
Lemma inj c : (forall p v, (p < N)%nat -> cmb (two c) p v = 0) -> forall i, (i < r)%nat -> c i = 0.
Proof.
  intros H i Hi. destruct (idx_split i Hi) as (k & u & Hk & Hu & ->).
  apply (comb_inj m N o A B G Hm n Hg (two c) H k u Hk Hu).
Qed.
Lemma toeplitz_radical F c : (forall p v, F (S p) (v + 1) = F p v) ->
  (forall p v, (p < N)%nat -> cmb (two c) p v = F p v) -> radical r M0 c.
Proof.
  intros HT HE j Hj. destruct (idx_split j Hj) as (l & v & Hl & Hv & ->). rewrite form_pair by assumption.
  rewrite <- (toeplitz_pair m N o A B G Hm n F Hg HT l (Z.of_nat v) Hl).
  destruct (Hg l Hl) as (HA & HB & _).
  assert (E : forall p x, (p < N)%nat -> psi (cmb (two c)) p x = psi F p x).
  { intros p x Hp. unfold psi. f_equal; apply zsum_ext; intros q Hq; apply HE; lia. }
  unfold pair. rewrite !E by assumption. reflexivity.
Qed.
Lemma divide_toeplitz d c : (forall j, (j < r)%nat -> (d | zsum r (fun i => c i * get M0 i j))) ->
  toeplitz N d (cmb (two c)).
Proof.
  intros H. apply (pair_toeplitz m N o A B G Hm n d (cmb (two c)) Hg); try assumption.
  - apply (comb_table m N o A B G Hm n _ Hg).
  - intros l v Hl Hv. rewrite <- form_pair by assumption. apply H, idx_lt; assumption.
Qed.

Lemma form_full : rad_full r M0.
Proof.
  intros d c Hd. assert (HN : (0 < N)%nat) by lia.
  pose proof (comb_table m N o A B G Hm n (two c) Hg) as HT.
  destruct (table_saturated N m HN ltac:(lia) d (cmb (two c)) HT (divide_toeplitz d c Hd)) as (x & Hx).
  destruct (lift_table_ok N m HN ltac:(lia) x) as (HL & HLt).
  destruct (gen (lift_table N m x) HL) as (c' & Hc').
  exists c'. split; [apply (toeplitz_radical (lift_table N m x)); assumption|].
  (* the quotient *)
  destruct (Z.eq_dec d 0) as [->|Hd0].
  - assert (E : forall i, (i < r)%nat -> (fun i => -1 * c' i + c i) i = 0).
    { apply inj. intros p v Hp.
      pose proof (comb_lin (-1) (two c') (two c) p v) as E. cbn beta in E. rewrite E, Hc' by exact Hp.
      pose proof (Hx p v Hp) as D. apply Z.divide_0_l in D. lia. }
    intros i Hi. specialize (E i Hi). cbn beta in E. replace (c i - c' i) with 0 by lia. apply Z.divide_0_r.
  - set (F := fun (p : nat) v => if (p <? N)%nat then (cmb (two c) p v - lift_table N m x p v) / d else 0).
    assert (HF : forall p v, (p < N)%nat -> d * F p v = cmb (two c) p v - lift_table N m x p v).
    { intros p v Hp. unfold F. destruct (Nat.ltb_spec p N); [|lia]. destruct (Hx p v Hp) as [q Eq]. rewrite Eq, Z.div_mul by exact Hd0. ring. }
    destruct (gen F) as (z & Hz).
    { split.
      - intros p v. unfold F. rewrite (t_per N m _ HT), (t_per N m _ HL). reflexivity.
      - intros p Hp. apply (Z.mul_reg_l _ _ d Hd0). rewrite <- zsum_scal.
        rewrite (zsum_ext m _ (fun v => cmb (two c) p (Z.of_nat v) - lift_table N m x p (Z.of_nat v))) by (intros; apply HF, Hp).
        rewrite zsum_sub, (t_row N m _ HT p Hp), (t_row N m _ HL p Hp). ring.
      - intros v. apply (Z.mul_reg_l _ _ d Hd0). rewrite <- zsum_scal.
        rewrite (zsum_ext N _ (fun p => cmb (two c) p v - lift_table N m x p v)) by (intros p Hp; apply HF, Hp).
        rewrite zsum_sub, (t_col N m _ HT v), (t_col N m _ HL v). ring. }
    assert (E : forall i, (i < r)%nat -> (fun i => d * z i + (-1 * c i + c' i)) i = 0).
    { apply inj. intros p v Hp.
      pose proof (comb_lin d (two z) (fun k u => -1 * two c k u + two c' k u) p v) as E. cbn beta in E. rewrite E.
      pose proof (comb_lin (-1) (two c) (two c') p v) as E2. cbn beta in E2. rewrite E2, Hz, Hc', HF by exact Hp. ring. }
    intros i Hi. specialize (E i Hi). cbn beta in E. exists (z i). lia.
Qed.

Lemma form_upper : rad_upper r M0 (dl N m - 1).
Proof.
  assert (HN : (0 < N)%nat) by lia.
  exists (fun i a => cyc m A B G (i / w) (i mod w) 0 (Z.of_nat a)). intros c Hc H0.
  apply inj. apply (table_small N m HN ltac:(lia)).
  - apply (comb_table m N o A B G Hm n _ Hg).
  - apply divide_toeplitz. intros j Hj. rewrite Hc by exact Hj. apply Z.divide_0_r.
  - intros a Ha. rewrite <- (H0 a Ha). unfold r. rewrite zsum_flat. unfold comb. apply zsum_ext. intros k Hk.
    apply zsum_ext. intros u Hu. fold w in Hu. f_equal. f_equal.
    + rewrite Nat.div_add_l by lia. rewrite Nat.div_small by exact Hu. lia.
    + rewrite Nat.add_comm, Nat.mod_add by lia. symmetry. apply Nat.mod_small, Hu.
Qed.

Lemma choice_fun (R : nat -> (nat -> Z) -> Prop) : (forall a, exists c, R a c) -> forall k, exists f, forall a, (a < k)%nat -> R a (f a).
Proof.
  intros H. induction k as [|k [f Hf]]; [exists (fun _ _ => 0); intros; lia|].
  destruct (H k) as [c Hc]. exists (fun a => if (a =? k)%nat then c else f a). intros a Ha.
  destruct (Nat.eqb_spec a k) as [->|]; [exact Hc|apply Hf; lia].
Qed.
Lemma form_lower : rad_lower r M0 (dl N m - 1).
Proof.
  assert (HN : (0 < N)%nat) by lia.
  destruct (choice_fun (fun a c => forall p v, (p < N)%nat -> cmb (two c) p v = lift_table N m (fun b => delta a b) p v)) with (k := (dl N m - 1)%nat) as [psi Hpsi].
  { intros a. apply gen. apply (lift_table_ok N m HN ltac:(lia)). }
  exists psi. split.
  - intros a Ha. apply (toeplitz_radical (lift_table N m (fun b => delta a b))).
    + apply (lift_table_ok N m HN ltac:(lia)).
    + apply Hpsi, Ha.
  - intros x Hx b Hb.
    assert (E : cmb (fun k u => zsum (dl N m - 1) (fun a => x a * psi a (k * w + u)%nat)) 0 (Z.of_nat b) = 0).
    { unfold comb. apply zsum_zero. intros k Hk. apply zsum_zero. intros u Hu. rewrite Hx by (apply idx_lt; assumption). ring. }
    assert (E2 : cmb (fun k u => zsum (dl N m - 1) (fun a => x a * psi a (k * w + u)%nat)) 0 (Z.of_nat b)
               = zsum (dl N m - 1) (fun a => x a * cmb (two (psi a)) 0 (Z.of_nat b))).
    { unfold comb. rewrite (zsum_ext (dl N m - 1) _ (fun a => zsum n (fun k => zsum (m - 1) (fun u => x a * (psi a (k * w + u)%nat * cyc m A B G k u 0 (Z.of_nat b)))))).
      2:{ intros a _. rewrite <- zsum_scal. apply zsum_ext. intros k _. rewrite <- zsum_scal. reflexivity. }
      rewrite (zsum_swap (dl N m - 1) n). apply zsum_ext. intros k _. rewrite (zsum_swap (dl N m - 1) (m - 1)). apply zsum_ext. intros u _.
      rewrite <- zsum_scal_r. apply zsum_ext. intros; ring. }
    rewrite E2 in E. rewrite (zsum_ext _ _ (fun a => x a * delta a b)) in E.
    + rewrite (zsum_delta_r _ b x Hb) in E. exact E.
    + intros a Ha. rewrite Hpsi by assumption. f_equal. unfold lift_table.
      replace (Z.of_nat b - Z.of_nat 0) with (Z.of_nat b) by lia. rewrite lift_small by lia.
      destruct (Nat.eqb_spec b (dl N m - 1)); [lia|reflexivity].
Qed.
End Form.
