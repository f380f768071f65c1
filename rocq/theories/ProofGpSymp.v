(** Proofs about the symplectic reduction of the GP scripts. *)
From Verif Require Import Base ModelGpSymp SpecGpSymp.

Section Form.
Variable n : nat.
Variable M : columns.
Let B := form n M.

Lemma form_ext u u' v v' : (forall a, (a < n)%nat -> u a = u' a) -> (forall a, (a < n)%nat -> v a = v' a) -> B u v = B u' v'.
Proof. intros H1 H2. apply zsum_ext. intros a L. apply zsum_ext. intros b L'. now rewrite H1, H2. Qed.
Lemma form_sub_l u u' q v : B (fun a => u a - q * u' a) v = B u v - q * B u' v.
Proof.
  unfold B, form. rewrite <- zsum_scal. replace (zsum n (fun a => zsum n (fun b => u a * M b a * v b)) - zsum n (fun k => q * zsum n (fun b => u' k * M b k * v b)))
    with (zsum n (fun a => zsum n (fun b => u a * M b a * v b)) + (-1) * zsum n (fun k => q * zsum n (fun b => u' k * M b k * v b))) by lia.
  rewrite <- zsum_scal, <- zsum_add. apply zsum_ext. intros a _. rewrite <- !zsum_scal, <- zsum_add. apply zsum_ext. intros b _. ring.
Qed.
Lemma form_sub_r u v v' q : B u (fun a => v a - q * v' a) = B u v - q * B u v'.
Proof.
  unfold B, form. rewrite <- zsum_scal. replace (zsum n (fun a => zsum n (fun b => u a * M b a * v b)) - zsum n (fun k => q * zsum n (fun b => u k * M b k * v' b)))
    with (zsum n (fun a => zsum n (fun b => u a * M b a * v b)) + (-1) * zsum n (fun k => q * zsum n (fun b => u k * M b k * v' b))) by lia.
  rewrite <- zsum_scal, <- zsum_add. apply zsum_ext. intros a _. rewrite <- !zsum_scal, <- zsum_add. apply zsum_ext. intros b _. ring.
Qed.
Lemma form_0_r u : B u (fun _ => 0) = 0.
Proof. apply zsum_zero. intros a _. apply zsum_zero. intros b _. ring. Qed.
Lemma form_neg_l u v : B (fun a => - u a) v = - B u v.
Proof.
  rewrite (form_ext (fun a => - u a) (fun a => u a - 2 * u a) v v) by (intros; lia). rewrite (form_sub_l u u 2 v). lia.
Qed.
Lemma form_neg_r u v : B u (fun a => - v a) = - B u v.
Proof.
  rewrite (form_ext u u (fun a => - v a) (fun a => v a - 2 * v a)) by (intros; lia). rewrite (form_sub_r u v v 2). lia.
Qed.

Lemma zsum_swap m k f : zsum m (fun a => zsum k (fun b => f a b)) = zsum k (fun b => zsum m (fun a => f a b)).
Proof.
  induction m as [|m IH]; cbn [zsum]; [symmetry; now apply zsum_zero|]. rewrite IH, <- zsum_add. reflexivity.
Qed.

Hypothesis anti : antisymmetric n M.
Lemma form_anti u v : B u v = - B v u.
Proof.
  unfold B, form. rewrite zsum_swap. replace (- zsum n (fun a => zsum n (fun b => v a * M b a * u b))) with ((-1) * zsum n (fun a => zsum n (fun b => v a * M b a * u b))) by lia.
  rewrite <- zsum_scal. apply zsum_ext. intros a La. rewrite <- zsum_scal. apply zsum_ext. intros b Lb. rewrite (anti a b La Lb). ring.
Qed.
Lemma form_self u : B u u = 0.
Proof. pose proof (form_anti u u). lia. Qed.

(** ** States *)
Definition cong (N P : columns) : Prop := forall c r, (c < n)%nat -> (r < n)%nat -> N c r = B (P r) (P c).
Definition triangular (P : columns) : Prop := forall c, (c < n)%nat -> (P c c = 1 \/ P c c = -1) /\ forall x, (c < x)%nat -> P c x = 0.

Lemma cong_sub N P k jj q : cong N P -> (k < n)%nat -> (jj < n)%nat -> k <> jj ->
  cong (row_sub k jj q (col_sub k jj q N)) (col_sub k jj q P).
Proof.
  intros HC Lk Lj Hne c r Lc Lr. unfold row_sub, col_sub.
  assert (X1 : B (fun r0 => P k r0 - q * P jj r0) (fun r0 => P k r0 - q * P jj r0) = 0) by apply form_self.
  destruct (Nat.eqb_spec r k) as [->|Hr]; destruct (Nat.eqb_spec c k) as [->|Hc].
  - replace (B (fun r0 => P k r0 - q * P jj r0) (fun r0 => P k r0 - q * P jj r0)) with 0 by lia.
    rewrite !HC by lia. rewrite !form_self. rewrite (form_anti (P k) (P jj)). lia.
  - rewrite !HC by lia. exact (eq_sym (form_sub_l (P k) (P jj) q (P c))).
  - rewrite !HC by lia. exact (eq_sym (form_sub_r (P r) (P k) (P jj) q)).
  - now apply HC.
Qed.

Lemma cong_neg N P j : cong N P -> (j < n)%nat -> cong (row_neg j (col_neg j N)) (col_neg j P).
Proof.
  intros HC Lj c r Lc Lr. unfold row_neg, col_neg.
  destruct (Nat.eqb_spec r j) as [->|Hr]; destruct (Nat.eqb_spec c j) as [->|Hc]; rewrite !HC by lia.
  - rewrite (form_neg_l (P j) (fun r0 => - P j r0)), (form_neg_r (P j) (P j)). lia.
  - exact (eq_sym (form_neg_l (P j) (P c))).
  - exact (eq_sym (form_neg_r (P r) (P j))).
  - reflexivity.
Qed.

(** a vector of which the form with all columns is a multiple of t *)
Lemma divides_all w P t l : (l <= n)%nat -> triangular P -> (forall c, (c < l)%nat -> (t | B w (P c))) ->
  forall v, (forall x, (l <= x < n)%nat -> v x = 0) -> (t | B w v).
Proof.
  induction l as [|l IH]; intros L HT HD v HV.
  - rewrite (form_ext w w v (fun _ => 0)) by (intros; try reflexivity; apply HV; lia). rewrite form_0_r. apply Z.divide_0_r.
  - destruct (HT l ltac:(lia)) as [Hd Hx]. pose (s := v l * P l l).
    assert (E : B w v = B w (fun a => v a - s * P l a) + s * B w (P l)) by (rewrite (form_sub_r w v (P l) s); lia).
    rewrite E. apply Z.divide_add_r; [|apply Z.divide_mul_r, HD; lia].
    apply IH; [lia|exact HT|intros c Hc; apply HD; lia|]. intros x Lx.
    destruct (Nat.eq_dec x l) as [->|Hne]; [unfold s; destruct Hd as [->| ->]; ring|].
    rewrite HV, Hx by lia. ring.
Qed.

(** the pivot of a state is 1 or -1 *)
Lemma pivot_unit P i t : (i < n)%nat -> (S i < n)%nat -> triangular P -> invertible_block (S (S i)) M ->
  (forall c, (c < i)%nat -> B (P i) (P c) = 0) -> B (P i) (P (S i)) = t -> t = 1 \/ t = -1.
Proof.
  intros Li LSi HT [Q HQ] H0 Ht.
  assert (HD : forall v, (forall x, (S (S i) <= x < n)%nat -> v x = 0) -> (t | B (P i) v)).
  { apply (divides_all (P i) P t (S (S i))); [lia|exact HT|]. intros c Hc.
    destruct (Nat.eq_dec c (S i)) as [->|]; [rewrite Ht; apply Z.divide_refl|].
    destruct (Nat.eq_dec c i) as [->|]; [rewrite form_self; apply Z.divide_0_r|]. rewrite H0 by lia. apply Z.divide_0_r. }
  destruct (HT i Li) as [Hd Hx].
  (* P i i = sum over y of B (P i) (e_y) Q *)
  assert (E : P i i = B (P i) (fun y => if (y <? S (S i))%nat then Q i y else 0)).
  { unfold B, form.
    transitivity (zsum n (fun a => P i a * (if (a <? S (S i))%nat then if (a =? i)%nat then 1 else 0 else 0))).
    - assert (G : forall m, zsum m (fun a => P i a * (if (a <? S (S i))%nat then if (a =? i)%nat then 1 else 0 else 0)) = if (i <? m)%nat then P i i else 0).
      { induction m as [|m IHm]; [reflexivity|]. cbn [zsum]. rewrite IHm.
        destruct (Nat.ltb_spec i m), (Nat.ltb_spec i (S m)), (Nat.ltb_spec m (S (S i))), (Nat.eqb_spec m i); try lia; subst; lia. }
      rewrite G. destruct (Nat.ltb_spec i n); [reflexivity|lia].
    - apply zsum_ext. intros a La. destruct (Nat.ltb_spec a (S (S i))) as [L|L].
      + rewrite <- (HQ a i) by lia. rewrite <- zsum_scal.
        replace n with (S (S i) + (n - S (S i)))%nat at 1 by lia. rewrite zsum_app.
        rewrite (zsum_zero (n - S (S i))); [|intros k Hk; destruct (Nat.ltb_spec (S (S i) + k) (S (S i))); [lia|ring]].
        rewrite Z.add_0_r. apply zsum_ext. intros b Hb. destruct (Nat.ltb_spec b (S (S i))); [ring|lia].
      + rewrite Hx by lia. rewrite zsum_zero by (intros; ring). ring. }
  assert (D : (t | P i i)).
  { rewrite E. apply HD. intros x Hxx. destruct (Nat.ltb_spec x (S (S i))); [lia|reflexivity]. }
  destruct Hd as [Hd|Hd]; rewrite Hd in D; [|apply (proj1 (Z.divide_opp_r t 1)) in D; cbn in D; apply (proj2 (Z.divide_opp_r t 1)) in D];
    apply Z.divide_1_r in D || (apply Z.divide_opp_r in D; cbn in D; apply Z.divide_1_r in D); lia.
Qed.
End Form.
