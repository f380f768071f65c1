From Coq Require Import FunctionalExtensionality.
From Verif Require Import CBase ModelTree ModelCurve ModelPeriod ModelVec SpecVec ProofEdge.
Local Open Scope nat_scope.

Lemma vget_upd v i z j : i < length v -> vget (upd v i z) j = if j =? i then z else vget v j.
Proof. intros H. unfold vget. apply nth_upd, H. Qed.

Lemma replaced_ext v v' off len f g : (forall l, l < len -> f l = g l) -> replaced v v' off len f -> replaced v v' off len g.
Proof. intros E (H1 & H2 & H3). unfold replaced; conj; [exact H1| |exact H3]. intros l Hl. rewrite <- E by exact Hl. apply H2, Hl. Qed.

(** ** binomials *)
Lemma binom_0 n : binom n 0 = 1. Proof. destruct n; reflexivity. Qed.
Lemma binom_S n k : binom (S n) (S k) = binom n k + binom n (S k). Proof. reflexivity. Qed.
Lemma binom_big n : forall k, n < k -> binom n k = 0.
Proof. induction n as [|n IH]; intros [|k] H; try lia; [reflexivity|]. rewrite binom_S, !IH by lia. reflexivity. Qed.
Lemma binom_diag n : binom n n = 1.
Proof. induction n as [|n IH]; [reflexivity|]. rewrite binom_S, IH, binom_big by lia. reflexivity. Qed.
Lemma binom_sym n : forall k, k <= n -> binom n (n - k) = binom n k.
Proof.
  induction n as [|n IH]; intros k Hk; [replace k with 0 by lia; reflexivity|].
  destruct k as [|k]; [rewrite Nat.sub_0_r, binom_diag; reflexivity|].
  replace (S n - S k) with (n - k) by lia. destruct (Nat.eq_dec k n) as [->|Hne].
  - rewrite Nat.sub_diag, !binom_0, binom_diag. reflexivity.
  - replace (n - k) with (S (n - S k)) by lia. rewrite !binom_S.
    replace (S (n - S k)) with (n - k) by lia. rewrite IH, IH by lia. lia.
Qed.
Lemma NC_add a b : NC (a + b) = (NC a + NC b)%C.
Proof. unfold NC. rewrite plus_INR, RtoC_plus. reflexivity. Qed.
Lemma NC_0 : NC 0 = RtoC 0. Proof. reflexivity. Qed.
Lemma NC_1 : NC 1 = RtoC 1. Proof. reflexivity. Qed.

(** sum of binom(k,i) c^i f(l-i) *)
Definition mix (k : nat) (c : C) (f : nat -> C) (l : nat) : C :=
  csum (S k) (fun i => NC (binom k i) * cpow c i * f (l - i)%nat)%C.
Lemma mix_S k c f l : k < l -> mix (S k) c f l = (mix k c f l + c * mix k c f (l - 1)%nat)%C.
Proof.
  intros Hl. unfold mix.
  rewrite (csum_S_l (S k)). rewrite binom_0.
  rewrite (csum_ext (S k) (fun j => NC (binom (S k) (S j)) * cpow c (S j)%nat * f (l - S j)%nat)%C
    (fun j => c * (NC (binom k j) * cpow c j * f (l - 1 - j)%nat) + NC (binom k (S j)) * cpow c (S j)%nat * f (l - S j)%nat)%C).
  - rewrite csum_add, csum_scal.
    rewrite (csum_S_l k (fun i => NC (binom k i) * cpow c i * f (l - i)%nat)%C). rewrite binom_0.
    cbn [csum]. rewrite (binom_big k (S k)) by lia. rewrite NC_0. ring.
  - intros j Hj. rewrite binom_S, NC_add. cbn [cpow]. replace (l - 1 - j) with (l - S j) by lia. ring.
Qed.
Lemma mix_0 c f l : mix 0 c f l = f l.
Proof. unfold mix. cbn [csum]. rewrite binom_0, NC_1, Nat.sub_0_r. cbn [cpow]. ring. Qed.

(** ** the shift *)
Lemma shift_pass_spec c off : forall cnt l v, cnt <= l -> off + l < length v ->
  exists v', shift_pass cnt l off c v = Done v' /\ length v' = length v /\
    forall i, vget v' i = if (off + l - cnt <? i) && (i <=? off + l) then (vget v i + vget v (i - 1)%nat * c)%C else vget v i.
Proof.
  induction cnt as [|cnt IH]; intros l v Hc Hl; cbn [shift_pass].
  - exists v. conj; try reflexivity. intros i.
    destruct (Nat.ltb_spec (off + l - 0) i), (Nat.leb_spec i (off + l)); cbn [andb]; try reflexivity. lia.
  - unfold vread, vwrite. rewrite (proj2 (Nat.ltb_lt (off + l) (length v)) Hl).
    rewrite (proj2 (Nat.ltb_lt (off + l - 1) (length v))) by lia. cbn [bind].
    set (w := upd v (off + l) _).
    assert (Hw : length w = length v) by (unfold w; apply upd_length).
    destruct (IH (l - 1) w) as (v' & E & HL & Hv); [lia|lia|].
    exists v'. conj; [exact E|congruence|]. intros i. rewrite Hv.
    replace (off + (l - 1) - cnt) with (off + l - S cnt) by lia.
    unfold w. rewrite !vget_upd by exact Hl.
    destruct (Nat.eqb_spec i (off + l)) as [->|Hne].
    + replace (off + l <=? off + (l - 1)) with false by (symmetry; apply Nat.leb_gt; lia). rewrite andb_false_r.
      replace (off + l - S cnt <? off + l) with true by (symmetry; apply Nat.ltb_lt; lia). rewrite Nat.leb_refl. reflexivity.
    + destruct (Nat.eqb_spec (i - 1) (off + l)) as [Hi|Hi].
      * replace (i <=? off + (l - 1)) with false by (symmetry; apply Nat.leb_gt; lia).
        replace (i <=? off + l) with false by (symmetry; apply Nat.leb_gt; lia). rewrite !andb_false_r. reflexivity.
      * destruct (Nat.ltb_spec (off + l - S cnt) i), (Nat.leb_spec i (off + (l - 1))), (Nat.leb_spec i (off + l)); cbn [andb]; try reflexivity; lia.
Qed.

Lemma shift_rounds_spec c off len v0 : forall todo k v, k + todo = len -> 1 <= k -> off + len <= length v0 ->
  replaced v0 v off len (fun l => mix (Nat.min (k - 1) l) c (fun i => vget v0 (off + i)%nat) l) ->
  exists v', shift_rounds todo k off len c v = Done v' /\
    replaced v0 v' off len (fun l => mix l c (fun i => vget v0 (off + i)%nat) l).
Proof.
  induction todo as [|todo IH]; intros k v Hk H1 Hlen Hr; cbn [shift_rounds].
  - exists v. split; [reflexivity|]. eapply replaced_ext; [|exact Hr]. intros l Hl. cbn beta. rewrite Nat.min_r by lia. reflexivity.
  - destruct Hr as (HL & Hin & Hout).
    destruct (shift_pass_spec c off (len - k) (len - 1) v) as (w & E & HLw & Hw); [lia|lia|].
    rewrite E. cbn [bind]. apply IH; [lia|lia|exact Hlen|].
    unfold replaced; conj; [congruence| |].
    + intros l Hl. rewrite Hw.
      destruct (Nat.ltb_spec (off + (len - 1) - (len - k)) (off + l)) as [H|H]; cbn [andb].
      * rewrite (proj2 (Nat.leb_le _ _)) by lia.
        replace (off + l - 1) with (off + (l - 1)) by lia. rewrite !Hin by lia.
        rewrite (Nat.min_l (k - 1) l), (Nat.min_l (k - 1) (l - 1)), (Nat.min_l (S k - 1) l) by lia.
        replace (S k - 1) with (S (k - 1)) by lia. rewrite mix_S by lia. ring.
      * rewrite Hin by lia. rewrite !Nat.min_r by lia. reflexivity.
    + intros i Hi. rewrite Hw. rewrite <- Hout by exact Hi.
      destruct (Nat.ltb_spec (off + (len - 1) - (len - k)) i), (Nat.leb_spec i (off + (len - 1))); cbn [andb]; try reflexivity. lia.
Qed.

Lemma shift_spec v off len c : off + len <= length v ->
  exists v', polynomial_shift v off len c = Done v' /\
    replaced v v' off len (fun l => csum (S l) (fun i => NC (binom l i) * cpow c (l - i)%nat * vget v (off + i)%nat)%C).
Proof.
  intros Hlen. unfold polynomial_shift.
  assert (Hmix : forall l, mix l c (fun i => vget v (off + i)%nat) l = csum (S l) (fun i => NC (binom l i) * cpow c (l - i)%nat * vget v (off + i)%nat)%C).
  { intros l. unfold mix. rewrite <- csum_rev. apply csum_ext. intros k Hk.
    replace (S l - 1 - k) with (l - k) by lia. rewrite binom_sym by lia. replace (l - (l - k)) with k by lia. reflexivity. }
  destruct (le_lt_dec len 0) as [H0|H0].
  - exists v. replace (len - 1) with 0 by lia. split; [reflexivity|]. unfold replaced; conj; try reflexivity. intros; lia.
  - destruct (shift_rounds_spec c off len v (len - 1) 1 v) as (v' & E & Hr); try lia.
    + unfold replaced; conj; try reflexivity. intros l Hl. cbn [Nat.sub Nat.min]. rewrite mix_0. reflexivity.
    + exists v'. split; [exact E|]. eapply replaced_ext; [|exact Hr]. intros l _. apply Hmix.
Qed.

(** ** binomial formula *)
Lemma binomial_formula t c l : cpow (t + c)%C l = csum (S l) (fun i => NC (binom l i) * cpow c (l - i)%nat * cpow t i)%C.
Proof.
  transitivity (mix l c (cpow t) l).
  - induction l as [|l IH].
    + rewrite mix_0. reflexivity.
    + rewrite mix_S by lia. replace (S l - 1) with l by lia. rewrite <- IH. cbn [cpow].
      assert (E : mix l c (cpow t) (S l) = (mix l c (cpow t) l * t)%C).
      { unfold mix. rewrite <- csum_scal_r. apply csum_ext. intros i Hi. replace (S l - i) with (S (l - i)) by lia. cbn [cpow]. ring. }
      rewrite E, <- IH. ring.
  - unfold mix. rewrite <- csum_rev. apply csum_ext. intros k Hk.
    replace (S l - 1 - k) with (l - k) by lia. rewrite binom_sym by lia. replace (l - (l - k)) with k by lia. reflexivity.
Qed.

Lemma shift_functional L v off len c : linear_functional L -> off + len <= length v -> moments L v off len ->
  exists v', polynomial_shift v off len c = Done v' /\ replaced v v' off len (fun l => L (fun t => cpow (t + c)%C l)).
Proof.
  intros HL Hlen Hm. destruct (shift_spec v off len c Hlen) as (v' & E & Hr). exists v'. split; [exact E|].
  eapply replaced_ext; [|exact Hr]. intros l Hl. cbn beta.
  rewrite (csum_ext (S l) _ (fun i => (NC (binom l i) * cpow c (l - i)%nat) * L (fun t => cpow t i))%C).
  - rewrite <- HL. f_equal. apply functional_extensionality. intros t. symmetry. rewrite binomial_formula. reflexivity.
  - intros i Hi. rewrite Hm by lia. reflexivity.
Qed.

(** any vector is the moments of a functional on its own slice: shift back *)
Lemma mix_functional l c f (x : nat -> C) : (forall i, i <= l -> f i = x i) ->
  csum (S l) (fun i => NC (binom l i) * cpow c (l - i)%nat * f i)%C = csum (S l) (fun i => NC (binom l i) * cpow c (l - i)%nat * x i)%C.
Proof. intros H. apply csum_ext. intros i Hi. rewrite H by lia. reflexivity. Qed.

(** inverse relation through trinomial revision: rounds are invertible one by one, shown by
    polynomials: the shift by c then d is the shift by c + d *)
Definition binsum (c : C) (x : nat -> C) (l : nat) : C := csum (S l) (fun i => NC (binom l i) * cpow c (l - i)%nat * x i)%C.
Lemma binsum_S c x l : binsum c x (S l)%nat = (c * binsum c x l + binsum c (fun i => x (S i)%nat) l)%C.
Proof.
  unfold binsum. rewrite (csum_S_l (S l)). rewrite binom_0, Nat.sub_0_r. cbn [cpow].
  rewrite (csum_ext (S l) (fun k => NC (binom (S l) (S k)) * cpow c (S l - S k)%nat * x (S k)%nat)%C
     (fun k => NC (binom l k) * cpow c (l - k)%nat * x (S k)%nat + NC (binom l (S k)) * cpow c (l - k)%nat * x (S k)%nat)%C).
  - rewrite csum_add. rewrite (csum_S_l l (fun i => NC (binom l i) * cpow c (l - i)%nat * x i)%C). rewrite binom_0, Nat.sub_0_r.
    cbn [csum]. rewrite (binom_big l (S l)) by lia. rewrite NC_0.
    rewrite (csum_ext l (fun k => NC (binom l (S k)) * cpow c (l - k)%nat * x (S k)%nat)%C
      (fun k => c * (NC (binom l (S k)) * cpow c (l - S k)%nat * x (S k)%nat))%C).
    + rewrite csum_scal. ring.
    + intros k Hk. replace (l - k) with (S (l - S k)) by lia. cbn [cpow]. ring.
  - intros k Hk. rewrite binom_S, NC_add. replace (S l - S k) with (l - k) by lia. ring.
Qed.
Lemma binsum_add c x y l : binsum c (fun i => x i + y i)%C l = (binsum c x l + binsum c y l)%C.
Proof. unfold binsum. rewrite <- csum_add. apply csum_ext. intros i _. ring. Qed.
Lemma binsum_scal c a x l : binsum c (fun i => a * x i)%C l = (a * binsum c x l)%C.
Proof. unfold binsum. rewrite <- csum_scal. apply csum_ext. intros i _. ring. Qed.
Lemma binsum_binsum c d l : forall x, binsum d (binsum c x) l = binsum (c + d)%C x l.
Proof.
  induction l as [|l IH]; intros x.
  - unfold binsum. cbn [csum binom Nat.sub cpow]. rewrite NC_1. ring.
  - rewrite !binsum_S. rewrite IH.
    assert (E : binsum d (fun i => binsum c x (S i)%nat) l = binsum d (fun i => c * binsum c x i + binsum c (fun j => x (S j)%nat) i)%C l).
    { unfold binsum at 1 3. apply csum_ext. intros i _. rewrite binsum_S. reflexivity. }
    rewrite E, binsum_add, binsum_scal, !IH. ring.
Qed.
Lemma cpow_zero n : cpow (RtoC 0) (S n) = RtoC 0.
Proof. cbn [cpow]. ring. Qed.
Lemma binsum_zero x l : binsum (RtoC 0) x l = x l.
Proof.
  unfold binsum. cbn [csum]. rewrite csum_zero.
  - rewrite Nat.sub_diag, binom_diag, NC_1. cbn [cpow]. ring.
  - intros k Hk. replace (l - k) with (S (l - S k)) by lia. rewrite cpow_zero. ring.
Qed.

Lemma shift_back v off len c : off + len <= length v ->
  exists v', polynomial_shift v off len c = Done v' /\ polynomial_shift v' off len (- c)%C = Done v.
Proof.
  intros Hlen. destruct (shift_spec v off len c Hlen) as (v' & E & HL & Hin & Hout).
  destruct (shift_spec v' off len (- c)%C) as (v2 & E2 & HL2 & Hin2 & Hout2); [lia|].
  exists v'. split; [exact E|]. rewrite E2. f_equal.
  apply (nth_ext _ _ (RtoC 0) (RtoC 0)); [congruence|]. intros i Hi. fold (vget v2 i). fold (vget v i).
  destruct (le_lt_dec off i) as [H1|H1]; [|rewrite Hout2, Hout by lia; reflexivity].
  destruct (le_lt_dec (off + len) i) as [H2|H2]; [rewrite Hout2, Hout by lia; reflexivity|].
  replace i with (off + (i - off)) by lia. set (l := i - off) in *. rewrite Hin2 by lia.
  rewrite (mix_functional l (- c)%C (fun i => vget v' (off + i)) (binsum c (fun i => vget v (off + i)%nat))).
  - change (csum (S l) (fun i0 => NC (binom l i0) * cpow (- c) (l - i0)%nat * binsum c (fun i1 => vget v (off + i1)%nat) i0)%C)
      with (binsum (- c)%C (binsum c (fun i1 => vget v (off + i1)%nat)) l).
    rewrite binsum_binsum. replace (c + - c)%C with (RtoC 0) by ring. rewrite binsum_zero. reflexivity.
  - intros j Hj. apply Hin. lia.
Qed.

(** ** geometric helpers *)
Lemma geom_rest_spec op off c (v0 : vec) : forall todo k c0 v, off + k + todo <= length v -> length v = length v0 ->
  exists v', geom_rest op todo k off c0 c v = Done (v', (c0 * cpow c todo)%C) /\ length v' = length v0 /\
    forall i, vget v' i = if (off + k <=? i) && (i <? off + k + todo) then op (vget v i) (c0 * cpow c (S (i - off - k)))%C (i - off) else vget v i.
Proof.
  induction todo as [|todo IH]; intros k c0 v Hl HL; cbn [geom_rest].
  - exists v. conj; [f_equal; f_equal; cbn [cpow]; ring|exact HL|].
    intros i. destruct (Nat.leb_spec (off + k) i), (Nat.ltb_spec i (off + k + 0)); cbn [andb]; try reflexivity. lia.
  - unfold vread, vwrite. rewrite (proj2 (Nat.ltb_lt (off + k) (length v))) by lia. cbn [bind].
    set (w := upd v (off + k) _). assert (Hw : length w = length v) by (unfold w; apply upd_length).
    destruct (IH (S k) (c0 * c)%C w) as (v' & E & HL' & Hv); [lia|lia|].
    exists v'. conj; [|exact HL'|].
    + rewrite E. f_equal. f_equal. change (S todo) with (1 + todo). rewrite cpow_add, cpow_1. ring.
    + intros i. rewrite Hv. unfold w. rewrite vget_upd by lia.
      destruct (Nat.eqb_spec i (off + k)) as [->|Hne].
      * rewrite (proj2 (Nat.leb_gt (off + S k) (off + k))) by lia. rewrite Nat.leb_refl, (proj2 (Nat.ltb_lt (off + k) (off + k + S todo))) by lia. cbn [andb].
        replace (off + k - off - k) with 0 by lia. replace (off + k - off) with k by lia. f_equal. cbn [cpow]. ring.
      * destruct (Nat.leb_spec (off + S k) i), (Nat.leb_spec (off + k) i), (Nat.ltb_spec i (off + S k + todo)), (Nat.ltb_spec i (off + k + S todo)); cbn [andb]; try reflexivity; try lia.
        f_equal. replace (S (i - off - k)) with (1 + S (i - off - S k)) by lia. rewrite cpow_add, cpow_1. ring.
Qed.

Lemma geom_spec op v off len c0 c : 1 <= len -> off + len <= length v ->
  exists v', geom op v off len c0 c = Done (v', (c0 * cpow c (len - 1)%nat)%C) /\
    replaced v v' off len (fun k => op (vget v (off + k)%nat) (c0 * cpow c k)%C k).
Proof.
  intros H1 Hlen. unfold geom, vread, vwrite. rewrite (proj2 (Nat.ltb_lt off (length v))) by lia. cbn [bind].
  set (w := upd v off _). assert (Hw : length w = length v) by (unfold w; apply upd_length).
  destruct (geom_rest_spec op off c w (len - 1) 1 c0 w) as (v' & E & HL & Hv); [lia|reflexivity|].
  exists v'. split; [exact E|]. unfold replaced; conj; [congruence| |].
  - intros l Hl. rewrite Hv. unfold w. rewrite vget_upd by lia. destruct (Nat.eqb_spec (off + l) off) as [E0|E0].
    + assert (l = 0) by lia. subst l. rewrite (proj2 (Nat.leb_gt (off + 1) (off + 0))) by lia. cbn [andb].
      rewrite Nat.add_0_r. f_equal. cbn [cpow]. ring.
    + rewrite (proj2 (Nat.leb_le (off + 1) (off + l))), (proj2 (Nat.ltb_lt (off + l) (off + 1 + (len - 1)))) by lia. cbn [andb].
      replace (S (off + l - off - 1)) with l by lia. replace (off + l - off) with l by lia. reflexivity.
  - intros i Hi. rewrite Hv. unfold w. rewrite vget_upd by lia.
    destruct (Nat.eqb_spec i off); [lia|].
    destruct (Nat.leb_spec (off + 1) i), (Nat.ltb_spec i (off + 1 + (len - 1))); cbn [andb]; try reflexivity. lia.
Qed.
Lemma geom_empty op v off c0 c : off < length v ->
  geom op v off 0 c0 c = Done (upd v off (op (vget v off) c0 0), c0).
Proof. intros H. unfold geom, vread, vwrite. rewrite (proj2 (Nat.ltb_lt _ _) H). reflexivity. Qed.

Lemma scalar_mul_spec v off len c : off + len <= length v ->
  exists v', scalar_mul v off len c = Done v' /\ replaced v v' off len (fun k => vget v (off + k)%nat * c)%C.
Proof.
  intros H. unfold scalar_mul. rewrite (proj2 (Nat.leb_le _ _) H). eexists. split; [reflexivity|].
  unfold replaced; conj; [apply vtab_length| |].
  - intros l Hl. rewrite vget_tab by lia. rewrite (proj2 (Nat.leb_le off (off + l))), (proj2 (Nat.ltb_lt (off + l) (off + len))) by lia. reflexivity.
  - intros i Hi. destruct (le_lt_dec (length v) i) as [Ho|Ho].
    + rewrite !vget_out; [reflexivity|exact Ho|rewrite vtab_length; exact Ho].
    + rewrite vget_tab by exact Ho. destruct (Nat.leb_spec off i), (Nat.ltb_spec i (off + len)); cbn [andb]; try reflexivity. lia.
Qed.

(** ** rescaling to the edge *)
From Verif Require Import SpecPeriod ProofPeriod ProofPeriodMain SpecEdge.

Lemma cpow_S z n : cpow z (S n) = (z * cpow z n)%C.
Proof. change (S n) with (1 + n). rewrite cpow_add, cpow_1. reflexivity. Qed.

(** L is linear, so constants come out *)
Lemma functional_scaled L a h u l : linear_functional L ->
  L (fun t => a * cpow (h * (t + u)) l)%C = (a * cpow h l * L (fun t => cpow (t + u)%C l))%C.
Proof.
  intros HL.
  replace (fun t => a * cpow (h * (t + u)) l)%C with (fun t => csum (S l) (fun i => (a * cpow h l * (NC (binom l i) * cpow u (l - i))) * cpow t i)%C).
  - rewrite HL. replace (fun t : C => cpow (t + u)%C l) with (fun t => csum (S l) (fun i => (NC (binom l i) * cpow u (l - i)) * cpow t i)%C).
    + rewrite HL. rewrite <- csum_scal. apply csum_ext. intros i _. ring.
    + apply functional_extensionality. intros t. symmetry. apply binomial_formula.
  - apply functional_extensionality. intros t. rewrite cpow_mul, binomial_formula.
    rewrite <- !csum_scal. apply csum_ext. intros i _. ring.
Qed.

Local Open Scope Z_scope.
Lemma zeta_index m j1 j : 2 <= m -> 0 <= j1 -> 0 <= j -> j1 + j <= m ->
  let i := Z.rem (m - j1 - j) m in 0 <= i < m /\ root m i = root m (- (j1 + j)).
Proof.
  intros Hm H1 H2 H3 i. assert (E : i = (m - j1 - j) mod m) by (unfold i; apply Z.rem_mod_nonneg; lia).
  rewrite E. split; [apply Z.mod_pos_bound; lia|]. rewrite root_mod by lia.
  replace (m - j1 - j) with (m * 1 + - (j1 + j)) by ring. rewrite root_add, root_mult by lia. ring.
Qed.

(** one block *)
Lemma factor_block L v off len ba2 ab cj : linear_functional L -> (1 <= len)%nat -> (off + len <= length v)%nat ->
  moments L v off len ->
  exists v1 r v2, polynomial_shift v off len ab = Done v1 /\ mul_geom v1 off len ba2 ba2 = Done r /\
    scalar_mul (fst r) off len cj = Done v2 /\
    replaced v v2 off len (fun i => cj * L (fun t => ba2 * cpow (ba2 * (t + ab)) i))%C.
Proof.
  intros HL H1 Hlen Hm.
  destruct (shift_functional L v off len ab HL Hlen Hm) as (v1 & E1 & HL1 & Hin1 & Hout1).
  destruct (geom_spec (fun a c0 _ => (a * c0)%C) v1 off len ba2 ba2 H1) as (v2 & E2 & HL2 & Hin2 & Hout2); [lia|].
  destruct (scalar_mul_spec v2 off len cj) as (v3 & E3 & HL3 & Hin3 & Hout3); [lia|].
  exists v1, (v2, (ba2 * cpow ba2 (len - 1))%C), v3. split; [exact E1|]. split; [exact E2|]. split; [exact E3|].
  split; [congruence|]. split.
  - intros l Hl. rewrite Hin3, Hin2, Hin1 by exact Hl. rewrite functional_scaled by exact HL. ring.
  - intros i Hi. rewrite Hout3, Hout2, Hout1 by exact Hi. reflexivity.
Qed.

Lemma factor_blocks_spec m j1 ba2 ab cab : 2 <= m -> 0 <= j1 -> forall ni (L : nat -> (C -> C) -> C) j off v,
  0 <= j -> j1 + j + Z.of_nat (length ni) <= m + 1 -> (forall n, In n ni -> 1 <= n) -> (forall q, linear_functional (L q)) ->
  (off + total ni <= length v)%nat ->
  (forall q, (q < length ni)%nat -> moments (L q) v (off + offset ni q) (Z.to_nat (nth q ni 0))) ->
  exists v', factor_blocks ni j off ba2 ab cab m j1 (unit_roots m) v = Done v' /\ length v' = length v /\
    (forall k, (k < off \/ off + total ni <= k)%nat -> vget v' k = vget v k) /\
    (forall q i, (q < length ni)%nat -> Z.of_nat i < nth q ni 0 ->
      vget v' (off + (offset ni q + i)) =
      ((RtoC 1 - root m (- (j1 + (j + Z.of_nat q)))) / cpow cab (Z.to_nat (j1 + (j + Z.of_nat q)))
        * L q (fun t => ba2 * cpow (ba2 * (t + ab)) i))%C).
Proof.
  intros Hm Hj1. induction ni as [|n ni IH]; intros L j off v Hj Hjm Hn HL Hlen Hmom; cbn [factor_blocks total].
  - exists v. conj; try reflexivity. intros q i Hq. cbn in Hq. lia.
  - pose proof (Hn n (or_introl eq_refl)) as Hn0. cbn [total length] in Hlen, Hjm.
    destruct (zeta_index m j1 j Hm Hj1 Hj ltac:(lia)) as [Hi Hroot]. cbn zeta in *.
    set (zi := Z.rem (m - j1 - j) m) in *.
    set (cj := ((RtoC 1 - root m (- (j1 + j))) / cpow cab (Z.to_nat (j1 + j)))%C).
    assert (Hm0 : moments (L O) v off (Z.to_nat n)).
    { specialize (Hmom O ltac:(cbn [length]; lia)). cbn [offset nth] in Hmom. rewrite Nat.add_0_r in Hmom. exact Hmom. }
    destruct (factor_block (L O) v off (Z.to_nat n) ba2 ab cj (HL O) ltac:(lia) ltac:(lia) Hm0)
      as (v1 & r & v2 & E1 & E2 & E3 & HL2 & Hin2 & Hout2).
    rewrite E1. cbn [bind]. rewrite E2. cbn [bind].
    rewrite unit_roots_length by lia. assert (Eb : (zi <? 0) || (m <=? zi) = false) by lia. rewrite Eb.
    rewrite unit_roots_get by exact Hi.
    assert (Ecj : ((- (root m zi - RtoC 1)) / cpow cab (Z.to_nat (j1 + j)))%C = cj).
    { unfold cj. rewrite Hroot. f_equal. ring. }
    rewrite Ecj. unfold vec in *. rewrite E3. cbn [bind].
    destruct (IH (fun q => L (S q)) (j + 1) (off + Z.to_nat n)%nat v2) as (v' & E & HL' & Hout & Hin).
    { lia. } { lia. } { intros x Hx. apply Hn. right. exact Hx. } { intros q. apply HL. } { lia. }
    { intros q Hq l Hl. specialize (Hmom (S q) ltac:(cbn [length]; lia)). cbn [offset nth] in Hmom.
      rewrite Hout2 by lia. replace (off + Z.to_nat n + offset ni q + l)%nat with (off + (Z.to_nat n + offset ni q) + l)%nat by lia.
      apply Hmom, Hl. }
    exists v'. conj; [exact E|congruence| |].
    + intros k Hk. rewrite Hout by lia. apply Hout2. lia.
    + intros [|q] i Hq Hi2; cbn [nth length offset] in *.
      * rewrite Hout by lia. rewrite Nat.add_0_l, Hin2 by lia. unfold cj. replace (j + Z.of_nat 0) with j by lia. reflexivity.
      * specialize (Hin q i ltac:(lia) Hi2). cbn beta in Hin.
        replace (off + (Z.to_nat n + offset ni q + i))%nat with (off + Z.to_nat n + (offset ni q + i))%nat by lia.
        rewrite Hin. replace (j + 1 + Z.of_nat q) with (j + Z.of_nat (S q)) by lia. reflexivity.
Qed.

From Verif Require Import SpecCurve ProofCurve CArg.

Lemma edge_point_scaled a b t : a <> b -> ((b - a) / RtoC 2 * (t + (a + b) / (b - a)))%C = edge_point a b t.
Proof.
  intros H. assert (Hd : (b - a)%C <> RtoC 0).
  { intros E. apply H. symmetry. replace b with ((b - a) + a)%C by ring. rewrite E. ring. }
  unfold edge_point. field. split; [apply two_neq|exact Hd].
Qed.

Lemma edge_factors_final m n c a b cab (L : nat -> (C -> C) -> C) v :
  sec_init m n = Done c -> 1 <= n -> a <> b -> cab <> RtoC 0 ->
  (forall q, linear_functional (L q)) -> Z.of_nat (length v) = sec_g c ->
  (forall q, (q < length (sec_ni c))%nat -> moments (L q) v (offset (sec_ni c) q) (Z.to_nat (nth q (sec_ni c) 0))) ->
  exists v', integrals_edge_factors v ((b - a) / RtoC 2)%C ((a + b) / (b - a))%C cab c = Done v' /\ length v' = length v /\
    forall q i, (q < length (sec_ni c))%nat -> Z.of_nat i < nth q (sec_ni c) 0 ->
      vget v' (offset (sec_ni c) q + i) =
      ((RtoC 1 - root m (- (sec_j1 c + Z.of_nat q))) / cpow cab (Z.to_nat (sec_j1 c + Z.of_nat q))
        * L q (fun t => (b - a) / RtoC 2 * cpow (edge_point a b t) i))%C.
Proof.
  intros Hc Hn Hab _ HL Hv Hm. destruct (sec_init_curve_ok m n c Hc Hn) as (Hok & Em & Hg).
  destruct Hok as (Hm2 & Hj1 & Hni & Hsum). destruct (differentials_count_final m n c Hc Hn) as [_ Hlen].
  destruct (differentials_exact_final m n c Hc Hn) as (_ & Hni1 & _).
  unfold integrals_edge_factors. rewrite Em in *.
  destruct (factor_blocks_spec m (sec_j1 c) ((b - a) / RtoC 2)%C ((a + b) / (b - a))%C cab Hm2 Hj1 (sec_ni c) L 0 O v)
    as (v' & E & HL' & _ & Hin).
  { lia. } { lia. } { intros x Hx. apply Hni1 in Hx. lia. } { exact HL. }
  { rewrite Nat.add_0_l. apply Nat2Z.inj_le. rewrite total_sum by exact Hni. rewrite Hsum, <- Hv. lia. }
  { intros q Hq. rewrite Nat.add_0_l. apply Hm, Hq. }
  exists v'. conj; [exact E|exact HL'|]. intros q i Hq Hi. specialize (Hin q i Hq Hi). rewrite Nat.add_0_l in Hin. rewrite Hin.
  rewrite !Z.add_0_l. do 2 f_equal. apply functional_extensionality. intros t. rewrite edge_point_scaled by exact Hab. reflexivity.
Qed.

(** finite sums are linear *)
Lemma sum_functional {A} (w t : A -> C) (l : list A) : linear_functional (fun f => clsum (fun q => w q * f (t q))%C l).
Proof.
  intros n a. induction l as [|x l IH]; unfold clsum in *; cbn [fold_right].
  - symmetry. apply csum_zero. intros. ring.
  - rewrite IH. rewrite <- csum_scal, <- csum_add. apply csum_ext. intros i _. ring.
Qed.

Local Open Scope nat_scope.
Lemma cpow_opp c k : cpow (- c)%C k = if Nat.odd k then (- cpow c k)%C else cpow c k.
Proof.
  induction k as [|k IH]; [reflexivity|]. rewrite !cpow_S, IH, Nat.odd_succ, <- Nat.negb_odd.
  destruct (Nat.odd k); cbn [negb]; ring.
Qed.
Lemma sub_geom_spec v off len c0 c : 1 <= len -> off + len <= length v ->
  exists v', sub_geom v off len c0 c = Done (v', (c0 * cpow c (len - 1))%C) /\
    replaced v v' off len (fun k => vget v (off + k)%nat + c0 * cpow (- c) k)%C.
Proof.
  intros H1 H2. destruct (geom_spec (fun a c0 k => if Nat.odd k then (a - c0)%C else (a + c0)%C) v off len c0 c H1 H2) as (v' & E & Hr).
  exists v'. split; [exact E|]. eapply replaced_ext; [|exact Hr]. intros k _. cbn beta. rewrite cpow_opp.
  destruct (Nat.odd k); ring.
Qed.
Lemma geom_empty_changes :
  exists v off c0 c v', off <= length v /\ mul_geom v off 0 c0 c = Done (v', c0) /\ v' <> v.
Proof.
  exists [RtoC 1], 0, (RtoC 2), (RtoC 0), (upd [RtoC 1] 0 (RtoC 1 * RtoC 2)%C). split; [cbn; lia|]. split; [reflexivity|].
  cbn. intros E. injection E as E _. rewrite Rmult_1_l, Rmult_0_l in E. lra.
Qed.
