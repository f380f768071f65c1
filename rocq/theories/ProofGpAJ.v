(** Lemmas for C105. *)
From Verif Require Import Base CBase SpecGpTree ProofGpTree ModelGpAJ SpecGpAJ.

Section Half.
  Variables (N : nat) (c : nat -> nat -> C).

  Lemma half_ext x y M : (forall f, x f = y f) -> half_chain N c x M -> half_chain N c y M.
  Proof. intros E [k H]. exists k. intros f. now rewrite <- E. Qed.

  Lemma half_zero M : (forall r, (r < N)%nat -> M r = 0) -> half_chain N c (fun _ => RtoC 0) M.
  Proof.
    intros H. exists (fun _ => 0). intros f. symmetry. apply csum_zero. intros r Hr. rewrite (H r Hr).
    replace (IZR 0 / 2)%R with 0%R by (cbn; lra). cbn. ring.
  Qed.

  Lemma half_mod x M M' : (forall r, (r < N)%nat -> exists z, M r = M' r + 2 * z) -> half_chain N c x M -> half_chain N c x M'.
  Proof.
    intros E [k H]. exists (fun r => k r + (M r - M' r) / 2). intros f. rewrite H. apply csum_ext. intros r Hr.
    destruct (E r Hr) as [z Ez]. rewrite Ez. replace (M' r + 2 * z - M' r) with (z * 2) by lia. rewrite Z.div_mul by lia.
    f_equal. rewrite <- !RtoC_plus. f_equal. rewrite !plus_IZR, mult_IZR. lra.
  Qed.

  Lemma half_add x y M M' : half_chain N c x M -> half_chain N c y M' -> half_chain N c (fun f => x f + y f)%C (fun r => M r + M' r).
  Proof.
    intros [k H] [k' H']. exists (fun r => k r + k' r). intros f. rewrite H, H', <- csum_add. apply csum_ext. intros r Hr.
    rewrite <- Cmult_plus_distr_r. f_equal. rewrite <- !RtoC_plus. f_equal. rewrite !plus_IZR. lra.
  Qed.

  Lemma half_opp x M : half_chain N c x M -> half_chain N c (fun f => - x f)%C (fun r => - M r).
  Proof.
    intros [k H]. exists (fun r => - k r). intros f. rewrite H. symmetry.
    assert (HM : forall z : C, (- z = RtoC (-1) * z)%C) by (intros z; apply injective_projections; cbn; ring). rewrite HM.
    rewrite <- csum_scal. apply csum_ext. intros r Hr. rewrite Cmult_assoc. f_equal. rewrite <- !RtoC_plus, <- RtoC_mult. f_equal. rewrite !opp_IZR. lra.
  Qed.

  Variables (AJ : nat -> nat -> C) (n : nat).

  (** the loop over the edges: the columns of the points reached are their half chains *)
  Lemma aj_loop_ok root tree : forall t1 t2 taken M, tree = t1 ++ t2 -> (length tree <= N)%nat -> grows n root tree -> edges_are_half_loops N c AJ tree ->
    (forall v, taken v = true <-> reached root t1 v) ->
    (forall v, reached root t1 v -> half_chain N c (fun f => AJ v f - AJ root f)%C (fun r => M r v)) ->
    (forall r v, (length t1 <= r)%nat -> M r v = 0) -> (forall r v, ~ reached root t1 v -> M r v = 0) ->
    let R := aj_loop (length t1) t2 taken M in
    (forall v, reached root tree v -> half_chain N c (fun f => AJ v f - AJ root f)%C (fun r => R r v)) /\
    (forall r v, ~ reached root tree v -> R r v = 0).
  Proof using.
    intros t1 t2. revert t1. induction t2 as [|[a b] t2 IH]; intros t1 taken M E LN G H T HC Z1 Z2.
    - rewrite app_nil_r in E. subst t1. cbn. auto.
    - destruct (G t1 a b t2 E) as [An [Bn X]].
      assert (HE : half_chain N c (fun f => AJ b f - AJ a f)%C (fun r => if (r =? length t1)%nat then 1 else 0)).
      { apply H. rewrite E, nth_error_app2, Nat.sub_diag by lia. reflexivity. }
      assert (X' : exists s e, (if taken a then (a, b) else (b, a)) = (s, e) /\ reached root t1 s /\ ~ reached root t1 e /\
        ((s = a /\ e = b) \/ (s = b /\ e = a)) /\ half_chain N c (fun f => AJ e f - AJ s f)%C (fun r => if (r =? length t1)%nat then 1 else 0)).
      { destruct (taken a) eqn:Ea.
        - apply T in Ea. exists a, b. repeat split; auto; tauto.
        - assert (~ reached root t1 a) by (rewrite <- T; congruence). exists b, a. repeat split; auto; [tauto|].
          apply half_ext with (x := (fun f => - (AJ b f - AJ a f))%C); [intros f; ring|].
          apply half_mod with (M := fun r => - (if (r =? length t1)%nat then 1 else 0)); [|now apply half_opp].
          intros r _. destruct (r =? length t1)%nat; [exists (-1)|exists 0]; reflexivity. }
      destruct X' as [s [e [E1 [Rs [Re [SE HSE]]]]]]. cbn [aj_loop]. rewrite E1.
      assert (RE : forall v, reached root (t1 ++ [(a, b)]) v <-> (v = e \/ reached root t1 v)).
      { intros v. unfold reached at 1. setoid_rewrite in_app_iff. cbn. split.
        - intros [->|[d [[D|[<-|[]]] D']]]; [right; now left|right; right; now exists d|]. cbn in D'.
          destruct SE as [[-> ->]|[-> ->]]; destruct D' as [->| ->]; auto.
        - intros [->|[->|[d [D D']]]]; [right; exists (a, b)|now left|right; exists d; auto]. cbn. destruct SE as [[-> ->]|[-> ->]]; auto. }
      replace (S (length t1)) with (length (t1 ++ [(a, b)])) by (rewrite app_length; cbn; lia).
      apply IH; auto.
      + rewrite E, <- app_assoc. reflexivity.
      + intros v. rewrite RE. destruct (Nat.eqb_spec v e); [tauto|]. rewrite T. tauto.
      + intros v Hv. apply RE in Hv. destruct (Nat.eqb_spec v e) as [->|D].
        * apply half_ext with (x := (fun f => (AJ s f - AJ root f) + (AJ e f - AJ s f))%C); [intros f; ring|].
          apply half_mod with (M := fun r => M r s + (if (r =? length t1)%nat then 1 else 0)); [|apply half_add; auto].
          intros r Hr. exists 0. destruct (Nat.eqb_spec r (length t1)) as [->|]; [rewrite Z1 by lia|]; lia.
        * destruct Hv as [?|Hv]; [contradiction|]. now apply HC.
      + intros r v Hr. rewrite app_length in Hr. cbn in Hr. destruct (v =? e)%nat; [|apply Z1; lia]. destruct (Nat.eqb_spec r (length t1)); [lia|]. apply Z1. lia.
      + intros r v Hv. rewrite RE in Hv. destruct (Nat.eqb_spec v e); [tauto|]. apply Z2. tauto.
  Qed.

  Lemma grows_first root a b t : grows n root ((a, b) :: t) -> grows n a ((a, b) :: t).
  Proof.
    intros G. assert (RT : root = a \/ root = b).
    { destruct (G [] a b t eq_refl) as [_ [_ [[H _]|[H _]]]]; destruct H as [H|[e [[] _]]]; auto. }
    intros t1 x y t2 E. destruct t1 as [|e t1]; cbn in E.
    - injection E as <- <- <-. destruct (G [] a b t eq_refl) as [A [B X]]. repeat split; auto. left. split; [now left|]. intros [->|[e [[] _]]]. tauto.
    - destruct (G (e :: t1) x y t2) as [A [B X]]; [assumption|]. repeat split; auto.
      injection E as <- E.
      assert (Q : forall v, reached root ((a, b) :: t1) v <-> reached a ((a, b) :: t1) v).
      { intros v. unfold reached. split; intros [->|Hv]; try (now right); right; exists (a, b); (split; [now left|]); cbn; tauto. }
      rewrite !Q in X. exact X.
  Qed.

  Lemma aj_loops_ok tree p0 : (1 <= length tree <= N)%nat -> (exists root, grows n root tree) -> edges_are_half_loops N c AJ tree ->
    exists M, aj_loops tree p0 = Done M /\
      ((exists root, reached root tree p0 /\ grows n root tree) -> forall v root, grows n root tree -> reached root tree v ->
         half_chain N c (fun f => AJ v f - AJ p0 f)%C (fun r => M r v)).
  Proof using.
    intros LN [root G] H. destruct tree as [|[a b] t]; [cbn in LN; lia|]. cbn [aj_loops].
    pose proof (grows_first _ _ _ _ G) as G1.
    destruct (aj_loop_ok a ((a, b) :: t) [] ((a, b) :: t) (fun v => (v =? a)%nat) (fun _ _ => 0) eq_refl) as [R1 _]; auto; [lia| | |].
    - intros v. rewrite Nat.eqb_eq. unfold reached. split; [now left|]. intros [->|[e [[] _]]]. reflexivity.
    - intros v [->|[e [[] _]]]. apply half_ext with (x := fun _ => RtoC 0); [intros f; ring|]. now apply half_zero.
    - eexists. split; [reflexivity|].
      assert (Q : forall root v, grows n root ((a, b) :: t) -> reached root ((a, b) :: t) v -> reached a ((a, b) :: t) v).
      { intros r v Gr [->|Hv]; [|now right]. destruct (Gr [] a b t eq_refl) as [_ [_ [[K _]|[K _]]]]; destruct K as [K|[e [[] _]]]; subst r; [now left|].
        right. exists (a, b). split; [now left|]. now right. }
      intros [r0 [P0 G0]] v r1 Gr Hv. cbn [length] in R1. apply (Q r0) in P0; [|assumption]. apply (Q r1) in Hv; [|assumption].
      apply half_ext with (x := (fun f => (AJ v f - AJ a f) + - (AJ p0 f - AJ a f))%C); [intros f; ring|].
      apply half_mod with (M := fun r => aj_loop 0 ((a, b) :: t) (fun v => (v =? a)%nat) (fun _ _ => 0) r v + - aj_loop 0 ((a, b) :: t) (fun v => (v =? a)%nat) (fun _ _ => 0) r p0).
      { intros r _. exists 0. lia. }
      apply half_add; [now apply R1|apply half_opp; now apply R1].
  Qed.
End Half.

(** change of basis *)
Lemma csum_lin N (F : nat -> nat -> Z) (x : nat -> Z) (c : nat -> C) :
  csum N (fun l => RtoC (IZR (x l)) * csum N (fun r => RtoC (IZR (F r l)) * c r))%C =
  csum N (fun r => RtoC (IZR (zsum N (fun l => (F r l * x l)%Z))) * c r)%C.
Proof.
  rewrite (csum_ext N _ (fun l => csum N (fun r => RtoC (IZR (F r l * x l)%Z) * c r)%C)).
  - rewrite csum_swap. apply csum_ext. intros r Hr. rewrite csum_scal_r. f_equal. clear Hr.
    assert (E : forall m, csum m (fun l => RtoC (IZR (F r l * x l)%Z)) = RtoC (IZR (zsum m (fun l => (F r l * x l)%Z)))).
    { induction m as [|m IH]; [reflexivity|]. cbn [csum zsum]. rewrite IH, <- RtoC_plus, <- plus_IZR. reflexivity. }
    apply E.
  - intros l Hl. rewrite <- csum_scal. apply csum_ext. intros r Hr. rewrite mult_IZR, RtoC_mult. ring.
Qed.

Lemma half_base N c x M P Q : (forall i j, (i < N)%nat -> (j < N)%nat -> zsum N (fun l => P i l * Q l j) = if (i =? j)%nat then 1 else 0) ->
  half_chain N c x M -> half_chain N (base_change N c P) x (fun l => zsum N (fun r => Q l r * M r) mod 2).
Proof.
  intros PQ [k H].
  assert (Z : forall (y : nat -> Z) r, (r < N)%nat -> zsum N (fun l => P r l * zsum N (fun j => Q l j * y j)) = y r).
  { intros y r Hr. rewrite (zsum_ext N _ (fun l => zsum N (fun j => P r l * Q l j * y j))).
    - assert (SW : forall a b (f : nat -> nat -> Z), zsum a (fun l => zsum b (f l)) = zsum b (fun j => zsum a (fun l => f l j))).
      { clear. intros a b f. induction a as [|a IH]; cbn [zsum]; [symmetry; apply zsum_zero; reflexivity|]. rewrite IH, <- zsum_add. reflexivity. }
      rewrite SW. rewrite (zsum_ext N _ (fun j => (if (r =? j)%nat then 1 else 0) * y j)).
      + assert (G : forall m, (m <= N)%nat -> zsum m (fun j => (if (r =? j)%nat then 1 else 0) * y j) = if (r <? m)%nat then y r else 0).
        { induction m as [|m IH]; intros Hm; [reflexivity|]. cbn [zsum]. rewrite IH by lia.
          destruct (Nat.eqb_spec r m) as [Em|Em]; destruct (Nat.ltb_spec r m); destruct (Nat.ltb_spec r (S m)); try lia. rewrite Em. ring. }
        rewrite G by lia. destruct (Nat.ltb_spec r N); [reflexivity|lia].
      + intros j Hj. rewrite <- (PQ r j Hr Hj). rewrite (zsum_ext N _ (fun l => y j * (P r l * Q l j))) by (intros; ring). rewrite zsum_scal. ring.
    - intros l Hl. rewrite <- zsum_scal. apply zsum_ext. intros; ring. }
  set (S0 := fun l => zsum N (fun r => Q l r * M r)). exists (fun l => S0 l / 2 + zsum N (fun r => Q l r * k r)). intros f. rewrite H. symmetry.
  rewrite (csum_ext N _ (fun l => (RtoC (/ 2) * (RtoC (IZR (S0 l)) * base_change N c P l f) + RtoC (IZR (zsum N (fun r => (Q l r * k r)%Z))) * base_change N c P l f)%C)).
  2: { intros l Hl. assert (E : (IZR (S0 l mod 2) / 2 + IZR (S0 l / 2 + zsum N (fun r => (Q l r * k r)%Z)) = / 2 * IZR (S0 l) + IZR (zsum N (fun r => (Q l r * k r)%Z)))%R).
       { rewrite (Z.div_mod (S0 l) 2) at 3 by lia. rewrite !plus_IZR, mult_IZR. lra. }
       rewrite <- RtoC_plus. change (zsum N (fun r => Q l r * M r)) with (S0 l). rewrite E, RtoC_plus, RtoC_mult. ring. }
  rewrite csum_add, csum_scal. unfold base_change. rewrite !csum_lin. rewrite <- csum_scal, <- csum_add. apply csum_ext. intros r Hr.
  unfold S0. rewrite !Z by assumption. unfold Rdiv. rewrite RtoC_mult. ring.
Qed.

Lemma AJWeierstrass_ok N c AJ n P Q tree p0 :
  (1 <= length tree <= N)%nat -> (exists root, grows n root tree /\ reached root tree p0) -> edges_are_half_loops N c AJ tree ->
  (forall i j, (i < N)%nat -> (j < N)%nat -> zsum N (fun l => P i l * Q l j) = if (i =? j)%nat then 1 else 0) ->
  exists A, AJWeierstrass N Q tree p0 = Done A /\ (forall l v, A l v = 0 \/ A l v = 1) /\
    forall v root, grows n root tree -> reached root tree v -> half_chain N (base_change N c P) (fun f => AJ v f - AJ p0 f)%C (fun l => A l v).
Proof.
  intros LN [root [G P0]] H PQ. destruct (aj_loops_ok N c AJ n tree p0 LN (ex_intro _ root G) H) as [M [E X]].
  unfold AJWeierstrass. rewrite E. cbn [bind]. eexists. split; [reflexivity|]. split.
  - intros l v. pose proof (Z.mod_pos_bound (zsum N (fun r => Q l r * M r v)) 2). lia.
  - intros v r0 G0 R0. apply half_base with (Q := Q) (M := fun r => M r v); [assumption|]. apply (X (ex_intro _ root (conj P0 G)) v r0 G0 R0).
Qed.

Lemma grows_all n root t v : (root < n)%nat -> grows n root t -> length t = (n - 1)%nat -> (v < n)%nat -> reached root t v.
Proof.
  intros Hr G LT Hv. destruct (grows_count n root t Hr G) as [R [N [LR [RE RN]]]]. apply RE.
  assert (I : incl (seq 0 n) R).
  { apply NoDup_length_incl; [assumption|rewrite seq_length; lia|]. intros x Hx. apply RN in Hx. apply in_seq. lia. }
  apply I. apply in_seq. lia.
Qed.

(** the elliptic curve with periods 1 and i *)
Definition c4 (r f : nat) : C := match r with O => RtoC 1 | _ => Ci end.
Definition AJ4 (v f : nat) : C :=
  match v with O => RtoC 0 | 1%nat => RtoC (1 / 2) | 2%nat => (RtoC (1 / 2) + RtoC (1 / 2) * Ci)%C | _ => (RtoC (1 / 2) * Ci)%C end.
Lemma csum2 f : csum 2 f = (f 0%nat + f 1%nat)%C.
Proof. cbn. ring. Qed.
Lemma ext4 x a b : (forall f : nat, x f = (RtoC (IZR a / 2) + RtoC (IZR b / 2) * Ci)%C) -> in_lattice 2 c4 x -> Z.even a = true /\ Z.even b = true.
Proof.
  intros E [k H]. specialize (H 0%nat). rewrite E, csum2 in H. cbn [c4] in H. injection H as H1 H2. cbn in H1, H2.
  assert (K1 : (IZR a = IZR (2 * k 0%nat))%R) by (rewrite mult_IZR; lra). assert (K2 : (IZR b = IZR (2 * k 1%nat))%R) by (rewrite mult_IZR; lra).
  apply eq_IZR in K1, K2. rewrite K1, K2, !Z.even_mul. split; reflexivity.
Qed.
Lemma edges4 : edges_are_half_loops 2 c4 AJ4 [(0, 1); (1, 2)]%nat.
Proof.
  intros i a b H. exists (fun _ => 0). intros f. rewrite csum2.
  destruct i as [|[|i]]; cbn in H; [| |now destruct i]; injection H as <- <-; cbn [AJ4 c4 Nat.eqb];
    apply injective_projections; cbn; lra.
Qed.
Lemma grows4 n : (3 <= n)%nat -> grows n 0 [(0, 1); (1, 2)]%nat.
Proof.
  intros Hn t1 a b t2 E. destruct t1 as [|e t1]; cbn in E.
  - injection E as <- <- <-. repeat split; try lia. left. split; [now left|]. intros [?|[e [[] _]]]. discriminate.
  - injection E as <- E. destruct t1 as [|e t1]; cbn in E.
    + injection E as <- <- <-. repeat split; try lia. left. split.
      * right. exists (0, 1)%nat. split; [now left|now right].
      * intros [?|[e [[<-|[]] [?|?]]]]; discriminate.
    + injection E as <- E. now destruct t1.
Qed.
