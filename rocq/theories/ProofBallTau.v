(** The small period matrix on balls. *)
From Coq Require Import Reals Lra Lia List.
From Coquelicot Require Import Coquelicot.
From Verif Require Import CArg ModelBall SpecBall ModelBallTau SpecBallTau.
Import ListNotations.
Local Open Scope R_scope.

Lemma sumR_ext n f g : (forall k, (k < n)%nat -> f k = g k) -> sumR n f = sumR n g.
Proof. induction n as [|n IH]; intro H; cbn; [reflexivity|]. rewrite IH by (intros; apply H; lia). rewrite H by lia. reflexivity. Qed.
Lemma sumC_ext n f g : (forall k, (k < n)%nat -> f k = g k) -> sumC n f = sumC n g.
Proof. induction n as [|n IH]; intro H; cbn; [reflexivity|]. rewrite IH by (intros; apply H; lia). rewrite H by lia. reflexivity. Qed.
Lemma sumR_plus n f g : sumR n (fun k => f k + g k) = sumR n f + sumR n g.
Proof. induction n as [|n IH]; cbn; [ring|]. rewrite IH. ring. Qed.
Lemma sumR_minus n f g : sumR n (fun k => f k - g k) = sumR n f - sumR n g.
Proof. induction n as [|n IH]; cbn; [ring|]. rewrite IH. ring. Qed.
Lemma sumR_scal n c f : sumR n (fun k => c * f k) = c * sumR n f.
Proof. induction n as [|n IH]; cbn; [ring|]. rewrite IH. ring. Qed.
Lemma sumR_scal_r n c f : sumR n (fun k => f k * c) = sumR n f * c.
Proof. induction n as [|n IH]; cbn; [ring|]. rewrite IH. ring. Qed.
Lemma sumR_zero n f : (forall k, (k < n)%nat -> f k = 0) -> sumR n f = 0.
Proof. induction n as [|n IH]; intro H; cbn; [reflexivity|]. rewrite IH by (intros; apply H; lia). rewrite H by lia. ring. Qed.
Lemma sumR_swap n m (f : nat -> nat -> R) : sumR n (fun i => sumR m (fun j => f i j)) = sumR m (fun j => sumR n (fun i => f i j)).
Proof.
  induction n as [|n IH]; cbn.
  - symmetry. now apply sumR_zero.
  - rewrite IH, <- sumR_plus. reflexivity.
Qed.
Lemma sumC_parts n f : sumC n f = (sumR n (fun k => fst (f k)), sumR n (fun k => snd (f k))).
Proof. induction n as [|n IH]; cbn; [reflexivity|]. rewrite IH. reflexivity. Qed.
(** associativity *)
Lemma prod_assoc n (a b : nat -> nat -> R) (v : nat -> R) i :
  sumR n (fun k => a i k * sumR n (fun l => b k l * v l)) = sumR n (fun l => sumR n (fun k => a i k * b k l) * v l).
Proof.
  transitivity (sumR n (fun k => sumR n (fun l => a i k * b k l * v l))).
  - apply sumR_ext. intros k _. rewrite <- sumR_scal. apply sumR_ext. intros. ring.
  - rewrite sumR_swap. apply sumR_ext. intros l _. rewrite <- sumR_scal_r. apply sumR_ext. intros. ring.
Qed.

Section Tau.
Variables (A : arith) (M : mats A) (mem : ball A -> C -> Prop).
Hypotheses (S : sound A mem) (T : msound A M mem).

Lemma bent_tab n m f i j : (i < n)%nat -> (j < m)%nat -> bent A (bmat_tab A n m f) i j = f i j.
Proof.
  intros Hi Hj. unfold bent, bmat_tab.
  rewrite (nth_indep (map (fun i => map (f i) (seq 0 m)) (seq 0 n)) [] (map (f n) (seq 0 m))) by (rewrite map_length, seq_length; exact Hi).
  rewrite (map_nth (fun i => map (f i) (seq 0 m)) (seq 0 n) n), seq_nth by exact Hi. cbn [Nat.add].
  rewrite (nth_indep _ (b_zero A) (f i m)) by (rewrite map_length, seq_length; exact Hj).
  rewrite (map_nth (f i) (seq 0 m) m), seq_nth by exact Hj. reflexivity.
Qed.
Lemma tab_enc n m F (f : nat -> nat -> C) : (forall i j, (i < n)%nat -> (j < m)%nat -> mem (F i j) (f i j)) -> enc mem n m (bmat_tab A n m F) f.
Proof. intros H i j Hi Hj. rewrite bent_tab by assumption. now apply H. Qed.
Lemma tab_encR n m F (f : nat -> nat -> R) : (forall i j, (i < n)%nat -> (j < m)%nat -> mem (F i j) (RtoC (f i j))) -> encR mem n m (bmat_tab A n m F) f.
Proof. intros H i j Hi Hj. rewrite bent_tab by assumption. now apply H. Qed.
Lemma add_encR p n m X Y x y : encR mem n m X x -> encR mem n m Y y ->
  encR mem n m (bmat_tab A n m (fun i j => b_add A p (bent A X i j) (bent A Y i j))) (fun i j => x i j + y i j).
Proof using S. intros HX HY. apply tab_encR. intros i j Hi Hj. rewrite RtoC_plus. apply (s_add A mem S); [now apply HX|now apply HY]. Qed.
Lemma sub_encR p n m X Y x y : encR mem n m X x -> encR mem n m Y y ->
  encR mem n m (bmat_tab A n m (fun i j => b_sub A p (bent A X i j) (bent A Y i j))) (fun i j => x i j - y i j).
Proof using S. intros HX HY. apply tab_encR. intros i j Hi Hj. rewrite RtoC_minus. apply (s_sub A mem S); [now apply HX|now apply HY]. Qed.

Lemma solve_real_ball p n m X A0 B0 Y a b : (m = 0 -> n = 0)%nat -> b_solve_real A M p n m X A0 B0 = Some Y -> enc mem n n A0 a -> enc mem n m B0 b ->
  nonsingular n a /\ exists x, enc mem n m Y x /\ solves n m a x b.
Proof using S T.
  intros Hnm. unfold b_solve_real. destruct ((n =? 0) || (m =? 0))%nat eqn:E0.
  - assert (n = 0)%nat as ->.
    { apply Bool.orb_true_iff in E0. destruct E0 as [E0|E0]; apply Nat.eqb_eq in E0; auto. }
    intros _ _ _. split; [intros v _ k Hk; lia|]. exists (fun _ _ => RtoC 0). split; intros i j Hi; lia.
  - intros HS HA HB.
    set (ar := fun i j => fst (a i j)). set (ai := fun i j => snd (a i j)). set (br := fun i j => fst (b i j)). set (bi := fun i j => snd (b i j)).
    assert (Ha : encR mem n n (bmat_tab A n n (fun i j => mt_re A M (bent A A0 i j))) ar) by (apply tab_encR; intros i j Hi Hj; apply (u_re A M mem T); now apply HA).
    assert (Hb : encR mem n n (bmat_tab A n n (fun i j => mt_im A M (bent A A0 i j))) ai) by (apply tab_encR; intros i j Hi Hj; apply (u_im A M mem T); now apply HA).
    assert (Hc : encR mem n m (bmat_tab A n m (fun i j => mt_re A M (bent A B0 i j))) br) by (apply tab_encR; intros i j Hi Hj; apply (u_re A M mem T); now apply HB).
    assert (Hd : encR mem n m (bmat_tab A n m (fun i j => mt_im A M (bent A B0 i j))) bi) by (apply tab_encR; intros i j Hi Hj; apply (u_im A M mem T); now apply HB).
    cbv zeta in HS. destruct (mt_lu A M p n (bmat_tab A n n (fun i j => mt_re A M (bent A A0 i j)))) as [lu|] eqn:El; [|discriminate].
    destruct (u_lu A M mem T _ _ _ _ _ El Ha) as [Inj Sol]. clear El.
    destruct (Sol m _ _ Hd) as (D & HD & SD). destruct (Sol n _ _ Hb) as (t & Ht & St). clear Sol.
    revert HS HD Ht.
    generalize (mt_lu_solve A M p n m lu (bmat_tab A n m (fun i j => mt_im A M (bent A B0 i j)))).
    generalize (mt_lu_solve A M p n n lu (bmat_tab A n n (fun i j => mt_im A M (bent A A0 i j)))).
    intros BT BD HS HD Ht.
    pose proof (u_mul A M mem T p n n m _ _ _ _ Hb HD) as HbD.
    pose proof (u_mul A M mem T p n n n _ _ _ _ Hb Ht) as HbT.
    pose proof (add_encR p n m _ _ _ _ Hc HbD) as Hc'. cbn beta in Hc'.
    pose proof (add_encR p n n _ _ _ _ Ha HbT) as Ha'. cbn beta in Ha'.
    clear HbD HbT.
    match type of HS with (match ?e with _ => _ end = _) => destruct e as [lu'|] eqn:El; [|discriminate] end.
    destruct (u_lu A M mem T _ _ _ _ _ El Ha') as [Inj' Sol]. clear El.
    destruct (Sol m _ _ Hc') as (x & Hx & Sx). clear Sol.
    pose proof (u_mul A M mem T p n n m _ _ _ _ Ht Hx) as Htx.
    pose proof (sub_encR p n m _ _ _ _ HD Htx) as Hy. cbn beta in Hy.
    injection HS as <-.
    split.
    + intros v Hv k Hk.
      assert (R1 : forall i, (i < n)%nat -> sumR n (fun k => ar i k * fst (v k)) = sumR n (fun k => ai i k * snd (v k))).
      { intros i Hi. specialize (Hv i Hi). rewrite sumC_parts in Hv. apply (f_equal fst) in Hv. cbn in Hv. rewrite sumR_minus in Hv. unfold ar, ai. lra. }
      assert (R2 : forall i, (i < n)%nat -> sumR n (fun k => ai i k * fst (v k)) = - sumR n (fun k => ar i k * snd (v k))).
      { intros i Hi. specialize (Hv i Hi). rewrite sumC_parts in Hv. apply (f_equal snd) in Hv. cbn in Hv. rewrite sumR_plus in Hv. unfold ar, ai. lra. }
      assert (Y : forall k, (k < n)%nat -> snd (v k) + sumR n (fun l => t k l * fst (v l)) = 0).
      { apply (Inj (fun k => snd (v k) + sumR n (fun l => t k l * fst (v l)))). intros i Hi.
        rewrite (sumR_ext n _ (fun k => ar i k * snd (v k) + ar i k * sumR n (fun l => t k l * fst (v l)))) by (intros; ring).
        rewrite sumR_plus, prod_assoc.
        rewrite (sumR_ext n (fun l => sumR n (fun k => ar i k * t k l) * fst (v l)) (fun l => ai i l * fst (v l))).
        - rewrite (R2 i Hi). ring.
        - intros l Hl. now rewrite (St i l Hi Hl). }
      assert (X0 : forall k, (k < n)%nat -> fst (v k) = 0).
      { apply (Inj' (fun k => fst (v k))). intros i Hi.
        rewrite (sumR_ext n _ (fun k => ar i k * fst (v k) + sumR n (fun l => ai i l * t l k) * fst (v k))) by (intros; ring).
        rewrite sumR_plus, <- prod_assoc, (R1 i Hi), <- sumR_plus. apply sumR_zero. intros l Hl.
        specialize (Y l Hl). replace (snd (v l)) with (- sumR n (fun k => t l k * fst (v k))) by lra. ring. }
      assert (Y0 : snd (v k) = 0).
      { specialize (Y k Hk). rewrite (sumR_zero n (fun l => t k l * fst (v l))) in Y; [lra|]. intros l Hl. rewrite (X0 l Hl). ring. }
      rewrite (surjective_pairing (v k)), (X0 k Hk), Y0. reflexivity.
    + exists (fun i j => (x i j, D i j - sumR n (fun l => t i l * x l j))). split.
      * apply tab_enc. intros i j Hi Hj. apply (u_join A M mem T); [exact (Hx i j Hi Hj)|exact (Hy i j Hi Hj)].
      * intros i j Hi Hj. specialize (Sx i j Hi Hj). pose proof (SD i j Hi Hj) as Di.
        set (y := fun k => D k j - sumR n (fun l => t k l * x l j)).
        assert (Ry : sumR n (fun k => ai i k * y k) = sumR n (fun k => ai i k * D k j) - sumR n (fun l => sumR n (fun k => ai i k * t k l) * x l j)).
        { rewrite <- (prod_assoc n ai t (fun l => x l j) i), <- sumR_minus. apply sumR_ext. intros k Hk. unfold y. ring. }
        assert (Iy : sumR n (fun k => ar i k * y k) = bi i j - sumR n (fun l => ai i l * x l j)).
        { rewrite <- Di. rewrite (sumR_ext n (fun l => ai i l * x l j) (fun l => sumR n (fun k => ar i k * t k l) * x l j)).
          - rewrite <- (prod_assoc n ar t (fun l => x l j) i), <- sumR_minus. apply sumR_ext. intros k Hk. unfold y. ring.
          - intros l Hl. now rewrite (St i l Hi Hl). }
        assert (Ex : sumR n (fun k => ar i k * x k j) + sumR n (fun l => sumR n (fun k => ai i k * t k l) * x l j) = br i j + sumR n (fun l => ai i l * D l j)).
        { rewrite <- Sx, <- sumR_plus. apply sumR_ext. intros. ring. }
        rewrite sumC_parts. rewrite (surjective_pairing (b i j)). apply injective_projections; cbn [fst snd Cmult].
        -- change (sumR n (fun k => ar i k * x k j - ai i k * y k) = br i j). rewrite sumR_minus, Ry. lra.
        -- change (sumR n (fun k => ar i k * y k + ai i k * x k j) = bi i j). rewrite sumR_plus, Iy. lra.
Qed.

Lemma times_i_enc p n m X x : enc mem n m X x -> enc mem n m (bmat_tab A n m (fun i j => b_mul A p (bent A X i j) (mt_onei A M))) (fun i j => x i j * (0, 1))%C.
Proof using S T. intro HX. apply tab_enc. intros i j Hi Hj. apply (s_mul A mem S); [now apply HX|exact (u_onei A M mem T)]. Qed.
Lemma times_i_sum n (a : nat -> C) (v : nat -> C) : sumC n (fun k => a k * (0, 1) * v k)%C = (sumC n (fun k => a k * v k) * (0, 1))%C.
Proof. induction n as [|n IH]; cbn [sumC]; [ring|]. rewrite IH. ring. Qed.
Lemma i_cancel (z w : C) : (z * (0, 1) = w * (0, 1))%C -> z = w.
Proof. destruct z as [a b], w as [c d]. intro H. injection H. intros. apply injective_projections; cbn; lra. Qed.

(** the matrix returned by one of the first three strategies encloses the solution *)
Theorem multi_ball p rf n m X A0 B0 Y a b : (m = 0 -> n = 0)%nat ->
  b_solve_multi A M p rf n m X A0 B0 = Done Y ->
  (mt_solve A M p n m A0 B0 <> None \/ b_solve_real A M p n m X A0 B0 <> None \/
   b_solve_real A M p n m X (bmat_tab A n n (fun i j => b_mul A p (bent A A0 i j) (mt_onei A M))) (bmat_tab A n m (fun i j => b_mul A p (bent A B0 i j) (mt_onei A M))) <> None) ->
  enc mem n n A0 a -> enc mem n m B0 b ->
  nonsingular n a /\ exists x, enc mem n m Y x /\ solves n m a x b.
Proof using S T.
  intros Hnm HS Hs HA HB. unfold b_solve_multi in HS.
  destruct (mt_solve A M p n m A0 B0) as [Y1|] eqn:E1.
  - injection HS as <-. destruct m as [|m].
    + rewrite (Hnm eq_refl). split; [intros v _ k Hk; lia|]. exists (fun _ _ => RtoC 0). split; intros i j Hi; lia.
    + eapply (u_solve A M mem T); [lia|exact E1|exact HA|exact HB].
  - destruct (b_has0 A (mt_det A M p n A0)); [discriminate|].
    destruct (b_solve_real A M p n m X A0 B0) as [Y1|] eqn:E2.
    + injection HS as <-. exact (solve_real_ball p n m X A0 B0 Y1 a b Hnm E2 HA HB).
    + cbv zeta in HS. match type of HS with (match ?e with _ => _ end = _) => destruct e as [Y1|] eqn:E3 end.
      * injection HS as <-.
        destruct (solve_real_ball p n m X _ _ Y1 _ _ Hnm E3 (times_i_enc p n n A0 a HA) (times_i_enc p n m B0 b HB)) as [N (x & Hx & Sx)].
        split.
        -- intros v Hv. apply N. intros i Hi. rewrite (times_i_sum n (a i) v), (Hv i Hi). ring.
        -- exists x. split; [exact Hx|]. intros i j Hi Hj. specialize (Sx i j Hi Hj). cbn beta in Sx.
           rewrite (times_i_sum n (a i) (fun k => x k j)) in Sx. now apply i_cancel.
      * exfalso. destruct Hs as [H|[H|H]]; apply H; reflexivity.
Qed.
End Tau.

(** two solutions are equal *)
Lemma solves_unique n m a x x' b : nonsingular n a -> solves n m a x b -> solves n m a x' b ->
  forall i j, (i < n)%nat -> (j < m)%nat -> x i j = x' i j.
Proof.
  intros N H H' i j Hi Hj.
  assert (D : (x i j - x' i j)%C = RtoC 0).
  { apply (N (fun k => x k j - x' k j)%C); [|exact Hi]. intros l Hl.
    transitivity (sumC n (fun k => a l k * x k j) - sumC n (fun k => a l k * x' k j))%C.
    - clear. induction n as [|n IH]; cbn [sumC]; [ring|]. rewrite IH. ring.
    - rewrite (H l j Hl Hj), (H' l j Hl Hj). ring. }
  replace (x i j) with (x' i j + (x i j - x' i j))%C by ring. rewrite D. ring.
Qed.
