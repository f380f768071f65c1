(** The intersection numbers of a tree of edges as the form of its planar positions. *)
From Verif Require Import Base ModelTree ModelInter SpecTree SpecInter ModelSymp SpecSymp ProofSympRank ProofLat1 ProofLat2 ProofLat5.

Section Number.
Context (m : nat).
Hypothesis Hm : (2 <= m)%nat.
Notation zm := (Z.of_nat m).

Lemma zind_shift x y : (zm | x - y) -> zind m x = zind m y.
Proof.
  intros [q E]. unfold zind. replace x with (y + q * zm) by lia. rewrite Z_mod_plus_full. reflexivity.
Qed.
Lemma zind_opp x : zind m (- x) = zind m x.
Proof.
  unfold zind. f_equal. destruct (Z.eqb_spec (x mod zm) 0) as [E|E].
  - apply Z.mod_divide in E; [|lia]. apply Z.eqb_eq. apply Z.mod_divide; [lia|]. apply Z.divide_opp_r, E.
  - apply Z.eqb_neq. intros E'. apply E. apply Z.mod_divide in E'; [|lia]. apply Z.mod_divide; [lia|].
    apply Z.divide_opp_r in E'. rewrite Z.opp_involutive in E'. exact E'.
Qed.
Lemma number_zind sp sm d : ~ (zm | sp - sm) -> number zm sp sm d = zind m (d - sp) - zind m (d - sm).
Proof.
  intros H. unfold number, zind, ind. destruct (Z.eqb_spec ((d - sp) mod zm) 0) as [E1|E1].
  - destruct (Z.eqb_spec ((d - sm) mod zm) 0) as [E2|E2]; [|lia]. exfalso. apply H.
    apply Z.mod_divide in E1; [|lia]. apply Z.mod_divide in E2; [|lia].
    replace (sp - sm) with ((d - sm) - (d - sp)) by ring. apply Z.divide_sub_r; assumption.
  - destruct (Z.eqb_spec ((d - sm) mod zm) 0); reflexivity.
Qed.
Lemma not_div_1 : ~ (zm | 1).
Proof. intros H. apply Z.divide_pos_le in H; lia. Qed.
Lemma number_before s d : number zm (- s) (-1 - s) d = - dif m (d + s + 1).
Proof.
  rewrite number_zind; [unfold dif|replace (- s - (-1 - s)) with 1 by ring; apply not_div_1].
  replace (d - - s) with (d + s + 1 - 1) by ring. replace (d - (-1 - s)) with (d + s + 1) by ring. ring.
Qed.
Lemma number_after s d : number zm (1 - s) (- s) d = - dif m (d + s).
Proof.
  rewrite number_zind; [unfold dif|replace (1 - s - - s) with 1 by ring; apply not_div_1].
  replace (d - (1 - s)) with (d + s - 1) by ring. replace (d - - s) with (d + s) by ring. ring.
Qed.
Lemma number_child s d : number zm (- s) (1 - s) d = dif m (d + s).
Proof.
  rewrite number_zind; [unfold dif|].
  - replace (d - - s) with (d + s) by ring. replace (d - (1 - s)) with (d + s - 1) by ring. ring.
  - replace (- s - (1 - s)) with (-1) by ring. intros H. apply Z.divide_opp_r in H. apply not_div_1, H.
Qed.
Lemma number_self u v : 0 <= u < zm - 1 -> 0 <= v < zm - 1 ->
  number zm 1 (-1) (v - u) = - dif m (v - u) - dif m (v - u + 1).
Proof.
  intros Hu Hv. destruct (Nat.eq_dec m 2) as [E|Hne].
  - assert (u = 0) by lia. assert (v = 0) by lia. subst u v. rewrite E. reflexivity.
  - rewrite number_zind; [unfold dif|].
    + replace (v - u + 1 - 1) with (v - u) by ring. replace (v - u - -1) with (v - u + 1) by ring. ring.
    + intros H. apply Z.divide_pos_le in H; lia.
Qed.
Lemma dif_shift x y : (zm | x - y) -> dif m x = dif m y.
Proof.
  intros H. unfold dif. rewrite (zind_shift x y H). f_equal. apply zind_shift.
  replace (x - 1 - (y - 1)) with (x - y) by ring. exact H.
Qed.
Lemma dif_opp x : dif m (- x) = - dif m (x + 1).
Proof.
  unfold dif. rewrite zind_opp. replace (- x - 1) with (- (x + 1)) by ring. rewrite zind_opp.
  replace (x + 1 - 1) with x by ring. ring.
Qed.
End Number.

Section Tree.
Context (m : nat) (es : list edge) (neg : nat -> nat -> bool) (s : nat -> nat -> Z).
Hypothesis Hm : (2 <= m)%nat.
Let n := length es.
Notation e k := (nth k es no_edge).
Notation zm := (Z.of_nat m).

(** point of the tree: 0 is the root, k+1 the end of edge k *)
Definition vtx (v : nat) : nat := match v with O => ea (e 0) | S k => eb (e k) end.
Definition par (k : nat) : nat :=
  match find (fun v => vtx v =? ea (e k))%nat (seq 0 (S k)) with Some v => v | None => 0%nat end.

Hypothesis Hgrow : growing es.

Lemma split_at k : (k < n)%nat -> exists l1 l2, es = l1 ++ e k :: l2 /\ length l1 = k /\ l1 = firstn k es.
Proof.
  intros Hk. destruct (nth_split es no_edge Hk) as (l1 & l2 & E & Hl). exists l1, l2. conj; [exact E|exact Hl|].
  rewrite E, <- Hl. rewrite firstn_app, firstn_all, Nat.sub_diag. cbn. rewrite app_nil_r. reflexivity.
Qed.
Lemma in_first k j : (j < k)%nat -> (k <= n)%nat -> In (e j) (firstn k es).
Proof.
  intros Hj Hk. rewrite <- (firstn_skipn k es) at 1. rewrite app_nth1; [apply nth_In|]; rewrite firstn_length; fold n; lia.
Qed.
Lemma first_in k x : In x (firstn k es) -> exists j, (j < k)%nat /\ (j < n)%nat /\ x = e j.
Proof.
  intros H. destruct (In_nth _ _ no_edge H) as (j & Hj & E). rewrite firstn_length in Hj. fold n in Hj.
  exists j. conj; [lia|lia|]. rewrite <- E. rewrite <- (firstn_skipn k es) at 2. rewrite app_nth1; [reflexivity|].
  rewrite firstn_length. fold n. lia.
Qed.
Lemma end_new k j : (k < n)%nat -> (j < k)%nat -> eb (e k) <> eb (e j) /\ eb (e k) <> ea (e j).
Proof.
  intros Hk Hj. destruct (split_at k Hk) as (l1 & l2 & E & Hl & El). destruct (Hgrow l1 (e k) l2 E) as (_ & Ht & _).
  split; intros H; apply Ht; exists (e j); rewrite El; split; try (apply in_first; lia); auto.
Qed.
Lemma edge_neq k : (k < n)%nat -> ea (e k) <> eb (e k).
Proof. intros Hk. destruct (split_at k Hk) as (l1 & l2 & E & _). apply (Hgrow l1 (e k) l2 E). Qed.
Lemma start_old k : (k < n)%nat -> exists v, (v <= k)%nat /\ vtx v = ea (e k).
Proof.
  intros Hk. induction k as [k IH] using lt_wf_ind. destruct k as [|k]; [exists 0%nat; split; [lia|reflexivity]|].
  destruct (split_at (S k) Hk) as (l1 & l2 & E & Hl & El). destruct (Hgrow l1 (e (S k)) l2 E) as (_ & _ & Ht).
  destruct Ht as (x & Hx & Hx'). { intros Hn. subst l1. rewrite Hn in Hl. discriminate. }
  rewrite El in Hx. destruct (first_in _ _ Hx) as (j & Hj & Hjn & ->). destruct Hx' as [H|H].
  - destruct (IH j Hj Hjn) as (v & Hv & Ev). exists v. split; [lia|]. rewrite Ev. exact H.
  - exists (S j). split; [lia|exact H].
Qed.
Lemma par_spec k : (k < n)%nat -> (par k <= k)%nat /\ vtx (par k) = ea (e k).
Proof.
  intros Hk. unfold par. destruct (find _ _) as [v|] eqn:E.
  - apply find_some in E. destruct E as [Hin E]. apply in_seq in Hin. apply Nat.eqb_eq in E. split; [lia|exact E].
  - exfalso. destruct (start_old k Hk) as (v & Hv & Ev). pose proof (find_none _ _ E v) as H. cbn beta in H.
    rewrite Ev, Nat.eqb_refl in H. assert (true = false) by (apply H, in_seq; lia). discriminate.
Qed.
Lemma vtx_inj v w : (v <= n)%nat -> (w <= n)%nat -> vtx v = vtx w -> v = w.
Proof.
  assert (H0 : forall k, (k < n)%nat -> ea (e 0) <> eb (e k)).
  { intros k Hk. destruct k as [|k]; [apply edge_neq, Hk|]. intros H. apply (end_new (S k) 0 Hk); [lia|]. symmetry. exact H. }
  destruct v as [|v]; destruct w as [|w]; cbn [vtx]; intros Hv Hw E.
  - reflexivity.
  - exfalso. apply (H0 w); [lia|exact E].
  - exfalso. apply (H0 v); [lia|symmetry; exact E].
  - f_equal. destruct (Nat.lt_trichotomy v w) as [H|[H|H]]; [|exact H|].
    + exfalso. destruct (end_new w v ltac:(lia) H) as [H1 _]. apply H1. symmetry. exact E.
    + exfalso. destruct (end_new v w ltac:(lia) H) as [H1 _]. apply H1. exact E.
Qed.
Lemma par_le k : (k < n)%nat -> (par k <= k)%nat.
Proof. intros Hk. apply (par_spec k Hk). Qed.
Lemma par_start k l : (k < n)%nat -> (l < n)%nat -> (ea (e k) = ea (e l) <-> par k = par l).
Proof.
  intros Hk Hl. destruct (par_spec k Hk) as [Pk Vk]. destruct (par_spec l Hl) as [Pl Vl]. split; intros E.
  - apply vtx_inj; [lia|lia|congruence].
  - rewrite <- Vk, <- Vl, E. reflexivity.
Qed.
Lemma par_end k l : (k < n)%nat -> (l < n)%nat -> (ea (e l) = eb (e k) <-> par l = S k).
Proof.
  intros Hk Hl. destruct (par_spec l Hl) as [Pl Vl]. split; intros E.
  - apply vtx_inj; [lia|lia|]. rewrite Vl, E. reflexivity.
  - rewrite <- Vl, E. reflexivity.
Qed.

Context (bf : nat -> nat -> bool) (G : nat -> Z).
Hypothesis bf_irr : forall x, bf x x = false.
Hypothesis bf_trans : forall x y z, bf x y = true -> bf y z = true -> bf x z = true.
Hypothesis bf_total : forall x y, x <> y -> bf x y = true \/ bf y x = true.
Hypothesis HS : forall k l, (k < l < n)%nat -> par k = par l -> 
  (bf k l = true /\ ((neg k l = true /\ (zm | s k l - (G l - G k))) \/ (neg k l = false /\ (zm | s k l - (G l - G k + 1))))) \/
  (bf l k = true /\ ((neg k l = false /\ (zm | s k l - (G l - G k))) \/ (neg k l = true /\ (zm | s k l - (G l - G k - 1))))).
Hypothesis HE : forall k l, (k < l < n)%nat -> par l = S k -> (zm | s k l - (G l - G k)).

Notation A := (pa bf n par).
Notation B := (pb bf n par).

Lemma table_pair k l u v : (k < l < n)%nat ->
  table zm (relative (neg k l) (e k) (e l)) (s k l) (v - Z.of_nat u) = pair A B G (cyc m A B G k u) l v.
Proof.
  intros Hkl. unfold relative.
  destruct (Nat.eqb_spec (ea (e l)) (ea (e k))) as [E1|E1]; [|destruct (Nat.eqb_spec (ea (e l)) (eb (e k))) as [E2|E2]].
  - symmetry in E1. apply par_start in E1; [|lia|lia].
    destruct (HS k l Hkl E1) as [[Hb [[Hn Hd]|[Hn Hd]]]|[Hb [[Hn Hd]|[Hn Hd]]]]; rewrite Hn; cbn [table].
    + rewrite number_before by exact Hm. rewrite (pair_before bf bf_irr bf_trans bf_total n par par_le m G Hm) by (assumption || lia).
      f_equal. apply (dif_shift m Hm). destruct Hd as [q Hq]. exists q. lia.
    + rewrite number_after by exact Hm. rewrite (pair_before bf bf_irr bf_trans bf_total n par par_le m G Hm) by (assumption || lia).
      f_equal. apply (dif_shift m Hm). destruct Hd as [q Hq]. exists q. lia.
    + rewrite number_after by exact Hm. rewrite (pair_after bf bf_irr bf_trans bf_total n par par_le m G Hm) by (assumption || lia).
      f_equal. apply (dif_shift m Hm). destruct Hd as [q Hq]. exists q. lia.
    + rewrite number_before by exact Hm. rewrite (pair_after bf bf_irr bf_trans bf_total n par par_le m G Hm) by (assumption || lia).
      f_equal. apply (dif_shift m Hm). destruct Hd as [q Hq]. exists q. lia.
  - apply par_end in E2; [|lia|lia]. cbn [table].
    rewrite number_child by exact Hm. rewrite (pair_child bf bf_irr bf_trans bf_total n par par_le m G Hm) by (assumption || lia).
    apply (dif_shift m Hm). destruct (HE k l Hkl E2) as [q Hq]. exists q. lia.
  - cbn [table]. symmetry. apply (pair_apart bf bf_irr bf_trans bf_total n par par_le m G Hm); try lia.
    + intros E. apply par_start in E; [|lia|lia]. congruence.
    + intros E. apply par_end in E; [|lia|lia]. congruence.
    + pose proof (par_le k ltac:(lia)). lia.
Qed.

Lemma intersection_pair k l u v : (k < n)%nat -> (l < n)%nat -> (u < m - 1)%nat -> (v < m - 1)%nat ->
  intersection zm es neg s k l (Z.of_nat u) (Z.of_nat v) = pair A B G (cyc m A B G k u) l (Z.of_nat v).
Proof.
  intros Hk Hl Hu Hv. unfold intersection.
  destruct (Nat.ltb_spec k l) as [H|H]; [apply table_pair; lia|].
  destruct (Nat.ltb_spec l k) as [H'|H'].
  - rewrite table_pair by lia. pose proof (par_le k Hk). pose proof (par_le l Hl).
    destruct (Nat.eq_dec (par l) (par k)) as [E1|E1].
    + destruct (bf_total k l ltac:(lia)) as [Hb|Hb].
      * rewrite (pair_after bf bf_irr bf_trans bf_total n par par_le m G Hm l) by (assumption || lia).
        rewrite (pair_before bf bf_irr bf_trans bf_total n par par_le m G Hm k) by (assumption || lia).
        rewrite <- dif_opp by exact Hm. rewrite Z.opp_involutive. f_equal. ring.
      * rewrite (pair_before bf bf_irr bf_trans bf_total n par par_le m G Hm l) by (assumption || lia).
        rewrite (pair_after bf bf_irr bf_trans bf_total n par par_le m G Hm k) by (assumption || lia).
        rewrite <- dif_opp by exact Hm.
        replace (- (Z.of_nat u + G k - Z.of_nat v - G l)) with (Z.of_nat v + G l - Z.of_nat u - G k) by ring. reflexivity.
    + destruct (Nat.eq_dec (par k) (S l)) as [E2|E2].
      * rewrite (pair_child bf bf_irr bf_trans bf_total n par par_le m G Hm l) by (assumption || lia).
        rewrite (pair_parent bf bf_irr bf_trans bf_total n par par_le m G Hm k) by (assumption || lia).
        replace (Z.of_nat u + G k - Z.of_nat v - G l) with (- (Z.of_nat v + G l - Z.of_nat u - G k)) by ring.
        rewrite dif_opp by exact Hm. ring.
      * rewrite !(pair_apart bf bf_irr bf_trans bf_total n par par_le m G Hm); try lia.
  - assert (k = l) by lia. subst l. rewrite (pair_self bf bf_irr bf_trans bf_total n par par_le m G Hm) by lia.
    apply number_self; lia.
Qed.
End Tree.
