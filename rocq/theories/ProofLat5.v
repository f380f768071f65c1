(** Planar position of the points of a rooted tree, and its form in terms of positions. *)
From Verif Require Import Base ModelSymp SpecSymp ProofSymp ProofSympMain ProofSympRank ProofLat1 ProofLat2.

Section Order.
Context (bf : nat -> nat -> bool).
Hypothesis bf_irr : forall x, bf x x = false.
Hypothesis bf_trans : forall x y z, bf x y = true -> bf y z = true -> bf x z = true.
Hypothesis bf_total : forall x y, x <> y -> bf x y = true \/ bf y x = true.

(** lexicographic order of the paths from the root *)
Fixpoint lexb (p q : list nat) : bool :=
  match p, q with
  | [], [] => false
  | [], _ :: _ => true
  | _ :: _, [] => false
  | x :: p, y :: q => if (x =? y)%nat then lexb p q else bf x y
  end.
Lemma lexb_irr p : lexb p p = false.
Proof. induction p as [|x p IH]; [reflexivity|]. cbn [lexb]. rewrite Nat.eqb_refl. exact IH. Qed.
Lemma bf_asym x y : bf x y = true -> bf y x = true -> False.
Proof. intros H1 H2. pose proof (bf_trans _ _ _ H1 H2) as H. rewrite bf_irr in H. discriminate. Qed.
Lemma lexb_trans : forall p q r, lexb p q = true -> lexb q r = true -> lexb p r = true.
Proof.
  induction p as [|x p IH]; intros [|y q] [|z r]; cbn [lexb]; try congruence.
  destruct (Nat.eqb_spec x y) as [->|Hxy]; destruct (Nat.eqb_spec y z) as [->|Hyz]; intros H1 H2.
  - apply (IH q); assumption.
  - exact H2.
  - destruct (Nat.eqb_spec x z); [contradiction|]. exact H1.
  - destruct (Nat.eqb_spec x z) as [->|]; [exfalso; apply (bf_asym z y); assumption|].
    apply (bf_trans x y z); assumption.
Qed.
Lemma lexb_total : forall p q, p <> q -> lexb p q = true \/ lexb q p = true.
Proof.
  induction p as [|x p IH]; intros [|y q] H; cbn [lexb]; [contradiction|auto|auto|].
  rewrite (Nat.eqb_sym y x). destruct (Nat.eqb_spec x y) as [->|Hne].
  - apply IH. congruence.
  - apply bf_total, Hne.
Qed.
Lemma lexb_child p k : lexb p (p ++ [k]) = true.
Proof. induction p as [|x p IH]; [reflexivity|]. cbn. rewrite Nat.eqb_refl. exact IH. Qed.
Lemma lexb_app p q r : lexb (p ++ q) (p ++ r) = lexb q r.
Proof. induction p as [|x p IH]; [reflexivity|]. cbn. rewrite Nat.eqb_refl. exact IH. Qed.
Lemma lexb_between : forall p k q, lexb p q = true -> lexb q (p ++ [k]) = true ->
  exists j q', q = p ++ j :: q' /\ bf j k = true /\ j <> k.
Proof.
  induction p as [|x p IH]; intros k [|y q]; cbn [lexb app]; try congruence.
  - intros _. destruct (Nat.eqb_spec y k) as [->|Hne]; [destruct q; discriminate|]. intros H. exists y, q. auto.
  - rewrite (Nat.eqb_sym y x). destruct (Nat.eqb_spec x y) as [->|Hne]; intros H1 H2.
    + destruct (IH k q H1 H2) as (j & q' & -> & Hj). exists j, q'. auto.
    + exfalso. apply (bf_asym x y); assumption.
Qed.
Lemma lexb_nocross p k q l : lexb p q = true -> lexb q (p ++ [k]) = true -> lexb (p ++ [k]) (q ++ [l]) = true -> False.
Proof.
  intros H1 H2 H3. destruct (lexb_between p k q H1 H2) as (j & q' & -> & Hj & Hne).
  rewrite <- app_assoc in H3. rewrite lexb_app in H3. cbn in H3.
  destruct (Nat.eqb_spec k j); [congruence|]. apply (bf_asym j k); assumption.
Qed.

(** a rooted tree: point 0 is the root, point k+1 is the end of edge k, which starts at par k *)
Context (n : nat) (par : nat -> nat).
Hypothesis Hpar : forall k, (k < n)%nat -> (par k <= k)%nat.

Fixpoint path_f (f v : nat) : list nat :=
  match f, v with
  | S f, S k => path_f f (par k) ++ [k]
  | _, _ => []
  end.
Definition path (v : nat) : list nat := path_f v v.
Lemma path_f_eq : forall f g v, (v <= f)%nat -> (v <= g)%nat -> (v <= n)%nat -> path_f f v = path_f g v.
Proof.
  induction f as [|f IH]; intros [|g] [|k] Hf Hg Hn; try lia; try reflexivity. cbn [path_f].
  pose proof (Hpar k ltac:(lia)). rewrite (IH g (par k)) by lia. reflexivity.
Qed.
Lemma path_S k : (k < n)%nat -> path (S k) = path (par k) ++ [k].
Proof.
  intros Hk. unfold path. cbn [path_f]. pose proof (Hpar k Hk). rewrite (path_f_eq k (par k)) by lia. reflexivity.
Qed.
Lemma path_inj v w : (v <= n)%nat -> (w <= n)%nat -> path v = path w -> v = w.
Proof.
  destruct v as [|v]; destruct w as [|w]; intros Hv Hw E; [reflexivity| | |].
  - rewrite path_S in E by lia. unfold path at 1 in E. cbn in E. destruct (path (par w)); discriminate.
  - rewrite path_S in E by lia. unfold path at 2 in E. cbn in E. destruct (path (par v)); discriminate.
  - rewrite !path_S in E by lia. apply app_inj_tail in E. f_equal. apply E.
Qed.

(** number of points before v *)
Definition pos (v : nat) : nat := length (filter (fun w => lexb (path w) (path v)) (seq 0 (S n))).

Lemma filter_le {T} (f g : T -> bool) l : (forall x, In x l -> f x = true -> g x = true) ->
  (length (filter f l) <= length (filter g l))%nat.
Proof.
  induction l as [|x l IH]; intros H; [reflexivity|]. cbn [filter].
  specialize (IH (fun y Hy => H y (or_intror Hy))). pose proof (H x (or_introl eq_refl)) as Hx.
  destruct (f x); [rewrite (Hx eq_refl); cbn [length]; lia|]. destruct (g x); cbn [length]; lia.
Qed.
Lemma filter_lt {T} (f g : T -> bool) l a : (forall x, In x l -> f x = true -> g x = true) ->
  In a l -> f a = false -> g a = true -> (length (filter f l) < length (filter g l))%nat.
Proof.
  induction l as [|x l IH]; intros H Ha Hf Hg; [contradiction|]. cbn [filter].
  pose proof (filter_le f g l (fun y Hy => H y (or_intror Hy))) as Hle. destruct Ha as [->|Ha].
  - rewrite Hf, Hg. cbn [length]. lia.
  - specialize (IH (fun y Hy => H y (or_intror Hy)) Ha Hf Hg). pose proof (H x (or_introl eq_refl)) as Hx.
    destruct (f x); [rewrite (Hx eq_refl); cbn [length]; lia|]. destruct (g x); cbn [length]; lia.
Qed.
Lemma pos_mono v w : (v <= n)%nat -> lexb (path v) (path w) = true -> (pos v < pos w)%nat.
Proof.
  intros Hv H. apply (filter_lt _ _ _ v).
  - intros x _ Hx. apply (lexb_trans _ (path v)); assumption.
  - apply in_seq. lia.
  - apply lexb_irr.
  - exact H.
Qed.
Lemma pos_cases v w : (v <= n)%nat -> (w <= n)%nat -> v <> w ->
  (lexb (path v) (path w) = true /\ (pos v < pos w)%nat) \/ (lexb (path w) (path v) = true /\ (pos w < pos v)%nat).
Proof.
  intros Hv Hw Hne. destruct (lexb_total (path v) (path w)) as [H|H].
  - intros E. apply Hne, path_inj; assumption.
  - left. split; [exact H|apply pos_mono; assumption].
  - right. split; [exact H|apply pos_mono; assumption].
Qed.
Lemma pos_lex v w : (v <= n)%nat -> (w <= n)%nat -> (pos v < pos w)%nat -> lexb (path v) (path w) = true.
Proof.
  intros Hv Hw H. destruct (Nat.eq_dec v w) as [->|Hne]; [lia|].
  destruct (pos_cases v w Hv Hw Hne) as [[E _]|[_ E]]; [exact E|lia].
Qed.
Lemma pos_inj v w : (v <= n)%nat -> (w <= n)%nat -> pos v = pos w -> v = w.
Proof.
  intros Hv Hw E. destruct (Nat.eq_dec v w) as [|Hne]; [assumption|].
  destruct (pos_cases v w Hv Hw Hne) as [[_ H]|[_ H]]; lia.
Qed.
Lemma pos_bound v : (v <= n)%nat -> (pos v < S n)%nat.
Proof.
  intros Hv. unfold pos.
  assert (H : (length (filter (fun w => lexb (path w) (path v)) (seq 0 (S n))) < length (filter (fun _ => true) (seq 0 (S n))))%nat).
  { apply (filter_lt _ _ _ v); [reflexivity|apply in_seq; lia|apply lexb_irr|reflexivity]. }
  assert (E : forall l : list nat, filter (fun _ => true) l = l).
  { induction l as [|x l IH]; [reflexivity|]. cbn. rewrite IH. reflexivity. }
  rewrite E, seq_length in H. exact H.
Qed.
Lemma pos_surj p : (p < S n)%nat -> exists v, (v <= n)%nat /\ p = pos v.
Proof.
  intros Hp. assert (H : incl (seq 0 (S n)) (map pos (seq 0 (S n)))).
  { apply NoDup_length_incl.
    - assert (HI : forall l, NoDup l -> (forall v, In v l -> (v <= n)%nat) -> NoDup (map pos l)).
      { induction l as [|x l IH]; intros Hn Hl; cbn [map]; constructor.
        - intros Hin. apply in_map_iff in Hin. destruct Hin as (y & Ey & Hy). inversion Hn as [|? ? Hx Hn' E]; subst.
          apply Hx. replace x with y; [exact Hy|]. apply pos_inj; [apply Hl; right; exact Hy|apply Hl; left; reflexivity|exact Ey].
        - inversion Hn; subst. apply IH; [assumption|]. intros v Hv. apply Hl. right. exact Hv. }
      apply HI; [apply seq_NoDup|]. intros v Hv. apply in_seq in Hv. lia.
    - rewrite map_length. reflexivity.
    - intros q Hq. apply in_map_iff in Hq. destruct Hq as (v & <- & Hv). apply in_seq in Hv. apply in_seq.
      pose proof (pos_bound v ltac:(lia)). lia. }
  specialize (H p). destruct (in_map_iff pos (seq 0 (S n)) p) as [Hi _].
  destruct Hi as (v & Ev & Hv). { apply H, in_seq. lia. }
  apply in_seq in Hv. exists v. split; [lia|symmetry; exact Ev].
Qed.

Definition pa (k : nat) : nat := pos (par k).
Definition pb (k : nat) : nat := pos (S k).

Lemma edge_up k : (k < n)%nat -> (pa k < pb k)%nat.
Proof.
  intros Hk. pose proof (Hpar k Hk). apply pos_mono; [lia|]. rewrite path_S by exact Hk. apply lexb_child.
Qed.
Lemma siblings k l : (k < n)%nat -> (l < n)%nat -> par k = par l -> bf k l = true -> (pb k < pb l)%nat.
Proof.
  intros Hk Hl E H. pose proof (Hpar k Hk). apply pos_mono; [lia|]. rewrite !path_S by assumption. rewrite E, lexb_app.
  cbn. destruct (Nat.eqb_spec k l) as [->|]; [rewrite bf_irr in H; discriminate|exact H].
Qed.
Lemma nocross k l : (k < n)%nat -> (l < n)%nat -> ~ (pa k < pa l < pb k /\ pb k < pb l)%nat.
Proof.
  intros Hk Hl [[H1 H2] H3]. pose proof (Hpar k Hk). pose proof (Hpar l Hl).
  apply pos_lex in H1; [|lia|lia]. apply pos_lex in H2; [|lia|lia]. apply pos_lex in H3; [|lia|lia].
  rewrite path_S in H2 by exact Hk. rewrite !path_S in H3 by assumption.
  apply (lexb_nocross _ _ _ _ H1 H2 H3).
Qed.
Lemma tree_grows : grows (S n) (pos 0) pa pb n.
Proof.
  intros k Hk. pose proof (Hpar k Hk) as Hp. conj.
  - apply pos_bound. lia.
  - apply pos_bound. lia.
  - unfold reach, pa. destruct (par k) as [|j] eqn:E; [left; reflexivity|]. right. exists j. split; [lia|reflexivity].
  - unfold reach, pb. intros [H|(j & Hj & H)]; apply pos_inj in H; lia.
Qed.
Lemma tree_reach p : (p < S n)%nat -> reach (pos 0) pb n p.
Proof.
  intros Hp. destruct (pos_surj p Hp) as ([|j] & Hv & ->); [left; reflexivity|]. right. exists j. split; [lia|reflexivity].
Qed.

(** ** the form *)
Context (m : nat) (G : nat -> Z).
Hypothesis Hm : (2 <= m)%nat.
Notation cy := (cyc m pa pb G).
Notation pr := (pair pa pb G).
Notation df := (dif m).

Lemma zsum_ind1 s a : zsum s (fun q => ind (q =? a)%nat) = ind (a <? s)%nat.
Proof.
  induction s as [|s IH]; [reflexivity|]. cbn [zsum]. rewrite IH. unfold ind.
  destruct (Nat.ltb_spec a s); destruct (Nat.eqb_spec s a); destruct (Nat.ltb_spec a (S s)); lia.
Qed.
Lemma psi_cyc k u p v : psi (cy k u) p v =
  (ind (pa k <? p)%nat - ind (pb k <? p)%nat) * df (v - Z.of_nat u - G k)
  - (ind (pa k <? S p)%nat - ind (pb k <? S p)%nat) * df (v - Z.of_nat u - G k + 1).
Proof.
  unfold psi, cyc. rewrite !zsum_scal_r. f_equal.
  - f_equal. unfold inc. rewrite zsum_sub, !zsum_ind1. reflexivity.
  - f_equal; [|f_equal; ring]. unfold inc. rewrite zsum_sub, !zsum_ind1. reflexivity.
Qed.
Lemma pair_cyc k u l v : pr (cy k u) l v =
  let x := v + G l - Z.of_nat u - G k in
  ((ind (pa k <? pa l)%nat - ind (pb k <? pa l)%nat) - (ind (pa k <? pb l)%nat - ind (pb k <? pb l)%nat)) * df x
  - ((ind (pa k <? S (pa l))%nat - ind (pb k <? S (pa l))%nat) - (ind (pa k <? S (pb l))%nat - ind (pb k <? S (pb l))%nat)) * df (x + 1).
Proof. unfold pair. rewrite !psi_cyc. cbv zeta. ring. Qed.

Ltac cases := unfold ind; repeat match goal with |- context [(?a <? ?b)%nat] => destruct (Nat.ltb_spec a b) end; try lia.

Lemma pair_apart k u l v : (k < n)%nat -> (l < n)%nat -> k <> l -> par k <> par l -> par l <> S k -> par k <> S l ->
  pr (cy k u) l v = 0.
Proof.
  intros Hk Hl Hne H1 H2 H3. rewrite pair_cyc. cbv zeta. pose proof (Hpar k Hk). pose proof (Hpar l Hl).
  pose proof (edge_up k Hk). pose proof (edge_up l Hl). pose proof (nocross k l Hk Hl). pose proof (nocross l k Hl Hk).
  assert (pa k <> pa l) by (intros E; apply pos_inj in E; lia).
  assert (pa k <> pb l) by (intros E; apply pos_inj in E; lia).
  assert (pb k <> pa l) by (intros E; apply pos_inj in E; lia).
  assert (pb k <> pb l) by (intros E; apply pos_inj in E; lia).
  cases.
Qed.
Lemma pair_before k u l v : (k < n)%nat -> (l < n)%nat -> par k = par l -> bf k l = true ->
  pr (cy k u) l v = - df (v + G l - Z.of_nat u - G k + 1).
Proof.
  intros Hk Hl E H. rewrite pair_cyc. cbv zeta. pose proof (edge_up k Hk). pose proof (edge_up l Hl).
  pose proof (siblings k l Hk Hl E H). assert (pa k = pa l) by (unfold pa; congruence). cases.
Qed.
Lemma pair_after k u l v : (k < n)%nat -> (l < n)%nat -> par k = par l -> bf l k = true ->
  pr (cy k u) l v = - df (v + G l - Z.of_nat u - G k).
Proof.
  intros Hk Hl E H. rewrite pair_cyc. cbv zeta. pose proof (edge_up k Hk). pose proof (edge_up l Hl).
  pose proof (siblings l k Hl Hk (eq_sym E) H). assert (pa k = pa l) by (unfold pa; congruence). cases.
Qed.
Lemma pair_child k u l v : (k < n)%nat -> (l < n)%nat -> par l = S k -> pr (cy k u) l v = df (v + G l - Z.of_nat u - G k).
Proof.
  intros Hk Hl E. rewrite pair_cyc. cbv zeta. pose proof (edge_up k Hk). pose proof (edge_up l Hl).
  assert (pa l = pb k) by (unfold pa, pb; congruence). cases.
Qed.
Lemma pair_parent k u l v : (k < n)%nat -> (l < n)%nat -> par k = S l -> pr (cy k u) l v = df (v + G l - Z.of_nat u - G k + 1).
Proof.
  intros Hk Hl E. rewrite pair_cyc. cbv zeta. pose proof (edge_up k Hk). pose proof (edge_up l Hl).
  assert (pa k = pb l) by (unfold pa, pb; congruence). cases.
Qed.
Lemma pair_self k u v : (k < n)%nat -> pr (cy k u) k v = - df (v - Z.of_nat u) - df (v - Z.of_nat u + 1).
Proof.
  intros Hk. rewrite pair_cyc. cbv zeta. pose proof (edge_up k Hk).
  replace (v + G k - Z.of_nat u - G k) with (v - Z.of_nat u) by ring. cases.
Qed.
End Order.
