(** Forms on the edges of a plane tree: every set of edges either has a chain in its radical or is
    saturated. *)
From Verif Require Import Base ModelSymp SpecSymp ProofSymp ProofSympRank.

Section Forms.
Context (r : nat) (K : nat -> nat -> Z).
Definition Bk (x : nat -> Z) (t : nat) : Z := zsum r (fun i => x i * K i t).
Definition supp (S : list nat) (x : nat -> Z) : Prop := forall i, ~ In i S -> x i = 0.
Definition degenerate (S : list nat) : Prop := exists x, supp S x /\ (exists i, x i <> 0) /\ forall t, In t S -> Bk x t = 0.
Definition saturated (S : list nat) : Prop := forall N x, supp S x -> (forall t, In t S -> (N | Bk x t)) -> forall i, (N | x i).

Hypothesis KA : forall i j, (i < r)%nat -> (j < r)%nat -> K i j = - K j i.

Lemma Bk_add x y c t : Bk (fun i => x i + c * y i) t = Bk x t + c * Bk y t.
Proof using. unfold Bk. rewrite <- zsum_scal, <- zsum_add. apply zsum_ext. intros; ring. Qed.
Lemma Bk_ext x y t : (forall i, (i < r)%nat -> x i = y i) -> Bk x t = Bk y t.
Proof using. intros H. unfold Bk. apply zsum_ext. intros i Hi. rewrite H by exact Hi. reflexivity. Qed.
Lemma Bk_unit e t : (e < r)%nat -> Bk (fun i => delta i e) t = K e t.
Proof using.
  intros He. unfold Bk. rewrite (zsum_ext r _ (fun i => K i t * delta i e)) by (intros; ring). apply (zsum_delta_r r e (fun i => K i t) He).
Qed.
Lemma Bk_div N x t : (forall i, (N | x i)) -> (N | Bk x t).
Proof using.
  intros H. unfold Bk. clear KA. induction r as [|k IH]; cbn [zsum]; [apply Z.divide_0_r|]. apply Z.divide_add_r; [exact IH|]. apply Z.divide_mul_l, H.
Qed.

Lemma Kdiag i : (i < r)%nat -> K i i = 0.
Proof using KA. intros Hi. pose proof (KA i i Hi Hi). lia. Qed.

Section Split.
Context (S : list nat) (e f : nat) (sg eta : Z).
Let S' := filter (fun t => negb ((t =? e) || (t =? f))%nat) S.
Hypothesis HS : forall i, In i S -> (i < r)%nat.
Hypothesis Ie : In e S.
Hypothesis If : In f S.
Hypothesis Nef : e <> f.
Hypothesis Heta : eta * eta = 1.
Hypothesis Kef : K e f = eta.
Hypothesis Ku : forall t, In t S -> t <> e -> t <> f -> K e t - sg * K f t = 0.
Let u i := delta i e - sg * delta i f.

Lemma in_S' t : In t S' <-> In t S /\ t <> e /\ t <> f.
Proof using.
  unfold S'. rewrite filter_In. split.
  - intros [H1 H2]. destruct (Nat.eqb_spec t e); [discriminate|]. destruct (Nat.eqb_spec t f); [discriminate|]. auto.
  - intros (H1 & H2 & H3). split; [exact H1|]. destruct (Nat.eqb_spec t e); [contradiction|]. destruct (Nat.eqb_spec t f); [contradiction|reflexivity].
Qed.
Lemma Bu t : Bk u t = K e t - sg * K f t.
Proof using HS Ie If.
  unfold u. rewrite (Bk_ext _ (fun i => delta i e + (- sg) * delta i f)) by (intros; ring). rewrite Bk_add, !Bk_unit by auto. ring.
Qed.
Lemma Bu_e : Bk u e = sg * eta.
Proof using All. rewrite Bu, Kdiag, (KA f e) by auto. rewrite Kef. ring. Qed.
Lemma Bu_f : Bk u f = eta.
Proof using All. rewrite Bu, (Kdiag f) by auto. rewrite Kef. ring. Qed.
(** pairing with u *)
Lemma pair_u x : supp S x -> Bk x e - sg * Bk x f = - (x e * (sg * eta) + x f * eta).
Proof using All.
  intros Hx. assert (E : Bk x e - sg * Bk x f = zsum r (fun i => - (x e * (sg * eta)) * delta i e + (- (x f * eta)) * delta i f)).
  { unfold Bk. rewrite <- zsum_scal. replace (zsum r (fun i => x i * K i e) - zsum r (fun k => sg * (x k * K k f))) with (zsum r (fun i => x i * K i e) + (-1) * zsum r (fun k => sg * (x k * K k f))) by ring.
    rewrite <- zsum_scal, <- zsum_add. apply zsum_ext. intros i Hi.
    destruct (in_dec Nat.eq_dec i S) as [I|I].
    - assert (B : K i e - sg * K i f = - Bk u i). { rewrite Bu, (KA i e), (KA i f) by auto. ring. }
      replace (x i * K i e + -1 * (sg * (x i * K i f))) with (x i * (K i e - sg * K i f)) by ring. rewrite B.
      unfold delta. destruct (Nat.eqb_spec i e) as [->|Ne].
      + rewrite Bu_e. destruct (Nat.eqb_spec e f); [contradiction|]. ring.
      + destruct (Nat.eqb_spec i f) as [->|Nf]; [rewrite Bu_f; ring|]. rewrite Bu, Ku by auto. ring.
    - rewrite (Hx i I). unfold delta. destruct (Nat.eqb_spec i e) as [->|]; [contradiction|]. destruct (Nat.eqb_spec i f) as [->|]; [contradiction|]. ring. }
  rewrite E. rewrite zsum_add. rewrite (zsum_delta_r r e (fun _ => - (x e * (sg * eta)))) by auto. rewrite (zsum_delta_r r f (fun _ => - (x f * eta))) by auto. ring.
Qed.

Lemma split_degenerate : degenerate S' -> degenerate S.
Proof using All.
  intros (x & Hx & (i & Hi) & H0). set (al := - (eta * Bk x f)).
  assert (HxS : supp S x). { intros t Ht. apply Hx. intros T. apply in_S' in T. tauto. }
  assert (x e = 0) as Xe by (apply Hx; intros T; apply in_S' in T; tauto). assert (x f = 0) as Xf by (apply Hx; intros T; apply in_S' in T; tauto).
  pose proof (pair_u x HxS) as PU. rewrite Xe, Xf in PU.
  exists (fun i => x i + al * u i). split; [|split].
  - intros t Ht. rewrite HxS by exact Ht. unfold u, delta. destruct (Nat.eqb_spec t e) as [->|]; [contradiction|]. destruct (Nat.eqb_spec t f) as [->|]; [contradiction|]. ring.
  - exists i. assert (Ii : In i S'). { destruct (in_dec Nat.eq_dec i S') as [I|I]; [exact I|]. exfalso. apply Hi, Hx, I. }
    apply in_S' in Ii. destruct Ii as (_ & N1 & N2). unfold u, delta. destruct (Nat.eqb_spec i e); [contradiction|]. destruct (Nat.eqb_spec i f); [contradiction|]. replace (x i + al * (0 - sg * 0)) with (x i) by ring. exact Hi.
  - intros t Ht. rewrite Bk_add. destruct (Nat.eq_dec t e) as [->|N1].
    + rewrite Bu_e. unfold al. replace (Bk x e) with (sg * Bk x f) by lia. replace (sg * Bk x f + - (eta * Bk x f) * (sg * eta)) with (sg * Bk x f * (1 - eta * eta)) by ring. rewrite Heta. ring.
    + destruct (Nat.eq_dec t f) as [->|N2].
      * rewrite Bu_f. unfold al. replace (Bk x f + - (eta * Bk x f) * eta) with (Bk x f * (1 - eta * eta)) by ring. rewrite Heta. ring.
      * rewrite H0 by (apply in_S'; auto). rewrite Bu, Ku by auto. ring.
Qed.

Lemma split_saturated : saturated S' -> saturated S.
Proof using All.
  intros HS' N x Hx HN. pose proof (pair_u x Hx) as PU. set (be := x f + sg * x e).
  assert (Hbe : (N | be)).
  { replace be with (- eta * (Bk x e - sg * Bk x f)).
    - apply Z.divide_mul_r, Z.divide_sub_r; [apply HN, Ie|apply Z.divide_mul_r, HN, If].
    - rewrite PU. unfold be. replace (- eta * - (x e * (sg * eta) + x f * eta)) with ((x f + sg * x e) * (eta * eta)) by ring. rewrite Heta. ring. }
  set (x' := fun i => if ((i =? e) || (i =? f))%nat then 0 else x i).
  assert (Dec : forall t, Bk x t = Bk x' t + x e * Bk u t + be * K f t).
  { intros t. rewrite <- (Bk_unit f t) by auto. rewrite <- !Bk_add. apply Bk_ext. intros i _. unfold x', u, be, delta.
    destruct (Nat.eqb_spec i e) as [E1|]; destruct (Nat.eqb_spec i f) as [E2|]; cbn [orb]; try (exfalso; congruence); try rewrite E1; try rewrite E2; ring. }
  assert (Hx' : supp S' x').
  { intros i Hi. unfold x'. destruct (Nat.eqb_spec i e); [reflexivity|]. destruct (Nat.eqb_spec i f); [reflexivity|]. cbn [orb]. apply Hx. intros I. apply Hi. apply in_S'. auto. }
  assert (D' : forall i, (N | x' i)).
  { apply HS'; [exact Hx'|]. intros t Ht. apply in_S' in Ht. destruct Ht as (T1 & T2 & T3).
    replace (Bk x' t) with (Bk x t - be * K f t). { apply Z.divide_sub_r; [apply HN, T1|apply Z.divide_mul_l, Hbe]. }
    rewrite Dec, Bu, Ku by auto. ring. }
  assert (De : (N | x e)).
  { replace (x e) with (eta * (Bk x f - Bk x' f)). { apply Z.divide_mul_r, Z.divide_sub_r; [apply HN, If|apply Bk_div, D']. }
    rewrite Dec, Bu_f, (Kdiag f) by auto. replace (eta * (Bk x' f + x e * eta + be * 0 - Bk x' f)) with (x e * (eta * eta)) by ring. rewrite Heta. ring. }
  intros i. destruct (Nat.eq_dec i e) as [->|N1]; [exact De|]. destruct (Nat.eq_dec i f) as [->|N2].
  - replace (x f) with (be - sg * x e) by (unfold be; ring). apply Z.divide_sub_r; [exact Hbe|apply Z.divide_mul_r, De].
  - specialize (D' i). unfold x' in D'. destruct (Nat.eqb_spec i e); [contradiction|]. destruct (Nat.eqb_spec i f); [contradiction|]. exact D'.
Qed.
Lemma split_length : (length S' < length S)%nat.
Proof using Ie.
  unfold S'. clear - Ie. induction S as [|a l IH]; [destruct Ie|]. cbn [filter length].
  assert (L : forall l : list nat, (length (filter (fun t => negb ((t =? e) || (t =? f))%nat) l) <= length l)%nat).
  { clear. induction l as [|b l IH]; [cbn; lia|]. cbn [filter length]. destruct (negb _); cbn [length]; lia. }
  specialize (L l).
  destruct (Nat.eqb_spec a e) as [->|Ne]; cbn [orb negb]; [lia|]. destruct Ie as [E|I]; [congruence|].
  specialize (IH I). destruct (negb (a =? f)%nat); cbn [length]; lia.
Qed.
End Split.

(** ** Trees *)
Section Tree.
Context (par : nat -> nat) (bf : nat -> nat -> Prop) (s : nat -> Z) (c c' : Z).
Hypothesis par_le : forall k, (k < r)%nat -> (par k <= k)%nat.
Hypothesis bf_trans : forall i j k, bf i j -> bf j k -> bf i k.
Hypothesis bf_total : forall i j, (i < r)%nat -> (j < r)%nat -> i <> j -> par i = par j -> bf i j \/ bf j i.
Hypothesis s_unit : forall k, s k * s k = 1.
Hypothesis c_unit : c * c = 1.
Hypothesis c'_unit : c' * c' = 1.
Hypothesis K_sib : forall k l, (k < r)%nat -> (l < r)%nat -> k <> l -> par k = par l -> bf k l -> K k l = c * (s k * s l).
Hypothesis K_child : forall k l, (k < r)%nat -> (l < r)%nat -> par k = S l -> K k l = c' * (s k * s l).
Hypothesis K_apart : forall k l, (k < r)%nat -> (l < r)%nat -> par k <> par l -> par k <> S l -> par l <> S k -> K k l = 0.

Lemma least (v : nat) (l : list nat) : l <> [] -> (forall i, In i l -> (i < r)%nat /\ par i = v) ->
  exists e, In e l /\ forall t, In t l -> t <> e -> bf e t.
Proof using bf_trans bf_total.
  induction l as [|a l IH]; [congruence|]. intros _ H. destruct l as [|b l].
  - exists a. split; [left; reflexivity|]. intros t [<-|[]] N. congruence.
  - destruct IH as (e & Ie & He); [discriminate|intros i Hi; apply H; right; exact Hi|].
    destruct (Nat.eq_dec a e) as [->|N].
    + exists e. split; [left; reflexivity|]. intros t [<-|It] Nt; [congruence|]. apply He; assumption.
    + destruct (H a (or_introl eq_refl)) as [Ra Pa]. destruct (H e (or_intror Ie)) as [Re Pe].
      destruct (bf_total a e Ra Re N) as [B|B]; [congruence| |].
      * exists a. split; [left; reflexivity|]. intros t [<-|It] Nt; [congruence|].
        destruct (Nat.eq_dec t e) as [->|N']; [exact B|]. apply (bf_trans a e t B), He; assumption.
      * exists e. split; [right; exact Ie|]. intros t [<-|It] Nt; [exact B|]. apply He; assumption.
Qed.
Lemma top (l : list nat) : l <> [] -> exists e, In e l /\ forall t, In t l -> (par t <= par e)%nat.
Proof using All.
  induction l as [|a l IH]; [congruence|]. intros _. destruct l as [|b l].
  - exists a. split; [left; reflexivity|]. intros t [<-|[]]. lia.
  - destruct IH as (e & Ie & He); [discriminate|]. destruct (Nat.le_gt_cases (par a) (par e)).
    + exists e. split; [right; exact Ie|]. intros t [<-|It]; [assumption|apply He, It].
    + exists a. split; [left; reflexivity|]. intros t [<-|It]; [lia|]. specialize (He t It). lia.
Qed.
Lemma unit_mul a b : a * a = 1 -> b * b = 1 -> (a * b) * (a * b) = 1.
Proof using. intros Ha Hb. replace (a * b * (a * b)) with ((a * a) * (b * b)) by ring. rewrite Ha, Hb. reflexivity. Qed.

Theorem tree_dichotomy : forall S0, (forall i, In i S0 -> (i < r)%nat) -> degenerate S0 \/ saturated S0.
Proof using All.
  enough (G : forall n S0, (length S0 <= n)%nat -> (forall i, In i S0 -> (i < r)%nat) -> degenerate S0 \/ saturated S0) by (intros S0; apply (G (length S0)); lia).
  induction n as [|n IH]; intros S0 Hl HS.
  { destruct S0; [|cbn in Hl; lia]. right. intros N x Hx _ i. rewrite Hx by (intros []). apply Z.divide_0_r. }
  destruct S0 as [|z S1] eqn:ES. { right. intros N x Hx _ i. rewrite Hx by (intros []). apply Z.divide_0_r. }
  rewrite <- ES in *. assert (NE : S0 <> []) by (rewrite ES; discriminate). clear z S1 ES.
  assert (Go : forall e f sg eta, In e S0 -> In f S0 -> e <> f -> eta * eta = 1 -> K e f = eta ->
     (forall t, In t S0 -> t <> e -> t <> f -> K e t - sg * K f t = 0) -> degenerate S0 \/ saturated S0).
  { intros e f sg eta Ie If Nef He Kef Ku. pose proof (split_length S0 e f Ie) as SL.
    destruct (IH (filter (fun t => negb ((t =? e) || (t =? f))%nat) S0)) as [D|D]; [lia| | |].
    - intros i Hi. apply filter_In in Hi. apply HS, Hi.
    - left. exact (split_degenerate S0 e f sg eta HS Ie If Nef He Kef Ku D).
    - right. exact (split_saturated S0 e f sg eta HS Ie If Nef He Kef Ku D). }
  destruct (top S0 NE) as (e0 & Ie0 & He0). set (v := par e0) in *.
  set (C := filter (fun t => (par t =? v)%nat) S0).
  assert (InC : forall t, In t C <-> In t S0 /\ par t = v). { intros t. unfold C. rewrite filter_In, Nat.eqb_eq. reflexivity. }
  destruct (least v C) as (e & IeC & He).
  { intros E. assert (X : In e0 C) by (apply InC; auto). rewrite E in X. destruct X. }
  { intros i Hi. apply InC in Hi. split; [apply HS|]; apply Hi. }
  pose proof (proj1 (InC e) IeC) as [Ie Pe]. pose proof (HS e Ie) as Re.
  (* the children of an edge at v are not in S0 *)
  assert (NoC : forall h t, In h S0 -> par h = v -> In t S0 -> par t <> S h).
  { intros h t Ih Ph It E. specialize (He0 t It). pose proof (par_le h (HS h Ih)). lia. }
  set (D := filter (fun t => negb (t =? e)%nat) C).
  assert (InD : forall t, In t D <-> In t S0 /\ par t = v /\ t <> e).
  { intros t. unfold D. rewrite filter_In, InC. destruct (Nat.eqb_spec t e); cbn [negb]; intuition congruence. }
  destruct D as [|z D1] eqn:ED.
  - destruct (in_dec Nat.eq_dec (v - 1)%nat S0) as [Ig|Ng].
    + destruct (Nat.eq_dec v 0%nat) as [V0|V0].
      * (* e is alone *)
        left. exists (fun i => delta i e). split; [|split].
        -- intros i Hi. unfold delta. destruct (Nat.eqb_spec i e) as [->|]; [contradiction|reflexivity].
        -- exists e. unfold delta. rewrite Nat.eqb_refl. discriminate.
        -- intros t It. rewrite Bk_unit by exact Re. destruct (Nat.eq_dec t e) as [->|N]; [apply Kdiag, Re|].
           apply K_apart; try assumption; try (apply HS, It).
           ++ intros E. apply (proj2 (InD t)). repeat split; congruence.
           ++ lia.
           ++ apply NoC; assumption.
      * apply (Go e (v - 1)%nat 0 (c' * (s e * s (v - 1)%nat))); try assumption.
        -- intros E. pose proof (par_le e Re). lia.
        -- apply unit_mul; [assumption|]. apply unit_mul; apply s_unit.
        -- apply K_child; [assumption|apply HS, Ig|lia].
        -- intros t It N1 N2. rewrite K_apart; [ring|assumption|apply HS, It| | |].
           ++ intros E. apply (proj2 (InD t)). repeat split; congruence.
           ++ lia.
           ++ apply NoC; assumption.
    + left. exists (fun i => delta i e). split; [|split].
      * intros i Hi. unfold delta. destruct (Nat.eqb_spec i e) as [->|]; [contradiction|reflexivity].
      * exists e. unfold delta. rewrite Nat.eqb_refl. discriminate.
      * intros t It. rewrite Bk_unit by exact Re. destruct (Nat.eq_dec t e) as [->|N]; [apply Kdiag, Re|].
        apply K_apart; try assumption; try (apply HS, It).
        -- intros E. apply (proj2 (InD t)). repeat split; congruence.
        -- intros E. apply Ng. replace (v - 1)%nat with t by lia. exact It.
        -- apply NoC; assumption.
  - rewrite <- ED in *. assert (ND : D <> []) by (rewrite ED; discriminate).
    destruct (least v D ND) as (f & IfD & Hf). { intros i Hi. apply InD in Hi. split; [apply HS|]; apply Hi. }
    apply InD in IfD. destruct IfD as (If & Pf & Nf). pose proof (HS f If) as Rf.
    assert (Bef : bf e f). { apply He; [apply InC; auto|exact Nf]. }
    apply (Go e f (s e * s f) (c * (s e * s f))); try assumption; [congruence| | |].
    + apply unit_mul; [assumption|]. apply unit_mul; apply s_unit.
    + apply K_sib; congruence.
    + intros t It N1 N2. pose proof (HS t It) as Rt. assert (SS : s f * s f = 1) by apply s_unit.
      destruct (Nat.eq_dec (par t) v) as [Pt|Pt].
      * rewrite (K_sib e t), (K_sib f t); try congruence.
        -- replace (c * (s e * s t) - s e * s f * (c * (s f * s t))) with (c * (s e * s t) * (1 - s f * s f)) by ring. rewrite SS. ring.
        -- apply Hf; [apply InD; auto|congruence].
        -- apply He; [apply InC; auto|congruence].
      * destruct (Nat.eq_dec v (S t)) as [Vt|Vt].
        -- rewrite (K_child e t), (K_child f t) by congruence.
           replace (c' * (s e * s t) - s e * s f * (c' * (s f * s t))) with (c' * (s e * s t) * (1 - s f * s f)) by ring. rewrite SS. ring.
        -- rewrite (K_apart e t), (K_apart f t); try congruence; try ring; apply NoC; assumption.
Qed.
End Tree.
End Forms.
