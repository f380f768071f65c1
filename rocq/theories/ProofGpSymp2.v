(** Proofs about the symplectic reduction of the GP scripts, continued: the loops. *)
From Verif Require Import Base ModelGpSymp SpecGpSymp ProofGpSymp.

(** the canonical form with blocks of size 2 *)
Definition jb (c r : nat) : Z := if Nat.even c then (if (r =? S c)%nat then 1 else 0) else (if (c =? S r)%nat then -1 else 0).

Section Loops.
Variable bezout : Z -> Z -> Z * Z * Z.
Variable n : nat.
Variable M : columns.
Hypothesis anti : antisymmetric n M.
Local Notation B := (form n M).
Let ext := form_ext n M.

Lemma cong_ext N N' P P' : (forall c r, N c r = N' c r) -> (forall c x, P c x = P' c x) -> cong n M N P -> cong n M N' P'.
Proof. intros HN HP HC c r Lc Lr. rewrite <- HN, HC by assumption. apply form_ext; intros; apply HP. Qed.

Lemma clear_spec d : forall fuel k ii jj e N P t, (n - k = d)%nat -> (d < fuel)%nat -> (k <= n)%nat -> (ii < n)%nat -> (jj < n)%nat -> ii <> jj ->
  (forall c, (k <= c)%nat -> c <> jj -> c <> ii -> (jj < c)%nat) -> cong n M N P -> triangular n P -> B (P ii) (P jj) = t -> t = 1 \/ t = -1 ->
  exists N' P', clear_loop bezout fuel n k ii jj e N P = Done (N', P', e) /\ cong n M N' P' /\ triangular n P' /\
    (forall c, exists q, forall x, P' c x = P c x - q * P jj x) /\
    (forall c, ((c < k)%nat \/ c = jj \/ c = ii) -> forall x, P' c x = P c x) /\
    (forall c, (k <= c < n)%nat -> c <> jj -> B (P ii) (P' c) = 0).
Proof using anti.
  induction d as [|d IH]; intros fuel k ii jj e N P t Hd Hf Lk Lii Ljj Hne Hk HC HT Ht Hu; (destruct fuel as [|fuel]; [lia|]); cbn [clear_loop].
  - destruct (Nat.leb_spec n k); [|lia]. exists N, P. split; [reflexivity|]. split; [exact HC|]. split; [exact HT|].
    split; [intros c; exists 0; intros; lia|]. split; [reflexivity|]. intros; lia.
  - destruct (Nat.leb_spec n k); [lia|].
    destruct ((k =? jj)%nat || (N k ii =? 0)) eqn:Es.
    + destruct (IH fuel (S k) ii jj e N P t ltac:(lia) ltac:(lia) ltac:(lia) Lii Ljj Hne ltac:(intros; apply Hk; lia) HC HT Ht Hu) as (N' & P' & E & C' & T' & Hq & Hs & H0).
      exists N', P'. split; [exact E|]. split; [exact C'|]. split; [exact T'|]. split; [exact Hq|]. split; [intros c Hc; apply Hs; lia|].
      intros c Lc Hcj. destruct (Nat.eq_dec c k) as [->|]; [|apply H0; [lia|exact Hcj]].
      rewrite (ext (P ii) (P ii) (P' k) (P k)) by (intros; try reflexivity; apply Hs; lia).
      apply orb_true_iff in Es as [Es|Es]; [apply Nat.eqb_eq in Es; lia|]. apply Z.eqb_eq in Es. rewrite HC in Es by lia. exact Es.
    + apply orb_false_iff in Es as [E1 E2]. apply Nat.eqb_neq in E1. apply Z.eqb_neq in E2.
      assert (Ejj : N jj ii = t) by (rewrite HC by lia; exact Ht).
      assert (Hki : k <> ii) by (intros ->; apply E2; rewrite HC by lia; now apply form_self).
      rewrite Ejj. destruct (Z.eqb_spec t 0); [lia|].
      assert (Em : N k ii mod t = 0) by (destruct Hu as [-> | ->]; [apply Z.mod_1_r|change (-1) with (- (1)); rewrite Z.mod_opp_r_z; [reflexivity|lia|apply Z.mod_1_r]]).
      rewrite Em. cbn [Z.eqb]. cbv zeta. set (q := N k ii / t).
      assert (Eq : N k ii = q * t) by (unfold q; rewrite Z.mul_comm; apply Z.div_exact; [lia|exact Em]).
      pose proof (Hk k ltac:(lia) E1 Hki) as Hjk.
      assert (Pn : forall c x, c <> k -> col_sub k jj q P c x = P c x) by (intros c x Hc; unfold col_sub; destruct (Nat.eqb_spec c k); [lia|reflexivity]).
      assert (Pk : forall x, col_sub k jj q P k x = P k x - q * P jj x) by (intros x; unfold col_sub; now rewrite Nat.eqb_refl).
      destruct (IH fuel (S k) ii jj e (row_sub k jj q (col_sub k jj q N)) (col_sub k jj q P) t ltac:(lia) ltac:(lia) ltac:(lia) Lii Ljj Hne) as (N' & P' & E & C' & T' & Hq & Hs & H0).
      { intros c Hc; apply Hk; lia. }
      { now apply cong_sub. }
      { intros c Lc. destruct (HT c Lc) as [Hdg Hx]. destruct (Nat.eq_dec c k) as [->|].
        - destruct (HT jj Ljj) as [_ Hxj]. split; [rewrite Pk, (Hxj k) by lia; rewrite Z.mul_0_r, Z.sub_0_r; exact Hdg|].
          intros x Lx. rewrite Pk, Hx, Hxj by lia. lia.
        - rewrite (Pn c c) by assumption. split; [exact Hdg|]. intros x Lx. rewrite Pn by assumption. now apply Hx. }
      { rewrite <- Ht. apply ext; intros x Lx; apply Pn; lia. }
      { exact Hu. }
      exists N', P'. split; [exact E|]. split; [exact C'|]. split; [exact T'|]. split; [|split].
      * intros c. destruct (Hq c) as [q' Hq']. destruct (Nat.eq_dec c k) as [->|].
        -- exists (q' + q). intros x. rewrite Hq', Pk, Pn by lia. ring.
        -- exists q'. intros x. rewrite Hq', !Pn by lia. reflexivity.
      * intros c Hc x. rewrite Hs by lia. apply Pn. lia.
      * intros c Lc Hcj. destruct (Nat.eq_dec c k) as [->|].
        -- rewrite (ext (P ii) (P ii) (P' k) (fun x => P k x - q * P jj x)) by (intros; try reflexivity; rewrite Hs by lia; apply Pk).
           rewrite form_sub_r. rewrite Ht. rewrite HC in Eq by lia. fold B in Eq. lia.
        -- rewrite <- (H0 c) by lia. apply ext; [intros x _; symmetry; apply Pn; lia|reflexivity].
Qed.

Definition inv (e : nat) (N P : columns) : Prop :=
  cong n M N P /\ triangular n P /\ forall c r, (c < 2 * e)%nat -> (r < n)%nat -> B (P c) (P r) = jb c r.

Lemma B_zero_sub w u v q : B w u = 0 -> B w v = 0 -> B w (fun x => u x - q * v x) = 0.
Proof. intros H1 H2. rewrite form_sub_r. rewrite H1, H2. lia. Qed.

Lemma jb_far c r : (r < 2 * c)%nat -> forall k, (2 * c <= k)%nat -> jb r k = 0.
Proof.
  intros L k Lk. unfold jb. destruct (Nat.even r) eqn:E.
  - destruct (Nat.eqb_spec k (S r)) as [->|]; [|reflexivity]. apply Nat.even_spec in E as [y Hy]. lia.
  - destruct (Nat.eqb_spec r (S k)); [lia|reflexivity].
Qed.

Lemma step_ok fuel e N P : (n < fuel)%nat -> (2 * e + 1 < n)%nat -> invertible_block (S (S (2 * e))) M -> inv e N P ->
  exists N' P', block_step bezout fuel n e N P = Done (N', P', e) /\ inv (S e) N' P'.
Proof using anti.
  intros Hf Le Hinv (HC & HT & HB).
  assert (HB' : forall c r, (c < 2 * e)%nat -> (2 * e <= r < n)%nat -> B (P c) (P r) = 0).
  { intros c r Hc Hr. rewrite HB by lia. apply (jb_far e); lia. }
  set (i := (2 * e)%nat) in *. set (j := (i + 1)%nat) in *.
  assert (Hj : S i = j) by (unfold j; lia).
  assert (Hu : B (P i) (P j) = 1 \/ B (P i) (P j) = -1).
  { apply (pivot_unit n M anti P i); [lia|lia|exact HT|exact Hinv| |now rewrite Hj].
    intros c Hc. rewrite form_anti by exact anti. rewrite HB' by lia. reflexivity. }
  set (t := B (P i) (P j)) in *.
  assert (En : N j i = t) by (rewrite HC by lia; reflexivity).
  assert (Ep : pivot fuel n N i j = Done (i, j)).
  { destruct fuel as [|f]; [lia|]. cbn [pivot]. destruct (Nat.leb_spec n j); [lia|]. rewrite En. destruct (Z.eqb_spec t 0); [lia|reflexivity]. }
  assert (Main : forall N1 P1, cong n M N1 P1 -> triangular n P1 -> (forall c x, c <> j -> P1 c x = P c x) ->
         (forall c r, (c < i)%nat -> (i <= r < n)%nat -> B (P1 c) (P1 r) = 0) -> B (P1 i) (P1 j) = 1 ->
         exists N' P', (do s <- clear_loop bezout fuel n i i j e N1 P1; let '(N, P, e) := s in
            do s <- clear_loop bezout fuel n (2 * e) j i e N P; let '(N, P, e) := s in
            if (n <=? 2 * e + 1)%nat then Fault OutOfBounds
            else Done (col_swap (2 * e + 1) j (col_swap (2 * e) i N), col_swap (2 * e + 1) j (col_swap (2 * e) i P), e)) = Done (N', P', e) /\ inv (S e) N' P').
  { intros N1 P1 C1 T1 Hsame B1 Ht1.
    assert (HBB : forall c r, (c < i)%nat -> (r < i)%nat -> B (P1 c) (P1 r) = jb c r)
      by (intros c r Hc Hr; rewrite <- HB by lia; apply ext; intros x _; apply Hsame; lia).
    destruct (clear_spec (n - i) fuel i i j e N1 P1 1 eq_refl ltac:(lia) ltac:(lia) ltac:(lia) ltac:(lia) ltac:(lia) ltac:(intros; lia) C1 T1 Ht1 ltac:(lia))
      as (N2 & P2 & E2 & C2 & T2 & Q2 & S2 & Z2). rewrite E2. cbn [bind]. cbv beta iota zeta. fold i.
    assert (Ht2 : B (P2 j) (P2 i) = -1)
      by (rewrite form_anti by exact anti; rewrite (ext (P2 i) (P1 i) (P2 j) (P1 j)) by (intros; apply S2; lia); rewrite Ht1; reflexivity).
    destruct (clear_spec (n - i) fuel i j i e N2 P2 (-1) eq_refl ltac:(lia) ltac:(lia) ltac:(lia) ltac:(lia) ltac:(lia) ltac:(intros; lia) C2 T2 Ht2 ltac:(lia))
      as (N3 & P3 & E3 & C3 & T3 & Q3 & S3 & Z3). rewrite E3. cbn [bind]. cbv beta iota zeta. fold i.
    destruct (Nat.leb_spec n (i + 1)); [lia|].
    assert (Sw : forall (A : columns) c r, col_swap (i + 1) j (col_swap i i A) c r = A c r).
    { intros A c r. unfold col_swap, j. destruct (Nat.eqb_spec c (i + 1)), (Nat.eqb_spec (i + 1) i), (Nat.eqb_spec c i); subst; try lia; reflexivity. }
    eexists; eexists; split; [reflexivity|].
    split; [apply (cong_ext N3 _ P3 _); [intros; symmetry; apply Sw|intros; symmetry; apply Sw|exact C3]|].
    split; [intros c Lc; rewrite Sw; destruct (T3 c Lc) as [Hdg Hx]; split; [exact Hdg|]; intros x Lx; rewrite Sw; now apply Hx|].
    intros c r Hc Hr. rewrite (ext _ (P3 c) _ (P3 r)) by (intros; apply Sw).
    assert (Pi : forall x, P3 i x = P1 i x) by (intros x; rewrite S3, S2 by lia; reflexivity).
    assert (Pj : forall x, P3 j x = P1 j x) by (intros x; rewrite S3, S2 by lia; reflexivity).
    assert (Zi : forall c, (i <= c < n)%nat -> c <> j -> B (P3 i) (P3 c) = 0).
    { intros c0 Lc0 Hc0. destruct (Q3 c0) as [q3 Hq3].
      rewrite (ext (P3 i) (P2 i) (P3 c0) (fun x => P2 c0 x - q3 * P2 i x)); [|intros; apply S3; lia|intros; apply Hq3].
      apply B_zero_sub; [|apply form_self; exact anti].
      rewrite (ext (P2 i) (P1 i) (P2 c0) (P2 c0)); [apply Z2; lia|intros; apply S2; lia|reflexivity]. }
    assert (Zj : forall c, (i <= c < n)%nat -> c <> i -> B (P3 j) (P3 c) = 0).
    { intros c0 Lc0 Hc0. rewrite (ext (P3 j) (P2 j) (P3 c0) (P3 c0)); [apply Z3; lia|intros; apply S3; lia|reflexivity]. }
    assert (Hij : B (P3 i) (P3 j) = 1) by (rewrite (ext (P3 i) (P1 i) (P3 j) (P1 j)) by (intros; auto); exact Ht1).
    assert (Old : forall c r, (c < i)%nat -> (r < n)%nat -> B (P3 c) (P3 r) = jb c r).
    { intros c0 r0 Hc0 Hr0. rewrite (ext (P3 c0) (P1 c0) (P3 r0) (P3 r0)); [|intros; rewrite S3, S2 by lia; reflexivity|reflexivity].
      destruct (Nat.lt_ge_cases r0 i) as [L|L].
      - rewrite (ext (P1 c0) (P1 c0) (P3 r0) (P1 r0)); [now apply HBB|reflexivity|intros; rewrite S3, S2 by lia; reflexivity].
      - rewrite (jb_far e) by lia. destruct (Q3 r0) as [q3 Hq3].
        rewrite (ext (P1 c0) (P1 c0) (P3 r0) (fun x => P2 r0 x - q3 * P2 i x)); [|reflexivity|intros; apply Hq3].
        apply B_zero_sub.
        + destruct (Q2 r0) as [q2 Hq2]. rewrite (ext (P1 c0) (P1 c0) (P2 r0) (fun x => P1 r0 x - q2 * P1 j x)); [|reflexivity|intros; apply Hq2].
          apply B_zero_sub; apply B1; lia.
        + rewrite (ext (P1 c0) (P1 c0) (P2 i) (P1 i)); [apply B1; lia|reflexivity|intros; apply S2; lia]. }
    destruct (Nat.lt_ge_cases c i) as [L|L]; [now apply Old|].
    assert (Ei : Nat.even i = true) by (unfold i; apply Nat.even_spec; now exists e).
    assert (Ej : Nat.even j = false) by (rewrite <- Hj, Nat.even_succ, <- Nat.negb_even, Ei; reflexivity).
    assert (Hcc : c = i \/ c = j) by lia.
    destruct (Nat.lt_ge_cases r i) as [L'|L'].
    { rewrite form_anti by exact anti. rewrite Old by lia. rewrite (jb_far e) by lia. destruct Hcc as [-> | ->]; unfold jb; rewrite ?Ei, ?Ej.
      - destruct (Nat.eqb_spec r (S i)); [lia|reflexivity].
      - destruct (Nat.eqb_spec j (S r)); [lia|reflexivity]. }
    destruct Hcc as [-> | ->]; unfold jb; rewrite ?Ei, ?Ej.
    - destruct (Nat.eqb_spec r (S i)) as [->|]; [rewrite Hj; exact Hij|apply Zi; lia].
    - destruct (Nat.eqb_spec j (S r)); [replace r with i by lia; rewrite form_anti by exact anti; rewrite Hij; reflexivity|apply Zj; lia]. }
  unfold block_step. fold i. fold j. rewrite Ep. cbn [bind]. cbv beta iota zeta. rewrite En.
  destruct (Z.ltb_spec t 0) as [Lt|Lt].
  - apply (Main (row_neg j (col_neg j N)) (col_neg j P)).
    + apply cong_neg; [exact HC|lia].
    + intros c Lc. destruct (HT c Lc) as [Hdg Hx]. unfold col_neg. destruct (Nat.eqb_spec c j) as [->|]; [|split; assumption].
      split; [lia|]. intros x Lx. rewrite Hx by lia. reflexivity.
    + intros c x Hc. unfold col_neg. destruct (Nat.eqb_spec c j); [lia|reflexivity].
    + intros c r Hc Hr. unfold col_neg. destruct (Nat.eqb_spec c j); [lia|]. destruct (Nat.eqb_spec r j).
      * subst r. transitivity (- B (P c) (P j)); [exact (form_neg_r n M (P c) (P j))|]. rewrite HB' by lia. reflexivity.
      * apply HB'; lia.
    + unfold col_neg. rewrite Nat.eqb_refl. destruct (Nat.eqb_spec i j); [lia|].
      transitivity (- B (P i) (P j)); [exact (form_neg_r n M (P i) (P j))|]. fold t. lia.
  - apply (Main N P); [exact HC|exact HT|reflexivity|exact HB'|]. fold t. lia.
Qed.

Hypothesis blocks_inv : forall d, (d <= n / 2)%nat -> invertible_block (2 * d) M.

Lemma blocks_ok d : forall fuel e N P, (n / 2 - e = d)%nat -> (n + d < fuel)%nat -> (e <= n / 2)%nat -> inv e N P ->
  exists N' P', blocks bezout fuel n e N P = Done P' /\ inv (n / 2) N' P'.
Proof using anti blocks_inv.
  pose proof (Nat.div_mod n 2 ltac:(lia)) as Hn. pose proof (Nat.mod_upper_bound n 2 ltac:(lia)) as Hm.
  induction d as [|d IH]; intros fuel e N P Hd Hf He HI; (destruct fuel as [|fuel]; [lia|]); cbn [blocks]; destruct (Nat.leb_spec (n / 2) e) as [L|L]; try lia.
  - exists N, P. split; [reflexivity|]. replace (n / 2)%nat with e by lia. exact HI.
  - destruct (step_ok (S fuel) e N P) as (N' & P' & E & HI'); [lia|lia| |exact HI|].
    + replace (S (S (2 * e))) with (2 * (S e))%nat by lia. apply blocks_inv. lia.
    + rewrite E. cbn [bind]. cbv beta iota zeta. apply IH; [lia|lia|lia|exact HI'].
Qed.

Lemma zsum_pick m (f : nat -> Z) i : (i < m)%nat -> zsum m (fun a => (if (i =? a)%nat then 1 else 0) * f a) = f i.
Proof using n M. clear blocks_inv.
  intros L. assert (G : forall k, zsum k (fun a => (if (i =? a)%nat then 1 else 0) * f a) = if (i <? k)%nat then f i else 0).
  { induction k as [|k IHk]; [reflexivity|]. cbn [zsum]. rewrite IHk. destruct (Nat.ltb_spec i k), (Nat.ltb_spec i (S k)), (Nat.eqb_spec i k); try lia; subst; lia. }
  rewrite G. destruct (Nat.ltb_spec i m); [reflexivity|lia].
Qed.

Lemma start_ok : inv 0 M matid.
Proof using n M. clear blocks_inv.
  split; [|split].
  - intros c r Lc Lr. unfold form, matid. rewrite (zsum_ext n _ (fun a => (if (r =? a)%nat then 1 else 0) * M c a)); [now rewrite zsum_pick|].
    intros a La. rewrite (zsum_ext n _ (fun b => (if (c =? b)%nat then 1 else 0) * ((if (r =? a)%nat then 1 else 0) * M b a))) by (intros; ring).
    rewrite zsum_pick by assumption. reflexivity.
  - intros c Lc. unfold matid. rewrite Nat.eqb_refl. split; [now left|]. intros x Lx. destruct (Nat.eqb_spec c x); [lia|reflexivity].
  - intros; lia.
Qed.
End Loops.

Lemma reduction_ok bezout fuel g M : antisymmetric (2 * g) M -> (forall d, (d <= g)%nat -> invertible_block (2 * d) M) -> (3 * g < fuel)%nat ->
  exists P, symplectic_reduction bezout fuel (2 * g) M = Done (Some P) /\ symplectic_basis g M P.
Proof.
  intros Ha Hi Hf. assert (Hg : (2 * g / 2 = g)%nat) by (rewrite Nat.mul_comm; apply Nat.div_mul; lia).
  destruct (blocks_ok bezout (2 * g) M Ha ltac:(rewrite Hg; exact Hi) g fuel 0 M matid ltac:(lia) ltac:(lia) ltac:(lia) (start_ok (2 * g) M)) as (N' & P' & E & _ & _ & HB).
  rewrite Hg in HB. exists (reorder g P'). split.
  - unfold symplectic_reduction. rewrite <- Nat.negb_even, Nat.even_mul. cbn [Nat.even orb negb]. rewrite E. cbn [bind]. now rewrite Hg.
  - intros a b La Lb. unfold J_entry.
    assert (E2 : forall x, Nat.even (2 * x) = true) by (intros; now rewrite Nat.even_mul).
    assert (O2 : forall x, Nat.even (2 * x + 1) = false) by (intros; rewrite Nat.even_add, E2; reflexivity).
    transitivity (form (2 * g) M (P' (if (a <? g)%nat then 2 * a else 2 * (a - g) + 1)%nat) (P' (if (b <? g)%nat then 2 * b else 2 * (b - g) + 1)%nat)).
    { apply form_ext; intros x _; unfold reorder; destruct (_ <? g)%nat; reflexivity. }
    rewrite HB by (destruct (Nat.ltb_spec a g), (Nat.ltb_spec b g); lia). unfold jb.
    destruct (Nat.ltb_spec a g), (Nat.ltb_spec b g); rewrite ?E2, ?O2;
      repeat match goal with |- context [(?x =? ?y)%nat] => destruct (Nat.eqb_spec x y) end; lia || reflexivity.
Qed.

Lemma reduction_odd bezout fuel n M : Nat.odd n = true -> symplectic_reduction bezout fuel n M = Done None.
Proof. intros H. unfold symplectic_reduction. now rewrite H. Qed.
