(** The rows of the Magma reduction, when every set of loops has a radical or is saturated. *)
From Verif Require Import Base ModelSymp SpecSymp ProofSymp ProofSympRed ProofSympMain ProofSympRank ModelMaSymp SpecMaSymp ProofMaSymp ProofMaPU1.

Section Rows.
Variable r : nat.

(** after q rows are settled: the rows up to q span the loops h 0, ..., h (q-1), and each later row
    is the loop h k, plus loops among those *)
Definition Inv (q : nat) (P : nat -> nat -> Z) : Prop :=
  exists (h : nat -> nat) (a : nat -> nat -> Z),
    (forall i, (i < r)%nat -> (h i < r)%nat) /\
    (forall i j, (i < r)%nat -> (j < r)%nat -> h i = h j -> i = j) /\
    (forall i t, (i < q)%nat -> (t < r)%nat -> P i t <> 0 -> exists l, (l < q)%nat /\ t = h l) /\
    (forall k, (q <= k < r)%nat -> P k (h k) = 1) /\
    (forall k t, (q <= k < r)%nat -> (t < r)%nat -> P k t <> 0 -> t = h k \/ exists l, (l < q)%nat /\ t = h l) /\
    (forall i t, (i < q)%nat -> (t < r)%nat -> delta (h i) t = zsum q (fun l => a i l * P l t)).

Lemma inv_ext q P P' : (q <= r)%nat -> (forall i t, (i < r)%nat -> (t < r)%nat -> P' i t = P i t) -> Inv q P -> Inv q P'.
Proof using.
  intros Hq E (h & a & H1 & H2 & H3 & H4 & H5 & H6). exists h, a. conj; try assumption.
  - intros i t Hi Ht. rewrite E by lia. apply H3; assumption.
  - intros k Hk. rewrite E by (try apply H1; lia). apply H4; assumption.
  - intros k t Hk Ht. rewrite E by lia. apply H5; assumption.
  - intros i t Hi Ht. rewrite (H6 i t Hi Ht). apply zsum_ext. intros l Hl. rewrite E by lia. reflexivity.
Qed.

Lemma inv_init P : (forall i t, (i < r)%nat -> (t < r)%nat -> P i t = delta i t) -> Inv 0 P.
Proof using.
  intros E. exists (fun i => i), (fun _ _ => 0). conj; try (intros; lia).
  - intros k Hk. rewrite E by lia. unfold delta. rewrite Nat.eqb_refl. reflexivity.
  - intros k t Hk Ht. rewrite E by lia. unfold delta. destruct (Nat.eqb_spec k t) as [->|]; [left; reflexivity|congruence].
Qed.

Lemma inv_swap q P x y : (q <= x < r)%nat -> (q <= y < r)%nat -> Inv q P -> Inv q (fun i => P (sw x y i)).
Proof using.
  intros Hx Hy (h & a & H1 & H2 & H3 & H4 & H5 & H6).
  assert (Lo : forall i, (i < q)%nat -> sw x y i = i) by (intros i Hi; unfold sw; beq; lia).
  assert (Hi : forall i, (q <= i < r)%nat -> (q <= sw x y i < r)%nat) by (intros i Hi; unfold sw; beq; lia).
  assert (Rg : forall i, (i < r)%nat -> (sw x y i < r)%nat) by (intros i Hi'; unfold sw; beq; lia).
  assert (Inj : forall i j, sw x y i = sw x y j -> i = j) by (intros i j; unfold sw; beq; lia).
  exists (fun i => h (sw x y i)), a. conj.
  - intros i Hi'. apply H1, Rg, Hi'.
  - intros i j Hi' Hj' E. apply Inj, H2; auto.
  - intros i t Hi' Ht. rewrite Lo by exact Hi'. intros N. destruct (H3 i t Hi' Ht N) as (l & Hl & ->). exists l. rewrite Lo by exact Hl. auto.
  - intros k Hk. apply H4, Hi, Hk.
  - intros k t Hk Ht N. destruct (H5 (sw x y k) t (Hi k Hk) Ht N) as [E|(l & Hl & E)]; [left; exact E|]. right. exists l. rewrite Lo by exact Hl. auto.
  - intros i t Hi' Ht. rewrite Lo by exact Hi'. rewrite (H6 i t Hi' Ht). apply zsum_ext. intros l Hl. rewrite Lo by exact Hl. reflexivity.
Qed.

Lemma inv_add q P j c v : (q <= j < r)%nat -> (c < q)%nat -> Inv q P -> Inv q (fun i t => if (i =? j)%nat then P j t + v * P c t else P i t).
Proof using.
  intros Hj Hc (h & a & H1 & H2 & H3 & H4 & H5 & H6). exists h, a. conj; try assumption.
  - intros i t Hi Ht. destruct (Nat.eqb_spec i j); [lia|]. apply H3; assumption.
  - intros k Hk. destruct (Nat.eqb_spec k j) as [->|]; [|apply H4, Hk]. rewrite H4 by exact Hj.
    destruct (Z.eq_dec (P c (h j)) 0) as [->|N]; [ring|]. exfalso.
    destruct (H3 c (h j) Hc) as (l & Hl & E); [apply H1; lia|exact N|]. apply H2 in E; lia.
  - intros k t Hk Ht. destruct (Nat.eqb_spec k j) as [->|]; [|apply H5; assumption]. intros N.
    destruct (Z.eq_dec (P c t) 0) as [E|N']; [|right; exact (H3 c t Hc Ht N')]. apply H5; try assumption. intros E'. apply N. rewrite E, E'. ring.
  - intros i t Hi Ht. rewrite (H6 i t Hi Ht). apply zsum_ext. intros l Hl. destruct (Nat.eqb_spec l j); [lia|reflexivity].
Qed.

(** the sum of the loops h i, i < q, with coefficients y *)
Lemma supp_sum q (h : nat -> nat) (y : nat -> Z) t : (q <= r)%nat -> (forall i j, (i < r)%nat -> (j < r)%nat -> h i = h j -> i = j) ->
  (y t <> 0 -> exists l, (l < q)%nat /\ t = h l) -> y t = zsum q (fun i => y (h i) * delta (h i) t).
Proof using.
  intros Hq Inj Hs. destruct (Z.eq_dec (y t) 0) as [E|N].
  - rewrite E. symmetry. apply zsum_zero. intros i Hi. unfold delta. destruct (Nat.eqb_spec (h i) t) as [E'|]; [rewrite E', E; ring|ring].
  - destruct (Hs N) as (l & Hl & ->). rewrite (zsum_ext q _ (fun i => y (h i) * delta i l)).
    + rewrite (zsum_delta_r q l (fun i => y (h i)) Hl). reflexivity.
    + intros i Hi. unfold delta. destruct (Nat.eqb_spec i l) as [->|Nl]; [rewrite Nat.eqb_refl; reflexivity|].
      destruct (Nat.eqb_spec (h i) (h l)) as [E|]; [|reflexivity]. exfalso. apply Nl, Inj; [lia|lia|exact E].
Qed.
Lemma comb_sum q (h : nat -> nat) (a : nat -> nat -> Z) (P : nat -> nat -> Z) (y : nat -> Z) t :
  (forall i, (i < q)%nat -> delta (h i) t = zsum q (fun l => a i l * P l t)) ->
  zsum q (fun i => y (h i) * delta (h i) t) = zsum q (fun l => zsum q (fun i => y (h i) * a i l) * P l t).
Proof using.
  intros H. rewrite (zsum_ext q _ (fun i => zsum q (fun l => y (h i) * (a i l * P l t)))).
  - rewrite zsum_swap. apply zsum_ext. intros l Hl. rewrite <- zsum_scal_r. apply zsum_ext. intros; ring.
  - intros i Hi. rewrite H by exact Hi. rewrite zsum_scal. reflexivity.
Qed.

Lemma inv_grow q P : (q < r)%nat -> Inv q P -> Inv (S q) P.
Proof using.
  intros Hq (h & a & H1 & H2 & H3 & H4 & H5 & H6).
  exists h, (fun i l => if (i =? q)%nat then (if (l =? q)%nat then 1 else - zsum q (fun i => P q (h i) * a i l)) else if (l =? q)%nat then 0 else a i l). conj; try assumption.
  - intros i t Hi Ht N. destruct (Nat.eq_dec i q) as [->|Ni].
    + destruct (H5 q t ltac:(lia) Ht N) as [->|(l & Hl & ->)]; [exists q|exists l]; split; auto; lia.
    + destruct (H3 i t ltac:(lia) Ht N) as (l & Hl & ->). exists l. split; auto.
  - intros k Hk. apply H4. lia.
  - intros k t Hk Ht N. destruct (H5 k t ltac:(lia) Ht N) as [E|(l & Hl & E)]; [left; exact E|]. right. exists l. split; auto.
  - intros i t Hi Ht. cbn [zsum]. rewrite Nat.eqb_refl. destruct (Nat.eqb_spec i q) as [->|Ni].
    + set (y := fun t => P q t - delta (h q) t).
      assert (Y : y t = zsum q (fun l => zsum q (fun i => y (h i) * a i l) * P l t)).
      { rewrite <- (comb_sum q h a P y t) by (intros; apply H6; assumption). apply supp_sum; [lia|exact H2|].
        intros N. unfold y, delta in N. destruct (Nat.eqb_spec (h q) t) as [<-|Nt].
        - rewrite H4 in N by lia. lia.
        - destruct (H5 q t) as [E|E]; [lia|exact Ht|intros E0; apply N; rewrite E0; ring|congruence|exact E]. }
      rewrite (zsum_ext q _ (fun l => (-1) * (zsum q (fun i => y (h i) * a i l) * P l t))).
      * rewrite zsum_scal, <- Y. unfold y. ring.
      * intros l Hl. destruct (Nat.eqb_spec l q); [lia|]. replace (zsum q (fun i => y (h i) * a i l)) with (zsum q (fun i => P q (h i) * a i l)); [ring|].
        apply zsum_ext. intros j Hj. unfold y, delta. destruct (Nat.eqb_spec (h q) (h j)) as [E|]; [apply H2 in E; lia|]. ring.
    + rewrite (H6 i t) by lia. rewrite (zsum_ext q (fun l => (if (l =? q)%nat then 0 else a i l) * P l t) (fun l => a i l * P l t)); [ring|].
      intros l Hl. destruct (Nat.eqb_spec l q); [lia|reflexivity].
Qed.

(** ** What is left *)
Variable m0 : mat.
Hypothesis Hpu : forall S0, (forall i, In i S0 -> (i < r)%nat) -> degenerate r (get m0) S0 \/ saturated r (get m0) S0.

Lemma Bil_Bk x y : Bil r m0 x y = zsum r (fun t => Bk r (get m0) x t * y t).
Proof using.
  unfold Bil, Bk. rewrite zsum_swap. apply zsum_ext. intros t Ht. rewrite <- zsum_scal_r. reflexivity.
Qed.
Lemma Bil_sum_r q x (b : nat -> Z) (P : nat -> nat -> Z) : Bil r m0 x (fun t => zsum q (fun l => b l * P l t)) = zsum q (fun l => b l * Bil r m0 x (P l)).
Proof using.
  induction q as [|q IH]; cbn [zsum].
  - unfold Bil. apply zsum_zero. intros k _. apply zsum_zero. intros; ring.
  - rewrite <- IH. rewrite (Bil_ext r m0 x x _ (fun t => 1 * zsum q (fun l => b l * P l t) + b q * P q t)) by (intros; ring).
    rewrite Bil_lin_r. ring.
Qed.
Lemma Bil_sum_l q x (b : nat -> Z) (P : nat -> nat -> Z) : Bil r m0 (fun t => zsum q (fun l => b l * P l t)) x = zsum q (fun l => b l * Bil r m0 (P l) x).
Proof using.
  induction q as [|q IH]; cbn [zsum].
  - unfold Bil. apply zsum_zero. intros k _. apply zsum_zero. intros; ring.
  - rewrite <- IH. rewrite (Bil_ext r m0 _ (fun t => 1 * zsum q (fun l => b l * P l t) + b q * P q t) x x) by (intros; ring).
    rewrite Bil_lin_l. ring.
Qed.
Lemma Bil_unit x t : (t < r)%nat -> Bil r m0 x (delta t) = Bk r (get m0) x t.
Proof using.
  intros Ht. rewrite Bil_Bk. rewrite (zsum_ext r _ (fun l => Bk r (get m0) x l * delta l t)).
  - apply (zsum_delta_r r t _ Ht).
  - intros l _. unfold delta. rewrite Nat.eqb_sym. reflexivity.
Qed.

Theorem leftover s d k l : Core r m0 s -> Frame (fun z => z = 1) d r s -> (2 * d <= r)%nat -> Inv (2 * d) (get (stP s)) ->
  (2 * d <= k < r)%nat -> (2 * d <= l < r)%nat -> M s k l = 0 \/ M s k l = 1 \/ M s k l = -1.
Proof using Hpu.
  intros HC HF Hd (h & a & H1 & H2 & H3 & H4 & H5 & H6) Hk Hl. set (q := (2 * d)%nat) in *. set (P := get (stP s)) in *.
  destruct (Z.eq_dec (M s k l) 0) as [E0|N0]; [left; exact E0|].
  destruct (Nat.eq_dec k l) as [->|Nkl]. { left. apply (core_diag r m0 s l HC). }
  set (v := M s k l) in *.
  assert (Cg : forall i j, (i < r)%nat -> (j < r)%nat -> Bil r m0 (P i) (P j) = M s i j) by (intros i j Hi Hj; symmetry; apply (co_cong _ _ _ HC i j Hi Hj)).
  assert (Z1 : forall i j, (q <= i < r)%nat -> (j < q)%nat -> M s i j = 0) by (intros i j Hi Hj; apply (frame_col (fun z => z = 1) d r r m0 s); assumption || (unfold q in *; lia)).
  set (S0 := map h (seq 0 q) ++ [h k; h l]).
  assert (InS : forall t, In t S0 <-> (exists i, (i < q)%nat /\ t = h i) \/ t = h k \/ t = h l).
  { intros t. unfold S0. rewrite in_app_iff, in_map_iff. cbn [In]. split.
    - intros [(i & <- & Hi)|[<-|[<-|[]]]]; auto. apply in_seq in Hi. left. exists i. split; [lia|reflexivity].
    - intros [(i & Hi & ->)|[->| ->]]; auto. left. exists i. split; [reflexivity|]. apply in_seq. lia. }
  (* pairing with the loops of S0 *)
  assert (Lo : forall x, (forall j, (j < q)%nat -> Bil r m0 x (P j) = 0) -> forall i, (i < q)%nat -> Bk r (get m0) x (h i) = 0).
  { intros x Hx i Hi. rewrite <- Bil_unit by (apply H1; lia).
    rewrite (Bil_ext r m0 x x _ (fun t => zsum q (fun l => a i l * P l t))) by (intros; try reflexivity; apply H6; assumption).
    rewrite Bil_sum_r. apply zsum_zero. intros j Hj. rewrite Hx by exact Hj. ring. }
  assert (Up : forall x, (forall j, (j < q)%nat -> Bil r m0 x (P j) = 0) -> forall j, (q <= j < r)%nat -> Bk r (get m0) x (h j) = Bil r m0 x (P j)).
  { intros x Hx j Hj. rewrite Bil_Bk. rewrite (zsum_ext r _ (fun t => Bk r (get m0) x t * delta t (h j))).
    - symmetry. apply (zsum_delta_r r (h j) _). apply H1. lia.
    - intros t Ht. unfold delta. destruct (Nat.eqb_spec t (h j)) as [->|Nt]; [unfold P; fold P; rewrite (H4 j Hj); reflexivity|].
      destruct (Z.eq_dec (P j t) 0) as [->|Np]; [reflexivity|]. destruct (H5 j t Hj Ht Np) as [E|(i & Hi & ->)]; [congruence|]. rewrite (Lo x Hx i Hi). ring. }
  assert (Low : forall y, (forall t, (t < r)%nat -> y t <> 0 -> exists i, (i < q)%nat /\ t = h i) ->
     exists b, forall t, (t < r)%nat -> y t = zsum q (fun l => b l * P l t)).
  { intros y Hy. exists (fun l => zsum q (fun i => y (h i) * a i l)). intros t Ht. rewrite <- (comb_sum q h a P y t) by (intros; apply H6; assumption).
    apply supp_sum; [lia|exact H2|]. apply Hy, Ht. }
  destruct (Hpu S0) as [(x & Sx & (i0 & Hi0) & Hx)|Sat].
  { intros t Ht. apply InS in Ht. destruct Ht as [(i & Hi & ->)|[->| ->]]; apply H1; lia. }
  - (* a chain in the radical *)
    exfalso. assert (Ri0 : (i0 < r)%nat).
    { destruct (in_dec Nat.eq_dec i0 S0) as [I|I]; [|exfalso; apply Hi0, Sx, I]. apply InS in I. destruct I as [(i & Hi & ->)|[->| ->]]; apply H1; lia. }
    assert (Xt : forall t, (t < r)%nat -> x t <> 0 -> (exists i, (i < q)%nat /\ t = h i) \/ t = h k \/ t = h l).
    { intros t Ht N. apply InS. destruct (in_dec Nat.eq_dec t S0) as [I|I]; [exact I|]. exfalso. apply N, Sx, I. }
    assert (XP : forall j, (j < q)%nat \/ j = k \/ j = l -> Bil r m0 x (P j) = 0).
    { intros j Hj. rewrite Bil_Bk. apply zsum_zero. intros t Ht. destruct (Z.eq_dec (P j t) 0) as [->|Np]; [ring|].
      rewrite Hx; [ring|]. apply InS. destruct Hj as [Hj|[->| ->]].
      - left. apply (H3 j t Hj Ht Np).
      - destruct (H5 k t Hk Ht Np) as [E|E]; auto.
      - destruct (H5 l t Hl Ht Np) as [E|E]; auto. }
    set (y := fun t => 1 * x t + -1 * (x (h k) * P k t + x (h l) * P l t)).
    assert (Pkl : P k (h l) = 0).
    { destruct (Z.eq_dec (P k (h l)) 0) as [E|N]; [exact E|]. exfalso. destruct (H5 k (h l) Hk) as [E|(i & Hi & E)]; [apply H1; lia|exact N| |]; apply H2 in E; lia. }
    assert (Plk : P l (h k) = 0).
    { destruct (Z.eq_dec (P l (h k)) 0) as [E|N]; [exact E|]. exfalso. destruct (H5 l (h k) Hl) as [E|(i & Hi & E)]; [apply H1; lia|exact N| |]; apply H2 in E; lia. }
    pose proof (H4 k Hk) as Pkk. pose proof (H4 l Hl) as Pll.
    destruct (Low y) as (b & Hb).
    { intros t Ht N. destruct (Nat.eq_dec t (h k)) as [->|Nk]. { exfalso. apply N. unfold y. rewrite Plk, Pkk. ring. }
      destruct (Nat.eq_dec t (h l)) as [->|Nl]. { exfalso. apply N. unfold y. rewrite Pkl, Pll. ring. }
      destruct (Z.eq_dec (x t) 0) as [Ex|Nx].
      - destruct (Z.eq_dec (P k t) 0) as [Ek|Nk'].
        + destruct (Z.eq_dec (P l t) 0) as [El|Nl']; [exfalso; apply N; unfold y; rewrite Ex, Ek, El; ring|].
          destruct (H5 l t Hl Ht Nl') as [E|E]; [congruence|exact E].
        + destruct (H5 k t Hk Ht Nk') as [E|E]; [congruence|exact E].
      - destruct (Xt t Ht Nx) as [E|[E|E]]; [exact E|congruence|congruence]. }
    assert (YB : forall j, (j < r)%nat -> Bil r m0 y (P j) = Bil r m0 x (P j) - (x (h k) * M s k j + x (h l) * M s l j)).
    { intros j Hj. unfold y. rewrite Bil_lin_l, Bil_lin_l, !Cg by lia. ring. }
    assert (YS : forall j, (j < r)%nat -> Bil r m0 y (P j) = zsum q (fun i => b i * M s i j)).
    { intros j Hj. rewrite (Bil_ext r m0 y (fun t => zsum q (fun l => b l * P l t)) (P j) (P j) Hb) by reflexivity. rewrite Bil_sum_l. apply zsum_ext. intros i Hi. rewrite Cg by lia. reflexivity. }
    assert (YZ : forall j, (q <= j < r)%nat -> Bil r m0 y (P j) = 0).
    { intros j Hj. rewrite YS by lia. apply zsum_zero. intros i Hi. rewrite (co_anti _ _ _ HC), (Z1 j i Hj Hi). ring. }
    assert (Al : x (h k) = 0).
    { pose proof (YB l ltac:(lia)) as B. rewrite (YZ l Hl), (XP l) in B by auto. pose proof (core_diag _ _ _ l HC) as Dl. rewrite Dl in B. fold v in B. assert (x (h k) * v = 0) by lia. destruct (Z.mul_eq_0 (x (h k)) v) as [F _]. destruct (F H); [assumption|contradiction]. }
    assert (Be : x (h l) = 0).
    { pose proof (YB k ltac:(lia)) as B. rewrite (YZ k Hk), (XP k) in B by auto. pose proof (core_diag _ _ _ k HC) as Dk. rewrite Dk in B. rewrite (co_anti _ _ _ HC l k) in B. fold v in B. assert (x (h l) * v = 0) by lia. destruct (Z.mul_eq_0 (x (h l)) v) as [F _]. destruct (F H); [assumption|contradiction]. }
    assert (Bz : forall i, (i < q)%nat -> b i = 0).
    { assert (Yq : forall j, (j < q)%nat -> zsum q (fun i => b i * M s i j) = 0).
      { intros j Hj. rewrite <- YS by lia. rewrite YB by lia. rewrite XP by auto. rewrite (Z1 k j), (Z1 l j) by assumption. ring. }
      assert (One : forall i j w, (i < q)%nat -> (j < q)%nat -> (w = 1 \/ w = -1) -> M s i j = w -> (forall i', (i' < q)%nat -> i' <> i -> M s i' j = 0) -> b i = 0).
      { intros i j w Hi Hj Hw E Ho. specialize (Yq j Hj). rewrite (zsum_ext q _ (fun i' => (b i' * w) * delta i' i)) in Yq.
        - rewrite (zsum_delta_r q i (fun i' => b i' * w) Hi) in Yq. destruct Hw; subst w; lia.
        - intros i' Hi'. unfold delta. destruct (Nat.eqb_spec i' i) as [->|N']; [rewrite E; ring|rewrite Ho by assumption; ring]. }
      intros i Hi. destruct (Nat.Even_or_Odd i) as [[e E]|[e E]].
      - apply (One i (i + 1)%nat 1); [exact Hi|unfold q in *; lia|auto|rewrite E; apply (fr_piv _ _ _ _ HF); unfold q in *; lia|].
        intros i' Hi' N'. rewrite (co_anti _ _ _ HC), E. rewrite (fr_odd _ _ _ _ HF e i'); [reflexivity|unfold q in *; lia|lia].
      - apply (One i (2 * e)%nat (-1)); [exact Hi|lia|auto| |].
        + rewrite E, (co_anti _ _ _ HC), (fr_piv _ _ _ _ HF e); [reflexivity|unfold q in *; lia].
        + intros i' Hi' N'. rewrite (co_anti _ _ _ HC). rewrite (fr_even _ _ _ _ HF e i'); [reflexivity|unfold q in *; lia|lia]. }
    apply Hi0. assert (Y0 : y i0 = 0). { rewrite Hb by exact Ri0. apply zsum_zero. intros i Hi. rewrite Bz by exact Hi. ring. }
    unfold y in Y0. rewrite Al, Be in Y0. lia.
  - right. assert (Dv : (v | P k (h k))).
    { assert (X0 : forall j, (j < q)%nat -> Bil r m0 (P k) (P j) = 0) by (intros j Hj; rewrite Cg by lia; apply Z1; assumption).
      set (x := fun t => if (t <? r)%nat then P k t else 0).
      assert (Xx : forall t, (t < r)%nat -> x t = P k t) by (intros t Ht; unfold x; destruct (Nat.ltb_spec t r); [reflexivity|lia]).
      rewrite <- Xx by (apply H1; lia). apply Sat.
      - intros t Ht. unfold x. destruct (Nat.ltb_spec t r) as [Hr|]; [|reflexivity]. destruct (Z.eq_dec (P k t) 0) as [E|N]; [exact E|]. exfalso. apply Ht, InS.
        destruct (H5 k t Hk Hr N) as [E|E]; auto.
      - intros t Ht. rewrite (Bk_ext r (get m0) x (P k) t Xx). apply InS in Ht. destruct Ht as [(i & Hi & ->)|[->| ->]].
        + rewrite (Lo _ X0 i Hi). apply Z.divide_0_r.
        + rewrite (Up _ X0 k Hk), Cg by lia. rewrite (core_diag _ _ _ k HC). apply Z.divide_0_r.
        + rewrite (Up _ X0 l Hl), Cg by lia. apply Z.divide_refl. }
    rewrite (H4 k Hk) in Dv. apply Z.divide_1_r in Dv. exact Dv.
Qed.
End Rows.
