(** Reduction modulo periods and ramification points in the Magma package. *)
From Coquelicot Require Import Coquelicot.
From Verif Require Import CArg ModelTree ModelVec ModelPeriod ModelTurn ModelSymp SpecSymp SpecInter ModelMaRoot ModelMaDiff ModelMaFactor ModelMaSum ModelMaTree ModelMaInter ModelMaSymp ModelMaAjm ModelMaPath ModelMaDivisor ModelMaPeriod ModelMaRam SpecVec SpecPeriod SpecCurve SpecTree SpecTurn SpecMaRoot SpecMaFactor SpecQuad SpecMaSum SpecMaTree SpecDeq SpecCross SpecMaInter SpecMaSymp SpecMaPeriod SpecMaPath SpecMaRam ProofEdge ProofVec ProofTree ProofPeriod ProofSympRank ProofRiem4 ProofMaTree4 ProofMaTree5 ProofMaDiff ProofMaFactor2 ProofMaAjm ProofMaAjm3 ProofMaPeriod ProofMaPeriod3 ProofMaPeriod4 ProofMaPeriod5 SpecEdge.
From Verif Require ProofMaPath ProofMaInter2.
Local Open Scope nat_scope.

Lemma round_off_range x : (- / 2 <= round_off x <= / 2)%R.
Proof. unfold round_off, round_near. destruct (base_Int_part (x + / 2)) as [A B]. lra. Qed.
Lemma rsum_to_rsum n f : rsum_to n f = rsum n f.
Proof. induction n as [|n IH]; cbn [rsum_to rsum]; [reflexivity|]. rewrite IH. reflexivity. Qed.

(** coordinates of v *)
Definition coords (g : nat) (rd : list (list R)) (v : nat -> C) (k : nat) : R := rsum (2 * g) (fun l => rget rd k l * parts g v l)%R.
Lemma reduction_is g rd v k : lattice_reduction g (red_data rd) v k = round_off (coords g rd v k).
Proof. unfold lattice_reduction, coords, red_data. cbn [aj_red]. rewrite rsum_to_rsum. reflexivity. Qed.

Lemma combo_parts g big (c : R) (v : nat -> C) (u : nat -> R) : (forall i, i < g -> (RtoC c * v i)%C = csum (2 * g) (fun k => mget big i k * RtoC (u k))%C) ->
  forall r, r < 2 * g -> (c * parts g v r)%R = rsum (2 * g) (fun k => rget (embed g big) r k * u k)%R.
Proof.
  intros H r Hr. assert (E0 : forall k, k < 2 * g -> rget (embed g big) r k = if r <? g then fst (mget big r k) else snd (mget big (r - g) k)).
  { intros k Hk. unfold embed. rewrite (rget_rows (2 * g) (2 * g) (fun i k => if i <? g then fst (mget big i k) else snd (mget big (i - g) k))) by assumption. reflexivity. }
  unfold parts. destruct (Nat.ltb_spec r g) as [L|L].
  - transitivity (fst (RtoC c * v r)%C); [cbn; ring|]. rewrite H, fst_csum by exact L. apply rsum_ext. intros k Hk. rewrite E0 by exact Hk. cbn. ring.
  - transitivity (snd (RtoC c * v (r - g)%nat)%C); [cbn; ring|]. rewrite H, snd_csum by lia. apply rsum_ext. intros k Hk. rewrite E0 by exact Hk. cbn. ring.
Qed.
Lemma coords_combo g big rd (c : R) v u : rinverse_of (2 * g) (embed g big) rd ->
  (forall i, i < g -> (RtoC c * v i)%C = csum (2 * g) (fun k => mget big i k * RtoC (u k))%C) -> forall k, k < 2 * g -> (c * coords g rd v k)%R = u k.
Proof.
  intros Hi H k Hk. unfold coords. rewrite <- rsum_scal. transitivity (rsum (2 * g) (fun l => rsum (2 * g) (fun k' => rget rd k l * (rget (embed g big) l k' * u k'))))%R.
  - apply rsum_ext. intros l Hl. rewrite rsum_scal, <- (combo_parts g big c v u H l Hl). ring.
  - rewrite rsum_swap. transitivity (rsum (2 * g) (fun k' => (if k =? k' then 1 else 0) * u k')%R); [|apply rsum_delta, Hk].
    apply rsum_ext. intros k' Hk'. destruct (Hi k k' Hk Hk') as [_ <-]. rewrite (Rmult_comm _ (u k')), <- rsum_scal. apply rsum_ext. intros. ring.
Qed.

Lemma parts_sub g v v' l : parts g (fun i => v i - v' i)%C l = (parts g v l - parts g v' l)%R.
Proof. unfold parts. destruct (l <? g); cbn; ring. Qed.
Lemma coords_sub g rd v v' k : coords g rd (fun i => v i - v' i)%C k = (coords g rd v k - coords g rd v' k)%R.
Proof.
  unfold coords. rewrite (rsum_ext _ _ (fun l => rget rd k l * parts g v l + -1 * (rget rd k l * parts g v' l))%R) by (intros l _; rewrite parts_sub; ring).
  rewrite rsum_add, rsum_scal. ring.
Qed.

Lemma reduction_lattice rinv g big rd : rinv_ok rinv -> reduction_matrix rinv true g big = Done (Some rd) ->
  (forall v k, (- / 2 <= lattice_reduction g (red_data rd) v k <= / 2)%R) /\
  (forall v, in_lattice g big (fun i => v i - csum (2 * g) (fun k => mget big i k * RtoC (lattice_reduction g (red_data rd) v k)))%C) /\
  (forall v v', in_lattice g big (fun i => v i - v' i)%C <-> forall k, k < 2 * g -> exists z : Z, (lattice_reduction g (red_data rd) v k - lattice_reduction g (red_data rd) v' k)%R = IZR z) /\
  (forall u u' : nat -> R, (forall i, i < g -> csum (2 * g) (fun k => mget big i k * RtoC (u k))%C = csum (2 * g) (fun k => mget big i k * RtoC (u' k))%C) -> forall k, k < 2 * g -> u k = u' k).
Proof.
  intros Hinv E. assert (Hi : rinverse_of (2 * g) (embed g big) rd).
  { unfold reduction_matrix in E. pose proof (Hinv (2 * g) (embed g big)) as X. destruct (rinv (2 * g) (embed g big)); [injection E as <-; exact X|discriminate]. }
  destruct (red_ok rinv true g big _ Hinv E) as [_ Hv]. split; [intros v k; rewrite reduction_is; apply round_off_range|].
  assert (A : forall v, in_lattice g big (fun i => v i - csum (2 * g) (fun k => mget big i k * RtoC (lattice_reduction g (red_data rd) v k)))%C).
  { intros v. exists (fun k => round_near (coords g rd v k)). intros i Hig. rewrite (Hv v i Hig) at 1.
    transitivity (csum (2 * g) (fun k => mget big i k * RtoC (coords g rd v k) + RtoC (-1) * (mget big i k * RtoC (lattice_reduction g (red_data rd) v k)))%C).
    - rewrite csum_add, csum_scal. unfold coords. ring_simplify. replace (RtoC (-1)) with (- RtoC 1)%C by (rewrite <- RtoC_opp; reflexivity). ring.
    - apply csum_ext. intros k Hk. rewrite reduction_is. unfold round_off. rewrite RtoC_minus. replace (RtoC (-1)) with (- RtoC 1)%C by (rewrite <- RtoC_opp; reflexivity). ring. }
  assert (U : forall u u' : nat -> R, (forall i, i < g -> csum (2 * g) (fun k => mget big i k * RtoC (u k))%C = csum (2 * g) (fun k => mget big i k * RtoC (u' k))%C) -> forall k, k < 2 * g -> u k = u' k).
  { intros u u' H k Hk. set (v := fun i => csum (2 * g) (fun k => mget big i k * RtoC (u k))%C).
    rewrite <- (coords_combo g big rd 1 v u Hi) by (try exact Hk; intros i _; unfold v; apply Cmult_1_l). apply (coords_combo g big rd 1 v u' Hi); [|exact Hk]. intros i Hig. unfold v. rewrite (H i Hig). apply Cmult_1_l. }
  split; [exact A|]. split; [|exact U]. intros v v'. split.
  - intros (N & HN) k Hk. assert (X : (1 * coords g rd (fun i => v i - v' i)%C k)%R = IZR (N k)).
    { apply (coords_combo g big rd 1 _ (fun k => IZR (N k)) Hi); [|exact Hk]. intros i Hig. rewrite Cmult_1_l. apply HN, Hig. }
    rewrite coords_sub in X. exists (N k - round_near (coords g rd v k) + round_near (coords g rd v' k))%Z. rewrite !reduction_is. unfold round_off. rewrite plus_IZR, minus_IZR. lra.
  - intros H. destruct (A v) as (N & HN). destruct (A v') as (N' & HN').
    assert (Z0 : forall k, exists z : Z, k < 2 * g -> (lattice_reduction g (red_data rd) v k - lattice_reduction g (red_data rd) v' k)%R = IZR z).
    { intros k. destruct (Nat.lt_ge_cases k (2 * g)) as [L|L]; [destruct (H k L) as (z & Ez); exists z; intros _; exact Ez|exists 0%Z; lia]. }
    assert (Z1 : exists zz : nat -> Z, forall k, k < 2 * g -> (lattice_reduction g (red_data rd) v k - lattice_reduction g (red_data rd) v' k)%R = IZR (zz k)).
    { exists (fun k => round_near (lattice_reduction g (red_data rd) v k - lattice_reduction g (red_data rd) v' k)%R). intros k Hk. destruct (Z0 k) as (z & Hz). specialize (Hz Hk). rewrite (ProofMaInter2.round_int _ z Hz). exact Hz. }
    destruct Z1 as (zz & Hzz). exists (fun k => N k - N' k + zz k)%Z. intros i Hig.
    specialize (HN i Hig). specialize (HN' i Hig). cbv beta in HN, HN'.
    transitivity (csum (2 * g) (fun k => mget big i k * RtoC (IZR (N k))) - csum (2 * g) (fun k => mget big i k * RtoC (IZR (N' k)))
      + (csum (2 * g) (fun k => mget big i k * RtoC (lattice_reduction g (red_data rd) v k)) - csum (2 * g) (fun k => mget big i k * RtoC (lattice_reduction g (red_data rd) v' k))))%C.
    { rewrite <- HN, <- HN'. ring. }
    assert (Sb : forall f h, (csum (2 * g) f - csum (2 * g) h)%C = csum (2 * g) (fun k => f k - h k)%C).
    { intros f h. rewrite (csum_ext _ (fun k => f k - h k)%C (fun k => f k + RtoC (-1) * h k)%C); [rewrite csum_add, csum_scal; replace (RtoC (-1)) with (- RtoC 1)%C by (rewrite <- RtoC_opp; reflexivity); ring|].
      intros k _. replace (RtoC (-1)) with (- RtoC 1)%C by (rewrite <- RtoC_opp; reflexivity). ring. }
    rewrite !Sb, <- csum_add. apply csum_ext. intros k Hk. rewrite plus_IZR, minus_IZR, RtoC_plus, RtoC_minus, <- (Hzz k Hk), RtoC_minus. ring.
Qed.
