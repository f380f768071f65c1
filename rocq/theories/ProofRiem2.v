From Coq Require Import Reals Lra Lia.
From Coquelicot Require Import Coquelicot.
From Verif Require Import CBase CArg ModelPeriod ModelSymp SpecSymp SpecRiem ProofRiem1.
Local Open Scope R_scope.

Lemma ZC_zsum n f : ZC (zsum n f) = csum n (fun k => ZC (f k)).
Proof. induction n as [|n IH]; cbn [zsum csum]; [reflexivity|]. now rewrite ZC_add, IH. Qed.

Lemma csum_pairs n (f : nat -> C) : csum (2 * n) f = csum n (fun e => (f (2 * e)%nat + f (2 * e + 1)%nat)%C).
Proof.
  induction n as [|n IH]; [reflexivity|]. replace (2 * S n)%nat with (S (S (2 * n))) by lia. cbn [csum]. rewrite IH.
  replace (2 * n + 1)%nat with (S (2 * n)) by lia. ring.
Qed.

Section Bilinear.
Variables (N g : nat) (P K M : mat).
Hypothesis HU : unimodular N P.
Hypothesis HC : congruent N P K M.
Hypothesis HM : canonical N g M.
Hypothesis HN : (2 * g <= N)%nat.

Definition com (F : nat -> C) (k : nat) : C := csum N (fun q => (ZC (get P k q) * F q)%C).

Lemma bilinear (E X E' : nat -> C) :
  (forall p, (p < N)%nat -> csum N (fun q => (ZC (get K p q) * X q)%C) = E p) ->
  (forall i, (2 * g <= i < N)%nat -> com E' i = C0) ->
  csum g (fun e => (com E (2 * e) * com E' (2 * e + 1) - com E (2 * e + 1) * com E' (2 * e))%C) =
  csum N (fun p => (X p * E' p)%C).
Proof.
  intros HX HE. destruct HU as (Q & _ & HQ).
  set (Y := fun i => csum N (fun p => (ZC (get Q p i) * X p)%C)).
  assert (XY : forall p, (p < N)%nat -> X p = csum N (fun i => (ZC (get P i p) * Y i)%C)).
  { intros p Hp. unfold Y. rewrite (csum_ext N _ (fun i => csum N (fun q => ZC (get P i p) * (ZC (get Q q i) * X q))%C)).
    2:{ intros i Hi. now rewrite csum_scal. }
    rewrite csum_swap. rewrite (csum_single N _ p Hp).
    - rewrite (csum_ext N _ (fun i => ZC (get Q p i * get P i p) * X p)%C).
      2:{ intros i Hi. rewrite ZC_mul. ring. }
      rewrite csum_scal_r, <- ZC_zsum. rewrite (proj2 (HQ p p Hp Hp)). unfold delta. rewrite Nat.eqb_refl. unfold ZC. ring.
    - intros q Hq Ne. rewrite (csum_ext N _ (fun i => ZC (get Q q i * get P i p) * X q)%C).
      2:{ intros i Hi. rewrite ZC_mul. ring. }
      rewrite csum_scal_r, <- ZC_zsum. rewrite (proj2 (HQ q p Hq Hp)). unfold delta. destruct (Nat.eqb_spec q p); [contradiction|]. unfold ZC. ring. }
  assert (OM : forall k, (k < N)%nat -> com E k = csum N (fun i => (ZC (get M k i) * Y i)%C)).
  { intros k Hk. unfold com.
    rewrite (csum_ext N _ (fun q => csum N (fun r => csum N (fun i => ZC (get P k q * get K q r * get P i r) * Y i)))%C).
    2:{ intros q Hq. rewrite <- HX by exact Hq. rewrite <- csum_scal. apply csum_ext. intros r Hr. rewrite (XY r Hr).
        rewrite <- csum_scal, <- csum_scal. apply csum_ext. intros i Hi. rewrite !ZC_mul. ring. }
    rewrite (csum_ext N (fun i => ZC (get M k i) * Y i)%C (fun i => csum N (fun q => csum N (fun r => ZC (get P k q * get K q r * get P i r) * Y i)))%C).
    2:{ intros i Hi. rewrite (HC k i Hk Hi), ZC_zsum, <- csum_scal_r. apply csum_ext. intros q Hq. rewrite ZC_zsum, <- csum_scal_r. reflexivity. }
    symmetry. rewrite csum_swap. apply csum_ext. intros q Hq. apply csum_swap. }
  assert (Y0 : forall e, (e < g)%nat -> com E (2 * e) = Y (2 * e + 1)%nat).
  { intros e He. rewrite OM by lia. destruct (HM e He) as (H1 & _ & H3 & _). rewrite (csum_single N _ (2 * e + 1)) by
      (lia || (intros k Hk Ne; rewrite H3 by assumption; unfold ZC; ring)). rewrite H1. unfold ZC. ring. }
  assert (Y1 : forall e, (e < g)%nat -> com E (2 * e + 1) = (- Y (2 * e)%nat)%C).
  { intros e He. rewrite OM by lia. destruct (HM e He) as (_ & H1 & _ & H3). rewrite (csum_single N _ (2 * e)) by
      (lia || (intros k Hk Ne; rewrite H3 by assumption; unfold ZC; ring)). rewrite H1. unfold ZC. apply injective_projections; cbn; ring. }
  transitivity (csum N (fun i => (Y i * com E' i)%C)).
  - assert (SP : forall f, csum N f = (csum (2 * g) f + csum (N - 2 * g) (fun k => f (2 * g + k)%nat))%C).
    { intro f. rewrite <- csum_app. f_equal. lia. }
    rewrite (SP (fun i => (Y i * com E' i)%C)), csum_pairs.
    rewrite (csum_zero (N - 2 * g)) by (intros k Hk; rewrite HE by lia; ring).
    rewrite Cplus_0_r. apply csum_ext. intros e He. rewrite Y0, Y1 by exact He. ring.
  - unfold com. rewrite (csum_ext N _ (fun i => csum N (fun q => Y i * (ZC (get P i q) * E' q)))%C).
    2:{ intros i Hi. now rewrite csum_scal. }
    rewrite csum_swap. apply csum_ext. intros q Hq. rewrite (XY q Hq), <- csum_scal_r. apply csum_ext. intros. ring.
Qed.

(** the remaining combinations of E vanish with the remaining rows of M *)
Lemma rest_zero (E X : nat -> C) :
  (forall p, (p < N)%nat -> csum N (fun q => (ZC (get K p q) * X q)%C) = E p) ->
  (forall i j, (2 * g <= i < N)%nat -> (j < N)%nat -> get M i j = 0%Z) ->
  forall i, (2 * g <= i < N)%nat -> com E i = C0.
Proof.
  intros HX HZ k Hk. destruct HU as (Q & _ & HQ).
  set (Y := fun i => csum N (fun p => (ZC (get Q p i) * X p)%C)).
  assert (XY : forall p, (p < N)%nat -> X p = csum N (fun i => (ZC (get P i p) * Y i)%C)).
  { intros p Hp. unfold Y. rewrite (csum_ext N _ (fun i => csum N (fun q => ZC (get P i p) * (ZC (get Q q i) * X q))%C)).
    2:{ intros i Hi. now rewrite csum_scal. }
    rewrite csum_swap. rewrite (csum_single N _ p Hp).
    - rewrite (csum_ext N _ (fun i => ZC (get Q p i * get P i p) * X p)%C).
      2:{ intros i Hi. rewrite ZC_mul. ring. }
      rewrite csum_scal_r, <- ZC_zsum. rewrite (proj2 (HQ p p Hp Hp)). unfold delta. rewrite Nat.eqb_refl. unfold ZC. ring.
    - intros q Hq Ne. rewrite (csum_ext N _ (fun i => ZC (get Q q i * get P i p) * X q)%C).
      2:{ intros i Hi. rewrite ZC_mul. ring. }
      rewrite csum_scal_r, <- ZC_zsum. rewrite (proj2 (HQ q p Hq Hp)). unfold delta. destruct (Nat.eqb_spec q p); [contradiction|]. unfold ZC. ring. }
  unfold com.
  rewrite (csum_ext N _ (fun q => csum N (fun r => csum N (fun i => ZC (get P k q * get K q r * get P i r) * Y i)))%C).
  2:{ intros q Hq. rewrite <- HX by exact Hq. rewrite <- csum_scal. apply csum_ext. intros r Hr. rewrite (XY r Hr).
      rewrite <- csum_scal, <- csum_scal. apply csum_ext. intros i Hi. rewrite !ZC_mul. ring. }
  transitivity (csum N (fun i => csum N (fun q => csum N (fun r => ZC (get P k q * get K q r * get P i r) * Y i)))%C).
  { symmetry. rewrite csum_swap. apply csum_ext. intros q Hq. apply csum_swap. }
  apply csum_zero. intros i Hi. assert (E1 := HC k i ltac:(lia) Hi). rewrite HZ in E1 by assumption.
  transitivity (ZC (zsum N (fun q => zsum N (fun r => get P k q * get K q r * get P i r)))%Z * Y i)%C.
  - rewrite ZC_zsum, <- csum_scal_r. apply csum_ext. intros q Hq. rewrite ZC_zsum, <- csum_scal_r. reflexivity.
  - rewrite <- E1. unfold ZC. ring.
Qed.
End Bilinear.
