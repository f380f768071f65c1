From Coq Require Import Reals Lra Lia.
From Coquelicot Require Import Coquelicot.
From Verif Require Import CBase CArg ModelPeriod SpecRiem.
Local Open Scope R_scope.
Notation C0 := (RtoC 0).
Notation C1 := (RtoC 1).

(** n + 1 vectors of length n are dependent *)
Lemma dependent n : forall f : nat -> nat -> C, exists c : nat -> C, (exists i, (i <= n)%nat /\ c i <> C0) /\
  forall k, (k < n)%nat -> csum (S n) (fun i => (c i * f i k)%C) = C0.
Proof.
  induction n as [|n IH]; intros f.
  { exists (fun _ => C1). split; [|intros; lia]. exists O. split; [lia|]. intro H. injection H. lra. }
  assert (D : (forall i, (i <= S n)%nat -> f i n = C0) \/ exists p, (p <= S n)%nat /\ f p n <> C0).
  { clear IH. generalize (S n) as b. induction b as [|b IHb].
    - destruct (Ceq_dec (f O n) C0) as [E|E]; [left; intros i Hi; now replace i with O by lia|right; exists O; split; [lia|exact E]].
    - destruct IHb as [IHb|(p & Hp & E)]; [|right; exists p; split; [lia|exact E]].
      destruct (Ceq_dec (f (S b) n) C0) as [E|E]; [|right; exists (S b); split; [lia|exact E]].
      left. intros i Hi. destruct (Nat.eq_dec i (S b)) as [->|Ne]; [exact E|apply IHb; lia]. }
  destruct D as [D|(p & Hp & Ep)].
  - destruct (IH f) as (c & (i & Hi & Ci) & Hc).
    exists (fun i => if Nat.leb i n then c i else C0). split.
    + exists i. split; [lia|]. destruct (Nat.leb_spec i n); [exact Ci|lia].
    + intros k Hk. destruct (Nat.eq_dec k n) as [->|Ne].
      * apply csum_zero. intros q Hq. rewrite D by lia. ring.
      * change (csum (S (S n)) ?h) with (csum (S n) h + h (S n))%C. cbv beta. destruct (Nat.leb_spec (S n) n); [lia|].
        transitivity (csum (S n) (fun i => c i * f i k)%C); [|apply Hc; lia]. rewrite Cmult_0_l, Cplus_0_r. apply csum_ext. intros q Hq. destruct (Nat.leb_spec q n); [reflexivity|lia].
  - (* skip p: the q-th of the others *)
    set (sk := fun q => if Nat.ltb q p then q else S q).
    set (h := fun q k => (f (sk q) k - f (sk q) n / f p n * f p k)%C).
    destruct (IH h) as (c & (i & Hi & Ci) & Hc).
    set (un := fun q => if Nat.ltb q p then q else (q - 1)%nat).
    set (cp := (- csum (S n) (fun q => c q * (f (sk q) n / f p n)))%C).
    exists (fun q => if Nat.eqb q p then cp else c (un q)).
    assert (SK : forall F : nat -> C, csum (S (S n)) F = (F p + csum (S n) (fun q => F (sk q)))%C).
    { intro F. replace (S (S n)) with (p + S (S n - p))%nat by lia. rewrite csum_app, csum_S_l.
      replace (S n) with (p + (S n - p))%nat at 2 by lia. rewrite csum_app.
      rewrite (csum_ext p (fun q => F (sk q)) F).
      2:{ intros q Hq. unfold sk. destruct (Nat.ltb_spec q p); [reflexivity|lia]. }
      rewrite (csum_ext (S n - p) (fun k => F (sk (p + k)%nat)) (fun k => F (p + S k)%nat)).
      2:{ intros q Hq. unfold sk. destruct (Nat.ltb_spec (p + q) p); [lia|]. f_equal. lia. }
      rewrite Nat.add_0_r. ring. }
    assert (US : forall q, un (sk q) = q /\ Nat.eqb (sk q) p = false).
    { intro q. unfold un, sk. destruct (Nat.ltb_spec q p).
      - destruct (Nat.ltb_spec q p); [|lia]. split; [reflexivity|apply Nat.eqb_neq; lia].
      - destruct (Nat.ltb_spec (S q) p); [lia|]. split; [lia|apply Nat.eqb_neq; lia]. }
    split.
    + exists (sk i). split; [unfold sk; destruct (Nat.ltb_spec i p); lia|]. destruct (US i) as [-> ->]. exact Ci.
    + intros k Hk. rewrite SK. rewrite Nat.eqb_refl.
      rewrite (csum_ext (S n) _ (fun q => (c q * h q k + c q * (f (sk q) n / f p n) * f p k)%C)).
      2:{ intros q Hq. destruct (US q) as [-> ->]. unfold h. ring. }
      rewrite csum_add, csum_scal_r. fold cp.
      assert (csum (S n) (fun q => c q * h q k)%C = C0) as ->.
      { destruct (Nat.eq_dec k n) as [->|Ne]; [|apply Hc; lia].
        apply csum_zero. intros q Hq. unfold h. field. exact Ep. }
      unfold cp. ring.
Qed.

Section Linear.
Variable g : nat.

(** independent rows span everything *)
Lemma span (a : nat -> nat -> C) : nonsingular g a -> forall u : nat -> C, exists y : nat -> C,
  forall k, (k < g)%nat -> csum g (fun i => (y i * a i k)%C) = u k.
Proof.
  intros H u. destruct (dependent g (fun i k => if Nat.eqb i g then u k else a i k)) as (c & (i & Hi & Ci) & Hc).
  assert (Hc' : forall k, (k < g)%nat -> (csum g (fun i => c i * a i k) + c g * u k)%C = C0).
  { intros k Hk. rewrite <- (Hc k Hk). change (csum (S g) ?h) with (csum g h + h g)%C. cbv beta. rewrite Nat.eqb_refl. f_equal.
    apply csum_ext. intros q Hq. destruct (Nat.eqb_spec q g); [lia|reflexivity]. }
  destruct (Ceq_dec (c g) C0) as [E|E].
  - exfalso. apply Ci. destruct (Nat.eq_dec i g) as [->|Ne]; [exact E|].
    apply (H c); [|lia]. intros k Hk. rewrite <- (Hc' k Hk), E. ring.
  - exists (fun i => (- / c g * c i)%C). intros k Hk.
    rewrite (csum_ext g _ (fun i => (- / c g * (c i * a i k))%C)) by (intros; ring).
    rewrite csum_scal. replace (u k) with (- / c g * (- (c g * u k)))%C by (field; exact E). f_equal.
    replace (csum g (fun i => c i * a i k)%C) with ((csum g (fun i => c i * a i k) + c g * u k) - c g * u k)%C by ring.
    rewrite Hc' by exact Hk. ring.
Qed.

(** trivial left kernel implies trivial right kernel *)
Lemma nonsing_right (a : nat -> nat -> C) : nonsingular g a -> forall x : nat -> C,
  (forall i, (i < g)%nat -> csum g (fun k => (a i k * x k)%C) = C0) -> forall k, (k < g)%nat -> x k = C0.
Proof.
  intros H x Hx k Hk. destruct (span a H (fun q => if Nat.eqb q k then C1 else C0)) as (y & Hy).
  transitivity (csum g (fun q => (if Nat.eqb q k then C1 else C0) * x q)%C).
  { symmetry. rewrite (csum_single g _ k Hk); [rewrite Nat.eqb_refl; ring|].
    intros q Hq Ne. apply Nat.eqb_neq in Ne. rewrite Ne. ring. }
  rewrite (csum_ext g _ (fun q => csum g (fun i => y i * a i q * x q)%C)).
  2:{ intros q Hq. rewrite <- Hy by exact Hq. now rewrite csum_scal_r. }
  rewrite csum_swap. apply csum_zero. intros i Hi.
  rewrite (csum_ext g _ (fun q => y i * (a i q * x q))%C) by (intros; ring). rewrite csum_scal, Hx by exact Hi. ring.
Qed.

Lemma solvable (a b : nat -> nat -> C) : nonsingular g a -> exists x, solves g a x b.
Proof.
  intros H.
  assert (HT : nonsingular g (fun i k => a k i)).
  { intros v Hv i Hi. apply (nonsing_right a H v); [|exact Hi]. intros q Hq. rewrite <- (Hv q Hq). apply csum_ext. intros. ring. }
  assert (HS : forall k, exists y : nat -> C, forall i, (i < g)%nat -> csum g (fun l => (y l * a i l)%C) = b i k).
  { intro k. destruct (span _ HT (fun i => b i k)) as (y & Hy). exists y. exact Hy. }
  assert (E : exists x : nat -> nat -> C, forall k, (k < g)%nat -> forall i, (i < g)%nat -> csum g (fun l => (x k l * a i l)%C) = b i k).
  { clear H HT. generalize g at 1 as n. induction n as [|n (x & IH)].
    - exists (fun _ _ => C0). intros; lia.
    - destruct (HS n) as (y & Hy). exists (fun k => if Nat.eqb k n then y else x k). intros k Hk i Hi.
      destruct (Nat.eqb_spec k n) as [->|Ne]; [apply Hy, Hi|apply IH; lia]. }
  destruct E as (x & Ex). exists (fun l k => x k l). intros i k Hi Hk. rewrite <- (Ex k Hk i Hi). apply csum_ext. intros. ring.
Qed.

(** * The relations imply that the quotient is a Riemann matrix *)
Variables A B : nat -> nat -> C.
Variable h : nat -> R.
Hypothesis Hh : forall j, (j < g)%nat -> 0 < h j.
Hypothesis R1 : forall j l, (j < g)%nat -> (l < g)%nat -> csum g (fun k => (A j k * B l k - B j k * A l k)%C) = C0.
Hypothesis R2 : forall j l, (j < g)%nat -> (l < g)%nat ->
  csum g (fun k => (A j k * Cconj (B l k) - B j k * Cconj (A l k))%C) = if Nat.eqb j l then (0, - h j) else C0.

Lemma Cplus_conj (a b : C) : Cconj (a + b)%C = (Cconj a + Cconj b)%C.
Proof. destruct a, b. unfold Cconj, Cplus. cbn. f_equal. ring. Qed.
Lemma Cmult_conj (a b : C) : Cconj (a * b)%C = (Cconj a * Cconj b)%C.
Proof. destruct a, b. unfold Cconj, Cmult. cbn. f_equal; ring. Qed.
Lemma Cconj_csum n f : Cconj (csum n f) = csum n (fun k => Cconj (f k)).
Proof. induction n as [|n IH]; cbn [csum]; [unfold Cconj, RtoC; cbn; f_equal; ring|]. rewrite Cplus_conj. now rewrite IH. Qed.

Lemma snd_csum n f : snd (csum n f) = rsum n (fun k => snd (f k)).
Proof. induction n as [|n IH]; cbn [csum rsum]; [reflexivity|]. now rewrite <- IH. Qed.
Lemma fst_csum n f : fst (csum n f) = rsum n (fun k => fst (f k)).
Proof. induction n as [|n IH]; cbn [csum rsum]; [reflexivity|]. now rewrite <- IH. Qed.

Lemma rsum_ext n f f' : (forall k, (k < n)%nat -> f k = f' k) -> rsum n f = rsum n f'.
Proof. induction n as [|n IH]; intros H; cbn; [reflexivity|]. rewrite IH, H; [reflexivity|lia|intros; apply H; lia]. Qed.
Lemma rsum_scal c n f : rsum n (fun k => c * f k) = c * rsum n f.
Proof. induction n as [|n IH]; cbn; [ring|rewrite IH; ring]. Qed.
Lemma rsum_nonneg n f : (forall k, (k < n)%nat -> 0 <= f k) -> 0 <= rsum n f.
Proof. induction n as [|n IH]; intros H; cbn; [lra|]. assert (0 <= f n) by (apply H; lia). assert (0 <= rsum n f) by (apply IH; intros; apply H; lia). lra. Qed.
Lemma rsum_pos n f : (forall k, (k < n)%nat -> 0 <= f k) -> forall i, (i < n)%nat -> 0 < f i -> 0 < rsum n f.
Proof.
  induction n as [|n IH]; intros H i Hi P; [lia|]. cbn. assert (0 <= f n) by (apply H; lia).
  assert (0 <= rsum n f) by (apply rsum_nonneg; intros; apply H; lia).
  destruct (Nat.eq_dec i n) as [->|Ne]; [lra|]. assert (0 < rsum n f) by (apply (IH ltac:(intros; apply H; lia) i); [lia|exact P]). lra.
Qed.

(** the Hermitian form on a combination y of the rows *)
Lemma form (y : nat -> C) :
  csum g (fun k => (csum g (fun i => y i * A i k) * Cconj (csum g (fun i => y i * B i k)) -
                    csum g (fun i => y i * B i k) * Cconj (csum g (fun i => y i * A i k)))%C) =
  (0, - rsum g (fun i => h i * (fst (y i) * fst (y i) + snd (y i) * snd (y i)))).
Proof.
  rewrite (csum_ext g _ (fun k => csum g (fun j => csum g (fun l => y j * Cconj (y l) * (A j k * Cconj (B l k) - B j k * Cconj (A l k))))%C)).
  2:{ intros k Hk. rewrite !Cconj_csum, <- !csum_scal_r. rewrite (csum_ext g (fun j => csum g (fun l => y j * Cconj (y l) * (A j k * Cconj (B l k) - B j k * Cconj (A l k))))%C
        (fun j => (y j * A j k * csum g (fun l => Cconj (y l * B l k))) + (- (C1)) * (y j * B j k * csum g (fun l => Cconj (y l * A l k))))%C).
      - rewrite csum_add, csum_scal. ring.
      - intros j Hj. rewrite <- !csum_scal, <- csum_add. apply csum_ext. intros l Hl. rewrite !Cmult_conj. ring. }
  rewrite csum_swap.
  rewrite (csum_ext g _ (fun j => (0, - (h j * (fst (y j) * fst (y j) + snd (y j) * snd (y j)))))).
  { apply injective_projections; [rewrite fst_csum|rewrite snd_csum]; cbn.
    - clear. induction g as [|n IH]; cbn; [reflexivity|]. rewrite IH. ring.
    - clear. induction g as [|n IH]; cbn; [ring|]. rewrite IH. ring. }
  intros j Hj. rewrite csum_swap. rewrite (csum_single g _ j Hj).
  - rewrite csum_scal, R2, Nat.eqb_refl by assumption. destruct (y j) as [a b]. unfold Cconj, Cmult. cbn. f_equal; ring.
  - intros l Hl Ne. rewrite csum_scal, R2 by assumption. destruct (Nat.eqb_spec j l); [congruence|]. ring.
Qed.

Lemma sq_zero (z : C) : fst z * fst z + snd z * snd z = 0 -> z = C0.
Proof. destruct z as [a b]. cbn. intro H. assert (a = 0) by nra. assert (b = 0) by nra. now subst. Qed.
Lemma sq_pos (z : C) : z <> C0 -> 0 < fst z * fst z + snd z * snd z.
Proof. intros H. destruct (Rle_lt_or_eq_dec 0 (fst z * fst z + snd z * snd z)) as [P|P]; [nra|exact P|]. exfalso. apply H, sq_zero. lra. Qed.

Lemma relations_nonsing : nonsingular g A.
Proof.
  intros v Hv i Hi. destruct (Ceq_dec (v i) C0) as [E|E]; [exact E|exfalso].
  assert (F := form v). rewrite csum_zero in F.
  2:{ intros k Hk. rewrite Hv by exact Hk. unfold Cconj, RtoC. cbn. apply injective_projections; cbn; ring. }
  injection F as F. assert (0 < rsum g (fun i => h i * (fst (v i) * fst (v i) + snd (v i) * snd (v i)))); [|lra].
  apply (rsum_pos g _) with (i := i); [|exact Hi|].
  - intros k Hk. specialize (Hh k Hk). nra.
  - apply Rmult_lt_0_compat; [apply Hh, Hi|apply sq_pos, E].
Qed.

Lemma relations_riemann tau : solves g A tau B -> riemann_matrix g tau.
Proof.
  intros S. assert (NS := relations_nonsing).
  assert (Sym : forall i k, (i < g)%nat -> (k < g)%nat -> tau i k = tau k i).
  { (* A D A^T = 0 with D = tau^T - tau *)
    set (D := fun p q => (tau q p - tau p q)%C).
    assert (Z1 : forall j l, (j < g)%nat -> (l < g)%nat -> csum g (fun q => A l q * csum g (fun p => A j p * D p q))%C = C0).
    { intros j l Hj Hl.
      assert (E := R1 j l Hj Hl).
      rewrite (csum_ext g _ (fun k => A j k * csum g (fun p => A l p * tau p k) + (- C1) * (csum g (fun p => A j p * tau p k) * A l k))%C) in E.
      2:{ intros k Hk. rewrite !S by assumption. ring. }
      rewrite csum_add, csum_scal in E.
      rewrite (csum_ext g (fun k => A j k * csum g (fun p => A l p * tau p k))%C (fun k => csum g (fun p => A l p * (A j k * tau p k)))%C) in E.
      2:{ intros k Hk. rewrite <- csum_scal. apply csum_ext. intros. ring. }
      rewrite csum_swap in E.
      rewrite (csum_ext g _ (fun q => A l q * csum g (fun p => A j p * tau q p) + (- C1) * (csum g (fun p => A j p * tau p q) * A l q))%C).
      2:{ intros q Hq. unfold D. rewrite (csum_ext g (fun p => A j p * (tau q p - tau p q))%C (fun p => A j p * tau q p + (- C1) * (A j p * tau p q))%C) by (intros; ring).
          rewrite csum_add, csum_scal. ring. }
      rewrite csum_add, csum_scal. rewrite <- E. f_equal. apply csum_ext. intros q Hq. now rewrite csum_scal. }
    assert (Z2 : forall j q, (j < g)%nat -> (q < g)%nat -> csum g (fun p => A j p * D p q)%C = C0).
    { intros j q Hj Hq. apply (nonsing_right A NS (fun q => csum g (fun p => A j p * D p q)%C)); [|exact Hq]. intros l Hl. apply Z1; assumption. }
    assert (Z3 : forall p q, (p < g)%nat -> (q < g)%nat -> D p q = C0).
    { intros p q Hp Hq. apply (nonsing_right A NS (fun p => D p q)); [|exact Hp]. intros j Hj. apply Z2; assumption. }
    intros i k Hi Hk. assert (E := Z3 k i Hk Hi). unfold D in E. replace (tau i k) with (tau i k - tau k i + tau k i)%C by ring. rewrite E. ring. }
  split; [exact Sym|].
  intros v (i0 & Hi0 & V0).
  destruct (span A NS (fun k => RtoC (v k))) as (y & Hy).
  assert (F := form y).
  rewrite (csum_ext g _ (fun k => csum g (fun l => RtoC (v k * v l) * (Cconj (tau l k) - tau l k))%C)) in F.
  2:{ intros k Hk. rewrite !Hy by exact Hk.
      assert (EB : csum g (fun i => y i * B i k)%C = csum g (fun l => RtoC (v l) * tau l k)%C).
      { rewrite (csum_ext g _ (fun i => csum g (fun l => y i * A i l * tau l k)%C)).
        - rewrite csum_swap. apply csum_ext. intros l Hl. rewrite csum_scal_r. now rewrite Hy.
        - intros i Hi. rewrite <- S by assumption. rewrite <- csum_scal. apply csum_ext. intros. ring. }
      rewrite EB, Cconj_csum.
      replace (Cconj (RtoC (v k))) with (RtoC (v k)) by (unfold Cconj, RtoC; cbn; f_equal; ring).
      rewrite (csum_ext g (fun l => RtoC (v k * v l) * (Cconj (tau l k) - tau l k))%C
        (fun l => RtoC (v k) * Cconj (RtoC (v l) * tau l k) + (- C1) * (RtoC (v l) * tau l k * RtoC (v k)))%C).
      - rewrite csum_add, !csum_scal, csum_scal_r. ring.
      - intros l Hl. rewrite Cmult_conj. replace (Cconj (RtoC (v l))) with (RtoC (v l)) by (unfold Cconj, RtoC; cbn; f_equal; ring).
        rewrite RtoC_mult. ring. }
  assert (F2 := f_equal snd F). rewrite snd_csum in F2. cbn [snd] in F2.
  rewrite (rsum_ext g _ (fun k => -2 * rsum g (fun l => v k * v l * snd (tau k l)))) in F2.
  2:{ intros k Hk. rewrite snd_csum. clear F F2 Hy.
      rewrite (rsum_ext g _ (fun l => -2 * (v k * v l * snd (tau k l)))).
      - apply rsum_scal.
      - intros l Hl. rewrite (Sym l k Hl Hk). destruct (tau k l) as [a b]. cbn. ring. }
  rewrite rsum_scal in F2.
  assert (Y : exists i, (i < g)%nat /\ y i <> C0).
  { assert (D : (forall i, (i < g)%nat -> y i = C0) \/ exists i, (i < g)%nat /\ y i <> C0).
    { clear. generalize g as n. induction n as [|n [IH|(i & Hi & E)]]; [left; intros; lia| |right; exists i; split; [lia|exact E]].
      destruct (Ceq_dec (y n) C0) as [E|E]; [left|right; exists n; split; [lia|exact E]].
      intros i Hi. destruct (Nat.eq_dec i n) as [->|Ne]; [exact E|apply IH; lia]. }
    destruct D as [D|D]; [exfalso|exact D]. apply V0. assert (E := Hy i0 Hi0). rewrite csum_zero in E.
    - now injection E.
    - intros i Hi. rewrite D by exact Hi. ring. }
  destruct Y as (i & Hi & Yi).
  assert (0 < rsum g (fun i => h i * (fst (y i) * fst (y i) + snd (y i) * snd (y i)))); [|lra].
  apply (rsum_pos g _) with (i := i); [|exact Hi|].
  - intros k Hk. specialize (Hh k Hk). nra.
  - apply Rmult_lt_0_compat; [apply Hh, Hi|apply sq_pos, Yi].
Qed.
End Linear.
