(** The whole matrix, and the basis made from it. *)
From Coq Require Import Reals Lra Lia List ZArith.
From Coquelicot Require Import Coquelicot.
From Verif Require Import CArg ModelTree ModelPeriod ModelSymp ModelInter ModelEdge SpecTree SpecInter SpecSymp SpecEdge SpecDeq SpecCross SpecGc SpecFree ModelDeq ModelCurve
  ProofTreeEx ProofAngle ProofInterMain ProofSymp ProofSympRed ProofSympMain ProofSympRank ProofLat8 ProofLat9 ProofFree ProofFree2 ProofCross2 ProofCross3 ProofCross4 ProofCross5.
Import ListNotations.
Local Open Scope R_scope.

Section Tree.
Context (nonpos neg : edge -> C -> bool) (sort : list edge -> list edge) (param : nat -> nat -> nat -> dbl) (x : list C) (m n : nat) (r : dbl) (mn : nat) (es : list edge) (r' : dbl) (mn' : nat) (ys : list ydata) (c : imat).
Hypothesis Hd : distinct x.
Hypothesis H3 : (3 <= length x)%nat.
Hypothesis Hm : (2 <= m)%nat.
Hypothesis Hn : (n < length x)%nat.
Hypothesis Hs : qsort_ok sort.
Hypothesis Ho : tells_apart x param.
Hypothesis Et : spanning_tree sort param (length x) n r mn = Done (es, r', mn').
Hypothesis Ey : tree_ydata nonpos neg x (Z.of_nat m) es = Done ys.
Hypothesis Ec : intersection_of_data ys es (Z.of_nat m) = Done c.
Let ya k := y_ya (nth k ys no_ydata).
Let yb k := y_yb (nth k ys no_ydata).
Let facts := tree_facts sort param x n r mn es r' mn' Hd H3 Hn Hs Ho Et.

Lemma rows_cell k l u v : (k < length es)%nat -> (l < length es)%nat -> (u < m - 1)%nat -> (v < m - 1)%nat ->
  get (to_rows c) (k * (m - 1) + u) (l * (m - 1) + v) = cell c (Z.of_nat k * (Z.of_nat m - 1) + Z.of_nat u) (Z.of_nat l * (Z.of_nat m - 1) + Z.of_nat v).
Proof.
  intros Hk Hl Hu Hv. assert (F := facts). destruct F as (_ & Hg & Ht & _). rewrite (rows_get x m es ys c Hm Ht Ec) by nia. f_equal; lia.
Qed.
Lemma matrix_right Y : edges_apart x es -> loop_matrix m x es ya yb Y (to_rows c).
Proof.
  intro Ha. assert (F := facts). destruct F as (Hl & Hg & Ht & _). split; [exact (rows_antisym x m es ys c Hm Ht Ec)|].
  intros k l u v Hkl Hu Hv. rewrite rows_cell by lia. apply (tree_numbers nonpos neg sort param x m n r mn es r' mn' ys c Hd H3 Hm Hn Hs Ho Et Ey Ec k l (Z.of_nat u) (Z.of_nat v)); try lia.
  intros L t t' H1 H2. apply Ha; [lia|exact H1|exact H2].
Qed.
Lemma matrix_wrong Y : sheets m x es ya yb Y -> loop_matrix m x es ya yb Y (to_rows c) -> edges_apart x es.
Proof.
  intros Hsh [_ HL] k l t t' Hkl H1 H2 E. assert (F := facts). destruct F as (Hl & _).
  destruct (tree_wrong nonpos neg sort param x m n r mn es r' mn' ys c Hd H3 Hm Hn Hs Ho Et Ey Ec k l t t' (Y k) (Y l) ltac:(lia) H1 H2 E (Hsh k ltac:(lia)) (Hsh l ltac:(lia))) as (u & v & Hu & Hv & HW).
  specialize (HL k l (Z.to_nat u) (Z.to_nat v) ltac:(lia) ltac:(lia) ltac:(lia)). rewrite rows_cell in HL by lia. rewrite !Z2Nat.id in HL by lia. exact (HW _ HL eq_refl).
Qed.
Lemma sheets_exist : exists Y, sheets m x es ya yb Y.
Proof.
  assert (F := facts). destruct F as (Hl & _).
  assert (G : forall p, (p <= length es)%nat -> exists Y : nat -> R -> C, forall k, (k < p)%nat ->
    branch_over m x (vget x (ea (nth k es no_edge))) (vget x (eb (nth k es no_edge))) (ya k) (yb k) (Y k)).
  { induction p as [|p IH]; intro Hp; [exists (fun _ _ => RtoC 0); intros; lia|]. destruct (IH ltac:(lia)) as (Y & HY).
    destruct (tree_branch nonpos neg sort param x m n r mn es r' mn' ys c Hd H3 Hm Hn Hs Ho Et Ey p ltac:(lia)) as (Yp & Hp').
    exists (fun k => if (k =? p)%nat then Yp else Y k). intros k Hk. destruct (Nat.eqb_spec k p) as [->|N]; [exact Hp'|apply HY; lia]. }
  destruct (G (length es) ltac:(lia)) as (Y & HY). exists Y. exact HY.
Qed.
End Tree.

Lemma decode_nat w n i : (i < n * w)%nat -> exists k u, (k < n)%nat /\ (u < w)%nat /\ i = (k * w + u)%nat.
Proof.
  intro H. assert (w <> 0)%nat by nia. exists (i / w)%nat, (i mod w)%nat. split; [apply Nat.div_lt_upper_bound; lia|]. split; [now apply Nat.mod_upper_bound|]. rewrite (Nat.div_mod i w) at 1 by assumption. lia.
Qed.
Theorem matrix_unique m x es ya yb Y T T' : loop_matrix m x es ya yb Y T -> loop_matrix m x es ya yb Y T' ->
  forall i j, (i < length es * (m - 1))%nat -> (j < length es * (m - 1))%nat -> get T i j = get T' i j.
Proof.
  intros [A H] [A' H'] i j Hi Hj. destruct (decode_nat _ _ _ Hi) as (k & u & Hk & Hu & Ei). destruct (decode_nat _ _ _ Hj) as (l & v & Hl & Hv & Ej).
  destruct (Nat.le_ge_cases k l) as [L|L].
  - rewrite Ei, Ej. eapply number_unique; [apply H|apply H']; lia.
  - rewrite (A i j Hi Hj), (A' i j Hi Hj), Ei, Ej. f_equal. eapply number_unique; [apply H|apply H']; lia.
Qed.

(** ** bases *)
Local Open Scope Z_scope.
Lemma congruent_back r p q m d : (forall i j, (i < r)%nat -> (j < r)%nat -> zsum r (fun k => get q i k * get p k j) = delta i j) -> congruent r p m d ->
  forall a b, (a < r)%nat -> (b < r)%nat -> get m a b = zsum r (fun i => get q a i * zsum r (fun j => get d i j * get q b j)).
Proof.
  intros Hq Hc a b Ha Hb.
  assert (S1 : forall i, (i < r)%nat -> zsum r (fun j => get d i j * get q b j) = zsum r (fun k => get p i k * get m k b)).
  { intros i Hi. transitivity (zsum r (fun j => zsum r (fun l => zsum r (fun k => get p i k * get m k l) * (get q b j * get p j l)))).
    - apply zsum_ext. intros j Hj. rewrite Hc by assumption. rewrite <- zsum_scal_r.
      transitivity (zsum r (fun k => zsum r (fun l => get p i k * get m k l * (get q b j * get p j l)))).
      + apply zsum_ext. intros k Hk. rewrite <- zsum_scal_r. apply zsum_ext. intros l Hl. ring.
      + rewrite zsum_swap. apply zsum_ext. intros l Hl. now rewrite zsum_scal_r.
    - rewrite zsum_swap. transitivity (zsum r (fun l => zsum r (fun k => get p i k * get m k l) * delta b l)).
      + apply zsum_ext. intros l Hl. rewrite <- (Hq b l Hb Hl). now rewrite zsum_scal.
      + transitivity (zsum r (fun l => delta b l * zsum r (fun k => get p i k * get m k l))); [apply zsum_ext; intros; ring|]. now rewrite zsum_delta_l. }
  transitivity (zsum r (fun i => get q a i * zsum r (fun k => get p i k * get m k b))); [|symmetry; apply zsum_ext; intros i Hi; now rewrite S1].
  transitivity (zsum r (fun i => zsum r (fun k => get q a i * get p i k * get m k b))).
  - rewrite zsum_swap. rewrite <- (zsum_delta_l r a (fun k => get m k b) Ha). apply zsum_ext. intros k Hk. rewrite zsum_scal_r. now rewrite Hq.
  - apply zsum_ext. intros i Hi. rewrite <- zsum_scal. apply zsum_ext. intros k Hk. ring.
Qed.
Lemma congruent_inj r p m m' d d' : unimodular r p -> congruent r p m d -> congruent r p m' d' -> (forall i j, (i < r)%nat -> (j < r)%nat -> get d i j = get d' i j) ->
  forall a b, (a < r)%nat -> (b < r)%nat -> get m a b = get m' a b.
Proof.
  intros (q & _ & Hq) Hc Hc' E a b Ha Hb. assert (Hq2 : forall i j, (i < r)%nat -> (j < r)%nat -> zsum r (fun k => get q i k * get p k j) = delta i j) by (intros; now apply Hq).
  rewrite (congruent_back r p q m d Hq2 Hc a b Ha Hb), (congruent_back r p q m' d' Hq2 Hc' a b Ha Hb).
  apply zsum_ext. intros i Hi. f_equal. apply zsum_ext. intros j Hj. now rewrite E.
Qed.
Lemma canonical_unique g d d' i j : canonical (2 * g) g d -> canonical (2 * g) g d' -> (i < 2 * g)%nat -> (j < 2 * g)%nat -> get d i j = get d' i j.
Proof.
  intros H H' Hi Hj. destruct (Nat.Even_or_Odd i) as [[e ->]|[e ->]].
  - destruct (H e ltac:(lia)) as (A1 & A2 & A3 & A4). destruct (H' e ltac:(lia)) as (B1 & B2 & B3 & B4).
    destruct (Nat.eq_dec j (2 * e + 1)) as [->|N]; [congruence|]. now rewrite A3, B3 by assumption.
  - destruct (H e ltac:(lia)) as (A1 & A2 & A3 & A4). destruct (H' e ltac:(lia)) as (B1 & B2 & B3 & B4).
    destruct (Nat.eq_dec j (2 * e)) as [->|N]; [congruence|]. now rewrite A4, B4 by assumption.
Qed.
Lemma matrix_ext m x es ya yb Y T T' : loop_matrix m x es ya yb Y T -> (forall i j, (i < length es * (m - 1))%nat -> (j < length es * (m - 1))%nat -> get T i j = get T' i j) ->
  loop_matrix m x es ya yb Y T'.
Proof.
  intros [A H] E. split; [intros i j Hi Hj; rewrite <- !E by assumption; now apply A|]. intros k l u v Hkl Hu Hv. rewrite <- E by nia. now apply H.
Qed.

(** with as many loops as the rank of the form, the basis is canonical for the true numbers only
    if the matrix was right *)
Lemma basis_wrong m x es ya yb Y K s g M T :
  (length es * (m - 1) = 2 * g)%nat -> unimodular (2 * g) (stP s) -> congruent (2 * g) (stP s) K (stM s) -> canonical (2 * g) g (stM s) ->
  loop_matrix m x es ya yb Y T -> congruent (2 * g) (stP s) T M -> canonical (2 * g) g M -> loop_matrix m x es ya yb Y K.
Proof.
  intros Hr Hu Hc Hk HT HM Hk'. apply (matrix_ext _ _ _ _ _ _ T); [exact HT|]. rewrite Hr. apply (congruent_inj (2 * g) (stP s) T K M (stM s) Hu HM Hc).
  intros i j Hi Hj. now apply (canonical_unique g).
Qed.
Lemma basis_right m x es ya yb Y K s g M T : let r := (length es * (m - 1))%nat in
  congruent r (stP s) K (stM s) -> canonical r g (stM s) -> (2 * g <= r)%nat ->
  loop_matrix m x es ya yb Y K -> loop_matrix m x es ya yb Y T -> congruent r (stP s) T M -> canonical r g M.
Proof.
  intros r Hc Hk Hg HK HT HM.
  assert (E : forall i j, (i < r)%nat -> (j < r)%nat -> get M i j = get (stM s) i j).
  { intros i j Hi Hj. rewrite Hc, HM by assumption. apply zsum_ext. intros k Hk'. apply zsum_ext. intros l Hl. now rewrite (matrix_unique m x es ya yb Y T K HT HK k l Hk' Hl). }
  intros e He. destruct (Hk e He) as (A1 & A2 & A3 & A4). rewrite !E by lia. split; [exact A1|]. split; [exact A2|]. split; intros j Hj N; rewrite E by lia; auto.
Qed.
