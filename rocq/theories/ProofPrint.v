From Coq Require Import Reals List ZArith Lra Lia.
From Verif Require Import ModelPrint SpecPrint.
Import ListNotations.

(** invariant along a row: entries of columns < j0 seen, the rest in the list *)
Definition rmax (e : R * R) : R := Rmax (fst e) (snd e).

Lemma error_row_spec i : forall row j0 mag im jm,
  exists mag' im' jm', error_row i (Z.of_nat j0) row (mag, im, jm) = (mag', im', jm') /\ (mag <= mag')%R /\
    (forall j e, nth_error row j = Some e -> (rmax e <= mag')%R) /\
    ((mag' = mag /\ im' = im /\ jm' = jm) \/
     (exists j e, nth_error row j = Some e /\ rmax e = mag' /\ im' = i /\ jm' = Z.of_nat (j0 + j) /\ (mag < mag')%R /\
        forall k e', (k < j)%nat -> nth_error row k = Some e' -> (rmax e' < mag')%R)).
Proof.
  induction row as [|e row IH]; intros j0 mag im jm; cbn [error_row].
  - exists mag, im, jm. split; [reflexivity|]. split; [lra|]. split; [intros [|j] e H; discriminate|left; auto].
  - replace (Z.of_nat j0 + 1)%Z with (Z.of_nat (S j0)) by lia. unfold error_step. fold (rmax e).
    destruct (Rlt_dec mag (rmax e)) as [Hlt|Hge].
    + destruct (IH (S j0) (rmax e) i (Z.of_nat j0)) as (mag' & im' & jm' & E & H1 & H2 & H3).
      exists mag', im', jm'. split; [exact E|]. split; [lra|]. split.
      * intros [|j] e' H; cbn in H; [injection H as <-; exact H1|exact (H2 j e' H)].
      * right. destruct H3 as [(-> & -> & ->)|(j & e' & K1 & K2 & K3 & K4 & K5 & K6)].
        -- exists 0%nat, e. cbn. rewrite Nat.add_0_r. repeat split; try assumption. intros k e' Hk. lia.
        -- exists (S j), e'. cbn. split; [exact K1|]. split; [exact K2|]. split; [exact K3|]. split; [lia|]. split; [lra|].
           intros [|k] e2 Hk He; cbn in He; [injection He as <-; lra|apply (K6 k e2); [lia|exact He]].
    + destruct (IH (S j0) mag im jm) as (mag' & im' & jm' & E & H1 & H2 & H3).
      exists mag', im', jm'. split; [exact E|]. split; [lra|]. split.
      * intros [|j] e' H; cbn in H; [injection H as <-; lra|exact (H2 j e' H)].
      * destruct H3 as [H3|(j & e' & K1 & K2 & K3 & K4 & K5 & K6)]; [left; exact H3|right].
        exists (S j), e'. cbn. split; [exact K1|]. split; [exact K2|]. split; [exact K3|]. split; [lia|]. split; [lra|].
        intros [|k] e2 Hk He; cbn in He; [injection He as <-; lra|apply (K6 k e2); [lia|exact He]].
Qed.

Lemma error_rows_spec : forall m i0 mag im jm,
  exists mag' im' jm', error_rows (Z.of_nat i0) m (mag, im, jm) = (mag', im', jm') /\ (mag <= mag')%R /\
    (forall i j e, entry m i j = Some e -> (rmax e <= mag')%R) /\
    ((mag' = mag /\ im' = im /\ jm' = jm) \/
     (exists i j e, entry m i j = Some e /\ rmax e = mag' /\ im' = Z.of_nat (i0 + i) /\ jm' = Z.of_nat j /\ (mag < mag')%R /\
        forall i' j' e', before i' j' i j -> entry m i' j' = Some e' -> (rmax e' < mag')%R)).
Proof.
  induction m as [|row m IH]; intros i0 mag im jm; cbn [error_rows].
  - exists mag, im, jm. split; [reflexivity|]. split; [lra|]. split; [intros [|i] j e H; discriminate|left; auto].
  - replace (Z.of_nat i0 + 1)%Z with (Z.of_nat (S i0)) by lia.
    destruct (error_row_spec (Z.of_nat i0) row 0 mag im jm) as (m1 & i1 & j1 & E1 & A1 & A2 & A3).
    change (Z.of_nat 0) with 0%Z in E1. rewrite E1.
    destruct (IH (S i0) m1 i1 j1) as (mag' & im' & jm' & E & H1 & H2 & H3).
    exists mag', im', jm'. split; [exact E|]. split; [lra|]. split.
    + intros [|i] j e H; unfold entry in H; cbn in H; [specialize (A2 j e H); lra|exact (H2 i j e H)].
    + destruct H3 as [(-> & -> & ->)|(i & j & e & K1 & K2 & K3 & K4 & K5 & K6)].
      * destruct A3 as [A3|(j & e & K1 & K2 & K3 & K4 & K5 & K6)]; [left; exact A3|right].
        exists 0%nat, j, e. unfold entry. cbn. split; [exact K1|]. split; [exact K2|]. split; [lia|]. split; [lia|]. split; [lra|].
        intros i' j' e' [Hb|[-> Hb]] He; [lia|]. cbn in He. exact (K6 j' e' Hb He).
      * right. exists (S i), j, e. unfold entry. cbn. split; [exact K1|]. split; [exact K2|]. split; [lia|]. split; [exact K4|].
        split; [lra|]. intros [|i'] j' e' Hb He; cbn in He.
        -- specialize (A2 j' e' He). lra.
        -- apply (K6 i' j' e'); [|exact He]. unfold before in *. lia.
Qed.

Lemma print_error_spec m : exists mag im jm, print_error m = (mag, im, jm) /\ (0 <= mag)%R /\
  (forall i j e, entry m i j = Some e -> (rmax e <= mag)%R) /\
  ((mag = 0%R /\ im = (-1)%Z /\ jm = (-1)%Z) \/
   (exists i j e, entry m i j = Some e /\ rmax e = mag /\ im = Z.of_nat i /\ jm = Z.of_nat j /\ (0 < mag)%R /\
      forall i' j' e', before i' j' i j -> entry m i' j' = Some e' -> (rmax e' < mag)%R)).
Proof. exact (error_rows_spec m 0 0%R (-1)%Z (-1)%Z). Qed.

Lemma max_position m : (exists i j e, entry m i j = Some e /\ (0 < Rmax (fst e) (snd e))%R) ->
  exists i j e, entry m i j = Some e /\ print_error m = (Rmax (fst e) (snd e), Z.of_nat i, Z.of_nat j) /\
    (forall i' j' e', entry m i' j' = Some e' -> (fst e' <= Rmax (fst e) (snd e) /\ snd e' <= Rmax (fst e) (snd e))%R) /\
    (forall i' j' e', before i' j' i j -> entry m i' j' = Some e' -> (Rmax (fst e') (snd e') < Rmax (fst e) (snd e))%R).
Proof.
  intros (i0 & j0 & e0 & H0 & P0). destruct (print_error_spec m) as (mag & im & jm & E & _ & H2 & H3).
  destruct H3 as [(-> & _)|(i & j & e & K1 & K2 & -> & -> & _ & K6)].
  - specialize (H2 _ _ _ H0). unfold rmax in H2. lra.
  - exists i, j, e. unfold rmax in *. rewrite K2. split; [exact K1|]. split; [exact E|]. split; [|exact K6].
    intros i' j' e' He. specialize (H2 _ _ _ He). pose proof (Rmax_l (fst e') (snd e')). pose proof (Rmax_r (fst e') (snd e')). lra.
Qed.
Lemma exact_matrix m : (forall i j e, entry m i j = Some e -> e = (0%R, 0%R)) -> print_error m = (0%R, (-1)%Z, (-1)%Z).
Proof.
  intros H. destruct (print_error_spec m) as (mag & im & jm & E & _ & _ & H3). rewrite E.
  destruct H3 as [(-> & -> & ->)|(i & j & e & K1 & K2 & _ & _ & K5 & _)]; [reflexivity|].
  apply H in K1. subst e. unfold rmax in K2. cbn in K2. rewrite Rmax_left in K2 by lra. lra.
Qed.
