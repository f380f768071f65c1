(** A continuous function on a closed and bounded part of the plane has a maximum.
    No choice is used: the point is found coordinate by coordinate as a least upper bound. *)
From Coq Require Import Reals Lra Lia.
From Coquelicot Require Import Coquelicot.
From Verif Require Import CArg.
Local Open Scope R_scope.

(** [P] selects sets of points; it is additive *)
Definition additive (P : (C -> Prop) -> Prop) : Prop :=
  (forall A B : C -> Prop, (forall z, A z -> B z) -> P A -> P B) /\
  (forall A B : C -> Prop, P (fun z => A z \/ B z) -> P A \/ P B) /\
  ~ P (fun _ => False).

Lemma slice (g : C -> R) (K : C -> Prop) P B : additive P -> P K -> (forall z, K z -> Rabs (g z) <= B) ->
  exists x, forall d, 0 < d -> P (fun z => K z /\ Rabs (g z - x) <= d).
Proof.
  intros (Mono & Add & Emp) HK HB. set (E := fun x => ~ P (fun z => K z /\ g z <= x)).
  assert (BE : bound E).
  { exists B. intros x Hx. apply Rnot_lt_le. intro L. apply Hx. apply Mono with (A := K); [|exact HK]. intros z Hz. split; [exact Hz|].
    specialize (HB z Hz). assert (G := Rle_abs (g z)). lra. }
  assert (NE : exists x, E x).
  { exists (- B - 1). intro H. apply Emp. apply Mono with (2 := H). intros z [Hz Hg]. specialize (HB z Hz). assert (G := Rle_abs (- g z)). rewrite Rabs_Ropp in G. lra. }
  destruct (completeness E BE NE) as [x [Hup Hlub]]. exists x. intros d Hd.
  assert (H1 : ~ P (fun z => K z /\ g z <= x - d)).
  { intro H. assert (U : is_upper_bound E (x - d)).
    { intros y Hy. apply Rnot_lt_le. intro L. apply Hy. apply Mono with (2 := H). intros z [Hz Hg]. split; [exact Hz|lra]. }
    specialize (Hlub _ U). lra. }
  assert (H2 : P (fun z => K z /\ g z <= x + d)).
  { destruct (Classical_Prop.classic (P (fun z => K z /\ g z <= x + d))) as [H|H]; [exact H|]. specialize (Hup (x + d) H). lra. }
  destruct (Add (fun z => K z /\ g z <= x - d) (fun z => K z /\ Rabs (g z - x) <= d)) as [H|H]; [|contradiction|exact H].
  apply Mono with (2 := H2). intros z [Hz Hg]. destruct (Rle_dec (g z) (x - d)) as [L|L]; [now left|right].
  split; [exact Hz|]. apply Rabs_le. lra.
Qed.

Lemma cluster (K : C -> Prop) P B : additive P -> P K -> (forall z, K z -> Cmod z <= B) ->
  exists p, forall d, 0 < d -> P (fun z => K z /\ Cmod (z - p)%C <= d).
Proof.
  intros HP HK HB.
  assert (B1 : forall z, K z -> Rabs (fst z) <= B /\ Rabs (snd z) <= B).
  { intros z Hz. specialize (HB z Hz). assert (M := Rmax_Cmod z). assert (L := Rmax_l (Rabs (fst z)) (Rabs (snd z))). assert (L' := Rmax_r (Rabs (fst z)) (Rabs (snd z))). lra. }
  destruct (slice fst K P B HP HK (fun z Hz => proj1 (B1 z Hz))) as [x Hx].
  destruct HP as (Mono & Add & Emp).
  set (Q := fun A : C -> Prop => forall d, 0 < d -> P (fun z => A z /\ Rabs (fst z - x) <= d)).
  assert (HQ : additive Q).
  { split; [|split].
    - intros A A' HA H d Hd. apply Mono with (2 := H d Hd). intros z [H1 H2]. auto.
    - intros A A' H. destruct (Classical_Prop.classic (Q A)) as [|NA]; [now left|]. destruct (Classical_Prop.classic (Q A')) as [|NA']; [now right|]. exfalso.
      apply NA. intros d Hd. destruct (Classical_Prop.classic (P (fun z => A z /\ Rabs (fst z - x) <= d))) as [|N1]; [assumption|]. exfalso.
      apply NA'. intros d' Hd'. destruct (Classical_Prop.classic (P (fun z => A' z /\ Rabs (fst z - x) <= d'))) as [|N2]; [assumption|]. exfalso.
      assert (Hm : 0 < Rmin d d') by now apply Rmin_glb_lt. specialize (H _ Hm).
      destruct (Add (fun z => A z /\ Rabs (fst z - x) <= d) (fun z => A' z /\ Rabs (fst z - x) <= d')) as [G|G]; [|now apply N1|now apply N2].
      apply Mono with (2 := H). intros z [[H1|H1] H2]; [left|right]; (split; [exact H1|]); assert (L := Rmin_l d d'); assert (L' := Rmin_r d d'); lra.
    - intro H. apply Emp. apply Mono with (2 := H 1 Rlt_0_1). now intros z []. }
  destruct (slice snd K Q B HQ Hx (fun z Hz => proj2 (B1 z Hz))) as [y Hy].
  exists (x, y). intros d Hd. assert (Hd2 : 0 < d / 2) by lra. specialize (Hy _ Hd2 _ Hd2). apply Mono with (2 := Hy).
  intros z [[H1 H2] H3]. split; [exact H1|].
  replace (z - (x, y))%C with (RtoC (fst z - x) + Ci * RtoC (snd z - y))%C by (apply injective_projections; cbn; ring).
  eapply Rle_trans; [apply Cmod_triangle|]. rewrite Cmod_mult, !Cmod_R.
  replace (Cmod Ci) with 1 by (unfold Cmod; cbn [fst snd Ci]; replace (0 ^ 2 + 1 ^ 2) with 1 by ring; symmetry; apply sqrt_1). lra.
Qed.

Definition closed_at (K : C -> Prop) : Prop := forall p, ~ K p -> exists d, 0 < d /\ forall z, Cmod (z - p)%C <= d -> ~ K z.
Definition below_at (F : C -> R) (p : C) : Prop := forall e, 0 < e -> exists d, 0 < d /\ forall z, Cmod (z - p)%C <= d -> F z < F p + e.

Theorem max_attained (K : C -> Prop) (F : C -> R) B : (exists z, K z) -> (forall z, K z -> Cmod z <= B) -> closed_at K ->
  (forall p, K p -> below_at F p) -> exists p, K p /\ forall z, K z -> F z <= F p.
Proof.
  intros [z0 H0] HB HC HF. destruct (Classical_Prop.classic (exists p, K p /\ forall z, K z -> F z <= F p)) as [|N]; [assumption|]. exfalso.
  assert (Up : forall p, K p -> exists z, K z /\ F p < F z).
  { intros p Hp. destruct (Classical_Prop.classic (exists z, K z /\ F p < F z)) as [|N']; [assumption|]. exfalso. apply N. exists p. split; [exact Hp|].
    intros z Hz. apply Rnot_lt_le. intro L. apply N'. now exists z. }
  set (P := fun A : C -> Prop => forall z, K z -> exists z', A z' /\ K z' /\ F z < F z').
  assert (HP : additive P).
  { split; [|split].
    - intros A A' HA H z Hz. destruct (H z Hz) as (z' & H1 & H2). exists z'. split; [now apply HA|exact H2].
    - intros A A' H. destruct (Classical_Prop.classic (P A)) as [|NA]; [now left|right]. intros z Hz.
      destruct (Classical_Prop.classic (exists z1, K z1 /\ forall z', A z' -> K z' -> F z' <= F z1)) as [(z1 & K1 & H1)|N1].
      + destruct (Rle_dec (F z) (F z1)) as [L|L].
        * destruct (H z1 K1) as (z' & [H2|H2] & K2 & L2); [specialize (H1 z' H2 K2); lra|]. exists z'. split; [exact H2|]. split; [exact K2|lra].
        * destruct (H z Hz) as (z' & [H2|H2] & K2 & L2); [specialize (H1 z' H2 K2); lra|]. exists z'. split; [exact H2|]. now split.
      + exfalso. apply NA. intros z2 K2. destruct (Classical_Prop.classic (exists z', A z' /\ K z' /\ F z2 < F z')) as [|N2]; [assumption|]. exfalso. apply N1.
        exists z2. split; [exact K2|]. intros z' H' K'. apply Rnot_lt_le. intro L. apply N2. now exists z'.
    - intro H. destruct (H z0 H0) as (z' & [] & _). }
  destruct (cluster K P B HP) as [p Hp]; [|exact HB|].
  { intros z Hz. destruct (Up z Hz) as (z' & K' & L). exists z'. now split. }
  destruct (Classical_Prop.classic (K p)) as [Kp|Np].
  - destruct (Up p Kp) as (z1 & K1 & L1). destruct (HF p Kp (F z1 - F p)) as (d & Hd & H); [lra|].
    destruct (Hp d Hd z1 K1) as (z' & [_ H'] & _ & L'). specialize (H z' H'). lra.
  - destruct (HC p Np) as (d & Hd & H). destruct (Hp d Hd z0 H0) as (z' & [Kz' H'] & _). exact (H z' H' Kz').
Qed.
