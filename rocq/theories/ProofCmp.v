From Coq Require Import Reals List Permutation Lra Lia.
From Verif Require Import ModelCmp SpecCmp.
Import ListNotations.
Local Open Scope R_scope.

Lemma lex_irrefl v : ~ lex v v.
Proof. unfold lex. lra. Qed.
Lemma lex_trans u v w : lex u v -> lex v w -> lex u w.
Proof. unfold lex. lra. Qed.
Lemma lex_total u v : u <> v -> lex u v \/ lex v u.
Proof.
  intros H. unfold lex. destruct (Rtotal_order (fst u) (fst v)) as [A|[A|A]]; [lra| |lra].
  destruct (Rtotal_order (snd u) (snd v)) as [B|[B|B]]; [lra| |lra].
  exfalso. apply H. destruct u, v; cbn in *; subst; reflexivity.
Qed.

Lemma contains_zero_true t : contains_zero t = true <-> Rabs (mid t) <= rad t.
Proof. unfold contains_zero. destruct (Rle_dec _ _); split; intros; congruence || assumption || contradiction. Qed.
Lemma contains_zero_false t : contains_zero t = false <-> rad t < Rabs (mid t).
Proof.
  unfold contains_zero. destruct (Rle_dec _ _) as [H|H]; split; intros A; try discriminate.
  - lra.
  - apply Rnot_le_lt. exact H.
  - reflexivity.
Qed.
Lemma is_positive_true t : is_positive t = true <-> rad t < mid t.
Proof. unfold is_positive. destruct (Rlt_dec _ _); split; intros; congruence || assumption || contradiction. Qed.
Lemma is_positive_false t : is_positive t = false <-> mid t <= rad t.
Proof.
  unfold is_positive. destruct (Rlt_dec _ _) as [H|H]; split; intros A; try discriminate; try lra; reflexivity.
Qed.

Lemma decided t v : encloses t v -> contains_zero t = false ->
  (is_positive t = true <-> 0 < v) /\ (is_positive t = false <-> v < 0).
Proof.
  unfold encloses. rewrite contains_zero_false, is_positive_true, is_positive_false. intros H1 H2.
  unfold Rabs in *. destruct (Rcase_abs (v - mid t)), (Rcase_abs (mid t)); lra.
Qed.
Lemma equal_contains sub x y v : sound sub -> encloses x v -> encloses y v -> contains_zero (sub x y) = true.
Proof.
  intros Hs Hx Hy. pose proof (Hs x y v v Hx Hy) as H. apply contains_zero_true. unfold encloses in H.
  replace (v - v - mid (sub x y)) with (- mid (sub x y)) in H by ring. rewrite Rabs_Ropp in H. exact H.
Qed.

Lemma cmp_correct sub (p q : cball * (R * R)) : sound sub -> cencloses (fst p) (snd p) -> cencloses (fst q) (snd q) ->
  well_separated sub p q ->
  (acb_cmp_lex sub (fst p) (fst q) = 1%Z /\ lex (snd q) (snd p)) \/
  (acb_cmp_lex sub (fst p) (fst q) = (-1)%Z /\ lex (snd p) (snd q)).
Proof.
  intros Hs [Hp1 Hp2] [Hq1 Hq2] Hw. unfold acb_cmp_lex. destruct Hw as [Hw|[E Hw]]; unfold separated in Hw.
  - rewrite Hw. pose proof (decided _ _ (Hs _ _ _ _ Hp1 Hq1) Hw) as [A B].
    destruct (is_positive _) eqn:P; [left|right]; (split; [reflexivity|]); unfold lex; left.
    + destruct A as [A _]. specialize (A eq_refl). lra.
    + destruct B as [B _]. specialize (B eq_refl). lra.
  - rewrite E in Hp1. rewrite (equal_contains sub _ _ _ Hs Hp1 Hq1).
    pose proof (decided _ _ (Hs _ _ _ _ Hp2 Hq2) Hw) as [A B].
    destruct (is_positive _) eqn:P; [left|right]; (split; [reflexivity|]); unfold lex; right.
    + destruct A as [A _]. specialize (A eq_refl). split; [symmetry; exact E|lra].
    + destruct B as [B _]. specialize (B eq_refl). split; [exact E|lra].
Qed.

(** lists *)
Lemma all_separated_cons sub a l : all_separated sub (a :: l) ->
  (forall b, In b l -> well_separated sub a b /\ well_separated sub b a) /\ all_separated sub l.
Proof.
  intros H. split.
  - intros b Hb. destruct (In_nth l b a Hb) as (i & Hi & E).
    split; [specialize (H 0%nat (S i) a)|specialize (H (S i) 0%nat a)]; cbn [length nth] in H;
      rewrite E in H; apply H; lia.
  - intros i j d Hi Hj Hij. apply (H (S i) (S j) d); cbn; lia.
Qed.
Lemma all_separated_perm sub l l' : Permutation l l' -> all_separated sub l -> all_separated sub l'.
Proof.
  intros HP. apply Permutation_nth_error in HP. destruct HP as (HL & f & Hinj & Hf). intros H i j d Hi Hj Hij.
  assert (G : forall k, (k < length l')%nat -> (f k < length l)%nat /\ nth k l' d = nth (f k) l d).
  { intros k Hk. specialize (Hf k). destruct (nth_error l' k) eqn:E; [|apply nth_error_None in E; lia].
    symmetry in Hf. split; [apply nth_error_Some; congruence|].
    rewrite (nth_error_nth _ _ d E), (nth_error_nth _ _ d Hf). reflexivity. }
  destruct (G i Hi) as [A1 A2]. destruct (G j Hj) as [B1 B2]. rewrite A2, B2. apply H; try lia.
  intros E. apply Hij, Hinj, E.
Qed.

Lemma ascending_lex sub : sound sub -> forall l, enclosures l -> all_separated sub l ->
  (ascending sub (map fst l) <-> lex_sorted (map snd l)).
Proof.
  intros Hs. induction l as [|p l IH]; intros He Ha; cbn [map]; [split; constructor|].
  apply all_separated_cons in Ha. destruct Ha as [Hp Ha].
  assert (He' : enclosures l) by (intros q Hq; apply He; right; exact Hq). specialize (IH He' Ha).
  assert (Hc : forall q, In q l -> ((acb_cmp_lex sub (fst p) (fst q) < 0)%Z <-> lex (snd p) (snd q))).
  { intros q Hq. destruct (cmp_correct sub p q Hs (He p (or_introl eq_refl)) (He' q Hq)) as [[A B]|[A B]];
      [apply Hp, Hq| |]; rewrite A; split; intros C; try lia; try exact B.
    exfalso. exact (lex_irrefl _ (lex_trans _ _ _ B C)). }
  split; intros H; inversion H as [|a l' H1 H2]; subst; constructor.
  - intros b Hb. apply in_map_iff in Hb. destruct Hb as (q & <- & Hq). apply Hc; [exact Hq|].
    apply H1. apply in_map. exact Hq.
  - apply IH. exact H2.
  - intros b Hb. apply in_map_iff in Hb. destruct Hb as (q & <- & Hq). apply Hc; [exact Hq|].
    apply H1. apply in_map. exact Hq.
  - apply IH. exact H2.
Qed.

Lemma lex_sorted_unique : forall l l', Permutation l l' -> lex_sorted l -> lex_sorted l' -> l = l'.
Proof.
  induction l as [|a l IH]; intros l' HP H H'.
  - apply Permutation_nil in HP. symmetry. exact HP.
  - destruct l' as [|b l']; [apply Permutation_sym, Permutation_nil_cons in HP; contradiction|].
    inversion H as [|? ? Ha Hl]; inversion H' as [|? ? Hb Hl']; subst.
    assert (E : a = b).
    { assert (Hin : In a (b :: l')) by (apply (Permutation_in _ HP); left; reflexivity).
      assert (Hin' : In b (a :: l)) by (apply (Permutation_in _ (Permutation_sym HP)); left; reflexivity).
      destruct Hin as [->|Hin]; [reflexivity|]. destruct Hin' as [->|Hin']; [reflexivity|].
      exfalso. exact (lex_irrefl _ (lex_trans _ _ _ (Ha b Hin') (Hb a Hin))). }
    subst b. apply Permutation_cons_inv in HP. rewrite (IH l' HP Hl Hl'). reflexivity.
Qed.

(** existence of a sorted arrangement *)
Lemma lex_sort_exists : forall l : list (cball * (R * R)), NoDup (map snd l) ->
  exists l', Permutation l l' /\ lex_sorted (map snd l').
Proof.
  assert (Ins : forall (p : cball * (R * R)) l, lex_sorted (map snd l) -> ~ In (snd p) (map snd l) ->
    exists l', Permutation (p :: l) l' /\ lex_sorted (map snd l')).
  { intros p l. induction l as [|q l IH]; intros Hl Hn.
    - exists [p]. split; [reflexivity|]. cbn. constructor; [intros b []|constructor].
    - cbn [map] in *. inversion Hl as [|? ? Hq Hl']; subst.
      destruct (lex_total (snd p) (snd q)) as [A|A]; [intros E; apply Hn; left; symmetry; exact E| |].
      + exists (p :: q :: l). split; [reflexivity|]. cbn [map]. constructor; [|exact Hl].
        intros b [<-|Hb]; [exact A|]. apply (lex_trans _ _ _ A), Hq, Hb.
      + destruct (IH Hl') as (l' & P & S); [intros Hi; apply Hn; right; exact Hi|].
        exists (q :: l'). split; [rewrite perm_swap, P; reflexivity|]. cbn [map]. constructor; [|exact S].
        intros b Hb. apply in_map_iff in Hb. destruct Hb as (r & <- & Hr).
        apply (Permutation_in _ (Permutation_sym P)) in Hr. destruct Hr as [->|Hr]; [exact A|].
        apply Hq, in_map, Hr. }
  induction l as [|p l IH]; intros Hn.
  - exists []. split; [constructor|constructor].
  - cbn [map] in Hn. inversion Hn as [|? ? Hp Hn']; subst. destruct (IH Hn') as (l' & P & S).
    destruct (Ins p l' S) as (l2 & P2 & S2).
    + intros Hi. apply Hp. apply (Permutation_in _ (Permutation_map snd (Permutation_sym P))). exact Hi.
    + exists l2. split; [rewrite P; exact P2|exact S2].
Qed.

Lemma separated_nodup sub l : sound sub -> enclosures l -> all_separated sub l -> NoDup (map snd l).
Proof.
  intros Hs. induction l as [|p l IH]; intros He Ha; cbn [map]; [constructor|].
  apply all_separated_cons in Ha. destruct Ha as [Hp Ha].
  assert (He' : enclosures l) by (intros q Hq; apply He; right; exact Hq).
  constructor; [|apply IH; assumption]. intros Hi. apply in_map_iff in Hi. destruct Hi as (q & E & Hq).
  destruct (cmp_correct sub p q Hs (He p (or_introl eq_refl)) (He' q Hq)) as [[_ B]|[_ B]]; [apply Hp, Hq| |];
    rewrite E in B; exact (lex_irrefl _ B).
Qed.

(** two enclosures of the same set of points, sorted in any admissible way, list the points in
    the same order *)
Lemma same_order sub1 sub2 l1 l2 : sound sub1 -> sound sub2 -> enclosures l1 -> enclosures l2 ->
  all_separated sub1 l1 -> all_separated sub2 l2 -> Permutation (map snd l1) (map snd l2) ->
  ascending sub1 (map fst l1) -> ascending sub2 (map fst l2) -> map snd l1 = map snd l2.
Proof.
  intros S1 S2 E1 E2 A1 A2 HP H1 H2. apply lex_sorted_unique; [exact HP| |].
  - apply (ascending_lex sub1 S1 l1 E1 A1). exact H1.
  - apply (ascending_lex sub2 S2 l2 E2 A2). exact H2.
Qed.

(** a well separated list has a sorted arrangement, and only one *)
Lemma sort_unique sub l : sound sub -> enclosures l -> all_separated sub l ->
  (exists l', Permutation l l' /\ ascending sub (map fst l')) /\
  (forall l', Permutation l l' -> ascending sub (map fst l') -> lex_sorted (map snd l')) /\
  (forall l1 l2, Permutation l l1 -> Permutation l l2 -> ascending sub (map fst l1) -> ascending sub (map fst l2) ->
     map snd l1 = map snd l2).
Proof.
  intros Hs He Ha.
  assert (Hp : forall l', Permutation l l' -> enclosures l' /\ all_separated sub l').
  { intros l' P. split; [intros p Hi; apply He, (Permutation_in _ (Permutation_sym P)), Hi|].
    apply (all_separated_perm sub l l' P Ha). }
  split; [|split].
  - destruct (lex_sort_exists l (separated_nodup sub l Hs He Ha)) as (l' & P & S). exists l'. split; [exact P|].
    destruct (Hp l' P) as [He' Ha']. apply (ascending_lex sub Hs l' He' Ha'). exact S.
  - intros l' P. destruct (Hp l' P) as [He' Ha']. apply (ascending_lex sub Hs l' He' Ha').
  - intros l1 l2 P1 P2. destruct (Hp l1 P1), (Hp l2 P2). apply (same_order sub sub l1 l2); try assumption.
    apply Permutation_map. rewrite <- P1. exact P2.
Qed.

(** exact subtraction *)
Definition sub_exact (x y : ball) : ball := {| mid := mid x - mid y; rad := rad x + rad y |}.
Lemma sub_exact_sound : sound sub_exact.
Proof.
  intros x y v w. unfold encloses, sub_exact. cbn. intros H1 H2.
  replace (v - w - (mid x - mid y)) with ((v - mid x) - (w - mid y)) by ring.
  eapply Rle_trans; [apply Rabs_triang|]. rewrite Rabs_Ropp. lra.
Qed.
Lemma sub_exact_tight : tight sub_exact.
Proof.
  intros x y H1 H2. unfold sub_exact. cbn [mid rad]. rewrite Rminus_diag_eq by reflexivity. rewrite Rabs_R0.
  pose proof (Rabs_pos (mid x - mid y)). split; [lra|]. nra.
Qed.

(** signs decided by a sound and tight subtraction *)
Lemma separated_neg sub x y : sound sub -> tight sub -> 0 <= rad x -> 0 <= rad y -> mid x < mid y ->
  (rad x + rad y) * 2 <= mid y - mid x -> contains_zero (sub x y) = false /\ is_positive (sub x y) = false.
Proof.
  intros Hs Ht Hx Hy H1 H2.
  assert (P : 0 <= rad (sub x y)).
  { eapply Rle_trans; [apply Rabs_pos|]. apply (Hs x y (mid x) (mid y)); unfold encloses; rewrite Rminus_diag_eq, Rabs_R0 by reflexivity; assumption. }
  destruct (Ht x y Hx Hy) as [A B]. rewrite (Rabs_left1 (mid x - mid y)) in A, B by lra.
  assert (E : / 2 ^ 29 <= / 1000) by (apply Rinv_le_contravar; lra).
  assert (E2 : / 2 ^ 20 <= / 1000) by (apply Rinv_le_contravar; lra).
  assert (E0 : 0 < / 2 ^ 29) by (apply Rinv_0_lt_compat; lra).
  assert (E20 : 0 < / 2 ^ 20) by (apply Rinv_0_lt_compat; lra).
  set (e := / 2 ^ 29) in *. set (f := / 2 ^ 20) in *. set (D := mid y - mid x) in *.
  replace (- (mid x - mid y)) with D in * by (unfold D; ring). replace (mid x - mid y) with (- D) in * by (unfold D; ring).
  assert (HD : 0 < D) by (unfold D; lra). clearbody e f D.
  assert (HeD : e * D <= / 1000 * D) by (apply Rmult_le_compat_r; lra).
  assert (A' : mid (sub x y) <= - D + / 1000 * D) by (revert A; unfold Rabs; destruct (Rcase_abs _); lra).
  assert (B' : rad (sub x y) <= (1 + / 1000) * (D / 2 + / 1000 * D)).
  { eapply Rle_trans; [exact B|]. apply Rmult_le_compat; try lra. nra. }
  rewrite contains_zero_false, is_positive_false. rewrite Rabs_left1 by lra. lra.
Qed.
Lemma separated_pos sub x y : tight sub -> 0 <= rad x -> 0 <= rad y -> mid y < mid x ->
  (rad x + rad y) * 2 <= mid x - mid y -> contains_zero (sub x y) = false /\ is_positive (sub x y) = true.
Proof.
  intros Ht Hx Hy H1 H2. destruct (Ht x y Hx Hy) as [A B]. rewrite (Rabs_pos_eq (mid x - mid y)) in A, B by lra.
  assert (E : / 2 ^ 29 <= / 1000) by (apply Rinv_le_contravar; lra).
  assert (E2 : / 2 ^ 20 <= / 1000) by (apply Rinv_le_contravar; lra).
  assert (E0 : 0 < / 2 ^ 29) by (apply Rinv_0_lt_compat; lra).
  assert (E20 : 0 < / 2 ^ 20) by (apply Rinv_0_lt_compat; lra).
  set (e := / 2 ^ 29) in *. set (f := / 2 ^ 20) in *. set (D := mid x - mid y) in *.
  assert (HD : 0 < D) by (unfold D; lra). clearbody e f D.
  assert (HeD : e * D <= / 1000 * D) by (apply Rmult_le_compat_r; lra).
  assert (A' : D - / 1000 * D <= mid (sub x y)) by (revert A; unfold Rabs; destruct (Rcase_abs _); lra).
  assert (B' : rad (sub x y) <= (1 + / 1000) * (D / 2 + / 1000 * D)).
  { eapply Rle_trans; [exact B|]. apply Rmult_le_compat; try lra. nra. }
  rewrite contains_zero_false, is_positive_true. rewrite Rabs_pos_eq by lra. lra.
Qed.

Definition pt (a ra b rb : R) : cball := {| re := {| mid := a; rad := ra |}; im := {| mid := b; rad := rb |} |}.

Lemma encl a r v : a - r <= v <= a + r -> encloses {| mid := a; rad := r |} v.
Proof. intros H. unfold encloses. cbn. unfold Rabs. destruct (Rcase_abs _); lra. Qed.

(** three pairwise disjoint balls a > b > c > a *)
Lemma cycle sub : sound sub -> tight sub ->
  let a := pt 0 1 2 0 in let b := pt 2 1 1 0 in let c := pt 4 1 0 0 in
  acb_cmp_lex sub a b = 1%Z /\ acb_cmp_lex sub b c = 1%Z /\ acb_cmp_lex sub a c = (-1)%Z /\
  acb_cmp_lex sub c a = 1%Z.
Proof.
  intros Hs Ht. cbn zeta. unfold acb_cmp_lex, pt. cbn [re im].
  rewrite (equal_contains sub _ _ 1 Hs) by (apply encl; lra).
  rewrite (equal_contains sub _ _ 3 Hs) by (apply encl; lra).
  destruct (separated_pos sub {| mid := 2; rad := 0 |} {| mid := 1; rad := 0 |} Ht) as [_ ->]; cbn [mid rad]; try lra.
  destruct (separated_pos sub {| mid := 1; rad := 0 |} {| mid := 0; rad := 0 |} Ht) as [_ ->]; cbn [mid rad]; try lra.
  destruct (separated_neg sub {| mid := 0; rad := 1 |} {| mid := 4; rad := 1 |} Hs Ht) as [-> ->]; cbn [mid rad]; try lra.
  destruct (separated_pos sub {| mid := 4; rad := 1 |} {| mid := 0; rad := 1 |} Ht) as [-> ->]; cbn [mid rad]; try lra.
  repeat split; reflexivity.
Qed.

(** identical or overlapping balls are below each other both ways *)
Lemma both_ways sub a b v : sound sub -> cencloses a v -> cencloses b v ->
  acb_cmp_lex sub a b = (-1)%Z /\ acb_cmp_lex sub b a = (-1)%Z.
Proof.
  intros Hs [A1 A2] [B1 B2]. unfold acb_cmp_lex.
  rewrite (equal_contains sub _ _ _ Hs A1 B1), (equal_contains sub _ _ _ Hs B1 A1).
  pose proof (equal_contains sub _ _ _ Hs A2 B2) as E1. pose proof (equal_contains sub _ _ _ Hs B2 A2) as E2.
  rewrite contains_zero_true in E1, E2.
  assert (P : forall t, Rabs (mid t) <= rad t -> is_positive t = false).
  { intros t Hx. apply is_positive_false. revert Hx. unfold Rabs. destruct (Rcase_abs _); lra. }
  rewrite (P _ E1), (P _ E2). split; reflexivity.
Qed.

(** the two points (0,1) and (1/4,0) at two precisions *)
Lemma order_changes sub : sound sub -> tight sub ->
  let low1 := pt 0 1 1 0 in let low2 := pt (1/4) 1 0 0 in
  let high1 := pt 0 0 1 0 in let high2 := pt (1/4) 0 0 0 in
  cencloses low1 (0, 1) /\ cencloses high1 (0, 1) /\ cencloses low2 (1/4, 0) /\ cencloses high2 (1/4, 0) /\
  ascending sub [low2; low1] /\ ascending sub [high1; high2] /\
  ~ ascending sub [low1; low2] /\ ~ ascending sub [high2; high1].
Proof.
  intros Hs Ht. cbn zeta.
  assert (L21 : acb_cmp_lex sub (pt (1/4) 1 0 0) (pt 0 1 1 0) = (-1)%Z).
  { unfold acb_cmp_lex, pt. cbn [re im]. rewrite (equal_contains sub _ _ 0 Hs) by (apply encl; lra).
    destruct (separated_neg sub {| mid := 0; rad := 0 |} {| mid := 1; rad := 0 |} Hs Ht) as [_ ->]; cbn [mid rad]; try lra. reflexivity. }
  assert (L12 : acb_cmp_lex sub (pt 0 1 1 0) (pt (1/4) 1 0 0) = 1%Z).
  { unfold acb_cmp_lex, pt. cbn [re im]. rewrite (equal_contains sub _ _ 0 Hs) by (apply encl; lra).
    destruct (separated_pos sub {| mid := 1; rad := 0 |} {| mid := 0; rad := 0 |} Ht) as [_ ->]; cbn [mid rad]; try lra. reflexivity. }
  assert (H12 : acb_cmp_lex sub (pt 0 0 1 0) (pt (1/4) 0 0 0) = (-1)%Z).
  { unfold acb_cmp_lex, pt. cbn [re im].
    destruct (separated_neg sub {| mid := 0; rad := 0 |} {| mid := 1/4; rad := 0 |} Hs Ht) as [-> ->]; cbn [mid rad]; try lra. reflexivity. }
  assert (H21 : acb_cmp_lex sub (pt (1/4) 0 0 0) (pt 0 0 1 0) = 1%Z).
  { unfold acb_cmp_lex, pt. cbn [re im].
    destruct (separated_pos sub {| mid := 1/4; rad := 0 |} {| mid := 0; rad := 0 |} Ht) as [-> ->]; cbn [mid rad]; try lra. reflexivity. }
  assert (T : forall a b, (acb_cmp_lex sub a b < 0)%Z -> ascending sub [a; b]).
  { intros a b H. constructor; [intros x [<-|[]]; exact H|]. constructor; [intros x []|constructor]. }
  assert (F : forall a b, acb_cmp_lex sub a b = 1%Z -> ~ ascending sub [a; b]).
  { intros a b H K. inversion K as [|? ? K1 _]; subst. specialize (K1 b (or_introl eq_refl)). lia. }
  split; [split; apply encl; cbn; lra|]. split; [split; apply encl; cbn; lra|].
  split; [split; apply encl; cbn; lra|]. split; [split; apply encl; cbn; lra|].
  split; [apply T; lia|]. split; [apply T; lia|]. split; [apply F; exact L12|apply F; exact H21].
Qed.

(** exact points *)
Lemma exact_points sub v w : sound sub -> tight sub -> v <> w ->
  well_separated sub (pt (fst v) 0 (snd v) 0, v) (pt (fst w) 0 (snd w) 0, w).
Proof.
  intros Hs Ht Hne. unfold well_separated, separated, pt. cbn [fst snd re im].
  assert (S : forall a b, a <> b -> contains_zero (sub {| mid := a; rad := 0 |} {| mid := b; rad := 0 |}) = false).
  { intros a b Hab. destruct (Rtotal_order a b) as [H|[H|H]]; [|contradiction|].
    - apply (separated_neg sub {| mid := a; rad := 0 |} {| mid := b; rad := 0 |} Hs Ht); cbn; lra.
    - apply (separated_pos sub {| mid := a; rad := 0 |} {| mid := b; rad := 0 |} Ht); cbn; lra. }
  destruct (Req_dec (fst v) (fst w)) as [E|E]; [right|left; apply S, E]. split; [exact E|].
  apply S. intros E2. apply Hne. destruct v, w; cbn in *; subst; reflexivity.
Qed.
