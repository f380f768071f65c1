(** The intersection matrix of a tree and the intersection numbers of the loops. *)
From Coq Require Import Reals Lra Lia List ZArith.
From Coquelicot Require Import Coquelicot.
From Verif Require Import CArg ModelTree ModelPeriod ModelInter ModelEdge SpecTree SpecInter SpecEdge SpecDeq SpecCross SpecGc SpecFree ModelDeq ModelCurve
  ProofInterMain ProofEdge ProofAngle ProofLat7 ProofLat8 ProofFree ProofDeq3 ProofCross.
Import ListNotations.
Local Open Scope R_scope.

Lemma number_dlt m sp sm d : (2 <= m)%Z -> ((sp - sm) mod m <> 0)%Z -> number m sp sm d = (dlt0 m (d - sp) - dlt0 m (d - sm))%Z.
Proof.
  intros Hm H. destruct (number_cases m sp sm d Hm H) as [H1 H2]. unfold number, dlt0 in *.
  destruct ((d - sp) mod m =? 0)%Z eqn:E1; destruct ((d - sm) mod m =? 0)%Z eqn:E2; try reflexivity. exfalso. apply Z.eqb_eq in E1, E2. apply H2 in E2. discriminate.
Qed.
Lemma mod1 m : (2 <= m)%Z -> (1 mod m <> 0)%Z /\ ((-1) mod m <> 0)%Z.
Proof. intro H. exact (ProofInterMain.one_mod m H). Qed.

Lemma two_C : RtoC 2 = (RtoC 1 + RtoC 1)%C.
Proof. apply injective_projections; cbn; ring. Qed.
Lemma two_nz : (RtoC 1 + RtoC 1)%C <> RtoC 0.
Proof. intro X. injection X. lra. Qed.
Lemma point_from a b l : edge_point a b (RtoC (2 * l - 1)) = (a + RtoC l * (b - a))%C.
Proof. unfold edge_point. rewrite RtoC_minus, RtoC_mult, two_C. field. exact two_nz. Qed.
Lemma point_back a b t : edge_point a b (RtoC (- t)) = edge_point b a (RtoC t).
Proof. unfold edge_point. rewrite RtoC_opp, two_C. field. exact two_nz. Qed.
(** two free segments from a common point are not on the same ray *)
Lemma ray_start x a b d l : In b x -> In d x -> b <> a -> d <> a -> b <> d -> free_segment x a b -> free_segment x a d -> (b - a)%C = (RtoC l * (d - a))%C -> 0 < l -> False.
Proof.
  intros Hb Hd Nb Nd Nbd Fb Fd E Hl. destruct (Rtotal_order l 1) as [L|[L|L]].
  - apply (Fd (2 * l - 1)); [lra|]. rewrite point_from, <- E. replace (a + (b - a))%C with b by ring. exact Hb.
  - apply Nbd. transitivity (a + (b - a))%C; [ring|]. rewrite E, L. ring.
  - assert (0 < / l) by (apply Rinv_0_lt_compat; lra). assert (/ l < 1) by (rewrite <- Rinv_1; apply Rinv_1_lt_contravar; lra).
    apply (Fb (2 * / l - 1)); [lra|]. rewrite point_from, E. replace (a + RtoC (/ l) * (RtoC l * (d - a)))%C with d; [exact Hd|].
    rewrite Cmult_assoc, <- RtoC_mult, Rinv_l, Cmult_1_l by lra. ring.
Qed.
Lemma quot_pos a b : a <> RtoC 0 -> b <> RtoC 0 -> 0 < Cmod (a / b)%C.
Proof.
  intros Ha Hb. apply Cmod_gt_0. apply Cmult_neq_0'; [exact Ha|]. intro X. apply (f_equal (Cmult b)) in X. rewrite Cinv_r, Cmult_0_r in X by exact Hb. injection X. lra.
Qed.
Lemma over_ba2 (p q h h' : C) : p = (RtoC 2 * h)%C -> q = (RtoC 2 * h')%C -> h' <> RtoC 0 -> p = (h / h' * q)%C.
Proof. intros -> -> H. field. exact H. Qed.

Lemma growing_new es k l : growing es -> (k < l < length es)%nat -> eb (nth l es no_edge) <> ea (nth k es no_edge) /\ eb (nth l es no_edge) <> eb (nth k es no_edge).
Proof.
  intros Hg Hkl. destruct (Hg (firstn l es) (nth l es no_edge) (skipn (S l) es)) as (_ & H & _).
  { rewrite <- (firstn_skipn l es) at 1. f_equal. assert (L : (l < length es)%nat) by lia. clear - L. revert l L. induction es as [|a q IH]; intros [|l] L; cbn in *; try lia; [reflexivity|apply IH; lia]. }
  assert (I : In (nth k es no_edge) (firstn l es)).
  { rewrite <- (firstn_skipn l es) at 1. rewrite app_nth1 by (rewrite firstn_length; lia). apply nth_In. rewrite firstn_length. lia. }
  split; intro E; apply H; exists (nth k es no_edge); auto.
Qed.

Section Data.
Context (nonpos neg : edge -> C -> bool) (x : list C) (m : nat) (es : list edge) (ys : list ydata) (c : imat).
Hypothesis Hd : distinct x.
Hypothesis Hm : (2 <= m)%nat.
Hypothesis Hg : growing es.
Hypothesis Ht : forall v, touched es v -> (v < length x)%nat.
Hypothesis Hfree : forall e, In e es -> free_segment x (vget x (ea e)) (vget x (eb e)).
Hypothesis Ey : tree_ydata nonpos neg x (Z.of_nat m) es = Done ys.
Hypothesis Ec : intersection_of_data ys es (Z.of_nat m) = Done c.
Let n := length es.
Let M := Z.of_nat m.
Notation e k := (nth k es no_edge).
Notation Y k := (nth k ys no_ydata).
Let shift := fun k l t => shift_number (Y k) (Y l) M t.
Let ng := fun k l => is_neg_abad (y_ba2 (Y k)) (y_ba2 (Y l)).
Let entry k l u v := cell c (Z.of_nat k * (M - 1) + u) (Z.of_nat l * (M - 1) + v).

Lemma vget_diff np ng' a b y : (a < length x)%nat -> (b < length x)%nat -> a <> b -> ydata_init_edge np ng' x a b (Z.of_nat m) = Done y ->
  (vget x b - vget x a)%C = (RtoC 2 * y_ba2 y)%C.
Proof. intros A B N E. destruct (ends_pow x m Hd ltac:(lia) np ng' a b y A B N E) as (K & _). rewrite K. field. intro X; injection X; lra. Qed.
Lemma inside k : (k < n)%nat -> In (e k) es.
Proof. intro H. apply nth_In. exact H. Qed.
Lemma vget_in i : (i < length x)%nat -> In (vget x i) x.
Proof. intro H. apply nth_In. exact H. Qed.
Lemma entry_form k l u v : (k < n)%nat -> (l < n)%nat -> (0 <= u < M - 1)%Z -> (0 <= v < M - 1)%Z ->
  entry k l u v = intersection M es ng (sheet shift ng es) k l u v.
Proof. intros. destruct (returned_spec shift ng es M c ltac:(unfold M; lia) Ec) as [_ H']. now apply H'. Qed.

Lemma at_common_start k l : (k < l < n)%nat -> ea (e l) = ea (e k) -> exists s r, shift k l ABAD = Done s /\ -1 < r < 1 /\ r <> 0 /\
  (ng k l = true <-> r < 0) /\ offset_by M (y_ya (Y k)) (y_ya (Y l)) s r.
Proof.
  intros Hkl Ea.
  destruct (data_edge nonpos neg x m es ys Hd Hm Hg Ht Ey k ltac:(fold n; lia)) as (Ek & A1 & A2 & A3 & A4 & A5 & A6).
  destruct (data_edge nonpos neg x m es ys Hd Hm Hg Ht Ey l ltac:(fold n; lia)) as (El & B1 & B2 & B3 & B4 & B5 & B6).
  destruct (growing_new es k l Hg Hkl) as [N1 N2]. rewrite Ea in El.
  destruct (common_start_final _ _ _ _ x m (ea (e k)) (eb (e k)) (eb (e l)) _ _ Hd ltac:(lia) A1 A2 B2 A3 ltac:(congruence) Ek El) as (s & r & E & R1 & R2 & R3 & _).
  exists s, r. split; [exact E|]. split; [lra|].
  assert (Eq : (vget x (eb (e k)) - vget x (ea (e k)))%C = (y_ba2 (Y k) / y_ba2 (Y l) * (vget x (eb (e l)) - vget x (ea (e k))))%C).
  { apply (over_ba2 _ _ _ _ (vget_diff _ _ _ _ _ A1 A2 A3 Ek) (vget_diff _ _ _ _ _ A1 B2 ltac:(congruence) El) B4). }
  assert (N0 : r <> 0).
  { intro R0. rewrite R0, Rmult_0_r in R2. rewrite cis_0, Cmult_1_r in R2. rewrite R2 in Eq.
    apply (ray_start x _ _ _ _ (vget_in _ A2) (vget_in _ B2)) in Eq; auto.
    - apply (vget_neq x Hd); auto.
    - apply (vget_neq x Hd); auto.
    - apply (vget_neq x Hd); auto.
    - apply Hfree, inside. lia.
    - rewrite <- Ea. apply Hfree, inside. lia.
    - apply quot_pos; [exact A4|exact B4]. }
  split; [exact N0|]. split.
  - unfold ng, is_neg_abad. rewrite R2. assert (Q : 0 < Cmod (y_ba2 (Y k) / y_ba2 (Y l))%C).
    { apply quot_pos; [exact A4|exact B4]. }
    set (q := Cmod _) in *. assert (SS := sin_sign r ltac:(lra)). cbn [snd Cmult RtoC cis fst]. destruct (Rle_dec _ 0) as [L|L].
    + split; [|reflexivity]. intros _. assert (sin (2 * PI * r) <= 0) by nra. assert (r <= 0) by tauto. lra.
    + split; [discriminate|]. intro Rn. exfalso. apply L. assert (sin (2 * PI * r) <= 0) by (apply SS; lra). nra.
  - destruct (along_exists _ A5) as [t T]. exists t. split; [exact T|].
    assert (EY : y_ya (Y l) = (RtoC (Cmod (y_ya (Y l) / y_ya (Y k))) * (y_ya (Y k) * cis (- (2 * PI * r / IZR M)) * root M s))%C).
    { transitivity (y_ya (Y l) / y_ya (Y k) * y_ya (Y k))%C; [field; exact A5|]. rewrite R3 at 1. unfold M. ring. }
    rewrite EY. apply along_scal.
    + apply quot_pos; [exact B5|exact A5].
    + unfold root. eapply along_eq; [apply along_cis, along_cis, T|]. assert (0 < IZR M) by (apply IZR_lt; unfold M; lia). field. lra.
Qed.
Lemma at_end_start k l : (k < l < n)%nat -> ea (e l) = eb (e k) -> exists s r, shift k l ABBD = Done s /\ 0 < r < 1 /\ offset_by M (y_yb (Y k)) (y_ya (Y l)) s r.
Proof.
  intros Hkl Ea.
  destruct (data_edge nonpos neg x m es ys Hd Hm Hg Ht Ey k ltac:(fold n; lia)) as (Ek & A1 & A2 & A3 & A4 & A5 & A6).
  destruct (data_edge nonpos neg x m es ys Hd Hm Hg Ht Ey l ltac:(fold n; lia)) as (El & B1 & B2 & B3 & B4 & B5 & B6).
  destruct (growing_new es k l Hg Hkl) as [N1 N2]. rewrite Ea in El.
  destruct (end_to_start_final _ _ _ _ x m (ea (e k)) (eb (e k)) (eb (e l)) _ _ Hd ltac:(lia) A1 A2 B2 A3 ltac:(congruence) Ek El) as (s & r & E & R1 & R2 & R3 & _).
  exists s, (r + / 2). split; [exact E|].
  assert (Eq : (vget x (eb (e k)) - vget x (ea (e k)))%C = (y_ba2 (Y k) / y_ba2 (Y l) * (vget x (eb (e l)) - vget x (eb (e k))))%C).
  { apply (over_ba2 _ _ _ _ (vget_diff _ _ _ _ _ A1 A2 A3 Ek) (vget_diff _ _ _ _ _ A2 B2 ltac:(congruence) El) B4). }
  assert (Q : 0 < Cmod (y_ba2 (Y k) / y_ba2 (Y l))%C).
  { apply quot_pos; [exact A4|exact B4]. }
  split.
  - split; [|lra]. enough (r <> - / 2) by lra. intro R0. rewrite R0 in R2. replace (2 * PI * - / 2) with (- PI) in R2 by field.
    assert (C1 : cis (- PI) = RtoC (-1)). { unfold cis. rewrite cos_neg, sin_neg, cos_PI, sin_PI. unfold RtoC. f_equal. ring. }
    rewrite C1 in R2. rewrite R2 in Eq. set (q := Cmod _) in *.
    apply (ray_start x (vget x (eb (e k))) (vget x (ea (e k))) (vget x (eb (e l))) q (vget_in _ A1) (vget_in _ B2)).
    + apply (vget_neq x Hd); auto.
    + apply (vget_neq x Hd); auto.
    + apply (vget_neq x Hd); auto.
    + intros t T I. apply (Hfree (e k) (inside k ltac:(lia)) (- t) ltac:(lra)). rewrite point_back. exact I.
    + rewrite <- Ea. apply Hfree, inside. lia.
    + transitivity (- (vget x (eb (e k)) - vget x (ea (e k))))%C; [ring|]. rewrite Eq. replace (RtoC (-1)) with (- RtoC 1)%C by (rewrite <- RtoC_opp; reflexivity). ring.
    + exact Q.
  - destruct (along_exists _ A6) as [t T]. exists t. split; [exact T|].
    assert (EY : y_ya (Y l) = (RtoC (Cmod (y_ya (Y l) / y_yb (Y k))) * (y_yb (Y k) * cis (- (2 * PI * (r + / 2) / IZR M)) * root M s))%C).
    { transitivity (y_ya (Y l) / y_yb (Y k) * y_yb (Y k))%C; [field; exact A6|]. rewrite R3 at 1. unfold M. ring. }
    rewrite EY. apply along_scal.
    + apply quot_pos; [exact B5|exact A6].
    + unfold root. eapply along_eq; [apply along_cis, along_cis, T|]. assert (0 < IZR M) by (apply IZR_lt; unfold M; lia). field. lra.
Qed.

(** the numbers at the ends *)
Lemma ends_number k l u v : (k <= l < n)%nat -> (0 <= u < M - 1)%Z -> (0 <= v < M - 1)%Z ->
  exists e0, 0 < e0 /\ forall eps, 0 < eps < e0 ->
    crossings (list_prod (passes M (e k) (y_ya (Y k)) (y_yb (Y k)) u) (map (pushed eps) (passes M (e l) (y_ya (Y l)) (y_yb (Y l)) v))) (entry k l u v).
Proof.
  intros Hkl Hu Hv. rewrite entry_form by (lia || assumption). unfold intersection. assert (M2 : (2 <= M)%Z) by (unfold M; lia). destruct (mod1 M M2) as [D1 D2].
  destruct (Nat.ltb_spec k l) as [L|L].
  - destruct (growing_new es k l Hg ltac:(fold n; lia)) as [N1 N2].
    destruct (data_edge nonpos neg x m es ys Hd Hm Hg Ht Ey k ltac:(fold n; lia)) as (_ & _ & _ & A3 & _).
    unfold sheet, relative. destruct (Nat.eqb_spec (ea (e l)) (ea (e k))) as [Ea|Ea].
    + destruct (at_common_start k l ltac:(lia) Ea) as (s & r & E & R1 & R0 & NG & OF). cbn [kind]. rewrite E.
      destruct (start_start M u v M2 _ _ s r OF R1 R0) as (e0 & P0 & H). exists e0. split; [exact P0|]. intros eps He. specialize (H eps He).
      unfold passes, pushed. cbn [list_prod map app fst snd].
      set (T := table _ _ _ _). replace T with (T + 0)%Z by lia. apply cr_same; [cbn [fst]; auto| |].
      * cbn [snd]. replace T with (if Rlt_dec r 0 then dlt0 M (v + s - u) - dlt0 M (v + 1 + s - u) else dlt0 M (v - 1 + s - u) - dlt0 M (v + s - u))%Z; [exact H|].
        unfold T. destruct (Rlt_dec r 0) as [Ln|Ln].
        { rewrite (proj2 NG Ln). cbn [table]. rewrite number_dlt; [f_equal; f_equal; lia|exact M2|]. replace (- s - (-1 - s))%Z with 1%Z by lia. exact D1. }
        { destruct (ng k l) eqn:Eng; [exfalso; apply Ln; now apply NG|]. cbn [table]. rewrite number_dlt; [f_equal; f_equal; lia|exact M2|]. replace (1 - s - - s)%Z with 1%Z by lia. exact D1. }
      * apply cr_other; [cbn [fst]; auto|]. apply cr_other; [cbn [fst]; congruence|]. apply cr_other; [cbn [fst]; auto|]. constructor.
    + destruct (Nat.eqb_spec (ea (e l)) (eb (e k))) as [Eb|Eb].
      * destruct (at_end_start k l ltac:(lia) Eb) as (s & r & E & R1 & OF). cbn [kind]. rewrite E.
        destruct (end_start M u v M2 _ _ s r OF R1) as (e0 & P0 & H). exists e0. split; [exact P0|]. intros eps He. specialize (H eps He).
        unfold passes, pushed. cbn [list_prod map app fst snd]. set (T := table _ _ _ _).
        apply cr_other; [cbn [fst]; congruence|]. apply cr_other; [cbn [fst]; auto|]. replace T with (T + 0)%Z by lia. apply cr_same; [cbn [fst]; auto| |apply cr_other; [cbn [fst]; auto|constructor]].
        cbn [snd]. replace T with (dlt0 M (v + s - u) - dlt0 M (v - 1 + s - u))%Z; [exact H|]. unfold T. cbn [table]. rewrite number_dlt; [f_equal; f_equal; lia|exact M2|]. replace (- s - (1 - s))%Z with (-1)%Z by lia. exact D2.
      * cbn [table]. exists 1. split; [lra|]. intros eps _. unfold passes, pushed. cbn [list_prod map app fst snd].
        do 4 (apply cr_other; [cbn [fst]; auto|]). constructor.
  - assert (l = k) by lia. subst l. rewrite Nat.ltb_irrefl.
    destruct (data_edge nonpos neg x m es ys Hd Hm Hg Ht Ey k ltac:(fold n; lia)) as (_ & _ & _ & A3 & _ & A5 & A6).
    exists (2 * PI * 1 / IZR M). split; [exact (small1_pos M M2)|]. intros eps He. assert (S1 := self_start M u v M2 _ A5 eps He). assert (S2 := self_end M u v M2 _ A6 eps He).
    unfold passes, pushed. cbn [list_prod map app fst snd]. set (T := number _ _ _ _). replace T with (0 + (T + 0))%Z by lia.
    apply cr_same; [reflexivity|exact S1|]. apply cr_other; [exact A3|]. apply cr_other; [cbn [fst]; auto|]. apply cr_same; [reflexivity| |constructor]. cbn [snd].
    replace T with (dlt0 M (v - 1 - u) - dlt0 M (v + 1 - u))%Z; [exact S2|]. unfold T. destruct (Z.eq_dec M 2) as [E2|E2].
    + assert (u = 0%Z) by lia. assert (v = 0%Z) by lia. subst u v. rewrite E2. reflexivity.
    + rewrite number_dlt; [f_equal; f_equal; lia|exact M2|]. replace (1 - -1)%Z with 2%Z by lia. rewrite Z.mod_small by lia. discriminate.
Qed.
Theorem loops_number k l u v Yk Yl : (k <= l < n)%nat -> (0 <= u < M - 1)%Z -> (0 <= v < M - 1)%Z ->
  ((k < l)%nat -> forall t t', -1 < t < 1 -> -1 < t' < 1 ->
     edge_point (vget x (ea (e k))) (vget x (eb (e k))) (RtoC t) <> edge_point (vget x (ea (e l))) (vget x (eb (e l))) (RtoC t')) ->
  loop_number M x (e k) (y_ya (Y k)) (y_yb (Y k)) Yk u (e l) (y_ya (Y l)) (y_yb (Y l)) Yl v (entry k l u v).
Proof.
  intros Hkl Hu Hv Hx. exists (entry k l u v), 0%Z. split; [lia|]. split; [now apply ends_number|].
  destruct ((ea (e k) =? ea (e l)) && (eb (e k) =? eb (e l)))%nat eqn:B; [reflexivity|]. apply ci_none.
  apply Hx. destruct (Nat.eq_dec k l) as [->|]; [|lia]. rewrite !Nat.eqb_refl in B. discriminate.
Qed.
(** if two edges cross, the entries are wrong *)
Theorem loops_crossed k l u v Yk Yl t t' : (k < l < n)%nat -> (0 <= u < M - 1)%Z -> (0 <= v < M - 1)%Z ->
  -1 < t < 1 -> -1 < t' < 1 ->
  edge_point (vget x (ea (e k))) (vget x (eb (e k))) (RtoC t) = edge_point (vget x (ea (e l))) (vget x (eb (e l))) (RtoC t') ->
  let sg := turn_sign (vget x (eb (e k)) - vget x (ea (e k)))%C (vget x (eb (e l)) - vget x (ea (e l)))%C in
  sg <> 0%Z ->
  loop_number M x (e k) (y_ya (Y k)) (y_yb (Y k)) Yk u (e l) (y_ya (Y l)) (y_yb (Y l)) Yl v (entry k l u v + sg * lifts M (Yk t) (Yl t') u v).
Proof.
  intros Hkl Hu Hv H1 H2 E sg Hs. exists (entry k l u v), (sg * lifts M (Yk t) (Yl t') u v)%Z. split; [reflexivity|]. split; [apply ends_number; try assumption; lia|].
  destruct (growing_new es k l Hg Hkl) as [_ N2]. rewrite (proj2 (Nat.eqb_neq (eb (e k)) (eb (e l)))) by congruence. rewrite Bool.andb_false_r. now apply ci_one.
Qed.
End Data.
