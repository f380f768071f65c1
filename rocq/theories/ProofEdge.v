From Verif Require Import CArg ModelTree ModelInter ModelEdge SpecEdge.
Local Open Scope nat_scope.

(** ** the arrangement *)
Section Arrange.
Context {A : Type} (d : A).

Lemma upd_length {B} (u : list B) i v : length (upd u i v) = length u.
Proof. revert i. induction u as [|x u IH]; intros [|i]; cbn; auto. Qed.
Lemma upd_app {B} (l1 l2 : list B) x v : upd (l1 ++ x :: l2) (length l1) v = l1 ++ v :: l2.
Proof. induction l1 as [|y l1 IH]; cbn; [reflexivity|]. rewrite IH. reflexivity. Qed.
Lemma nth_upd {B} (dd : B) u i v j : i < length u -> nth j (upd u i v) dd = if j =? i then v else nth j u dd.
Proof.
  revert i j. induction u as [|x u IH]; intros i j Hi; [cbn in Hi; lia|].
  destruct i as [|i], j as [|j]; cbn; try reflexivity. apply IH. cbn in Hi. lia.
Qed.
Lemma upd_same {B} (dd : B) u i : i < length u -> upd u i (nth i u dd) = u.
Proof.
  revert i. induction u as [|x u IH]; intros [|i] Hi; cbn in *; try lia; [reflexivity|]. rewrite IH by lia. reflexivity.
Qed.
Lemma swap_length u i j : length (swap_at d u i j) = length u.
Proof. unfold swap_at. rewrite !upd_length. reflexivity. Qed.
Lemma nth_swap u i j k : i < length u -> j < length u ->
  nth k (swap_at d u i j) d = if k =? j then nth i u d else if k =? i then nth j u d else nth k u d.
Proof. intros Hi Hj. unfold swap_at. rewrite nth_upd by (rewrite upd_length; exact Hj). rewrite nth_upd by exact Hi. reflexivity. Qed.
Lemma swap_perm u i j : i <= j < length u -> Permutation u (swap_at d u i j).
Proof.
  intros [Hij Hj]. destruct (Nat.eq_dec i j) as [->|Hne].
  - unfold swap_at. rewrite (upd_same d) by exact Hj. rewrite (upd_same d) by exact Hj. reflexivity.
  - assert (Hi : i < length u) by lia.
    destruct (nth_split u d Hi) as (l1 & l2 & E & Hl1).
    assert (Hj2 : j - S i < length l2).
    { assert (length u = length l1 + S (length l2)) by (rewrite E at 1; rewrite app_length; reflexivity). lia. }
    destruct (nth_split l2 d Hj2) as (l3 & l4 & E2 & Hl3).
    set (x := nth i u d) in *.
    assert (Ej : nth j u d = nth (j - S i) l2 d).
    { rewrite E. rewrite app_nth2 by lia. replace (j - length l1) with (S (j - S i)) by lia. reflexivity. }
    unfold swap_at. rewrite Ej. fold x. set (y := nth (j - S i) l2 d) in *.
    rewrite E at 2. rewrite <- Hl1, upd_app. rewrite E2 at 1.
    replace j with (length (l1 ++ y :: l3)) by (rewrite app_length; cbn; lia).
    replace (l1 ++ y :: l3 ++ y :: l4) with ((l1 ++ y :: l3) ++ y :: l4) by (rewrite <- app_assoc; reflexivity).
    rewrite upd_app, E, E2, <- app_assoc. cbn [app].
    apply Permutation_app_head.
    transitivity (y :: x :: l3 ++ l4).
    + transitivity (x :: y :: l3 ++ l4); [|apply perm_swap]. constructor. symmetry. apply Permutation_middle.
    + constructor. apply Permutation_middle.
Qed.

Lemma arrange_spec (nonpos : A -> bool) gap : forall u k, k + gap <= length u ->
  (forall i, i < k -> nonpos (nth i u d) = false) ->
  (forall i, k + gap <= i < length u -> nonpos (nth i u d) = true) ->
  let '(u', l) := arrange d nonpos gap u k in
  Permutation u u' /\ k <= l <= k + gap /\
  (forall i, i < l -> nonpos (nth i u' d) = false) /\
  (forall i, l <= i < length u -> nonpos (nth i u' d) = true).
Proof.
  induction gap as [|g IH]; intros u k Hk H1 H2; cbn [arrange].
  - conj; try lia; [reflexivity|exact H1|]. intros i Hi. apply H2. lia.
  - destruct (nonpos (nth k u d)) eqn:E.
    + specialize (IH (swap_at d u k (k + g)) k). rewrite swap_length in IH.
      destruct (arrange d nonpos g (swap_at d u k (k + g)) k) as [u' l].
      destruct IH as (P & Hl & A1 & A2).
      * lia.
      * intros i Hi. rewrite nth_swap by lia. destruct (Nat.eqb_spec i (k + g)); [lia|]. destruct (Nat.eqb_spec i k); [lia|]. apply H1, Hi.
      * intros i Hi. rewrite nth_swap by lia. destruct (Nat.eqb_spec i (k + g)); [exact E|]. destruct (Nat.eqb_spec i k) as [->|].
        -- destruct g as [|g]; [lia|]. lia.
        -- apply H2. lia.
      * conj; try lia; [|exact A1|exact A2]. etransitivity; [|exact P]. apply swap_perm. lia.
    + specialize (IH u (S k)). destruct (arrange d nonpos g u (S k)) as [u' l].
      destruct IH as (P & Hl & A1 & A2).
      * lia.
      * intros i Hi. destruct (Nat.eq_dec i k) as [->|]; [exact E|]. apply H1. lia.
      * intros i Hi. apply H2. lia.
      * conj; try lia; [exact P|exact A1|exact A2].
Qed.
End Arrange.

(** ** the other points *)
Lemma other_points_in n a b k : In k (other_points n a b) <-> k < n /\ k <> a /\ k <> b.
Proof.
  unfold other_points. rewrite filter_In, in_seq. rewrite negb_true_iff, orb_false_iff, !Nat.eqb_neq. lia.
Qed.
Lemma other_points_perm n a b : a < n -> b < n -> a <> b -> Permutation (seq 0 n) (a :: b :: other_points n a b).
Proof.
  intros Ha Hb Hab. apply NoDup_Permutation.
  - apply seq_NoDup.
  - assert (Hn : NoDup (other_points n a b)) by (apply NoDup_filter, seq_NoDup).
    constructor; [|constructor; [|exact Hn]].
    + intros [E|Hin]; [congruence|]. apply other_points_in in Hin. lia.
    + intros Hin. apply other_points_in in Hin. lia.
  - intros k. cbn [In]. rewrite other_points_in, in_seq. lia.
Qed.
Lemma other_points_length n a b : a < n -> b < n -> a <> b -> length (other_points n a b) + 2 = n.
Proof.
  intros Ha Hb Hab. pose proof (Permutation_length (other_points_perm n a b Ha Hb Hab)) as H.
  rewrite seq_length in H. cbn in H. lia.
Qed.
Lemma other_points_same n a : a < n -> length (other_points n a a) + 1 = n.
Proof.
  intros Ha. assert (P : Permutation (seq 0 n) (a :: other_points n a a)).
  { apply NoDup_Permutation.
    - apply seq_NoDup.
    - constructor; [|apply NoDup_filter, seq_NoDup]. intros Hin. apply other_points_in in Hin. lia.
    - intros k. cbn [In]. rewrite other_points_in, in_seq. lia. }
  apply Permutation_length in P. rewrite seq_length in P. cbn in P. lia.
Qed.

(** ** products *)
Lemma m1 : RtoC (-1) = (- RtoC 1)%C.
Proof. unfold RtoC, Copp. cbn [fst snd]. f_equal; ring. Qed.
Definition sg (n : nat) : C := cpow (RtoC (-1)) n.
Lemma sg_S n : sg (S n) = (- sg n)%C.
Proof. unfold sg. cbn [cpow]. rewrite m1. ring. Qed.
Lemma sg_sq n : (sg n * sg n)%C = RtoC 1.
Proof. induction n as [|n IH]; [unfold sg; cbn; ring|]. rewrite sg_S. transitivity (sg n * sg n)%C; [ring|exact IH]. Qed.
Lemma sg_neq n : sg n <> RtoC 0.
Proof. unfold sg. apply cpow_neq_0. intros E. injection E. lra. Qed.

Lemma cprod_ext {A} (f g : A -> C) l : (forall x, In x l -> f x = g x) -> cprod f l = cprod g l.
Proof.
  induction l as [|x l IH]; intros H; cbn; [reflexivity|]. rewrite (H x) by (left; reflexivity). rewrite IH; [reflexivity|].
  intros y Hy. apply H. right. exact Hy.
Qed.
Lemma cprod_perm {A} (f : A -> C) l l' : Permutation l l' -> cprod f l = cprod f l'.
Proof. induction 1; cbn; [reflexivity|rewrite IHPermutation; reflexivity|ring|congruence]. Qed.
Lemma cprod_map {A B} (g : A -> B) (f : B -> C) l : cprod f (map g l) = cprod (fun x => f (g x)) l.
Proof. induction l as [|x l IH]; cbn; [reflexivity|]. rewrite IH. reflexivity. Qed.
Lemma cprod_scal {A} (c : C) (f : A -> C) l : cprod (fun x => (c * f x)%C) l = (cpow c (length l) * cprod f l)%C.
Proof. induction l as [|x l IH]; cbn [cprod length cpow]; [ring|]. rewrite IH. ring. Qed.
Lemma cprod_app {A} (f : A -> C) l l' : cprod f (l ++ l') = (cprod f l * cprod f l')%C.
Proof. induction l as [|x l IH]; cbn [cprod app]; [ring|]. rewrite IH. ring. Qed.
Lemma cprod_neq {A} (f : A -> C) l : (forall x, In x l -> f x <> RtoC 0) -> cprod f l <> RtoC 0.
Proof.
  induction l as [|x l IH]; intros H; cbn [cprod].
  - intros E. injection E. lra.
  - apply Cmult_neq_0'; [apply H; left; reflexivity|]. apply IH. intros y Hy. apply H. right. exact Hy.
Qed.
Lemma cprod_pow {A} (f : A -> C) l n : cpow (cprod f l) n = cprod (fun x => cpow (f x) n) l.
Proof. induction l as [|x l IH]; cbn [cprod]; [apply cpow_one|]. rewrite cpow_mul, IH. reflexivity. Qed.

Lemma root_product_tilde m u : forall k d1 x y, root_product m u k d1 x y =
  (y * (cprod (fun p => croot m (p - x)%C) (firstn (d1 - k) u) * cprod (fun p => croot m (x - p)%C) (skipn (d1 - k) u)))%C.
Proof.
  induction u as [|p u IH]; intros k d1 x y; cbn [root_product].
  - rewrite firstn_nil, skipn_nil. cbn [cprod]. ring.
  - rewrite IH. destruct (Nat.leb_spec d1 k) as [H|H].
    + replace (d1 - S k) with 0 by lia. replace (d1 - k) with 0 by lia. cbn [firstn skipn cprod].
      replace (- (p - x))%C with (x - p)%C by ring. ring.
    + replace (d1 - k) with (S (d1 - S k)) by lia. cbn [firstn skipn cprod]. ring.
Qed.
Lemma root_pol_tilde m u n1 x : mth_root_pol_def m u n1 x = y_tilde m u n1 x.
Proof. unfold mth_root_pol_def, y_tilde. rewrite root_product_tilde, Nat.sub_0_r. ring. Qed.

Lemma y_tilde_pow m u n1 t : (0 < m) -> n1 <= length u ->
  cpow (y_tilde (Z.of_nat m) u n1 t) m = (sg n1 * cprod (fun p => t - p) u)%C.
Proof.
  intros Hm Hn. unfold y_tilde. rewrite cpow_mul, !cprod_pow.
  rewrite (cprod_ext _ (fun p => RtoC (-1) * (t - p))%C (firstn n1 u)).
  - rewrite (cprod_scal (RtoC (-1)) (fun p => t - p)%C), firstn_length, Nat.min_l by exact Hn.
    rewrite (cprod_ext (fun p => cpow _ m) (fun p => t - p)%C (skipn n1 u)).
    + replace (cprod (fun p => t - p)%C u) with (cprod (fun p => t - p)%C (firstn n1 u) * cprod (fun p => t - p)%C (skipn n1 u))%C.
      * unfold sg. ring.
      * rewrite <- cprod_app, firstn_skipn. reflexivity.
    + intros p _. apply croot_pow, Hm.
  - intros p _. rewrite croot_pow by exact Hm. rewrite m1. ring.
Qed.

(** ** the constant *)
Lemma root_2m_pow m : 0 < m -> cpow (root (2 * Z.of_nat m) 1) m = RtoC (-1).
Proof.
  intros Hm. rewrite root_pow. unfold root. rewrite <- cis_PI. f_equal.
  rewrite !mult_IZR. field. apply not_0_IZR. lia.
Qed.
Lemma constant_cab_spec neg ba2 n1 n m : 0 < m -> ba2 <> RtoC 0 ->
  exists c, constant_cab neg ba2 n1 n (Z.of_nat m) = Done c /\ cpow c m = (sg (S n1) * cpow ba2 n)%C /\ c <> RtoC 0.
Proof.
  intros Hm Hb. unfold constant_cab. set (k := neg (cpow ba2 n)).
  set (c0 := croot (Z.of_nat m) (if k then (- cpow ba2 n)%C else cpow ba2 n)).
  set (c := if Nat.even ((if k then 1 else 0) + n1) then (c0 * root (2 * Z.of_nat m) 1)%C else c0).
  assert (E0 : cpow c0 m = (sg (if k then 1 else 0) * cpow ba2 n)%C).
  { unfold c0. rewrite croot_pow by exact Hm. destruct k; unfold sg; cbn [cpow]; rewrite ?m1; ring. }
  assert (Esg : forall j, sg j = if Nat.even j then RtoC 1 else RtoC (-1)).
  { induction j as [|j IHj]; [reflexivity|]. rewrite sg_S, IHj, Nat.even_succ, <- Nat.negb_even.
    destruct (Nat.even j); cbn [negb]; rewrite ?m1; ring. }
  assert (E : cpow c m = (sg (S n1) * cpow ba2 n)%C).
  { unfold c. destruct (Nat.even ((if k then 1 else 0) + n1)) eqn:Ev.
    - rewrite cpow_mul, E0, root_2m_pow by exact Hm. rewrite sg_S, !Esg.
      destruct k; cbn [Nat.add] in Ev.
      + rewrite Nat.even_succ, <- Nat.negb_even in Ev. destruct (Nat.even n1); [discriminate|]. cbn [Nat.even]. rewrite ?m1. ring.
      + rewrite Ev. cbn [Nat.even]. rewrite ?m1. ring.
    - rewrite E0, sg_S, !Esg. destruct k; cbn [Nat.add] in Ev.
      + rewrite Nat.even_succ, <- Nat.negb_even in Ev. destruct (Nat.even n1); [|discriminate]. cbn [Nat.even]. rewrite ?m1. ring.
      + rewrite Ev. cbn [Nat.even]. rewrite ?m1. ring. }
  assert (Hc : c <> RtoC 0).
  { intros H. rewrite H in E. destruct m as [|m]; [lia|]. cbn [cpow] in E. rewrite Cmult_0_r in E.
    symmetry in E. revert E. apply Cmult_neq_0'; [apply sg_neq|apply cpow_neq_0, Hb]. }
  destruct (Req_EM_T (Cmod c) 0) as [H|_]; [apply Cmod_eq_0 in H; contradiction|].
  exists c. conj; [reflexivity|exact E|exact Hc].
Qed.

(** ** the whole structure *)
Section Init.
Context (nonpos neg : C -> bool) (x : list C) (a b m : nat).
Let n := length x.
Hypothesis Ha : a < n.
Hypothesis Hb : b < n.
Hypothesis Hab : vget x a <> vget x b.
Hypothesis Hm : 0 < m.
Let xa := vget x a.
Let xb := vget x b.
Let h := ((xb - xa) / RtoC 2)%C.

Lemma two : RtoC 2 = (RtoC 1 + RtoC 1)%C.
Proof. unfold RtoC, Cplus. cbn [fst snd]. f_equal; ring. Qed.
Lemma two_neq : RtoC 2 <> RtoC 0.
Proof. intros E. injection E. lra. Qed.
Lemma diff_neq : (xb - xa)%C <> RtoC 0.
Proof using Hab. intros E. apply Hab. fold xa xb. replace xa with (xb - (xb - xa))%C by ring. rewrite E. ring. Qed.
Lemma h_neq : h <> RtoC 0.
Proof using Hab.
  unfold h. intros E. apply diff_neq. replace (xb - xa)%C with ((xb - xa) / RtoC 2 * RtoC 2)%C by (field; apply two_neq).
  rewrite E. ring.
Qed.

Definition scaled (k : nat) : C := ((RtoC 2 * vget x k - (xb + xa)) / (xb - xa))%C.

Lemma init_spec : exists y, ydata_init_edge nonpos neg x a b (Z.of_nat m) = Done y /\
  Permutation (map scaled (other_points n a b)) (y_u y) /\
  y_n1 y <= length (y_u y) /\
  (forall p, In p (firstn (y_n1 y) (y_u y)) -> nonpos p = false) /\
  (forall p, In p (skipn (y_n1 y) (y_u y)) -> nonpos p = true) /\
  y_ba2 y = h /\ y_ab y = ((xa + xb) / (xb - xa))%C /\
  cpow (y_c y) m = (sg (S (y_n1 y)) * cpow h n)%C /\ y_c y <> RtoC 0 /\
  y_ya y = (y_tilde (Z.of_nat m) (y_u y) (y_n1 y) (RtoC (-1)) * y_c y)%C /\
  y_yb y = (y_tilde (Z.of_nat m) (y_u y) (y_n1 y) (RtoC 1) * y_c y)%C.
Proof using Ha Hb Hab Hm.
  assert (Hne : a <> b) by (intros E; apply Hab; rewrite E; reflexivity).
  unfold ydata_init_edge. fold n.
  rewrite (proj2 (Nat.ltb_lt a n) Ha), (proj2 (Nat.ltb_lt b n) Hb). cbn [andb negb].
  cbn zeta. rewrite !map_length, other_points_length by assumption.
  rewrite Nat.eqb_refl. cbn [negb]. fold xa xb.
  destruct (Req_EM_T (Cmod (xb - xa)%C) 0) as [H|_]; [apply Cmod_eq_0 in H; destruct (diff_neq H)|].
  fold scaled. change (map (fun k => ((RtoC 2 * vget x k - (xb + xa)) / (xb - xa))%C) (other_points n a b)) with (map scaled (other_points n a b)).
  set (u := map scaled (other_points n a b)).
  assert (Hlu : length (other_points n a b) = length u) by (unfold u; rewrite map_length; reflexivity).
  rewrite Hlu. pose proof (arrange_spec (RtoC 0) nonpos (length u) u 0) as HA.
  destruct (arrange (RtoC 0) nonpos (length u) u 0) as [u' l] eqn:EA.
  destruct HA as (P & Hl & A1 & A2); [lia|intros; lia|intros; lia|].
  destruct (constant_cab_spec neg h l n m Hm h_neq) as (c & Ec & Hc & Hc0).
  fold h. rewrite Ec. cbn [bind]. eexists. split; [reflexivity|]. cbn [y_u y_n1 y_ba2 y_ab y_c y_ya y_yb].
  pose proof (Permutation_length P) as HL.
  conj; try (rewrite root_pol_tilde; reflexivity); try assumption; try reflexivity.
  - lia.
  - intros p Hp. apply (In_nth _ _ (RtoC 0)) in Hp. destruct Hp as (i & Hi & <-).
    rewrite firstn_length in Hi. rewrite <- (A1 i) by lia. f_equal.
    rewrite <- (firstn_skipn l u') at 2. rewrite app_nth1; [reflexivity|]. rewrite firstn_length. lia.
  - intros p Hp. apply (In_nth _ _ (RtoC 0)) in Hp. destruct Hp as (i & Hi & <-).
    rewrite skipn_length in Hi. rewrite <- (A2 (l + i)) by lia. f_equal.
    rewrite <- (firstn_skipn l u') at 2. rewrite app_nth2; rewrite firstn_length; [f_equal; lia|lia].
  - f_equal. ring.
Qed.

(** the other roots, in the coordinate of the edge *)
Lemma edge_scaled k t : (edge_point xa xb t - vget x k)%C = (h * (t - scaled k))%C.
Proof using Hab. unfold edge_point, scaled, h. field. split; [apply diff_neq|apply two_neq]. Qed.

Lemma roots_list : map (vget x) (seq 0 n) = x.
Proof.
  unfold vget, n. apply (nth_ext _ _ (RtoC 0) (RtoC 0)); [rewrite map_length, seq_length; reflexivity|].
  intros i Hi. rewrite map_length, seq_length in Hi. rewrite nth_map_seq by exact Hi. reflexivity.
Qed.
Lemma poly_split t : a <> b -> poly_at x t = ((t - xa) * (t - xb) * cprod (fun k => t - vget x k)%C (other_points n a b))%C.
Proof using Ha Hb.
  intros Hne. unfold poly_at. rewrite <- roots_list at 1. rewrite cprod_map.
  rewrite (cprod_perm _ _ _ (other_points_perm n a b Ha Hb Hne)). cbn [cprod]. fold xa xb. ring.
Qed.

(** (c y~(t))^m without the factor 1 - t^2 *)
Lemma value_pow y t : ydata_init_edge nonpos neg x a b (Z.of_nat m) = Done y ->
  cpow (y_tilde (Z.of_nat m) (y_u y) (y_n1 y) t * y_c y)%C m =
  (- (h * h * cprod (fun k => edge_point xa xb t - vget x k)%C (other_points n a b)))%C.
Proof using Ha Hb Hab Hm.
  intros E. destruct init_spec as (y' & E' & P & Hn1 & _ & _ & _ & _ & Hc & _). rewrite E in E'. injection E' as <-.
  assert (Hne : a <> b) by (intros E'; apply Hab; rewrite E'; reflexivity).
  rewrite cpow_mul, Hc, y_tilde_pow by assumption.
  rewrite <- (cprod_perm _ _ _ P), cprod_map.
  rewrite (cprod_ext (fun k => edge_point xa xb t - vget x k)%C (fun k => h * (t - scaled k))%C) by (intros k _; apply edge_scaled).
  rewrite (cprod_scal h (fun k => t - scaled k)%C).
  pose proof (other_points_length n a b Ha Hb Hne) as HL.
  assert (Hh : cpow h n = (cpow h (length (other_points n a b)) * (h * h))%C).
  { transitivity (cpow h (length (other_points n a b) + 2)); [f_equal; lia|]. rewrite cpow_add. cbn [cpow]. ring. }
  rewrite Hh, sg_S.
  set (Q := cprod (fun k => t - scaled k)%C (other_points n a b)).
  transitivity (- (sg (y_n1 y) * sg (y_n1 y)) * (h * h * (cpow h (length (other_points n a b)) * Q)))%C; [ring|].
  rewrite sg_sq. ring.
Qed.

Lemma curve_equation y t : ydata_init_edge nonpos neg x a b (Z.of_nat m) = Done y ->
  poly_at x (edge_point xa xb t) =
  ((RtoC 1 - t * t) * cpow (y_c y * y_tilde (Z.of_nat m) (y_u y) (y_n1 y) t)%C m)%C.
Proof using Ha Hb Hab Hm.
  intros E. assert (Hne : a <> b) by (intros E'; apply Hab; rewrite E'; reflexivity).
  rewrite (Cmult_comm (y_c y)), (value_pow y t E), (poly_split _ Hne).
  assert (E1 : (edge_point xa xb t - xa)%C = (h * (t + RtoC 1))%C) by (unfold edge_point, h; rewrite two; field; intros H0; injection H0; lra).
  assert (E2 : (edge_point xa xb t - xb)%C = (h * (t - RtoC 1))%C) by (unfold edge_point, h; rewrite two; field; intros H0; injection H0; lra).
  rewrite E1, E2. ring.
Qed.
End Init.
