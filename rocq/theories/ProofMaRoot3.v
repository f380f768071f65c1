(** The edges of the Magma package: data, branch, equation of the curve. *)
From Coquelicot Require Import Coquelicot.
From Verif Require Import CArg ModelTree ModelVec ModelPeriod ModelTurn ModelEdge ModelMaRoot SpecTurn SpecMaRoot ProofEdge ProofTurn ProofMaRoot ProofMaRoot2 ProofErr3 ProofHol11 SpecEdge.
Local Open Scope R_scope.

Lemma vread_ok v i : (i < length v)%nat -> vread v i = Done (vget v i).
Proof. intros H. unfold vread. destruct (Nat.ltb_spec i (length v)); [reflexivity|lia]. Qed.

Section Edge.
Context (x : list C) (a b m : nat).
Let n := length x.
Hypothesis Ha : (a < n)%nat.
Hypothesis Hb : (b < n)%nat.
Hypothesis Hab : vget x a <> vget x b.
Hypothesis Hm : (2 <= m)%nat.
Hypothesis Hn : (3 <= n)%nat.
Let xa := vget x a.
Let xb := vget x b.
Let h := ((xb - xa) / RtoC 2)%C.

Definition edge_good (e : se_edge) (u : list C) (up : nat) (c : C) : Prop :=
  e = {| e_data := u ++ [h; ((xb + xa) / (xb - xa))%C; c]; e_up := up; e_isgn := isgns u up |} /\
  Permutation (map (scaled x a b) (other_points n a b)) u /\ (length u + 2 = n)%nat /\ (up <= length u)%nat /\
  (forall p, In p (firstn up u) -> 0 < fst p) /\ (forall p, In p (skipn up u) -> fst p <= 0) /\
  cpow c m = (sg (S up) * cpow (xb - xa) n)%C /\ c <> RtoC 0.

Lemma edge_data_ok : exists e u up c, edge_data x (zetas m) m n a b = Done e /\ edge_good e u up c.
Proof using All.
  assert (Hne : a <> b) by (intros E; apply Hab; rewrite E; reflexivity).
  assert (Hd : (xb - xa)%C <> RtoC 0) by (apply (diff_neq x a b), Hab).
  unfold edge_data. rewrite !vread_ok by assumption. cbn [bind]. fold xa xb.
  destruct (Req_EM_T (Cmod (xb - xa)%C) 0) as [H|_]; [apply Cmod_eq_0 in H; contradiction|].
  unfold sorted_points. set (pts := if (a <? b)%nat then _ else _).
  assert (P0 : Permutation pts (map (vget x) (other_points n a b))) by (apply remove_two; assumption).
  set (f := fun z => ((RtoC 2 * z - (xb + xa)) * (RtoC 1 / (xb - xa)))%C).
  pose proof (sort_spec (map f pts)) as HS. destruct (sort_by_real_part (map f pts)) as [u up].
  destruct HS as (P & Hup & H1 & H2).
  destruct (c_ab_spec (xb - xa)%C up m n Hm Hd) as (c & Ec & Hc & Hc0). rewrite Ec. cbn [bind].
  assert (P1 : Permutation (map (scaled x a b) (other_points n a b)) u).
  { rewrite <- P, (Permutation_map f P0), map_map. apply Permutation_refl'. apply map_ext. intros k. unfold scaled, f. fold xa xb. field. exact Hd. }
  exists {| e_data := u ++ [h; ((xb + xa) / (xb - xa))%C; c]; e_up := up; e_isgn := isgns u up |}, u, up, c.
  split; [reflexivity|]. unfold edge_good. split; [reflexivity|]. split; [exact P1|].
  split; [apply Permutation_length in P1; rewrite map_length in P1; rewrite <- P1; apply other_points_length; assumption|].
  repeat split; assumption.
Qed.

Section Good.
Context (e : se_edge) (u : list C) (up : nat) (c : C).
Hypothesis HE : edge_good e u up c.

Lemma edge_constant : vget (e_data e) n = c /\ vget (e_data e) (n - 2) = h.
Proof using All.
  destruct HE as (-> & _ & HL & _). unfold vget. cbn [e_data].
  split; (rewrite app_nth2 by lia); [replace (n - length u)%nat with 2%nat by lia|replace (n - 2 - length u)%nat with 0%nat by lia]; reflexivity.
Qed.

Lemma tilde_power t : cpow (c * y_tilde (Z.of_nat m) u up t)%C m =
  (cpow (RtoC 2) n * - (h * h * cprod (fun k => edge_point xa xb t - vget x k)%C (other_points n a b)))%C.
Proof using All.
  destruct HE as (_ & P & HL & Hup & _ & _ & Hc & _).
  assert (Hne : a <> b) by (intros E'; apply Hab; rewrite E'; reflexivity).
  rewrite cpow_mul, Hc, y_tilde_pow by (lia || assumption).
  rewrite <- (cprod_perm _ _ _ P), cprod_map.
  rewrite (cprod_ext (fun k => edge_point xa xb t - vget x k)%C (fun k => h * (t - scaled x a b k))%C) by (intros k _; apply (edge_scaled x a b Hab)).
  rewrite (cprod_scal h (fun k => t - scaled x a b k)%C).
  pose proof (other_points_length n a b Ha Hb Hne) as HLo.
  assert (Hh : cpow (xb - xa)%C n = (cpow (RtoC 2) n * (cpow h (length (other_points n a b)) * (h * h)))%C).
  { replace (xb - xa)%C with (RtoC 2 * h)%C by (unfold h; field; apply two_neq). rewrite cpow_mul. f_equal.
    transitivity (cpow h (length (other_points n a b) + 2)); [f_equal; lia|]. rewrite cpow_add. cbn [cpow]. ring. }
  rewrite Hh, sg_S.
  set (Q := cprod (fun k => t - scaled x a b k)%C (other_points n a b)).
  transitivity (- (sg up * sg up) * (cpow (RtoC 2) n * (h * h * (cpow h (length (other_points n a b)) * Q))))%C; [ring|].
  rewrite sg_sq. ring.
Qed.

Lemma tilde_equation t : ((RtoC 1 - t * t) * cpow (c * y_tilde (Z.of_nat m) u up t)%C m)%C =
  (cpow (RtoC 2) n * poly_at x (edge_point xa xb t))%C.
Proof using All.
  assert (Hne : a <> b) by (intros E'; apply Hab; rewrite E'; reflexivity).
  rewrite tilde_power, (poly_split x a b Ha Hb _ Hne).
  assert (E1 : (edge_point xa xb t - xa)%C = (h * (t + RtoC 1))%C) by (unfold edge_point, h; rewrite two; field; intros H0; injection H0; lra).
  assert (E2 : (edge_point xa xb t - xb)%C = (h * (t - RtoC 1))%C) by (unfold edge_point, h; rewrite two; field; intros H0; injection H0; lra).
  fold xa xb. rewrite E1, E2. fold n. ring.
Qed.

Hypothesis Hclear : clear_edge x a b.
Lemma points_off p s : In p u -> -1 <= s <= 1 -> p <> RtoC s.
Proof using All.
  destruct HE as (_ & P & _). intros Hp Hs ->. rewrite <- P in Hp. apply in_map_iff in Hp. destruct Hp as (k & Ek & Hk).
  apply other_points_in in Hk. destruct Hk as (Hk & Hka & Hkb).
  apply (Hclear k s Hk Hka Hkb Hs). pose proof (edge_scaled x a b Hab k (RtoC s)) as E. rewrite Ek in E.
  replace (vget x k) with (edge_point (vget x a) (vget x b) (RtoC s) - (edge_point (vget x a) (vget x b) (RtoC s) - vget x k))%C by ring.
  rewrite E. ring.
Qed.

Lemma edge_branch : exists k : Z, (spurious u up /\ k = 1%Z \/ ~ spurious u up /\ k = 0%Z) /\
  forall t, -1 <= t <= 1 -> ac_mth_root t e (zetas m) m (n - 2) = Done (root (Z.of_nat m) (- k) * y_tilde (Z.of_nat m) u up (RtoC t))%C.
Proof using All.
  pose proof points_off as Hoff. pose proof HE as (-> & P & HL & Hup & H1 & H2 & _).
  replace (n - 2)%nat with (length u) by lia.
  set (rest := [h; ((xb + xa) / (xb - xa))%C; c]).
  destruct (root_along u up rest 0 Hup H1 H2 Hoff ltac:(lra) m Hm ltac:(lia)) as (k & Hk & _).
  exists k. split; [exact Hk|]. intros t Ht.
  destruct (root_along u up rest t Hup H1 H2 Hoff Ht m Hm ltac:(lia)) as (k' & Hk' & E). rewrite E.
  destruct Hk as [[S1 ->]|[S1 ->]], Hk' as [[S2 ->]|[S2 ->]]; try contradiction; reflexivity.
Qed.
End Good.
End Edge.

Lemma root_pow_one m k : (2 <= m)%nat -> cpow (root (Z.of_nat m) k) m = RtoC 1.
Proof. intros Hm. rewrite root_pow. apply root_mult. lia. Qed.

Lemma one_branch x m a b : (a < length x)%nat -> (b < length x)%nat -> vget x a <> vget x b -> (2 <= m)%nat -> (3 <= length x)%nat ->
  clear_edge x a b ->
  exists e f, edge_data x (zetas m) m (length x) a b = Done e /\
    (forall t, continuous (fun t => fst (f t)) t /\ continuous (fun t => snd (f t)) t) /\
    forall t, -1 <= t <= 1 -> ac_mth_root t e (zetas m) m (length x - 2) = Done (f t) /\
      (cpow (RtoC 2) (length x) * poly_at x (edge_point (vget x a) (vget x b) (RtoC t)))%C =
      ((RtoC 1 - RtoC t * RtoC t) * cpow (vget (e_data e) (length x) * f t)%C m)%C.
Proof.
  intros Ha Hb Hab Hm Hn Hc.
  destruct (edge_data_ok x a b m Ha Hb Hab Hm Hn) as (e & u & up & c & E & HE).
  destruct (edge_branch x a b m Ha Hb Hab Hm Hn e u up c HE Hc) as (k & _ & HB).
  exists e, (fun t => root (Z.of_nat m) (- k) * y_tilde (Z.of_nat m) u up (RtoC t))%C.
  split; [exact E|]. split.
  - intros t. apply (ccont_mult (fun _ => root (Z.of_nat m) (- k))); [apply ccont_const|]. apply y_cont_m. lia.
  - intros t Ht. split; [apply HB, Ht|].
    destruct (edge_constant x a b m Ha Hb Hab Hm Hn e u up c HE) as [-> _].
    rewrite <- (tilde_equation x a b m Ha Hb Hab Hm Hn e u up c HE).
    f_equal. rewrite !cpow_mul, root_pow_one by exact Hm. ring.
Qed.

(** ** the sum of logarithms *)
Lemma ac2_loop e x m todo : forall k z, (k + todo <= length (e_data e))%nat ->
  (fix go (todo k : nat) (z : C) : outcome C :=
    match todo with
    | O => Done (cexp (z / RtoC (INR m))%C)
    | S todo => do t <- ac_factor e k x; go todo (S k) (z + clog t)%C
    end) todo k z = Done (cexp (fold_left (fun a z => a + clog z)%C (map (afac e x) (seq k todo)) z / RtoC (INR m))%C).
Proof.
  induction todo as [|todo IH]; intros k z H; [reflexivity|].
  rewrite ac_factor_ok by lia. cbn [bind]. rewrite IH by lia. reflexivity.
Qed.

Lemma logs_value x m a b : (a < length x)%nat -> (b < length x)%nat -> vget x a <> vget x b -> (2 <= m)%nat -> (3 <= length x)%nat ->
  clear_edge x a b -> forall e u up c, edge_good x a b m e u up c ->
  forall t, -1 <= t <= 1 -> ac_mth_root2 t e m (length x - 2) = Done (y_tilde (Z.of_nat m) u up (RtoC t)).
Proof.
  intros Ha Hb Hab Hm Hn Hc e u up c HE.
  pose proof (points_off x a b m Ha Hb Hab Hm Hn e u up c HE Hc) as Hoff.
  destruct HE as (He & P & HL & Hup & H1 & H2 & _).
  intros t Ht. replace (length x - 2)%nat with (length u) by lia. subst e.
  set (e := {| e_data := _; e_up := up; e_isgn := _ |}).
  assert (Hside : forall j, (j < length u)%nat -> afac e t j = fac u up t j).
  { intros j Hj. unfold afac, fac, e, vget. cbn [e_data e_up]. rewrite app_nth1 by exact Hj. reflexivity. }
  unfold ac_mth_root2. rewrite ac2_loop by (cbn [e e_data]; rewrite app_length; lia).
  assert (Ef : map (afac e t) (seq 0 (length u)) = factors u up (length u) t).
  { unfold factors. apply map_ext_in. intros j Hj. apply in_seq in Hj. apply Hside. lia. }
  rewrite Ef.
  assert (Hz : forall z, In z (factors u up (length u) t) -> z <> RtoC 0).
  { rewrite <- Ef. intros z Hz. apply in_map_iff in Hz. destruct Hz as (j & <- & Hj). apply in_seq in Hj.
    destruct (factor_good u up [((vget x b - vget x a) / RtoC 2)%C; ((vget x b + vget x a) / (vget x b - vget x a))%C; c] t Hup H1 H2 Hoff Ht j ltac:(lia)) as [[Hg _] _].
    exact Hg. }
  pose proof (pol_prod_ok (Z.of_nat m) u up (length u) t ltac:(lia) (le_n _) Hz) as E2.
  unfold pol_prod in E2. rewrite log_loop_ok in E2 by lia. cbn [bind] in E2. rewrite <- INR_IZR_INZ in E2.
  change (map (fac u up t) (seq 0 (length u))) with (factors u up (length u) t) in E2. rewrite E2.
  f_equal. rewrite <- root_pol_tilde, edge_def_same. reflexivity.
Qed.

(** which branch *)
Lemma branch_value x m a b : (a < length x)%nat -> (b < length x)%nat -> vget x a <> vget x b -> (2 <= m)%nat -> (3 <= length x)%nat ->
  clear_edge x a b ->
  exists e u up k, edge_data x (zetas m) m (length x) a b = Done e /\
    Permutation (map (fun k => (RtoC 2 * vget x k - (vget x b + vget x a)) / (vget x b - vget x a))%C
                   (filter (fun k => negb ((k =? a) || (k =? b)))%nat (seq 0 (length x)))) u /\
    (up <= length u)%nat /\
    (forall p, In p (firstn up u) -> 0 < fst p) /\ (forall p, In p (skipn up u) -> fst p <= 0) /\
    (let odd := up = 0%nat /\ exists p q r, u = p :: q :: r /\ snd p = 0 /\ snd q = 0 in
     odd /\ k = 1%Z \/ ~ odd /\ k = 0%Z) /\
    forall t, -1 <= t <= 1 ->
      ac_mth_root t e (zetas m) m (length x - 2) = Done (root (Z.of_nat m) (- k) * y_tilde (Z.of_nat m) u up (RtoC t))%C /\
      ac_mth_root2 t e m (length x - 2) = Done (y_tilde (Z.of_nat m) u up (RtoC t)).
Proof.
  intros Ha Hb Hab Hm Hn Hc.
  destruct (edge_data_ok x a b m Ha Hb Hab Hm Hn) as (e & u & up & c & E & HE).
  destruct (edge_branch x a b m Ha Hb Hab Hm Hn e u up c HE Hc) as (k & Hk & HB).
  pose proof (logs_value x m a b Ha Hb Hab Hm Hn Hc e u up c HE) as HL2.
  destruct HE as (_ & P & HL & Hup & H1 & H2 & _).
  exists e, u, up, k. split; [exact E|]. split; [exact P|]. split; [exact Hup|]. split; [exact H1|]. split; [exact H2|].
  split; [|intros t Ht; split; [apply HB|apply HL2]; exact Ht].
  assert (Hiff : spurious u up <-> up = 0%nat /\ exists p q r, u = p :: q :: r /\ snd p = 0 /\ snd q = 0).
  { unfold spurious. split.
    - intros (S0 & SL & Sp & Sq). split; [exact S0|]. destruct u as [|p [|q r]]; cbn [length] in SL; try lia.
      exists p, q, r. cbn in Sp, Sq. auto.
    - intros (S0 & p & q & r & -> & Sp & Sq). cbn [length nth]. repeat split; auto; lia. }
  cbn zeta. rewrite <- Hiff. exact Hk.
Qed.

Lemma tilde_nonzero m u up t : (0 < m)%nat -> (up <= length u)%nat -> (forall p, In p u -> p <> t) ->
  y_tilde (Z.of_nat m) u up t <> RtoC 0.
Proof.
  intros Hm Hup Hu E. pose proof (y_tilde_pow m u up t Hm Hup) as H. rewrite E in H.
  destruct m as [|m]; [lia|]. cbn [cpow] in H. rewrite Cmult_0_r in H. symmetry in H. revert H.
  apply Cmult_neq_0'; [apply sg_neq|]. apply cprod_neq. intros p Hp H. apply (Hu p Hp).
  replace p with (t - (t - p))%C by ring. rewrite H. ring.
Qed.

Lemma not_principal : exists x m a b e t v w,
  (a < length x)%nat /\ (b < length x)%nat /\ vget x a <> vget x b /\ (2 <= m)%nat /\ (3 <= length x)%nat /\ clear_edge x a b /\
  edge_data x (zetas m) m (length x) a b = Done e /\ -1 <= t <= 1 /\
  ac_mth_root t e (zetas m) m (length x - 2) = Done v /\ ac_mth_root2 t e m (length x - 2) = Done w /\ v <> w.
Proof.
  set (x := map RtoC [0; 1; -1; -2]). exists x, 3%nat, 0%nat, 1%nat.
  assert (H01 : vget x 0 <> vget x 1) by (cbn; intros E; injection E; lra).
  assert (Hc : clear_edge x 0 1).
  { intros k t Hk H0 H1 Ht. destruct k as [|[|[|[|k]]]]; try lia; [| |cbn in Hk; lia];
    intros E; apply (f_equal fst) in E; cbn in E; lra. }
  destruct (branch_value x 3 0 1 ltac:(cbn; lia) ltac:(cbn; lia) H01 ltac:(lia) ltac:(cbn; lia) Hc)
    as (e & u & up & k & E & P & Hup & H1 & H2 & Hk & HV).
  destruct (HV 0 ltac:(lra)) as [V1 V2].
  exists e, 0. eexists. eexists. repeat (split; [first [assumption|cbn; lia|exact Hc|lra]|]).
  split; [exact V1|]. split; [exact V2|].
  assert (Hu : forall p, In p u -> snd p = 0 /\ fst p <= -3).
  { intros p Hp. rewrite <- P in Hp. cbn in Hp. destruct Hp as [<-|[<-|[]]]; split; cbn; field_simplify; lra. }
  pose proof (Permutation_length P) as HL. cbn in HL.
  assert (H0 : up = 0%nat).
  { destruct up as [|up]; [reflexivity|]. destruct u as [|p u]; [cbn in Hup; lia|].
    specialize (H1 p (or_introl eq_refl)). destruct (Hu p (or_introl eq_refl)). lra. }
  assert (k = 1%Z) as ->.
  { destruct Hk as [[_ ->]|[Hn _]]; [reflexivity|]. exfalso. apply Hn. split; [exact H0|].
    destruct u as [|p [|q r]]; cbn in HL; try lia. exists p, q, r. split; [reflexivity|].
    split; apply Hu; cbn; auto. }
  assert (Hy : y_tilde (Z.of_nat 3) u up (RtoC 0) <> RtoC 0).
  { apply tilde_nonzero; [lia|exact Hup|]. intros p Hp ->. destruct (Hu _ Hp) as [_ Hf]. cbn in Hf. lra. }
  intros Eq. apply (root_1_neq 3); [lia|].
  assert (Hr : root (Z.of_nat 3) (- (1)) = RtoC 1).
  { apply (f_equal (fun z => z * / y_tilde (Z.of_nat 3) u up (RtoC 0))%C) in Eq. rewrite <- Cmult_assoc, Cinv_r, Cmult_1_r in Eq by exact Hy. exact Eq. }
  change (Z.of_nat 3) with 3%Z in Hr. assert (H : (root 3 1 * root 3 (- (1)))%C = RtoC 1).
  { rewrite <- root_add. apply root_0. }
  rewrite Hr, Cmult_1_r in H. exact H.
Qed.
