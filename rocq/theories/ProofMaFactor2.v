(** The integrals over an edge in the Magma package. *)
From Coq Require Import FunctionalExtensionality.
From Coquelicot Require Import Coquelicot.
From Verif Require Import CArg ModelTree ModelVec ModelPeriod ModelTurn ModelMaRoot ModelMaDiff ModelMaFactor SpecVec SpecPeriod SpecCurve SpecMaRoot SpecMaFactor ProofCurve ProofEdge ProofVec ProofPeriod ProofErr5 ProofMaRoot ProofMaRoot2 ProofMaRoot3 ProofMaDiff ProofMaFactor SpecEdge.
Local Open Scope R_scope.

(** ** exponentials *)
Lemma cexp_plus z w : cexp (z + w)%C = (cexp z * cexp w)%C.
Proof. unfold cexp. rewrite (surjective_pairing z), (surjective_pairing w). cbn [fst snd Cplus]. rewrite exp_plus, CBase.cis_add, RtoC_mult. ring. Qed.
Lemma cexp_zero : cexp (RtoC 0) = RtoC 1.
Proof. unfold cexp. cbn [fst snd RtoC]. rewrite exp_0, cis_0. ring. Qed.
Lemma cexp_real r : cexp (RtoC r) = RtoC (exp r).
Proof. unfold cexp, RtoC. cbn [fst snd]. rewrite cis_0. unfold Cmult, RtoC. cbn [fst snd]. f_equal; ring. Qed.
Lemma cexp_inv z : (cexp (- z) * cexp z)%C = RtoC 1.
Proof. rewrite <- cexp_plus. replace (- z + z)%C with (RtoC 0) by ring. apply cexp_zero. Qed.
Lemma cexp_cpow z k : cpow (cexp z) k = cexp (RtoC (INR k) * z)%C.
Proof.
  induction k as [|k IH]; [cbn [cpow INR]; rewrite Cmult_0_l, cexp_zero; reflexivity|].
  rewrite cpow_S, IH, <- cexp_plus. f_equal. rewrite S_INR, RtoC_plus. ring.
Qed.
Lemma clog_half z : z <> RtoC 0 -> clog z = (RtoC (ln 2) + clog (z / RtoC 2))%C.
Proof.
  intros Hz. apply Cmod_gt_0 in Hz as Hz'.
  assert (E : (z / RtoC 2)%C = (RtoC (Cmod z / 2) * cis (carg z))%C).
  { rewrite (carg_polar z) at 1. unfold Cdiv. rewrite RtoC_div by lra. field. apply two_neq. }
  assert (Em : Cmod (z / RtoC 2)%C = Cmod z / 2).
  { rewrite Cmod_div by apply two_neq. rewrite Cmod_R, Rabs_pos_eq by lra. reflexivity. }
  assert (Ea : carg (z / RtoC 2)%C = carg z) by (apply (carg_unique _ (Cmod z / 2)); [lra|apply carg_range|exact E]).
  unfold clog. rewrite Em, Ea. rewrite ln_div by lra. unfold Cplus, RtoC. cbn [fst snd]. f_equal; ring.
Qed.

(** ** the constant of the edge *)
Section Const.
Context (x : list C) (a b m : nat).
Let n := length x.
Hypothesis Ha : (a < n)%nat.
Hypothesis Hb : (b < n)%nat.
Hypothesis Hab : vget x a <> vget x b.
Hypothesis Hm : (2 <= m)%nat.
Hypothesis Hn : (3 <= n)%nat.
Let xa := vget x a.
Let xb := vget x b.
Let h := ((xb - xa) / RtoC 2)%C.

Lemma bma_neq : (xb - xa)%C <> RtoC 0.
Proof using Hab. apply (diff_neq x a b), Hab. Qed.

Lemma h_neq : h <> RtoC 0.
Proof using Hab.
  intros E. apply bma_neq. replace (xb - xa)%C with (RtoC 2 * h)%C by (unfold h; field; apply two_neq). rewrite E. ring.
Qed.

Lemma const_value e : edge_data x (zetas m) m n a b = Done e ->
  (length (e_data e) = n + 1)%nat /\ vget (e_data e) (n - 2) = h /\ vget (e_data e) (n - 1) = ((xb + xa) / (xb - xa))%C /\
  edge_const n m (vget (e_data e) n) =
    (cexp (RtoC (INR n / INR m) * clog h) * cis (PI * INR ((e_up e + 1) mod 2) / INR m))%C.
Proof using All.
  intros E. destruct (edge_data_ok x a b m Ha Hb Hab Hm Hn) as (e' & u & up & c & E' & HE). fold n in E'. rewrite E in E'. injection E' as <-.
  destruct HE as (-> & _ & HL & _). cbn [e_data e_up].
  assert (D : forall k, (n - 2 <= k)%nat -> vget (u ++ [((xb - xa) / RtoC 2)%C; ((xb + xa) / (xb - xa))%C; c]) k = vget [((xb - xa) / RtoC 2)%C; ((xb + xa) / (xb - xa))%C; c] (k - (n - 2))).
  { intros k Hk. unfold vget. rewrite app_nth2 by (fold n in HL; lia). f_equal. fold n in HL; lia. }
  fold n in HL. split; [rewrite app_length; cbn [length]; lia|].
  fold xa xb. rewrite !D by lia. replace (n - 2 - (n - 2))%nat with 0%nat by lia. replace (n - 1 - (n - 2))%nat with 1%nat by lia. replace (n - (n - 2))%nat with 2%nat by lia.
  split; [reflexivity|]. split; [reflexivity|]. change (vget _ 2) with c.
  assert (EC : c_ab (xb - xa)%C up m n (zetas m) = Done c).
  { revert E. unfold edge_data. rewrite !vread_ok by assumption. cbn [bind]. fold xa xb.
    destruct (Req_EM_T (Cmod (xb - xa)%C) 0) as [H|_]; [discriminate|].
    destruct (sorted_points _ xa xb) as [[ccv up'] isgn].
    destruct (c_ab (xb - xa)%C up' m n (zetas m)) as [c'| | |] eqn:EC; cbn [bind]; try discriminate.
    intros EE. injection EE as E1 E2 E3. subst up'.
    assert (EL : length ccv = length u) by (apply (f_equal (@length C)) in E1; rewrite !app_length in E1; cbn [length] in E1; lia).
    assert (EF := f_equal (fun l => nth (length u + 2) l (RtoC 0)) E1). cbn beta in EF. rewrite !app_nth2 in EF by lia.
    rewrite EL in EF. replace (length u + 2 - length u)%nat with 2%nat in EF by lia. cbn [nth] in EF. rewrite <- EF. exact EC. }
  unfold c_ab in EC. set (r := ((up + 1) mod 2)%nat) in *.
  assert (Hr : (r < 2)%nat) by (apply Nat.mod_upper_bound; lia).
  assert (Ez : vread (zetas m) r = Done (cis (PI * INR r / INR m))).
  { pose proof (zetas_read m (Z.of_nat r) ltac:(lia)) as E1. rewrite Z.mod_small in E1 by lia. rewrite Nat2Z.id in E1.
    rewrite E1, <- INR_IZR_INZ. reflexivity. }
  rewrite Ez in EC. cbn [bind] in EC. injection EC as EC.
  assert (Ec : c = (cexp (RtoC (INR n / INR m) * clog (xb - xa)%C) * cis (PI * INR r / INR m))%C).
  { rewrite <- EC. destruct (Req_EM_T _ 0) as [H1|]; [|reflexivity]. destruct (Rlt_dec _ 0) as [H2|]; [|reflexivity].
    rewrite clog_neg by assumption. reflexivity. }
  rewrite Ec. unfold edge_const. rewrite (clog_half (xb - xa)%C bma_neq). fold h.
  rewrite Cmult_plus_distr_l, cexp_plus, <- RtoC_mult, cexp_real. fold (Rpower 2 (INR n / INR m)).
  field. intros HH. apply RtoC_inj in HH. unfold Rpower in HH. pose proof (exp_pos (INR n / INR m * ln 2)). lra.
Qed.
End Const.

(** ** exponents and counts *)
Lemma jp_nth m n : forall k j q l, (q < k)%nat -> (Z.of_nat l < nth q (df_from m n j k) 0)%Z ->
  nth_error (jp_from m n j k) (offset (df_from m n j k) q + l) = Some (j + Z.of_nat q)%Z.
Proof.
  induction k as [|k IH]; intros j q l Hq Hl; [lia|]. rewrite df_cons, jp_cons in *. destruct q as [|q]; cbn [offset nth] in *.
  - rewrite Nat.add_0_l, nth_error_app1 by (rewrite repeat_length; lia). rewrite nth_error_repeat by lia. f_equal. lia.
  - rewrite nth_error_app2 by (rewrite repeat_length; lia). rewrite repeat_length.
    replace (Z.to_nat (fl m n j) + offset (df_from m n (j + 1) k) q + l - Z.to_nat (fl m n j))%nat with (offset (df_from m n (j + 1) k) q + l)%nat by lia.
    rewrite IH by (lia || assumption). f_equal. lia.
Qed.

Lemma df_last m n j k x : (0 < m)%Z -> (0 <= n)%Z -> In x (df_from m n j k) -> (x <= fl m n (j + Z.of_nat (k - 1)))%Z.
Proof.
  intros Hm Hn Hx. unfold df_from in Hx. apply in_map_iff in Hx. destruct Hx as (l & <- & Hl). apply in_seq in Hl.
  unfold fl. apply Z.div_le_mono; [lia|]. apply Z.sub_le_mono_r. apply Z.mul_le_mono_nonneg_r; lia.
Qed.

Lemma df_nonneg m n d : ma_differentials m n = Done d -> (2 <= m)%Z -> (3 <= n)%Z -> forall x, In x (md_df d) -> (1 <= x)%Z.
Proof.
  intros Ed Hm Hn x Hx. destruct (ma_done m n Hm Hn) as (E & J & _). cbv zeta in E, J. rewrite Ed in E. match type of E with Done _ = Done ?t => assert (Hdd : d = t) by congruence; clear E Ed; subst d end. cbn [md_df] in Hx.
  set (j := (1 + (m + Z.gcd m n - 1) / n)%Z) in *. unfold df_from in Hx. apply in_map_iff in Hx. destruct Hx as (l & <- & Hl). apply in_seq in Hl.
  assert (A1 : (j <= j + Z.of_nat l)%Z) by lia. assert (A2 : (j + Z.of_nat l <= m - 1)%Z) by lia.
  assert (W := fl_above m n (j + Z.of_nat l) Hm ltac:(lia) A1 A2). lia.
Qed.

Lemma diff_facts m n d : ma_differentials m n = Done d -> (2 <= m)%Z -> (3 <= n)%Z ->
  (1 <= md_jm d)%Z /\ md_num d = Z.of_nat (length (md_df d)) /\ (1 <= md_num d)%Z /\ (md_jm d + md_num d = m)%Z /\
  (Z.of_nat (total (md_df d)) = md_g d) /\
  (forall q l, (q < length (md_df d))%nat -> (Z.of_nat l < nth q (md_df d) 0)%Z ->
     nth_error (md_jpows d) (offset (md_df d) q + l) = Some (md_jm d + Z.of_nat q)%Z) /\
  exists last, nth_error (md_df d) (Z.to_nat (md_num d - 1)) = Some last /\ (1 <= last)%Z /\ forall x, In x (md_df d) -> (x <= last)%Z.
Proof.
  intros Ed Hm Hn. pose proof (df_nonneg m n d Ed Hm Hn) as Hpos. destruct (ma_done m n Hm Hn) as (E & J & P & S). cbv zeta in E, J, P, S. rewrite Ed in E. match type of E with Done _ = Done ?t => assert (Hdd : d = t) by congruence; clear E Ed; subst d end.
  cbn [md_df md_jm md_num md_g md_jpows] in *. set (j := (1 + (m + Z.gcd m n - 1) / n)%Z) in *. set (k := Z.to_nat (m - j)) in *.
  assert (LD : length (df_from m n j k) = k) by (unfold df_from; rewrite map_length, seq_length; reflexivity).
  split; [lia|]. split; [rewrite LD; unfold k; lia|]. split; [lia|]. split; [lia|].
  split; [rewrite total_sum; [exact S|intros x Hx; specialize (Hpos x Hx); lia]|].
  split; [intros q l Hq Hl; rewrite LD in Hq; apply jp_nth; assumption|].
  assert (EN : nth_error (df_from m n j k) (Z.to_nat (m - j - 1)) = Some (fl m n (j + Z.of_nat (k - 1)))).
  { unfold df_from. replace (Z.to_nat (m - j - 1)) with (k - 1)%nat by (unfold k; lia).
    apply (map_nth_error (fun l => fl m n (j + Z.of_nat l))). rewrite (nth_error_nth' _ 0%nat) by (rewrite seq_length; unfold k; lia). rewrite seq_nth by (unfold k; lia). reflexivity. }
  eexists. split; [exact EN|]. split; [apply Hpos, (nth_error_In _ _ EN)|]. intros x Hx. apply df_last; [lia|lia|exact Hx].
Qed.

Lemma edge_const_neq n m c : c <> RtoC 0 -> edge_const n m c <> RtoC 0.
Proof.
  intros Hc. unfold edge_const, Cdiv. apply Cmult_neq_0'; [exact Hc|]. intros E. apply (f_equal (fun z => (z * RtoC (Rpower 2 (INR n / INR m)))%C)) in E.
  rewrite Cinv_l, Cmult_0_l in E. { apply RtoC_inj in E. lra. }
  intros HH. apply RtoC_inj in HH. unfold Rpower in HH. pose proof (exp_pos (INR n / INR m * ln 2)). lra.
Qed.

Section Final.
Context (x : list C) (a b m : nat) (d : ma_diff).
Let n := length x.
Hypothesis Ha : (a < n)%nat.
Hypothesis Hb : (b < n)%nat.
Hypothesis Hab : vget x a <> vget x b.
Hypothesis Hm : (2 <= m)%nat.
Hypothesis Hn : (3 <= n)%nat.
Hypothesis Hd : ma_differentials (Z.of_nat m) (Z.of_nat n) = Done d.
Let xa := vget x a.
Let xb := vget x b.
Let h := ((xb - xa) / RtoC 2)%C.

Lemma de_factor_ok (L : nat -> (C -> C) -> C) v : (forall q, linear_functional (L q)) -> Z.of_nat (length v) = md_g d ->
  (forall q, (q < length (md_df d))%nat -> moments (L q) v (offset (md_df d) q) (Z.to_nat (nth q (md_df d) 0%Z))) ->
  exists e P E, edge_data x (zetas m) m n a b = Done e /\ de_integrals_factor v e m n d (zetas m) = Done (P, E) /\
    Z.of_nat (length P) = md_g d /\ Z.of_nat (length E) = md_g d /\
    vget (e_data e) n <> RtoC 0 /\
    forall q i, (q < length (md_df d))%nat -> (Z.of_nat i < nth q (md_df d) 0)%Z ->
      let j := (md_jm d + Z.of_nat q)%Z in let ct := (offset (md_df d) q + i)%nat in
      vget E ct = (L q (fun t => h * cpow (edge_point xa xb t) i) / cpow (edge_const n m (vget (e_data e) n)) (Z.to_nat j))%C /\
      exists row, nth_error P ct = Some row /\ row_ok m j row (vget E ct).
Proof using All.
  intros HL Hv Hmom.
  destruct (edge_data_ok x a b m Ha Hb Hab Hm Hn) as (e & u & up & c & E & HE). fold n in E.
  destruct (edge_constant x a b m Ha Hb Hab Hm Hn e u up c HE) as [Ec _]. fold n in Ec.
  assert (Hc : vget (e_data e) n <> RtoC 0) by (rewrite Ec; apply HE).
  destruct (const_value x a b m Ha Hb Hab Hm Hn e E) as (EL & E2 & E1 & EK). fold n in EL, E2, E1, EK. fold xa xb in E2, E1, EK. fold h in E2, EK.
  destruct (diff_facts (Z.of_nat m) (Z.of_nat n) d Hd ltac:(lia) ltac:(lia)) as (J1 & N1 & N2 & JN & TG & JP & last & EN & Hl1 & Hlast).
  destruct (shift_blocks_ok ((xb + xa) / (xb - xa))%C (md_df d) L 0 v HL ltac:(lia) Hmom) as (v1 & ES & Lv1 & _ & HS).
  set (z := cexp (RtoC (INR n / INR m) * - clog h)%C).
  destruct (blocks_ok v1 (e_up e) m (md_jpows d) h z (Z.to_nat last) (Z.to_nat (md_num d + md_jm d - 2)) Hm (md_df d) (md_jm d) 0) as (P & EE & EB & LP & LE & HB).
  { exact J1. } { lia. } { intros q l Hq Hl. rewrite Nat.add_0_l. apply JP; assumption. }
  { intros k Hk. specialize (Hlast k Hk). lia. } { lia. }
  exists e, P, EE. split; [exact E|]. split.
  { unfold de_integrals_factor. rewrite !vread_ok by lia. rewrite E2, E1. cbn [bind]. unfold sread at 1. rewrite EN. cbn [bind].
    unfold vec in *. rewrite ES. cbn [bind]. exact EB. }
  split; [lia|]. split; [lia|]. split; [exact Hc|].
  intros q i Hq Hi j ct. destruct (HB q i Hq Hi) as (G1 & G2). rewrite Nat.add_0_l in G1. split; [|exact G2].
  unfold ct. rewrite G1. unfold entry. specialize (HS q i Hq Hi). rewrite Nat.add_0_l in HS. rewrite HS.
  assert (EP : (fun t => h * cpow (edge_point xa xb t) i)%C = (fun t => h * cpow (h * (t + (xb + xa) / (xb - xa))) i)%C).
  { apply functional_extensionality. intros t. rewrite <- (edge_point_scaled xa xb t Hab). fold h. rewrite (Cplus_comm xa xb). reflexivity. }
  rewrite EP, functional_scaled by apply HL. fold j. rewrite EK.
  set (r := ((e_up e + 1) mod 2)%nat). set (w := cexp (RtoC (INR n / INR m) * clog h)%C).
  assert (Hj : (1 <= j)%Z) by (unfold j; lia).
  assert (Ezw : (z * w)%C = RtoC 1).
  { unfold z, w. replace (RtoC (INR n / INR m) * - clog h)%C with (- (RtoC (INR n / INR m) * clog h))%C by ring. apply cexp_inv. }
  assert (Eci : (cis (PI * IZR (- Z.of_nat r * j) / INR m) * cpow (cis (PI * INR r / INR m)) (Z.to_nat j))%C = RtoC 1).
  { rewrite cis_cpow, <- CBase.cis_add. rewrite !INR_IZR_INZ, Z2Nat.id by lia. rewrite mult_IZR, opp_IZR.
    replace (_ + _) with 0 by (field; apply not_0_IZR; lia). apply cis_0. }
  assert (Epz : (cpow z (Z.to_nat j) * cpow w (Z.to_nat j))%C = RtoC 1) by (rewrite <- cpow_mul, Ezw; apply cpow_one).
  rewrite cpow_mul.
  set (A := cis (PI * IZR (- Z.of_nat r * j) / INR m)) in *. set (B := cpow (cis (PI * INR r / INR m)) (Z.to_nat j)) in *. set (Z1 := cpow z (Z.to_nat j)) in *. set (W := cpow w (Z.to_nat j)) in *.
  assert (HB0 : B <> RtoC 0) by (intros H0; rewrite H0, Cmult_0_r in Eci; apply RtoC_inj in Eci; lra).
  assert (HW0 : W <> RtoC 0) by (intros H0; rewrite H0, Cmult_0_r in Epz; apply RtoC_inj in Epz; lra).
  replace A with (/ B)%C by (rewrite <- (Cmult_1_l (/ B)%C), <- Eci; field; exact HB0).
  replace Z1 with (/ W)%C by (rewrite <- (Cmult_1_l (/ W)%C), <- Epz; field; exact HW0).
  rewrite cpow_S. field. split; assumption.
Qed.
End Final.

Lemma edge_const_pow n m c : (0 < m)%nat -> (cpow (RtoC 2) n * cpow (edge_const n m c) m)%C = cpow c m.
Proof.
  intros Hm. assert (Hp : 0 < Rpower 2 (INR n / INR m)) by apply exp_pos. set (p := Rpower 2 (INR n / INR m)) in *.
  assert (E : cpow (RtoC p) m = cpow (RtoC 2) n).
  { rewrite !cpow_RtoC. f_equal. unfold p. rewrite <- Rpower_pow by apply exp_pos. rewrite Rpower_mult.
    replace (INR n / INR m * INR m) with (INR n) by (field; apply not_0_INR; lia). apply Rpower_pow. lra. }
  rewrite <- E, <- cpow_mul. f_equal. unfold edge_const. fold p. field. intros H. apply RtoC_inj in H. lra.
Qed.

Lemma edge_sheet x m a b : (a < length x)%nat -> (b < length x)%nat -> vget x a <> vget x b -> (2 <= m)%nat -> (3 <= length x)%nat ->
  clear_edge x a b ->
  exists e f, edge_data x (zetas m) m (length x) a b = Done e /\
    (forall t, continuous (fun t => fst (f t)) t /\ continuous (fun t => snd (f t)) t) /\
    forall t, -1 <= t <= 1 -> ac_mth_root t e (zetas m) m (length x - 2) = Done (f t) /\
      poly_at x (edge_point (vget x a) (vget x b) (RtoC t)) =
      ((RtoC 1 - RtoC t * RtoC t) * cpow (edge_const (length x) m (vget (e_data e) (length x)) * f t)%C m)%C.
Proof.
  intros Ha Hb Hab Hm Hn Hc. destruct (one_branch x m a b Ha Hb Hab Hm Hn Hc) as (e & f & E & Hf & H). exists e, f. split; [exact E|]. split; [exact Hf|].
  intros t Ht. destruct (H t Ht) as [H1 H2]. split; [exact H1|].
  set (c := vget (e_data e) (length x)) in *. assert (H0 : cpow (RtoC 2) (length x) <> RtoC 0) by (apply cpow_neq_0, two_neq).
  set (P := poly_at x _) in *. replace P with (cpow (RtoC 2) (length x) * P / cpow (RtoC 2) (length x))%C by (field; exact H0). rewrite H2.
  rewrite !cpow_mul. rewrite <- (edge_const_pow (length x) m c) by lia. field. exact H0.
Qed.
