(** Proofs about the curve initialisation. *)
From Verif Require Import Base ModelCurve SpecCurve.
From Coq Require Import Znumtheory.
Ltac Zify.zify_post_hook ::= Z.div_mod_to_equations.

Section Facts.
Variables m n : Z.
Hypothesis Hm : 2 <= m.
Hypothesis Hn : 1 <= n.

Let d := Z.gcd m n.

Lemma d_pos : 1 <= d.
Proof using Hm Hn.
  unfold d. pose proof (Z.gcd_nonneg m n).
  assert (Z.gcd m n <> 0) by (intros H0; apply Z.gcd_eq_0 in H0; lia). lia.
Qed.

Lemma d_split : exists m' n', m = m' * d /\ n = n' * d /\ Z.gcd m' n' = 1 /\ 1 <= m' /\ 1 <= n'.
Proof using Hm Hn.
  pose proof d_pos as Hd.
  destruct (Z.gcd_divide_l m n) as [m' Hm']. destruct (Z.gcd_divide_r m n) as [n' Hn'].
  fold d in Hm', Hn'. exists m', n'. repeat split; try assumption; try nia.
  assert (Hg : Z.gcd (m' * d) (n' * d) = d) by (rewrite <- Hm', <- Hn'; reflexivity).
  rewrite Z.gcd_mul_mono_r_nonneg in Hg by lia.
  pose proof (Z.gcd_nonneg m' n'). nia.
Qed.

Lemma d_le_m : d <= m.
Proof using Hm Hn. destruct d_split as (m' & n' & ? & ? & ? & ? & ?). pose proof d_pos. nia. Qed.
Lemma d_le_n : d <= n.
Proof using Hm Hn. destruct d_split as (m' & n' & ? & ? & ? & ? & ?). pose proof d_pos. nia. Qed.

(** floor function used by the code, for 1 <= j *)
Definition fl (j : Z) : Z := (j * n - d) / m.

Definition isz (b : bool) : Z := if b then 1 else 0.

Lemma pair_sum j : fl j + fl (m - j) = n - 1 - isz ((j * n) mod m =? 0).
Proof using Hm Hn.
  destruct d_split as (m' & n' & Em & En & Hg & Hm1 & Hn1).
  pose proof d_pos as Hd.
  unfold fl.
  set (q := (j * n) / m). set (x := (j * n) mod m).
  assert (Ex : j * n = m * q + x) by (apply Z.div_mod; lia).
  assert (Hx : 0 <= x < m) by (apply Z.mod_pos_bound; lia).
  (* d divides x *)
  assert (Hs : exists s, x = s * d).
  { exists (j * n' - m' * q). rewrite En, Em in Ex. nia. }
  destruct Hs as [s Hs].
  assert (E1 : j * n - d = q * m + (x - d)) by lia.
  assert (E2 : (m - j) * n - d = (n - q) * m + (- x - d)) by lia.
  rewrite E1, E2. rewrite !Z.div_add_l by lia.
  destruct (Z.eqb_spec x 0) as [Z0|NZ]; cbn [isz].
  - pose proof d_le_m.
    assert ((x - d) / m = -1) by (symmetry; apply Z.div_unique with (m - d); lia).
    assert ((-x - d) / m = -1) by (symmetry; apply Z.div_unique with (m - d); lia).
    lia.
  - assert (1 <= s) by nia. assert (d <= x) by nia.
    assert (s < m') by nia. assert (x + d <= m) by nia.
    assert ((x - d) / m = 0) by (apply Z.div_small; lia).
    assert ((-x - d) / m = -1) by (symmetry; apply Z.div_unique with (m - x - d); lia).
    lia.
Qed.

Lemma count_multiples l N :
  1 <= l ->
  zsum N (fun k => isz (Z.of_nat (S k) mod l =? 0)) = Z.of_nat N / l.
Proof using Hm Hn.
  intros Hl. induction N as [|N IH]; cbn [zsum].
  - rewrite Z.div_0_l by lia. reflexivity.
  - rewrite IH.
    destruct (Z.eqb_spec (Z.of_nat (S N) mod l) 0) as [E|E]; cbn [isz].
    + assert (Z.of_nat (S N) = l * (Z.of_nat (S N) / l)) by (rewrite <- Z_div_exact_full_2; lia).
      set (q := Z.of_nat (S N) / l) in *.
      assert (Z.of_nat N / l = q - 1).
      { symmetry. apply Z.div_unique with (l - 1); nia. }
      lia.
    + set (q := Z.of_nat (S N) / l) in *. set (r := Z.of_nat (S N) mod l) in *.
      assert (Z.of_nat (S N) = l * q + r) by (apply Z.div_mod; lia).
      assert (0 <= r < l) by (apply Z.mod_pos_bound; lia).
      rewrite Z.add_0_r. symmetry. apply Z.div_unique with (r - 1); lia.
Qed.

Lemma divisible_iff j : (j * n) mod m = 0 <-> j mod (m / d) = 0.
Proof using Hm Hn.
  destruct d_split as (m' & n' & Em & En & Hg & Hm1 & Hn1).
  pose proof d_pos as Hd.
  assert (E : m / d = m') by (rewrite Em; apply Z.div_mul; lia).
  rewrite E.
  rewrite !Z.mod_divide by lia.
  split; intros H.
  - rewrite Em, En in H. destruct H as [k Hk].
    assert (j * n' = k * m') by nia.
    apply Z.gauss with n'; [|exact Hg]. exists k. lia.
  - destruct H as [k Hk]. rewrite Em, En, Hk. exists (k * n'). ring.
Qed.

(** Twice the number of lattice points. *)
Lemma sum_fl : 2 * zsum (Z.to_nat (m - 1)) (fun k => fl (Z.of_nat (S k))) = (m - 1) * (n - 1) - d + 1.
Proof using Hm Hn.
  destruct d_split as (m' & n' & Em & En & Hg & Hm1 & Hn1).
  pose proof d_pos as Hd.
  set (N := Z.to_nat (m - 1)).
  assert (HN : Z.of_nat N = m - 1) by lia.
  assert (E1 : zsum N (fun k => fl (Z.of_nat (S k)))
               = zsum N (fun k => fl (m - Z.of_nat (S k)))).
  { rewrite <- zsum_rev. apply zsum_ext. intros k Hk. f_equal. lia. }
  assert (E2 : 2 * zsum N (fun k => fl (Z.of_nat (S k))) =
          zsum N (fun k => fl (Z.of_nat (S k)) + fl (m - Z.of_nat (S k)))).
  { rewrite zsum_add. lia. }
  rewrite E2.
  rewrite (zsum_ext _ _ (fun k => (n - 1) + (-1) * isz (Z.of_nat (S k) mod m' =? 0))).
  - rewrite zsum_add, zsum_const, zsum_scal, count_multiples by lia.
    rewrite HN.
    assert ((m - 1) / m' = d - 1).
    { symmetry. apply Z.div_unique with (m' - 1); nia. }
    lia.
  - intros k Hk. rewrite pair_sum.
    assert (E : ((Z.of_nat (S k) * n) mod m =? 0) = (Z.of_nat (S k) mod m' =? 0)).
    { pose proof (divisible_iff (Z.of_nat (S k))) as HD.
      assert (Emd : m / d = m') by (rewrite Em; apply Z.div_mul; lia).
      rewrite Emd in HD.
      destruct (Z.eqb_spec ((Z.of_nat (S k) * n) mod m) 0),
               (Z.eqb_spec (Z.of_nat (S k) mod m') 0); tauto. }
    rewrite E. destruct (_ =? _); cbn [isz]; lia.
Qed.
End Facts.

Lemma genus_numerator m n : 2 <= m -> 1 <= n ->
  exists g, 0 <= g /\ (m - 1) * (n - 1) - Z.gcd m n + 1 = 2 * g.
Proof.
  intros Hm Hn. eexists. split; cycle 1.
  - symmetry. apply sum_fl; assumption.
  - set (N := Z.to_nat (m - 1)). clearbody N.
    induction N as [|N IH]; cbn [zsum]; [lia|].
    assert (0 <= fl m n (Z.of_nat (S N))); [|lia].
    unfold fl. apply Z.div_pos; [|lia].
    pose proof (d_le_n m n Hm Hn). nia.
Qed.

(** Shape of a successful initialisation for n >= 2. *)
Lemma jmin_range m n : 2 <= m -> 2 <= n ->
  1 <= 1 + (m + Z.gcd m n - 1) / n <= m.
Proof.
  intros Hm Hn.
  pose proof (d_le_n m n Hm ltac:(lia)). pose proof (d_le_m m n Hm ltac:(lia)).
  pose proof (d_pos m n Hm ltac:(lia)).
  assert (0 <= (m + Z.gcd m n - 1) / n) by (apply Z.div_pos; lia).
  assert ((m + Z.gcd m n - 1) / n < m) by (apply Z.div_lt_upper_bound; nia).
  lia.
Qed.

Lemma sec_init_done m n : 2 <= m -> 2 <= n -> small_curve m n ->
  exists c, sec_init m n = Done c /\
    sec_m c = m /\ sec_n c = n /\ sec_delta c = Z.gcd m n /\
    sec_g c = ((m - 1) * (n - 1) - Z.gcd m n + 1) / 2 /\
    sec_j1 c = 1 + (m + Z.gcd m n - 1) / n /\
    sec_nj c = m - sec_j1 c /\
    sec_ni c = map (fun j => (let i := ((sec_j1 c + Z.of_nat j) * n - Z.gcd m n) / m in
                              if i <? n then i else n - 1))
                   (seq 0 (Z.to_nat (sec_nj c))).
Proof.
  intros Hm Hn Hs. unfold small_curve in Hs.
  pose proof (d_le_n m n Hm ltac:(lia)) as Hdn. pose proof (d_le_m m n Hm ltac:(lia)) as Hdm.
  pose proof (d_pos m n Hm ltac:(lia)) as Hd.
  pose proof (jmin_range m n Hm Hn) as Hj.
  assert (Hul : to_ulong n = n).
  { unfold to_ulong. apply Z.mod_small. nia. }
  unfold sec_init.
  destruct (Z.ltb_spec m 2) as [?|_]; [lia|].
  assert (Hov : (fits_slong ((m - 1) * (n - 1)) && fits_slong (m * n)) = true).
  { unfold fits_slong. apply andb_true_intro. split; apply andb_true_intro; split;
      (apply Z.leb_le || apply Z.ltb_lt); nia. }
  rewrite Hov. cbn [negb]. rewrite Hul. unfold jmin.
  destruct (Z.eqb_spec n 0) as [?|_]; [lia|].
  cbn [bind].
  destruct (genus_numerator m n Hm ltac:(lia)) as (g & Hg0 & Hg).
  assert (Hq : Z.quot (m + Z.gcd m n - 1) n = (m + Z.gcd m n - 1) / n).
  { apply Z.quot_div_nonneg; lia. }
  rewrite Hq.
  destruct (Z.ltb_spec (m - (1 + (m + Z.gcd m n - 1) / n)) 0) as [?|_]; [lia|].
  eexists. split; [reflexivity|]. cbn [sec_m sec_n sec_delta sec_g sec_j1 sec_nj sec_ni].
  repeat split.
  - rewrite Z.quot_div_nonneg by lia. reflexivity.
  - apply map_ext_in. intros a Ha. unfold imax.
    rewrite Z.quot_div_nonneg; [reflexivity| |lia]. nia.
Qed.

Lemma genus_exact m n : 2 <= m -> 2 <= n -> small_curve m n ->
  exists c, sec_init m n = Done c /\
    2 * sec_g c = (m - 1) * (n - 1) - Z.gcd m n + 1 /\ 0 <= sec_g c.
Proof.
  intros Hm Hn Hs.
  destruct (sec_init_done m n Hm Hn Hs) as (c & Hc & _ & _ & _ & Hg & _).
  destruct (genus_numerator m n Hm ltac:(lia)) as (g & Hg0 & Hge).
  exists c. split; [exact Hc|]. rewrite Hg, Hge.
  replace (2 * g) with (g * 2) by lia. rewrite Z.div_mul by lia. lia.
Qed.

(** Below j1 the floor is zero, from j1 on it is between 1 and n-1. *)
Lemma fl_below m n j : 2 <= m -> 2 <= n -> 1 <= j -> j < 1 + (m + Z.gcd m n - 1) / n ->
  fl m n j = 0.
Proof.
  intros Hm Hn Hj Hlt. unfold fl.
  pose proof (d_le_n m n Hm ltac:(lia)) as Hdn.
  apply Z.div_small. split; [nia|].
  assert (j <= (m + Z.gcd m n - 1) / n) by lia.
  assert (n * ((m + Z.gcd m n - 1) / n) <= m + Z.gcd m n - 1) by (apply Z.mul_div_le; lia).
  nia.
Qed.

Lemma fl_above m n j : 2 <= m -> 2 <= n -> 1 + (m + Z.gcd m n - 1) / n <= j -> j <= m - 1 ->
  1 <= fl m n j <= n - 1.
Proof.
  intros Hm Hn Hj Hlt. unfold fl.
  pose proof (d_pos m n Hm ltac:(lia)) as Hd.
  split.
  - apply Z.div_le_lower_bound; [lia|].
    pose proof (Z.mul_succ_div_gt (m + Z.gcd m n - 1) n ltac:(lia)). nia.
  - assert ((j * n - Z.gcd m n) / m < n); [|lia].
    apply Z.div_lt_upper_bound; [lia|]. nia.
Qed.

Lemma ni_is_fl m n c : 2 <= m -> 2 <= n -> small_curve m n -> sec_init m n = Done c ->
  sec_ni c = map (fun k => fl m n (sec_j1 c + Z.of_nat k)) (seq 0 (Z.to_nat (m - sec_j1 c))).
Proof.
  intros Hm Hn Hs Hc.
  destruct (sec_init_done m n Hm Hn Hs) as (c' & Hc' & E1 & E2 & E3 & Eg & Ej & Enj & Eni).
  rewrite Hc in Hc'. injection Hc' as <-.
  rewrite Eni, Enj. apply map_ext_in. intros k Hk. apply in_seq in Hk.
  assert (Hf := fl_above m n (sec_j1 c + Z.of_nat k) Hm Hn ltac:(lia) ltac:(lia)).
  unfold fl in *. cbv zeta. destruct (Z.ltb_spec (((sec_j1 c + Z.of_nat k) * n - Z.gcd m n) / m) n); lia.
Qed.

Lemma differentials_count m n c : 2 <= m -> 2 <= n -> small_curve m n ->
  sec_init m n = Done c -> fold_right Z.add 0 (sec_ni c) = sec_g c.
Proof.
  intros Hm Hn Hs Hc.
  destruct (genus_exact m n Hm Hn Hs) as (c' & Hc' & Hg & _).
  assert (c' = c) by congruence. subst c'.
  destruct (sec_init_done m n Hm Hn Hs) as (c' & Hc'' & _ & _ & _ & _ & Ej & _ & _).
  assert (c' = c) by congruence. subst c'.
  rewrite (ni_is_fl m n c Hm Hn Hs Hc). rewrite fold_right_seq_zsum.
  pose proof (sum_fl m n Hm ltac:(lia)) as Hsum.
  pose proof (jmin_range m n Hm Hn) as Hjr.
  assert (EN : Z.to_nat (m - 1) = (Z.to_nat (sec_j1 c - 1) + Z.to_nat (m - sec_j1 c))%nat) by lia.
  rewrite EN, zsum_app in Hsum.
  rewrite (zsum_zero (Z.to_nat (sec_j1 c - 1))) in Hsum.
  - rewrite (zsum_ext _ (fun k => fl m n (Z.of_nat (S (Z.to_nat (sec_j1 c - 1) + k))))
              (fun k => fl m n (sec_j1 c + Z.of_nat (0 + k)))) in Hsum
      by (intros k Hk; f_equal; lia).
    lia.
  - intros k Hk. apply fl_below; lia.
Qed.

Lemma differentials_exact m n c : 2 <= m -> 2 <= n -> small_curve m n ->
  sec_init m n = Done c ->
  forall i j, holomorphic m n i j <->
    (sec_j1 c <= j < m /\ 1 <= i <= nth (Z.to_nat (j - sec_j1 c)) (sec_ni c) 0).
Proof.
  intros Hm Hn Hs Hc i j.
  destruct (sec_init_done m n Hm Hn Hs) as (c' & Hc'' & _ & _ & _ & _ & Ej & _ & _).
  assert (c' = c) by congruence. subst c'.
  pose proof (jmin_range m n Hm Hn) as Hjr.
  rewrite (ni_is_fl m n c Hm Hn Hs Hc).
  assert (Hnth : sec_j1 c <= j < m ->
    nth (Z.to_nat (j - sec_j1 c))
      (map (fun k => fl m n (sec_j1 c + Z.of_nat k)) (seq 0 (Z.to_nat (m - sec_j1 c)))) 0
    = fl m n j).
  { intros Hj.
    rewrite nth_map_seq by lia. f_equal. lia. }
  unfold holomorphic. split.
  - intros (Hi & Hj & Hle).
    assert (Hjj : sec_j1 c <= j).
    { destruct (Z.le_gt_cases (sec_j1 c) j) as [|Hlt]; [assumption|exfalso].
      assert (E := fl_below m n j Hm Hn ltac:(lia) ltac:(lia)).
      assert (1 <= fl m n j); [|lia].
      unfold fl. apply Z.div_le_lower_bound; nia. }
    rewrite Hnth by lia. split; [lia|]. split; [lia|].
    unfold fl. apply Z.div_le_lower_bound; lia.
  - intros (Hj & Hi). rewrite Hnth in Hi by lia.
    assert (Hf := fl_above m n j Hm Hn ltac:(lia) ltac:(lia)).
    split; [lia|]. split; [lia|].
    assert (m * fl m n j <= j * n - Z.gcd m n) by (unfold fl; apply Z.mul_div_le; lia).
    nia.
Qed.

Lemma ni_bounds m n c : 2 <= m -> 2 <= n -> small_curve m n ->
  sec_init m n = Done c ->
  (forall x, In x (sec_ni c) -> 1 <= x <= n - 1) /\
  (forall k l, (k <= l < length (sec_ni c))%nat -> nth k (sec_ni c) 0 <= nth l (sec_ni c) 0).
Proof.
  intros Hm Hn Hs Hc.
  destruct (sec_init_done m n Hm Hn Hs) as (c' & Hc'' & _ & _ & _ & _ & Ej & _ & _).
  assert (c' = c) by congruence. subst c'.
  pose proof (jmin_range m n Hm Hn) as Hjr.
  rewrite (ni_is_fl m n c Hm Hn Hs Hc). split.
  - intros x Hx. apply in_map_iff in Hx. destruct Hx as (k & <- & Hk). apply in_seq in Hk.
    apply fl_above; lia.
  - intros k l Hkl. rewrite map_length, seq_length in Hkl.
    rewrite !nth_map_seq by lia. unfold fl. apply Z.div_le_mono; nia.
Qed.

Lemma generators_count m n c : 2 <= m -> 2 <= n -> small_curve m n ->
  sec_init m n = Done c ->
  (if Z.gcd m n =? m
   then tree_edges c = n - 2 /\ tree_edges c * (m - 1) = 2 * sec_g c
   else tree_edges c = n - 1 /\ tree_edges c * (m - 1) = 2 * sec_g c + Z.gcd m n - 1)
  /\ 2 * sec_g c <= tree_edges c * (m - 1)
  /\ (1 <= sec_g c -> 1 <= tree_edges c).
Proof.
  intros Hm Hn Hs Hc.
  destruct (sec_init_done m n Hm Hn Hs) as (c' & Hc'' & Em & En & Ed & _).
  assert (c' = c) by congruence. subst c'.
  destruct (genus_exact m n Hm Hn Hs) as (c' & Hc' & Hg & Hg0).
  assert (c' = c) by congruence. subst c'.
  pose proof (d_pos m n Hm ltac:(lia)) as Hd.
  unfold tree_edges. rewrite Em, En, Ed.
  destruct (Z.eqb_spec (Z.gcd m n) m) as [E|E]; split; try split; nia.
Qed.

(** Degrees 0 and 1. *)
Lemma sec_init_degree0 m : 2 <= m -> m < 2 ^ 62 -> sec_init m 0 = Fault DivByZero.
Proof.
  intros Hm Hm2. unfold sec_init.
  destruct (Z.ltb_spec m 2); [lia|].
  assert (Hov : (fits_slong ((m - 1) * (0 - 1)) && fits_slong (m * 0)) = true).
  { unfold fits_slong. lia. }
  rewrite Hov. reflexivity.
Qed.

Lemma sec_init_degree1 m : 2 <= m -> m < 2 ^ 62 -> sec_init m 1 = Fault HugeAlloc.
Proof.
  intros Hm Hm2. unfold sec_init.
  destruct (Z.ltb_spec m 2); [lia|].
  assert (Hov : (fits_slong ((m - 1) * (1 - 1)) && fits_slong (m * 1)) = true).
  { unfold fits_slong. lia. }
  rewrite Hov. cbn [negb]. unfold jmin.
  change (to_ulong 1) with 1. rewrite Z.gcd_1_r. cbn [Z.eqb bind].
  rewrite Z.quot_1_r. destruct (Z.ltb_spec (m - (1 + (m + 1 - 1))) 0); [reflexivity|lia].
Qed.

Lemma degree_nonneg_bound p : -1 <= degree p.
Proof. induction p as [|a p IH]; cbn [degree]; [lia|]. cbv zeta. destruct (_ <? _); [destruct (_ =? _)|]; lia. Qed.

Lemma sec_init_zero_poly m : 2 <= m -> m < 2 ^ 60 ->
  exists c, sec_init m (-1) = Done c /\ sec_g c < 1.
Proof.
  intros Hm Hm2. unfold sec_init.
  destruct (Z.ltb_spec m 2); [lia|].
  assert (Hov : (fits_slong ((m - 1) * (-1 - 1)) && fits_slong (m * -1)) = true).
  { unfold fits_slong. lia. }
  rewrite Hov. cbn [negb]. unfold jmin.
  set (d := Z.gcd m (to_ulong (-1))).
  assert (Hd : 0 <= d) by apply Z.gcd_nonneg.
  cbn [Z.eqb bind].
  assert (Eq : Z.quot (m + d - 1) (-1) = - (m + d - 1)).
  { change (-1) with (- (1)). rewrite Z.quot_opp_r by lia. rewrite Z.quot_1_r. reflexivity. }
  rewrite Eq.
  destruct (Z.ltb_spec (m - (1 + - (m + d - 1))) 0); [lia|].
  eexists. split; [reflexivity|]. cbn [sec_g].
  assert (H1 : Z.quot ((m - 1) * (-1 - 1) - d + 1) 2 <= 0); [|lia].
  replace ((m - 1) * (-1 - 1) - d + 1) with (- (2 * m + d - 3)) by lia.
  rewrite Z.quot_opp_l by lia. pose proof (Z.quot_pos (2 * m + d - 3) 2 ltac:(lia) ltac:(lia)). lia.
Qed.

(** A successful initialisation with positive degree has m, n >= 2 and no overflow. *)
Lemma sec_init_inv m n c : sec_init m n = Done c -> 1 <= n ->
  2 <= m /\ 2 <= n /\ small_curve m n.
Proof.
  intros H Hn. unfold sec_init in H.
  destruct (Z.ltb_spec m 2) as [?|Hm]; [discriminate|].
  destruct (negb _) eqn:Eov; [discriminate|].
  apply negb_false_iff, andb_true_iff in Eov. destruct Eov as [_ Eov].
  unfold fits_slong in Eov. unfold small_curve.
  assert (n <> 1).
  { intros ->. change (to_ulong 1) with 1 in H. rewrite Z.gcd_1_r in H.
    unfold jmin in H. cbn [Z.eqb bind] in H.
    rewrite Z.quot_1_r in H.
    destruct (Z.ltb_spec (m - (1 + (m + 1 - 1))) 0); [discriminate|lia]. }
  lia.
Qed.

Lemma sec_init_fields m n c : sec_init m n = Done c -> sec_m c = m /\ sec_n c = n.
Proof.
  unfold sec_init. destruct (_ <? _); [discriminate|]. destruct (negb _); [discriminate|].
  unfold jmin. destruct (_ =? _); [discriminate|]. cbn [bind].
  destruct (_ <? _); [discriminate|]. intros H. injection H as <-. split; reflexivity.
Qed.

(** Final forms. *)
Lemma genus_exact_final m n c : sec_init m n = Done c -> 1 <= n ->
    2 * sec_g c = (m - 1) * (n - 1) - Z.gcd m n + 1 /\ 0 <= sec_g c.
Proof.
  intros Hc Hn. destruct (sec_init_inv m n c Hc Hn) as (Hm & Hn2 & Hs).
  destruct (genus_exact m n Hm Hn2 Hs) as (c' & Hc' & H).
  assert (c' = c) by congruence. subst. exact H.
Qed.

Lemma differentials_count_final m n c : sec_init m n = Done c -> 1 <= n ->
  fold_right Z.add 0 (sec_ni c) = sec_g c /\
  Z.of_nat (length (sec_ni c)) = m - sec_j1 c.
Proof.
  intros Hc Hn. destruct (sec_init_inv m n c Hc Hn) as (Hm & Hn2 & Hs).
  split; [apply (differentials_count m n); assumption|].
  rewrite (ni_is_fl m n c Hm Hn2 Hs Hc), map_length, seq_length.
  destruct (sec_init_done m n Hm Hn2 Hs) as (c' & Hc'' & _ & _ & _ & _ & Ej & _ & _).
  assert (c' = c) by congruence. subst c'.
  pose proof (jmin_range m n Hm Hn2). lia.
Qed.

Lemma differentials_exact_final m n c : sec_init m n = Done c -> 1 <= n ->
  (forall i j, holomorphic m n i j <->
    (sec_j1 c <= j < m /\ 1 <= i <= nth (Z.to_nat (j - sec_j1 c)) (sec_ni c) 0)) /\
  (forall x, In x (sec_ni c) -> 1 <= x <= n - 1) /\
  (forall k l, (k <= l < length (sec_ni c))%nat -> nth k (sec_ni c) 0 <= nth l (sec_ni c) 0).
Proof.
  intros Hc Hn. destruct (sec_init_inv m n c Hc Hn) as (Hm & Hn2 & Hs).
  split; [apply (differentials_exact m n); assumption|].
  apply (ni_bounds m n); assumption.
Qed.

Lemma generators_count_final m n c : sec_init m n = Done c -> 1 <= n ->
  (if Z.gcd m n =? m
   then tree_edges c = n - 2 /\ tree_edges c * (m - 1) = 2 * sec_g c
   else tree_edges c = n - 1 /\ tree_edges c * (m - 1) = 2 * sec_g c + Z.gcd m n - 1)
  /\ 2 * sec_g c <= tree_edges c * (m - 1)
  /\ (1 <= sec_g c -> 1 <= tree_edges c).
Proof.
  intros Hc Hn. destruct (sec_init_inv m n c Hc Hn) as (Hm & Hn2 & Hs).
  apply (generators_count m n); assumption.
Qed.

Lemma sec_init_safe m n : 2 <= n -> small_curve m n ->
  (m < 2 -> sec_init m n = Abort) /\ (2 <= m -> exists c, sec_init m n = Done c).
Proof.
  intros Hn Hs. split.
  - intros Hm. unfold sec_init. destruct (Z.ltb_spec m 2); [reflexivity|lia].
  - intros Hm. destruct (sec_init_done m n Hm Hn Hs) as (c & Hc & _). exists c. exact Hc.
Qed.

(** Positive genus only from degree 2 on: an accepted curve is never degenerate. *)
Lemma aj_init_degree m p sqf c t : aj_init m p sqf = Done (c, t) ->
  2 <= m /\ 2 <= degree p /\ 1 <= sec_g c /\ 1 <= t /\ sqf = true.
Proof.
  unfold aj_init, sec_init_poly. destruct (sec_init m (degree p)) as [c'| | |] eqn:Hc; cbn [bind]; try discriminate.
  destruct (Z.ltb_spec (sec_g c') 1) as [?|Hg]; [discriminate|].
  destruct sqf; cbn [negb]; [|discriminate].
  intros H. injection H as <- <-.
  pose proof (degree_nonneg_bound p) as Hd.
  assert (Hm : 2 <= m).
  { unfold sec_init in Hc. destruct (Z.ltb_spec m 2); [discriminate|lia]. }
  assert (Hd1 : 1 <= degree p).
  { destruct (Z.eq_dec (degree p) (-1)) as [E|].
    - exfalso. rewrite E in Hc.
      unfold sec_init in Hc. destruct (Z.ltb_spec m 2); [discriminate|].
      destruct (negb _); [discriminate|]. unfold jmin in Hc. cbn [Z.eqb bind] in Hc.
      destruct (_ <? _) in Hc; [discriminate|]. injection Hc as <-. cbn [sec_g] in Hg.
      pose proof (Z.gcd_nonneg m (to_ulong (-1))).
      set (d := Z.gcd m (to_ulong (-1))) in *.
      replace ((m - 1) * -2 - d + 1) with (- (2 * m + d - 3)) in Hg by lia.
      rewrite Z.quot_opp_l in Hg by lia.
      pose proof (Z.quot_pos (2 * m + d - 3) 2 ltac:(lia) ltac:(lia)). lia.
    - destruct (Z.eq_dec (degree p) 0) as [E|]; [|lia]. exfalso. rewrite E in Hc.
      unfold sec_init in Hc. destruct (Z.ltb_spec m 2); [discriminate|].
      destruct (negb _); [discriminate|]. unfold jmin in Hc. cbn [Z.eqb bind] in Hc. discriminate. }
  destruct (sec_init_inv _ _ _ Hc Hd1) as (_ & Hd2 & Hs).
  destruct (generators_count_final _ _ _ Hc Hd1) as (_ & _ & Ht).
  repeat split; lia.
Qed.

Lemma constant_poly_faults m a : 2 <= m -> m < 2 ^ 62 -> a <> 0 ->
  sec_init_poly m [a] = Fault DivByZero.
Proof.
  intros Hm Hm2 Ha. unfold sec_init_poly. cbn [degree]. cbn [Z.ltb Z.compare].
  destruct (Z.eqb_spec a 0); [contradiction|]. apply sec_init_degree0; assumption.
Qed.
Lemma linear_poly_faults m a b : 2 <= m -> m < 2 ^ 62 -> b <> 0 ->
  sec_init_poly m [a; b] = Fault HugeAlloc.
Proof.
  intros Hm Hm2 Hb. unfold sec_init_poly. cbn [degree]. cbn [Z.ltb Z.compare].
  destruct (Z.eqb_spec b 0); [contradiction|]. cbn [Z.ltb Z.compare].
  apply sec_init_degree1; assumption.
Qed.

Lemma degree_correct p k : 0 <= k ->
  (degree p = k <-> nth (Z.to_nat k) p 0 <> 0 /\ forall l, (Z.to_nat k < l)%nat -> nth l p 0 = 0).
Proof.
  assert (Hneg : forall q, degree q < 0 <-> forall l, nth l q 0 = 0).
  { induction q as [|a q IH]; cbn [degree].
    - split; [intros _ [|l]; reflexivity|lia].
    - cbv zeta. destruct (Z.ltb_spec (degree q) 0) as [H|H].
      + destruct (Z.eqb_spec a 0) as [->|Ha].
        * split; [|lia]. intros _ [|l]; [reflexivity|]. cbn. apply IH, H.
        * split; [lia|]. intros Hl. specialize (Hl O). cbn in Hl. contradiction.
      + split; [lia|]. intros Hl. exfalso.
        assert (degree q < 0); [|lia]. apply IH. intros l. apply (Hl (S l)). }
  revert k. induction p as [|a p IH]; intros k Hk; cbn [degree].
  - split; [lia|]. intros [H _]. destruct (Z.to_nat k); cbn in H; congruence.
  - cbv zeta. destruct (Z.ltb_spec (degree p) 0) as [H|H].
    + assert (Hz := proj1 (Hneg p) H).
      destruct (Z.eqb_spec a 0) as [->|Ha].
      * split; [lia|]. intros [Hn _]. destruct (Z.to_nat k); cbn in Hn; [congruence|].
        rewrite Hz in Hn. congruence.
      * split.
        -- intros <-. split; [exact Ha|]. intros [|l] Hl; [cbn in Hl; lia|]. cbn. apply Hz.
        -- intros [Hn _]. destruct (Z.to_nat k) as [|k'] eqn:E; [lia|]. cbn in Hn.
           rewrite Hz in Hn. congruence.
    + destruct (Z.eq_dec k 0) as [->|Hk0].
      * split; [lia|]. intros [_ Hl]. exfalso.
        assert (degree p < 0); [|lia]. apply Hneg. intros l. apply (Hl (S l)). lia.
      * replace (Z.to_nat k) with (S (Z.to_nat (k - 1))) by lia. cbn [nth].
        specialize (IH (k - 1) ltac:(lia)). split.
        -- intros E. assert (E' : degree p = k - 1) by lia. apply IH in E'. destruct E' as [E1 E2].
           split; [exact E1|]. intros [|l] Hl; [lia|]. cbn. apply E2. lia.
        -- intros [E1 E2]. assert (degree p = k - 1); [|lia]. apply IH. split; [exact E1|].
           intros l Hl. apply (E2 (S l)). lia.
Qed.
