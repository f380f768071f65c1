(** Genus and differentials of the Magma package. *)
From Verif Require Import Base ModelCurve SpecCurve ProofCurve ModelMaDiff.
Local Open Scope Z_scope.

Definition df_from (m n j : Z) (k : nat) : list Z := map (fun l => fl m n (j + Z.of_nat l)) (seq 0 k).
Definition jp_from (m n j : Z) (k : nat) : list Z := flat_map (fun l => repeat (j + Z.of_nat l) (Z.to_nat (fl m n (j + Z.of_nat l)))) (seq 0 k).

Lemma df_cons m n j k : df_from m n j (S k) = fl m n j :: df_from m n (j + 1) k.
Proof.
  unfold df_from. cbn [seq map]. rewrite Z.add_0_r. f_equal. rewrite <- seq_shift, map_map. apply map_ext. intro a. f_equal. lia.
Qed.
Lemma jp_cons m n j k : jp_from m n j (S k) = repeat j (Z.to_nat (fl m n j)) ++ jp_from m n (j + 1) k.
Proof.
  unfold jp_from. cbn [seq flat_map]. rewrite Z.add_0_r. f_equal. rewrite <- seq_shift, !flat_map_concat_map, map_map. f_equal. apply map_ext. intro a. f_equal; [|f_equal; f_equal]; lia.
Qed.
Lemma loop_done m n k : 2 <= m -> 2 <= n -> forall fuel j df jp, (k < fuel)%nat -> 1 <= j -> m - j = Z.of_nat k ->
  diff_loop fuel m n (Z.gcd m n) j df jp = Done (m, df ++ df_from m n j k, jp ++ jp_from m n j k).
Proof.
  intros Hm Hn. induction k as [|k IH]; intros fuel j df jp Hf Hj Hk; (destruct fuel as [|fuel]; [lia|]); cbn [diff_loop].
  - destruct (Z.ltb_spec j m); [lia|]. unfold df_from, jp_from. cbn [seq map flat_map]. rewrite !app_nil_r. do 3 f_equal. lia.
  - destruct (Z.ltb_spec j m); [|lia]. fold (fl m n j). destruct (Z.leb_spec (fl m n j) (n - 1)) as [L|L].
    + rewrite IH by lia. rewrite df_cons, jp_cons, <- !app_assoc. reflexivity.
    + exfalso. assert (fl m n j < n); [|lia]. unfold fl. apply Z.div_lt_upper_bound; [lia|]. pose proof (d_pos m n Hm ltac:(lia)). nia.
Qed.
Lemma ceil_jmin m n : 2 <= m -> 2 <= n -> ceil_div (m + Z.gcd m n) n = 1 + (m + Z.gcd m n - 1) / n.
Proof.
  intros Hm Hn. unfold ceil_div. pose proof (d_pos m n Hm ltac:(lia)). set (a := m + Z.gcd m n). assert (Ha : 0 < a) by (unfold a; lia).
  pose proof (Z.div_mod (a - 1) n ltac:(lia)) as D. pose proof (Z.mod_pos_bound (a - 1) n ltac:(lia)) as B. set (q := (a - 1) / n) in *. set (r := (a - 1) mod n) in *.
  replace (- a / n) with (- (1 + q)); [lia|]. apply (Z.div_unique (- a) n (- (1 + q)) (n - 1 - r)); lia.
Qed.
Lemma jm_below m n : 2 <= m -> 3 <= n -> 1 + (m + Z.gcd m n - 1) / n <= m - 1.
Proof.
  intros Hm Hn. pose proof (d_le_m m n Hm ltac:(lia)) as L. pose proof (d_pos m n Hm ltac:(lia)).
  assert ((m + Z.gcd m n - 1) / n < m - 1); [|lia]. apply Z.div_lt_upper_bound; [lia|].
  destruct (Z.eq_dec m 2) as [->|]; [|nia]. assert (Z.gcd 2 n <> 2 \/ n <> 3); [|lia].
  destruct (Z.eq_dec n 3) as [->|]; [left; discriminate|right; assumption].
Qed.
Lemma jp_length m n j k : (forall l, (l < k)%nat -> 0 <= fl m n (j + Z.of_nat l)) -> Z.of_nat (length (jp_from m n j k)) = fold_right Z.add 0 (df_from m n j k).
Proof.
  revert j. induction k as [|k IH]; intros j H; [reflexivity|]. rewrite df_cons, jp_cons, app_length, repeat_length. cbn [fold_right].
  pose proof (H 0%nat ltac:(lia)) as H0. rewrite Z.add_0_r in H0. rewrite Nat2Z.inj_add, IH; [lia|]. intros l Hl. pose proof (H (S l) ltac:(lia)) as X. replace (j + 1 + Z.of_nat l) with (j + Z.of_nat (S l)) by lia. exact X.
Qed.
Lemma df_sum m n j k : fold_right Z.add 0 (df_from m n j k) = zsum k (fun l => fl m n (j + Z.of_nat l)).
Proof. unfold df_from. rewrite fold_right_seq_zsum. reflexivity. Qed.
Lemma df_total m n : 2 <= m -> 2 <= n -> let j := 1 + (m + Z.gcd m n - 1) / n in
  2 * fold_right Z.add 0 (df_from m n j (Z.to_nat (m - j))) = (m - 1) * (n - 1) - Z.gcd m n + 1.
Proof.
  intros Hm Hn j. rewrite df_sum. pose proof (sum_fl m n Hm ltac:(lia)) as Hsum. pose proof (jmin_range m n Hm Hn) as Hjr. fold j in Hjr.
  assert (EN : Z.to_nat (m - 1) = (Z.to_nat (j - 1) + Z.to_nat (m - j))%nat) by lia. rewrite EN, zsum_app in Hsum. rewrite (zsum_zero (Z.to_nat (j - 1))) in Hsum.
  - rewrite (zsum_ext _ (fun k => fl m n (Z.of_nat (S (Z.to_nat (j - 1) + k)))) (fun k => fl m n (j + Z.of_nat k))) in Hsum by (intros k Hk; f_equal; lia). lia.
  - intros k Hk. apply fl_below; fold j; lia.
Qed.

Lemma ma_done m n : 2 <= m -> 3 <= n -> let j := 1 + (m + Z.gcd m n - 1) / n in let k := Z.to_nat (m - j) in
  ma_differentials m n = Done {| md_g := ((m - 1) * (n - 1) - Z.gcd m n + 1) / 2; md_jm := j; md_num := m - j; md_df := df_from m n j k; md_jpows := jp_from m n j k |} /\
  1 <= j < m /\ Z.of_nat (length (jp_from m n j k)) = ((m - 1) * (n - 1) - Z.gcd m n + 1) / 2 /\ fold_right Z.add 0 (df_from m n j k) = ((m - 1) * (n - 1) - Z.gcd m n + 1) / 2.
Proof.
  intros Hm Hn j k. pose proof (jm_below m n Hm Hn) as J2. fold j in J2. pose proof (jmin_range m n Hm ltac:(lia)) as J1. fold j in J1.
  pose proof (df_total m n Hm ltac:(lia)) as T. cbv zeta in T. fold j k in T.
  assert (G : ((m - 1) * (n - 1) - Z.gcd m n + 1) / 2 = fold_right Z.add 0 (df_from m n j k)). { rewrite <- T, Z.mul_comm, Z.div_mul by lia. reflexivity. }
  assert (P : Z.of_nat (length (jp_from m n j k)) = fold_right Z.add 0 (df_from m n j k)).
  { apply jp_length. intros l Hl. assert (X := fl_above m n (j + Z.of_nat l) Hm ltac:(lia) ltac:(fold j; lia) ltac:(unfold k in Hl; lia)). lia. }
  split; [|rewrite P, G; repeat split; try reflexivity; lia].
  unfold ma_differentials. destruct (Z.leb_spec 2 m); [|lia]. destruct (Z.leb_spec 3 n); [|lia]. cbn [andb negb]. rewrite ceil_jmin by lia. fold j. rewrite Z.max_r by lia.
  rewrite (loop_done m n k Hm ltac:(lia)) by (unfold k; lia). cbn [bind app]. assert (LD : Z.of_nat (length (df_from m n j k)) = m - j) by (unfold df_from; rewrite map_length, seq_length; unfold k; lia).
  rewrite LD, Z.eqb_refl. cbn [negb]. unfold round_half. rewrite <- T. replace ((2 * fold_right Z.add 0 (df_from m n j k) + 1) / 2) with (fold_right Z.add 0 (df_from m n j k)).
  2: { apply (Z.div_unique _ 2 _ 1); lia. }
  rewrite P, Z.ltb_irrefl. do 2 f_equal. rewrite Z.mul_comm, Z.div_mul by lia. reflexivity.
Qed.

Lemma df_exact m n i j : 2 <= m -> 3 <= n -> let j1 := 1 + (m + Z.gcd m n - 1) / n in
  holomorphic m n i j <-> j1 <= j < m /\ 1 <= i <= nth (Z.to_nat (j - j1)) (df_from m n j1 (Z.to_nat (m - j1))) 0.
Proof.
  intros Hm Hn j1. pose proof (jmin_range m n Hm ltac:(lia)) as Hjr. fold j1 in Hjr.
  assert (Hnth : j1 <= j < m -> nth (Z.to_nat (j - j1)) (df_from m n j1 (Z.to_nat (m - j1))) 0 = fl m n j).
  { intros Hj. unfold df_from. rewrite nth_map_seq by lia. f_equal. lia. }
  unfold holomorphic. split.
  - intros (Hi & Hj & Hle). assert (Hjj : j1 <= j).
    { destruct (Z.le_gt_cases j1 j) as [|Hlt]; [assumption|exfalso]. assert (E := fl_below m n j Hm ltac:(lia) ltac:(lia) ltac:(fold j1; lia)).
      assert (1 <= fl m n j); [|lia]. unfold fl. apply Z.div_le_lower_bound; nia. }
    rewrite Hnth by lia. split; [lia|]. split; [lia|]. unfold fl. apply Z.div_le_lower_bound; lia.
  - intros (Hj & Hi). rewrite Hnth in Hi by lia. assert (Hf := fl_above m n j Hm ltac:(lia) ltac:(fold j1; lia) ltac:(lia)).
    split; [lia|]. split; [lia|]. assert (m * fl m n j <= j * n - Z.gcd m n) by (unfold fl; apply Z.mul_div_le; lia). nia.
Qed.

Lemma jp_map m n j k : forall df, df = df_from m n j k -> jp_from m n j k = concat (map (fun l => repeat (j + Z.of_nat l) (Z.to_nat (nth l df 0))) (seq 0 (length df))).
Proof.
  intros df ->. unfold jp_from. rewrite flat_map_concat_map. f_equal. unfold df_from at 2. rewrite map_length, seq_length. apply map_ext_in. intros l Hl. apply in_seq in Hl.
  f_equal. unfold df_from. rewrite nth_map_seq by lia. reflexivity.
Qed.

Lemma diff_final m n : (2 <= m /\ 3 <= n -> exists d, ma_differentials m n = Done d /\
    2 * md_g d = (m - 1) * (n - 1) - Z.gcd m n + 1 /\ 1 <= md_g d /\
    md_num d = Z.of_nat (length (md_df d)) /\ md_jm d + md_num d = m /\
    (forall i j, holomorphic m n i j <-> md_jm d <= j < m /\ 1 <= i <= nth (Z.to_nat (j - md_jm d)) (md_df d) 0) /\
    fold_right Z.add 0 (md_df d) = md_g d /\ Z.of_nat (length (md_jpows d)) = md_g d /\
    md_jpows d = concat (map (fun l => repeat (md_jm d + Z.of_nat l) (Z.to_nat (nth l (md_df d) 0))) (seq 0 (length (md_df d))))) /\
  (~ (2 <= m /\ 3 <= n) -> ma_differentials m n = Abort).
Proof.
  split.
  - intros (Hm & Hn). destruct (ma_done m n Hm Hn) as (E & J & P & S). cbv zeta in E. eexists. split; [exact E|]. cbn [md_g md_jm md_num md_df md_jpows].
    destruct (genus_numerator m n Hm ltac:(lia)) as (g & _ & G).
    assert (LD : Z.of_nat (length (df_from m n (1 + (m + Z.gcd m n - 1) / n) (Z.to_nat (m - (1 + (m + Z.gcd m n - 1) / n))))) = m - (1 + (m + Z.gcd m n - 1) / n)) by (unfold df_from; rewrite map_length, seq_length; lia).
    split; [rewrite G, (Z.mul_comm 2 g), Z.div_mul by lia; lia|]. split.
    { rewrite <- S. replace (Z.to_nat (m - (1 + (m + Z.gcd m n - 1) / n))) with (Datatypes.S (Z.to_nat (m - (1 + (m + Z.gcd m n - 1) / n)) - 1)) by lia. rewrite df_cons. cbn [fold_right].
      set (j := 1 + (m + Z.gcd m n - 1) / n) in *. assert (X := fl_above m n j Hm ltac:(lia) ltac:(fold j; lia) ltac:(lia)).
      assert (0 <= fold_right Z.add 0 (df_from m n (j + 1) (Z.to_nat (m - j) - 1))); [|lia].
      assert (Y : forall x, In x (df_from m n (j + 1) (Z.to_nat (m - j) - 1)) -> 0 <= x).
      { intros x Hx. unfold df_from in Hx. apply in_map_iff in Hx. destruct Hx as (l & <- & Hl). apply in_seq in Hl. assert (W := fl_above m n (j + 1 + Z.of_nat l) Hm ltac:(lia) ltac:(fold j; lia) ltac:(lia)). lia. }
      revert Y. generalize (df_from m n (j + 1) (Z.to_nat (m - j) - 1)) as l. induction l as [|a l IH]; intro Y; cbn; [lia|]. pose proof (Y a ltac:(left; reflexivity)). assert (0 <= fold_right Z.add 0 l) by (apply IH; intros; apply Y; right; assumption). lia. }
    split; [lia|]. split; [lia|]. split; [intros i j; apply df_exact; assumption|]. split; [exact S|]. split; [exact P|]. apply jp_map. reflexivity.
  - intro H. unfold ma_differentials. destruct (Z.leb_spec 2 m), (Z.leb_spec 3 n); cbn [andb negb]; try reflexivity. lia.
Qed.

Lemma same_as_library m n c : 3 <= n -> sec_init m n = Done c -> small_curve m n ->
  exists d, ma_differentials m n = Done d /\ md_g d = sec_g c /\ md_jm d = sec_j1 c /\ md_df d = sec_ni c.
Proof.
  intros Hn E Hs. assert (Hm : 2 <= m). { unfold sec_init in E. destruct (Z.ltb_spec m 2); [discriminate|lia]. }
  destruct (sec_init_done m n Hm ltac:(lia) Hs) as (c' & E' & _ & _ & _ & Eg & Ej & _). assert (c' = c) by congruence. subst c'.
  destruct (ma_done m n Hm Hn) as (D & _). cbv zeta in D. eexists. split; [exact D|]. cbn [md_g md_jm md_df]. split; [auto|]. split; [auto|].
  rewrite (ni_is_fl m n c Hm ltac:(lia) Hs E), Ej. reflexivity.
Qed.
