(** The cycles of a tree on N points as tables, and the intersection form on tables. *)
From Verif Require Import Base ModelSymp SpecSymp ProofSymp ProofSympMain ProofSympRank ProofLat1.

Definition ind (b : bool) : Z := if b then 1 else 0.

Lemma zsum_ind n i f : (i < n)%nat -> zsum n (fun k => ind (k =? i)%nat * f k) = f i.
Proof.
  intros Hi. rewrite <- (zsum_delta_l n i f Hi). apply zsum_ext. intros k _. unfold delta, ind.
  rewrite (Nat.eqb_sym k i). reflexivity.
Qed.

Section Sheets.
Context (m : nat).
Hypothesis Hm : (2 <= m)%nat.

(** the cycle t^0 - t^1 on m sheets *)
Definition zind (x : Z) : Z := ind (x mod Z.of_nat m =? 0).
Definition dif (x : Z) : Z := zind x - zind (x - 1).

Lemma zind_per x : zind (x + Z.of_nat m) = zind x.
Proof. unfold zind. replace (x + Z.of_nat m) with (x + 1 * Z.of_nat m) by ring. rewrite Z_mod_plus_full. reflexivity. Qed.
Lemma dif_per x : dif (x + Z.of_nat m) = dif x.
Proof. unfold dif. rewrite zind_per. replace (x + Z.of_nat m - 1) with (x - 1 + Z.of_nat m) by ring. rewrite zind_per. reflexivity. Qed.
Lemma dif_sum a : zsum m (fun v => dif (Z.of_nat v - a)) = 0.
Proof.
  rewrite (zsum_ext m _ (fun v => dif (Z.of_nat v + - a))) by (intros; f_equal; ring).
  rewrite (period_sum_shift dif m (- a) dif_per).
  rewrite (zsum_ext m _ (fun v => (fun j => zind (Z.of_nat j - 1)) (S v) - (fun j => zind (Z.of_nat j - 1)) v)).
  - rewrite (zsum_tele m (fun j => zind (Z.of_nat j - 1))).
    replace (Z.of_nat m - 1) with (Z.of_nat 0 - 1 + Z.of_nat m) by lia. rewrite zind_per. ring.
  - intros v _. cbn beta. unfold dif. replace (Z.of_nat (S v) - 1) with (Z.of_nat v) by lia. reflexivity.
Qed.
Lemma zind_small x : - Z.of_nat m < x < Z.of_nat m -> zind x = ind (x =? 0).
Proof.
  intros H. unfold zind. f_equal. destruct (Z.eqb_spec x 0) as [->|Hx].
  - rewrite Z.mod_0_l by lia. reflexivity.
  - apply Z.eqb_neq. intros E. apply Z.mod_divide in E; [|lia]. destruct E as [q E].
    assert (Hq : q = 0 \/ 1 <= q \/ q <= -1) by lia. destruct Hq as [->|[Hq|Hq]]; [lia|nia|nia].
Qed.

(** a combination of shifted copies *)
Definition row (c : nat -> Z) (g v : Z) : Z := zsum (m - 1) (fun u => c u * dif (v - Z.of_nat u - g)).

Lemma row_per c g v : row c g (v + Z.of_nat m) = row c g v.
Proof.
  unfold row. apply zsum_ext. intros u _. f_equal.
  replace (v + Z.of_nat m - Z.of_nat u - g) with (v - Z.of_nat u - g + Z.of_nat m) by ring. apply dif_per.
Qed.
Lemma row_sum c g : zsum m (fun v => row c g (Z.of_nat v)) = 0.
Proof.
  unfold row. rewrite zsum_swap. apply zsum_zero. intros u _. rewrite zsum_scal.
  rewrite (zsum_ext m _ (fun v => dif (Z.of_nat v - (Z.of_nat u + g)))) by (intros; f_equal; ring).
  rewrite dif_sum. ring.
Qed.
Lemma row_val c g w : (w < m)%nat ->
  row c g (g + Z.of_nat w) = (if (w <? m - 1)%nat then c w else 0) - (match w with O => 0 | S w' => c w' end).
Proof.
  intros Hw. unfold row.
  rewrite (zsum_ext (m - 1) _ (fun u => ind (u =? w)%nat * c u - ind (S u =? w)%nat * c u)).
  2:{ intros u Hu. replace (g + Z.of_nat w - Z.of_nat u - g) with (Z.of_nat w - Z.of_nat u) by ring.
      unfold dif. rewrite !zind_small by lia.
      replace (Z.of_nat w - Z.of_nat u =? 0) with (u =? w)%nat by (destruct (Nat.eqb_spec u w); symmetry; [apply Z.eqb_eq|apply Z.eqb_neq]; lia).
      replace (Z.of_nat w - Z.of_nat u - 1 =? 0) with (S u =? w)%nat by (destruct (Nat.eqb_spec (S u) w); symmetry; [apply Z.eqb_eq|apply Z.eqb_neq]; lia).
      ring. }
  rewrite zsum_sub. f_equal.
  - destruct (Nat.ltb_spec w (m - 1)) as [H|H]; [apply zsum_ind, H|].
    apply zsum_zero. intros u Hu. destruct (Nat.eqb_spec u w); [lia|]. cbn. reflexivity.
  - destruct w as [|w].
    + apply zsum_zero. intros u Hu. reflexivity.
    + rewrite <- (zsum_ind (m - 1) w c) by lia. apply zsum_ext. intros u Hu. reflexivity.
Qed.
Lemma row_solve f g : (forall v, f (v + Z.of_nat m) = f v) -> zsum m (fun v => f (Z.of_nat v)) = 0 ->
  exists c, forall v, row c g v = f v.
Proof.
  intros Hp Hs. exists (fun u => zsum (S u) (fun i => f (Z.of_nat i + g))).
  assert (H0 : forall w, (w < m)%nat -> row (fun u => zsum (S u) (fun i => f (Z.of_nat i + g))) g (g + Z.of_nat w) = f (g + Z.of_nat w)).
  { intros w Hw. rewrite row_val by exact Hw. rewrite (Z.add_comm g).
    destruct (Nat.ltb_spec w (m - 1)) as [H|H].
    - destruct w as [|w]; cbn [zsum]; ring.
    - destruct w as [|w]; [lia|]. pose proof (period_sum_shift f m g Hp) as E. rewrite Hs in E.
      replace m with (S (S w)) in E by lia. cbn [zsum] in *. lia. }
  intros v. set (w := Z.to_nat ((v - g) mod Z.of_nat m)).
  assert (Hw : (w < m)%nat) by (pose proof (Z.mod_pos_bound (v - g) (Z.of_nat m)); unfold w; lia).
  assert (Ev : v = g + Z.of_nat w + (v - g) / Z.of_nat m * Z.of_nat m).
  { pose proof (Z.div_mod (v - g) (Z.of_nat m) ltac:(lia)) as E. pose proof (Z.mod_pos_bound (v - g) (Z.of_nat m)). unfold w. rewrite Z2Nat.id by lia. lia. }
  rewrite Ev. set (k := (v - g) / Z.of_nat m).
  assert (Per : forall h : Z -> Z, (forall v, h (v + Z.of_nat m) = h v) -> forall x, h (x + k * Z.of_nat m) = h x).
  { intros h Hh x. pose proof (period_mul 0 h (Z.of_nat m) k (proj2 (period_exact _ _) Hh) x) as E. apply Z.divide_0_l in E. lia. }
  rewrite (Per (row _ g)) by apply row_per. rewrite (Per f) by exact Hp. apply H0, Hw.
Qed.
Lemma row_inj c g : (forall v, row c g v = 0) -> forall u, (u < m - 1)%nat -> c u = 0.
Proof.
  intros H. induction u as [|u IH]; intros Hu.
  - specialize (H (g + Z.of_nat 0)). rewrite row_val in H by lia. destruct (Nat.ltb_spec 0 (m - 1)); lia.
  - specialize (H (g + Z.of_nat (S u))). rewrite row_val in H by lia.
    destruct (Nat.ltb_spec (S u) (m - 1)); [|lia]. rewrite IH in H by lia. lia.
Qed.
End Sheets.

Section Tree.
Context (m N o : nat) (A B : nat -> nat) (G : nat -> Z).
Hypothesis Hm : (2 <= m)%nat.

(** points reached by the first n edges, from o *)
Definition reach (n p : nat) : Prop := p = o \/ exists j, (j < n)%nat /\ p = B j.
Definition grows (n : nat) : Prop := forall k, (k < n)%nat ->
  (A k < N)%nat /\ (B k < N)%nat /\ reach k (A k) /\ ~ reach k (B k).

Definition inc (k p : nat) : Z := ind (p =? A k)%nat - ind (p =? B k)%nat.
(** cycle u of edge k, and combinations of cycles *)
Definition cyc (k u p : nat) (v : Z) : Z := inc k p * dif m (v - Z.of_nat u - G k).
Definition comb (n : nat) (c : nat -> nat -> Z) (p : nat) (v : Z) : Z :=
  zsum n (fun k => zsum (m - 1) (fun u => c k u * cyc k u p v)).

Lemma comb_row n c p v : comb n c p v = zsum n (fun k => inc k p * row m (c k) (G k) v).
Proof.
  unfold comb, cyc, row. apply zsum_ext. intros k _. rewrite <- zsum_scal. apply zsum_ext. intros; ring.
Qed.
Lemma inc_col k : (A k < N)%nat -> (B k < N)%nat -> zsum N (inc k) = 0.
Proof.
  intros HA HB. unfold inc. rewrite zsum_sub.
  rewrite (zsum_ext N (fun p => ind (p =? A k)%nat) (fun p => ind (p =? A k)%nat * 1)) by (intros; ring).
  rewrite (zsum_ext N (fun p => ind (p =? B k)%nat) (fun p => ind (p =? B k)%nat * 1)) by (intros; ring).
  rewrite (zsum_ind N (A k) (fun _ => 1)), (zsum_ind N (B k) (fun _ => 1)) by assumption. reflexivity.
Qed.
Lemma comb_table n c : grows n -> ztable N m (comb n c).
Proof.
  intros Hg. split.
  - intros p v. rewrite !comb_row. apply zsum_ext. intros k _. rewrite row_per by exact Hm. reflexivity.
  - intros p _. rewrite (zsum_ext m _ (fun v => zsum n (fun k => inc k p * row m (c k) (G k) (Z.of_nat v)))) by (intros; apply comb_row).
    rewrite zsum_swap. apply zsum_zero. intros k _. rewrite zsum_scal, row_sum by exact Hm. ring.
  - intros v. rewrite (zsum_ext N _ (fun p => zsum n (fun k => inc k p * row m (c k) (G k) v))) by (intros; apply comb_row).
    rewrite zsum_swap. apply zsum_zero. intros k Hk. destruct (Hg k Hk) as (H1 & H2 & _).
    rewrite zsum_scal_r, inc_col by assumption. ring.
Qed.

Lemma reach_S n p : reach n p -> reach (S n) p.
Proof. intros [H|(j & Hj & E)]; [left; exact H|right; exists j; split; [lia|exact E]]. Qed.
Lemma reach_le k n p : (k <= n)%nat -> reach k p -> reach n p.
Proof. intros Hk [H|(j & Hj & E)]; [left; exact H|right; exists j; split; [lia|exact E]]. Qed.
(** the last edge is a leaf *)
Lemma inc_leaf n k : grows (S n) -> (k < n)%nat -> inc k (B n) = 0.
Proof.
  intros Hg Hk. destruct (Hg n ltac:(lia)) as (_ & _ & _ & Hn). destruct (Hg k ltac:(lia)) as (_ & _ & HA & _).
  unfold inc. destruct (Nat.eqb_spec (B n) (A k)) as [E|E].
  - exfalso. apply Hn. rewrite E. apply (reach_le k); [lia|exact HA].
  - destruct (Nat.eqb_spec (B n) (B k)) as [E'|E']; [|reflexivity].
    exfalso. apply Hn. rewrite E'. right. exists k. auto.
Qed.
Lemma inc_last n : grows (S n) -> inc n (B n) = -1.
Proof.
  intros Hg. destruct (Hg n ltac:(lia)) as (_ & _ & HA & Hn). unfold inc. rewrite Nat.eqb_refl.
  destruct (Nat.eqb_spec (B n) (A n)) as [E|E]; [exfalso; apply Hn; rewrite E; exact HA|reflexivity].
Qed.
Lemma grows_pred n : grows (S n) -> grows n.
Proof. intros H k Hk. apply H. lia. Qed.

Lemma comb_inj n : grows n -> forall c, (forall p v, (p < N)%nat -> comb n c p v = 0) ->
  forall k u, (k < n)%nat -> (u < m - 1)%nat -> c k u = 0.
Proof.
  induction n as [|n IH]; intros Hg c H k u Hk Hu; [lia|].
  assert (Hlast : forall u, (u < m - 1)%nat -> c n u = 0).
  { apply (row_inj m Hm _ (G n)). intros v. destruct (Hg n ltac:(lia)) as (_ & HB & _).
    pose proof (H (B n) v HB) as E. rewrite comb_row in E. cbn [zsum] in E.
    rewrite (inc_last n Hg) in E. rewrite zsum_zero in E; [lia|].
    intros k' Hk'. rewrite (inc_leaf n k' Hg Hk'). ring. }
  destruct (Nat.eq_dec k n) as [->|Hne]; [apply Hlast, Hu|].
  apply (IH (grows_pred n Hg) c); try lia. intros p v Hp. rewrite <- (H p v Hp). unfold comb. cbn [zsum].
  rewrite (zsum_zero (m - 1)); [ring|]. intros u' Hu'. rewrite Hlast by exact Hu'. ring.
Qed.

Lemma comb_gen n : grows n -> (o < N)%nat -> forall F, ztable N m F ->
  (forall p v, (p < N)%nat -> ~ reach n p -> F p v = 0) ->
  exists c, forall p v, (p < N)%nat -> comb n c p v = F p v.
Proof.
  intros Hg Ho. induction n as [|n IH]; intros F HF H0.
  - exists (fun _ _ => 0). intros p v Hp. unfold comb. cbn [zsum]. symmetry.
    assert (Hz : forall q, (q < N)%nat -> q <> o -> F q v = 0).
    { intros q Hq Hne. apply H0; [exact Hq|]. intros [E|(j & Hj & _)]; [contradiction|lia]. }
    destruct (Nat.eq_dec p o) as [->|Hne]; [|apply Hz; assumption].
    rewrite <- (t_col N m F HF v). rewrite <- (zsum_ind N o (fun q => F q v) Ho). apply zsum_ext. intros q Hq.
    destruct (Nat.eqb_spec q o) as [->|E]; unfold ind; [ring|]. rewrite Hz by assumption. reflexivity.
  - destruct (Hg n ltac:(lia)) as (HA & HB & HAr & HBr).
    destruct (row_solve m Hm (fun v => - F (B n) v) (G n)) as [cn Hcn].
    { intros v. rewrite (t_per N m F HF). reflexivity. }
    { rewrite (zsum_ext m _ (fun v => (-1) * F (B n) (Z.of_nat v))) by (intros; ring). rewrite zsum_scal, (t_row N m F HF) by exact HB. reflexivity. }
    destruct (IH (grows_pred n Hg) (fun p v => F p v - inc n p * row m cn (G n) v)) as [c Hc].
    + split.
      * intros p v. rewrite (t_per N m F HF), row_per by exact Hm. reflexivity.
      * intros p Hp. rewrite zsum_sub, (t_row N m F HF p Hp), zsum_scal, row_sum by exact Hm. ring.
      * intros v. rewrite zsum_sub, (t_col N m F HF v), zsum_scal_r, inc_col by assumption. ring.
    + intros p v Hp Hnr. destruct (Nat.eq_dec p (B n)) as [->|Hne].
      * rewrite (inc_last n Hg), Hcn. ring.
      * assert (HpA : p <> A n) by (intros ->; contradiction).
        unfold inc. destruct (Nat.eqb_spec p (A n)); [contradiction|]. destruct (Nat.eqb_spec p (B n)); [contradiction|].
        cbn. rewrite H0; [reflexivity|exact Hp|]. intros [E|(j & Hj & E)]; [apply Hnr; left; exact E|].
        apply Hnr. right. exists j. split; [|exact E]. destruct (Nat.eq_dec j n) as [->|]; [contradiction|lia].
    + exists (fun k => if (k =? n)%nat then cn else c k). intros p v Hp. rewrite comb_row. cbn [zsum].
      rewrite Nat.eqb_refl. rewrite (zsum_ext n _ (fun k => inc k p * row m (c k) (G k) v)).
      * rewrite <- comb_row, Hc by exact Hp. ring.
      * intros k Hk. destruct (Nat.eqb_spec k n); [lia|reflexivity].
Qed.

(** ** the form *)
Definition psi (F : nat -> Z -> Z) (p : nat) (v : Z) : Z :=
  zsum p (fun q => F q v) - zsum (S p) (fun q => F q (v + 1)).
Definition pair (F : nat -> Z -> Z) (l : nat) (v : Z) : Z := psi F (A l) (v + G l) - psi F (B l) (v + G l).

Lemma psi_step F p v : psi F (S p) v - psi F p v = F p v - F (S p) (v + 1).
Proof. unfold psi. cbn [zsum]. ring. Qed.
Lemma psi_per F p v : ztable N m F -> psi F p (v + Z.of_nat m) = psi F p v.
Proof.
  intros HF. unfold psi. f_equal; apply zsum_ext; intros q _; [apply (t_per N m F HF)|].
  replace (v + Z.of_nat m + 1) with (v + 1 + Z.of_nat m) by ring. apply (t_per N m F HF).
Qed.
Lemma psi_sum F p : ztable N m F -> (p < N)%nat -> zsum m (fun v => psi F p (Z.of_nat v)) = 0.
Proof.
  intros HF Hp. unfold psi. rewrite zsum_sub, !(zsum_swap m).
  rewrite (zsum_zero p) by (intros q Hq; apply (t_row N m F HF); lia).
  rewrite (zsum_zero (S p)); [reflexivity|]. intros q Hq.
  rewrite (period_sum_shift (F q) m 1 (t_per N m F HF q)). apply (t_row N m F HF). lia.
Qed.
Lemma psi_comb n c p v : psi (comb n c) p v = zsum n (fun k => zsum (m - 1) (fun u => c k u * psi (cyc k u) p v)).
Proof.
  assert (Hs : forall s w, zsum s (fun q => comb n c q w) = zsum n (fun k => zsum (m - 1) (fun u => c k u * zsum s (fun q => cyc k u q w)))).
  { intros s w. unfold comb. rewrite zsum_swap. apply zsum_ext. intros k _. rewrite zsum_swap. apply zsum_ext. intros u _. apply zsum_scal. }
  unfold psi. rewrite !Hs, <- zsum_sub. apply zsum_ext. intros k _. rewrite <- zsum_sub. apply zsum_ext. intros; ring.
Qed.
Lemma pair_comb n c l v : pair (comb n c) l v = zsum n (fun k => zsum (m - 1) (fun u => c k u * pair (cyc k u) l v)).
Proof.
  unfold pair. rewrite !psi_comb, <- zsum_sub. apply zsum_ext. intros k _. rewrite <- zsum_sub. apply zsum_ext. intros; ring.
Qed.

(** divisible by d on the cycles of the tree: d-constant along the diagonals *)
Section Divide.
Context (n : nat) (d : Z) (F : nat -> Z -> Z).
Hypothesis Hg : grows n.
Hypothesis HF : ztable N m F.
Hypothesis Hall : forall p, (p < N)%nat -> reach n p.
Hypothesis Hd : forall l v, (l < n)%nat -> (v < m - 1)%nat -> (d | pair F l (Z.of_nat v)).

Lemma pair_all l v : (l < n)%nat -> (d | psi F (A l) v - psi F (B l) v).
Proof.
  intros Hl. destruct (Hg l Hl) as (HA & HB & _).
  set (f := fun w => pair F l w).
  assert (Hper : forall w, f (w + Z.of_nat m) = f w).
  { intros w. unfold f, pair. replace (w + Z.of_nat m + G l) with (w + G l + Z.of_nat m) by ring. rewrite !psi_per by exact HF. reflexivity. }
  assert (Hsum : zsum m (fun w => f (Z.of_nat w)) = 0).
  { unfold f, pair. rewrite zsum_sub.
    rewrite (period_sum_shift (psi F (A l)) m (G l)) by (intros; apply psi_per, HF).
    rewrite (period_sum_shift (psi F (B l)) m (G l)) by (intros; apply psi_per, HF).
    rewrite !psi_sum by assumption. reflexivity. }
  assert (Hw : forall w : nat, (w < m)%nat -> (d | f (Z.of_nat w))).
  { intros w Hw. destruct (Nat.lt_ge_cases w (m - 1)) as [H|H]; [apply Hd; assumption|].
    replace m with (S w) in Hsum by lia. cbn [zsum] in Hsum.
    replace (f (Z.of_nat w)) with (- zsum w (fun w => f (Z.of_nat w))) by lia.
    apply Z.divide_opp_r, zsum_div. intros k Hk. apply Hd; [exact Hl|lia]. }
  set (w := Z.to_nat ((v - G l) mod Z.of_nat m)). pose proof (Z.mod_pos_bound (v - G l) (Z.of_nat m) ltac:(lia)) as Hb.
  pose proof (period_mul 0 f (Z.of_nat m) ((v - G l) / Z.of_nat m) (proj2 (period_exact _ _) Hper) (Z.of_nat w)) as E.
  apply Z.divide_0_l in E. specialize (Hw w ltac:(unfold w; lia)).
  replace (Z.of_nat w + (v - G l) / Z.of_nat m * Z.of_nat m) with (v - G l) in E.
  2:{ pose proof (Z.div_mod (v - G l) (Z.of_nat m) ltac:(lia)). unfold w. rewrite Z2Nat.id by lia. lia. }
  replace (f (Z.of_nat w)) with (f (v - G l)) in Hw by lia. unfold f, pair in Hw.
  replace (v - G l + G l) with v in Hw by ring. exact Hw.
Qed.
Lemma psi_const p v : reach n p -> (d | psi F p v - psi F o v).
Proof.
  assert (H : forall k, (k <= n)%nat -> forall p, reach k p -> (d | psi F p v - psi F o v)).
  { induction k as [|k IH]; intros Hk q [->|(j & Hj & E)].
    - rewrite Z.sub_diag. apply Z.divide_0_r.
    - lia.
    - rewrite Z.sub_diag. apply Z.divide_0_r.
    - destruct (Nat.eq_dec j k) as [->|Hne].
      + subst q. destruct (Hg k ltac:(lia)) as (_ & _ & HA & _).
        apply (div_sub_trans d _ (psi F (A k) v)); [apply div_sub_sym, pair_all; lia|apply IH; [lia|exact HA]].
      + apply IH; [lia|]. right. exists j. split; [lia|exact E]. }
  apply (H n (le_n n)).
Qed.
Lemma pair_toeplitz : toeplitz N d F.
Proof.
  intros p v Hp. pose proof (psi_step F p v) as E.
  apply div_sub_sym. rewrite <- E.
  apply (div_sub_trans d _ (psi F o v)); [apply psi_const, Hall; lia|apply div_sub_sym, psi_const, Hall; lia].
Qed.
End Divide.

(** conversely *)
Lemma toeplitz_pair n F : grows n -> (forall p v, F (S p) (v + 1) = F p v) -> forall l v, (l < n)%nat -> pair F l v = 0.
Proof.
  intros Hg HT l v Hl.
  assert (H : forall p w, psi F p w = psi F 0 w).
  { induction p as [|p IH]; intros w; [reflexivity|]. rewrite <- IH. pose proof (psi_step F p w) as E. rewrite HT in E. lia. }
  unfold pair. rewrite (H (A l)), (H (B l)). ring.
Qed.
End Tree.
