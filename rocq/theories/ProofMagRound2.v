(** The subdivision with the actual roundings covers balls that are not too thin. *)
From Coq Require Import Reals Lra Lia.
From Flocq Require Import Core.
From Flocq Require Import Relative.
From Verif Require Import Base ModelMag SpecMag ProofMag ModelMagRound SpecMagRound.
Local Open Scope R_scope.

Lemma nearest_err p x : (0 < p)%Z -> Rabs (nearest p x - x) <= bpow radix2 (- p) * Rabs x.
Proof.
  intros Hp. unfold nearest.
  pose proof (relative_error_N_FLX radix2 p Hp (fun x => negb (Z.even x)) x) as H.
  eapply Rle_trans; [exact H|]. apply Rmult_le_compat_r; [apply Rabs_pos|]. rewrite bpow_plus. cbn [bpow].
  change (Z.pow_pos radix2 1) with 2%Z. lra.
Qed.
Lemma nearest_mono p x y : (0 < p)%Z -> x <= y -> nearest p x <= nearest p y.
Proof. intros Hp H. unfold nearest. apply round_le; [apply FLX_exp_valid; exact Hp|apply valid_rnd_N|exact H]. Qed.
Lemma nearest_id p m e : (0 < p)%Z -> (Z.abs m < 2 ^ p)%Z -> nearest p (IZR m * bpow radix2 e) = IZR m * bpow radix2 e.
Proof.
  intros Hp Hm. unfold nearest. apply round_generic; [apply valid_rnd_N|].
  apply generic_format_FLX. exists (Float radix2 m e); [reflexivity|exact Hm].
Qed.

Lemma is_mag_pos x : is_mag x -> 0 < x.
Proof. intros (M & E & H & ->). apply Rmult_lt_0_compat; [apply IZR_lt; lia|apply bpow_gt_0]. Qed.

(** distance from r to mag_set_d r *)
Lemma slack rb n : is_mag rb -> (2 <= n <= 32)%nat ->
  let r := div_dbl rb n in
  0 < r /\ Rabs (INR n * r - rb) <= bpow radix2 (-53) * rb /\
  (/ INR n - bpow radix2 (-22)) * bpow radix2 (-30) * r <= mag_set_d r - r /\ is_mag (mag_set_d r).
Proof.
  intros (M & E & HM & Eb) Hn r.
  assert (Hn2 : 2 <= INR n <= 32).
  { split; [replace 2 with (INR 2) by (cbn [INR]; ring)|replace 32 with (INR 32) by (cbn [INR]; ring)]; apply le_INR; lia. }
  set (q := rb / INR n) in *. assert (Hrb : 0 < rb) by (rewrite Eb; apply Rmult_lt_0_compat; [apply IZR_lt; lia|apply bpow_gt_0]).
  assert (Hq : 0 < q) by (apply Rdiv_lt_0_compat; lra).
  assert (Erb : rb = INR n * q) by (unfold q; field; lra).
  assert (Her : Rabs (r - q) <= bpow radix2 (-53) * q).
  { unfold r, div_dbl. fold q. rewrite <- (Rabs_right q) at 3 by lra. apply nearest_err. lia. }
  assert (E53 : bpow radix2 (-53) = / 9007199254740992) by reflexivity.
  assert (E22 : bpow radix2 (-22) = / 4194304) by reflexivity.
  assert (E30 : bpow radix2 (-30) = / 1073741824) by reflexivity.
  apply Rabs_le_inv in Her. assert (Hr : 0 < r) by (rewrite E53 in Her; lra).
  split; [exact Hr|]. split.
  { rewrite Erb at 1. replace (INR n * r - INR n * q) with (INR n * (r - q)) by ring. rewrite Rabs_mult, (Rabs_right (INR n)) by lra.
    rewrite Erb. replace (bpow radix2 (-53) * (INR n * q)) with (INR n * (bpow radix2 (-53) * q)) by ring.
    apply Rmult_le_compat_l; [lra|]. apply Rabs_le. exact Her. }
  unfold mag_set_d. set (e := (mag radix2 r : Z)).
  assert (He : bpow radix2 (e - 1) <= r < bpow radix2 e).
  { pose proof (bpow_mag_le radix2 r ltac:(lra)) as B1. pose proof (bpow_mag_gt radix2 r) as B2. rewrite (Rabs_right r) in B1, B2 by lra. split; assumption. }
  set (y := r * bpow radix2 (30 - e)). set (ys := q * bpow radix2 (30 - e)).
  assert (P : 0 < bpow radix2 (30 - e)) by apply bpow_gt_0.
  assert (Hy : 536870912 <= y < 1073741824).
  { split.
    - replace 536870912 with (bpow radix2 (e - 1) * bpow radix2 (30 - e)); [apply Rmult_le_compat_r; lra|].
      rewrite <- bpow_plus. replace (e - 1 + (30 - e))%Z with 29%Z by ring. reflexivity.
    - replace 1073741824 with (bpow radix2 e * bpow radix2 (30 - e)); [apply Rmult_lt_compat_r; lra|].
      rewrite <- bpow_plus. replace (e + (30 - e))%Z with 30%Z by ring. reflexivity. }
  assert (Hys : - (bpow radix2 (-53) * ys) <= y - ys <= bpow radix2 (-53) * ys).
  { unfold y, ys. destruct Her as [H1 H2]. split; nra. }
  rewrite E53 in Hys.
  assert (Ery : r = y * bpow radix2 (e - 30)).
  { unfold y. rewrite Rmult_assoc, <- bpow_plus. replace (30 - e + (e - 30))%Z with 0%Z by ring. cbn [bpow]. ring. }
  assert (Eqy : q = ys * bpow radix2 (e - 30)).
  { unfold ys. rewrite Rmult_assoc, <- bpow_plus. replace (30 - e + (e - 30))%Z with 0%Z by ring. cbn [bpow]. ring. }
  assert (P' : 0 < bpow radix2 (e - 30)) by apply bpow_gt_0.
  (* n ys is an integer *)
  assert (Eny : INR n * ys = IZR M * bpow radix2 (E + 30 - e)).
  { unfold ys. rewrite <- Rmult_assoc, <- Erb, Eb, Rmult_assoc, <- bpow_plus. f_equal. f_equal. ring. }
  assert (Hk : (0 <= E + 30 - e)%Z).
  { destruct (Z_lt_le_dec (E + 30 - e) 0) as [Hlt|]; [|assumption]. exfalso.
    assert (Hb : bpow radix2 (E + 30 - e) <= bpow radix2 (-1)) by (apply bpow_le; lia).
    assert (bpow radix2 (-1) = / 2) as Eh by reflexivity. rewrite Eh in Hb.
    assert (HMr : IZR M <= 1073741823) by (apply IZR_le; change (2 ^ 30)%Z with 1073741824%Z in HM; lia).
    assert (0 <= IZR M) by (apply IZR_le; lia). assert (0 < bpow radix2 (E + 30 - e)) by apply bpow_gt_0. nra. }
  assert (exists N : Z, INR n * ys = IZR N) as [N EN].
  { exists (M * 2 ^ (E + 30 - e))%Z. rewrite Eny, mult_IZR. f_equal. rewrite <- (IZR_Zpower radix2) by exact Hk. reflexivity. }
  set (j := Zfloor y). assert (Hj : IZR j <= y < IZR j + 1).
  { unfold j. split; [apply Zfloor_lb|]. pose proof (Zfloor_ub y). lra. }
  assert (Hjb : (2 ^ 29 <= j < 2 ^ 30)%Z).
  { split; [apply Zlt_succ_le; unfold Z.succ|]; apply lt_IZR; rewrite ?plus_IZR; change (2 ^ 29)%Z with 536870912%Z; change (2 ^ 30)%Z with 1073741824%Z; lra. }
  assert (Hgap : / INR n - bpow radix2 (-22) <= IZR j + 1 - y).
  { assert (Hi : INR n * / INR n = 1) by (field; lra).
    destruct (Rle_dec (INR n * ys) (INR n * (IZR j + 1) - 1)) as [Hle|Hgt].
    - assert (ys <= IZR j + 1 - / INR n) by nra. rewrite E22. lra.
    - exfalso. assert (HN : (INR n * (IZR j + 1) <= IZR N)).
      { rewrite INR_IZR_INZ, <- plus_IZR, <- mult_IZR in *. apply IZR_le. apply Rnot_le_lt in Hgt.
        rewrite EN in Hgt. rewrite <- minus_IZR in Hgt. apply lt_IZR in Hgt. lia. }
      assert (Hys1 : IZR j + 1 <= ys) by (apply (Rmult_le_reg_l (INR n)); lra).
      assert (Hround : IZR (j + 1) * bpow radix2 (e - 30) <= r).
      { rewrite <- (nearest_id 53 (j + 1) (e - 30)) by lia. unfold r, div_dbl. fold q. apply nearest_mono; [lia|].
        rewrite Eqy. apply Rmult_le_compat_r; [lra|]. rewrite plus_IZR. exact Hys1. }
      rewrite Ery in Hround. apply Rmult_le_reg_r in Hround; [|exact P']. rewrite plus_IZR in Hround. lra. }
  split.
  - rewrite plus_IZR. rewrite Ery at 1 2. replace ((IZR j + 1) * bpow radix2 (e - 30) - y * bpow radix2 (e - 30)) with ((IZR j + 1 - y) * bpow radix2 (e - 30)) by ring.
    eapply Rle_trans; [|apply Rmult_le_compat_r; [lra|exact Hgap]].
    replace ((/ INR n - bpow radix2 (-22)) * bpow radix2 (-30) * (y * bpow radix2 (e - 30)))
      with ((/ INR n - bpow radix2 (-22)) * bpow radix2 (e - 30) * (bpow radix2 (-30) * y)) by ring.
    rewrite <- (Rmult_1_r ((/ INR n - bpow radix2 (-22)) * bpow radix2 (e - 30))) at 2.
    apply Rmult_le_compat_l; [|rewrite E30; lra].
    apply Rmult_le_pos; [|lra]. assert (/ 32 <= / INR n) by (apply Rinv_le_contravar; lra). rewrite E22. lra.
  - destruct (Z.eq_dec (j + 1) (2 ^ 30)) as [Ej|Ej].
    + exists (2 ^ 29)%Z, (e - 29)%Z. split; [lia|]. rewrite Ej. replace (e - 29)%Z with (1 + (e - 30))%Z by ring. rewrite bpow_plus.
      change (bpow radix2 1) with 2. change (IZR (2 ^ 30)) with 1073741824. change (IZR (2 ^ 29)) with 536870912. ring.
    + exists (j + 1)%Z, (e - 30)%Z. split; [lia|reflexivity].
Qed.

Definition b22 : bpow radix2 (-22) = / 4194304 := eq_refl.
Definition b30 : bpow radix2 (-30) = / 1073741824 := eq_refl.
Definition b53 : bpow radix2 (-53) = / 9007199254740992 := eq_refl.
Definition b64 : bpow radix2 (-64) = / 18446744073709551616 := eq_refl.

(** the first middle *)
Lemma first_mid mb r n K : 0 < r -> (2 <= n <= 32)%nat -> Rabs mb <= K ->
  Rabs (mid_dbl 64 mb r n - (mb - (INR n - 1) * r)) <= / 2 ^ 53 * (INR n * r) + / 2 ^ 64 * (K + 2 * (INR n * r)).
Proof.
  intros Hr Hn HK.
  assert (Hn2 : 2 <= INR n <= 32).
  { split; [replace 2 with (INR 2) by (cbn [INR]; ring)|replace 32 with (INR 32) by (cbn [INR]; ring)]; apply le_INR; lia. }
  unfold mid_dbl. set (v := nearest 53 (r * (1 - INR n))). set (w := nearest 64 (v + mb)).
  assert (Hv : Rabs (v - r * (1 - INR n)) <= / 2 ^ 53 * ((INR n - 1) * r)).
  { pose proof (nearest_err 53 (r * (1 - INR n)) ltac:(lia)) as H. fold v in H. change (- (53))%Z with (-53)%Z in H. rewrite b53 in H.
    rewrite (Rabs_left1 (r * (1 - INR n))) in H by nra. lra. }
  assert (Hw : Rabs (w - (v + mb)) <= / 2 ^ 64 * Rabs (v + mb)).
  { pose proof (nearest_err 64 (v + mb) ltac:(lia)) as H. fold w in H. change (- (64))%Z with (-64)%Z in H. rewrite b64 in H. lra. }
  assert (Hvm : Rabs (v + mb) <= K + 2 * (INR n * r)).
  { apply Rabs_le_inv in Hv. apply Rabs_le_inv in HK. apply Rabs_le. nra. }
  apply Rabs_le_inv in Hv. apply Rabs_le_inv in Hw. apply Rabs_le. nra.
Qed.

Lemma covers_real b n K : is_mag (snd b) -> (2 <= n <= 32)%nat -> Rabs (fst b) <= K * snd b ->
  0 <= K -> INR n * INR n * K <= 4294967296 ->
  let '(t, step) := subdivide div_dbl (mid_dbl 64) mag_set_d b n in covers b t step n.
Proof.
  intros Hb Hn HK K0 HnK. destruct (slack (snd b) n Hb Hn) as (Hr & He & Hs & _).
  apply covers_rounded; [lia|lra|]. set (r := div_dbl (snd b) n) in *.
  pose proof (first_mid (fst b) r n (K * snd b) Hr Hn HK) as Hm.
  assert (Hn2 : 2 <= INR n <= 32).
  { split; [replace 2 with (INR 2) by (cbn [INR]; ring)|replace 32 with (INR 32) by (cbn [INR]; ring)]; apply le_INR; lia. }
  rewrite b22, b30 in Hs. rewrite b53 in He.
  eapply Rle_trans; [|exact Hs]. eapply Rle_trans; [apply Rplus_le_compat; [exact He|exact Hm]|].
  apply Rabs_le_inv in He. set (rb := snd b) in *.
  assert (Hrb : rb <= 101 / 100 * (INR n * r)) by lra.
  assert (Hrb0 : 0 < rb) by (apply is_mag_pos, Hb).
  set (c := / INR n). assert (Hc : INR n * c = 1) by (unfold c; field; lra).
  assert (Hc32 : / 32 <= c) by (unfold c; apply Rinv_le_contravar; lra).
  assert (Hnc : INR n <= 1024 * c) by lra.
  assert (HKn : INR n * K <= 4294967296 * c).
  { replace (INR n * K) with (INR n * INR n * K * c) by (replace (INR n * INR n * K * c) with (INR n * c * (INR n * K)) by ring; rewrite Hc; ring).
    apply Rmult_le_compat_r; lra. }
  assert (H1 : INR n * r <= 1024 * (c * r)) by nra.
  assert (H2 : K * rb <= 101 / 100 * 4294967296 * (c * r)).
  { apply Rle_trans with (101 / 100 * (INR n * K * r)); [nra|]. nra. }
  assert (H3 : r <= 32 * (c * r)) by nra.
  assert (H4 : 0 < c * r) by nra.
  replace ((c - / 4194304) * / 1073741824 * r) with (/ 1073741824 * (c * r) - / 4503599627370496 * r) by field.
  lra.
Qed.

(** ** recursion *)
Definition iter_add (add : ball -> R -> ball) (t : ball) (s : R) (k : nat) : ball := Nat.iter k (fun t => add t s) t.

Section Inv.
Variables (add_arf : ball -> R -> ball) (union : ball -> ball -> ball).
Variable f : ball -> option ball.
Variable accept : ball -> bool.
Variable F : R -> R.
Hypothesis Hf : encloses f F.
Hypothesis Hadd : sound_add add_arf.
Hypothesis Hunion : sound_union union.

Lemma iter_add_S t s k : iter_add add_arf t s (S k) = iter_add add_arf (add_arf t s) s k.
Proof.
  unfold iter_add. induction k as [|k IH]; [reflexivity|].
  change (add_arf (Nat.iter (S k) (fun t => add_arf t s) t) s = add_arf (Nat.iter k (fun t => add_arf t s) (add_arf t s)) s).
  rewrite IH. reflexivity.
Qed.

Lemma pieces_inv (Q : ball -> Prop) (sub : ball -> outcome ball) :
  (forall t m, Q t -> sub t = Done m -> forall x, inb x t -> inb (F x) m) ->
  forall todo t step m0 m, (forall k, (k < todo)%nat -> Q (iter_add add_arf t step k)) ->
    pieces add_arf union f accept sub t step todo m0 = Done m ->
    (forall x k, (k < todo)%nat -> inb (x - INR k * step) t -> exists y, m = Some y /\ inb (F x) y) /\
    (forall y0, m0 = Some y0 -> exists y, m = Some y /\ forall z, inb z y0 -> inb z y).
Proof using Hf Hadd Hunion.
  intros Hsub todo. induction todo as [|todo IH]; intros t step m0 m HQ E; cbn [pieces] in E.
  - injection E as <-. split; [intros; lia|]. intros y0 ->. exists y0. split; [reflexivity|auto].
  - destruct (match f t with Some y => if accept y then Done y else sub t | None => sub t end) as [abs| | |] eqn:Ea;
      cbn [bind] in E; try discriminate E.
    assert (Qt : Q t) by (apply (HQ O); lia).
    assert (Habs : forall x, inb x t -> inb (F x) abs).
    { intros x Hx. destruct (f t) as [y|] eqn:Ef.
      - destruct (accept y); [injection Ea as <-; exact (Hf t y Ef x Hx)|exact (Hsub t abs Qt Ea x Hx)].
      - exact (Hsub t abs Qt Ea x Hx). }
    destruct (IH _ _ _ _ (fun k Hk => eq_ind _ Q (HQ (S k) ltac:(lia)) _ (iter_add_S t step k)) E) as [H1 H2].
    destruct (H2 _ eq_refl) as (y & Ey & Hy). split.
    + intros x k Hk Hin. destruct k as [|k].
      * exists y. split; [exact Ey|]. apply Hy. cbn [INR] in Hin. rewrite Rmult_0_l, Rminus_0_r in Hin.
        destruct m0 as [m0|]; [apply Hunion; right|]; apply Habs; exact Hin.
      * apply (H1 x k); [lia|]. apply (Hadd _ step) in Hin. rewrite S_INR in Hin.
        replace (x - (INR k + 1) * step + step) with (x - INR k * step) in Hin by ring. exact Hin.
    + intros y0 ->. exists y. split; [exact Ey|]. intros z Hz. apply Hy, Hunion. left. exact Hz.
Qed.

Variables (div_d : R -> nat -> R) (mid_d : R -> R -> nat -> R) (mag_d : R -> R).
Variable P : nat -> nat -> ball -> Prop.
Hypothesis HP : forall depth n b, P (S depth) n b -> 0 < snd b ->
  let '(t, step) := subdivide div_d mid_d mag_d b n in
  covers b t step n /\ forall k, (k < n)%nat -> P depth 3 (iter_add add_arf t step k).
Lemma bound_inv depth : forall b n m, P depth n b ->
  bound_func div_d mid_d mag_d add_arf union f accept depth b n = Done m -> forall x, inb x b -> inb (F x) m.
Proof using Hf Hadd Hunion HP.
  induction depth as [|depth IH]; intros b n m Hb E x Hx; cbn [bound_func] in E.
  - destruct (Req_EM_T (snd b) 0); discriminate E.
  - destruct (Req_EM_T (snd b) 0) as [|Hs]; [discriminate E|].
    assert (Hp : 0 < snd b) by (destruct Hx; lra).
    pose proof (HP depth n b Hb Hp) as Hc. destruct (subdivide _ _ _ b n) as [t step].
    destruct (pieces _ _ _ _ _ t step n None) as [o| | |] eqn:Ep; cbn [bind] in E; try discriminate E.
    destruct o as [m'|]; [|discriminate E]. injection E as ->. destruct Hc as [Hc Hit].
    destruct (Hc x Hx) as (k & Hk & Hin).
    destruct (pieces_inv (P depth 3) (fun t => bound_func div_d mid_d mag_d add_arf union f accept depth t 3)
                (fun t m Q E x => IH t 3%nat m Q E x) n t step None (Some m) Hit Ep) as [H1 _].
    destruct (H1 x k Hk Hin) as (y & Ey & Hy). injection Ey as ->. exact Hy.
Qed.
End Inv.

(** the pieces of a ball with |mid| <= K rad have |mid| <= n (K + 5) rad *)
Lemma piece_ratio add b n K : good_add add -> is_mag (snd b) -> (2 <= n <= 32)%nat -> Rabs (fst b) <= K * snd b ->
  0 <= K -> INR n * INR n * K <= 4294967296 ->
  let '(t, step) := subdivide div_dbl (mid_dbl 64) mag_set_d b n in
  forall k, (k < n)%nat ->
    is_mag (snd (iter_add add t step k)) /\ Rabs (fst (iter_add add t step k)) <= INR n * (K + 5) * snd (iter_add add t step k).
Proof.
  intros [_ Hadd] Hb Hn HK K0 HnK. destruct (slack (snd b) n Hb Hn) as (Hr & He & Hs & Hmg).
  unfold subdivide. set (r := div_dbl (snd b) n) in *. set (rb := snd b) in *.
  pose proof (first_mid (fst b) r n (K * rb) Hr Hn HK) as Hm. set (mt := mid_dbl 64 (fst b) r n) in *.
  assert (Hn2 : 2 <= INR n <= 32).
  { split; [replace 2 with (INR 2) by (cbn [INR]; ring)|replace 32 with (INR 32) by (cbn [INR]; ring)]; apply le_INR; lia. }
  assert (Hrb0 : 0 < rb) by (apply is_mag_pos, Hb).
  rewrite b53 in He. apply Rabs_le_inv in He.
  assert (Hnr : 999 / 1000 * rb <= INR n * r <= 1001 / 1000 * rb) by lra.
  assert (Hrt : r <= mag_set_d r).
  { rewrite b22, b30 in Hs. assert (/ 32 <= / INR n) by (apply Rinv_le_contravar; lra). nra. }
  assert (HKb : K * rb <= 1073741824 * rb).
  { apply Rmult_le_compat_r; [lra|]. assert (4 <= INR n * INR n) by nra. nra. }
  assert (Hmt : Rabs mt <= K * rb + INR n * r + / 2 ^ 20 * rb).
  { apply Rabs_le_inv in HK. apply Rabs_le_inv in Hm. apply Rabs_le. assert (r <= INR n * r) by nra. lra. }
  assert (Hit : forall k, (k < n)%nat ->
    is_mag (snd (iter_add add (mt, mag_set_d r) (2 * r) k)) /\ mag_set_d r <= snd (iter_add add (mt, mag_set_d r) (2 * r) k) /\
    Rabs (fst (iter_add add (mt, mag_set_d r) (2 * r) k)) <= K * rb + INR n * r + 2 * INR k * r + INR (k + 1) * (/ 2 ^ 20 * rb)).
  { induction k as [|k IH]; intros Hk.
    - change (iter_add add (mt, mag_set_d r) (2 * r) 0) with (mt, mag_set_d r). cbn [fst snd INR Nat.add]. split; [exact Hmg|]. split; lra.
    - destruct (IH ltac:(lia)) as (I1 & I2 & I3). set (tk := iter_add add (mt, mag_set_d r) (2 * r) k) in *.
      change (iter_add add (mt, mag_set_d r) (2 * r) (S k)) with (add tk (2 * r)).
      destruct (Hadd tk (2 * r) I1) as (A1 & A2 & A3). split; [exact A1|]. split; [lra|].
      assert (Hk32 : 0 <= INR k /\ INR k + 1 <= INR n) by (split; [apply pos_INR|rewrite <- S_INR; apply le_INR; lia]).
      rewrite Nat.add_1_r in I3. rewrite Nat.add_1_r. rewrite !S_INR in *.
      set (X := K * rb + INR n * r + 2 * INR k * r + (INR k + 1) * (/ 2 ^ 20 * rb)) in *.
      assert (HX : Rabs (fst tk + 2 * r) <= X + 2 * r).
      { apply Rabs_le_inv in I3. apply Rabs_le. lra. }
      assert (HX2 : X + 2 * r <= 2147483648 * rb).
      { unfold X. assert (INR k * r <= INR n * r) by nra. assert ((INR k + 1) * (/ 2 ^ 20 * rb) <= 32 * (/ 2 ^ 20 * rb)) by nra. nra. }
      assert (A4 : Rabs (fst (add tk (2 * r)) - (fst tk + 2 * r)) <= / 2 ^ 20 * rb) by lra.
      apply Rabs_le_inv in A4. apply Rabs_le_inv in HX. apply Rabs_le. unfold X in *. lra. }
  intros k Hk. destruct (Hit k Hk) as (I1 & I2 & I3). split; [exact I1|].
  eapply Rle_trans; [exact I3|].
  assert (Hk32 : 0 <= INR k /\ INR k + 1 <= INR n) by (split; [apply pos_INR|rewrite <- S_INR; apply le_INR; lia]).
  rewrite Nat.add_1_r, S_INR.
  assert (INR k * r <= INR n * r) by nra.
  assert ((INR k + 1) * (/ 2 ^ 20 * rb) <= 32 * (/ 2 ^ 20 * rb)) by (apply Rmult_le_compat_r; lra).
  apply Rle_trans with (INR n * (K + 5) * r).
  - assert (HKn : K * rb <= 1001 / 1000 * (K * (INR n * r)) ) by nra.
    assert (HKn2 : K * rb <= K * (INR n * r) + rb / 100).
    { assert (K * rb - K * (INR n * r) <= rb / 100); [|lra].
      replace (K * rb - K * (INR n * r)) with (K * (rb - INR n * r)) by ring.
      apply Rle_trans with (K * (/ 9007199254740992 * rb)); [apply Rmult_le_compat_l; lra|]. nra. }
    replace (INR n * (K + 5) * r) with (K * (INR n * r) + 5 * (INR n * r)) by ring. lra.
  - apply Rmult_le_compat_l; [nra|lra].
Qed.

(** bound on the ratio allowed at each depth *)
Fixpoint deep_enough (depth : nat) (n K : Z) : bool :=
  match depth with
  | O => true
  | S depth => ((n * n * K <=? 4294967296) && deep_enough depth 3 (n * (K + 5)))%Z
  end.
Definition thick (depth n : nat) (b : ball) : Prop :=
  exists K, (0 <= K)%Z /\ deep_enough depth (Z.of_nat n) K = true /\ (2 <= n <= 32)%nat /\
    is_mag (snd b) /\ Rabs (fst b) <= IZR K * snd b.

Lemma thick_step add depth n b : good_add add -> thick (S depth) n b ->
  let '(t, step) := subdivide div_dbl (mid_dbl 64) mag_set_d b n in
  covers b t step n /\ forall k, (k < n)%nat -> thick depth 3 (iter_add add t step k).
Proof.
  intros Ha (K & K0 & Hd & Hn & Hb & HK). cbn [deep_enough] in Hd. apply andb_prop in Hd. destruct Hd as [Hd Hd'].
  apply Z.leb_le in Hd.
  assert (HnK : INR n * INR n * IZR K <= 4294967296) by (rewrite INR_IZR_INZ, <- !mult_IZR; apply IZR_le; exact Hd).
  assert (K0' : 0 <= IZR K) by (apply IZR_le; exact K0).
  pose proof (covers_real b n (IZR K) Hb Hn HK K0' HnK) as Hc.
  pose proof (piece_ratio add b n (IZR K) Ha Hb Hn HK K0' HnK) as Hp.
  destruct (subdivide _ _ _ b n) as [t step]. split; [exact Hc|]. intros k Hk. destruct (Hp k Hk) as [P1 P2].
  exists (Z.of_nat n * (K + 5))%Z. split; [lia|]. split; [exact Hd'|]. split; [lia|]. split; [exact P1|].
  rewrite mult_IZR, plus_IZR, <- INR_IZR_INZ. exact P2.
Qed.

Lemma deep_mono d : forall d' n K, (d' <= d)%nat -> deep_enough d n K = true -> deep_enough d' n K = true.
Proof.
  induction d as [|d IH]; intros d' n K Hd H; (destruct d' as [|d']; [reflexivity|]); [lia|]. cbn [deep_enough] in *.
  apply andb_prop in H. destruct H as [H1 H2]. rewrite H1. apply IH; [lia|exact H2].
Qed.

Lemma bound_real add union f accept F depth b m : encloses f F -> good_add add -> sound_union union ->
  (depth <= 14)%nat -> is_mag (snd b) -> Rabs (fst b) <= 2 * snd b ->
  bound_func div_dbl (mid_dbl 64) mag_set_d add union f accept depth b 30 = Done m -> forall x, inb x b -> inb (F x) m.
Proof.
  intros Hf Ha Hu Hd Hb HK. apply (bound_inv add union f accept F Hf (proj1 Ha) Hu div_dbl (mid_dbl 64) mag_set_d thick).
  - intros d n b' Hb' _. apply thick_step; assumption.
  - exists 2%Z. split; [lia|]. split; [apply (deep_mono 14); [exact Hd|vm_compute; reflexivity]|]. split; [lia|]. split; assumption.
Qed.

Lemma exact_add_good : good_add exact_add /\ is_mag 1 /\ Rabs 1 <= 2 * 1.
Proof.
  split; [|split].
  - split; [exact exact_add_sound|]. intros t s Ht. unfold exact_add. cbn [fst snd]. split; [exact Ht|]. split; [lra|].
    rewrite Rminus_diag_eq by reflexivity. rewrite Rabs_R0. apply Rmult_le_pos; [lra|apply Rabs_pos].
  - exists (2 ^ 29)%Z, (-29)%Z. split; [lia|]. change (bpow radix2 (-29)) with (/ 536870912). change (IZR (2 ^ 29)) with 536870912. field.
  - rewrite Rabs_right by lra. lra.
Qed.
