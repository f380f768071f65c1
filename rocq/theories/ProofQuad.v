From Verif Require Import CArg ModelTree ModelCurve ModelPeriod ModelVec SpecVec ProofEdge ProofVec ModelQuad SpecQuad.
Local Open Scope nat_scope.

(** ** the table of nodes *)
Lemma fst_root n k : 1 <= n -> fst (root (4 * Z.of_nat n) (Z.of_nat (2 * k + 1))) = gc_node n k.
Proof.
  intros Hn. unfold root, cis, gc_node. cbn [fst]. f_equal. rewrite mult_IZR, <- !INR_IZR_INZ. field.
  apply not_0_INR. lia.
Qed.
Lemma snd_root n k : 1 <= n -> k < n / 2 -> snd (root (4 * Z.of_nat n) (Z.of_nat (2 * k + 1 + n mod 2))) = gc_node n (n / 2 - k - 1).
Proof.
  intros Hn Hk. unfold root, cis, gc_node. cbn [snd]. rewrite <- cos_shift. f_equal.
  rewrite mult_IZR, <- !INR_IZR_INZ.
  replace (INR (2 * (n / 2 - k - 1) + 1)) with (INR n - INR (2 * k + 1 + n mod 2))%R.
  - field. apply not_0_INR. lia.
  - rewrite <- minus_INR.
    + f_equal. pose proof (Nat.div_mod n 2). lia.
    + pose proof (Nat.div_mod n 2). lia.
Qed.

Lemma rget_upd c i z j : i < length c -> rget (upd c i z) j = if j =? i then z else rget c j.
Proof. intros H. unfold rget. apply nth_upd, H. Qed.

Lemma cos_loop_spec n : 1 <= n -> let len := n / 2 in
  let x := vtab (len + 1) (fun k => root (4 * Z.of_nat n) (Z.of_nat k)) in
  forall todo k c, k + todo = len / 2 -> length c = len ->
    (forall i, i < k \/ len - k <= i < len -> rget c i = gc_node n i) ->
    exists c', cos_loop todo k len (n mod 2) x c = Done c' /\ length c' = len /\
      forall i, i < len / 2 \/ len - len / 2 <= i < len -> rget c' i = gc_node n i.
Proof.
  intros Hn len x. pose proof (Nat.div_mod n 2 ltac:(lia)) as Hd. pose proof (Nat.mod_upper_bound n 2 ltac:(lia)) as Hs.
  pose proof (Nat.div_mod len 2 ltac:(lia)) as Hd2. pose proof (Nat.mod_upper_bound len 2 ltac:(lia)) as Hs2.
  fold len in Hd.
  induction todo as [|todo IH]; intros k c Hk HL Hc; cbn [cos_loop].
  - exists c. conj; [reflexivity|exact HL|]. replace (len / 2) with k by lia. exact Hc.
  - assert (Hx : length x = len + 1) by (unfold x; apply vtab_length).
    unfold vread. rewrite Hx.
    rewrite (proj2 (Nat.ltb_lt (2 * k + 1) (len + 1))) by lia. cbn [bind].
    unfold rwrite at 1. rewrite HL, (proj2 (Nat.ltb_lt k len)) by lia. cbn [bind].
    rewrite (proj2 (Nat.ltb_lt (2 * k + 1 + n mod 2) (len + 1))) by lia. cbn [bind].
    rewrite (proj2 (Nat.ltb_ge len (k + 1))) by lia.
    unfold rwrite. rewrite upd_length, HL, (proj2 (Nat.ltb_lt (len - k - 1) len)) by lia. cbn [bind].
    apply IH; [lia|rewrite !upd_length; exact HL|].
    intros i Hi. rewrite rget_upd by (rewrite upd_length; lia). rewrite rget_upd by lia.
    unfold x. rewrite !vget_tab by lia.
    destruct (Nat.eqb_spec i (len - k - 1)) as [->|H1].
    + unfold len. apply snd_root; [exact Hn|fold len; lia].
    + destruct (Nat.eqb_spec i k) as [->|H2].
      * apply fst_root, Hn.
      * apply Hc. lia.
Qed.

Lemma gc_table n : 1 <= n -> exists c, gc_int_init n = Done c /\ length c = n / 2 /\ forall k, k < n / 2 -> rget c k = gc_node n k.
Proof.
  intros Hn. unfold gc_int_init. rewrite (proj2 (Nat.eqb_neq n 0)) by lia. unfold vec_cos_pi.
  pose proof (Nat.div_mod n 2 ltac:(lia)) as Hd. pose proof (Nat.mod_upper_bound n 2 ltac:(lia)) as Hs.
  pose proof (Nat.div_mod (n / 2) 2 ltac:(lia)) as Hd2. pose proof (Nat.mod_upper_bound (n / 2) 2 ltac:(lia)) as Hs2.
  pose proof (Nat.div_mod n 4 ltac:(lia)) as Hd4. pose proof (Nat.mod_upper_bound n 4 ltac:(lia)) as Hs4.
  destruct (cos_loop_spec n Hn (n / 2 / 2) 0 (repeat 0%R (n / 2))) as (c & E & HL & Hc).
  { lia. } { apply repeat_length. } { intros i Hi. lia. }
  set (x := vtab (n / 2 + 1) _) in *. assert (Hx : length x = n / 2 + 1) by (unfold x; apply vtab_length).
  unfold vec in *. rewrite E. cbn [bind].
  destruct (Nat.leb_spec 2 (n mod 4)) as [H4|H4].
  - unfold vread. rewrite Hx, (proj2 (Nat.ltb_lt (n / 2) (n / 2 + 1))) by lia. cbn [bind].
    unfold rwrite. rewrite HL, (proj2 (Nat.ltb_lt (n / 4) (n / 2))) by lia.
    eexists. conj; [reflexivity|rewrite upd_length; exact HL|]. intros k Hk. rewrite rget_upd by lia.
    destruct (Nat.eqb_spec k (n / 4)) as [->|Hne].
    + unfold x. rewrite vget_tab by lia. replace (n / 2) with (2 * (n / 4) + 1) by lia. apply fst_root, Hn.
    + apply Hc. lia.
  - exists c. conj; [reflexivity|exact HL|]. intros k Hk. apply Hc. lia.
Qed.

(** ** symmetry of the nodes *)
Lemma gc_node_sym n k : 1 <= n -> k < n -> gc_node n (n - 1 - k) = (- gc_node n k)%R.
Proof.
  intros Hn Hk. unfold gc_node.
  replace (INR (2 * (n - 1 - k) + 1) * PI / (2 * INR n))%R with (- (INR (2 * k + 1) * PI / (2 * INR n)) + PI)%R.
  - rewrite neg_cos, cos_neg. reflexivity.
  - replace (2 * (n - 1 - k) + 1) with (2 * n - (2 * k + 1)) by lia. rewrite (minus_INR (2 * n)) by lia.
    rewrite (mult_INR 2 n). change (INR 2) with 2%R. field. apply not_0_INR. lia.
Qed.
Lemma gc_node_mid n : n mod 2 = 1 -> gc_node n (n / 2) = 0%R.
Proof.
  intros Hn. unfold gc_node. replace (2 * (n / 2) + 1) with n by (pose proof (Nat.div_mod n 2); lia).
  replace (INR n * PI / (2 * INR n))%R with (PI / 2)%R; [apply cos_PI2|]. field. apply not_0_INR. intros ->. discriminate.
Qed.

(** ** the sums *)
Definition filled (res : vec) (g : nat) (f : nat -> C) : Prop := length res = g /\ forall l, l < g -> vget res l = f l.

Lemma gc_nodes_spec y g : 1 <= g -> forall xs res f, filled res g f ->
  exists res', gc_nodes y g xs res = Done res' /\
    filled res' g (fun l => f l + clsum (fun x => cpow (RtoC x) l / y x + cpow (RtoC (- x)) l / y (- x)%R)%C xs)%C.
Proof.
  intros Hg. induction xs as [|x xs IH]; intros res f [HL Hf]; cbn [gc_nodes].
  - exists res. split; [reflexivity|]. split; [exact HL|]. intros l Hl. rewrite Hf by exact Hl. unfold clsum. cbn [fold_right]. ring.
  - destruct (geom_spec (fun a c0 _ => (a + c0)%C) res 0 g (/ y x)%C (RtoC x) Hg) as (r1 & E1 & HL1 & Hin1 & _); [lia|].
    destruct (geom_spec (fun a c0 _ => (a + c0)%C) r1 0 g (/ y (- x)%R)%C (RtoC (- x)) Hg) as (r2 & E2 & HL2 & Hin2 & _); [lia|].
    unfold add_geom. rewrite E1. cbn [bind fst]. rewrite E2. cbn [bind fst].
    destruct (IH r2 (fun l => f l + (cpow (RtoC x) l / y x + cpow (RtoC (- x)) l / y (- x)%R))%C) as (r3 & E3 & HL3 & Hin3).
    + split; [lia|]. intros l Hl. cbn [Nat.add] in *. rewrite Hin2, Hin1, Hf by exact Hl. unfold Cdiv. ring.
    + exists r3. split; [exact E3|]. split; [exact HL3|]. intros l Hl. rewrite Hin3 by exact Hl. unfold clsum. cbn [fold_right]. ring.
Qed.

Lemma clsum_table (f : R -> C) (d : R) xs : clsum f xs = csum (length xs) (fun k => f (nth k xs d)).
Proof.
  induction xs as [|x xs IH]; [reflexivity|]. unfold clsum in *. cbn [fold_right length]. rewrite csum_S_l. cbn [nth]. rewrite IH. reflexivity.
Qed.

(** half of the terms and their mirror images *)
Lemma csum_fold n (f : nat -> C) :
  csum n f = (csum (n / 2) (fun k => f k + f (n - 1 - k)%nat) + (if n mod 2 =? 0 then RtoC 0 else f (n / 2)%nat))%C.
Proof.
  pose proof (Nat.div_mod n 2 ltac:(lia)) as Hd. pose proof (Nat.mod_upper_bound n 2 ltac:(lia)) as Hs.
  rewrite csum_add. set (p := n / 2) in *.
  destruct (Nat.eqb_spec (n mod 2) 0) as [E|E].
  - replace n with (p + p) at 1 by lia. rewrite csum_app.
    rewrite <- (csum_rev p (fun k => f (p + k)%nat)).
    rewrite (csum_ext p (fun k => f (p + (p - 1 - k))%nat) (fun k => f (n - 1 - k)%nat)); [ring|].
    intros k Hk. f_equal. lia.
  - replace n with (p + (1 + p)) at 1 by lia. rewrite csum_app, csum_app. cbn [csum].
    rewrite <- (csum_rev p (fun k => f (p + (1 + k))%nat)).
    rewrite (csum_ext p (fun k => f (p + (1 + (p - 1 - k)))%nat) (fun k => f (n - 1 - k)%nat)).
    + rewrite Nat.add_0_r. ring.
    + intros k Hk. f_equal. lia.
Qed.

Lemma gc_sums y y0 g n : 1 <= n -> 1 <= g -> y0 = y 0%R ->
  exists res, gc_integrals y y0 g n = Done res /\ length res = g /\
    forall l, l < g -> vget res l = gc_rule n (fun t => cpow (RtoC t) l / y t)%C.
Proof.
  intros Hn Hg ->. unfold gc_integrals. destruct (gc_table n Hn) as (xs & E & HLx & Hx). rewrite E. cbn [bind].
  unfold gc_integrals_precomp.
  destruct (gc_nodes_spec y g Hg xs (vtab g (fun _ => RtoC 0)) (fun _ => RtoC 0)) as (r1 & E1 & HL1 & Hr1).
  { split; [apply vtab_length|]. intros l Hl. apply vget_tab, Hl. }
  unfold vec in *. rewrite E1. cbn [bind].
  set (mid := fun l : nat => if n mod 2 =? 0 then RtoC 0 else (cpow (RtoC 0) l / y 0%R)%C).
  assert (H2 : exists r2, (if n mod 2 =? 0 then Done r1 else do a <- vread r1 0; vwrite r1 0 (a + / y 0%R)%C) = Done r2 /\
     filled r2 g (fun l => vget r1 l + mid l)%C).
  { unfold mid. destruct (Nat.eqb_spec (n mod 2) 0) as [En|En].
    - exists r1. split; [reflexivity|]. split; [exact HL1|]. intros l Hl. ring.
    - unfold vread, vwrite. rewrite HL1, (proj2 (Nat.ltb_lt 0 g)) by lia. cbn [bind]. eexists. split; [reflexivity|].
      split; [rewrite upd_length; exact HL1|]. intros l Hl. rewrite vget_upd by lia. destruct (Nat.eqb_spec l 0) as [->|Hne].
      + cbn [cpow]. unfold Cdiv. ring.
      + replace l with (S (l - 1)) by lia. rewrite cpow_zero. unfold Cdiv. ring. }
  destruct H2 as (r2 & E2 & HL2 & Hr2). unfold vec in *. rewrite E2. cbn [bind].
  destruct (scalar_mul_spec r2 0 g (RtoC (PI / INR n))) as (r3 & E3 & HL3 & Hin3 & _); [lia|].
  exists r3. conj; [exact E3|congruence|]. intros l Hl. cbn [Nat.add] in Hin3. rewrite Hin3, Hr2, Hr1 by exact Hl.
  unfold gc_rule. rewrite csum_fold. rewrite Cmult_comm. f_equal. rewrite (clsum_table _ 0%R), HLx.
  rewrite (csum_ext (n / 2) (fun k => cpow (RtoC (gc_node n k)) l / y (gc_node n k) + cpow (RtoC (gc_node n (n - 1 - k))) l / y (gc_node n (n - 1 - k)))%C
     (fun k => cpow (RtoC (nth k xs 0%R)) l / y (nth k xs 0%R) + cpow (RtoC (- nth k xs 0%R)) l / y (- nth k xs 0)%R)%C).
  - unfold mid. destruct (Nat.eqb_spec (n mod 2) 0) as [En|En]; [ring|].
    rewrite gc_node_mid by (pose proof (Nat.mod_upper_bound n 2); lia). ring.
  - intros k Hk. fold (rget xs k). rewrite Hx by exact Hk.
    rewrite gc_node_sym; [reflexivity|exact Hn|]. pose proof (Nat.div_mod n 2). lia.
Qed.
