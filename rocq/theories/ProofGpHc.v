(** Lemmas for C111. *)
From Verif Require Import CArg ModelGpHc SpecGpHc.
Local Open Scope R_scope.

Lemma lsum_ext n f h : (forall k, (k < n)%nat -> f k = h k) -> lsum n f = lsum n h.
Proof. induction n as [|n IH]; intros H; cbn; [reflexivity|]. rewrite IH, H by (intros; try apply H; lia). reflexivity. Qed.
Lemma lsum_scal n c f : lsum n (fun k => c * f k) = c * lsum n f.
Proof. induction n as [|n IH]; cbn; [ring|]. rewrite IH. ring. Qed.
Lemma lsum_add n f h : lsum n (fun k => f k + h k) = lsum n f + lsum n h.
Proof. induction n as [|n IH]; cbn; [ring|]. rewrite IH. ring. Qed.
Lemma lsum_0 n : lsum n (fun _ => 0) = 0.
Proof. induction n as [|n IH]; cbn; [reflexivity|]. rewrite IH. ring. Qed.
Lemma lsum_swap n m (f : nat -> nat -> R) : lsum n (fun i => lsum m (fun j => f i j)) = lsum m (fun j => lsum n (fun i => f i j)).
Proof. induction n as [|n IH]; cbn; [symmetry; apply lsum_0|]. rewrite IH, <- lsum_add. reflexivity. Qed.
Lemma lsum_pick n i f : (i < n)%nat -> lsum n (fun k => f k * (if (i =? k)%nat then 1 else 0)) = f i.
Proof.
  induction n as [|n IH]; intros Hi; [lia|]. cbn. destruct (Nat.eqb_spec i n) as [->|N].
  - rewrite (lsum_ext n _ (fun _ => 0)), lsum_0; [ring|]. intros k Hk. destruct (Nat.eqb_spec n k); [lia|ring].
  - rewrite IH by lia. ring.
Qed.

(** frac *)
Lemma frac_unique r t : 0 <= t < 1 -> integral (r - t) -> frac_part r = t.
Proof.
  intros Ht [n E]. destruct (base_fp r) as [F0 F1]. unfold frac_part in *. set (m := Int_part r) in *.
  assert (D : IZR (n - m) = (r - IZR m) - t) by (rewrite minus_IZR; lra).
  assert (-1 < IZR (n - m) < 1) by lra. destruct H as [H0 H1]. apply lt_IZR in H0. apply lt_IZR in H1.
  assert (Z0 : (n - m)%Z = 0%Z) by lia. rewrite Z0 in D. lra.
Qed.
Lemma frac_range r : 0 <= frac_part r < 1.
Proof. destruct (base_fp r). lra. Qed.
Lemma frac_int r : integral (r - frac_part r).
Proof. exists (Int_part r). unfold frac_part. lra. Qed.
Lemma integral_add a b : integral a -> integral b -> integral (a + b).
Proof. intros [n ->] [m ->]. exists (n + m)%Z. now rewrite plus_IZR. Qed.
Lemma integral_opp a : integral a -> integral (- a).
Proof. intros [n ->]. exists (- n)%Z. now rewrite opp_IZR. Qed.

(** the coordinates are found *)
Lemma coords_ok g Om P t z i : reduces g Om P -> coordinates g Om t z -> (i < 2 * g)%nat -> lsum (2 * g) (fun l => P i l * real_coords g z l) = t i.
Proof.
  intros R0 H Hi.
  rewrite (lsum_ext _ _ (fun l => lsum (2 * g) (fun j => t j * (P i l * real_coords g (fun k => Om k j) l)))).
  - rewrite lsum_swap. rewrite (lsum_ext _ _ (fun j => t j * (if (i =? j)%nat then 1 else 0))); [apply lsum_pick; exact Hi|].
    intros j Hj. rewrite lsum_scal, R0 by assumption. reflexivity.
  - intros l Hl. rewrite (lsum_ext _ _ (fun j => P i l * (t j * real_coords g (fun k => Om k j) l))) by (intros; ring). rewrite lsum_scal. f_equal.
    unfold real_coords. destruct (Nat.ltb_spec l g); [exact (proj1 (H l ltac:(lia)))|exact (proj2 (H (l - g)%nat ltac:(lia)))].
Qed.
Lemma mod_ok g Om P t z : reduces g Om P -> coordinates g Om t z ->
  forall i, (i < 2 * g)%nat -> 0 <= hcModABlattice g P z i < 1 /\ integral (t i - hcModABlattice g P z i).
Proof. intros R0 H i Hi. unfold hcModABlattice. rewrite (coords_ok g Om P t z i R0 H Hi). split; [apply frac_range|apply frac_int]. Qed.

(** ** the choice *)
Lemma loop_ok t3 n tau : forall todo i bi bt, (i + todo = n)%nat ->
  (match bi with Some b => (b < i)%nat /\ bt = path_value t3 b n /\ 0 < bt | None => bt = 0 end) -> (forall j, (j < i)%nat -> path_value t3 j n <= bt) ->
  match path_loop t3 n tau todo i bi bt with
  | Done b => (b < n)%nat /\ 0 < path_value t3 b n /\ (tau < path_value t3 b n \/ forall j, (j < n)%nat -> path_value t3 j n <= path_value t3 b n)
  | Fault _ => tau < 0 \/ forall j, (j < n)%nat -> path_value t3 j n <= 0
  | _ => False
  end.
Proof.
  induction todo as [|todo IH]; intros i bi bt Hn Hb Hm; cbn [path_loop].
  - assert (i = n) by lia. subst i. destruct bi as [b|].
    + destruct Hb as [B1 [B2 B3]]. subst bt. split; [lia|]. split; [exact B3|]. right. exact Hm.
    + subst bt. right. exact Hm.
  - set (v := path_value t3 i n). destruct (Rlt_dec bt v) as [L|L].
    + assert (0 < v) by (destruct bi as [b|]; [destruct Hb as [_ [_ ?]]|]; lra).
      destruct (Rlt_dec tau v) as [T|T].
      * split; [lia|]. split; [assumption|]. left. exact T.
      * apply IH; [lia| |].
        -- split; [lia|]. split; [reflexivity|assumption].
        -- intros j Hj. destruct (Nat.eq_dec j i) as [->|N]; [fold v; lra|]. pose proof (Hm j ltac:(lia)). lra.
    + destruct (Rlt_dec tau bt) as [T|T].
      * destruct bi as [b|].
        -- destruct Hb as [B1 [B2 B3]]. subst bt. split; [lia|]. split; [exact B3|]. left. exact T.
        -- subst bt. left. exact T.
      * apply IH; [lia| |].
        -- destruct bi as [b|]; [destruct Hb as [B1 B2]; split; [lia|exact B2]|exact Hb].
        -- intros j Hj. destruct (Nat.eq_dec j i) as [->|N]; [fold v; lra|]. apply Hm. lia.
Qed.
Lemma path_value_ok t3 i n : path_value t3 i n <= 4 /\ (forall k, (k < n)%nat -> k <> i -> path_value t3 i n <= t3 i k) /\
  (path_value t3 i n = 4 \/ exists k, (k < n)%nat /\ k <> i /\ path_value t3 i n = t3 i k).
Proof.
  induction n as [|n [H1 [H2 H3]]]; cbn [path_value].
  - split; [lra|]. split; [intros; lia|now left].
  - destruct (Nat.eqb_spec n i) as [->|N].
    + split; [exact H1|]. split; [intros k Hk Hne; apply H2; lia|]. destruct H3 as [H3|[k [K1 K2]]]; [now left|right; exists k; split; [lia|exact K2]].
    + split; [pose proof (Rmin_l (path_value t3 i n) (t3 i n)); lra|]. split.
      * intros k Hk Hne. destruct (Nat.eq_dec k n) as [->|]; [apply Rmin_r|]. pose proof (Rmin_l (path_value t3 i n) (t3 i n)). pose proof (H2 k ltac:(lia) Hne). lra.
      * unfold Rmin. destruct (Rle_dec _ _); [destruct H3 as [H3|[k [K1 K2]]]; [now left|right; exists k; split; [lia|exact K2]]|right; exists n; repeat split; [lia|exact N]].
Qed.
Lemma find_root_ok A x : match find_root A x with
  | Some i => (i < length A)%nat /\ nth i A (RtoC 0) = x
  | None => ~ In x A end.
Proof.
  induction A as [|a A IH]; cbn [find_root]; [intros []|]. destruct (Ceq_dec x a) as [->|N]; [cbn; split; [lia|reflexivity]|].
  destruct (find_root A x) as [i|]; cbn [option_map].
  - destruct IH as [I1 I2]. cbn. split; [lia|exact I2].
  - intros [E|I]; [now apply N|now apply IH].
Qed.
