(** Functions on matrices of discs that meet the contract of SpecBallTau: systems with one or two
    equations whose matrix is made of points, and systems with one equation on discs.  The other
    systems are given up, which the contract allows. *)
From Coq Require Import Reals Lra Lia List.
From Coquelicot Require Import Coquelicot.
From Verif Require Import CArg ModelBall SpecBall ModelBallTau SpecBallTau ProofMid ProofBallTau.
Import ListNotations.
Local Open Scope R_scope.

(** quotient of two discs, the second away from 0 *)
Definition d_over (X Y : disc) : option disc :=
  match X, Y with
  | Some (c, r), Some (c', r') => if Rlt_dec r' (Cmod c') then Some (Some ((c / c')%C, (Cmod c * r' + Cmod c' * r) / (Cmod c' * (Cmod c' - r')))) else None
  | None, Some (c', r') => if Rlt_dec r' (Cmod c') then Some None else None
  | _, None => None
  end.
Lemma d_over_mem X Y Z x y : d_over X Y = Some Z -> disc_mem X x -> disc_mem Y y -> y <> RtoC 0 /\ disc_mem Z (x / y)%C.
Proof.
  assert (N : forall c' r', r' < Cmod c' -> Cmod (y - c')%C <= r' -> 0 < Cmod c' /\ Cmod c' - r' <= Cmod y).
  { intros c' r' H1 H2. assert (G := Cmod_ge_0 (y - c')%C). split; [lra|].
    assert (T := Cmod_triangle y (- (y - c'))%C). replace (y + - (y - c'))%C with c' in T by ring. rewrite Cmod_opp in T. lra. }
  destruct X as [[c r]|], Y as [[c' r']|]; cbn; try discriminate; destruct (Rlt_dec r' (Cmod c')) as [L|]; try discriminate; intro E; injection E as <-; intros HX HY.
  - destruct (N c' r' L HY) as [N1 N2]. assert (Hy : 0 < Cmod y) by lra.
    assert (Hy0 : y <> RtoC 0) by (intros ->; rewrite Cmod_0 in Hy; lra).
    assert (Hc0 : c' <> RtoC 0) by (intros ->; rewrite Cmod_0 in N1; lra).
    split; [exact Hy0|]. cbn.
    replace (x / y - c / c')%C with (((x - c) * c' + - (c * (y - c'))) / (y * c'))%C by (field; now split).
    rewrite Cmod_div by (now apply Cmult_neq_0). rewrite Cmod_mult.
    assert (B : Cmod ((x - c) * c' + - (c * (y - c')))%C <= Cmod c * r' + Cmod c' * r).
    { eapply Rle_trans; [apply Cmod_triangle|]. rewrite Cmod_opp, !Cmod_mult.
      assert (H1 := Rmult_le_compat_r (Cmod c') _ _ (Cmod_ge_0 c') HX). assert (H2 := Rmult_le_compat_l (Cmod c) _ _ (Cmod_ge_0 c) HY). lra. }
    assert (D : 0 < Cmod c' * (Cmod c' - r')) by (apply Rmult_lt_0_compat; lra).
    apply Rmult_le_compat; [apply Cmod_ge_0|apply Rlt_le, Rinv_0_lt_compat; rewrite (Rmult_comm (Cmod y)); now apply Rmult_lt_0_compat|exact B|].
    apply Rinv_le_contravar; [exact D|]. rewrite (Rmult_comm (Cmod y)). apply Rmult_le_compat_l; lra.
  - destruct (N c' r' L HY) as [N1 N2]. split; [intros ->; rewrite Cmod_0 in N2; lra|exact I].
Qed.

Definition centre (X : disc) : option C := match X with Some (c, r) => if Req_EM_T r 0 then Some c else None | None => None end.
Lemma centre_mem X c x : centre X = Some c -> disc_mem X x -> x = c.
Proof. destruct X as [[c' r]|]; cbn; [|discriminate]. destruct (Req_EM_T r 0) as [->|]; [|discriminate]. intros E H. injection E as <-. now apply Cmod_zero_eq. Qed.

Notation dmat := (list (list disc)).
Definition dent (X : dmat) (i j : nat) : disc := nth j (nth i X []) (point (RtoC 0)).
(** one equation *)
Fixpoint over_row (Y : disc) (l : list disc) : option (list disc) :=
  match l with
  | [] => Some []
  | X :: l => match d_over X Y, over_row Y l with Some Z, Some r => Some (Z :: r) | _, _ => None end
  end.
(** two equations: Cramer's rule *)
Definition cramer (a b c d u v : C) : C * C := (((d * u - b * v) / (a * d - b * c))%C, ((a * v - c * u) / (a * d - b * c))%C).
Definition d_solve (n m : nat) (X Y : dmat) : option dmat :=
  match n with
  | 0 => Some []
  | 1 => match over_row (dent X 0 0) (map (dent Y 0) (seq 0 m)) with Some r => Some [r] | None => None end
  | 2 =>
      match centre (dent X 0 0), centre (dent X 0 1), centre (dent X 1 0), centre (dent X 1 1) with
      | Some a, Some b, Some c, Some d =>
          if Ceq_dec (a * d - b * c)%C (RtoC 0) then None
          else
            let f (j : nat) : disc * disc :=
              match centre (dent Y 0 j), centre (dent Y 1 j) with
              | Some u, Some v => let r := cramer a b c d u v in (point (fst r), point (snd r))
              | _, _ => (None, None)
              end in
            Some [map (fun j => fst (f j)) (seq 0 m); map (fun j => snd (f j)) (seq 0 m)]
      | _, _, _, _ => None
      end
  | _ => None
  end%nat.
(** sum of products *)
Fixpoint d_dot (k : nat) (f g : nat -> disc) : disc :=
  match k with O => point (RtoC 0) | S k => d_add (d_dot k f g) (d_mul (f k) (g k)) end.
Definition d_matmul (n k m : nat) (X Y : dmat) : dmat := bmat_tab discs n m (fun i j => d_dot k (fun l => dent X i l) (fun l => dent Y l j)).
(** a decomposition of a matrix is the matrix, for one or two equations that can be solved *)
Definition d_lu (n : nat) (X : dmat) : option dmat := match d_solve n 1 X [] with Some _ => Some X | None => None end.
Definition d_join (X Y : disc) : disc := match X, Y with Some (c, r), Some (c', r') => Some ((fst c, fst c'), r + r') | _, _ => None end.
Definition d_mats : mats discs := Build_mats discs dmat (fun _ => d_lu)
  (fun _ n m X Y => match d_solve n m X Y with Some Z => bmat_tab discs n m (fun i j => d_re (dent Z i j)) | None => bmat_tab discs n m (fun _ _ => None) end)
  (fun _ => d_solve) (fun _ => d_matmul) (fun _ _ _ => None) (fun _ _ _ => []) d_re d_im d_join (point (0, 1)).

Lemma nth_tab {T} (f : nat -> T) m j d : (j < m)%nat -> nth j (map f (seq 0 m)) d = f j.
Proof. intro H. rewrite (nth_indep _ d (f m)) by (rewrite map_length, seq_length; exact H). rewrite map_nth, seq_nth by exact H. reflexivity. Qed.
Lemma over_row_nth Y l r : over_row Y l = Some r -> forall j, (j < length l)%nat -> d_over (nth j l (point (RtoC 0))) Y = Some (nth j r (point (RtoC 0))).
Proof.
  revert r. induction l as [|X l IH]; intros r; cbn; [intros _ j Hj; lia|].
  destruct (d_over X Y) as [Z|] eqn:E; [|discriminate]. destruct (over_row Y l) as [r'|]; [|discriminate]. intro H. injection H as <-.
  intros [|j] Hj; [exact E|]. cbn [nth]. apply IH; [reflexivity|lia].
Qed.
Lemma d_dot_mem k (F G : nat -> disc) f g : (forall l, (l < k)%nat -> disc_mem (F l) (f l) /\ disc_mem (G l) (g l)) -> disc_mem (d_dot k F G) (sumC k (fun l => f l * g l))%C.
Proof.
  induction k as [|k IH]; intro H; cbn [d_dot sumC]; [apply point_mem|].
  apply (s_add discs disc_mem discs_sound 0%Z); [apply IH; intros; apply H; lia|].
  destruct (H k ltac:(lia)) as [H1 H2]. now apply (s_mul discs disc_mem discs_sound 0%Z).
Qed.

Lemma d_solve_mem n m X Y Z a b : (0 < m)%nat -> d_solve n m X Y = Some Z -> enc (A := discs) disc_mem n n X a -> enc (A := discs) disc_mem n m Y b ->
  nonsingular n a /\ exists x, enc (A := discs) disc_mem n m Z x /\ solves n m a x b.
Proof.
  intros Hm E HX HY. destruct n as [|[|[|n]]]; [| | |discriminate].
  - split; [intros v _ k Hk; lia|]. exists (fun _ _ => RtoC 0). split; intros i j Hi; lia.
  - cbn [d_solve] in E. destruct (over_row _ _) as [r|] eqn:Er; [|discriminate]. injection E as <-.
    assert (D : forall j, (j < m)%nat -> d_over (dent Y 0 j) (dent X 0 0) = Some (nth j r (point (RtoC 0)))).
    { intros j Hj. assert (H := over_row_nth _ _ _ Er j). rewrite map_length, seq_length in H. specialize (H Hj). now rewrite nth_tab in H. }
    assert (H0 := HX 0%nat 0%nat ltac:(lia) ltac:(lia)).
    assert (Na : a 0%nat 0%nat <> RtoC 0) by exact (proj1 (d_over_mem _ _ _ _ _ (D 0%nat Hm) (HY 0%nat 0%nat ltac:(lia) Hm) H0)).
    split.
    + intros v Hv k Hk. assert (k = 0)%nat as -> by lia. specialize (Hv 0%nat ltac:(lia)). cbn in Hv. rewrite Cplus_0_l in Hv.
      destruct (Ceq_dec (v 0%nat) (RtoC 0)) as [|N]; [assumption|]. exfalso. exact (Cmult_neq_0 _ _ Na N Hv).
    + exists (fun _ j => b 0%nat j / a 0%nat 0%nat)%C. split.
      * intros i j Hi Hj. assert (i = 0)%nat as -> by lia. exact (proj2 (d_over_mem _ _ _ _ _ (D j Hj) (HY 0%nat j ltac:(lia) Hj) H0)).
      * intros i j Hi Hj. assert (i = 0)%nat as -> by lia. cbn. field. exact Na.
  - cbn [d_solve] in E.
    destruct (centre (dent X 0 0)) as [c00|] eqn:E00; [|discriminate]. destruct (centre (dent X 0 1)) as [c01|] eqn:E01; [|discriminate].
    destruct (centre (dent X 1 0)) as [c10|] eqn:E10; [|discriminate]. destruct (centre (dent X 1 1)) as [c11|] eqn:E11; [|discriminate].
    assert (A00 := centre_mem _ _ _ E00 (HX 0%nat 0%nat ltac:(lia) ltac:(lia))). assert (A01 := centre_mem _ _ _ E01 (HX 0%nat 1%nat ltac:(lia) ltac:(lia))).
    assert (A10 := centre_mem _ _ _ E10 (HX 1%nat 0%nat ltac:(lia) ltac:(lia))). assert (A11 := centre_mem _ _ _ E11 (HX 1%nat 1%nat ltac:(lia) ltac:(lia))).
    destruct (Ceq_dec _ _) as [|N]; [discriminate|]. injection E as <-. split.
    + intros v Hv. assert (H0 := Hv 0%nat ltac:(lia)). assert (H1 := Hv 1%nat ltac:(lia)). cbn [sumC] in H0, H1. rewrite A00, A01 in H0. rewrite A10, A11 in H1.
      assert (V0 : v 0%nat = RtoC 0).
      { replace (v 0%nat) with ((c11 * (RtoC 0 + c00 * v 0%nat + c01 * v 1%nat) - c01 * (RtoC 0 + c10 * v 0%nat + c11 * v 1%nat)) / (c00 * c11 - c01 * c10))%C by (field; exact N).
        rewrite H0, H1. field. exact N. }
      assert (V1 : v 1%nat = RtoC 0).
      { replace (v 1%nat) with ((c00 * (RtoC 0 + c10 * v 0%nat + c11 * v 1%nat) - c10 * (RtoC 0 + c00 * v 0%nat + c01 * v 1%nat)) / (c00 * c11 - c01 * c10))%C by (field; exact N).
        rewrite H0, H1. field. exact N. }
      intros k Hk. assert (k = 0 \/ k = 1)%nat as [-> | ->] by lia; assumption.
    + exists (fun i j => let r := cramer c00 c01 c10 c11 (b 0%nat j) (b 1%nat j) in if Nat.eqb i 0 then fst r else snd r). split.
      * intros i j Hi Hj. assert (i = 0 \/ i = 1)%nat as [-> | ->] by lia; unfold bent; cbn [nth Nat.eqb discs b_zero].
        -- rewrite nth_tab by exact Hj. destruct (centre (dent Y 0 j)) as [u|] eqn:Eu; [|exact I]. destruct (centre (dent Y 1 j)) as [v|] eqn:Ev; [|exact I].
           rewrite (centre_mem _ _ _ Eu (HY 0%nat j ltac:(lia) Hj)), (centre_mem _ _ _ Ev (HY 1%nat j ltac:(lia) Hj)). apply point_mem.
        -- rewrite nth_tab by exact Hj. destruct (centre (dent Y 0 j)) as [u|] eqn:Eu; [|exact I]. destruct (centre (dent Y 1 j)) as [v|] eqn:Ev; [|exact I].
           rewrite (centre_mem _ _ _ Eu (HY 0%nat j ltac:(lia) Hj)), (centre_mem _ _ _ Ev (HY 1%nat j ltac:(lia) Hj)). apply point_mem.
      * intros i j Hi Hj. assert (i = 0 \/ i = 1)%nat as [-> | ->] by lia; cbn [sumC Nat.eqb]; rewrite ?A00, ?A01, ?A10, ?A11; unfold cramer; cbn [fst snd]; field; exact N.
Qed.
Lemma over_row_some Y l : (exists Z, d_over (point (RtoC 0)) Y = Some Z) -> over_row Y l <> None.
Proof.
  intros (Z & E). induction l as [|X l IH]; cbn; [easy|].
  assert (H : d_over X Y <> None).
  { unfold d_over, point in *. destruct Y as [[c r]|]; [|discriminate]. destruct (Rlt_dec r (Cmod c)); [|discriminate]. now destruct X as [[c' r']|]. }
  destruct (d_over X Y); [|easy]. now destruct (over_row Y l).
Qed.
Lemma d_lu_some n X lu : d_lu n X = Some lu -> lu = X /\ exists Z, d_solve n 1 X [] = Some Z /\ forall m Y, d_solve n m X Y <> None.
Proof.
  unfold d_lu. destruct (d_solve n 1 X []) as [Z|] eqn:E; [|discriminate]. intro H. injection H as <-. split; [reflexivity|]. exists Z. split; [reflexivity|].
  intros m Y. destruct n as [|[|[|n]]]; cbn [d_solve] in *; [easy| | |discriminate].
  - assert (H : over_row (dent X 0 0) (map (dent Y 0) (seq 0 m)) <> None).
    { apply over_row_some. cbn [seq map over_row] in E. unfold dent at 2 in E. cbn [nth] in E.
      destruct (d_over _ _) as [Z'|]; [exists Z'; reflexivity|discriminate]. }
    destruct (over_row (dent X 0 0) (map (dent Y 0) (seq 0 m))); [discriminate|contradiction].
  - destruct (centre (dent X 0 0)); [|easy]. destruct (centre (dent X 0 1)); [|easy]. destruct (centre (dent X 1 0)); [|easy]. destruct (centre (dent X 1 1)); [|easy].
    destruct (Ceq_dec _ _); [discriminate|easy].
Qed.
Lemma sumC_real n f g : (forall k, (k < n)%nat -> f k = RtoC (g k)) -> sumC n f = RtoC (sumR n g).
Proof. induction n as [|n IH]; intro H; cbn [sumC sumR]; [reflexivity|]. rewrite IH by (intros; apply H; lia). rewrite H by lia. now rewrite <- RtoC_plus. Qed.
Lemma d_re_mem X z : disc_mem X z -> disc_mem (d_re X) (RtoC (fst z)).
Proof.
  destruct X as [[c r]|]; cbn; [|easy]. intro H. destruct (parts_in _ _ _ H) as [H1 _]. rewrite <- RtoC_minus, Cmod_R. exact H1.
Qed.
Lemma d_im_mem X z : disc_mem X z -> disc_mem (d_im X) (RtoC (snd z)).
Proof.
  destruct X as [[c r]|]; cbn; [|easy]. intro H. destruct (parts_in _ _ _ H) as [_ H1]. rewrite <- RtoC_minus, Cmod_R. exact H1.
Qed.
Theorem d_mats_sound : msound discs d_mats disc_mem.
Proof.
  constructor; cbn [d_mats mt_lu mt_lu_solve mt_solve mt_mul mt_re mt_im mt_join mt_onei mt_lu_type].
  - intros p n X lu a E HX. destruct (d_lu_some n X lu E) as (-> & Z & E1 & Hs).
    set (a' := fun i j => RtoC (a i j)).
    assert (N : nonsingular n a').
    { apply (d_solve_mem n 1 X [] Z a' (fun _ _ => RtoC 0) ltac:(lia) E1 HX). intros i j Hi Hj. unfold bent. destruct i, j; apply point_mem. }
    split.
    + intros v Hv k Hk. assert (H := N (fun k => RtoC (v k))). apply same_real. apply H; [|exact Hk]. intros i Hi.
      rewrite (sumC_real n _ (fun k => a i k * v k)) by (intros; unfold a'; now rewrite <- RtoC_mult). now rewrite (Hv i Hi).
    + intros m Y b HY. destruct (d_solve n m X Y) as [Z'|] eqn:E2; [|now destruct (Hs m Y)]. destruct m as [|m].
      { exists (fun _ _ => 0). split; intros i j Hi Hj; lia. }
      destruct (d_solve_mem n (S m) X Y Z' a' (fun i j => RtoC (b i j)) ltac:(lia) E2 HX HY) as (_ & x & Hx & Sx).
      exists (fun i j => fst (x i j)). split.
      * apply tab_encR. intros i j Hi Hj. apply d_re_mem. exact (Hx i j Hi Hj).
      * intros i j Hi Hj. specialize (Sx i j Hi Hj). rewrite sumC_parts in Sx. apply (f_equal fst) in Sx. cbn [fst RtoC] in Sx. rewrite <- Sx.
        apply sumR_ext. intros k _. unfold a'. cbn. ring.
  - intros p n m X Y Z a b Hm E HX HY. exact (d_solve_mem n m X Y Z a b Hm E HX HY).
  - intros p n k m X Y a b HX HY. apply tab_encR. intros i j Hi Hj.
    rewrite <- (sumC_real k (fun l => RtoC (a i l) * RtoC (b l j))%C) by (intros; now rewrite <- RtoC_mult).
    apply (d_dot_mem k (fun l => dent X i l) (fun l => dent Y l j) (fun l => RtoC (a i l)) (fun l => RtoC (b l j))).
    intros l Hl. split; [exact (HX i l Hi Hl)|exact (HY l j Hl Hj)].
  - exact d_re_mem.
  - exact d_im_mem.
  - intros [[c r1]|] [[c' r2]|] r s; cbn [disc_mem d_join]; try easy. intros H H'. destruct (parts_in _ _ _ H) as [H1 _]. destruct (parts_in _ _ _ H') as [H2 _]. cbn [fst RtoC] in H1, H2.
    replace ((r, s) - (fst c, fst c'))%C with (RtoC (r - fst c) + (0, 1) * RtoC (s - fst c'))%C by (apply injective_projections; cbn; ring).
    eapply Rle_trans; [apply Cmod_triangle|]. rewrite Cmod_mult, !Cmod_R.
    replace (Cmod (0, 1)) with 1 by (unfold Cmod; cbn [fst snd]; replace (0 ^ 2 + 1 ^ 2) with 1 by ring; symmetry; apply sqrt_1). lra.
  - apply point_mem.
Qed.
