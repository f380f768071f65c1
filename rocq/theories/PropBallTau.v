(** C73: the small period matrix computed on balls.
    Statements only.  [M] are Arb's functions on matrices, with the contract [msound] of
    SpecBallTau; [X] is the matrix given for the result, [rf] tells whether a division of a vector
    reads the divisor before writing. *)
From Coq Require Import Reals Lra Lia.
From Coquelicot Require Import Coquelicot.
From Verif Require Import CArg ModelTree SpecTree ModelInter ModelCurve ModelSymp SpecSymp ProofSymp ProofSympMain ModelBasis SpecBasis
  ModelPeriod SpecPeriod ModelVec ModelQuad SpecQuad ModelCache ModelEdge SpecInter SpecEdge ProofEdge
  ModelGc SpecGc ModelExtra SpecExtra SpecErr SpecHyp ModelBall SpecBall ModelBallGc SpecBallGc ModelBallTau SpecBallTau ProofBallTau ProofMid ProofMid4 PropBallGc.
Local Open Scope R_scope.

(** [acb_mat_solve] succeeds, or the reduction to real matrices does, on A and B or on iA and iB *)
Definition times_i (A : arith) (M : mats A) (p : Z) (n : nat) (X : list (list (ball A))) : list (list (ball A)) :=
  bmat_tab A n n (fun i j => b_mul A p (bent A X i j) (mt_onei A M)).
Definition inverted (A : arith) (M : mats A) (p : Z) (g : nat) (X OA OB : list (list (ball A))) : Prop :=
  mt_solve A M p g g OA OB <> None \/ b_solve_real A M p g g X OA OB <> None \/
  b_solve_real A M p g g X (times_i A M p g OA) (times_i A M p g OB) <> None.

(** If one of these succeeds, then for all matrices a and b in the balls, a is invertible, and the
    result contains the entries of the only matrix t with a t = b.
    Partial: nothing is said of the fourth method (C73_charpoly_refuted). *)
Theorem C73_tau_partial :
  forall (A : arith) (M : mats A) mem p rf g X OA OB tau a b, sound A mem -> msound A M mem ->
  b_tau_matrix A M p rf g X OA OB = Done tau -> inverted A M p g X OA OB ->
  enc mem g g OA a -> enc mem g g OB b ->
  nonsingular g a /\ exists t, enc mem g g tau t /\ solves g g a t b /\
    forall t', solves g g a t' b -> forall i j, (i < g)%nat -> (j < g)%nat -> t' i j = t i j.
Proof.
  intros A M mem p rf g X OA OB tau a b S T E I HA HB.
  destruct (multi_ball A M mem S T p rf g g X OA OB tau a b (fun H => H) E I HA HB) as (N & t & Ht & St).
  split; [exact N|]. exists t. split; [exact Ht|]. split; [exact St|]. intros t' St'. exact (solves_unique g g a t' t b N St' St).
Qed.
Print Assumptions C73_tau_partial.

(** From the branch points to the small period matrix, for hyperelliptic curves: with the
    hypotheses of C72, the balls of tau contain the matrix t with OA t = OB, where OA and OB are
    the periods on the cycles of the basis. *)
Theorem C73_periods_partial :
  forall (A : arith) (B : reals A) (M : mats A) (mem : ball A -> C -> Prop) (Key : Type) xgcd sort param p q X x cv r0 mn es r' mn' Ys inter
    (qsort : list (Key * nat) -> list (Key * nat)) keys rows rdef rturn choose fuel prec wp (np : nat -> Z) (e : nat -> option R) (lo r : nat -> R) ss,
  sound A mem -> widens A mem -> rsound A B mem -> msound A M mem ->
  mems mem X x -> distinct x -> (3 <= length x)%nat -> sec_init 2 (Z.of_nat (length x)) = Done cv ->
  (forall l, Permutation l (sort l)) -> (forall l, Permutation (qsort l) l) -> xgcd_ok xgcd ->
  let t := Z.to_nat (tree_edges cv) in let g := Z.to_nat (sec_g cv) in
  spanning_tree sort param (length x) t r0 mn = Done (es, r', mn') -> b_tree_ydata A p X 2 es = Done Ys ->
  directions_clear A q Ys es -> b_intersection A q Ys es 2 = Done inter ->
  length keys = t -> length rows = t ->
  (forall k, (k < t)%nat ->
    b_gc_params A B choose fuel (by_u A (nth k Ys (b_no_ydata A))) g prec = Done (np k, e k, lo k, r k) /\ r k <= lo k /\ (0 < np k)%Z) ->
  let order := map snd (qsort (combine keys (seq 0 t))) in
  gc_schemes cv 0 (map np order) = Done ss -> Forall2 (fun s n => (n <= s)%Z) ss (map np order) ->
  (forall k s Xs, (k < t)%nat -> In s ss -> b_gc_int_init A p (wp s) (Z.to_nat s) = Done Xs ->
    gc_clear A p rdef (by_u A (nth k Ys (b_no_ydata A))) (by_n1 A (nth k Ys (b_no_ydata A))) (length x - 2) Xs) ->
  exists nonpos neg ys s V b, tree_ydata nonpos neg x 2 es = Done ys /\ intersection_of_data ys es 2 = Done inter /\
    symplectic_reduction xgcd (to_rows inter) g = Done s /\
    unimodular t (stP s) /\ congruent t (stP s) (to_rows inter) (stM s) /\ canonical t g (stM s) /\
    b_tree_gc A p qsort rdef rturn (b_gc_call A B choose fuel g prec) wp cv Ys keys rows = Done V /\ length b = t /\
    (forall k, (k < t)%nat -> let ye := nth k ys no_ydata in
      edge_integrals x (vget x (ea (nth k es no_edge))) (vget x (eb (nth k es no_edge))) (y_ya ye) (y_yb ye) (sec_g cv) (nth k b [])) /\
    (rows_small (2 * g) (stP s) -> exists loops OA OB,
      symplectic_basis xgcd (to_rows inter) g 2 = Done loops /\
      b_period_matrix A p cv (map fst loops) V = Done OA /\ b_period_matrix A p cv (map snd loops) V = Done OB /\
      forall rf Z tau, b_tau_matrix A M p rf g Z OA OB = Done tau -> inverted A M p g Z OA OB ->
      exists w, enc mem g g tau w /\
        solves g g (fun i k => cycle_period b (nth (2 * k) (stP s) []) i) w (fun i k => cycle_period b (nth (2 * k + 1) (stP s) []) i) /\
        nonsingular g (fun i k => cycle_period b (nth (2 * k) (stP s) []) i)).
Proof.
  intros A B M mem Key xgcd sort param p q X x cv r0 mn es r' mn' Ys inter qsort keys rows rdef rturn choose fuel prec wp np e lo r ss
    S W T U HX Hd Hn Hc Hs Hq Hg t g Et EY Hdir EI Hk Hr Hp order Hss Hen Hcl.
  destruct (C72_periods_partial A B mem Key xgcd sort param p q X x cv r0 mn es r' mn' Ys inter qsort keys rows rdef rturn choose fuel prec wp np e lo r ss
    S W T HX Hd Hn Hc Hs Hq Hg Et EY Hdir EI Hk Hr Hp Hss Hen Hcl)
    as (nonpos & neg & ys & s & V & b & H1 & H2 & H3 & _ & H4 & H5 & H6 & H7 & H8 & H9 & _ & H10).
  exists nonpos, neg, ys, s, V, b. do 8 (split; [assumption|]). split.
  { intros k Hk'. exact (proj2 (proj2 (proj2 (H9 k Hk')))). }
  intro Hsm. destruct (H10 Hsm) as (loops & OA & OB & G1 & G2 & _ & G3 & _ & G4). exists loops, OA, OB. do 3 (split; [assumption|]).
  intros rf Z tau Et' I.
  destruct (C73_tau_partial A M mem p rf g Z OA OB tau (fun i k => cycle_period b (nth (2 * k) (stP s) []) i) (fun i k => cycle_period b (nth (2 * k + 1) (stP s) []) i)
    S U Et' I) as (N & w & Hw & Sw & _).
  - intros i k Hi Hk'. exact (proj1 (G4 i k Hi Hk')).
  - intros i k Hi Hk'. exact (proj2 (G4 i k Hi Hk')).
  - exists w. split; [exact Hw|]. split; [exact Sw|exact N].
Qed.
Print Assumptions C73_periods_partial.

(** The fourth method returns a ball that does not contain the solution of 2 t = 2, though the
    determinant and the characteristic polynomial are exact; whatever the order of the reads. *)
Definition given_up : mats discs := Build_mats discs unit (fun _ _ _ => None) (fun _ _ _ _ _ => []) (fun _ _ _ _ _ => None) (fun _ => d_matmul)
  (fun _ _ X => dent X 0 0) (fun _ _ X => [d_neg (dent X 0 0); point (RtoC 1)]) d_re d_im d_join (point (0, 1)).
Lemma given_up_sound : msound discs given_up disc_mem.
Proof. constructor; try discriminate; exact (u_mul discs d_mats disc_mem d_mats_sound) || exact d_re_mem || exact d_im_mem || exact (u_join discs d_mats disc_mem d_mats_sound) || apply point_mem. Qed.
Lemma div_point (z w : C) p : b_div discs p (point z) (point w) = point (z / w)%C.
Proof. cbn. destruct (Req_EM_T 0 0); [reflexivity|lra]. Qed.
Theorem C73_charpoly_refuted : forall p rf,
  sound discs disc_mem /\ msound discs given_up disc_mem /\
  (forall X a, enc (A := discs) disc_mem 1 1 X a ->
    disc_mem (mt_det discs given_up p 1 X) (a 0%nat 0%nat) /\ mems (A := discs) disc_mem (mt_charpoly discs given_up p 1 X) [(- a 0%nat 0%nat)%C; RtoC 1]) /\
  let a := fun _ _ : nat => RtoC 2 in let t := fun _ _ : nat => RtoC 1 in
  exists tau, enc (A := discs) disc_mem 1 1 [[point (RtoC 2)]] a /\ solves 1 1 a t a /\
    b_tau_matrix discs given_up p rf 1 [] [[point (RtoC 2)]] [[point (RtoC 2)]] = Done tau /\ ~ enc (A := discs) disc_mem 1 1 tau t.
Proof.
  intros p rf. split; [exact discs_sound|]. split; [exact given_up_sound|]. split.
  { intros X a H. specialize (H 0%nat 0%nat ltac:(lia) ltac:(lia)). split; [exact H|]. apply Forall2_cons; [|apply Forall2_cons; [apply point_mem|apply Forall2_nil]].
    exact (s_neg discs disc_mem discs_sound _ _ H). }
  cbv zeta. set (w := if rf then RtoC (-1) else RtoC 2). exists [[b_mul discs p (point (RtoC 2)) (point (if rf then RtoC (- / 2) else RtoC 1))]]. split.
  { intros [|i] [|j] Hi Hj; try lia. apply point_mem. }
  split.
  { intros i j Hi Hj. cbn. ring. }
  split.
  - assert (D0 : b_has0 discs (point (RtoC 2)) = false).
    { cbn. destruct (Rle_dec (Cmod 2) 0) as [H|]; [exfalso|reflexivity]. rewrite Cmod_R, Rabs_pos_eq in H; lra. }
    unfold b_tau_matrix, b_solve_multi. cbn [mt_solve given_up mt_det mt_lu mt_onei]. change (dent [[point (RtoC 2)]] 0 0) with (point (RtoC 2)).
    rewrite D0. unfold b_solve_real. cbn [Nat.eqb orb mt_lu given_up]. cbv zeta. unfold b_solve_charpoly. cbn [mt_charpoly given_up].
    change (dent [[point (RtoC 2)]] 0 0) with (point (RtoC 2)). change (d_neg (point (RtoC 2))) with (point (- RtoC 2)%C).
    unfold b_divide_by_const. cbn [map length Nat.sub b_charpoly_loop]. rewrite (div_point (- RtoC 2)%C (- RtoC 2)%C). unfold bmat_tab. cbn [map seq nth bent].
    assert (Ew : b_div discs p (point (RtoC 1)) (if rf then point (- RtoC 2)%C else point (- RtoC 2 / - RtoC 2)%C) = point (if rf then RtoC (- / 2) else RtoC 1)).
    { destruct rf; rewrite div_point; f_equal; apply injective_projections; cbn; field. }
    rewrite Ew. reflexivity.
  - intro H. specialize (H 0%nat 0%nat ltac:(lia) ltac:(lia)). unfold bent in H. cbn [nth discs b_mul d_mul point disc_mem] in H.
    replace (Cmod (RtoC 2) * 0 + Cmod (if rf then RtoC (- / 2) else RtoC 1) * 0 + 0 * 0) with 0 in H by ring. apply Cmod_zero_eq in H. destruct rf; rewrite <- RtoC_mult in H; apply same_real in H; lra.
Qed.
Print Assumptions C73_charpoly_refuted.

(** A matrix of genus 2, and one period ball of positive radius in genus 1 *)
Example C73_nonvacuous : forall p rf X, sound discs disc_mem /\ msound discs d_mats disc_mem /\
  (let a := fun i j => if Nat.eqb i j then (1, 1) else RtoC (INR j) in let b := fun i j => (INR i, INR j) in
   let OA := bmat_tab discs 2 2 (fun i j => point (a i j)) in let OB := bmat_tab discs 2 2 (fun i j => point (b i j)) in
   enc (A := discs) disc_mem 2 2 OA a /\ enc (A := discs) disc_mem 2 2 OB b /\
   inverted discs d_mats p 2 X OA OB /\ exists tau, b_tau_matrix discs d_mats p rf 2 X OA OB = Done tau) /\
  (let OA := [[Some (RtoC 3, / 2) : disc]] in let OB := [[Some ((0, 3), / 2) : disc]] in
   inverted discs d_mats p 1 X OA OB /\ exists tau, b_tau_matrix discs d_mats p rf 1 X OA OB = Done tau).
Proof.
  intros p rf X. split; [exact discs_sound|]. split; [exact d_mats_sound|]. split; cbv zeta.
  - split; [apply tab_enc; intros; apply point_mem|]. split; [apply tab_enc; intros; apply point_mem|].
    match goal with |- inverted _ _ _ _ _ ?OA ?OB /\ _ => assert (E : exists tau, d_solve 2 2 OA OB = Some tau) end.
    { unfold d_solve, bmat_tab. cbn [map seq dent nth Nat.eqb centre point INR]. destruct (Req_EM_T 0 0) as [_|]; [|lra].
      destruct (Ceq_dec _ _) as [H|]; [|eexists; reflexivity]. exfalso. apply (f_equal snd) in H. cbn in H. lra. }
    destruct E as [tau E]. split.
    + left. cbn [mt_solve d_mats]. rewrite E. discriminate.
    + exists tau. unfold b_tau_matrix, b_solve_multi. cbn [mt_solve d_mats]. rewrite E. reflexivity.
  - match goal with |- inverted _ _ _ _ _ ?OA ?OB /\ _ => assert (E : exists tau, d_solve 1 1 OA OB = Some tau) end.
    { unfold d_solve. cbn [map seq dent nth over_row d_over]. destruct (Rlt_dec (/ 2) (Cmod (RtoC 3))) as [|N]; [eexists; reflexivity|]. exfalso. apply N. rewrite Cmod_R, Rabs_pos_eq; lra. }
    destruct E as [tau E]. split.
    + left. cbn [mt_solve d_mats]. rewrite E. discriminate.
    + exists tau. unfold b_tau_matrix, b_solve_multi. cbn [mt_solve d_mats]. rewrite E. reflexivity.
Qed.
