(** C72: the parameters of the Gauss-Chebyshev rule computed on balls of 32 bits.
    Statements only.  [A] and [B] are the functions of Arb, with the contracts [sound], [widens] and
    [rsound]; [choose] is the computation on doubles that shrinks the ellipse: nothing is assumed
    about it.  [U] are the balls of the transformed branch points, [d] the number of moments. *)
From Coq Require Import Reals Lra Lia.
From Coquelicot Require Import Coquelicot.
From Verif Require Import CArg ModelTree SpecTree ProofTreeEx ModelInter ModelCurve ModelSymp SpecSymp ProofSymp ProofSympMain ProofSympEx ModelBasis SpecBasis
  ModelPeriod SpecPeriod ModelVec ModelQuad SpecQuad ModelCache ModelEdge SpecInter SpecEdge ProofEdge ProofAngle ModelTurn SpecTurn
  ModelGc SpecGc ModelExtra SpecExtra ProofExtra SpecErr ProofLat9 SpecHyp ModelBall SpecBall ModelBallGc SpecBallGc ProofBallGc
  ProofQuad ProofBall1 ProofBall2 ProofBall3 ProofBall4 ProofBall5 ProofBall6 ProofMid ProofMid2 ProofMid3 PropErr PropHyp PropDeq PropBall.
Local Open Scope R_scope.

(** If the ellipse chosen is not larger than the bound r0 found from the balls, then for all branch
    points in the balls and for any number N >= n of points, each moment computed by the rule is at
    a distance of the integral that is at most 2^-prec, and at most the radius returned: whatever
    the rounding errors and the choice made on doubles.
    Partial: the code does not compare the ellipse with r0 (C44_ellipse_refuted). *)
Theorem C72_radius_partial :
  forall (A : arith) (B : reals A) mem choose fuel U d prec n e r0 r, sound A mem -> widens A mem -> rsound A B mem ->
  b_gc_params A B choose fuel U d prec = Done (n, e, r0, r) -> r <= r0 -> (0 < n)%Z -> (1 <= d)%nat ->
  forall u n1 N, mems mem U u -> (n <= Z.of_nat N)%Z ->
  let y := fun t : R => y_tilde 2 u n1 (RtoC t) in
  exists res, gc_integrals y (y 0) d N = Done res /\ length res = d /\
    forall l, (l < d)%nat -> exists I, is_int (SpecQuad.integrand 2 y 1 l) I /\
      Cmod (vget res l - I)%C <= powerRZ 2 (- prec) /\ forall e', e = Some e' -> Cmod (vget res l - I)%C <= e'.
Proof. exact params_error. Qed.
Print Assumptions C72_radius_partial.

(** The period balls of C68 with these parameters: the radius is not an assumption any more. *)
Theorem C72_periods_partial :
  forall (A : arith) (B : reals A) (mem : ball A -> C -> Prop) (Key : Type) xgcd sort param p q X x cv r0 mn es r' mn' Ys inter
    (qsort : list (Key * nat) -> list (Key * nat)) keys rows rdef rturn choose fuel prec wp (np : nat -> Z) (e : nat -> option R) (lo r : nat -> R) ss,
  sound A mem -> widens A mem -> rsound A B mem -> mems mem X x -> distinct x -> (3 <= length x)%nat -> sec_init 2 (Z.of_nat (length x)) = Done cv ->
  (forall l, Permutation l (sort l)) -> (forall l, Permutation (qsort l) l) -> xgcd_ok xgcd ->
  let t := Z.to_nat (tree_edges cv) in let g := Z.to_nat (sec_g cv) in
  spanning_tree sort param (length x) t r0 mn = Done (es, r', mn') -> b_tree_ydata A p X 2 es = Done Ys ->
  directions_clear A q Ys es -> b_intersection A q Ys es 2 = Done inter ->
  length keys = t -> length rows = t ->
  (forall k, (k < t)%nat ->
    b_gc_params A B choose fuel (by_u A (nth k Ys (b_no_ydata A))) g prec = Done (np k, e k, lo k, r k) /\ r k <= lo k /\ (0 < np k)%Z) ->
  let order := map snd (qsort (combine keys (seq 0 t))) in
  gc_schemes cv 0 (map np order) = Done ss -> Forall2 (fun s n => (n <= s)%Z) ss (map np order) ->
  (forall k s Xs, (k < t)%nat -> In s ss -> b_gc_int_init A p (wp s) (Z.to_nat s) = Done Xs ->
    gc_clear A p rdef (by_u A (nth k Ys (b_no_ydata A))) (by_n1 A (nth k Ys (b_no_ydata A))) (length x - 2) Xs) ->
  exists nonpos neg ys s V b, tree_ydata nonpos neg x 2 es = Done ys /\ intersection_of_data ys es 2 = Done inter /\
    symplectic_reduction xgcd (to_rows inter) g = Done s /\
    SpecSymp.square t (stP s) /\ unimodular t (stP s) /\ congruent t (stP s) (to_rows inter) (stM s) /\ canonical t g (stM s) /\
    b_tree_gc A p qsort rdef rturn (b_gc_call A B choose fuel g prec) wp cv Ys keys rows = Done V /\ length b = t /\
    (forall k, (k < t)%nat -> let ye := nth k ys no_ydata in
      mem (by_ya A (nth k Ys (b_no_ydata A))) (y_ya ye) /\ mem (by_yb A (nth k Ys (b_no_ydata A))) (y_yb ye) /\ mems mem (nth k V []) (nth k b []) /\
      edge_integrals x (vget x (ea (nth k es no_edge))) (vget x (eb (nth k es no_edge))) (y_ya ye) (y_yb ye) (sec_g cv) (nth k b [])) /\
    (~ rows_fit (2 * g) (stP s) -> symplectic_basis xgcd (to_rows inter) g 2 = Abort) /\
    (rows_small (2 * g) (stP s) -> exists loops OA OB,
      symplectic_basis xgcd (to_rows inter) g 2 = Done loops /\
      b_period_matrix A p cv (map fst loops) V = Done OA /\ length OA = g /\
      b_period_matrix A p cv (map snd loops) V = Done OB /\ length OB = g /\
      forall i k, (i < g)%nat -> (k < g)%nat ->
        mem (nth k (nth i OA []) (b_zero A)) (cycle_period b (nth (2 * k) (stP s) []) i) /\
        mem (nth k (nth i OB []) (b_zero A)) (cycle_period b (nth (2 * k + 1) (stP s) []) i)).
Proof.
  intros A B mem Key xgcd sort param p q X x cv r0 mn es r' mn' Ys inter qsort keys rows rdef rturn choose fuel prec wp np e lo r ss
    S W T HX Hd Hn Hc Hs Hq Hg t g Et EY Hdir EI Hk Hr Hp order Hss Hen Hcl.
  apply (hyper_balls A mem xgcd sort param p q X x cv r0 mn es r' mn' Ys inter qsort keys rows rdef rturn (b_gc_call A B choose fuel g prec) wp np e ss); try assumption.
  intros k Hk'. destruct (Hp k Hk') as (E & Hle & Hpos). cbv zeta. split.
  - unfold b_gc_call. fold t g in E |- *. rewrite E. reflexivity.
  - intros u Hu. exact (proj1 (proj2 (proj2 (params_ball A B mem S W T _ _ _ _ _ _ _ _ _ u E Hle Hpos Hu)))).
Qed.
Print Assumptions C72_periods_partial.

(** ** A run on the disc of the point -3, and the curve y^2 = x^3 - x of C68 *)
Example C72_radius_nonvacuous : sound discs disc_mem /\ widens discs disc_mem /\ rsound discs d_reals disc_mem /\
  mems (A := discs) disc_mem [point (RtoC (-3))] [RtoC (-3)] /\
  forall prec, (2 <= prec <= 2 ^ 60)%Z -> exists n e, b_gc_params discs d_reals two 2 [point (RtoC (-3))] 1 prec = Done (n, Some e, 3, 2) /\ (0 < n)%Z.
Proof.
  split; [exact discs_sound|]. split; [exact discs_widens|]. split; [exact d_reals_sound|]. split.
  - apply Forall2_cons; [apply point_mem|apply Forall2_nil].
  - intros prec Hp. exact (run_point 1 prec ltac:(lia) Hp).
Qed.
Lemma points72 p Ys : b_tree_ydata discs p X68 2 es64 = Done Ys -> forall k, (k < 2)%nat ->
  by_u discs (nth k Ys (b_no_ydata discs)) = [point (RtoC (-3))] /\ by_n1 discs (nth k Ys (b_no_ydata discs)) = 0%nat.
Proof.
  intros EY0 k Hk. destruct (point_data p x62 2 es64 distinct62 ltac:(lia) edges64') as (Ys' & ys & EY & Ey & HlY & Hly & HY).
  change (Z.of_nat 2) with 2%Z in *. fold X68 in EY, Ey. rewrite EY0 in EY. injection EY as <-.
  assert (H : ydata_mem discs is_point (nth k Ys (b_no_ydata discs)) (nth k ys no_ydata)) by (apply Forall2_nth; [exact HY|exact (no_ydata_mem discs is_point discs_point_sound)]).
  destruct H as (H1 & H2 & _).
  assert (D : y_u (nth k ys no_ydata) = [RtoC (-3)] /\ y_n1 (nth k ys no_ydata) = 0%nat).
  { destruct (tree_ydata_done (test_pos discs p X68 x62) (test_neg discs p X68 x62) x62 2 es64 distinct62 ltac:(lia) edges64') as (ys0 & E0 & _ & Hn0).
    change (Z.of_nat 2) with 2%Z in E0. rewrite Ey in E0. injection E0 as <-. specialize (Hn0 k Hk).
    assert (Hk' : (k = 0 \/ k = 1)%nat) by lia. destruct Hk' as [-> | ->]; cbn [nth es64 ea eb Nat.eqb] in Hn0 |- *.
    - destruct (data68 p 2 2 _ ltac:(lia) ltac:(lia) Hn0) as (D1 & D2 & _). now split.
    - destruct (data68 p 2 1 _ ltac:(lia) ltac:(lia) Hn0) as (D1 & D2 & _). now split. }
  destruct D as (D1 & D2). rewrite D1 in H1. rewrite D2 in H2. split; [|exact H2].
  inversion H1 as [|a b u v Ha Hu]; subst. inversion Hu. rewrite Ha. reflexivity.
Qed.
Example C72_nonvacuous : forall p q rdef wp prec, (2 <= prec <= 2 ^ 60)%Z -> exists Ys inter n e,
  sound discs disc_mem /\ widens discs disc_mem /\ rsound discs d_reals disc_mem /\ mems (A := discs) disc_mem X68 x62 /\ distinct x62 /\
  sec_init 2 (Z.of_nat (length x62)) = Done c23 /\ (forall l, Permutation l (isort l)) /\ xgcd_ok egcd /\ tree_edges c23 = 2%Z /\ sec_g c23 = 1%Z /\
  (exists r' mn', spanning_tree isort param64 3 2 (Some 0%Z) 0 = Done (es64, r', mn')) /\
  b_tree_ydata discs p X68 2 es64 = Done Ys /\ directions_clear discs q Ys es64 /\ b_intersection discs q Ys es64 2 = Done inter /\
  (forall k, (k < 2)%nat -> b_gc_params discs d_reals two 2 (by_u discs (nth k Ys (b_no_ydata discs))) 1 prec = Done (n, Some e, 3, 2) /\ 2 <= 3 /\ (0 < n)%Z) /\
  gc_schemes c23 0 [n; n] = Done [n; n] /\ Forall2 (fun s k => (k <= s)%Z) [n; n] [n; n] /\
  (forall k s Xs, (k < 2)%nat -> In s [n; n] -> b_gc_int_init discs p (wp s) (Z.to_nat s) = Done Xs ->
    gc_clear discs p rdef (by_u discs (nth k Ys (b_no_ydata discs))) (by_n1 discs (nth k Ys (b_no_ydata discs))) (length x62 - 2) Xs) /\
  exists s, symplectic_reduction egcd (to_rows inter) 1 = Done s /\ rows_small 2 (stP s).
Proof.
  intros p q rdef wp prec Hp.
  destruct (C68_nonvacuous p q rdef wp 2 ltac:(lia)) as (Ys & inter & n0 & e0 & H1 & H2 & H3 & H4 & H5 & H6 & H7 & H8 & H9 & H10 & H11 & H12 & H13 & _ & _ & _ & _ & H14).
  destruct (run_point 1 prec ltac:(lia) Hp) as (n & e & Er & Hn). assert (Hk := points72 p Ys H11).
  exists Ys, inter, n, e. split; [exact H1|]. split; [exact H2|]. split; [exact d_reals_sound|]. do 11 (split; [assumption|]). split.
  { intros k Hk'. rewrite (proj1 (Hk k Hk')). split; [exact Er|]. split; [lra|exact Hn]. }
  split.
  { cbn [gc_schemes]. unfold gc_scheme. rewrite Z.eqb_refl. cbn [bind].
    rewrite (proj2 (Z.eqb_neq n 0)) by lia. rewrite Z.sub_diag, Z.mul_0_l. change (negb _) with false. cbn iota.
    destruct (0 >? n)%Z; reflexivity. }
  split; [repeat constructor; lia|]. split; [|exact H14].
  intros k s' Xs Hk' Hs' EX _ X HX. destruct (Hk k Hk') as [-> ->].
  assert (s' = n) as -> by (destruct Hs' as [<-|[<-|[]]]; reflexivity).
  destruct (nodes68 p (wp n) (Z.to_nat n) Xs X ltac:(lia) EX HX) as (r1 & Hr1 & ->). change (length x62 - 2)%nat with 1%nat.
  split; [now apply clear68|]. cbn [discs b_neg d_neg point]. replace (- RtoC r1)%C with (RtoC (- r1)) by (now rewrite RtoC_opp). apply clear68. lra.
Qed.
