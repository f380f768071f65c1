(** C26, C27: periods of loops and period matrices.  Statements only. *)
From Verif Require Import CBase ModelCurve SpecCurve ModelSymp SpecSymp ProofSymp ProofSympRed ProofSympMain ProofSympEx
  ModelBasis SpecBasis ProofBasis ModelPeriod SpecPeriod ProofPeriod ProofPeriodMain.

(** C26: coordinate (i, j) of the period of a loop, with j = j1 + q.  The integral of
    edge e is entry offset q + i of row e of the table. *)
Theorem C26_period_of_a_loop :
  forall m n c edges a l, sec_init m n = Done c -> 1 <= n ->
    integrals_ok c edges a -> loop_ok c edges l ->
    exists res, periods_loop c a (unit_roots m) l = Done res /\ Z.of_nat (length res) = sec_g c /\
      forall q i, (q < length (sec_ni c))%nat -> Z.of_nat i < nth q (sec_ni c) 0 ->
        vget res (offset (sec_ni c) q + i) =
        clsum (term_period m (sec_j1 c + Z.of_nat q)
                 (fun e => vget (nth (Z.to_nat e) a []) (offset (sec_ni c) q + i))) l.
Proof.
  intros m n c edges a l Hc Hn Ha Hl.
  destruct (sec_init_curve_ok m n c Hc Hn) as (Hok & <- & Hg).
  exact (periods_loop_spec c edges a l Hok Ha Hl Hg).
Qed.
Print Assumptions C26_period_of_a_loop.

(** C27: columns of the two period matrices are the rows of the base change applied to
    the periods of the shifted elementary cycles. *)
Theorem C27_period_matrix_is_base_change :
  forall xgcd m n c inter s a, xgcd_ok xgcd -> sec_init m n = Done c -> 1 <= n ->
    let r := Z.to_nat (tree_edges c * (m - 1)) in let g := Z.to_nat (sec_g c) in
    square r inter -> antisymmetric r inter -> integrals_ok c (Z.to_nat (tree_edges c)) a ->
    symplectic_reduction xgcd inter g = Done s -> rows_small (2 * g) (stP s) ->
    exists loops omA omB,
      symplectic_basis xgcd inter g m = Done loops /\
      period_matrix c (map fst loops) a = Done omA /\ length omA = g /\
      period_matrix c (map snd loops) a = Done omB /\ length omB = g /\
      forall k q i, (k < g)%nat -> (q < length (sec_ni c))%nat -> Z.of_nat i < nth q (sec_ni c) 0 ->
        vget (nth (offset (sec_ni c) q + i) omA []) k =
          row_period c a (nth (2 * k) (stP s) []) (sec_j1 c + Z.of_nat q) (offset (sec_ni c) q + i) /\
        vget (nth (offset (sec_ni c) q + i) omB []) k =
          row_period c a (nth (2 * k + 1) (stP s) []) (sec_j1 c + Z.of_nat q) (offset (sec_ni c) q + i).
Proof. exact periods_final. Qed.
Print Assumptions C27_period_matrix_is_base_change.

(** The hypotheses hold for y^2 = quintic and a 4 x 4 form. *)
Definition inter_ex : mat := [[0;2;3;0]; [-2;0;1;1]; [-3;-1;0;1]; [0;-1;-1;0]].
Definition table_ex : cmat := [[RtoC 1; RtoC 2]; [RtoC 3; RtoC 4]; [RtoC 5; RtoC 6]; [RtoC 7; RtoC 8]].
Example C27_nonvacuous :
  exists c s, sec_init 2 5 = Done c /\ Z.to_nat (tree_edges c * (2 - 1)) = 4%nat /\ sec_g c = 2 /\
    sec_ni c = [2] /\ sec_j1 c = 1 /\
    square 4 inter_ex /\ antisymmetric 4 inter_ex /\ integrals_ok c (Z.to_nat (tree_edges c)) table_ex /\
    symplectic_reduction egcd inter_ex 2 = Done s /\ rows_small (2 * 2) (stP s).
Proof.
  eexists. eexists. split; [vm_compute; reflexivity|]. do 4 (split; [reflexivity|]).
  split; [apply square_check; reflexivity|]. split; [apply antisym_check; reflexivity|]. split.
  - split; [reflexivity|]. intros row Hr. cbn in Hr.
    repeat (destruct Hr as [<-|Hr]; [reflexivity|]). contradiction.
  - split; [vm_compute; reflexivity|].
    intros i x Hi. do 4 (destruct i as [|i]; [cbn [stP nth]; intros Hx; cbn [In] in Hx; lia|]). lia.
Qed.

(** and for a loop with a shift on y^3 = quartic *)
Example C26_nonvacuous :
  exists c, sec_init 3 4 = Done c /\ sec_g c = 3 /\ sec_ni c = [1; 2] /\
    integrals_ok c 2 [[RtoC 1; RtoC 2; RtoC 3]; [RtoC 4; RtoC 5; RtoC 6]] /\
    loop_ok c 2 [{| gcoeff := -2; gshift := 1; gindex := 1 |}; {| gcoeff := 3; gshift := 0; gindex := 0 |}].
Proof.
  eexists. split; [vm_compute; reflexivity|]. do 2 (split; [reflexivity|]). split.
  - split; [reflexivity|]. intros row Hr. cbn in Hr.
    repeat (destruct Hr as [<-|Hr]; [reflexivity|]). contradiction.
  - intros x Hx. cbn [In] in Hx. destruct Hx as [<-|[<-|[]]]; cbn [gcoeff gshift gindex sec_m]; lia.
Qed.
