(** C83: the symplectic basis computed by the Magma package.  Statements only. *)
From Verif Require Import Base ModelSymp SpecSymp ModelMaSymp SpecMaSymp ProofMaSymp ProofSympEx.

(** For every antisymmetric matrix the function returns, its result is a base
    change (unimodular), and either it is a symplectic basis, or some entries of
    absolute value at least 2 are left outside the g pairs found. *)
Theorem C83_basis_partial :
  forall r k, square r k -> antisymmetric r k ->
  exists b g, symplectic_basis k = Done b /\ square r b /\ unimodular r b /\ (2 * g <= r)%nat /\
    (is_symplectic_basis r g k b \/
     exists j, congruent r b k j /\
      (forall x y, (x < r)%nat -> (y < r)%nat -> (x < 2 * g)%nat \/ (y < 2 * g)%nat -> get j x y = standard g x y) /\
      (forall x y, (2 * g <= x < r)%nat -> (2 * g <= y < r)%nat -> Z.abs (get j x y) <> 1) /\
      (exists x y, (2 * g <= x < r)%nat /\ (2 * g <= y < r)%nat /\ 2 <= Z.abs (get j x y))).
Proof. exact basis_dichotomy. Qed.

(** Any other square matrix is rejected by the assertion. *)
Theorem C83_rejects_other_matrices :
  forall r k, square r k -> ~ antisymmetric r k -> symplectic_basis k = Abort.
Proof. exact basis_not_anti. Qed.

(** A form of determinant 1 without an entry 1: the function returns the identity,
    not a symplectic basis. *)
Definition k_bad : mat := [[0;2;3;2]; [-2;0;2;3]; [-3;-2;0;3]; [-2;-3;-3;0]].
Definition k_inv : mat := [[0;-3;3;-2]; [3;0;-2;3]; [-3;2;0;-2]; [2;-3;2;0]].
Theorem C83_symplectic_refuted :
  exists k b, square 4 k /\ antisymmetric 4 k /\ unimodular 4 k /\
    symplectic_basis k = Done b /\ forall g, ~ is_symplectic_basis 4 g k b.
Proof.
  exists k_bad, (mat_one 4).
  split; [apply square_check; reflexivity|]. split; [apply antisym_check; reflexivity|]. split.
  - exists k_inv. split; [apply square_check; reflexivity|]. intros i j Hi Hj.
    assert (H : forall i j, (i < 4)%nat -> (j < 4)%nat -> _) by
      (exact (all2_check (fun i j => (zsum 4 (fun k => get k_bad i k * get k_inv k j) =? delta i j) &&
        (zsum 4 (fun k => get k_inv i k * get k_bad k j) =? delta i j)) 4 eq_refl)).
    specialize (H i j Hi Hj). apply andb_true_iff in H. destruct H as [H1 H2].
    split; apply Z.eqb_eq; assumption.
  - split; [vm_compute; reflexivity|]. intros g (j & HC & HJ).
    pose proof (HC 0%nat 1%nat ltac:(lia) ltac:(lia)) as E. rewrite HJ in E by lia.
    vm_compute (zsum 4 _) in E. unfold standard in E.
    destruct (0 <? g)%nat; destruct (1 =? 0 + g)%nat; destruct (1 <? g)%nat; destruct (0 =? 1 + g)%nat;
    cbn in E; discriminate.
Qed.

(** The hypotheses hold, and the first case arises, for a form of rank 4 on five
    cycles that needs row operations. *)
Definition k_ex : mat :=
  [[0;1;0;-1;1]; [-1;0;1;0;0]; [0;-1;0;1;-1]; [1;0;-1;0;1]; [-1;0;1;-1;0]].
Example C83_nonvacuous :
  square 5 k_ex /\ antisymmetric 5 k_ex /\
  exists b, symplectic_basis k_ex = Done b /\ is_symplectic_basis 5 2 k_ex b.
Proof.
  split; [apply square_check; reflexivity|]. split; [apply antisym_check; reflexivity|].
  eexists. split; [vm_compute; reflexivity|].
  match goal with |- is_symplectic_basis _ _ _ ?b =>
    exists (tab 5 5 (fun i j => zsum 5 (fun k => zsum 5 (fun l => get b i k * get k_ex k l * get b j l)))) end.
  split; intros x y Hx Hy.
  - do 5 (destruct x as [|x]; [do 5 (destruct y as [|y]; [vm_compute; reflexivity|]); lia|]). lia.
  - do 5 (destruct x as [|x]; [do 5 (destruct y as [|y]; [vm_compute; reflexivity|]); lia|]). lia.
Qed.

Print Assumptions C83_basis_partial.
Print Assumptions C83_rejects_other_matrices.
Print Assumptions C83_symplectic_refuted.
