(** Common vocabulary: outcomes of C functions and finite sums. *)
From Coq Require Export List ZArith Lia Bool Arith.
From Coq Require Export ZifyBool ZifyNat.
Export ListNotations.
#[global] Set Warnings "-notation-overridden".
Open Scope Z_scope.

(** What can go wrong in the C program besides a clean [abort()]. *)
Inductive fault :=
| DivByZero        (* integer division by zero *)
| OutOfBounds      (* read or write outside an array *)
| HugeAlloc        (* negative size converted to size_t in an allocation *)
| BadPointer       (* an integer is dereferenced as a pointer *)
| SignedOverflow   (* slong overflow *)
| BadIndex         (* coefficient or entry written at an invalid index *).

(** Result of running a C function. [OutOfFuel] only exists in the model: it
    marks loops whose termination has to be proved. *)
Inductive outcome (A : Type) :=
| Done (a : A)
| Abort            (* flint_printf(...); abort() *)
| Fault (f : fault)
| OutOfFuel.
Arguments Done {A} a.
Arguments Abort {A}.
Arguments Fault {A} f.
Arguments OutOfFuel {A}.

Definition bind {A B} (x : outcome A) (k : A -> outcome B) : outcome B :=
  match x with
  | Done a => k a
  | Abort => Abort
  | Fault f => Fault f
  | OutOfFuel => OutOfFuel
  end.
Notation "'do' x <- e ; k" := (bind e (fun x => k))
  (at level 200, x pattern, e at level 100, k at level 200).

(** [zsum n f] = f 0 + ... + f (n-1). *)
Fixpoint zsum (n : nat) (f : nat -> Z) : Z :=
  match n with
  | O => 0
  | S k => zsum k f + f k
  end.

Lemma zsum_ext n f g : (forall k, (k < n)%nat -> f k = g k) -> zsum n f = zsum n g.
Proof.
  induction n as [|n IH]; intros H; cbn [zsum]; [reflexivity|].
  rewrite IH by (intros; apply H; lia). rewrite H by lia. reflexivity.
Qed.

Lemma zsum_add n f g : zsum n (fun k => f k + g k) = zsum n f + zsum n g.
Proof. induction n as [|n IH]; cbn [zsum]; lia. Qed.

Lemma zsum_const n c : zsum n (fun _ => c) = Z.of_nat n * c.
Proof. induction n as [|n IH]; cbn [zsum]; [reflexivity|]. rewrite IH. lia. Qed.

Lemma zsum_scal n c f : zsum n (fun k => c * f k) = c * zsum n f.
Proof. induction n as [|n IH]; cbn [zsum]; [lia|]. rewrite IH. lia. Qed.

Lemma zsum_zero n f : (forall k, (k < n)%nat -> f k = 0) -> zsum n f = 0.
Proof.
  intros H. rewrite (zsum_ext n f (fun _ => 0)) by exact H.
  rewrite zsum_const. lia.
Qed.

Lemma zsum_app n p f :
  zsum (n + p) f = zsum n f + zsum p (fun k => f (n + k)%nat).
Proof.
  induction p as [|p IH]; cbn [zsum].
  - rewrite Nat.add_0_r. lia.
  - rewrite Nat.add_succ_r. cbn [zsum]. rewrite IH. lia.
Qed.

Lemma zsum_S_l n f : zsum (S n) f = f O + zsum n (fun k => f (S k)).
Proof. change (S n) with (1 + n)%nat. rewrite (zsum_app 1 n f). cbn [zsum Nat.add]. lia. Qed.

Lemma zsum_rev n f : zsum n (fun k => f (n - 1 - k)%nat) = zsum n f.
Proof.
  revert f. induction n as [|n IH]; intros f; [reflexivity|].
  rewrite zsum_S_l. cbn [zsum].
  replace (S n - 1 - 0)%nat with n by lia.
  rewrite (zsum_ext n (fun k => f (S n - 1 - S k)%nat) (fun k => f (n - 1 - k)%nat)).
  - rewrite IH. lia.
  - intros k Hk. f_equal. lia.
Qed.

Lemma fold_right_seq_zsum (f : nat -> Z) s n :
  fold_right Z.add 0 (map f (seq s n)) = zsum n (fun k => f (s + k)%nat).
Proof.
  revert s. induction n as [|n IH]; intros s; [reflexivity|].
  cbn [seq map fold_right]. rewrite IH, zsum_S_l, Nat.add_0_r. f_equal.
  apply zsum_ext. intros k _. f_equal. lia.
Qed.

Lemma nth_map_seq {A} (f : nat -> A) n k d : (k < n)%nat -> nth k (map f (seq 0 n)) d = f k.
Proof.
  intros H. rewrite nth_indep with (d' := f O) by (rewrite map_length, seq_length; exact H).
  rewrite map_nth, seq_nth by exact H. reflexivity.
Qed.

(** Split conjunctions only. *)
Ltac conj := repeat match goal with |- _ /\ _ => split end.

(** Range of the C type slong (64 bits). *)
Definition slong_max : Z := 9223372036854775807.
Definition slong_min : Z := -9223372036854775808.
Definition is_slong (z : Z) : bool := (slong_min <=? z) && (z <=? slong_max).
