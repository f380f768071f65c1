(** What is expected of the matrix routines of the library. *)
Set Warnings "-notation-overridden,-ambiguous-paths".
From mathcomp Require Import all_ssreflect all_algebra.
Import GRing.Theory Num.Theory.
Set Implicit Arguments.
Unset Strict Implicit.
Unset Printing Implicit Defensive.
Local Open Scope ring_scope.

(** a decomposition only succeeds on invertible matrices *)
Definition lu_sound (C : numClosedFieldType) (lu : forall n, 'M[C]_n -> bool) : Prop :=
  forall n (a : 'M[C]_n), lu n a -> a \in unitmx.
(** a determinant that is not known to be nonzero is reported as possibly zero *)
Definition det_sound (C : numClosedFieldType) (det_contains_zero : forall n, 'M[C]_n -> bool) : Prop :=
  forall n (a : 'M[C]_n), \det a = 0 -> det_contains_zero n a.
