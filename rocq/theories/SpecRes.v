(** Unreleased resources at the end of a run. *)
From Verif Require Import Base ModelCli ModelStage ModelRes.
Local Open Scope Z_scope.

(** exactly [k] blocks, or elements of blocks, that were acquired are not released *)
Definition unreleased (h : heap) (k : nat) : Prop :=
  exists l, NoDup l /\ length l = k /\ forall i, In i l <-> h_cell h i <> 0.

Definition count_true (l : list bool) : nat := length (filter (fun b => b) l).
Definition count_zero (l : list Z) : nat := length (filter (fun z => z =? 0) l).

(** what a solution by real matrices leaves *)
Definition lost_real (g : Z) : nat := if g =? 0 then 0%nat else 2%nat.
Definition lost_tau (g : Z) (c : choices) : nat :=
  if ch_solve c then 0%nat
  else (1 + lost_real g + if ch_real1 c then 0 else lost_real g)%nat.
(** failed turns: a temporary each *)
Definition lost_turns (edges : nat) (c : choices) : nat := list_sum (map (fun k => count_true (ch_turn c k)) (seq 0 edges)).
(** new Gauss-Chebychev schemes: one element each *)
Definition lost_gc (edges : nat) (c : choices) : nat :=
  list_sum (map (fun k => match ch_gc c k with Some np => if np =? 0 then 0%nat else 1%nat | None => 0%nat end) (seq 0 edges)).
(** blocks lost by a call, not counting loops *)
Definition lost (m n g : Z) (edges : nat) (flag : Z) (c : choices) : nat :=
  2 * length (ch_meet c) +
  if has flag AJ_NO_INT then 1 + edges
  else
    1 + match int_type m n flag with
        | INT_D2 => 0
        | INT_GC => lost_gc edges c + lost_turns edges c
        | INT_DE => lost_turns edges c
        end +
    (if has flag AJ_NO_AB then 0 else if has flag AJ_NO_TAU then 0 else lost_tau g c).
(** loops: all those of a call but the last, those without terms of the last *)
Fixpoint lost_loops (calls : list (Z * choices)) : nat :=
  match calls with
  | [] => 0
  | [(_, c)] => count_zero (ch_a c) + count_zero (ch_b c)
  | (_, c) :: calls => length (ch_a c) + length (ch_b c) + lost_loops calls
  end.
Definition total_lost (m n g : Z) (edges : nat) (calls : list (Z * choices)) : nat :=
  list_sum (map (fun fc => lost m n g edges (fst fc) (snd fc)) calls) + lost_loops calls.

(** meaningful choices: g loops of each kind, no negative number of points, and no abort *)
Definition sensible (g : Z) (c : choices) : Prop :=
  length (ch_a c) = Z.to_nat g /\ length (ch_b c) = Z.to_nat g /\
  (forall k np, ch_gc c k = Some np -> 0 <= np) /\ (forall k np, ch_de c k = Some np -> 0 <= np) /\
  (ch_solve c = true \/ ch_det0 c = false).
