(** C50: release of resources.  Statements only.  A life is: initialise, compute any number of times
    with any flags, clear. *)
From Verif Require Import Base ModelCli ModelStage ModelRes SpecRes ProofRes.
Local Open Scope Z_scope.

(** For every curve and every sequence of calls: nothing is cleared twice, before it is initialised or
    beyond its length (each of these is a fault of the model), and the number of blocks that are not
    released, or not entirely, is exactly [total_lost]. *)
Theorem C50_count_partial :
  forall m n g edges calls, 1 <= m -> 0 <= n -> 0 <= g -> Forall (fun fc => sensible g (snd fc)) calls ->
    exists h, life m n g edges calls empty_heap = Done (tt, h) /\ unreleased h (total_lost m n g edges calls).
Proof. intros m n g edges calls Hm Hn Hg HF. exact (life_ok m n g edges Hm Hn Hg calls HF). Qed.
Print Assumptions C50_count_partial.

(** Without a computation everything is released. *)
Theorem C50_no_compute_partial :
  forall m n g edges, 1 <= m -> 0 <= n -> 0 <= g ->
    exists h, life m n g edges [] empty_heap = Done (tt, h) /\ forall i, h_cell h i = 0.
Proof.
  intros m n g edges Hm Hn Hg. destruct (life_ok m n g edges Hm Hn Hg [] (Forall_nil _)) as (h & E & H).
  exact (ex_intro _ h (conj E (unreleased_zero h H))).
Qed.
Print Assumptions C50_no_compute_partial.

(** Each call, whatever its flags, loses at least a block. *)
Theorem C50_leak_refuted :
  forall m n g edges calls, 1 <= m -> 0 <= n -> 0 <= g -> Forall (fun fc => sensible g (snd fc)) calls -> calls <> [] ->
    exists h k, life m n g edges calls empty_heap = Done (tt, h) /\ unreleased h k /\ (length calls <= k)%nat.
Proof.
  intros m n g edges calls Hm Hn Hg HF Hne. destruct (life_ok m n g edges Hm Hn Hg calls HF) as (h & E & H).
  exact (ex_intro _ h (ex_intro _ _ (conj E (conj H (total_pos m n g edges calls Hne))))).
Qed.
Print Assumptions C50_leak_refuted.

(** genus 2: all edges meet in pairs, one new scheme *)
Definition c50_choices : choices :=
  {| ch_root := fun _ => true; ch_meet := [(0, 1); (1, 2); (2, 3)]%nat; ch_a := [1; 2]; ch_b := [2; 1];
     ch_gc := fun k => if (k =? 0)%nat then Some 60 else None; ch_de := fun _ => None; ch_turn := fun _ => [false; false];
     ch_solve := true; ch_det0 := false; ch_real1 := false; ch_real2 := false |}.
Example C50_example :
  Forall (fun fc => sensible 2 (snd fc)) [(AJ_NO_TAU, c50_choices); (0, c50_choices)] /\
  total_lost 2 5 2 4 [(AJ_NO_TAU, c50_choices); (0, c50_choices)] = (2 * (6 + 1 + 1) + 4)%nat.
Proof.
  split; [|reflexivity]. assert (S : sensible 2 c50_choices).
  { repeat split; cbn; try discriminate; [|left; reflexivity]. intros k np. destruct (k =? 0)%nat; [intros [= <-]; lia|discriminate]. }
  repeat (constructor; [exact S|]). constructor.
Qed.
