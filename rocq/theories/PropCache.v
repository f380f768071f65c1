(** C39-C41, C55: integration of all the edges of the tree.  Statements only. *)
From Coq Require Import Permutation.
From Verif Require Import Base ModelTree ModelCurve ModelCache SpecCache ProofCache.
Local Open Scope Z_scope.

(** C39 is false: as soon as an edge needs more points than the first one, the first scheme is
    kept for it, for every curve. *)
Theorem C39_too_few_points_refuted :
  forall c a n, 1 <= sec_n c -> 0 <= sec_g c -> 1 <= a -> a < n ->
    (n + 1) * (sec_n c + sec_g c + 1) < 2 ^ 62 ->
    gc_schemes c 0 [a; n] = Done [a; a].
Proof. exact gc_scheme_too_small. Qed.
Print Assumptions C39_too_few_points_refuted.

(** It holds when the requested numbers of points do not increase along the processing order
    (missing: nothing in the code enforces this). *)
Theorem C39_decreasing_requests_partial :
  forall c reqs, params_small c reqs -> non_increasing reqs ->
    exists l, gc_schemes c 0 reqs = Done l /\ Forall2 (fun s n => n <= s) l reqs.
Proof. intros c reqs H1 H2. exact (gc_schemes_decreasing c reqs 0 (or_introl eq_refl) H1 H2 (or_introl eq_refl)). Qed.
Print Assumptions C39_decreasing_requests_partial.

Example C39_nonvacuous : exists c, sec_init 2 7 = Done c /\ params_small c [100; 97; 40; 40] /\
  non_increasing [100; 97; 40; 40] /\ gc_schemes c 0 [100; 97; 40; 40] = Done [100; 100; 40; 40].
Proof.
  eexists. split; [vm_compute; reflexivity|]. split; [|split; [cbn; lia|vm_compute; reflexivity]].
  split; [cbn; lia|]. split; [cbn; lia|]. cbn [sec_n sec_g In]. intros n Hn. lia.
Qed.

(** C40: the unsigned subtraction wraps around, so a larger request makes a new scheme.  The
    scheme used for an edge has enough points for it and is one computed, with its step and error
    radius, for this edge or one processed before. *)
Theorem C40_enough_points :
  forall c reqs, 1 <= sec_n c -> 0 <= sec_g c ->
    (forall k n, In (k, n) reqs -> 1 <= n /\ n * (sec_n c + sec_g c + 1) < 2 ^ 64) ->
    length (de_schemes c false no_scheme reqs) = length reqs /\
    forall p, (p < length reqs)%nat ->
      let s := nth p (de_schemes c false no_scheme reqs) no_scheme in
      snd (nth p reqs (0%nat, 0)) <= ds_n s /\ In (ds_edge s, ds_n s) (firstn (S p) reqs).
Proof.
  intros c reqs H1 H2 H3. destruct (de_schemes_enough c reqs no_scheme H1 H2) as [HL H]; [cbn; lia|exact H3|].
  split; [exact HL|]. intros p Hp. destruct (H p Hp) as [A B]. split; [exact A|].
  destruct B as [[B _]|B]; [cbn in B; lia|exact B].
Qed.
Print Assumptions C40_enough_points.

Example C40_nonvacuous : exists c, sec_init 3 5 = Done c /\
  (forall k n, In (k, n) [(2%nat, 50); (0%nat, 49); (1%nat, 80); (3%nat, 20)] -> 1 <= n /\ n * (sec_n c + sec_g c + 1) < 2 ^ 64) /\
  de_schemes c false no_scheme [(2%nat, 50); (0%nat, 49); (1%nat, 80); (3%nat, 20)] =
    [{| ds_n := 50; ds_edge := 2 |}; {| ds_n := 50; ds_edge := 2 |}; {| ds_n := 80; ds_edge := 1 |}; {| ds_n := 20; ds_edge := 3 |}].
Proof.
  eexists. split; [vm_compute; reflexivity|]. split; [|vm_compute; reflexivity]. cbn [sec_n sec_g In]. intros k n Hn.
  repeat (destruct Hn as [Hn|Hn]; [injection Hn as <- <-; lia|]). contradiction.
Qed.

(** With the option that keeps one scheme for all edges the number of points may be too small. *)
Theorem C40_same_scheme_option_refuted :
  forall c a n, 1 <= a -> a < n -> de_schemes c true no_scheme [(0%nat, a); (1%nat, n)] =
    [{| ds_n := a; ds_edge := 0 |}; {| ds_n := a; ds_edge := 0 |}].
Proof.
  intros c a n H1 H2. cbn [de_schemes]. unfold de_update. cbn [no_scheme ds_n Z.eqb orb negb].
  rewrite (proj2 (Z.eqb_neq a 0)) by lia. reflexivity.
Qed.
Print Assumptions C40_same_scheme_option_refuted.

(** C41: for any sorting function (one that permutes its input), any integration of an edge and
    any way schemes are carried over, every row of the matrix is written exactly once, with the
    integrals of its own edge. *)
Theorem C41_each_edge_once :
  forall (Row Scheme Key : Type) (s0 : Scheme) (integ : Scheme -> nat -> outcome (Row * Scheme))
    (qsort : list (Key * nat) -> list (Key * nat)) keys rows,
    (forall l, Permutation (qsort l) l) -> length rows = length keys ->
    (forall rows', integrals_tree s0 integ qsort keys rows = Done rows' ->
      exists order rs, Permutation order (seq 0 (length keys)) /\ run integ s0 order rs /\ length rows' = length keys /\
        forall p d, (p < length keys)%nat -> nth (nth p order 0%nat) rows' d = nth p rs d) /\
    ((forall s k, exists r, integ s k = Done r) -> exists rows', integrals_tree s0 integ qsort keys rows = Done rows').
Proof.
  intros Row Scheme Key s0 integ qsort keys rows Hq HL. split.
  - intros rows'. exact (integrals_tree_spec s0 integ qsort keys rows rows' Hq HL).
  - exact (integrals_tree_done s0 integ qsort keys rows Hq HL).
Qed.
Print Assumptions C41_each_edge_once.

Example C41_nonvacuous : let integ := (fun (s : nat) (k : nat) => Done ((10 * k)%nat, S s)) in
  (forall s k, exists r, integ s k = Done r) /\
  integrals_tree 0%nat integ (@rev (Z * nat)) [5; 6; 7] [1; 1; 1]%nat = Done [0; 10; 20]%nat /\
  (forall l : list (Z * nat), Permutation (rev l) l).
Proof.
  cbn zeta. split; [intros; eexists; reflexivity|]. split; [reflexivity|].
  intros l. symmetry. apply Permutation_rev.
Qed.

(** C55, when only one edge is processed (missing: the following edges, for which it fails). *)
Theorem C55_first_edge_partial :
  forall c same k n reqs, nth 0 (de_schemes c same no_scheme ((k, n) :: reqs)) no_scheme = {| ds_n := n; ds_edge := k |}.
Proof. reflexivity. Qed.
Print Assumptions C55_first_edge_partial.

(** C55 is false for the double exponential method: when a scheme is kept, the radius added is
    the one computed for the branch points of another edge. *)
Theorem C55_radius_of_another_edge_refuted :
  forall c n, 1 <= sec_n c -> 0 <= sec_g c -> 1 <= n < 2 ^ 64 ->
    de_schemes c false no_scheme [(0%nat, n); (1%nat, n)] =
      [{| ds_n := n; ds_edge := 0 |}; {| ds_n := n; ds_edge := 0 |}].
Proof. exact same_request_keeps_radius. Qed.
Print Assumptions C55_radius_of_another_edge_refuted.
