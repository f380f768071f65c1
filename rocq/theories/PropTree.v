(** C21-C23: the tree of edges.  Statements only.  [param i j k] is the quality of edge
    (i,j) against point k; [sort] is qsort. *)
From Verif Require Import Base ModelTree SpecTree ProofTree ProofTreeMax ProofTreeEx.

(** C21: whatever permutation the sort returns and whatever the weights (NaN included), the
    edges form a tree grown edge by edge, within the points, and all of them when
    len-1 edges are requested. *)
Theorem C21_spanning_tree :
  forall sort param len n r mn, (forall l, Permutation l (sort l)) -> (n < len)%nat ->
    exists l r' mn', spanning_tree sort param len n r mn = Done (l, r', mn') /\ length l = n /\
      growing l /\ connected l /\ acyclic l /\ (forall v, touched l v -> (v < len)%nat) /\
      ((1 <= n)%nat -> S n = len -> forall v, (v < len)%nat -> touched l v).
Proof. exact tree_final. Qed.
Print Assumptions C21_spanning_tree.

(** The array of candidate edges is exactly filled: len(len-1)/2 entries, each pair once. *)
Theorem C21_candidate_edges :
  forall param len, (2 * length (edges_init param len) = len * (len - 1))%nat /\
    complete len (edges_init param len).
Proof. intros. exact (conj (edges_init_length param len) (edges_init_complete param len)). Qed.
Print Assumptions C21_candidate_edges.

(** weights of a five point example: |i-j| modulo 3, with one NaN *)
Definition param_ex (i j k : nat) : dbl :=
  if ((i =? 0) && (j =? 4))%nat then None else Some (Z.of_nat ((i + 2 * j + k) mod 7) + 1).
Example C21_nonvacuous :
  (forall l, Permutation l (isort l)) /\
  exists l r' mn', spanning_tree isort param_ex 5 4 (Some 0) 0 = Done (l, r', mn') /\
    map (fun x => (ea x, eb x)) l = [(3, 4); (4, 2); (4, 1); (4, 0)]%nat.
Proof. split; [exact isort_perm|]. do 3 eexists. split; vm_compute; reflexivity. Qed.

(** C22: any two points of the tree joined in the complete graph by edges of weight >= w are
    joined in the tree by edges of weight >= w. *)
Theorem C22_maximal_bottleneck :
  forall sort param len n r mn l r' mn' w, qsort_ok sort -> (n < len)%nat ->
    (forall y, In y (edges_init param len) -> is_number (er y)) ->
    spanning_tree sort param len n r mn = Done (l, r', mn') ->
    forall u v, touched l u -> touched l v ->
      linked (heavy w (edges_init param len)) u v -> linked (heavy w l) u v.
Proof. exact tree_max_final. Qed.
Print Assumptions C22_maximal_bottleneck.

(** The weight of an edge is the worst value over the other points. *)
Theorem C22_edge_weight :
  forall sort param len n r mn l r' mn', (forall l, Permutation l (sort l)) -> (n < len)%nat -> (3 <= len)%nat ->
    (forall i j k, exists z, param i j k = Some z /\ 0 <= z) ->
    spanning_tree sort param len n r mn = Done (l, r', mn') ->
    forall x, In x l -> exists z, er x = Some z /\ 0 <= z /\
      let i := Nat.min (ea x) (eb x) in let j := Nat.max (ea x) (eb x) in
      (forall k y, (k < len)%nat -> k <> i -> k <> j -> param i j k = Some y -> z <= y) /\
      exists k, (k < len)%nat /\ k <> i /\ k <> j /\ param i j k = Some z.
Proof.
  intros sort param len n r mn l r' mn' Hs Hn Hlen Hp E x Hx.
  rewrite (tree_weights sort param len n r mn l r' mn' Hs Hn E x Hx).
  set (i := Nat.min _ _). set (j := Nat.max _ _).
  destruct (param_loop_first (param i j) i j (seq 0 len)) as (z & E1 & H0 & H1 & k & Hk & H2).
  - intros k _ _ _. apply Hp.
  - destruct (Nat.eq_dec i 0) as [Ei|Ei], (Nat.eq_dec j 0) as [Ej|Ej], (Nat.eq_dec i 1) as [Ei1|Ei1], (Nat.eq_dec j 1) as [Ej1|Ej1];
      first [exists 0%nat; split; [apply in_seq; lia|lia] | exists 1%nat; split; [apply in_seq; lia|lia] | exists 2%nat; split; [apply in_seq; lia|lia]].
  - exists z. conj; [exact E1|exact H0|]. cbn zeta. split.
    + intros k' y Hk'. apply H1. apply in_seq. lia.
    + exists k. split; [apply in_seq in Hk; lia|exact H2].
Qed.
Print Assumptions C22_edge_weight.

Theorem C22_sort_contract_satisfiable : qsort_ok isort.
Proof. exact isort_ok. Qed.

Definition param_num (i j k : nat) : dbl := Some (Z.of_nat ((3 * i * i + 5 * j + 2 * k) mod 11) + 1).
Example C22_nonvacuous :
  (forall y, In y (edges_init param_num 6) -> is_number (er y)) /\
  exists l r' mn', spanning_tree isort param_num 6 5 (Some 0) 0 = Done (l, r', mn') /\
    r' = Some 2 /\ mn' = 2%nat /\ map er l = [Some 3; Some 3; Some 2; Some 2; Some 2].
Proof.
  split.
  - intros y Hy. vm_compute in Hy.
    repeat (destruct Hy as [<-|Hy]; [discriminate|]). contradiction.
  - do 3 eexists. split; [vm_compute; reflexivity|]. vm_compute. auto.
Qed.

(** C23: on a freshly initialised tree, if no weight is 0 or NaN, the reported index denotes a
    tree edge of smallest weight and the reported value is that weight ... *)
Theorem C23_worst_edge :
  forall sort param len n mn l r' mn', (forall l, Permutation l (sort l)) -> (1 <= n < len)%nat ->
    spanning_tree sort param len n (Some 0) mn = Done (l, r', mn') ->
    (forall x, In x l -> exists y, er x = Some y /\ y <> 0) ->
    exists z x, r' = Some z /\ nth_error l mn' = Some x /\ er x = Some z /\
      (forall x y, In x l -> er x = Some y -> z <= y).
Proof. exact tree_worst. Qed.
Print Assumptions C23_worst_edge.

(** ... computing the tree again, without initialising it, gives the same answer ... *)
Theorem C23_second_computation :
  forall sort param len n mn l r' mn', (forall l, Permutation l (sort l)) -> (1 <= n < len)%nat ->
    spanning_tree sort param len n (Some 0) mn = Done (l, r', mn') ->
    (forall x, In x l -> exists y, er x = Some y /\ y <> 0) ->
    spanning_tree sort param len n r' mn' = Done (l, r', mn').
Proof. exact tree_again. Qed.
Print Assumptions C23_second_computation.

Example C23_nonvacuous :
  exists l r' mn', spanning_tree isort param_num 6 5 (Some 0) 0 = Done (l, r', mn') /\
    (forall x, In x l -> exists y, er x = Some y /\ y <> 0) /\ length l = 5%nat.
Proof.
  do 3 eexists. split; [vm_compute; reflexivity|]. split; [|reflexivity].
  cbn [In]. intros x Hx. repeat (destruct Hx as [<-|Hx]; [eexists; split; [reflexivity|lia]|]). contradiction.
Qed.

(** ... but a weight 0 is taken for "not set yet", and later edges replace it. *)
Theorem C23_zero_weight_refuted :
  exists param l z mn, spanning_tree isort param 4 3 (Some 0) 0 = Done (l, Some z, mn) /\
    exists x y, In x l /\ er x = Some y /\ y < z.
Proof.
  exists (fun i j _ => Some (if ((i =? 0) && (j =? 1))%nat then 5 else if ((i =? 2) && (j =? 3))%nat then 3 else 0)).
  do 3 eexists. split; [vm_compute; reflexivity|].
  eexists. exists 0. split; [right; left; reflexivity|]. split; [reflexivity|lia].
Qed.
Print Assumptions C23_zero_weight_refuted.
