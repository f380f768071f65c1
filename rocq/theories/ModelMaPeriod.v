(** Model of the period matrices of the Magma package: magma/se_periods/se_period_matrix.m:18-199, with
    DE_Integrals_Tree (se_de_int.m:318-328), GJ_Integrals_Tree (se_gj_int.m:519-535) and the choice of the
    integration type (se_curve.m:101-120).

    Numbers are exact, so the changes of precision (ChangeRing) are left out.  Magma's indices start
    from 1 and those of the model from 0; an index out of range is [Fault OutOfBounds], an error or a
    failed assertion [Abort].  The rank and the inverse of a matrix are Magma's own and parameters. *)
From Verif Require Import CArg ModelTree ModelVec ModelPeriod ModelTurn ModelSymp ModelMaRoot ModelMaDiff ModelMaFactor ModelMaSum ModelMaTree ModelMaInter ModelMaSymp ModelMaAjm.
Local Open Scope nat_scope.

(** an integration scheme: step, lambda and number of points, or abscissas and weights for each exponent *)
Inductive scheme := DeScheme (h lam : R) (N : nat) | GjScheme (l : list gj_scheme) (N : nat).

(** se_de_int.m:323; se_gj_int.m:525-531 *)
Definition edge_periods (e : se_edge) (m n : nat) (d : ma_diff) (ze : vec) (s : scheme) : outcome (list (list C) * list C) :=
  match s with
  | DeScheme h lam N => de_integrals_edge e m n d ze h lam N
  | GjScheme l N =>
      if m =? 2 then
        do r <- gc_integrals_edge e n (Z.to_nat (md_g d)) ze N;
        Done (gc_rows (fst r), snd r)
      else gj_integrals_edge e m n d ze l N
  end.
(** se_de_int.m:320-327; se_gj_int.m:521-534; [ix] has the number of the scheme of each edge (IntSch) *)
Fixpoint tree_periods (ds : list se_edge) (ix : list nat) (schemes : list scheme) (m n : nat) (d : ma_diff) (ze : vec) : outcome (list (list (list C)) * list (list C)) :=
  match ds, ix with
  | [], _ => Done ([], [])
  | _ :: _, [] => Fault OutOfBounds
  | e :: ds, i :: ix =>
      do s <- tget schemes i;
      do r <- edge_periods e m n d ze s;
      do rs <- tree_periods ds ix schemes m n d ze;
      Done (fst r :: fst rs, snd r :: snd rs)
  end.

Fixpoint collect {A B} (f : A -> outcome B) (l : list A) : outcome (list B) :=
  match l with [] => Done [] | a :: l => do b <- f a; do bs <- collect f l; Done (b :: bs) end.

(** se_period_matrix.m:106 *)
Definition read_period (ps : list (list (list C))) (k j l : nat) : outcome C :=
  do p <- tget ps k; do r <- tget p j; vread r l.
(** se_period_matrix.m:101-109: row j of PM *)
Definition period_row (ps : list (list (list C))) (m n j : nat) : outcome vec :=
  oloop (fun row k => oloop (fun row l => do z <- read_period ps k j l; vwrite row ((m - 1) * k + l) z) (seq 0 (m - 1)) row)
    (seq 0 (n - 1)) (repeat (RtoC 0) ((m - 1) * (n - 1))).
(** se_period_matrix.m:130, 134, 140: row of D * PM * ST_C, where D is diagonal with entry c *)
Definition big_row (g : nat) (st : mat) (c : C) (row : vec) : vec :=
  vtab (2 * g) (fun k => c * csum (length row) (fun i => vget row i * ZC (get st k i)))%C.
(** se_curve.m:276-277: diagonal entry of DifferentialChangeMatrix *)
Definition change_entry (m : nat) (lc : C) (jpows : list Z) (j : nat) : outcome C :=
  do jp <- sread jpows j;
  Done (cexp (RtoC (IZR jp) * (- RtoC (1 / INR m) * clog lc))%C).

Definition mget (a : cmat) (i j : nat) : C := vget (nth i a []) j.
(** se_period_matrix.m:145-153 *)
Definition embed (g : nat) (big : cmat) : list (list R) :=
  map (fun i => map (fun k => if i <? g then fst (mget big i k) else snd (mget big (i - g) k)) (seq 0 (2 * g))) (seq 0 (2 * g)).
(** se_period_matrix.m:160: columns 1 to g, and the product of the inverse with the others *)
Definition left_half (g : nat) (big : cmat) : cmat := map (fun i => vtab g (fun k => mget big i k)) (seq 0 g).
Definition times_right (g : nat) (a big : cmat) : cmat :=
  map (fun i => vtab g (fun k => csum g (fun l => mget a i l * mget big l (g + k)))%C) (seq 0 g).
(** se_period_matrix.m:167-172 *)
Definition asymmetry (g : nat) (tau : cmat) : R :=
  fold_left (fun d j => fold_left (fun d k => Rmax d (Cmod (mget tau j k - mget tau k j)%C)) (seq (S j) (g - S j)) d) (seq 0 g) 0%R.

(** ElementaryIntegrals, BigPeriodMatrix, ReductionMatrix, SmallPeriodMatrix *)
Record periods := { p_elem : list vec; p_big : cmat; p_red : option (list (list R)); p_small : option cmat }.

Section Run.
Variable rank : mat -> nat.
Variable inv : nat -> cmat -> option cmat.
Variable rinv : nat -> list (list R) -> option (list (list R)).

(** se_period_matrix.m:143-156 *)
Definition reduction_matrix (ajm : bool) (g : nat) (big : cmat) : outcome (option (list (list R))) :=
  if ajm then match rinv (2 * g) (embed g big) with Some r => Done (Some r) | None => Abort end else Done None.
(** se_period_matrix.m:158-193 *)
Definition small_matrix (small : bool) (err : R) (g : nat) (big : cmat) : outcome (option cmat) :=
  if small then
    match inv g (left_half g big) with
    | None => Abort
    | Some a => let tau := times_right g a big in if Rlt_dec (asymmetry g tau) err then Done (Some tau) else Abort
    end
  else Done None.

(** se_period_matrix.m:50-199 *)
Definition se_period_matrix (points ze : vec) (m n : nat) (lc : C) (d : ma_diff) (es : list tedge) (ds : list se_edge)
  (ix : list nat) (schemes : list scheme) (small ajm : bool) (err : R) : outcome periods :=
  let g := Z.to_nat (md_g d) in
  do pe <- tree_periods ds ix schemes m n d ze;
  do elem <- collect (change_differentials m lc (md_jpows d)) (snd pe);
  do pm <- collect (period_row (fst pe) m n) (seq 0 g);
  do k <- se_intersections points ze m n es ds;
  if negb (rank k =? 2 * g) then Abort else
  do st <- symplectic_basis k;
  if length st <? 2 * g then Abort else
  do cs <- collect (change_entry m lc (md_jpows d)) (seq 0 g);
  let big := map (fun j => big_row g st (vget cs j) (nth j pm [])) (seq 0 g) in
  do red <- reduction_matrix ajm g big;
  do sm <- small_matrix small err g big;
  Done {| p_elem := elem; p_big := big; p_red := red; p_small := sm |}.

(** IntegrationType *)
Inductive option_type := OOpt | ODE | OGJ.
(** se_curve.m:101-120 *)
Definition chosen_type (m : nat) (o : option_type) : itype :=
  if 2 <? m then match o with OGJ => GJ | _ => DE end else match o with ODE => DE | _ => GJ end.

(** SE_Curve (se_curve.m:65-290) up to the period matrices.  [p] are the branch points in low precision
    and [x] in full precision; [sort] is Sort; [choose] gives the schemes for the tree and the number of
    the one of each edge *)
Definition se_curve_periods (sort : list tedge -> list tedge) (choose : sptree * itype -> list nat * list scheme)
  (o : option_type) (p x : vec) (m : nat) (lc : C) (small ajm : bool) (err : R) : outcome periods :=
  let n := length x in
  if negb ((2 <=? m) && (3 <=? n)) then Abort else
  do d <- ma_differentials (Z.of_nat m) (Z.of_nat n);
  do t <- spanning_tree_ma sort (chosen_type m o) p;
  do ds <- tree_data x (zetas m) m n (s_edges (fst t));
  se_period_matrix x (zetas m) m n lc d (s_edges (fst t)) ds (fst (choose t)) (snd (choose t)) small ajm err.

(** se_period_matrix.m:23-27, for the polynomial with leading coefficient lc and roots x *)
Definition big_of_polynomial sort choose (o : option_type) (p x : vec) (m : nat) (lc : C) (err : R) : outcome cmat :=
  do r <- se_curve_periods sort choose o p x m lc false false err; Done (p_big r).
(** se_period_matrix.m:28-32: neither LeadingCoeff, the argument lc, nor IntegrationType, the argument o, is passed on *)
Definition big_of_points sort choose (o : option_type) (p x : vec) (m : nat) (lc : C) (err : R) : outcome cmat :=
  do r <- se_curve_periods sort choose OOpt p x m (RtoC 1) false false err; Done (p_big r).
(** se_period_matrix.m:38-42 *)
Definition small_of_polynomial sort choose (o : option_type) (p x : vec) (m : nat) (lc : C) (err : R) : outcome (option cmat) :=
  do r <- se_curve_periods sort choose o p x m lc true false err; Done (p_small r).
(** se_period_matrix.m:43-47: LeadingCoeff is not passed on *)
Definition small_of_points sort choose (o : option_type) (p x : vec) (m : nat) (lc : C) (err : R) : outcome (option cmat) :=
  do r <- se_curve_periods sort choose o p x m (RtoC 1) true false err; Done (p_small r).
End Run.
