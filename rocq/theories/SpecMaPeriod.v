(** Vocabulary for the period matrices of the Magma package. *)
From Coquelicot Require Import Coquelicot.
From Verif Require Import CArg ModelTree ModelPeriod ModelSymp SpecSymp SpecInter ModelMaTree ModelMaDiff ModelMaSum ModelMaPeriod SpecPeriod SpecQuad SpecMaSum SpecMaSymp.
Local Open Scope R_scope.

(** the schemes that the integration accepts: nodes inside ]-1,1[, one rule for each exponent *)
Definition scheme_ok (m : nat) (d : ma_diff) (s : scheme) : Prop :=
  match s with
  | DeScheme _ _ _ => True
  | GjScheme l N =>
      if (m =? 2)%nat then (1 <= N)%nat
      else length l = length (md_df d) /\
        forall s, In s l -> (N / 2 <= length (fst s))%nat /\ ((N + 1) / 2 <= length (snd s))%nat /\
          forall t, (t < N / 2)%nat -> -1 < nth t (fst s) 0 < 1
  end.

(** the approximation that a scheme gives for the integral of F from -1 to 1, where F is the differential
    for the exponent j, which is the q-th one *)
Definition scheme_rule (m : nat) (s : scheme) (q j : nat) (F : R -> C) : C :=
  match s with
  | DeScheme h lam N => de_rule lam h (N - 1) F
  | GjScheme l N =>
      if (m =? 2)%nat then gc_rule N (fun t => RtoC (sqrt (1 - t * t)) * F t)%C
      else let r := nth q l ([], []) in
        sym_rule N (fst r) (snd r) (fun t => cpow (RtoC (rroot (Z.of_nat m) (1 - t * t))) j * F t)%C
  end.

(** the integral of x^i dx/y^j over loop l of an edge, from one end to the other on sheet l and back on
    sheet l+1, with the rule [I] for the integral along the edge on the sheet y *)
Definition over_loop (m : nat) (j : nat) (l : nat) (I : C) : C :=
  ((root (Z.of_nat m) (- (Z.of_nat l * Z.of_nat j)) - root (Z.of_nat m) (- ((Z.of_nat l + 1) * Z.of_nat j))) * I)%C.

(** B has a row for each differential x^i dx/y^j and a column for each of the first c rows of b: the
    integral over the sum of the loops with the coefficients of that row.  y is w times the sheet Y k
    over edge k *)
Definition periods_over (m : nat) (x : list C) (d : ma_diff) (es : list edge) (s : nat -> scheme) (w : C) (Y : nat -> R -> C)
  (b : mat) (c : nat) (B : nat -> nat -> C) : Prop :=
  forall q i col, (q < length (md_df d))%nat -> (Z.of_nat i < nth q (md_df d) 0)%Z -> (col < c)%nat ->
    let j := Z.to_nat (md_jm d + Z.of_nat q) in
    B (offset (md_df d) q + i)%nat col =
    csum (length es) (fun k => csum (m - 1) (fun l =>
      ZC (get b col (k * (m - 1) + l)) *
      over_loop m j l (scheme_rule m (s k) q j
        (form_on_edge x (ea (nth k es no_edge)) (eb (nth k es no_edge)) (fun t => w * Y k t)%C j i))))%C.

(** Rank: the largest number of independent integer combinations of the rows *)
Definition rank_at_least (r k : nat) (a : mat) : Prop :=
  exists v : nat -> nat -> Z, forall c : nat -> Z,
    (forall j, (j < r)%nat -> zsum k (fun i => c i * zsum r (fun l => v i l * get a l j)) = 0)%Z -> forall i, (i < k)%nat -> c i = 0%Z.
Definition rank_ok (rank : mat -> nat) : Prop :=
  forall r a, square r a -> rank_at_least r (rank a) a /\ ~ rank_at_least r (S (rank a)) a.
(** inverse of a matrix *)
Definition cdelta (i j : nat) : C := RtoC (if (i =? j)%nat then 1 else 0).
Definition inverse_of (n : nat) (a b : cmat) : Prop :=
  forall i j, (i < n)%nat -> (j < n)%nat ->
    csum n (fun k => mget a i k * mget b k j)%C = cdelta i j /\ csum n (fun k => mget b i k * mget a k j)%C = cdelta i j.
Definition inv_ok (inv : nat -> cmat -> option cmat) : Prop :=
  forall n a, match inv n a with Some b => inverse_of n a b | None => forall b, ~ inverse_of n a b end.
Definition rget (a : list (list R)) (i j : nat) : R := nth j (nth i a []) 0.
Fixpoint rsum (n : nat) (f : nat -> R) : R := match n with O => 0 | S k => rsum k f + f k end.
Definition rinverse_of (n : nat) (a b : list (list R)) : Prop :=
  forall i j, (i < n)%nat -> (j < n)%nat ->
    rsum n (fun k => rget a i k * rget b k j) = (if (i =? j)%nat then 1 else 0) /\
    rsum n (fun k => rget b i k * rget a k j) = (if (i =? j)%nat then 1 else 0).
Definition rinv_ok (rinv : nat -> list (list R) -> option (list (list R))) : Prop :=
  forall n a, match rinv n a with Some b => rinverse_of n a b | None => forall b, ~ rinverse_of n a b end.

(** s k is the scheme of edge k, for the e edges *)
Definition schemes_fit (m : nat) (d : ma_diff) (e : nat) (ch : list nat * list scheme) (s : nat -> scheme) : Prop :=
  forall k, (k < e)%nat -> exists i, nth_error (fst ch) k = Some i /\ nth_error (snd ch) i = Some (s k) /\ scheme_ok m d (s k).

(** real and imaginary parts, one below the other *)
Definition parts (g : nat) (v : nat -> C) (l : nat) : R := if (l <? g)%nat then fst (v l) else snd (v (l - g)%nat).

(** What a run gives: the integrals along the edges and over the loops of b (see periods_over); in the small
    matrix tau the g columns of the B-cycles in terms of those of the A-cycles, symmetric up to the error; in
    the reduction matrix the coordinates of every vector in the columns of the big matrix *)
Definition periods_ok (m : nat) (x : list C) (d : ma_diff) (es : list edge) (s : nat -> scheme) (w : C) (Y : nat -> R -> C) (b : mat)
  (small ajm : bool) (err : R) (r : periods) : Prop :=
  let g := Z.to_nat (md_g d) in
  (length (p_big r) = g /\ forall row, In row (p_big r) -> length row = (2 * g)%nat) /\
  periods_over m x d es s w Y b (2 * g) (mget (p_big r)) /\
  (length (p_elem r) = length es /\
   forall k q i, (k < length es)%nat -> (q < length (md_df d))%nat -> (Z.of_nat i < nth q (md_df d) 0)%Z ->
     let j := Z.to_nat (md_jm d + Z.of_nat q) in
     mget (p_elem r) k (offset (md_df d) q + i)%nat = scheme_rule m (s k) q j
       (form_on_edge x (ea (nth k es no_edge)) (eb (nth k es no_edge)) (fun t => w * Y k t)%C j i)) /\
  match p_small r with
  | None => small = false
  | Some tau => small = true /\ forall i j, (i < g)%nat -> (j < g)%nat ->
      csum g (fun k => mget (p_big r) i k * mget tau k j)%C = mget (p_big r) i (g + j)%nat /\ Cmod (mget tau i j - mget tau j i)%C < err
  end /\
  match p_red r with
  | None => ajm = false
  | Some rd => ajm = true /\ forall v i, (i < g)%nat ->
      v i = csum (2 * g) (fun k => mget (p_big r) i k * RtoC (rsum (2 * g) (fun l => rget rd k l * parts g v l)%R))%C
  end.
