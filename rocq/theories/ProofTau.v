Set Warnings "-notation-overridden,-ambiguous-paths".
From mathcomp Require Import all_ssreflect all_algebra.
From Verif Require Base.
From Verif Require Import ModelTau SpecTau.
Import GRing.Theory Num.Theory.
Set Implicit Arguments.
Unset Strict Implicit.
Unset Printing Implicit Defensive.
Local Open Scope ring_scope.

Section Tau.
Variable C : numClosedFieldType.
Implicit Types n m : nat.

Lemma mat_setE n m (r s : 'M[C]_(n, m)) : mat_set r s = r + 'i *: s.
Proof. by apply/matrixP => i j; rewrite !mxE. Qed.
Lemma mat_split n m (X : 'M[C]_(n, m)) : X = mat_real X + 'i *: mat_imag X.
Proof. by apply/matrixP => i j; rewrite !mxE -Crect. Qed.

Section Real.
Variable lu : forall n, 'M[C]_n -> bool.
Hypothesis Hlu : lu_sound lu.

Lemma solve_real_ok n m (A : 'M[C]_n) (B X : 'M[C]_(n, m)) : solve_real lu A B = Some X -> A *m X = B.
Proof.
rewrite /solve_real; case: ifP => [/orP [] /eqP E|_].
- by move=> _; apply/matrixP => i j; case: i => i Hi; exfalso; rewrite E in Hi.
- by move=> _; apply/matrixP => i j; case: j => j Hj; exfalso; rewrite E in Hj.
set a := mat_real A; set b := mat_imag A; set c := mat_real B; set d := mat_imag B.
case: ifP => // /Hlu Ua; case: ifP => // /Hlu Us [<-].
rewrite mat_setE /solve_lu.
set t := invmx a *m b; set s := a + b *m t; set d' := invmx a *m d; set x := invmx s *m (c + b *m d').
rewrite {1}(mat_split A) -/a -/b mulmxDl !mulmxDr -!scalemxAl -!scalemxAr scalerA -expr2 sqrCi scaleN1r.
have Ed : a *m d' = d by rewrite /d' mulmxA mulmxV // mul1mx.
have Et : a *m t = b by rewrite /t mulmxA mulmxV // mul1mx.
have Ex : s *m x = c + b *m d' by rewrite /x mulmxA mulmxV // mul1mx.
have E1 : a *m x - b *m (d' - t *m x) = c.
  by rewrite mulmxBr opprB addrA (mulmxA b t x) -(mulmxDl a _ x) -/s Ex addrK.
have E2 : a *m (d' - t *m x) + b *m x = d.
  by rewrite mulmxBr Ed (mulmxA a t x) Et subrK.
rewrite [RHS]mat_split -/c -/d -[in RHS]E2 -[in RHS]E1 scalerDr.
by rewrite -!addrA [- _ + _]addrC -!addrA.
Qed.

(** success shows that the matrix is invertible *)
Lemma solve_real_unit n m (A : 'M[C]_n) (B X : 'M[C]_(n, m)) : (0 < n)%N -> (0 < m)%N ->
  solve_real lu A B = Some X -> A \in unitmx.
Proof.
move=> Hn Hm; rewrite /solve_real !gtn_eqF //=.
case Ha : (lu _) => //; case Hs : (lu _) => // _.
have [Y EY] : exists Y, solve_real lu A (1%:M : 'M_n) = Some Y.
  by rewrite /solve_real !gtn_eqF //= Ha Hs; eexists.
by case: (mulmx1_unit (solve_real_ok EY)).
Qed.
End Real.

Lemma mat_conj n (A : 'M[C]_n) : map_mx conjC A = mat_real A - 'i *: mat_imag A.
Proof.
by apply/matrixP => i j; rewrite !mxE {1}[A i j]Crect conjC_rect ?Creal_Re ?Creal_Im.
Qed.

(** with decompositions that always succeed on invertible matrices *)
Lemma solve_real_complete (lu : forall n, 'M[C]_n -> bool) n m (A : 'M[C]_n) (B : 'M[C]_(n, m)) :
  (forall n (a : 'M[C]_n), lu n a = (a \in unitmx)) ->
  A \in unitmx -> mat_real A \in unitmx -> exists X, solve_real lu A B = Some X.
Proof.
move=> Hlu UA Ua; rewrite /solve_real; case: ifP => _; first by eexists.
rewrite !Hlu Ua; set a := mat_real A; set b := mat_imag A; set s := a + _.
suff -> : s \in unitmx by eexists.
have -> : s = A *m (invmx a *m map_mx conjC A).
  rewrite mat_conj -/a -/b mulmxBr mulVmx // {1}(mat_split A) -/a -/b mulmxBr mulmx1 mulmxDl.
  rewrite -!scalemxAr -scalemxAl scalerA -expr2 sqrCi scaleN1r (mulmxA a) mulmxV // mul1mx.
  by rewrite opprD opprK addrA -(addrA a) subrr addr0.
by rewrite unitmx_mul UA unitmx_mul unitmx_inv Ua map_unitmx.
Qed.

(** characteristic polynomial *)
Lemma loop_sum n m (A : 'M[C]_n.+1) chi : forall r k (AB X : 'M[C]_(n.+1, m)),
  charpoly_loop A chi k r AB X = X + \sum_(j < r) (chi`_(k + j) *: A ^+ j.+1) *m AB.
Proof.
elim=> [|r IH] k AB X /=; first by rewrite big_ord0 addr0.
rewrite IH big_ord_recl addn0 expr1 -scalemxAl -addrA; congr (_ + (_ + _)).
apply: eq_bigr => j _; rewrite /bump /= ?add1n addnS addSn -!scalemxAl; congr (_ *: _).
by rewrite mulmxA mulmxE -exprSr.
Qed.

Lemma horner_mx_sum n (A : 'M[C]_n.+1) (p : {poly C}) : horner_mx A p = \sum_(i < size p) p`_i *: A ^+ i.
Proof.
rewrite -{1}[p]coefK poly_def rmorph_sum; apply: eq_bigr => i _.
by rewrite linearZ /= rmorphX /= horner_mx_X.
Qed.

(** coefficients after the division *)
Lemma divide_size b (chi : seq C) : size (divide_by_const b chi) = size chi.
Proof. by case: chi => //= c0 l; rewrite size_map. Qed.
Lemma divide_nth b (chi : seq C) k : chi`_0 != 0 ->
  (divide_by_const b chi)`_k.+1 = chi`_k.+1 / (if b then chi`_0 else 1).
Proof.
case: chi => [|c0 l] /= H0; first by rewrite mul0r.
rewrite divff //; case: (ltnP k (size l)) => Hk; first by rewrite (nth_map 0).
by rewrite !nth_default ?size_map // mul0r.
Qed.

Lemma charpoly_value b n m (A : 'M[C]_n.+1) (B : 'M[C]_(n.+1, m)) : A \in unitmx ->
  A *m solve_charpoly b A B = - ((if b then 1 else (-1) ^+ n.+1 * \det A) *: B).
Proof.
rewrite unitmxE unitfE => UA.
have H0 : (char_poly A)`_0 != 0 by rewrite char_poly_det mulf_neq0 // expf_neq0 // oppr_eq0 oner_neq0.
rewrite /solve_charpoly loop_sum divide_size size_char_poly /= divide_nth //.
set c0 := if b then (char_poly A)`_0 else 1.
have Hc0 : c0 != 0 by rewrite /c0; case: (b) => //; exact: oner_neq0.
have := Cayley_Hamilton A; rewrite horner_mx_sum size_char_poly big_ord_recl big_ord_recl => /= /eqP.
rewrite expr0 addr_eq0 => /eqP CH.
have -> : A *m ((char_poly A)`_1 / c0 *: B + \sum_(j < n) ((divide_by_const b (char_poly A))`_(2 + j) *: A ^+ j.+1) *m B)
   = c0^-1 *: (((char_poly A)`_1 *: A ^+ 1 + \sum_(j < n) (char_poly A)`_(bump 0 (bump 0 j)) *: A ^+ (bump 0 (bump 0 j))) *m B).
  rewrite mulmxDr mulmxDl scalerDr; congr (_ + _).
    by rewrite -scalemxAr mulrC -scalerA expr1 -scalemxAl.
  rewrite mulmx_sumr mulmx_suml scaler_sumr; apply: eq_bigr => j _.
  rewrite /bump /= !add1n add2n divide_nth // -/c0 -!scalemxAl -scalemxAr mulrC -scalerA.
  by rewrite mulmxA mulmxE -exprS.
have -> : (char_poly A)`_1 *: A ^+ 1 + \sum_(j < n) (char_poly A)`_(bump 0 (bump 0 j)) *: A ^+ (bump 0 (bump 0 j))
   = - (char_poly A)`_0 *: 1%:M.
  apply/eqP; rewrite scaleNr -addr_eq0 addrC addr_eq0; apply/eqP.
  by rewrite -[RHS]CH.
rewrite -scalemxAl mul1mx scalerA -scaleNr; congr (_ *: _).
rewrite mulrN mulrC; congr (- _); rewrite /c0; case: (b); first by rewrite divff.
by rewrite invr1 mulr1 char_poly_det.
Qed.

Lemma charpoly_wrong b n (HC : (0 < n)%N) : exists (A B : 'M[C]_n), A \in unitmx /\ A *m solve_charpoly b A B <> B.
Proof.
case: n HC => // n _; exists (2%:R%:M), 1%:M.
have U : (2%:R%:M : 'M[C]_n.+1) \in unitmx by rewrite unitmxE det_scalar unitrX // unitfE pnatr_eq0.
split=> //; rewrite charpoly_value // => /matrixP /(_ ord0 ord0); rewrite !mxE eqxx mulr1 => E.
move: E; case: b => /eqP; first by rewrite eq_sym -subr_eq0 opprK -(natrD _ 1 1) pnatr_eq0.
rewrite det_scalar -exprMn mulN1r => /eqP E; have := congr1 Num.norm E.
rewrite normrN normrX normrN normr_nat normr1 -natrX => /eqP; rewrite -[1]/(1%:R) eqr_nat.
by rewrite -{2}(expn0 2) eqn_exp2l.
Qed.

(** strategies *)
Section Multi.
Variables lu clu dz : forall n, 'M[C]_n -> bool.
Hypotheses (Hlu : lu_sound lu) (Hclu : lu_sound clu) (Hdz : det_sound dz).
Variable b : bool.

Lemma multi_ok n m (A : 'M[C]_n) (B X : 'M[C]_(n, m)) :
  clu A \/ solve_real lu A B <> None \/ solve_real lu ('i *: A) ('i *: B) <> None ->
  solve_multi lu clu dz b A B = Base.Done X -> A *m X = B.
Proof.
rewrite /solve_multi => H; case: ifP => [/Hclu UA [<-]|Hc].
  by rewrite /solve_lu mulmxA mulmxV // mul1mx.
case: ifP => // _; case E1 : (solve_real lu A B) => [Y|]; first by case=> <-; apply: (solve_real_ok Hlu E1).
case E2 : (solve_real lu ('i *: A) ('i *: B)) => [Y|].
  case=> <-; have := solve_real_ok Hlu E2; rewrite -scalemxAl => /(congr1 (fun M => 'i^-1 *: M)).
  by rewrite !scalerA mulVf ?neq0Ci // !scale1r.
by case: H => [H|[H|H]]; [rewrite H in Hc|rewrite E1 in H|rewrite E2 in H].
Qed.

Lemma multi_singular n m (A : 'M[C]_n) (B : 'M[C]_(n, m)) : A \notin unitmx ->
  solve_multi lu clu dz b A B = Base.Abort.
Proof.
rewrite /solve_multi => HA; case: ifP => [/Hclu UA|_]; first by rewrite UA in HA.
by rewrite Hdz //; apply/eqP; rewrite unitmxE unitfE negbK in HA.
Qed.

Lemma multi_abort n m (A : 'M[C]_n) (B : 'M[C]_(n, m)) :
  solve_multi lu clu dz b A B = Base.Abort <-> clu A = false /\ dz A = true.
Proof.
rewrite /solve_multi; case: (clu A); first by split=> // -[].
case: (dz A) => //; case: (solve_real _ _ _) => [?|]; first by split=> // -[].
by case: (solve_real _ _ _) => [?|]; split=> // -[].
Qed.
End Multi.

(** the diagonal matrix (1, i): both real parts are singular *)
Definition one_i : 'M[C]_2 := diag_mx (\row_j (if j == ord0 then 1 else 'i)).
Lemma one_i_unit : one_i \in unitmx.
Proof.
rewrite unitmxE unitfE det_diag big_ord_recl big_ord1 !mxE /= mul1r; exact: neq0Ci.
Qed.
Lemma Re_diag n (d : 'rV[C]_n) : mat_real (diag_mx d) = diag_mx (mat_real d).
Proof.
apply/matrixP => i j; rewrite !mxE; case: (i == j); rewrite ?mulr1n ?mulr0n //; exact: raddf0.
Qed.
Lemma Re_i0 : 'Re ('i : C) = 0.
Proof. by rewrite -[X in 'Re X]mulr1 -[X in 'Re X]add0r Re_rect // ?real0 ?real1. Qed.
Lemma Re_10 : 'Re (1 : C) = 1.
Proof. by apply/Creal_ReP; exact: real1. Qed.
Lemma one_i_real : mat_real one_i \notin unitmx.
Proof.
by rewrite unitmxE unitfE negbK /one_i Re_diag det_diag big_ord_recl big_ord1 !mxE /= Re_i0 mulr0.
Qed.
Lemma one_i_imag : mat_real ('i *: one_i) \notin unitmx.
Proof.
rewrite unitmxE unitfE negbK /one_i -linearZ /= Re_diag det_diag big_ord_recl big_ord1 !mxE /=.
by rewrite mulr1 Re_i0 mul0r.
Qed.

Lemma multi_wrong b : let lu := (fun n (a : 'M[C]_n) => a \in unitmx) in let clu := (fun n (_ : 'M[C]_n) => false) in
  let dz := (fun n (a : 'M[C]_n) => \det a == 0) in
  exists X, solve_multi lu clu dz b one_i 1%:M = Base.Done X /\ one_i *m X <> 1%:M.
Proof.
move=> lu clu dz.
have E : solve_multi lu clu dz b one_i (1%:M : 'M_2) = Base.Done (solve_charpoly b one_i 1%:M).
  rewrite /solve_multi /clu /dz; have := one_i_unit; rewrite unitmxE unitfE => /negbTE ->.
  by rewrite /solve_real /= /lu (negbTE one_i_real) (negbTE one_i_imag).
eexists; split; first exact: E.
rewrite charpoly_value ?one_i_unit // /one_i det_diag big_ord_recl big_ord1 !mxE /=.
move=> /matrixP /(_ ord0 ord0); rewrite !mxE eqxx /=; case: b {E} => /eqP; rewrite ?mul1r.
  by rewrite mulr1n eq_sym -subr_eq0 opprK -(natrD _ 1 1) pnatr_eq0.
rewrite sqrrN expr1n !mul1r mulr1n => /eqP E.
have := congr1 (fun z => 'Re z) (E : - ('i * 1) = 1); rewrite mulr1 raddfN /= Re_i0 Re_10 oppr0 => /eqP.
by rewrite eq_sym oner_eq0.
Qed.
End Tau.
