From Verif Require Import CBase ModelCurve SpecCurve ProofCurve ModelSymp SpecSymp ProofSymp ProofSympRed ProofSympMain
  ModelBasis SpecBasis ProofBasis ModelPeriod SpecPeriod ProofPeriod.

Lemma sec_init_curve_ok m n c : sec_init m n = Done c -> 1 <= n -> curve_ok c /\ sec_m c = m /\ 0 <= sec_g c.
Proof.
  intros Hc Hn. destruct (sec_init_inv m n c Hc Hn) as (Hm & Hn2 & Hs).
  destruct (sec_init_fields m n c Hc) as [Em En].
  destruct (differentials_count_final m n c Hc Hn) as [Hsum Hlen].
  destruct (genus_exact_final m n c Hc Hn) as [_ Hg].
  destruct (sec_init_done m n Hm Hn2 Hs) as (c' & Hc'' & _ & _ & _ & _ & Ej & _ & _).
  assert (c' = c) by congruence. subst c'.
  pose proof (jmin_range m n Hm Hn2) as Hjr.
  destruct (differentials_exact_final m n c Hc Hn) as (_ & Hb & _).
  split; [|split; [exact Em|exact Hg]]. unfold curve_ok. rewrite Em.
  conj; [exact Hm|lia| |exact Hsum].
  intros x Hx. specialize (Hb x Hx). lia.
Qed.

Lemma symplectic_basis_done xgcd inter g m s : 2 <= m ->
  symplectic_reduction xgcd inter g = Done s -> (2 * g <= length (stP s))%nat ->
  (rows_fit (2 * g) (stP s) -> exists loops, symplectic_basis xgcd inter g m = Done loops /\ length loops = g /\
     forall k, (k < g)%nat ->
       faithful (m - 1) (nth (2 * k) (stP s) []) (fst (nth k loops ([], []))) /\
       faithful (m - 1) (nth (2 * k + 1) (stP s) []) (snd (nth k loops ([], [])))) /\
  (~ rows_fit (2 * g) (stP s) -> symplectic_basis xgcd inter g m = Abort).
Proof.
  intros Hm E Hl. unfold symplectic_basis. rewrite E. cbn [bind]. split.
  - intros Hf. destruct (basis_loops_spec (m - 1) (stP s) ltac:(lia) g 0 ltac:(lia)) as (l & El & Hlen & H).
    { intros k Hk. apply Hf. lia. }
    exists l. conj; [exact El|exact Hlen|exact H].
  - intros Hn. apply basis_loops_abort; [lia|lia|].
    assert (D : forall K, (exists k, (k < K)%nat /\ ~ row_fits (nth k (stP s) [])) \/ rows_fit K (stP s)).
    { induction K as [|K IH].
      - right. intros i Hi. lia.
      - destruct IH as [(k & Hk & Hnk)|IH]; [left; exists k; split; [lia|exact Hnk]|].
        destruct (forallb is_slong (nth K (stP s) [])) eqn:Ef.
        + right. intros i Hi. destruct (Nat.eq_dec i K) as [->|]; [|apply IH; lia].
          rewrite forallb_forall in Ef. intros x Hx. apply fits_spec, Ef, Hx.
        + left. exists K. split; [lia|]. intros H.
          assert (forallb is_slong (nth K (stP s) []) = true); [|congruence].
          apply forallb_forall. intros x Hx. apply fits_spec, H, Hx. }
    destruct (D (2 * g)%nat) as [(k & Hk & Hnk)|]; [|contradiction].
    exists k. split; [exact Hk|exact Hnk].
Qed.

Lemma faithful_index m1 edges row l : 0 < m1 -> length row = (edges * Z.to_nat m1)%nat -> faithful m1 row l ->
  forall x, In x l -> 0 <= gindex x < Z.of_nat edges /\ 0 <= gshift x < m1.
Proof.
  intros Hm Hl (_ & H & _) x Hx. destruct (H x Hx) as (_ & Hs & Hi & Hp).
  split; [split; [exact Hi|]|exact Hs]. apply (index_bound m1 (Z.of_nat edges) x Hm Hs Hi). lia.
Qed.

(** a coefficient of a faithful loop is an entry of the row *)
Lemma loop_coeff_hit m1 l : increasing (map (position m1) l) -> forall x, In x l ->
  loop_coeff m1 l (position m1 x) = gcoeff x.
Proof.
  induction l as [|y l IH]; intros Hi x Hx; [contradiction|]. cbn [map increasing] in Hi. destruct Hi as [H1 H2].
  cbn [loop_coeff]. destruct Hx as [->|Hx].
  - rewrite Z.eqb_refl. rewrite loop_coeff_out; [lia|]. intros z Hz. apply H1. apply in_map, Hz.
  - rewrite (IH H2 x Hx). assert (position m1 y < position m1 x) by (apply H1, in_map, Hx).
    destruct (Z.eqb_spec (position m1 y) (position m1 x)); lia.
Qed.

Lemma faithful_coeff_in m1 row l x : 0 < m1 -> faithful m1 row l -> In x l -> In (gcoeff x) row.
Proof.
  intros Hm (Hc & H & Hi) Hx. destruct (H x Hx) as (_ & Hs & Hix & Hp).
  rewrite <- (loop_coeff_hit m1 l Hi x Hx).
  assert (0 <= position m1 x) by (unfold position; apply Z.add_nonneg_nonneg; [apply Z.mul_nonneg_nonneg|]; lia).
  rewrite <- (Z2Nat.id (position m1 x)) by assumption. rewrite Hc by lia. apply nth_In. lia.
Qed.

Lemma nth_map_fst (l : list (list gamma * list gamma)) k : nth k (map fst l) [] = fst (nth k l ([], [])).
Proof. change (@nil gamma) with (fst (@nil gamma, @nil gamma)) at 1. apply map_nth. Qed.
Lemma nth_map_snd (l : list (list gamma * list gamma)) k : nth k (map snd l) [] = snd (nth k l ([], [])).
Proof. change (@nil gamma) with (snd (@nil gamma, @nil gamma)) at 1. apply map_nth. Qed.

Lemma period_side c edges a basis p side : curve_ok c -> 0 <= sec_g c -> integrals_ok c edges a ->
  Z.of_nat (length basis) = sec_g c ->
  (forall k, (k < length basis)%nat -> length (nth (side k) p []) = (edges * Z.to_nat (sec_m c - 1))%nat) ->
  (forall k x, (k < length basis)%nat -> In x (nth (side k) p []) -> -9223372036854775808 <= x < 4611686018427387904) ->
  (forall k, (k < length basis)%nat -> faithful (sec_m c - 1) (nth (side k) p []) (nth k basis [])) ->
  exists om, period_matrix c basis a = Done om /\ length om = length basis /\
    forall k q i, (k < length basis)%nat -> (q < length (sec_ni c))%nat -> Z.of_nat i < nth q (sec_ni c) 0 ->
      vget (nth (offset (sec_ni c) q + i) om []) k =
      row_period c a (nth (side k) p []) (sec_j1 c + Z.of_nat q) (offset (sec_ni c) q + i).
Proof.
  intros Hc Hg Ha Hlb Hlen Hsmall Hf.
  pose proof Hc as (Hm & _).
  destruct (period_matrix_spec c edges a basis Hc Ha Hg Hlb) as (om & E & HL & H).
  - intros l Hl. destruct (In_nth _ _ [] Hl) as (k & Hk & <-).
    intros x Hx. destruct (faithful_index (sec_m c - 1) edges _ _ ltac:(lia) (Hlen k Hk) (Hf k Hk) x Hx) as [H1 H2].
    conj; try lia.
    apply (Hsmall k (gcoeff x) Hk), (faithful_coeff_in (sec_m c - 1) _ _ x ltac:(lia) (Hf k Hk) Hx).
    apply (Hsmall k (gcoeff x) Hk), (faithful_coeff_in (sec_m c - 1) _ _ x ltac:(lia) (Hf k Hk) Hx).
  - exists om. conj; [exact E|exact HL|]. intros k q i Hk Hq Hi. rewrite (H k Hk q i Hq Hi).
    rewrite (faithful_period _ _ (sec_m c - 1) (nth (side k) p []) _ _ ltac:(lia) (Hf k Hk)).
    reflexivity.
Qed.

Lemma periods_final xgcd m n c inter s a : xgcd_ok xgcd -> sec_init m n = Done c -> 1 <= n ->
  let r := Z.to_nat (tree_edges c * (m - 1)) in let g := Z.to_nat (sec_g c) in
  square r inter -> antisymmetric r inter -> integrals_ok c (Z.to_nat (tree_edges c)) a ->
  symplectic_reduction xgcd inter g = Done s -> rows_small (2 * g) (stP s) ->
  exists loops omA omB,
    symplectic_basis xgcd inter g m = Done loops /\
    period_matrix c (map fst loops) a = Done omA /\ length omA = g /\
    period_matrix c (map snd loops) a = Done omB /\ length omB = g /\
    forall k q i, (k < g)%nat -> (q < length (sec_ni c))%nat -> Z.of_nat i < nth q (sec_ni c) 0 ->
      vget (nth (offset (sec_ni c) q + i) omA []) k =
        row_period c a (nth (2 * k) (stP s) []) (sec_j1 c + Z.of_nat q) (offset (sec_ni c) q + i) /\
      vget (nth (offset (sec_ni c) q + i) omB []) k =
        row_period c a (nth (2 * k + 1) (stP s) []) (sec_j1 c + Z.of_nat q) (offset (sec_ni c) q + i).
Proof.
  intros Hx Hc Hn r g HS HA Ha E Hsmall.
  destruct (sec_init_curve_ok m n c Hc Hn) as (Hok & Em & Hg).
  destruct (generators_count_final m n c Hc Hn) as (_ & Hgen & _).
  destruct (reduction_congruence r inter g xgcd s Hx HS HA E) as ((HP1 & HP2) & _).
  pose proof Hok as (Hm & _). rewrite Em in Hm.
  assert (Hte : 0 <= tree_edges c) by nia.
  assert (Hr : r = (Z.to_nat (tree_edges c) * Z.to_nat (m - 1))%nat) by (unfold r; rewrite Z2Nat.inj_mul; lia).
  assert (Hrow : forall i, (i < 2 * g)%nat -> length (nth i (stP s) []) = r).
  { intros i Hi. apply HP2, nth_In. lia. }
  destruct (symplectic_basis_done xgcd inter g m s Hm E ltac:(lia)) as [Hd _].
  destruct Hd as (loops & EL & HLl & Hf).
  { intros i Hi x Hin. specialize (Hsmall i x Hi Hin). lia. }
  destruct (period_side c (Z.to_nat (tree_edges c)) a (map fst loops) (stP s) (fun k => (2 * k)%nat) Hok Hg Ha) as (omA & EA & LA & HAe).
  { rewrite map_length. lia. }
  { intros k Hk. rewrite map_length in Hk. rewrite Em, <- Hr. apply Hrow. lia. }
  { intros k x Hk. rewrite map_length in Hk. apply Hsmall. lia. }
  { intros k Hk. rewrite map_length in Hk. rewrite Em, nth_map_fst. apply Hf. lia. }
  destruct (period_side c (Z.to_nat (tree_edges c)) a (map snd loops) (stP s) (fun k => (2 * k + 1)%nat) Hok Hg Ha) as (omB & EB & LB & HBe).
  { rewrite map_length. lia. }
  { intros k Hk. rewrite map_length in Hk. rewrite Em, <- Hr. apply Hrow. lia. }
  { intros k x Hk. rewrite map_length in Hk. apply Hsmall. lia. }
  { intros k Hk. rewrite map_length in Hk. rewrite Em, nth_map_snd. apply Hf. lia. }
  rewrite map_length in *.
  exists loops, omA, omB. conj; try assumption; try lia.
  intros k q i Hk Hq Hi. split; [apply HAe|apply HBe]; try assumption; lia.
Qed.
