(** The reduction of the intersection matrix of a computed tree. *)
From Verif Require Import Base ModelTree ModelInter SpecTree SpecInter ProofInterMain ModelCurve ProofCurve CArg ModelEdge SpecEdge ProofEdge ProofAngle ModelSymp SpecSymp
  ProofSymp ProofSympRed ProofSympMain ProofSympRank ProofLat1 ProofLat2 ProofLat3 ProofLat4 ProofLat5 ProofLat6 ProofLat7.

Section Data.
Context (nonpos neg : edge -> C -> bool) (x : list C) (m : nat) (es : list edge) (ys : list ydata) (c : imat).
Hypothesis Hd : distinct x.
Hypothesis Hm : (2 <= m)%nat.
Hypothesis Hg : growing es.
Hypothesis Ht : forall v, touched es v -> (v < length x)%nat.
Hypothesis Ey : tree_ydata nonpos neg x (Z.of_nat m) es = Done ys.
Hypothesis Ec : intersection_of_data ys es (Z.of_nat m) = Done c.
Let n := length es.
Let Y k := nth k ys no_ydata.
Let shift := fun k l t => shift_number (Y k) (Y l) (Z.of_nat m) t.
Let ng := fun k l => is_neg_abad (y_ba2 (Y k)) (y_ba2 (Y l)).
Let s := sheet shift ng es.
Let th k := turn (y_ba2 (Y k)).
Let al k := turn (y_ya (Y k)).
Let be k := turn (y_yb (Y k)).
Notation e k := (nth k es no_edge).

Lemma data_edge k : (k < n)%nat ->
  ydata_init_edge (nonpos (e k)) (neg (e k)) x (ea (e k)) (eb (e k)) (Z.of_nat m) = Done (Y k) /\
  (ea (e k) < length x)%nat /\ (eb (e k) < length x)%nat /\ ea (e k) <> eb (e k) /\
  y_ba2 (Y k) <> RtoC 0 /\ y_ya (Y k) <> RtoC 0 /\ y_yb (Y k) <> RtoC 0.
Proof.
  intros Hk. pose proof (growing_edges es _ Hg Ht) as He.
  destruct (tree_ydata_done nonpos neg x m es Hd ltac:(lia) He) as (ys' & Eys & _ & Hn).
  rewrite Ey in Eys. injection Eys as <-. specialize (Hn k Hk).
  destruct (He (e k)) as (Ka & Kb & Kab); [apply nth_In, Hk|].
  destruct (ends_pow x m Hd ltac:(lia) _ _ _ _ _ Ka Kb Kab Hn) as (_ & _ & _ & Nk & Nya & Nyb).
  conj; assumption.
Qed.
Lemma shift_done k l : (k < l < n)%nat -> relative (ng k l) (e k) (e l) <> Apart ->
  shift k l (kind (relative (ng k l) (e k) (e l))) = Done (s k l).
Proof.
  intros Hkl Hr. unfold s, sheet.
  pose proof Ec as E. unfold intersection_of_data in E. fold shift ng in E.
  assert (Ek : nth_error es k = Some (e k)) by (apply nth_error_nth'; fold n; lia).
  assert (El : nth_error es l = Some (e l)) by (apply nth_error_nth'; fold n; lia).
  unfold intersection_tree in E.
  destruct (tree_answered shift ng (Z.of_nat m) es 0 _ _ E k l _ _ (proj1 Hkl) Ek El Hr) as [z Hz].
  cbn [Nat.add] in Hz. rewrite Hz. reflexivity.
Qed.

Lemma data_sib k l : (k < l < n)%nat -> par es k = par es l ->
  exists rho (i j : Z), (- / 2 <= rho < / 2)%R /\ rho = (th k - th l + IZR i)%R /\
    IZR (s k l) = (rho + IZR (Z.of_nat m) * (al l - al k + IZR j))%R /\ (ng k l = true <-> (rho <= 0)%R).
Proof.
  intros Hkl Ep. apply (par_start m es ng s Hm Hg) in Ep; [|fold n; lia|fold n; lia].
  assert (Er : relative (ng k l) (e k) (e l) = SameStart (ng k l)).
  { unfold relative. rewrite <- Ep, Nat.eqb_refl. reflexivity. }
  pose proof (shift_done k l Hkl) as Hs. rewrite Er in Hs. specialize (Hs ltac:(discriminate)). cbn [kind] in Hs.
  destruct (data_edge k ltac:(lia)) as (_ & _ & _ & _ & K1 & K2 & K3).
  destruct (data_edge l ltac:(lia)) as (_ & _ & _ & _ & L1 & L2 & L3).
  destruct (shift_turn (Y k) (Y l) m ABAD (s k l) K1 L1 K2 L2 Hs) as (rho & i & j & H1 & H2 & H3 & H4).
  exists rho, i, j. conj; [apply H1|apply H1|exact H2| |exact H4]. rewrite H3. fold (al l). fold (al k). lra.
Qed.
Lemma data_chi k l : (k < l < n)%nat -> par es l = S k ->
  exists rho (i j : Z), (- / 2 <= rho < / 2)%R /\ rho = (th k - th l + IZR i)%R /\
    IZR (s k l) = (rho + / 2 + IZR (Z.of_nat m) * (al l - be k + IZR j))%R.
Proof.
  intros Hkl Ep. apply (par_end m es ng s Hm Hg) in Ep; [|fold n; lia|fold n; lia].
  assert (Er : relative (ng k l) (e k) (e l) = EndToStart).
  { unfold relative. rewrite Ep, Nat.eqb_refl. destruct (Nat.eqb_spec (eb (e k)) (ea (e k))) as [E|]; [|reflexivity].
    destruct (data_edge k ltac:(lia)) as (_ & _ & _ & H & _). congruence. }
  pose proof (shift_done k l Hkl) as Hs. rewrite Er in Hs. specialize (Hs ltac:(discriminate)). cbn [kind] in Hs.
  destruct (data_edge k ltac:(lia)) as (_ & _ & _ & _ & K1 & K2 & K3).
  destruct (data_edge l ltac:(lia)) as (_ & _ & _ & _ & L1 & L2 & L3).
  destruct (shift_turn (Y k) (Y l) m ABBD (s k l) K1 L1 K3 L2 Hs) as (rho & i & j & H1 & H2 & H3 & _).
  exists rho, i, j. conj; [apply H1|apply H1|exact H2|]. rewrite H3. reflexivity.
Qed.

Let bf := before (par es) th.
Let G := gauge (par es) th s.
Let w := (m - 1)%nat.
Let r := (n * w)%nat.
Notation A := (pa bf n (par es)).
Notation B := (pb bf n (par es)).

Lemma size_r : Z.to_nat (isize c) = r.
Proof.
  destruct (returned_spec shift ng es (Z.of_nat m) c ltac:(lia) Ec) as (Hs & _). rewrite Hs. unfold r, w. fold n.
  apply Nat2Z.inj. rewrite Z2Nat.id by nia. rewrite Nat2Z.inj_mul, Nat2Z.inj_sub by lia. reflexivity.
Qed.
Lemma rows_get i j : (i < r)%nat -> (j < r)%nat -> get (to_rows c) i j = cell c (Z.of_nat i) (Z.of_nat j).
Proof.
  intros Hi Hj. unfold get, to_rows. rewrite size_r.
  rewrite (nth_indep _ [] (map (fun j => cell c (Z.of_nat 0) (Z.of_nat j)) (seq 0 r))) by (rewrite map_length, seq_length; exact Hi).
  rewrite (map_nth (fun i => map (fun j => cell c (Z.of_nat i) (Z.of_nat j)) (seq 0 r))), seq_nth by exact Hi.
  rewrite (nth_indep _ 0%Z (cell c (Z.of_nat (0 + i)) (Z.of_nat 0))) by (rewrite map_length, seq_length; exact Hj).
  rewrite (map_nth (fun j => cell c (Z.of_nat (0 + i)) (Z.of_nat j))), seq_nth by exact Hj. reflexivity.
Qed.
Lemma rows_square : square r (to_rows c).
Proof.
  unfold to_rows. rewrite size_r. split; [rewrite map_length, seq_length; reflexivity|].
  intros row Hrow. apply in_map_iff in Hrow. destruct Hrow as (i & <- & _). rewrite map_length, seq_length. reflexivity.
Qed.
Lemma rows_form k u l v : (k < n)%nat -> (u < w)%nat -> (l < n)%nat -> (v < w)%nat ->
  get (to_rows c) (k * w + u) (l * w + v) = pair A B G (cyc m A B G k u) l (Z.of_nat v).
Proof.
  intros Hk Hu Hl Hv. rewrite rows_get by (unfold r; nia).
  destruct (returned_spec shift ng es (Z.of_nat m) c ltac:(lia) Ec) as (_ & H).
  replace (Z.of_nat (k * w + u)) with (Z.of_nat k * (Z.of_nat m - 1) + Z.of_nat u)%Z by (unfold w; rewrite Nat2Z.inj_add, Nat2Z.inj_mul, Nat2Z.inj_sub by lia; reflexivity).
  replace (Z.of_nat (l * w + v)) with (Z.of_nat l * (Z.of_nat m - 1) + Z.of_nat v)%Z by (unfold w; rewrite Nat2Z.inj_add, Nat2Z.inj_mul, Nat2Z.inj_sub by lia; reflexivity).
  rewrite H; [|assumption|assumption|unfold w in *; lia|unfold w in *; lia].
  apply (intersection_pair m es ng s Hm Hg bf G).
  - apply before_irr.
  - apply before_trans.
  - apply before_total.
  - apply (gauge_siblings m n (par es) th al be s ng (par_le m es ng s Hm Hg) data_sib data_chi).
  - apply (gauge_child m n (par es) th al be s ng (par_le m es ng s Hm Hg) data_sib data_chi).
  - exact Hk.
  - exact Hl.
  - exact Hu.
  - exact Hv.
Qed.
Lemma rows_antisym : antisymmetric r (to_rows c).
Proof.
  intros i j Hi Hj. rewrite !rows_get by assumption.
  apply (returned_antisym shift ng es (Z.of_nat m) c ltac:(lia) Ec).
  all: rewrite <- size_r in *; lia.
Qed.

Lemma reduces xgcd g : xgcd_ok xgcd -> (n * (m - 1) = 2 * g + (Z.to_nat (Z.gcd (Z.of_nat m) (Z.of_nat (S n))) - 1))%nat ->
  exists st, symplectic_reduction xgcd (to_rows c) g = Done st /\ Core r (to_rows c) st /\ block_rows r g (stM st) /\
    (forall k, (k < g)%nat -> Z.abs (get (stM st) (2 * k) (2 * k + 1)) = 1%Z) /\
    (forall i j, (2 * g <= i < r)%nat -> (j < r)%nat -> get (stM st) i j = 0%Z) /\
    (Z.gcd (Z.of_nat m) (Z.of_nat (S n)) = 1%Z -> canonical r g (stM st)).
Proof.
  intros Hx Er.
  pose proof (par_le m es ng s Hm Hg) as Hp. fold n in Hp.
  pose proof (tree_grows bf (before_irr _ _) (before_trans _ _) (before_total _ _) n (par es) Hp) as HG.
  pose proof (tree_reach bf (before_irr _ _) (before_trans _ _) (before_total _ _) n (par es) Hp) as HR.
  assert (Ho : (pos bf n (par es) 0 < S n)%nat) by (apply (pos_bound bf (before_irr _ _) (before_trans _ _) (before_total _ _) n (par es) Hp); lia).
  destruct (reduction_radical r g (dl (S n) m - 1) (to_rows c) xgcd Hx rows_square rows_antisym Er) as (st & H1 & H2 & H3 & H4 & H5 & H6).
  - apply (form_full m (S n) (pos bf n (par es) 0) n A B G (to_rows c) Hm Ho HG HR rows_form).
  - apply (form_upper m (S n) (pos bf n (par es) 0) n A B G (to_rows c) Hm Ho HG HR rows_form).
  - apply (form_lower m (S n) (pos bf n (par es) 0) n A B G (to_rows c) Hm Ho HG HR rows_form).
  - exists st. conj; try assumption. intros E. apply H6. unfold dl. rewrite E. reflexivity.
Qed.
End Data.
