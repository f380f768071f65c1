(** Data of the edges on balls. *)
From Coq Require Import Reals Lra Lia.
From Verif Require Import CArg ModelTree ModelCurve ModelBasis ModelPeriod ModelVec ModelCache ModelInter ModelEdge SpecEdge ProofEdge ModelTurn SpecTurn ProofTurn
  SpecExtra ModelBall SpecBall ProofBall1 ProofBall2.
Local Open Scope R_scope.

Lemma In_upd {X} (l : list X) i v a : In a (upd l i v) -> In a l \/ a = v.
Proof. revert i. induction l as [|x l IH]; intros [|i]; cbn; [tauto|tauto|intuition|]. intros [H|H]; [tauto|]. apply IH in H. tauto. Qed.
Lemma map_upd {X Y} (f : X -> Y) l i v : map f (upd l i v) = upd (map f l) i (f v).
Proof. revert i. induction l as [|x l IH]; intros [|i]; cbn; [reflexivity..|]. now rewrite IH. Qed.
Lemma arrange_map {X Y} (f : X -> Y) dX dY tX tY : f dX = dY -> forall gap l k, (k + gap <= length l)%nat -> (forall i, In i l -> tX i = tY (f i)) ->
  arrange dY tY gap (map f l) k = (map f (fst (arrange dX tX gap l k)), snd (arrange dX tX gap l k)).
Proof.
  intros Hd. induction gap as [|g IH]; intros l k Hk Ht; cbn [arrange]; [reflexivity|].
  rewrite <- Hd, map_nth, <- Ht by (apply nth_In; lia). destruct (tX (nth k l dX)) eqn:E.
  - rewrite <- IH.
    + unfold swap_at. rewrite !map_nth, !map_upd, Hd. reflexivity.
    + unfold swap_at. rewrite !upd_length. lia.
    + intros i Hi. apply In_upd in Hi. destruct Hi as [Hi| ->]; [apply In_upd in Hi; destruct Hi as [Hi| ->]; [now apply Ht|]|]; apply Ht, nth_In; lia.
  - rewrite Hd. apply IH; [lia|exact Ht].
Qed.

Section Sound.
Variable A : arith.
Variable mem : ball A -> C -> Prop.
Hypothesis S : sound A mem.
Notation mv := (Forall2 mem).
Local Notation sim := (simu (undecided A mem)).
Variable p : Z.
Variables (X : list (ball A)) (x : list C).
Hypothesis HX : mv X x.

Definition scaled_ball (a b k : nat) : ball A :=
  b_div A p (b_sub A p (b_2exp A (bget A X k) 1) (b_add A p (bget A X b) (bget A X a))) (b_sub A p (bget A X b) (bget A X a)).
Definition scaled_pt (a b k : nat) : C := ((RtoC 2 * vget x k - (vget x b + vget x a)) / (vget x b - vget x a))%C.
Definition both (a b k : nat) : ball A * C := (scaled_ball a b k, scaled_pt a b k).

(** the answers of the tests, as functions of the numbers in the balls *)
Definition test_pos (e : edge) (z : C) : bool :=
  match find (fun k => if Req_EM_T (Cmod (scaled_pt (ea e) (eb e) k - z)%C) 0 then true else false) (other_points (length x) (ea e) (eb e)) with
  | Some k => b_re_nonpos A (scaled_ball (ea e) (eb e) k)
  | None => false
  end.
Definition test_neg (e : edge) (_ : C) : bool :=
  b_re_neg A (b_pow A p (b_2exp A (b_sub A p (bget A X (eb e)) (bget A X (ea e))) (-1)) (length x)).

Lemma scaled_mem a b k : mem (scaled_ball a b k) (scaled_pt a b k).
Proof using S HX.
  apply (s_div A mem S); [apply (s_sub A mem S)|apply (s_sub A mem S); now apply (mget A mem S)].
  - replace (RtoC 2 * vget x k)%C with (vget x k * RtoC (powerRZ 2 1))%C.
    + apply (s_2exp A mem S). now apply (mget A mem S).
    + rewrite powerRZ_1. ring.
  - apply (s_add A mem S); now apply (mget A mem S).
Qed.
Lemma Cmod_diff_0 z w : Cmod (z - w)%C = 0 -> z = w.
Proof. intro E. apply Cmod_eq_0 in E. transitivity (w + (z - w))%C; [ring|]. rewrite E. ring. Qed.
Lemma test_pos_ok e k : distinct x -> vget x (ea e) <> vget x (eb e) -> In k (other_points (length x) (ea e) (eb e)) ->
  b_re_nonpos A (scaled_ball (ea e) (eb e) k) = test_pos e (scaled_pt (ea e) (eb e) k).
Proof.
  intros Hd Hab Hk. unfold test_pos. destruct (find _ _) as [q|] eqn:E.
  - apply find_some in E. destruct E as [Hq E]. destruct (Req_EM_T _ 0) as [E0|]; [|discriminate]. apply Cmod_diff_0 in E0.
    assert (Hba : (vget x (eb e) - vget x (ea e))%C <> RtoC 0).
    { intro E1. apply Hab. transitivity (vget x (eb e) - (vget x (eb e) - vget x (ea e)))%C; [ring|]. rewrite E1. ring. }
    assert (N2 : RtoC 2 <> RtoC 0) by (intro E1; injection E1; lra).
    assert (Ek : vget x q = vget x k).
    { transitivity ((scaled_pt (ea e) (eb e) q * (vget x (eb e) - vget x (ea e)) + (vget x (eb e) + vget x (ea e))) / RtoC 2)%C.
      - unfold scaled_pt. field. split; assumption.
      - rewrite E0. unfold scaled_pt. field. split; assumption. }
    apply other_points_in in Hq, Hk. assert (q = k) as -> by (apply (proj1 (NoDup_nth x (RtoC 0)) Hd); [lia|lia|exact Ek]). reflexivity.
  - exfalso. assert (G := find_none _ _ E k Hk). cbv beta in G. destruct (Req_EM_T _ 0) as [|N]; [discriminate|]. apply N.
    replace (scaled_pt (ea e) (eb e) k - scaled_pt (ea e) (eb e) k)%C with (RtoC 0) by ring. apply Cmod_0.
Qed.

Definition ydata_mem (Y : b_ydata A) (y : ydata) : Prop :=
  mv (by_u A Y) (y_u y) /\ by_n1 A Y = y_n1 y /\ mem (by_ba2 A Y) (y_ba2 y) /\ mem (by_ab A Y) (y_ab y) /\ mem (by_c A Y) (y_c y) /\
  mem (by_ya A Y) (y_ya y) /\ mem (by_yb A Y) (y_yb y).

Lemma croot_nz m z : z <> RtoC 0 -> croot m z <> RtoC 0.
Proof.
  intros Hz E. apply (f_equal Cmod) in E. unfold croot in E. rewrite Cmod_0, Cmod_mult, Cmod_R in E.
  assert (H : 0 < rroot m (Cmod z)) by (apply rroot_pos; now apply Cmod_gt_0). rewrite cis_mod, Rabs_right in E; lra.
Qed.
Lemma constant_cab_sim e BA ba n1 m : (0 < m)%Z -> ba <> RtoC 0 -> mem BA ba ->
  BA = b_2exp A (b_sub A p (bget A X (eb e)) (bget A X (ea e))) (-1) ->
  sim mem (b_constant_cab A p BA n1 (length x) m) (constant_cab (test_neg e) ba n1 (length x) m).
Proof using S.
  intros Hm Hz HB EB. unfold b_constant_cab, constant_cab. unfold test_neg. rewrite <- EB.
  set (k := b_re_neg A (b_pow A p BA (length x))).
  assert (Hc : mem (b_root A p m (if k then b_neg A (b_pow A p BA (length x)) else b_pow A p BA (length x)))
                   (croot m (if k then (- cpow ba (length x))%C else cpow ba (length x)))).
  { apply (s_root A mem S); [exact Hm|]. destruct k; [apply (s_neg A mem S)|]; now apply (s_pow A mem S). }
  assert (Hcz : croot m (if k then (- cpow ba (length x))%C else cpow ba (length x)) <> RtoC 0).
  { apply croot_nz. assert (G := cpow_neq_0 ba (length x) Hz). destruct k; [|exact G]. intro E. apply G.
    transitivity (- - cpow ba (length x))%C; [ring|]. rewrite E. ring. }
  set (c := croot m _) in *. set (W := b_root A p m _) in *.
  set (b := Nat.even ((if k then 1 else 0) + n1)).
  assert (Hc' : mem (if b then b_mul A p W (b_unit A p (2 * m)) else W) (if b then (c * root (2 * m) 1)%C else c)).
  { destruct b; [|exact Hc]. apply (s_mul A mem S); [exact Hc|]. apply (s_unit A mem S). lia. }
  assert (Hn : Cmod (if b then (c * root (2 * m) 1)%C else c) <> 0).
  { assert (G : 0 < Cmod c) by now apply Cmod_gt_0. destruct b; [|lra]. rewrite Cmod_mult. unfold root. rewrite cis_mod. lra. }
  destruct (Req_EM_T _ 0) as [|_]; [contradiction|]. destruct (b_has0 A _) eqn:E0; [|exact Hc']. left. eexists _, _. split; [exact Hc'|]. split; [intro E1; apply Hn; rewrite E1; apply Cmod_0|exact E0].
Qed.

Lemma map_both a b l : map fst (map (both a b) l) = map (scaled_ball a b) l /\ map snd (map (both a b) l) = map (scaled_pt a b) l.
Proof. rewrite !map_map. split; reflexivity. Qed.
Lemma both_mem l : (forall k, In k l -> mem (fst k) (snd k)) -> mv (map fst l) (map snd l).
Proof. induction l as [|k l IH]; intro H; cbn; constructor; [apply H; now left|apply IH; intros; apply H; now right]. Qed.
Lemma powm1 : powerRZ 2 (-1) = / 2.
Proof. unfold powerRZ. change (Pos.to_nat 1) with 1%nat. f_equal. cbn [pow]. ring. Qed.

Lemma ydata_sim e m : (0 < m)%Z -> distinct x -> (ea e < length x)%nat -> (eb e < length x)%nat -> vget x (ea e) <> vget x (eb e) ->
  sim ydata_mem (b_ydata_init_edge A p X (ea e) (eb e) m) (ydata_init_edge (test_pos e) (test_neg e) x (ea e) (eb e) m).
Proof using S HX.
  intros Hm Hd Ha Hb Hab. unfold b_ydata_init_edge, ydata_init_edge. rewrite (Forall2_len _ _ _ HX).
  set (a := ea e) in *. set (b := eb e) in *. set (n := length x) in *.
  destruct (Nat.ltb_spec a n); [|lia]. destruct (Nat.ltb_spec b n); [|lia]. cbn [andb negb].
  set (l := other_points n a b).
  assert (Hne : a <> b) by (intro E; apply Hab; now rewrite E).
  assert (Ll : (length l + 2 = n)%nat) by now apply other_points_length.
  change (map (fun k => b_div A p (b_sub A p (b_2exp A (bget A X k) 1) (b_add A p (bget A X b) (bget A X a))) (b_sub A p (bget A X b) (bget A X a))) l)
    with (map (scaled_ball a b) l).
  change (map (fun k => ((RtoC 2 * vget x k - (vget x b + vget x a)) / (vget x b - vget x a))%C) l) with (map (scaled_pt a b) l).
  rewrite !map_length, Ll, Nat.eqb_refl. cbn [negb].
  assert (Hba : (vget x b - vget x a)%C <> RtoC 0).
  { intro E1. apply Hab. transitivity (vget x b - (vget x b - vget x a))%C; [ring|]. rewrite E1. ring. }
  destruct (Req_EM_T (Cmod (vget x b - vget x a)%C) 0) as [E0|_]; [apply Cmod_eq_0 in E0; contradiction|].
  destruct (map_both a b l) as [<- <-].
  set (L := map (both a b) l). set (d0 := (b_zero A, RtoC 0)).
  rewrite (arrange_map fst d0 (b_zero A) (fun k => b_re_nonpos A (fst k)) (b_re_nonpos A) eq_refl) by
    (try reflexivity; unfold L; rewrite map_length; lia).
  rewrite (arrange_map snd d0 (RtoC 0) (fun k => b_re_nonpos A (fst k)) (test_pos e) eq_refl).
  2: { unfold L. rewrite map_length. lia. }
  2: { intros k Hk. unfold L in Hk. apply in_map_iff in Hk. destruct Hk as (q & <- & Hq). cbn [fst snd both]. now apply test_pos_ok. }
  assert (HP := arrange_spec d0 (fun k => b_re_nonpos A (fst k)) (length l) L 0).
  destruct (arrange d0 (fun k => b_re_nonpos A (fst k)) (length l) L 0) as [u n1]. cbn [fst snd].
  destruct HP as (HP & _); [unfold L; rewrite map_length; lia|intros; lia|unfold L; rewrite map_length; intros; lia|].
  assert (Hu : mv (map fst u) (map snd u)).
  { apply both_mem. intros k Hk. apply (Permutation_in _ (Permutation_sym HP)) in Hk. unfold L in Hk. apply in_map_iff in Hk.
    destruct Hk as (q & <- & _). apply scaled_mem. }
  assert (HBA : mem (b_sub A p (bget A X b) (bget A X a)) (vget x b - vget x a)%C) by (apply (s_sub A mem S); now apply (mget A mem S)).
  assert (HAB : mem (b_add A p (bget A X b) (bget A X a)) (vget x b + vget x a)%C) by (apply (s_add A mem S); now apply (mget A mem S)).
  assert (HB2 : mem (b_2exp A (b_sub A p (bget A X b) (bget A X a)) (-1)) ((vget x b - vget x a) / RtoC 2)%C).
  { replace ((vget x b - vget x a) / RtoC 2)%C with ((vget x b - vget x a) * RtoC (powerRZ 2 (-1)))%C.
    - now apply (s_2exp A mem S).
    - rewrite powm1, RtoC_inv by lra. reflexivity. }
  eapply sim_bind.
  - apply (constant_cab_sim e); [exact Hm| |exact HB2|reflexivity].
    intro E1. apply Hba. transitivity ((vget x b - vget x a) / RtoC 2 * RtoC 2)%C; [field; intro E2; injection E2; lra|]. rewrite E1. ring.
  - intros W c Hc.
    assert (Lu : length (map snd u) = length u) by apply map_length.
    destruct (b_pol_def_ok A mem S p (map fst u) (map snd u) n1 (b_int A (-1)) (-1) Hu (s_int A mem S (-1)) m (length (map fst u)) Hm) as (Wa & Ea & HWa).
    { rewrite !map_length. lia. }
    destruct (b_pol_def_ok A mem S p (map fst u) (map snd u) n1 (b_int A 1) 1 Hu (s_int A mem S 1) m (length (map fst u)) Hm) as (Wb & Eb & HWb).
    { rewrite !map_length. lia. }
    rewrite Ea, Eb. cbn [bind sim]. unfold ydata_mem. cbn [by_u by_n1 by_ba2 by_ab by_c by_ya by_yb y_u y_n1 y_ba2 y_ab y_c y_ya y_yb].
    rewrite !map_length in HWa, HWb. rewrite !edge_def_same, Lu.
    conj; try assumption; [reflexivity|now apply (s_div A mem S)| |]; now apply (s_mul A mem S).
Qed.

Lemma tree_ydata_sim m es : (0 < m)%Z -> distinct x -> edges_of x es ->
  sim (Forall2 ydata_mem) (b_tree_ydata A p X m es) (tree_ydata test_pos test_neg x m es).
Proof using S HX.
  intros Hm Hd He. induction es as [|e es IH]; cbn [b_tree_ydata tree_ydata]; [constructor|].
  destruct (He e (or_introl eq_refl)) as (H1 & H2 & H3).
  eapply sim_bind; [now apply ydata_sim|]. intros Y y Hy.
  eapply sim_bind; [apply IH; intros e' He'; apply He; now right|]. intros Ys ys Hys. now constructor.
Qed.
End Sound.
