(** No edge of the tree goes through another branch point. *)
From Coq Require Import Reals Lra Lia List.
From Coquelicot Require Import Coquelicot.
From Verif Require Import CArg ModelTree SpecTree ProofTree ProofTreeMax ProofTreeEx SpecGc SpecEdge SpecInter ProofErr3 SpecDeq ModelDeq ProofHol11 SpecFree.
Import ListNotations.
Local Open Scope R_scope.

Lemma filter_shorter {A} (f g : A -> bool) l k : (forall q, In q l -> f q = true -> g q = true) -> In k l -> f k = false -> g k = true ->
  (length (filter f l) < length (filter g l))%nat.
Proof.
  intros H Hk Hf Hg.
  assert (Hle : forall l, (forall q, In q l -> f q = true -> g q = true) -> (length (filter f l) <= length (filter g l))%nat).
  { clear. induction l as [|q l IH]; intro H; cbn [filter]; [lia|]. specialize (IH (fun q' Hq' => H q' (or_intror Hq'))).
    specialize (H q (or_introl eq_refl)). destruct (f q); [rewrite H by reflexivity; cbn; lia|]. destruct (g q); cbn; lia. }
  induction l as [|q l IH]; [easy|]. cbn [filter]. destruct Hk as [->|Hk].
  - rewrite Hf, Hg. specialize (Hle l (fun q' Hq' => H q' (or_intror Hq'))). cbn. lia.
  - specialize (IH (fun q' Hq' => H q' (or_intror Hq')) Hk). specialize (H q (or_introl eq_refl)).
    destruct (f q); [rewrite H by reflexivity; cbn; lia|]. destruct (g q); cbn; lia.
Qed.

Section Geometry.
Context (x : list C) (Hd : distinct x).
Lemma vget_neq i j : (i < length x)%nat -> (j < length x)%nat -> i <> j -> vget x i <> vget x j.
Proof. intros Hi Hj H E. apply H. now apply (proj1 (NoDup_nth x (RtoC 0)) Hd). Qed.
Lemma diff_neq i j : (i < length x)%nat -> (j < length x)%nat -> i <> j -> (vget x j - vget x i)%C <> RtoC 0.
Proof.
  intros Hi Hj H E. apply (vget_neq i j Hi Hj H). transitivity (vget x j - (vget x j - vget x i))%C; [ring|]. rewrite E. ring.
Qed.
Lemma position_point i j k p : (i < length x)%nat -> (j < length x)%nat -> i <> j ->
  position x i j k = p <-> vget x k = edge_point (vget x i) (vget x j) p.
Proof.
  intros Hi Hj H. assert (N := diff_neq i j Hi Hj H). assert (N2 : RtoC 2 <> RtoC 0) by (intro E0; injection E0; lra).
  unfold position, edge_point. split; intro E.
  - rewrite <- E. field. split; assumption.
  - rewrite E. field. split; assumption.
Qed.
Definition between (i j k : nat) : bool :=
  let p := position x i j k in
  if Req_EM_T (snd p) 0 then if Rlt_dec (-1) (fst p) then if Rlt_dec (fst p) 1 then true else false else false else false.
Lemma between_spec i j k : between i j k = true <-> exists t, -1 < t < 1 /\ position x i j k = RtoC t.
Proof.
  unfold between. set (p := position x i j k). split.
  - destruct (Req_EM_T (snd p) 0); [|discriminate]. destruct (Rlt_dec (-1) (fst p)); [|discriminate]. destruct (Rlt_dec (fst p) 1); [|discriminate].
    intros _. exists (fst p). split; [lra|]. apply injective_projections; cbn; [reflexivity|assumption].
  - intros (t & Ht & E). rewrite E. cbn. destruct (Req_EM_T 0 0); [|lra]. destruct (Rlt_dec (-1) t); [|lra]. destruct (Rlt_dec t 1); [reflexivity|lra].
Qed.
Lemma between_sym i j k : (i < length x)%nat -> (j < length x)%nat -> i <> j -> between i j k = between j i k.
Proof.
  intros Hi Hj H.
  assert (G : forall i j, (i < length x)%nat -> (j < length x)%nat -> i <> j -> between i j k = true -> between j i k = true).
  { clear i j Hi Hj H. intros i j Hi Hj H B. apply between_spec in B. destruct B as (t & Ht & E). apply between_spec. exists (- t). split; [lra|].
    apply position_point; [assumption..|lia|]. apply position_point in E; [|assumption..]. rewrite E. unfold edge_point. rewrite RtoC_opp. 
    assert (N2 : RtoC 2 <> RtoC 0) by (intro E0; injection E0; lra). field. exact N2. }
  destruct (between i j k) eqn:E1, (between j i k) eqn:E2; try reflexivity.
  - now rewrite (G i j) in E2.
  - now rewrite (G j i) in E1 by (assumption || lia).
Qed.
Lemma between_other i j k : triple x i j k \/ ((i < length x)%nat /\ (j < length x)%nat /\ i <> j /\ (k = i \/ k = j)) -> between i j k = true -> k <> i /\ k <> j.
Proof.
  intros [(_ & _ & _ & _ & K)|(Hi & Hj & H & K)] B; [exact K|]. exfalso. apply between_spec in B. destruct B as (t & Ht & E).
  assert (N := diff_neq i j Hi Hj H). assert (N2 : RtoC 2 <> RtoC 0) by (intro E0; injection E0; lra).
  destruct K as [-> | ->].
  - assert (E1 : position x i j i = RtoC (-1)). { apply position_point; try assumption. unfold edge_point. apply injective_projections; cbn; field. }
    rewrite E1 in E. injection E. lra.
  - assert (E1 : position x i j j = RtoC 1). { apply position_point; try assumption. unfold edge_point. apply injective_projections; cbn; field. }
    rewrite E1 in E. injection E. lra.
Qed.
Lemma between_less i j k : triple x i j k -> between i j k = true ->
  (forall q, between i k q = true -> between i j q = true) /\ between i k k = false.
Proof.
  intros (Hi & Hj & Hk & H & K1 & K2) B. split.
  - intros q Bq. apply between_spec in B, Bq. destruct B as (s & Hs & E), Bq as (t & Ht & E').
    apply position_point in E; try assumption. apply position_point in E'; try assumption; [|lia].
    apply between_spec. exists ((s + 1) * (1 + t) / 2 - 1). split; [nra|].
    apply position_point; try assumption. rewrite E', E. unfold edge_point.
    unfold Rdiv. rewrite !RtoC_minus, !RtoC_mult, !RtoC_plus, RtoC_inv by lra.
    assert (N2 : RtoC 2 <> RtoC 0) by (intro E0; injection E0; lra).
    replace (RtoC 2) with (RtoC 1 + RtoC 1)%C in * by (rewrite <- RtoC_plus; f_equal; lra). field. exact N2.
  - destruct (between i k k) eqn:E; [|reflexivity]. exfalso.
    destruct (between_other i k k) as (_ & F); [right; repeat split; [assumption|assumption|lia|now right]|exact E|]. now apply F.
Qed.

(** all pairs of points are linked by free edges *)
Lemma free_linked (E : list edge) :
  (forall i j, (i < length x)%nat -> (j < length x)%nat -> i <> j -> (forall k, (k < length x)%nat -> between i j k = false) -> linked E i j) ->
  forall i j, (i < length x)%nat -> (j < length x)%nat -> linked E i j.
Proof.
  intros HE.
  assert (G : forall n i j, (i < length x)%nat -> (j < length x)%nat -> i <> j -> (length (filter (between i j) (seq 0 (length x))) <= n)%nat -> linked E i j).
  { induction n as [|n IH]; intros i j Hi Hj H L.
    - apply HE; try assumption. intros k Hk. destruct (between i j k) eqn:B; [|reflexivity].
      assert (F : In k (filter (between i j) (seq 0 (length x)))) by (apply filter_In; split; [apply in_seq; lia|exact B]).
      destruct (filter (between i j) (seq 0 (length x))); [easy|cbn in L; lia].
    - destruct (filter (between i j) (seq 0 (length x))) as [|k f] eqn:F; [apply IH; try assumption; rewrite F; cbn; lia|].
      assert (Hk : In k (filter (between i j) (seq 0 (length x)))) by (rewrite F; now left).
      apply filter_In in Hk. destruct Hk as (Hk & B). apply in_seq in Hk.
      assert (K : k <> i /\ k <> j).
      { destruct (Nat.eq_dec k i) as [->|K1]; [exfalso; destruct (between_other i j i) as [Z _]; [right; repeat split; auto|exact B|now apply Z]|].
        destruct (Nat.eq_dec k j) as [->|K2]; [exfalso; destruct (between_other i j j) as [_ Z]; [right; repeat split; auto|exact B|now apply Z]|]. now split. }
      destruct K as (K1 & K2). rewrite <- F in L.
      assert (T1 : triple x i j k) by (repeat split; lia). assert (T2 : triple x j i k) by (repeat split; lia).
      destruct (between_less i j k T1 B) as (A1 & A2).
      destruct (between_less j i k T2) as (A3 & A4). { rewrite between_sym by (assumption || lia). exact B. }
      apply (linked_trans E i k j).
      + apply IH; [assumption|lia|lia|].
        assert (S1 := filter_shorter (between i k) (between i j) (seq 0 (length x)) k (fun q _ => A1 q) ltac:(apply in_seq; lia) A2 B). lia.
      + apply linked_sym. apply IH; [assumption|lia|lia|].
        assert (S1 := filter_shorter (between j k) (between i j) (seq 0 (length x)) k).
        assert (P1 : forall q, In q (seq 0 (length x)) -> between j k q = true -> between i j q = true).
        { intros q _ Q. rewrite between_sym by (assumption || lia). now apply A3. }
        specialize (S1 P1 ltac:(apply in_seq; lia) A4 B). lia. }
  intros i j Hi Hj. destruct (Nat.eq_dec i j) as [->|H]; [apply linked_refl|]. apply (G (length (filter (between i j) (seq 0 (length x))))); try assumption. lia.
Qed.
End Geometry.

(** f is constant on the segment, and larger elsewhere *)
Definition flat (f : C -> R) : Prop := exists c, (forall t, -1 < t < 1 -> f (RtoC t) = c) /\ forall p, (forall t, -1 <= t <= 1 -> p <> RtoC t) -> c < f p.

Lemma ordered_apart f x param : flat f -> ordered_by f x param -> tells_apart x param.
Proof.
  intros (c & H1 & H2) (Hp & Ho). split; [exact Hp|]. intros i j k i' j' k' T T' (t & Ht & E) F. apply Ho; [exact T|exact T'|]. rewrite E, (H1 t Ht). now apply H2.
Qed.
Lemma ordered_to_within eps f x param : 0 <= eps -> ordered_by f x param -> ordered_within eps f x param.
Proof. intros He (Hp & Ho). split; [exact Hp|]. intros i j k i' j' k' T T' H. apply Ho; [exact T|exact T'|lra]. Qed.
Lemma within_apart eps c f x param : (forall t, -1 < t < 1 -> f (RtoC t) = c) -> ordered_within eps f x param ->
  (forall i j k, triple x i j k -> off x i j k -> c + eps < f (position x i j k)) -> tells_apart x param.
Proof.
  intros H1 (Hp & Ho) H2. split; [exact Hp|]. intros i j k i' j' k' T T' (t & Ht & E) F. apply Ho; [exact T|exact T'|]. rewrite E, (H1 t Ht). now apply H2.
Qed.

Theorem tree_free sort param x n r mn l r' mn' : distinct x -> (3 <= length x)%nat -> qsort_ok sort -> (n < length x)%nat ->
  tells_apart x param -> spanning_tree sort param (length x) n r mn = Done (l, r', mn') ->
  forall e, In e l -> free_segment x (vget x (ea e)) (vget x (eb e)).
Proof.
  intros Hd H3 Hs Hn (Hp & Ho) Et e He t Ht Hin.
  destruct (tree_final sort param (length x) n r mn (fun l => proj1 (Hs l)) Hn) as (l0 & r1 & mn1 & Et' & Hlen & Hgr & _ & Hac & Hto & _).
  rewrite Et in Et'. injection Et' as <- <- <-.
  assert (Ha : (ea e < length x)%nat) by (apply Hto; exists e; split; [exact He|now left]).
  assert (Hb : (eb e < length x)%nat) by (apply Hto; exists e; split; [exact He|now right]).
  assert (Hab : ea e <> eb e). { apply in_split in He. destruct He as (l1 & l2 & ->). apply (Hgr l1 e l2 eq_refl). }
  set (i := Nat.min (ea e) (eb e)). set (j := Nat.max (ea e) (eb e)).
  assert (Hij : (i < j)%nat /\ (j < length x)%nat) by (unfold i, j; lia). destruct Hij as (Hij & Hj).
  apply (In_nth x _ (RtoC 0)) in Hin. destruct Hin as (k & Hk & Ek). fold (vget x k) in Ek.
  assert (Bk : between x (ea e) (eb e) k = true).
  { apply between_spec. exists t. split; [exact Ht|]. apply position_point; assumption. }
  assert (Bij : between x i j k = true).
  { unfold i, j. destruct (Nat.lt_ge_cases (ea e) (eb e)).
    - rewrite Nat.min_l, Nat.max_r by lia. exact Bk.
    - rewrite Nat.min_r, Nat.max_l by lia. rewrite between_sym by (assumption || lia). exact Bk. }
  assert (Hk2 : k <> i /\ k <> j).
  { destruct (Nat.eq_dec k i) as [E1|K1]; [exfalso; destruct (between_other x Hd i j k) as [Z _]; [right; repeat split; [lia|lia|lia|now left]|exact Bij|now apply Z]|].
    destruct (Nat.eq_dec k j) as [E2|K2]; [exfalso; destruct (between_other x Hd i j k) as [_ Z]; [right; repeat split; [lia|lia|lia|now right]|exact Bij|now apply Z]|]. now split. }
  assert (Tk : triple x i j k) by (repeat split; lia || apply Hk2).
  destruct (Hp i j k) as (z & Ez & Hz).
  (* every free edge is heavier *)
  assert (Hlink : linked (heavy (z + 1) (edges_init param (length x))) (ea e) (eb e)).
  { apply (free_linked x Hd); [|exact Ha|exact Hb].
    assert (G : forall u v, (u < v)%nat -> (v < length x)%nat -> (forall k, (k < length x)%nat -> between x u v k = false) -> linked (heavy (z + 1) (edges_init param (length x))) u v).
    { intros u v Huv Hv Hfr.
      destruct (param_loop_first (param u v) u v (seq 0 (length x))) as (w & Ew & _ & _ & k' & Hk' & Hu' & Hv' & Ek').
      - intros q _ _ _. apply Hp.
      - destruct (Nat.eq_dec u 0) as [Ei|Ei], (Nat.eq_dec v 0) as [Ej|Ej], (Nat.eq_dec u 1) as [Ei1|Ei1], (Nat.eq_dec v 1) as [Ej1|Ej1];
          first [exists 0%nat; split; [apply in_seq; lia|lia] | exists 1%nat; split; [apply in_seq; lia|lia] | exists 2%nat; split; [apply in_seq; lia|lia]].
      - apply in_seq in Hk'.
        apply (linked_one _ {| er := Some w; ea := u; eb := v |}); [|left; split; reflexivity].
        apply filter_In. split; [apply edges_init_in; cbn [ea eb er]; split; [lia|symmetry; exact Ew]|]. cbn [er]. apply Z.leb_le.
        assert (T' : triple x u v k') by (repeat split; lia).
        assert (Hlt : dlt (param i j k) (param u v k') = true).
        { apply Ho; [exact Tk|exact T'|apply between_spec in Bij; exact Bij|]. intros s' Hs'' E'.
          assert (Fb := Hfr k' ltac:(lia)). destruct (Req_dec s' 1) as [->|S1]; [|destruct (Req_dec s' (-1)) as [->|S2]].
          - apply position_point in E'; [|exact Hd|lia|lia|lia]. apply (vget_neq x Hd k' v); [lia|lia|lia|]. rewrite E'. unfold edge_point. apply injective_projections; cbn; field.
          - apply position_point in E'; [|exact Hd|lia|lia|lia]. apply (vget_neq x Hd k' u); [lia|lia|lia|]. rewrite E'. unfold edge_point. apply injective_projections; cbn; field.
          - rewrite (proj2 (between_spec x u v k')) in Fb; [discriminate|]. exists s'. split; [lra|exact E']. }
        rewrite Ez, Ek' in Hlt. cbn [dlt] in Hlt. apply Z.ltb_lt in Hlt. lia. }
    intros u v Hu Hv Huv Hfr. destruct (Nat.lt_ge_cases u v).
    - now apply G.
    - apply linked_sym, G; [lia|exact Hu|]. intros q Hq. rewrite between_sym by (assumption || lia). now apply Hfr. }
  assert (Hnum : forall y, In y (edges_init param (length x)) -> is_number (er y)).
  { intros y Hy. apply edges_init_in in Hy. destruct Hy as (Hy & Ey). rewrite Ey.
    destruct (param_loop_first (param (ea y) (eb y)) (ea y) (eb y) (seq 0 (length x))) as (w & Ew & _).
    - intros q _ _ _. apply Hp.
    - destruct (Nat.eq_dec (ea y) 0) as [Ei|Ei], (Nat.eq_dec (eb y) 0) as [Ej|Ej], (Nat.eq_dec (ea y) 1) as [Ei1|Ei1], (Nat.eq_dec (eb y) 1) as [Ej1|Ej1];
          first [exists 0%nat; split; [apply in_seq; lia|lia] | exists 1%nat; split; [apply in_seq; lia|lia] | exists 2%nat; split; [apply in_seq; lia|lia]].
    - unfold param_edge. rewrite Ew. discriminate. }
  assert (HL := tree_max_final sort param (length x) n r mn l r' mn' (z + 1)%Z Hs Hn Hnum Et (ea e) (eb e)
    (ex_intro _ e (conj He (or_introl eq_refl))) (ex_intro _ e (conj He (or_intror eq_refl))) Hlink).
  (* the edge itself is not heavy *)
  assert (Hw : forall w, er e = Some w -> (w <= z)%Z).
  { intros w Ew. rewrite (tree_weights sort param (length x) n r mn l r' mn' (fun l => proj1 (Hs l)) Hn Et e He) in Ew. fold i j in Ew.
    destruct (param_loop_first (param i j) i j (seq 0 (length x))) as (w' & Ew' & _ & Hmin & _).
    - intros q _ _ _. apply Hp.
    - exists k. split; [apply in_seq; lia|exact Hk2].
    - unfold param_edge in Ew. rewrite Ew in Ew'. injection Ew' as <-. apply (Hmin k z); [apply in_seq; lia|apply Hk2|apply Hk2|exact Ez]. }
  destruct (in_split e l He) as (l1 & l2 & El). apply (Hac l1 e l2 El). revert HL. apply linked_incl. intros y Hy.
  apply filter_In in Hy. destruct Hy as (Hy & Wy). rewrite El in Hy. apply in_app_iff in Hy. apply in_app_iff.
  destruct Hy as [Hy|[<-|Hy]]; [now left| |now right]. exfalso. destruct (er e) as [w|] eqn:Ew; [|discriminate]. specialize (Hw w eq_refl). apply Z.leb_le in Wy. lia.
Qed.
