(** The tree of the Magma package: results in the form they are stated. *)
From Coq Require Import Reals Lra Lia List Permutation ZArith Bool.
From Coquelicot Require Import Coquelicot.
From Verif Require Import CArg ModelTree ModelPeriod ModelDeq ModelMaTree SpecTree SpecEdge SpecDeq SpecInter SpecCross SpecGc SpecFree SpecMaTree ProofTree ProofTreeMax ProofTreeEx ProofCross5
  ProofMaTree ProofMaTree2 ProofMaTree3 ProofMaTree4.
Import ListNotations.
Local Open Scope R_scope.

(** an insertion sort *)
Fixpoint rinsert (e : tedge) (l : list tedge) : list tedge :=
  match l with
  | [] => [e]
  | f :: l => if Rle_dec (t_r f) (t_r e) then e :: f :: l else f :: rinsert e l
  end.
Definition rsort (l : list tedge) : list tedge := fold_right rinsert [] l.
Lemma rinsert_perm e l : Permutation (e :: l) (rinsert e l).
Proof.
  induction l as [|f l IH]; cbn; [apply Permutation_refl|]. destruct (Rle_dec _ _); [apply Permutation_refl|].
  eapply Permutation_trans; [apply perm_swap|]. apply perm_skip, IH.
Qed.
Lemma rsort_perm l : Permutation l (rsort l).
Proof. induction l as [|x l IH]; cbn; [apply Permutation_refl|]. eapply Permutation_trans; [apply perm_skip, IH|apply rinsert_perm]. Qed.
Inductive down : list tedge -> Prop :=
| down_nil : down []
| down_cons e l : (forall f, In f l -> t_r f <= t_r e) -> down l -> down (e :: l).
Lemma rinsert_down e l : down l -> down (rinsert e l).
Proof.
  induction 1 as [|f l H D IH]; cbn; [constructor; [intros f []|constructor]|]. destruct (Rle_dec (t_r f) (t_r e)) as [L|L].
  - constructor; [|now constructor]. intros g [<-|G]; [exact L|]. specialize (H g G). lra.
  - constructor; [|exact IH]. intros g G. apply (Permutation_in _ (Permutation_sym (rinsert_perm e l))) in G. destruct G as [<-|G]; [lra|now apply H].
Qed.
Lemma down_order l : down l -> in_order l.
Proof.
  intros D i j e f Hij E F [H1 H2]. unfold compare_edge in H1, H2. destruct (Rle_dec (t_r e) (t_r f)) as [L|L]; [|discriminate]. destruct (Rle_dec (t_r f) (t_r e)) as [M|M]; [discriminate|].
  apply M. clear - D Hij E F. revert i j Hij E F. induction D as [|g l H D IH]; intros [|i] [|j] Hij E F; cbn in *; try lia; try discriminate.
  - injection E as <-. apply H. eapply nth_error_In; exact F.
  - apply (IH i j); [lia|exact E|exact F].
Qed.
Lemma rsort_ok : sort_ok rsort.
Proof.
  intro l. split; [apply rsort_perm|]. apply down_order. induction l as [|e l IH]; cbn; [constructor|]. now apply rinsert_down.
Qed.

Lemma ma_done sort ty p : sort_ok sort -> (1 <= length p)%nat -> exists t ty', spanning_tree_ma sort ty p = Done (t, ty').
Proof.
  intros Hs H. unfold spanning_tree_ma. destruct (build_done sort ty p Hs H) as (t & E & _). destruct (build_done sort DE p Hs H) as (t' & E' & _). rewrite E. cbn [bind].
  destruct ty; [eauto|]. destruct (Rlt_dec _ _); [rewrite E'; cbn [bind]; eauto|eauto].
Qed.
Lemma ma_built sort ty p t ty' : spanning_tree_ma sort ty p = Done (t, ty') -> build_tree sort ty' p = Done t /\ (ty' = GJ -> 3 / 1000 <= s_min t - 1) /\ (ty' = DE \/ ty' = ty).
Proof.
  unfold spanning_tree_ma. destruct (build_tree sort ty p) as [t0| | |] eqn:E; try discriminate. cbn [bind]. destruct ty.
  - intro X. injection X as <- <-. split; [exact E|]. split; [discriminate|now left].
  - destruct (Rlt_dec (s_min t0 - 1) (3 / 1000)) as [L|L].
    + destruct (build_tree sort DE p) as [t1| | |] eqn:E1; try discriminate. cbn [bind]. intro X. injection X as <- <-. split; [exact E1|]. split; [discriminate|now left].
    + intro X. injection X as <- <-. split; [exact E|]. split; [intros _; lra|now right].
Qed.
Lemma plains_length l : length (plains l) = length l.
Proof. apply map_length. Qed.

Lemma ma_spanning sort ty p : sort_ok sort -> (2 <= length p)%nat -> exists t ty', spanning_tree_ma sort ty p = Done (t, ty') /\
  length (s_edges t) = (length p - 1)%nat /\ growing (plains (s_edges t)) /\ connected (plains (s_edges t)) /\ acyclic (plains (s_edges t)) /\
  forall v, touched (plains (s_edges t)) v <-> (v < length p)%nat.
Proof.
  intros Hs H. destruct (ma_done sort ty p Hs ltac:(lia)) as (t & ty' & E). exists t, ty'. split; [exact E|]. destruct (ma_built _ _ _ _ _ E) as (E' & _).
  destruct (build_done sort ty' p Hs ltac:(lia)) as (t0 & E0 & L & Hg & Ht & _). assert (t0 = t) by congruence. subst t0.
  split; [exact L|]. split; [exact Hg|]. split; [now apply growing_connected|]. split; [now apply growing_acyclic|]. intro v. split; [apply Ht|].
  apply growing_spans; try assumption; [rewrite plains_length; lia|]. intro X. apply (f_equal (@length edge)) in X. rewrite plains_length in X. cbn in X. lia.
Qed.
Lemma ma_shortest sort ty p t ty' l : sort_ok sort -> (1 <= length p)%nat -> spanning_tree_ma sort ty p = Done (t, ty') ->
  (forall v, touched l v -> (v < length p)%nat) -> (forall u v, (u < length p)%nat -> (v < length p)%nat -> linked l u v) ->
  total_length p (plains (s_edges t)) <= total_length p l.
Proof.
  intros Hs H E Hr Hl. destruct (ma_built _ _ _ _ _ E) as (E' & _).
  destruct (build_done sort ty' p Hs ltac:(lia)) as (t0 & E0 & L & Hg & Ht & Hc & _). assert (t0 = t) by congruence. subst t0. now apply shortest.
Qed.
Lemma ma_apart sort ty p x t ty' : sort_ok sort -> distinct x -> same_sides p x -> spanning_tree_ma sort ty p = Done (t, ty') ->
  (forall e, In e (s_edges t) -> free_segment x (vget x (t_a e)) (vget x (t_b e))) /\ edges_apart x (plains (s_edges t)).
Proof.
  intros Hs Hd Hp E. destruct (ma_built _ _ _ _ _ E) as (E' & _). assert (Lx := proj1 Hp).
  destruct (le_lt_dec (length p) 0) as [L0|L0].
  { assert (s_edges t = []) as ->.
    { unfold build_tree in E'. replace (length p - 1)%nat with 0%nat in E' by lia. cbn in E'. injection E' as <-. reflexivity. }
    split; [intros e []|]. intros k l u u' H. cbn in H. lia. }
  destruct (build_done sort ty' p Hs ltac:(lia)) as (t0 & E0 & L & Hg & Ht & Hc & _). assert (t0 = t) by congruence. subst t0. rewrite Lx in Ht.
  split; [|now apply (tree_apart x p)]. intros e Ie. apply (tree_free x p (plains (s_edges t)) Hd Hp Hg Ht Hc (plain e)). now apply in_map.
Qed.
Lemma ma_numbers sort ty p t ty' : sort_ok sort -> distinct p -> (3 <= length p)%nat -> spanning_tree_ma sort ty p = Done (t, ty') ->
  (forall e, In e (s_edges t) -> exists a b, joins (plain e) a b /\ least_gauge ty' p a b (t_r e)) /\
  (forall e, In e (s_edges t) -> s_min t <= t_r e <= s_max t) /\
  (exists e, In e (s_edges t) /\ t_r e = s_min t) /\ (exists e, In e (s_edges t) /\ t_r e = s_max t) /\
  match ty' with GJ => 1 + 3 / 1000 <= s_min t /\ s_max t <= 5 | DE => 0 < s_min t /\ s_max t < PI / 2 end.
Proof.
  intros Hs Hd H3 E. destruct (ma_built _ _ _ _ _ E) as (E' & Hm & _).
  destruct (built sort ty' p Hs Hd H3) as (t0 & E0 & L & Hg & Ht & Hc & He & (e1 & I1 & M1) & (e2 & I2 & M2)). assert (t0 = t) by congruence. subst t0.
  split; [intros e Ie; now apply (He e Ie)|]. split; [intros e Ie; now apply (He e Ie)|]. split; [eauto|]. split; [eauto|].
  destruct (He e1 I1) as (_ & _ & R1). destruct (He e2 I2) as (_ & _ & R2). destruct ty'; [lra|]. specialize (Hm eq_refl). lra.
Qed.
