(** Where edges of a tree can meet. *)
From Coq Require Import Reals Lra Lia List ZArith.
From Coquelicot Require Import Coquelicot.
From Verif Require Import CArg ModelTree ModelPeriod ModelSymp ModelInter ModelEdge SpecTree SpecInter SpecSymp SpecEdge SpecDeq SpecCross SpecGc SpecFree ModelDeq ModelCurve
  ProofTreeEx ProofAngle ProofInterMain ProofSymp ProofLat8 ProofLat9 ProofFree ProofFree2 ProofCross2 ProofCross3 ProofCross4 ProofCross5 ProofCross6.
Import ListNotations.
Local Open Scope R_scope.

Lemma end_a a b : edge_point a b (RtoC (-1)) = a.
Proof. rewrite point_lin. replace ((1 + -1) / 2) with 0 by field. ring. Qed.
Lemma end_b a b : edge_point a b (RtoC 1) = b.
Proof. rewrite point_lin. replace ((1 + 1) / 2) with 1 by field. ring. Qed.
Lemma inside_or_end t : -1 <= t <= 1 -> -1 < t < 1 \/ t = -1 \/ t = 1.
Proof. intro H. destruct (Req_dec t (-1)); [now right; left|]. destruct (Req_dec t 1); [now right; right|]. left. lra. Qed.

Section Tree.
Context (sort : list edge -> list edge) (param : nat -> nat -> nat -> dbl) (x : list C) (n : nat) (r : dbl) (mn : nat) (es : list edge) (r' : dbl) (mn' : nat).
Hypothesis Hd : distinct x.
Hypothesis H3 : (3 <= length x)%nat.
Hypothesis Hn : (n < length x)%nat.
Hypothesis Hs : qsort_ok sort.
Hypothesis Ho : tells_apart x param.
Hypothesis Et : spanning_tree sort param (length x) n r mn = Done (es, r', mn').
Notation e k := (nth k es no_edge).
Let A k := vget x (ea (e k)).
Let B k := vget x (eb (e k)).
Let facts := tree_facts sort param x n r mn es r' mn' Hd H3 Hn Hs Ho Et.

Lemma edge_ok k : (k < length es)%nat -> (ea (e k) < length x)%nat /\ (eb (e k) < length x)%nat /\ ea (e k) <> eb (e k) /\ free_segment x (A k) (B k).
Proof.
  intro Hk. assert (F := facts). destruct F as (_ & Hg & Ht & Hf). assert (I : In (e k) es) by (now apply nth_In).
  split; [apply Ht; exists (e k); auto|]. split; [apply Ht; exists (e k); auto|]. split; [|now apply Hf].
  apply in_split in I. destruct I as (l1 & l2 & E). apply (Hg l1 (e k) l2 E).
Qed.
Lemma transversal k l t t' : (k < l < length es)%nat -> -1 < t < 1 -> -1 < t' < 1 -> edge_point (A k) (B k) (RtoC t) = edge_point (A l) (B l) (RtoC t') ->
  turn_sign (B k - A k)%C (B l - A l)%C <> 0%Z.
Proof.
  intros Hkl H1 H2 H. assert (F := facts). destruct F as (_ & Hg & _ & _).
  destruct (edge_ok k ltac:(lia)) as (A1 & A2 & A3 & A4). destruct (edge_ok l ltac:(lia)) as (B1 & B2 & B3 & B4).
  destruct (growing_new es k l Hg Hkl) as [N1 N2].
  apply (meet_turns x _ _ _ _ t t'); try (apply nth_In; assumption); try (apply (vget_neq x Hd); auto; fail); assumption.
Qed.
Definition at_end (t : R) (y : edge) (i : nat) : Prop := (t = -1 /\ ea y = i) \/ (t = 1 /\ eb y = i).
Lemma end_point k t i : (k < length es)%nat -> at_end t (e k) i -> edge_point (A k) (B k) (RtoC t) = vget x i /\ (i < length x)%nat.
Proof.
  intros Hk. destruct (edge_ok k Hk) as (A1 & A2 & _). intros [[-> <-]|[-> <-]]; [split; [apply end_a|exact A1]|split; [apply end_b|exact A2]].
Qed.
Lemma at_end_of t y : t = -1 \/ t = 1 -> exists i, at_end t y i.
Proof. intros [->| ->]; [exists (ea y); left|exists (eb y); right]; auto. Qed.
Theorem meeting k l t t' : (k < l < length es)%nat -> -1 <= t <= 1 -> -1 <= t' <= 1 -> edge_point (A k) (B k) (RtoC t) = edge_point (A l) (B l) (RtoC t') ->
  (exists i, at_end t (e k) i /\ at_end t' (e l) i) \/
  (-1 < t < 1 /\ -1 < t' < 1 /\ turn_sign (B k - A k)%C (B l - A l)%C <> 0%Z /\
   ea (e k) <> ea (e l) /\ ea (e k) <> eb (e l) /\ eb (e k) <> ea (e l) /\ eb (e k) <> eb (e l)).
Proof.
  intros Hkl H1 H2 E. destruct (edge_ok k ltac:(lia)) as (A1 & A2 & A3 & A4). destruct (edge_ok l ltac:(lia)) as (B1 & B2 & B3 & B4).
  destruct (inside_or_end t H1) as [I1|I1]; destruct (inside_or_end t' H2) as [I2|I2].
  - right. assert (T := transversal k l t t' Hkl I1 I2 E). split; [exact I1|]. split; [exact I2|]. split; [exact T|].
    assert (U : forall s s', edge_point (A k) (B k) (RtoC s) = edge_point (A l) (B l) (RtoC s') -> s = t) by (intros s s' Es; destruct (meet_unique _ _ _ _ _ _ _ _ T E Es); auto).
    repeat split; intro X.
    + assert (K := U (-1) (-1)). rewrite !end_a in K. unfold A in K. rewrite X in K. specialize (K eq_refl). lra.
    + assert (K := U (-1) 1). rewrite end_a, end_b in K. unfold A, B in K. rewrite X in K. specialize (K eq_refl). lra.
    + assert (K := U 1 (-1)). rewrite end_a, end_b in K. unfold A, B in K. rewrite X in K. specialize (K eq_refl). lra.
    + assert (K := U 1 1). rewrite !end_b in K. unfold B in K. rewrite X in K. specialize (K eq_refl). lra.
  - exfalso. destruct (at_end_of t' (e l) I2) as [i Hi]. destruct (end_point l t' i ltac:(lia) Hi) as [Pi Li]. apply (A4 t I1). rewrite E, Pi. now apply nth_In.
  - exfalso. destruct (at_end_of t (e k) I1) as [i Hi]. destruct (end_point k t i ltac:(lia) Hi) as [Pi Li]. apply (B4 t' I2). rewrite <- E, Pi. now apply nth_In.
  - left. destruct (at_end_of t (e k) I1) as [i Hi]. destruct (at_end_of t' (e l) I2) as [j Hj].
    destruct (end_point k t i ltac:(lia) Hi) as [Pi Li]. destruct (end_point l t' j ltac:(lia) Hj) as [Pj Lj]. exists i. split; [exact Hi|].
    destruct (Nat.eq_dec i j) as [->|N]; [exact Hj|]. exfalso. apply (vget_neq x Hd i j Li Lj N). congruence.
Qed.
Theorem line_apart (p d : C) : d <> RtoC 0 -> (forall z, In z x -> exists s, z = (p + RtoC s * d)%C) -> edges_apart x es.
Proof.
  intros Nd Hl k l t t' Hkl H1 H2 E. apply (transversal k l t t' Hkl H1 H2 E).
  destruct (edge_ok k ltac:(lia)) as (A1 & A2 & _). destruct (edge_ok l ltac:(lia)) as (B1 & B2 & _).
  destruct (Hl (A k)) as [a Ea]; [now apply nth_In|]. destruct (Hl (B k)) as [b Eb]; [now apply nth_In|]. destruct (Hl (A l)) as [a' Ea']; [now apply nth_In|]. destruct (Hl (B l)) as [b' Eb']; [now apply nth_In|].
  rewrite Ea, Eb, Ea', Eb'. unfold turn_sign. cbn zeta.
  replace (fst (p + RtoC b * d - (p + RtoC a * d))%C * snd (p + RtoC b' * d - (p + RtoC a' * d))%C - snd (p + RtoC b * d - (p + RtoC a * d))%C * fst (p + RtoC b' * d - (p + RtoC a' * d))%C) with 0 by (cbn; ring).
  destruct (Rlt_dec 0 0); [lra|]. reflexivity.
Qed.
Theorem two_apart : (n <= 2)%nat -> edges_apart x es.
Proof.
  intros Hn2 k l t t' Hkl H1 H2 E. assert (F := facts). destruct F as (Hl & Hg & _ & _). assert (k = 0%nat /\ l = 1%nat) by lia. destruct H as [-> ->].
  destruct (meeting 0 1 t t' Hkl ltac:(lra) ltac:(lra) E) as [(i & Hi & _)|(_ & _ & _ & N1 & N2 & N3 & N4)]; [destruct Hi as [[X _]|[X _]]; lra|].
  destruct es as [|e0 [|e1 q]]; try (cbn in Hkl; lia). cbn [nth] in *.
  destruct (Hg [e0] e1 q eq_refl) as (_ & _ & H). destruct (H ltac:(discriminate)) as (y & [<-|[]] & [Y|Y]); [apply N1|apply N3]; exact Y.
Qed.
End Tree.
