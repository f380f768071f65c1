(** The edges of the shortest tree have no points in common but their ends. *)
From Coq Require Import Reals Lra Lia List Permutation ZArith Bool.
From Coquelicot Require Import Coquelicot.
From Verif Require Import CArg ModelTree ModelPeriod ModelMaTree SpecTree SpecEdge SpecDeq SpecInter SpecCross SpecMaTree ProofTree ProofEdge ProofAngle ProofFree ProofMaTree
  ProofCross ProofCross2 ProofCross3 ProofCross4.
Import ListNotations.
Local Open Scope R_scope.

Lemma touched_dec l v : touched l v \/ ~ touched l v.
Proof.
  induction l as [|e l IH]; [right; apply touched_nil|]. change (e :: l) with ([e] ++ l). rewrite touched_app, touched_one.
  destruct (Nat.eq_dec v (ea e)), (Nat.eq_dec v (eb e)); tauto.
Qed.
Lemma no_triangle p l e k : growing l -> cheapest p l -> (forall v, touched l v -> (v < length p)%nat) -> In e l -> (k < length p)%nat ->
  dist p (ea e) k < edge_length p e -> dist p (eb e) k < edge_length p e -> False.
Proof.
  intros Hg Hc Ht Ie Hk H1 H2. assert (Ra : (ea e < length p)%nat) by (apply Ht; exists e; auto). assert (Rb : (eb e < length p)%nat) by (apply Ht; exists e; auto).
  assert (Na : k <> ea e). { intros ->. apply (Rlt_irrefl (edge_length p e)). unfold edge_length at 1. rewrite cdist_sym. exact H2. }
  assert (Nb : k <> eb e). { intros ->. apply (Rlt_irrefl (edge_length p e)). exact H1. }
  apply in_split in Ie as (l1 & l2 & E). destruct (Hg l1 e l2 E) as (N & Nt & Hn). specialize (Hc l1 e l2 E).
  destruct l1 as [|e0 l1].
  - specialize (Hc (ea e) k Ra Hk ltac:(congruence) (or_introl eq_refl)). lra.
  - specialize (Hn ltac:(discriminate)). destruct (touched_dec (e0 :: l1) k) as [T|T].
    + specialize (Hc k (eb e) Hk Rb Nb (or_intror (conj T Nt))). rewrite dist_sym in Hc. lra.
    + specialize (Hc (ea e) k Ra Hk ltac:(congruence) (or_intror (conj Hn T))). lra.
Qed.

Lemma cmod_lt (z w : C) : fst z * fst z + snd z * snd z < fst w * fst w + snd w * snd w -> Cmod z < Cmod w.
Proof. intro H. unfold Cmod. apply sqrt_lt_1_alt. cbn. split; [nra|lra]. Qed.
Lemma cmod_pos2 (z : C) : z <> RtoC 0 -> 0 < fst z * fst z + snd z * snd z.
Proof.
  intro H. destruct z as [u v]. cbn. destruct (Req_dec u 0) as [->|]; [destruct (Req_dec v 0) as [->|]; [now destruct H|nra]|nra].
Qed.
(** the angle at a of the triangle a, c, d is not acute *)
Lemma right_angle (a c d : C) : a <> c -> a <> d -> (fst c - fst a) * (fst d - fst a) + (snd c - snd a) * (snd d - snd a) <= 0 ->
  Cmod (a - c)%C < Cmod (d - c)%C /\ Cmod (a - d)%C < Cmod (d - c)%C.
Proof.
  intros Nc Nd H. assert (P1 : 0 < fst (a - c)%C * fst (a - c)%C + snd (a - c)%C * snd (a - c)%C).
  { apply cmod_pos2. intro X. apply Nc. transitivity (a - c + c)%C; [ring|rewrite X; ring]. }
  assert (P2 : 0 < fst (a - d)%C * fst (a - d)%C + snd (a - d)%C * snd (a - d)%C).
  { apply cmod_pos2. intro X. apply Nd. transitivity (a - d + d)%C; [ring|rewrite X; ring]. }
  destruct a as [a1 a2], c as [c1 c2], d as [d1 d2]. cbn in *. split; apply cmod_lt; cbn; nra.
Qed.
(** diagonals that cross: some angle of the quadrilateral is not acute *)
Lemma obtuse al al' be be' p1 p2 q1 q2 : 0 < al -> 0 < al' -> 0 < be -> 0 < be' ->
  let at_a := (al * p1 - be * q1) * (al * p1 + be' * q1) + (al * p2 - be * q2) * (al * p2 + be' * q2) in
  let at_b := (- al' * p1 - be * q1) * (- al' * p1 + be' * q1) + (- al' * p2 - be * q2) * (- al' * p2 + be' * q2) in
  let at_c := (be * q1 - al * p1) * (be * q1 + al' * p1) + (be * q2 - al * p2) * (be * q2 + al' * p2) in
  let at_d := (- be' * q1 - al * p1) * (- be' * q1 + al' * p1) + (- be' * q2 - al * p2) * (- be' * q2 + al' * p2) in
  at_a <= 0 \/ at_b <= 0 \/ at_c <= 0 \/ at_d <= 0.
Proof.
  intros A1 A2 B1 B2 at_a at_b at_c at_d.
  destruct (Rle_dec at_a 0) as [?|Ha]; [tauto|]. destruct (Rle_dec at_b 0) as [?|Hb]; [tauto|]. destruct (Rle_dec at_c 0) as [?|Hc]; [tauto|]. destruct (Rle_dec at_d 0) as [?|Hd]; [tauto|].
  exfalso. apply Rnot_le_lt in Ha, Hb, Hc, Hd. set (P := p1 * p1 + p2 * p2). set (Q := q1 * q1 + q2 * q2).
  assert (E1 : al' * at_a + al * at_b = (al + al') * (al * al' * P - be * be' * Q)) by (unfold at_a, at_b, P, Q; ring).
  assert (E2 : be' * at_c + be * at_d = (be + be') * (be * be' * Q - al * al' * P)) by (unfold at_c, at_d, P, Q; ring).
  assert (K1 : 0 < al' * at_a + al * at_b) by (apply Rplus_lt_0_compat; now apply Rmult_lt_0_compat).
  assert (K2 : 0 < be' * at_c + be * at_d) by (apply Rplus_lt_0_compat; now apply Rmult_lt_0_compat).
  rewrite E1 in K1. rewrite E2 in K2. set (D := al * al' * P - be * be' * Q) in *. replace (be * be' * Q - al * al' * P) with (- D) in K2 by (unfold D; ring).
  destruct (Rle_dec D 0); nra.
Qed.
Lemma crossing_angle (a b c d : C) t t' : -1 < t < 1 -> -1 < t' < 1 -> edge_point a b (RtoC t) = edge_point c d (RtoC t') ->
  let acute (a c d : C) := (fst c - fst a) * (fst d - fst a) + (snd c - snd a) * (snd d - snd a) in
  acute a c d <= 0 \/ acute b c d <= 0 \/ acute c a b <= 0 \/ acute d a b <= 0.
Proof.
  intros Ht Ht' E acute. rewrite !point_lin in E.
  assert (E1 := f_equal fst E). assert (E2 := f_equal snd E). destruct a as [a1 a2], b as [b1 b2], c as [c1 c2], d as [d1 d2]. cbn in E1, E2. unfold acute. cbn [fst snd].
  assert (O := obtuse ((1 + t) / 2) ((1 - t) / 2) ((1 + t') / 2) ((1 - t') / 2) (b1 - a1) (b2 - a2) (d1 - c1) (d2 - c2) ltac:(lra) ltac:(lra) ltac:(lra) ltac:(lra)). cbv zeta in O.
  set (al := (1 + t) / 2) in *. set (be := (1 + t') / 2) in *. replace ((1 - t) / 2) with (1 - al) in O by (unfold al; field). replace ((1 - t') / 2) with (1 - be) in O by (unfold be; field).
  assert (C1 : c1 = a1 + al * (b1 - a1) - be * (d1 - c1)) by lra. assert (C2 : c2 = a2 + al * (b2 - a2) - be * (d2 - c2)) by lra.
  set (p1 := b1 - a1) in *. set (p2 := b2 - a2) in *. set (q1 := d1 - c1) in *. set (q2 := d2 - c2) in *.
  assert (S1 : c1 - a1 = al * p1 - be * q1) by lra. assert (S2 : c2 - a2 = al * p2 - be * q2) by lra.
  assert (T1 : d1 - a1 = al * p1 + (1 - be) * q1) by (unfold q1 in *; lra). assert (T2 : d2 - a2 = al * p2 + (1 - be) * q2) by (unfold q2 in *; lra).
  assert (U1 : c1 - b1 = - (1 - al) * p1 - be * q1) by (unfold p1 in *; lra). assert (U2 : c2 - b2 = - (1 - al) * p2 - be * q2) by (unfold p2 in *; lra).
  assert (V1 : d1 - b1 = - (1 - al) * p1 + (1 - be) * q1) by (unfold p1, q1 in *; lra). assert (V2 : d2 - b2 = - (1 - al) * p2 + (1 - be) * q2) by (unfold p2, q2 in *; lra).
  replace (a1 - c1) with (- (c1 - a1)) by ring. replace (a2 - c2) with (- (c2 - a2)) by ring. replace (b1 - c1) with (- (c1 - b1)) by ring. replace (b2 - c2) with (- (c2 - b2)) by ring.
  replace (a1 - d1) with (- (d1 - a1)) by ring. replace (a2 - d2) with (- (d2 - a2)) by ring. replace (b1 - d1) with (- (d1 - b1)) by ring. replace (b2 - d2) with (- (d2 - b2)) by ring.
  rewrite S1, S2, T1, T2, U1, U2, V1, V2. destruct O as [O|[O|[O|O]]]; [left|right; left|right; right; left|right; right; right]; eapply Rle_trans; [apply Req_le|exact O| |exact O| |exact O| |exact O]; try apply Req_le; ring.
Qed.

Section Tree.
Context (x p : list C) (es : list edge).
Hypothesis Hd : distinct x.
Hypothesis Hp : same_sides p x.
Hypothesis Hg : growing es.
Hypothesis Ht : forall v, touched es v -> (v < length x)%nat.
Hypothesis Hc : cheapest p es.

Lemma ends e : In e es -> (ea e < length x)%nat /\ (eb e < length x)%nat /\ ea e <> eb e.
Proof.
  intro I. split; [apply Ht; exists e; auto|]. split; [apply Ht; exists e; auto|]. apply in_split in I as (l1 & l2 & E). now destruct (Hg l1 e l2 E).
Qed.
Lemma no_point e k : In e es -> (k < length x)%nat ->
  Cmod (vget x k - vget x (ea e))%C < Cmod (vget x (eb e) - vget x (ea e))%C -> Cmod (vget x k - vget x (eb e))%C < Cmod (vget x (eb e) - vget x (ea e))%C -> False.
Proof.
  intros I Hk H1 H2. destruct (ends e I) as (A & B & N). destruct Hp as [Hl HS]. apply (no_triangle p es e k Hg Hc); [intros v T; rewrite Hl; now apply Ht|exact I|rewrite Hl; exact Hk| |].
  - unfold dist, edge_length. now apply HS.
  - unfold dist, edge_length. rewrite (cdist_sym (vget p (eb e))). apply HS; auto. rewrite (cdist_sym (vget x (ea e))). exact H2.
Qed.
Lemma tree_free e : In e es -> free_segment x (vget x (ea e)) (vget x (eb e)).
Proof.
  intros I t Hti J. destruct (ends e I) as (A & B & N). apply (In_nth _ _ (RtoC 0)) in J as (k & Hk & K).
  assert (Np : 0 < Cmod (vget x (eb e) - vget x (ea e))%C). { apply Cmod_gt_0. intro X. apply (vget_neq x Hd _ _ B A ltac:(congruence)). transitivity (vget x (eb e) - vget x (ea e) + vget x (ea e))%C; [ring|rewrite X; ring]. }
  apply (no_point e k I Hk); unfold vget at 1; fold (vget x k); change (nth k x (RtoC 0)) with (vget x k) in K; rewrite K, point_lin.
  - replace (vget x (ea e) + RtoC ((1 + t) / 2) * (vget x (eb e) - vget x (ea e)) - vget x (ea e))%C with (RtoC ((1 + t) / 2) * (vget x (eb e) - vget x (ea e)))%C by ring.
    rewrite Cmod_mult, Cmod_R, Rabs_pos_eq by lra. nra.
  - replace (vget x (ea e) + RtoC ((1 + t) / 2) * (vget x (eb e) - vget x (ea e)) - vget x (eb e))%C with (RtoC (- ((1 - t) / 2)) * (vget x (eb e) - vget x (ea e)))%C.
    2:{ replace (- ((1 - t) / 2)) with ((1 + t) / 2 - 1) by field. rewrite RtoC_minus. ring. }
    rewrite Cmod_mult, Cmod_R, Rabs_Ropp, Rabs_pos_eq by lra. nra.
Qed.
Lemma tree_apart : edges_apart x es.
Proof.
  intros k l t t' Hkl H1 H2 E. set (e := nth k es no_edge) in *. set (f := nth l es no_edge) in *.
  assert (Ie : In e es) by (apply nth_In; lia). assert (If : In f es) by (apply nth_In; lia).
  destruct (ends e Ie) as (A & B & N). destruct (ends f If) as (A' & B' & N'). destruct (growing_new es k l Hg Hkl) as [G1 G2]. fold e f in G1, G2.
  set (a := vget x (ea e)) in *. set (b := vget x (eb e)) in *. set (c := vget x (ea f)) in *. set (d := vget x (eb f)) in *.
  assert (Ia : In a x) by (apply nth_In; exact A). assert (Ib : In b x) by (apply nth_In; exact B). assert (Ic : In c x) by (apply nth_In; exact A'). assert (Id : In d x) by (apply nth_In; exact B').
  assert (Nab : b <> a) by (apply (vget_neq x Hd); auto). assert (Nda : d <> a) by (apply (vget_neq x Hd); auto). assert (Ndb : d <> b) by (apply (vget_neq x Hd); auto). assert (Ndc : d <> c) by (apply (vget_neq x Hd); auto).
  assert (T := meet_turns x a b c d t t' Ia Ib Ic Id Nab Nda Ndb Ndc (tree_free e Ie) (tree_free f If) H1 H2 E).
  assert (Nca : c <> a).
  { intro X. assert (M := meet_unique a b c d t t' (-1) (-1) T E). destruct M as [M _]; [|lra]. rewrite !point_lin, X. replace ((1 + -1) / 2) with 0 by field. ring. }
  assert (Ncb : c <> b).
  { intro X. assert (M := meet_unique a b c d t t' 1 (-1) T E). destruct M as [M _]; [|lra]. rewrite !point_lin, X. replace ((1 + -1) / 2) with 0 by field. replace ((1 + 1) / 2) with 1 by field. ring. }
  destruct (crossing_angle a b c d t t' H1 H2 E) as [O|[O|[O|O]]].
  - destruct (right_angle a c d ltac:(congruence) ltac:(congruence) O) as [R1 R2]. exact (no_point f (ea e) If A R1 R2).
  - destruct (right_angle b c d ltac:(congruence) ltac:(congruence) O) as [R1 R2]. exact (no_point f (eb e) If B R1 R2).
  - destruct (right_angle c a b ltac:(congruence) ltac:(congruence) O) as [R1 R2]. exact (no_point e (ea f) Ie A' R1 R2).
  - destruct (right_angle d a b ltac:(congruence) ltac:(congruence) O) as [R1 R2]. exact (no_point e (eb f) Ie B' R1 R2).
Qed.
End Tree.
