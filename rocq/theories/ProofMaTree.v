(** The spanning tree of the Magma package: what the loop builds. *)
From Coq Require Import Reals Lra Lia List Permutation ZArith Bool.
From Coquelicot Require Import Coquelicot.
From Verif Require Import CArg ModelTree ModelPeriod ModelMaTree SpecTree SpecEdge SpecDeq SpecInter SpecCross SpecMaTree ProofTree.
Import ListNotations.
Local Open Scope R_scope.

Lemma cdist_sym (a b : C) : Cmod (a - b)%C = Cmod (b - a)%C.
Proof. rewrite <- (Cmod_opp (b - a)%C). f_equal. ring. Qed.

Definition dist (p : list C) (u v : nat) : R := Cmod (vget p v - vget p u)%C.
Lemma dist_sym p u v : dist p u v = dist p v u.
Proof. apply cdist_sym. Qed.

(** at each step the edge is a shortest one that leaves the tree *)
Definition cheapest (p : list C) (l : list edge) : Prop :=
  forall l1 e l2, l = l1 ++ e :: l2 -> forall u v, (u < length p)%nat -> (v < length p)%nat -> u <> v ->
    (l1 = [] \/ (touched l1 u /\ ~ touched l1 v)) -> edge_length p e <= dist p u v.
Lemma cheapest_snoc p l e : cheapest p l ->
  (forall u v, (u < length p)%nat -> (v < length p)%nat -> u <> v -> (l = [] \/ (touched l u /\ ~ touched l v)) -> edge_length p e <= dist p u v) ->
  cheapest p (l ++ [e]).
Proof.
  intros Hg Hx l1 y l2 E.
  destruct (@exists_last _ (y :: l2)) as (l3 & z & E3); [discriminate|].
  rewrite E3, app_assoc in E. apply app_inj_tail in E. destruct E as [E <-].
  destruct l3 as [|y' l3].
  - cbn in E3. injection E3 as -> ->. rewrite app_nil_r in E. subst l1. exact Hx.
  - cbn in E3. injection E3 as <- E4. apply (Hg l1 y l3). exact E.
Qed.

Lemma all_edges_in pts e : In e (all_edges pts) <->
  (t_a e < t_b e < length pts)%nat /\ t_r e = - Cmod (vget pts (t_a e) - vget pts (t_b e))%C.
Proof.
  unfold all_edges. rewrite in_flat_map. split.
  - intros (k & Hk & H). apply in_seq in Hk. apply in_map_iff in H as (l & <- & H). apply in_seq in H. cbn. split; [lia|reflexivity].
  - intros (H & E). exists (t_a e). split; [apply in_seq; lia|]. apply in_map_iff. exists (t_b e). split; [destruct e; cbn in *; now rewrite E|apply in_seq; lia].
Qed.

Lemma in_order_r l : in_order l -> forall i j e f, (i < j)%nat -> nth_error l i = Some e -> nth_error l j = Some f -> t_r f <= t_r e.
Proof.
  intros H i j e f Hij E F. specialize (H i j e f Hij E F). unfold compare_edge in H.
  destruct (Rle_dec (t_r e) (t_r f)) as [L|L]; [|lra]. destruct (Rle_dec (t_r f) (t_r e)) as [M|M]; [exact M|]. exfalso. apply H. auto.
Qed.
Lemma in_order_tail e l : in_order (e :: l) -> in_order l.
Proof. intros H i j a b Hij E F. apply (H (S i) (S j) a b); [lia|exact E|exact F]. Qed.
Lemma in_order_head e l f : in_order (e :: l) -> In f l -> t_r f <= t_r e.
Proof. intros H I. apply In_nth_error in I as [j J]. apply (in_order_r _ H 0 (S j)); [lia|reflexivity|exact J]. Qed.

Lemma tget_ok {A} (t : list A) i : (i < length t)%nat -> exists b, nth_error t i = Some b /\ tget t i = Done b.
Proof.
  intro H. destruct (nth_error t i) as [b|] eqn:E; [|apply nth_error_None in E; lia]. exists b. split; [reflexivity|]. unfold tget. now rewrite E.
Qed.
Definition marked (t : list bool) (v : nat) : bool := nth v t false.
Lemma tget_marked t v : (v < length t)%nat -> tget t v = Done (marked t v).
Proof. intro H. unfold tget, marked. rewrite (nth_error_nth' t false H). reflexivity. Qed.

Lemma scan_done es t : in_order es -> (forall e, In e es -> (t_a e < length t)%nat /\ (t_b e < length t)%nat) ->
  (exists e, In e es /\ marked t (t_a e) <> marked t (t_b e)) ->
  exists e, scan_edges es t = Done e /\ In e es /\ marked t (t_a e) <> marked t (t_b e) /\
    forall f, In f es -> marked t (t_a f) <> marked t (t_b f) -> t_r f <= t_r e.
Proof.
  induction es as [|e es IH]; intros Ho Hr (f & If & Nf); [destruct If|]. cbn.
  destruct (Hr e (or_introl eq_refl)) as [R1 R2]. rewrite (tget_marked t _ R1), (tget_marked t _ R2). cbn.
  destruct (Bool.eqb (marked t (t_a e)) (marked t (t_b e))) eqn:E.
  - apply eqb_prop in E. destruct If as [->|If]; [congruence|].
    destruct IH as (g & G1 & G2 & G3 & G4); [eapply in_order_tail; exact Ho|intros; apply Hr; now right|exists f; auto|].
    exists g. split; [exact G1|]. split; [now right|]. split; [exact G3|]. intros h [<-|Ih] Nh; [congruence|now apply G4].
  - apply eqb_false_iff in E. exists e. split; [reflexivity|]. split; [now left|]. split; [exact E|].
    intros h [<-|Ih] Nh; [lra|]. eapply in_order_head; eassumption.
Qed.

Lemma marked_upd t v w : (v < length t)%nat -> marked (upd t v true) w = ((w =? v)%nat || marked t w)%bool.
Proof.
  unfold marked. revert v w. induction t as [|b t IH]; intros [|v] [|w] H; cbn in *; try lia; try reflexivity. rewrite IH by lia. reflexivity.
Qed.
Lemma marked_nth t v : (v < length t)%nat -> nth_error t v = Some (marked t v).
Proof. intro H. unfold marked. apply nth_error_nth'. exact H. Qed.

Definition worst_best (l : list tedge) (t : sptree) : Prop :=
  (s_worst t = None /\ s_min t = 5 /\ (forall e, In e l -> 5 <= t_r e) \/
   exists k e, s_worst t = Some k /\ nth_error l k = Some e /\ t_r e = s_min t /\ s_min t < 5 /\ forall f, In f l -> s_min t <= t_r f) /\
  (s_best t = None /\ s_max t = 0 /\ (forall e, In e l -> t_r e <= 0) \/
   exists k e, s_best t = Some k /\ nth_error l k = Some e /\ t_r e = s_max t /\ 0 < s_max t /\ forall f, In f l -> t_r f <= s_max t).

Record tinv (ty : itype) (p : list C) (l : list tedge) (t : list bool) : Prop := {
  ti_len : length t = length p;
  ti_mark : forall v, marked t v = true <-> touched (plains l) v;
  ti_count : ntrue t = match l with [] => 0%nat | _ => S (length l) end;
  ti_grow : growing (plains l);
  ti_range : forall v, touched (plains l) v -> (v < length p)%nat;
  ti_cheap : cheapest p (plains l);
  ti_weight : forall e, In e l -> exists a b, (a < b)%nat /\ t_r e = edge_weight ty p a b /\ joins (plain e) a b
}.
Lemma marked_out t v : (length t <= v)%nat -> marked t v = false.
Proof. intro H. unfold marked. now apply nth_overflow. Qed.
Lemma plains_app l e : plains (l ++ [e]) = plains l ++ [plain e].
Proof. unfold plains. now rewrite map_app. Qed.

Section Grow.
Context (ty : itype) (p : list C) (es : list tedge).
Hypothesis Hperm : Permutation (all_edges p) es.
Hypothesis Hord : in_order es.
Lemma es_in e : In e es <-> (t_a e < t_b e < length p)%nat /\ t_r e = - dist p (t_a e) (t_b e).
Proof.
  rewrite dist_sym. rewrite <- all_edges_in. split; apply Permutation_in; [now apply Permutation_sym|assumption].
Qed.
Lemma es_pair u v : (u < length p)%nat -> (v < length p)%nat -> u <> v -> exists e, In e es /\ t_r e = - dist p u v /\ ((t_a e = u /\ t_b e = v) \/ (t_a e = v /\ t_b e = u)).
Proof.
  intros Hu Hv N. destruct (lt_dec u v) as [L|L].
  - exists {| t_a := u; t_b := v; t_r := - dist p u v |}. rewrite es_in. cbn. intuition lia.
  - exists {| t_a := v; t_b := u; t_r := - dist p v u |}. rewrite es_in. cbn. rewrite (dist_sym p u v). intuition lia.
Qed.

Lemma grow_step l t st todo : tinv ty p l t -> s_edges st = l -> worst_best l st -> (S (length l) < length p)%nat ->
  exists e t' st', grow_tree ty p es (S todo) t st = grow_tree ty p es todo t' st' /\ tinv ty p (l ++ [e]) t' /\ s_edges st' = l ++ [e] /\ worst_best (l ++ [e]) st'.
Proof.
  intros I Es Hw Hl. cbn [grow_tree]. rewrite Es.
  assert (C : exists e, (if (length l =? 0)%nat then tget es 0 else scan_edges es t) = Done e /\ In e es /\
    (l = [] \/ marked t (t_a e) <> marked t (t_b e)) /\
    forall u v, (u < length p)%nat -> (v < length p)%nat -> u <> v -> (l = [] \/ (touched (plains l) u /\ ~ touched (plains l) v)) -> dist p (t_a e) (t_b e) <= dist p u v).
  { destruct l as [|e0 l0].
    - cbn. destruct (es_pair 0 1 ltac:(cbn in Hl; lia) ltac:(cbn in Hl; lia) ltac:(lia)) as (e1 & I1 & _). destruct (nth_error es 0) as [e|] eqn:E0; [|apply nth_error_None in E0; apply In_nth_error in I1 as [j J]; assert (j < length es)%nat by (apply nth_error_Some; congruence); lia].
      exists e. split; [unfold tget; now rewrite E0|]. split; [eapply nth_error_In; exact E0|]. split; [now left|]. intros u v Hu Hv N _. destruct (es_pair u v Hu Hv N) as (f & If & Rf & _).
      assert (Re := proj2 (proj1 (es_in e) (nth_error_In _ _ E0))). apply In_nth_error in If as [j J]. destruct j as [|j]; [assert (f = e) by congruence; subst f; lra|].
      assert (K := in_order_r _ Hord 0 (S j) _ _ ltac:(lia) E0 J). lra.
    - set (l := e0 :: l0) in *. assert (Hc := ti_count _ _ _ _ I). cbn [l] in Hc. change (S (length (e0 :: l0))) with (S (length l)) in Hc.
      destruct (ntrue_full t) as (w & W); [rewrite (ti_len _ _ _ _ I); lia|].
      assert (Hw0 : (w < length p)%nat) by (rewrite <- (ti_len _ _ _ _ I); apply nth_error_Some; congruence).
      assert (Mw : marked t w = false) by (unfold marked; now rewrite (nth_error_nth _ _ _ W)).
      assert (T0 : touched (plains l) (t_a e0)) by (exists (plain e0); split; [now left|now left]).
      assert (M0 : marked t (t_a e0) = true) by now apply (ti_mark _ _ _ _ I).
      destruct (es_pair (t_a e0) w (ti_range _ _ _ _ I _ T0) Hw0) as (f & If & Rf & Sf); [intro X; rewrite X in M0; congruence|].
      destruct (scan_done es t Hord) as (e & G1 & G2 & G3 & G4).
      { intros e Ie. apply es_in in Ie. rewrite (ti_len _ _ _ _ I). lia. }
      { exists f. split; [exact If|]. destruct Sf as [[-> ->]|[-> ->]]; congruence. }
      exists e. split; [exact G1|]. split; [exact G2|]. split; [now right|]. intros u v Hu Hv N [X|[Tu Tv]]; [discriminate X|].
      destruct (es_pair u v Hu Hv N) as (h & Ih & Rh & Sh). assert (K : t_r h <= t_r e).
      { apply G4; [exact Ih|]. assert (marked t u = true) by now apply (ti_mark _ _ _ _ I). assert (marked t v <> true) by (intro X; apply Tv; now apply (ti_mark _ _ _ _ I)).
        destruct Sh as [[-> ->]|[-> ->]]; congruence. }
      apply es_in in G2. lra. }
  destruct C as (e & E1 & Ie & Hcut & Hmin). rewrite E1. cbn [bind t_a t_b t_r].
  assert (Re := proj1 (es_in e) Ie). destruct Re as [Re _]. assert (Lt := ti_len _ _ _ _ I).
  rewrite (tget_marked t (t_b e)) by lia. cbn [bind].
  set (e1 := if marked t (t_b e) then _ else _).
  assert (J : joins (plain e1) (t_a e) (t_b e)) by (unfold e1, joins; destruct (marked t (t_b e)); cbn; auto).
  assert (W1 : t_r e1 = edge_weight ty p (t_a e) (t_b e)) by (unfold e1; destruct (marked t (t_b e)); reflexivity).
  assert (Ra : (t_a e1 < length t)%nat /\ (t_b e1 < length t)%nat /\ t_a e1 <> t_b e1) by (destruct J as [[J1 J2]|[J1 J2]]; cbn in J1, J2; lia).
  destruct Ra as (Ra & Rb & Nab). rewrite (tget_marked t (t_a e1)) by lia. cbn [bind].
  assert (Mb : marked t (t_b e1) = false /\ (l <> [] -> marked t (t_a e1) = true)).
  { destruct Hcut as [->|Nm].
    - assert (Z : forall v, marked t v = false).
      { intro v. destruct (marked t v) eqn:M; [|reflexivity]. apply (ti_mark _ _ _ _ I) in M. destruct (touched_nil v M). }
      split; [apply Z|intro X; now destruct X].
    - unfold e1. destruct (marked t (t_b e)) eqn:M; cbn; split; try (intros _); try congruence; destruct (marked t (t_a e)); congruence. }
  destruct Mb as [Mb Ma].
  set (t' := upd (upd t (t_a e1) true) (t_b e1) true).
  exists e1, t'. eexists. split; [reflexivity|]. split; [|split; [reflexivity|]].
  - assert (Mt : forall v, marked t' v = ((v =? t_b e1)%nat || ((v =? t_a e1)%nat || marked t v))%bool).
    { intro v. unfold t'. rewrite marked_upd by (rewrite upd_length; exact Rb). rewrite marked_upd by exact Ra. reflexivity. }
    assert (Tch : forall v, touched (plains l ++ [plain e1]) v <-> touched (plains l) v \/ v = t_a e1 \/ v = t_b e1).
    { intro v. rewrite touched_app, touched_one. reflexivity. }
    assert (Ltt : edge_length p (plain e1) = dist p (t_a e) (t_b e)).
    { unfold edge_length. destruct J as [[J1 J2]|[J1 J2]]; rewrite J1, J2; [reflexivity|apply cdist_sym]. }
    constructor.
    + unfold t'. now rewrite !upd_length.
    + intro v. rewrite plains_app, Tch, Mt. rewrite !orb_true_iff, !Nat.eqb_eq, (ti_mark _ _ _ _ I v). tauto.
    + assert (Hc := ti_count _ _ _ _ I). assert (E2 : nth_error (upd t (t_a e1) true) (t_b e1) = Some false).
      { rewrite marked_nth by (rewrite upd_length; exact Rb). rewrite marked_upd by exact Ra. apply Nat.eqb_neq in Nab. rewrite Nat.eqb_sym, Nab. cbn. now rewrite Mb. }
      unfold t'. rewrite (ntrue_upd _ _ E2). rewrite app_length. cbn [length]. destruct l as [|e0 l0].
      * rewrite ntrue_upd; [rewrite Hc; reflexivity|]. rewrite marked_nth by exact Ra. f_equal.
        destruct (marked t (t_a e1)) eqn:M; [|reflexivity]. apply (ti_mark _ _ _ _ I) in M. destruct (touched_nil _ M).
      * rewrite upd_same; [|rewrite marked_nth by exact Ra; f_equal; apply Ma; discriminate]. rewrite Hc. cbn. rewrite ?app_length. cbn. lia.
    + rewrite plains_app. apply growing_snoc. split; [exact (ti_grow _ _ _ _ I)|]. cbn. split; [exact Nab|]. split.
      * intro X. apply (ti_mark _ _ _ _ I) in X. congruence.
      * intro X. apply (ti_mark _ _ _ _ I). apply Ma. intros ->. now apply X.
    + intro v. rewrite plains_app, Tch. intros [H|[->| ->]]; [now apply (ti_range _ _ _ _ I)|lia|lia].
    + rewrite plains_app. apply cheapest_snoc; [exact (ti_cheap _ _ _ _ I)|]. intros u v Hu Hv N H. rewrite Ltt. apply Hmin; auto.
      destruct H as [H|H]; [left; now destruct l|now right].
    + intros f Hf. apply in_app_iff in Hf as [Hf|[<-|[]]]; [now apply (ti_weight _ _ _ _ I)|]. exists (t_a e), (t_b e). split; [lia|]. split; [exact W1|exact J].
  - destruct Hw as [Hw1 Hw2]. assert (Nl : nth_error (l ++ [e1]) (length l) = Some e1) by (rewrite nth_error_app2, Nat.sub_diag by lia; reflexivity).
    assert (In1 : forall f, In f (l ++ [e1]) <-> In f l \/ e1 = f) by (intro f; rewrite in_app_iff; cbn; tauto).
    split.
    + cbn [s_worst s_min]. destruct (Rlt_dec (t_r e1) (s_min st)) as [L|L].
      * right. exists (length l), e1. split; [reflexivity|]. split; [exact Nl|]. split; [reflexivity|].
        destruct Hw1 as [(A1 & A2 & A3)|(k & f & A1 & A2 & A3 & A4 & A5)].
        -- split; [lra|]. intros h Hh. apply In1 in Hh as [Hh|<-]; [specialize (A3 h Hh); lra|lra].
        -- split; [lra|]. intros h Hh. apply In1 in Hh as [Hh|<-]; [specialize (A5 h Hh); lra|lra].
      * destruct Hw1 as [(A1 & A2 & A3)|(k & f & A1 & A2 & A3 & A4 & A5)].
        -- left. split; [exact A1|]. split; [exact A2|]. intros h Hh. apply In1 in Hh as [Hh|<-]; [now apply A3|lra].
        -- right. exists k, f. split; [exact A1|]. split; [rewrite nth_error_app1; [exact A2|apply nth_error_Some; congruence]|]. split; [exact A3|]. split; [exact A4|].
           intros h Hh. apply In1 in Hh as [Hh|<-]; [now apply A5|lra].
    + cbn [s_best s_max]. destruct (Rlt_dec (s_max st) (t_r e1)) as [L|L].
      * right. exists (length l), e1. split; [reflexivity|]. split; [exact Nl|]. split; [reflexivity|].
        destruct Hw2 as [(A1 & A2 & A3)|(k & f & A1 & A2 & A3 & A4 & A5)].
        -- split; [lra|]. intros h Hh. apply In1 in Hh as [Hh|<-]; [specialize (A3 h Hh); lra|lra].
        -- split; [lra|]. intros h Hh. apply In1 in Hh as [Hh|<-]; [specialize (A5 h Hh); lra|lra].
      * destruct Hw2 as [(A1 & A2 & A3)|(k & f & A1 & A2 & A3 & A4 & A5)].
        -- left. split; [exact A1|]. split; [exact A2|]. intros h Hh. apply In1 in Hh as [Hh|<-]; [now apply A3|lra].
        -- right. exists k, f. split; [exact A1|]. split; [rewrite nth_error_app1; [exact A2|apply nth_error_Some; congruence]|]. split; [exact A3|]. split; [exact A4|].
           intros h Hh. apply In1 in Hh as [Hh|<-]; [now apply A5|lra].
Qed.
Lemma grow_all todo : forall l t st, tinv ty p l t -> s_edges st = l -> worst_best l st -> (length l + todo < length p)%nat ->
  exists l' t' st', grow_tree ty p es todo t st = Done st' /\ tinv ty p l' t' /\ s_edges st' = l' /\ worst_best l' st' /\ length l' = (length l + todo)%nat.
Proof.
  induction todo as [|todo IH]; intros l t st I Es Hw H.
  - exists l, t, st. cbn. repeat (split; [first [reflexivity|assumption]|]). lia.
  - destruct (grow_step l t st todo I Es Hw ltac:(lia)) as (e & t' & st' & E & I' & Es' & Hw'). rewrite E.
    destruct (IH _ _ _ I' Es' Hw') as (l2 & t2 & st2 & E2 & I2 & Es2 & Hw2 & L2); [rewrite app_length; cbn; lia|].
    exists l2, t2, st2. repeat (split; [first [reflexivity|assumption]|]). rewrite L2, app_length. cbn. lia.
Qed.
End Grow.

Lemma marked_repeat n v : marked (repeat false n) v = false.
Proof. unfold marked. revert v. induction n as [|n IH]; intros [|v]; cbn; auto. Qed.

Lemma build_done sort ty p : sort_ok sort -> (1 <= length p)%nat -> exists st, build_tree sort ty p = Done st /\
  length (s_edges st) = (length p - 1)%nat /\ growing (plains (s_edges st)) /\ (forall v, touched (plains (s_edges st)) v -> (v < length p)%nat) /\
  cheapest p (plains (s_edges st)) /\ worst_best (s_edges st) st /\
  (forall e, In e (s_edges st) -> exists a b, (a < b)%nat /\ t_r e = edge_weight ty p a b /\ joins (plain e) a b).
Proof.
  intros Hs Hl. unfold build_tree. destruct (Hs (all_edges p)) as [H1 H2].
  destruct (grow_all ty p (sort (all_edges p)) H1 H2 (length p - 1) [] (repeat false (length p)) {| s_edges := []; s_min := 5; s_max := 0; s_worst := None; s_best := None |}) as (l & t & st & E & I & Es & Hw & L).
  - constructor.
    + apply repeat_length.
    + intro v. rewrite marked_repeat. split; [discriminate|intro X; destruct (touched_nil v X)].
    + apply ntrue_repeat.
    + intros l1 x l2 X. now destruct l1.
    + intros v X. destruct (touched_nil v X).
    + intros l1 x l2 X. now destruct l1.
    + intros e [].
  - reflexivity.
  - split; left; (split; [reflexivity|split; [reflexivity|intros e []]]).
  - cbn. lia.
  - exists st. split; [exact E|]. rewrite Es. split; [rewrite L; reflexivity|]. split; [exact (ti_grow _ _ _ _ I)|]. split; [exact (ti_range _ _ _ _ I)|]. split; [exact (ti_cheap _ _ _ _ I)|]. split; [exact Hw|exact (ti_weight _ _ _ _ I)].
Qed.
