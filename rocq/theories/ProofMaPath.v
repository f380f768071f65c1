(** Paths in the spanning tree of the Magma package. *)
From Verif Require Import CArg ModelTree ModelVec ModelPeriod ModelMaTree SpecTree SpecTurn SpecMaTree SpecInter ProofTree ProofMaTree5 ModelMaPath SpecMaPath.
Local Open Scope Z_scope.

Lemma flow_cons e es c r w : flow (e :: es) (c :: r) w = c * (point (eb e) w - point (ea e) w) + flow es r w.
Proof. reflexivity. Qed.
Lemma flow_zero es w k : flow es (repeat 0 k) w = 0.
Proof. revert k. induction es as [|e es IH]; intros [|k]; try reflexivity. cbn [repeat]. rewrite flow_cons, IH. lia. Qed.
Lemma flow_upd es w : forall row j c, (j < length row)%nat -> (j < length es)%nat -> nth j row 0 = 0 ->
  flow es (upd row j c) w = flow es row w + c * (point (eb (nth j es no_edge)) w - point (ea (nth j es no_edge)) w).
Proof.
  induction es as [|e es IH]; intros row j c H1 H2 H0; [cbn in H2; lia|]. destruct row as [|a row]; [cbn in H1; lia|].
  destruct j as [|j]; cbn [upd nth] in *.
  - subst a. rewrite !flow_cons. lia.
  - rewrite !flow_cons, IH by (cbn in *; try lia; assumption). lia.
Qed.
Lemma upd_length {A} (l : list A) i v : length (upd l i v) = length l.
Proof. revert i. induction l as [|x l IH]; intros [|i]; cbn; auto. Qed.
Lemma upd_nth {A} (l : list A) i v j d : nth j (upd l i v) d = if (j =? i)%nat then (if (i <? length l)%nat then v else nth j l d) else nth j l d.
Proof.
  revert i j. induction l as [|x l IH]; intros i j; cbn [upd length].
  - destruct i; cbn [upd]; destruct (Nat.eqb_spec j 0); destruct j; cbn; try reflexivity; destruct (_ =? _)%nat; reflexivity.
  - destruct i as [|i], j as [|j]; cbn [upd nth]; try reflexivity. rewrite IH. reflexivity.
Qed.
Lemma tget_nth {A} (l : list A) i d : (i < length l)%nat -> tget l i = Done (nth i l d).
Proof. intro H. unfold tget. rewrite (nth_error_nth' l d H). reflexivity. Qed.

Section Fill.
Context (n : nat) (all : list tedge) (root : nat).
Notation E := (plains all).
Hypothesis Hl : (length all + 1 = n)%nat.
Hypothesis Hg : growing E.
Hypothesis Ht : forall v, touched E v -> (v < n)%nat.
Hypothesis Hr : (root < n)%nat.
Hypothesis H0 : forall e l, all = e :: l -> t_a e = root.

Definition rows_ok (done : list tedge) (taken : list bool) (tm : list (list Z)) : Prop :=
  length taken = n /\ length tm = n /\ (forall v, (v < n)%nat -> length (nth v tm []) = (n - 1)%nat) /\
  (forall v, (v = root \/ touched (plains done) v) -> nth v taken false = true) /\
  (forall v k, (v < n)%nat -> (length done <= k)%nat -> nth k (nth v tm []) 0 = 0) /\
  (forall v w, (v < n)%nat -> (v = root \/ touched (plains done) v) -> flow E (nth v tm []) w = point v w - point root w).

Lemma fill_ok rest : forall done taken tm, all = done ++ rest -> rows_ok done taken tm ->
  exists tm', fill_rows rest (length done) taken tm = Done tm' /\ exists taken', rows_ok all taken' tm'.
Proof using All.
  induction rest as [|e rest IH]; intros done taken tm HA (L1 & L2 & L3 & Tk & Z0 & Fl).
  - rewrite app_nil_r in HA. subst done. exists tm. split; [reflexivity|]. exists taken. repeat split; assumption.
  - assert (HE : E = plains done ++ plain e :: plains rest) by (rewrite HA; unfold plains; rewrite map_app; reflexivity).
    destruct (Hg _ _ _ HE) as (N1 & N2 & N3). cbn [plain ea eb] in N1, N2, N3.
    assert (Ia : (t_a e < n)%nat). { apply Ht. exists (plain e). rewrite HE. split; [apply in_or_app; right; left; reflexivity|left; reflexivity]. }
    assert (Ib : (t_b e < n)%nat). { apply Ht. exists (plain e). rewrite HE. split; [apply in_or_app; right; left; reflexivity|right; reflexivity]. }
    assert (Ta : t_a e = root \/ touched (plains done) (t_a e)).
    { destruct done as [|d done']; [left; apply (H0 e rest); rewrite HA; reflexivity|right; apply N3; discriminate]. }
    assert (Nb : t_b e <> root).
    { intro X. destruct done as [|d done']; [apply N1; rewrite X; apply (H0 e rest); rewrite HA; reflexivity|].
      apply N2. exists (plain d). split; [left; reflexivity|]. left. cbn [plain ea]. rewrite X. apply (H0 d (done' ++ e :: rest)). rewrite HA. reflexivity. }
    assert (Ln : (length done < n - 1)%nat). { rewrite HA, app_length in Hl. cbn in Hl. lia. }
    assert (Nth : nth (length done) E no_edge = plain e).
    { rewrite HE, app_nth2; unfold plains; rewrite map_length; [|lia]. rewrite Nat.sub_diag. reflexivity. }
    cbn [fill_rows]. rewrite (tget_nth _ _ false) by lia. cbn [bind]. rewrite (Tk _ Ta). rewrite (tget_nth _ _ false) by lia. cbn [bind].
    rewrite (tget_nth tm (t_a e) []) by lia. cbn [bind]. rewrite (tget_nth tm (t_b e) []) by lia. cbn [bind].
    rewrite (tget_nth _ _ 0) by (rewrite L3; lia). cbn [bind].
    assert (Touch : forall v, touched (plains (done ++ [e])) v <-> touched (plains done) v \/ v = t_a e \/ v = t_b e).
    { intro v. unfold plains. rewrite map_app. cbn [map]. split.
      - intros (x & I & J). apply in_app_or in I. destruct I as [I|[<-|[]]]; [left; exists x; auto|right; cbn in J; destruct J; auto].
      - intros [(x & I & J)|J]; [exists x; split; [apply in_or_app; left; exact I|exact J]|]. exists (plain e). split; [apply in_or_app; right; left; reflexivity|cbn; destruct J; auto]. }
    specialize (IH (done ++ [e])). rewrite app_length in IH. cbn [length] in IH. rewrite Nat.add_1_r in IH. apply IH.
    + rewrite HA, <- app_assoc. reflexivity.
    + repeat split; rewrite ?upd_length; try assumption.
      * intros v Hv. rewrite upd_nth, L2. destruct (Nat.eqb_spec v (t_b e)); [|auto]. destruct (Nat.ltb_spec (t_b e) n); [rewrite upd_length; auto|lia].
      * intros v Hv. rewrite upd_nth, L1. destruct (Nat.eqb_spec v (t_b e)) as [->|Nv]; [destruct (Nat.ltb_spec (t_b e) n); [reflexivity|lia]|].
        apply Tk. destruct Hv as [Hv|Hv]; [auto|]. apply Touch in Hv. destruct Hv as [Hv|[->|Hv]]; auto. contradiction.
      * intros v k Hv Hk. rewrite app_length in Hk. cbn in Hk. rewrite upd_nth, L2. destruct (Nat.eqb_spec v (t_b e)) as [->|Nv]; [|apply Z0; lia].
        destruct (Nat.ltb_spec (t_b e) n); [|lia]. rewrite upd_nth. destruct (Nat.eqb_spec k (length done)); [lia|]. apply Z0; lia.
      * intros v w Hv Hw. rewrite upd_nth, L2. destruct (Nat.eqb_spec v (t_b e)) as [->|Nv].
        { destruct (Nat.ltb_spec (t_b e) n); [|lia]. rewrite flow_upd; [|rewrite L3; lia|unfold plains; rewrite map_length; lia|apply Z0; lia].
          rewrite Nth. cbn [plain ea eb]. rewrite (Fl (t_a e) w Ia Ta). lia. }
        apply Fl; [exact Hv|]. destruct Hw as [Hw|Hw]; [auto|]. apply Touch in Hw. destruct Hw as [Hw|[->|Hw]]; auto. contradiction.
Qed.
End Fill.

Lemma row_sub_length r s : length r = length s -> length (row_sub r s) = length r.
Proof. intro H. unfold row_sub. rewrite map_length, combine_length. lia. Qed.
Lemma flow_sub es w : forall r s, length r = length s -> flow es (row_sub r s) w = flow es r w - flow es s w.
Proof.
  induction es as [|e es IH]; intros r s H; [unfold flow; rewrite !combine_nil; reflexivity|].
  destruct r as [|a r], s as [|b s]; try (cbn in H; lia); [reflexivity|]. unfold row_sub in *. cbn [combine map fst snd]. rewrite !flow_cons, IH by (cbn in H; lia). lia.
Qed.

Lemma touched_no es w : ~ touched es w -> forall r, flow es r w = 0.
Proof.
  induction es as [|e es IH]; intros H r; [unfold flow; rewrite combine_nil; reflexivity|]. destruct r as [|c r]; [reflexivity|]. rewrite flow_cons, IH.
  2: { intros (x & I & J). apply H. exists x. split; [right; exact I|exact J]. }
  unfold point. destruct (Nat.eqb_spec (eb e) w) as [X|X]; [exfalso; apply H; exists e; split; [left; reflexivity|auto]|].
  destruct (Nat.eqb_spec (ea e) w) as [Y|Y]; [exfalso; apply H; exists e; split; [left; reflexivity|auto]|]. lia.
Qed.
Lemma flow_app es e r c w : length r = length es -> flow (es ++ [e]) (r ++ [c]) w = flow es r w + c * (point (eb e) w - point (ea e) w).
Proof.
  revert r. induction es as [|x es IH]; intros r H; destruct r as [|a r]; try (cbn in H; lia); [cbn; lia|].
  cbn [app]. rewrite !flow_cons, IH by (cbn in H; lia). lia.
Qed.
Lemma flow_unique es : growing es -> forall r, length r = length es -> (forall w, flow es r w = 0) -> r = repeat 0 (length es).
Proof.
  induction es as [|e es IH] using rev_ind; intros Hg r Hr Hw; [destruct r; [reflexivity|cbn in Hr; lia]|].
  apply growing_snoc in Hg. destruct Hg as (G1 & N1 & N2 & _). rewrite app_length in *. cbn [length] in *.
  destruct (exists_last (l := r)) as (r' & c & ->); [intro X; subst r; cbn in Hr; lia|]. rewrite app_length in Hr. cbn [length] in Hr.
  assert (Hr' : length r' = length es) by lia.
  assert (c = 0). { specialize (Hw (eb e)). rewrite flow_app, (touched_no es (eb e) N2) in Hw by exact Hr'. unfold point in Hw. rewrite Nat.eqb_refl in Hw.
    destruct (Nat.eqb_spec (ea e) (eb e)); [contradiction|]. lia. }
  subst c. rewrite (IH G1 r' Hr'); [rewrite repeat_app; reflexivity|]. intro w. specialize (Hw w). rewrite flow_app in Hw by exact Hr'. lia.
Qed.

(** ** sums along a path *)
Definition csum (l : list C) : C := fold_right (fun z s => (z + s)%C) (RtoC 0) l.
Lemma path_sum row els : path_integral row els = csum (map (fun p => (RtoC (IZR (fst p)) * snd p)%C) (combine row els)).
Proof.
  unfold path_integral. assert (G : forall l z, fold_left (fun v p => (v + RtoC (IZR (fst p)) * snd p)%C) l z = (z + csum (map (fun p : Z * C => (RtoC (IZR (fst p)) * snd p)%C) l))%C).
  { induction l as [|p l IH]; intro z; cbn [fold_left map csum fold_right]; [ring|]. rewrite IH. unfold csum. ring. }
  rewrite G. ring.
Qed.
Lemma csum_add {A} (f g : A -> C) l : csum (map (fun x => (f x + g x)%C) l) = (csum (map f l) + csum (map g l))%C.
Proof. unfold csum. induction l as [|x l IH]; cbn [map fold_right]; [ring|]. rewrite IH. ring. Qed.
Lemma csum_scal {A} (c : C) (f : A -> C) l : csum (map (fun x => (c * f x)%C) l) = (c * csum (map f l))%C.
Proof. unfold csum. induction l as [|x l IH]; cbn [map fold_right]; [ring|]. rewrite IH. ring. Qed.
Lemma csum_ext {A} (f g : A -> C) l : (forall x, In x l -> f x = g x) -> csum (map f l) = csum (map g l).
Proof. intro H. unfold csum. induction l as [|x l IH]; cbn [map fold_right]; [reflexivity|]. rewrite IH, H; auto; [left; reflexivity|intros; apply H; right; assumption]. Qed.
Lemma point_sum (F : nat -> C) v n : (v < n)%nat -> csum (map (fun w => (RtoC (IZR (point v w)) * F w)%C) (seq 0 n)) = F v.
Proof.
  intro H. assert (G : forall k s, csum (map (fun w => (RtoC (IZR (point v w)) * F w)%C) (seq s k)) = if ((s <=? v) && (v <? s + k))%nat then F v else RtoC 0).
  { induction k as [|k IH]; intro s; [cbn [seq map csum fold_right]; destruct (Nat.leb_spec s v), (Nat.ltb_spec v (s + 0)); cbn; try reflexivity; lia|].
    cbn [seq map]. unfold csum in *. cbn [fold_right]. rewrite IH. unfold point. destruct (Nat.eqb_spec v s) as [->|N].
    - destruct (Nat.leb_spec (S s) s); [lia|]. destruct (Nat.leb_spec s s); [|lia]. destruct (Nat.ltb_spec s (s + S k)); [|lia]. cbn [andb]. ring.
    - destruct (Nat.leb_spec (S s) v), (Nat.ltb_spec v (S s + k)), (Nat.leb_spec s v), (Nat.ltb_spec v (s + S k)); cbn [andb]; try lia; ring. }
  rewrite G. destruct (Nat.leb_spec 0 v), (Nat.ltb_spec v (0 + n)); try lia. reflexivity.
Qed.
Lemma potential (F : nat -> C) n es : (forall v, touched es v -> (v < n)%nat) -> forall row,
  csum (map (fun p => (RtoC (IZR (fst p)) * (F (eb (snd p)) - F (ea (snd p))))%C) (combine row es)) = csum (map (fun w => (RtoC (IZR (flow es row w)) * F w)%C) (seq 0 n)).
Proof.
  induction es as [|e es IH]; intros Ht row.
  - rewrite combine_nil. cbn [map]. rewrite (csum_ext _ (fun w => (RtoC 0 * F w)%C)); [rewrite csum_scal; unfold csum; cbn; ring|]. intros w _. unfold flow. rewrite combine_nil. reflexivity.
  - destruct row as [|c row].
    + cbn [combine map]. rewrite (csum_ext _ (fun w => (RtoC 0 * F w)%C)); [rewrite csum_scal; unfold csum; cbn; ring|]. reflexivity.
    + cbn [combine map]. unfold csum at 1. cbn [fold_right fst snd]. fold (csum (map (fun p : Z * edge => (RtoC (IZR (fst p)) * (F (eb (snd p)) - F (ea (snd p))))%C) (combine row es))).
      rewrite IH by (intros v (x & I & J); apply Ht; exists x; split; [right; exact I|exact J]).
      rewrite <- (point_sum F (eb e) n) at 1 by (apply Ht; exists e; split; [left; reflexivity|auto]). rewrite <- (point_sum F (ea e) n) at 1 by (apply Ht; exists e; split; [left; reflexivity|auto]).
      rewrite (csum_ext (fun w => (RtoC (IZR (flow (e :: es) (c :: row) w)) * F w)%C)
        (fun w => (RtoC (IZR c) * (RtoC (IZR (point (eb e) w)) * F w) + (RtoC (- IZR c) * (RtoC (IZR (point (ea e) w)) * F w) + RtoC (IZR (flow es row w)) * F w))%C)).
      * rewrite !csum_add, !csum_scal, RtoC_opp. ring.
      * intros w _. rewrite flow_cons, plus_IZR, mult_IZR, minus_IZR, RtoC_plus, RtoC_mult, RtoC_minus, RtoC_opp. ring.
Qed.
Lemma lattice_opp (L : C -> Prop) z : lattice L -> L z -> L (- z)%C.
Proof. intros (L0 & L1) H. replace (- z)%C with (RtoC 0 - z)%C by ring. auto. Qed.
Lemma lattice_add (L : C -> Prop) z w : lattice L -> L z -> L w -> L (z + w)%C.
Proof. intros HL H1 H2. replace (z + w)%C with (z - - w)%C by ring. apply HL; [exact H1|apply lattice_opp; assumption]. Qed.
Lemma lattice_mul (L : C -> Prop) z k : lattice L -> L z -> L (RtoC (IZR k) * z)%C.
Proof.
  intros HL H. assert (N : forall q : nat, L (RtoC (IZR (Z.of_nat q)) * z)%C).
  { induction q as [|q IH]; [replace (RtoC (IZR (Z.of_nat 0)) * z)%C with (RtoC 0) by (cbn; ring); apply HL|].
    rewrite Nat2Z.inj_succ, succ_IZR, RtoC_plus. replace ((RtoC (IZR (Z.of_nat q)) + RtoC 1) * z)%C with (RtoC (IZR (Z.of_nat q)) * z + z)%C by ring. apply lattice_add; assumption. }
  destruct (Z.le_ge_cases 0 k) as [K|K].
  - rewrite <- (Z2Nat.id k K). apply N.
  - replace k with (- (Z.of_nat (Z.to_nat (- k))))%Z by lia. rewrite opp_IZR, RtoC_opp. replace (- RtoC (IZR (Z.of_nat (Z.to_nat (- k)))) * z)%C with (- (RtoC (IZR (Z.of_nat (Z.to_nat (- k)))) * z))%C by ring.
    apply lattice_opp; [exact HL|apply N].
Qed.
Lemma lattice_path (L : C -> Prop) (F : nat -> C) : lattice L -> forall row es els, length els = length es ->
  (forall k, (k < length es)%nat -> L (nth k els (RtoC 0) - (F (eb (nth k es no_edge)) - F (ea (nth k es no_edge))))%C) ->
  L (path_integral row els - csum (map (fun p => (RtoC (IZR (fst p)) * (F (eb (snd p)) - F (ea (snd p))))%C) (combine row es)))%C.
Proof.
  intros HL row es els Hlen H. rewrite path_sum. revert row els Hlen H. induction es as [|e es IH]; intros row els Hlen H.
  - destruct els; [|cbn in Hlen; lia]. rewrite !combine_nil. cbn. replace (RtoC 0 - RtoC 0)%C with (RtoC 0) by ring. apply HL.
  - destruct els as [|z els]; [cbn in Hlen; lia|]. destruct row as [|c row]; [cbn; replace (RtoC 0 - RtoC 0)%C with (RtoC 0) by ring; apply HL|].
    cbn [combine map]. unfold csum. cbn [fold_right fst snd]. match goal with |- L (?a + ?b - (?d + ?f))%C => replace (a + b - (d + f))%C with ((a - d) + (b - f))%C by ring end.
    apply lattice_add; [exact HL| |].
    + pose proof (H 0%nat ltac:(cbn; lia)) as X. cbn [nth] in X. match goal with |- L (?a * ?z - ?a * ?w)%C => replace (a * z - a * w)%C with (a * (z - w))%C by ring end. apply lattice_mul; assumption.
    + apply IH; [cbn in Hlen; lia|]. intros k Hk. exact (H (S k) ltac:(cbn; lia)).
Qed.
Lemma goes_integral (L : C -> Prop) (F : nat -> C) n es row els u v : lattice L -> (forall v, touched es v -> (v < n)%nat) -> (u < n)%nat -> (v < n)%nat -> goes es row u v -> length els = length es ->
  (forall k, (k < length es)%nat -> L (nth k els (RtoC 0) - (F (eb (nth k es no_edge)) - F (ea (nth k es no_edge))))%C) ->
  L (path_integral row els - (F v - F u))%C.
Proof.
  intros HL Ht Hu Hv (_ & Hf) Hlen H. pose proof (lattice_path L F HL row es els Hlen H) as X. rewrite (potential F n es Ht) in X.
  replace (F v - F u)%C with (csum (map (fun w => (RtoC (IZR (flow es row w)) * F w)%C) (seq 0 n))); [exact X|].
  rewrite (csum_ext _ (fun w => (RtoC (IZR (point v w)) * F w + RtoC (Ropp 1) * (RtoC (IZR (point u w)) * F w))%C)).
  - rewrite csum_add, csum_scal, !point_sum by assumption. rewrite RtoC_opp. ring.
  - intros w _. rewrite Hf, minus_IZR, RtoC_minus, RtoC_opp. ring.
Qed.

Lemma matrix_paths sort ty p base : sort_ok sort -> (2 <= length p)%nat -> (base < length p)%nat ->
  exists t ty' tm, spanning_tree_ma sort ty p = Done (t, ty') /\ tree_matrix (length p) base (s_edges t) = Done tm /\ length tm = length p /\
    (forall i, (i < length p)%nat -> goes (plains (s_edges t)) (nth i tm []) base i /\
       forall row, goes (plains (s_edges t)) row base i -> row = nth i tm []).
Proof.
  intros Hs Hp Hb. destruct (ma_spanning sort ty p Hs Hp) as (t & ty' & E & L & Hg & _ & _ & Ht). exists t, ty'.
  set (es := s_edges t) in *. set (n := length p) in *. destruct es as [|e0 es'] eqn:Ees; [cbn in L; lia|]. rewrite <- Ees in *.
  assert (Hr : (t_a e0 < n)%nat). { apply Ht. exists (plain e0). rewrite Ees. split; [left; reflexivity|left; reflexivity]. }
  assert (H0 : forall e l, es = e :: l -> t_a e = t_a e0) by (intros e l X; rewrite Ees in X; injection X as -> _; reflexivity).
  destruct (fill_ok n es (t_a e0) ltac:(lia) Hg (fun v => proj1 (Ht v)) Hr H0 es [] (upd (repeat false n) (t_a e0) true) (repeat (repeat 0 (n - 1)) n)) as (tm & E1 & taken' & (T1 & T2 & T3 & T4 & T5 & T6)).
  { reflexivity. }
  { repeat split; rewrite ?upd_length, ?repeat_length; try reflexivity.
    - intros v Hv. rewrite (nth_indep _ _ (repeat 0 (n - 1))), nth_repeat by (rewrite repeat_length; exact Hv). apply repeat_length.
    - intros v [->|(x & [] & _)]. rewrite upd_nth, repeat_length, Nat.eqb_refl. destruct (Nat.ltb_spec (t_a e0) n); [reflexivity|lia].
    - intros v k Hv _. rewrite (nth_indep _ _ (repeat 0 (n - 1))), nth_repeat by (rewrite repeat_length; exact Hv). apply nth_repeat.
    - intros v w Hv [->|(x & [] & _)]. rewrite (nth_indep _ _ (repeat 0 (n - 1))), nth_repeat by (rewrite repeat_length; exact Hv). rewrite flow_zero. lia. }
  exists (map (fun r => row_sub r (nth base tm [])) tm). split; [exact E|]. split.
  { unfold tree_matrix. rewrite Ees. cbn [tget nth_error]. cbn [bind]. unfold tget at 1. rewrite (nth_error_nth' (repeat false n) false) by (rewrite repeat_length; exact Hr).
    cbn [bind]. rewrite <- Ees. cbn [length] in E1. rewrite E1. cbn [bind]. rewrite (tget_nth _ _ []) by lia. reflexivity. }
  split; [rewrite map_length; exact T2|].
  assert (Hin : forall v, (v < n)%nat -> v = t_a e0 \/ touched (plains es) v) by (intros v Hv; right; apply Ht; exact Hv).
  assert (G : forall i, (i < n)%nat -> goes (plains es) (nth i (map (fun r => row_sub r (nth base tm [])) tm) []) base i).
  { intros i Hi. rewrite (nth_indep _ _ (row_sub [] (nth base tm []))), (map_nth (fun r => row_sub r (nth base tm []))) by (rewrite map_length; lia).
    assert (HL : length (nth i tm []) = length (nth base tm [])) by (rewrite !T3; auto). split.
    - rewrite row_sub_length, T3 by assumption. unfold plains. rewrite map_length. lia.
    - intro w. rewrite flow_sub, !T6 by auto. lia. }
  intros i Hi. split; [apply G, Hi|]. intros row (R1 & R2). destruct (G i Hi) as (G1 & G2). set (r := nth i _ []) in *.
  assert (Z : row_sub row r = repeat 0 (length (plains es))).
  { apply (flow_unique _ Hg); [rewrite row_sub_length; congruence|]. intro w. rewrite flow_sub, R2, G2 by congruence. lia. }
  clear - Z R1 G1. revert Z R1 G1. generalize (length (plains es)) as k. generalize r as s. induction row as [|a row IH]; intros s k Z R1 G1.
  - destruct s; [reflexivity|cbn in *; lia].
  - destruct s as [|b s]; [cbn in *; lia|]. destruct k as [|k]; [cbn in R1; lia|]. unfold row_sub in *. cbn [combine map fst snd repeat] in Z. injection Z as Z1 Z2.
    f_equal; [lia|]. apply (IH s k); [exact Z2|cbn in R1; lia|cbn in G1; lia].
Qed.

Lemma ramification sort ty p base (L : C -> Prop) (F : nat -> C) t ty' tm els i : sort_ok sort -> (2 <= length p)%nat -> (base < length p)%nat -> (i < length p)%nat ->
  spanning_tree_ma sort ty p = Done (t, ty') -> tree_matrix (length p) base (s_edges t) = Done tm -> lattice L -> length els = length (s_edges t) ->
  (forall k e, nth_error (s_edges t) k = Some e -> L (nth k els (RtoC 0) - (F (t_b e) - F (t_a e)))%C) ->
  L (path_integral (nth i tm []) els - (F i - F base))%C.
Proof.
  intros Hs Hp Hb Hi E ET HL Hlen H. destruct (matrix_paths sort ty p base Hs Hp Hb) as (t1 & ty1 & tm1 & E1 & ET1 & _ & G).
  rewrite E in E1. injection E1 as <- <-. rewrite ET in ET1. injection ET1 as <-.
  destruct (ma_spanning sort ty p Hs Hp) as (t1 & ty1 & E1 & _ & _ & _ & _ & Ht). rewrite E in E1. injection E1 as <- <-.
  apply (goes_integral L F (length p) (plains (s_edges t)) _ _ _ _ HL (fun v => proj1 (Ht v)) Hb Hi (proj1 (G i Hi))); unfold plains; rewrite map_length; [exact Hlen|].
  intros k Hk. destruct (nth_error (s_edges t) k) as [e|] eqn:X; [|apply nth_error_None in X; lia].
  replace (nth k (map plain (s_edges t)) no_edge) with (plain e); [exact (H k e X)|]. symmetry. apply nth_error_nth. rewrite nth_error_map, X. reflexivity.
Qed.
