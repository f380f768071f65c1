(** Proofs about the integration schemes of the Magma package. *)
From Coq Require Import Permutation Sorted.
From Verif Require Import CArg ModelTree ModelPeriod ModelMaTree SpecTree SpecEdge SpecDeq SpecInter SpecCross SpecGc SpecFree SpecMaTree ModelDeq ProofMaTree5 ModelMaGroups SpecMaGroups.
Local Open Scope R_scope.

Lemma tget_ok {A} : forall (l : list A) k x, nth_error l k = Some x -> tget l k = Done x.
Proof. intros l k x H. unfold tget. rewrite H. reflexivity. Qed.

Lemma upd_get {A} : forall (l : list A) k j (x y : A), nth_error l j = Some y -> nth_error (upd l k x) j = if (j =? k)%nat then Some x else Some y.
Proof.
  induction l as [|a l IH]; intros [|k] [|j] x y H; cbn in *; try discriminate; try reflexivity; try exact H.
  exact (IH k j x y H).
Qed.
Lemma upd_len {A} : forall (l : list A) k (x : A), length (upd l k x) = length l.
Proof. induction l as [|a l IH]; intros [|k] x; cbn; try reflexivity. rewrite IH. reflexivity. Qed.

Lemma fill_spec : forall (f : R -> nat) rs gs, (forall r, In r rs -> (f r < length gs)%nat) ->
  exists gs', fill_groups f rs gs = Done gs' /\ length gs' = length gs /\
    forall t g, nth_error gs t = Some g -> exists g', nth_error gs' t = Some g' /\ forall r, In r g' <-> In r g \/ (In r rs /\ f r = t).
Proof.
  intros f rs. induction rs as [|r rs IH]; intros gs H.
  - exists gs. split; [reflexivity|]. split; [reflexivity|]. intros t g E. exists g. split; [exact E|]. intro r. cbn. intuition.
  - cbn [fill_groups]. unfold append_at.
    destruct (nth_error gs (f r)) as [g0|] eqn:E0.
    2: { apply nth_error_None in E0. pose proof (H r (or_introl eq_refl)). lia. }
    rewrite (tget_ok _ _ _ E0). cbn [bind].
    destruct (IH (upd gs (f r) (g0 ++ [r]))) as (gs' & E & L & S).
    { intros q Hq. rewrite upd_len. apply H. right; exact Hq. }
    exists gs'. split; [exact E|]. split; [rewrite L; apply upd_len|].
    intros t g Eg. pose proof (upd_get gs (f r) t (g0 ++ [r]) g Eg) as U.
    destruct (Nat.eqb_spec t (f r)) as [->|Ne].
    + destruct (S _ _ U) as (g' & Eg' & M). exists g'. split; [exact Eg'|]. intro q. rewrite M, in_app_iff. rewrite Eg in E0. injection E0 as ->. cbn. split.
      * intros [[?|[->|[]]]|[? ?]]; [left; assumption|right; split; [left; reflexivity|reflexivity]|right; split; [right; assumption|assumption]].
      * intros [?|[[->|?] ?]]; [left; left; assumption|left; right; left; reflexivity|right; split; assumption].
    + destruct (S _ _ U) as (g' & Eg' & M). exists g'. split; [exact Eg'|]. intro q. rewrite M. cbn. split.
      * intros [?|[? ?]]; [left; assumption|right; split; [right; assumption|assumption]].
      * intros [?|[[->|?] ?]]; [left; assumption|exfalso; apply Ne; symmetry; assumption|right; split; assumption].
Qed.

Lemma rmin_list_in : forall l, l <> [] -> exists r, rmin_list l = Done r /\ In r l.
Proof.
  intros [|r l] H; [contradiction|]. cbn [rmin_list]. eexists; split; [reflexivity|].
  clear H. revert r. induction l as [|q l IH]; intro r; [left; reflexivity|]. cbn [fold_left].
  destruct (Rle_dec r q) as [L|L].
  - rewrite Rmin_left by exact L. destruct (IH r) as [E|I]; [left; exact E|right; right; exact I].
  - rewrite Rmin_right by lra. right. apply IH.
Qed.

Definition ascending (l : list R) : Prop := StronglySorted Rlt l.

Lemma mins_spec : forall k f gs, (forall a b, a < b -> f a < f b) ->
  (forall t t' g g' r r', (t < t')%nat -> nth_error gs t = Some g -> nth_error gs t' = Some g' -> In r g -> In r' g' -> r < r') ->
  exists l, mins_of k f gs = Done l /\ ascending l /\ forall q, In q l -> exists g r, In g gs /\ In r g /\ q = f r.
Proof.
  intros k f gs Hf. induction gs as [|g gs IH]; intros H.
  - exists []. split; [reflexivity|]. split; [constructor|]. intros q [].
  - destruct IH as (l & E & S & M).
    { intros t t' g1 g2 r r' Ht E1 E2. exact (H (S t) (S t') g1 g2 r r' ltac:(lia) E1 E2). }
    cbn [mins_of]. destruct (Nat.ltb_spec k (length g)) as [L|L].
    + destruct (rmin_list_in g) as (r & Er & Ir); [intros ->; cbn in L; lia|].
      rewrite Er. cbn [bind]. rewrite E. cbn [bind]. exists (f r :: l). split; [reflexivity|]. split.
      * constructor; [exact S|]. apply Forall_forall. intros q Hq. destruct (M q Hq) as (g' & r' & Ig & Ir' & ->). apply Hf.
        destruct (In_nth_error _ _ Ig) as (t & Et). exact (H 0%nat (Datatypes.S t) g g' r r' ltac:(lia) eq_refl Et Ir Ir').
      * intros q [<-|Hq]; [exists g, r; split; [left; reflexivity|]; split; [exact Ir|reflexivity]|].
        destruct (M q Hq) as (g' & r' & Ig & Ir' & ->). exists g', r'. split; [right; exact Ig|]. split; [exact Ir'|reflexivity].
    + exists l. split; [exact E|]. split; [exact S|]. intros q Hq. destruct (M q Hq) as (g' & r' & Ig & Ir' & ->). exists g', r'. split; [right; exact Ig|]. split; [exact Ir'|reflexivity].
Qed.

(** groups of an increasing function *)
Lemma groups_of : forall (f : R -> nat) rs n, (forall r, In r rs -> (f r < n)%nat) -> (forall a b, a <= b -> (f a <= f b)%nat) ->
  exists gs, fill_groups f rs (repeat [] n) = Done gs /\ length gs = n /\
    (forall t g r, nth_error gs t = Some g -> In r g -> In r rs /\ f r = t) /\
    forall t t' g g' r r', (t < t')%nat -> nth_error gs t = Some g -> nth_error gs t' = Some g' -> In r g -> In r' g' -> r < r'.
Proof.
  intros f rs n B Mo. destruct (fill_spec f rs (repeat [] n)) as (gs & E & L & S); [rewrite repeat_length; exact B|]. rewrite repeat_length in L.
  assert (X : forall t g r, nth_error gs t = Some g -> In r g -> In r rs /\ f r = t).
  { intros t g r Eg Ir. assert (Ht : (t < n)%nat) by (rewrite <- L; apply nth_error_Some; rewrite Eg; discriminate).
    assert (E0 : nth_error (repeat (@nil R) n) t = Some []).
    { destruct (nth_error (repeat (@nil R) n) t) as [y|] eqn:Ey; [|apply nth_error_None in Ey; rewrite repeat_length in Ey; lia].
      apply nth_error_In in Ey. apply repeat_spec in Ey. subst. reflexivity. }
    destruct (S t [] E0) as (g' & Eg' & M). rewrite Eg in Eg'. injection Eg' as <-. apply M in Ir. destruct Ir as [[]|Ir]. exact Ir. }
  exists gs. split; [exact E|]. split; [exact L|]. split; [exact X|].
  intros t t' g g' r r' Ht Eg Eg' Ir Ir'. destruct (X _ _ _ Eg Ir) as (_ & F). destruct (X _ _ _ Eg' Ir') as (_ & F').
  destruct (Rlt_le_dec r r') as [|Le]; [assumption|]. pose proof (Mo r' r Le). lia.
Qed.

Lemma last_below_spec : forall r lr k, match last_below r lr k with
  | None => forall q, In q lr -> r <= q
  | Some l => exists i q, l = (k + i)%nat /\ nth_error lr i = Some q /\ q < r /\ forall j q', (i < j)%nat -> nth_error lr j = Some q' -> r <= q'
  end.
Proof.
  intros r lr. induction lr as [|a lr IH]; intro k; cbn [last_below]; [intros q []|].
  specialize (IH (S k)). destruct (last_below r lr (S k)) as [l|].
  - destruct IH as (i & q & -> & E & Lt & U). exists (S i), q. split; [lia|]. split; [exact E|]. split; [exact Lt|].
    intros [|j] q' Hj Ej; [lia|]. exact (U j q' ltac:(lia) Ej).
  - destruct (Rlt_dec a r) as [L|L].
    + exists 0%nat, a. split; [lia|]. split; [reflexivity|]. split; [exact L|]. intros [|j] q' Hj Ej; [lia|]. cbn in Ej. apply IH. exact (nth_error_In _ _ Ej).
    + intros q [<-|Hq]; [lra|exact (IH q Hq)].
Qed.

Lemma ascending_nth : forall l i j a b, ascending l -> (i < j)%nat -> nth_error l i = Some a -> nth_error l j = Some b -> a < b.
Proof.
  induction l as [|c l IH]; intros i j a b S H Ei Ej; [destruct i; discriminate|]. inversion S as [|? ? S' F]; subst.
  destruct j as [|j]; [lia|]. destruct i as [|i]; cbn in *.
  - injection Ei as <-. rewrite Forall_forall in F. apply F. exact (nth_error_In _ _ Ej).
  - exact (IH i j a b S' ltac:(lia) Ei Ej).
Qed.

Lemma schemes_gj_spec : forall rs lr, ascending lr -> (forall q, In q lr -> 1 < q) -> (forall r, In r rs -> exists q, In q lr /\ q < r) ->
  exists ls, schemes_gj rs lr = Done ls /\ length ls = length rs /\
    forall i r l, nth_error rs i = Some r -> nth_error ls i = Some l -> exists q, nth_error lr l = Some q /\ right_scheme GJ lr r q.
Proof.
  intros rs lr A P. induction rs as [|r rs IH]; intro H.
  - exists []. split; [reflexivity|]. split; [reflexivity|]. intros [|i]; discriminate.
  - destruct IH as (ls & E & L & S); [intros q Hq; apply H; right; exact Hq|]. cbn [schemes_gj].
    pose proof (last_below_spec r lr 0) as B. destruct (last_below r lr 0) as [l|].
    + destruct B as (i & q & -> & Ei & Lt & U). cbn [plus]. rewrite E. cbn [bind]. exists (i :: ls). split; [reflexivity|]. split; [cbn; rewrite L; reflexivity|].
      intros [|j] r' l' Er El; cbn in Er, El; [|exact (S j r' l' Er El)]. injection Er as <-. injection El as <-.
      exists q. split; [exact Ei|]. split; [exact (nth_error_In _ _ Ei)|]. split; [split; [apply P; exact (nth_error_In _ _ Ei)|exact Lt]|].
      intros q' Hq Hlt. destruct (In_nth_error _ _ Hq) as (j & Ej). destruct (Nat.lt_trichotomy i j) as [Hij|[<-|Hij]].
      * pose proof (U j q' Hij Ej). lra.
      * rewrite Ei in Ej. injection Ej as <-. lra.
      * pose proof (ascending_nth lr j i q' q A Hij Ej Ei). lra.
    + destruct (H r (or_introl eq_refl)) as (q & Hq & Lt). pose proof (B q Hq). lra.
Qed.

Lemma go_down_spec : forall r lr l, (l < length lr)%nat -> (exists q, nth_error lr 0 = Some q /\ q <= r) ->
  (forall j q', (l < j)%nat -> nth_error lr j = Some q' -> r < q') ->
  exists i q, go_down r lr l = Done i /\ nth_error lr i = Some q /\ q <= r /\ forall j q', (i < j)%nat -> nth_error lr j = Some q' -> r < q'.
Proof.
  intros r lr l. induction l as [|l IH]; intros Hl (q0 & E0 & L0) U; cbn [go_down].
  - rewrite (tget_ok _ _ _ E0). cbn [bind]. destruct (Rlt_dec r q0) as [Lt|_]; [lra|]. exists 0%nat, q0. split; [reflexivity|]. split; [exact E0|]. split; [exact L0|exact U].
  - destruct (nth_error lr (S l)) as [q|] eqn:E; [|apply nth_error_None in E; lia]. rewrite (tget_ok _ _ _ E). cbn [bind].
    destruct (Rlt_dec r q) as [Lt|Ge].
    + apply IH; [lia|exists q0; split; assumption|]. intros j q' Hj Ej. destruct (Nat.eq_dec j (S l)) as [->|]; [rewrite E in Ej; injection Ej as <-; exact Lt|]. exact (U j q' ltac:(lia) Ej).
    + exists (S l), q. split; [reflexivity|]. split; [exact E|]. split; [lra|exact U].
Qed.

Lemma schemes_de_spec : forall rs lr, ascending lr -> (forall q, In q lr -> 0 < q) -> (forall r, In r rs -> r < PI / 2 /\ exists q, nth_error lr 0 = Some q /\ q <= r) ->
  exists ls, schemes_de rs lr = Done ls /\ length ls = length rs /\
    forall i r l, nth_error rs i = Some r -> nth_error ls i = Some l -> exists q, nth_error lr l = Some q /\ right_scheme DE lr r q.
Proof.
  intros rs lr A P. induction rs as [|r rs IH]; intro H.
  - exists []. split; [reflexivity|]. split; [reflexivity|]. intros [|i]; discriminate.
  - destruct IH as (ls & E & L & S); [intros q Hq; apply H; right; exact Hq|]. cbn [schemes_de].
    destruct (H r (or_introl eq_refl)) as (Hp & Hq0).
    assert (Hl : (0 < length lr)%nat) by (destruct Hq0 as (q & Eq & _); destruct lr; [discriminate|cbn; lia]).
    destruct (go_down_spec r lr (length lr - 1) ltac:(lia) Hq0) as (i & q & Eg & Ei & Le & U).
    { intros j q' Hj Ej. assert (j < length lr)%nat by (apply nth_error_Some; rewrite Ej; discriminate). lia. }
    rewrite Eg. cbn [bind]. rewrite E. cbn [bind]. exists (i :: ls). split; [reflexivity|]. split; [cbn; rewrite L; reflexivity|].
    intros [|j] r' l' Er El; cbn in Er, El; [|exact (S j r' l' Er El)]. injection Er as <-. injection El as <-.
    exists q. split; [exact Ei|]. split; [exact (nth_error_In _ _ Ei)|]. split; [split; [apply P; exact (nth_error_In _ _ Ei)|exact Le]|]. split; [exact Hp|].
    intros q' Hq Hlt. destruct (In_nth_error _ _ Hq) as (j & Ej). destruct (Nat.lt_trichotomy i j) as [Hij|[<-|Hij]].
    + pose proof (U j q' Hij Ej). lra.
    + rewrite Ei in Ej. injection Ej as <-. lra.
    + pose proof (ascending_nth lr j i q' q A Hij Ej Ei). lra.
Qed.

Lemma tl_nth {A} : forall (l : list A) t, nth_error (tl l) t = nth_error l (S t).
Proof. intros [|a l] t; [destruct t; reflexivity|reflexivity]. Qed.

Lemma ceiling_bound : forall r, r <= IZR (ceiling r) < r + 1.
Proof. intro r. unfold ceiling. destruct (base_Int_part (- r)) as (A & B). rewrite opp_IZR. lra. Qed.
Lemma ceiling_mono : forall a b, a <= b -> (ceiling a <= ceiling b)%Z.
Proof.
  intros a b H. pose proof (ceiling_bound a) as A. pose proof (ceiling_bound b) as B.
  assert (X : IZR (ceiling a) < IZR (ceiling b + 1)) by (rewrite plus_IZR; lra). apply lt_IZR in X. lia.
Qed.

Lemma int_group_mono : forall m rm a b, a <= b -> (int_group m rm a <= int_group m rm b)%nat.
Proof.
  intros m rm a b H. unfold int_group. destruct (2 <? m)%nat.
  - destruct (Rlt_dec a _), (Rlt_dec b _); try lia; lra.
  - repeat (destruct (Rlt_dec a _); [try lia|]); repeat (destruct (Rlt_dec b _); [try lia; lra|]); lia.
Qed.
Lemma int_group_pos : forall m rm r, (0 < int_group m rm r)%nat -> rm + 1 / 10 <= r.
Proof.
  intros m rm r. unfold int_group. destruct (2 <? m)%nat.
  - destruct (Rlt_dec r _); intro; [lia|lra].
  - destruct (Rlt_dec r (rm + 1 / 10)); intro; [lia|lra].
Qed.
Lemma int_group_lt : forall m rm r, (int_group m rm r < (if (2 <? m) then 4 else 6))%nat.
Proof. intros m rm r. unfold int_group. destruct (2 <? m)%nat; repeat (destruct (Rlt_dec r _); try lia); lia. Qed.

Definition scheme_spec (ty : itype) (es : list tedge) (lr : list R) (ls : list nat) : Prop :=
  length ls = length es /\ forall i e l, nth_error es i = Some e -> nth_error ls i = Some l -> exists q, nth_error lr l = Some q /\ right_scheme ty lr (t_r e) q.

Lemma gj_done : forall t m, 1 + 3 / 1000 <= s_min t -> (forall e, In e (s_edges t) -> s_min t <= t_r e) ->
  exists lr ls, params_gj t m = Done (lr, ls) /\ scheme_spec GJ (s_edges t) lr ls.
Proof.
  intros t m Hm Hr. unfold params_gj. destruct (Rlt_dec (s_min t - 1) (3 / 1000)) as [L|_]; [lra|].
  unfold int_groups. destruct (groups_of (int_group m (s_min t)) (map t_r (s_edges t)) (if (2 <? m)%nat then 4%nat else 6%nat)) as (gs & E & L & G & Sep).
  { intros r _. apply int_group_lt. }
  { intros a b. apply int_group_mono. }
  rewrite E. cbn [bind].
  destruct (mins_spec 1 (fun r => r - 1 / 500) (tl gs)) as (rest & Er & As & Mr).
  { intros; lra. }
  { intros a b g g' r r' Hab Ea Eb. rewrite tl_nth in Ea, Eb. exact (Sep (S a) (S b) g g' r r' ltac:(lia) Ea Eb). }
  rewrite Er. cbn [bind].
  set (first := if Rlt_dec (s_min t) (1 + 1 / 250) then 1 / 2 * (s_min t + 1) else s_min t - 1 / 500).
  assert (F1 : 1 < first /\ first < s_min t) by (unfold first; destruct (Rlt_dec _ _); lra).
  assert (F2 : forall q, In q rest -> first < q).
  { intros q Hq. destruct (Mr q Hq) as (g & r & Ig & Ir & ->). destruct (In_nth_error _ _ Ig) as (k & Ek). rewrite tl_nth in Ek.
    destruct (G _ _ _ Ek Ir) as (_ & Ef). pose proof (int_group_pos m (s_min t) r ltac:(lia)). lra. }
  destruct (schemes_gj_spec (map t_r (s_edges t)) (first :: rest)) as (ls & El & Ll & Sl).
  { constructor; [exact As|]. apply Forall_forall. exact F2. }
  { intros q [<-|Hq]; [apply F1|]. pose proof (F2 q Hq). lra. }
  { intros r Hrr. apply in_map_iff in Hrr. destruct Hrr as (e & <- & Ie). exists first. split; [left; reflexivity|]. pose proof (Hr e Ie). lra. }
  rewrite El. cbn [bind]. exists (first :: rest), ls. split; [reflexivity|]. split; [rewrite Ll, map_length; reflexivity|].
  intros i e l Ei Eli. apply (Sl i (t_r e) l); [|exact Eli]. rewrite nth_error_map, Ei. reflexivity.
Qed.

Lemma de_done : forall t, 0 < s_min t -> s_max t < PI / 2 -> (forall e, In e (s_edges t) -> s_min t <= t_r e <= s_max t) ->
  exists lr ls, params_de t = Done (lr, ls) /\ scheme_spec DE (s_edges t) lr ls.
Proof.
  intros t H0 H1 Hr. unfold params_de.
  set (f := fun r => (Z.to_nat (Z.max (ceiling (20 * (r - s_min t))) 1) - 1)%nat).
  destruct (groups_of f (map t_r (s_edges t)) (Z.to_nat (Z.max (ceiling (20 * (s_max t - s_min t))) 1))) as (gs & E & L & G & Sep).
  { intros r Hrr. apply in_map_iff in Hrr. destruct Hrr as (e & <- & Ie). unfold f. pose proof (ceiling_mono (20 * (t_r e - s_min t)) (20 * (s_max t - s_min t)) ltac:(pose proof (Hr e Ie); lra)). lia. }
  { intros a b Hab. unfold f. pose proof (ceiling_mono (20 * (a - s_min t)) (20 * (b - s_min t)) ltac:(lra)). lia. }
  rewrite E. cbn [bind].
  destruct (mins_spec 0 (fun r => 29 / 30 * r) (tl gs)) as (rest & Er & As & Mr).
  { intros; lra. }
  { intros a b g g' r r' Hab Ea Eb. rewrite tl_nth in Ea, Eb. exact (Sep (S a) (S b) g g' r r' ltac:(lia) Ea Eb). }
  rewrite Er. cbn [bind].
  destruct (Rlt_dec (s_max t) (PI / 2)) as [_|]; [|contradiction]. destruct (Rlt_dec 0 (s_min t)) as [_|]; [|contradiction].
  assert (F2 : forall q, In q rest -> 29 / 30 * s_min t < q).
  { intros q Hq. destruct (Mr q Hq) as (g & r & Ig & Ir & ->). destruct (In_nth_error _ _ Ig) as (k & Ek). rewrite tl_nth in Ek.
    destruct (G _ _ _ Ek Ir) as (_ & Ef). unfold f in Ef. assert (C2 : (2 <= ceiling (20 * (r - s_min t)))%Z) by lia.
    pose proof (ceiling_bound (20 * (r - s_min t))) as B. apply IZR_le in C2. lra. }
  destruct (schemes_de_spec (map t_r (s_edges t)) (29 / 30 * s_min t :: rest)) as (ls & El & Ll & Sl).
  { constructor; [exact As|]. apply Forall_forall. exact F2. }
  { intros q [<-|Hq]; [lra|]. pose proof (F2 q Hq). lra. }
  { intros r Hrr. apply in_map_iff in Hrr. destruct Hrr as (e & <- & Ie). pose proof (Hr e Ie). split; [lra|]. exists (29 / 30 * s_min t). split; [reflexivity|lra]. }
  rewrite El. cbn [bind]. exists (29 / 30 * s_min t :: rest), ls. split; [reflexivity|]. split; [rewrite Ll, map_length; reflexivity|].
  intros i e l Ei Eli. apply (Sl i (t_r e) l); [|exact Eli]. rewrite nth_error_map, Ei. reflexivity.
Qed.

Lemma schemes : forall sort ty p m, sort_ok sort -> distinct p -> (3 <= length p)%nat ->
  exists t ty' lr ls, tree_params sort ty p m = Done (t, ty', (lr, ls)) /\ spanning_tree_ma sort ty p = Done (t, ty') /\
    length ls = length (s_edges t) /\
    forall i e l, nth_error (s_edges t) i = Some e -> nth_error ls i = Some l ->
      exists q a b, nth_error lr l = Some q /\ right_scheme ty' lr (t_r e) q /\ joins (plain e) a b /\ clear_of ty' p a b q.
Proof.
  intros sort ty p m So D Hn. destruct (ma_spanning sort ty p So ltac:(lia)) as (t & ty' & E & _).
  destruct (ma_numbers sort ty p t ty' So D Hn E) as (N1 & N2 & _ & _ & N3).
  assert (X : exists lr ls, (match ty' with GJ => params_gj t m | DE => params_de t end) = Done (lr, ls) /\ scheme_spec ty' (s_edges t) lr ls).
  { destruct ty'; [exact (de_done t (proj1 N3) (proj2 N3) N2)|exact (gj_done t m (proj1 N3) (fun e Ie => proj1 (N2 e Ie)))]. }
  destruct X as (lr & ls & Ep & Ll & Sp). exists t, ty', lr, ls. split; [unfold tree_params; rewrite E; cbn [bind]; rewrite Ep; reflexivity|]. split; [exact E|].
  split; [exact Ll|]. intros i e l Ei El. destruct (Sp i e l Ei El) as (q & Eq & Rq). destruct (N1 e (nth_error_In _ _ Ei)) as (a & b & J & (_ & Lg & _)).
  exists q, a, b. split; [exact Eq|]. split; [exact Rq|]. split; [exact J|]. intros k Hk Ka Kb. specialize (Lg k Hk Ka Kb). unfold gauge in Lg. destruct Rq as (_ & Rq). destruct ty'; lra.
Qed.
