From Coq Require Import Permutation.
From Verif Require Import CArg ModelTree ModelVec ModelPeriod ModelMaRoot ModelMaInter ModelMaPoint SpecMaPoint ProofTree ProofMaPoint ModelMaDivisor SpecMaDivisor.
Local Open Scope R_scope.

Lemma same_curve_iff a b : same_curve a b = true <-> a = b.
Proof.
  unfold same_curve. destruct a as (m & f), b as (m' & f'). cbn [fst snd]. rewrite andb_true_iff, Nat.eqb_eq.
  destruct (list_eq_dec Ceq_dec f f'); split; [intros (-> & _); now subst|intro E; injection E; auto|easy|intro E; injection E; intros; subst; easy].
Qed.

Lemma round_off_spec x : Rabs (round_off x) <= / 2 /\ integer (round_off x - x).
Proof.
  unfold round_off, round_near. destruct (base_Int_part (x + / 2)) as (A & B). split.
  - apply Rabs_le. lra.
  - exists (- Int_part (x + / 2))%Z. rewrite opp_IZR. lra.
Qed.

Lemma integer_add x y : integer x -> integer y -> integer (x + y).
Proof. intros (a & ->) (b & ->). exists (a + b)%Z. symmetry. apply plus_IZR. Qed.
Lemma integer_opp x : integer x -> integer (- x).
Proof. intros (a & ->). exists (- a)%Z. symmetry. apply opp_IZR. Qed.

Lemma rsum_to_ext n f h : (forall k, (k < n)%nat -> f k = h k) -> rsum_to n f = rsum_to n h.
Proof. induction n as [|n IH]; intro H; cbn [rsum_to]; [reflexivity|]. rewrite IH, H by (intros; try apply H; lia). reflexivity. Qed.
Lemma rsum_to_lin n f h v : rsum_to n (fun k => f k + v * h k) = rsum_to n f + v * rsum_to n h.
Proof. induction n as [|n IH]; cbn [rsum_to]; [ring|]. rewrite IH. ring. Qed.

Lemma coords_ext g a v w i : (forall k, v k = w k) -> coords g a v i = coords g a w i.
Proof.
  intro H. unfold coords. apply rsum_to_ext. intros k _. f_equal.
  destruct (k <? g)%nat; f_equal; apply csum_ext; intros; now rewrite H.
Qed.
Lemma coords_lin g a v h (c : R) i : coords g a (fun k => v k + RtoC c * h k)%C i = coords g a v i + c * coords g a h i.
Proof.
  unfold coords. rewrite <- rsum_to_lin. apply rsum_to_ext. intros k _.
  assert (E : forall j, csum g (fun l => aj_dcm a j l * (v l + RtoC c * h l))%C =
    (csum g (fun l => aj_dcm a j l * v l)%C + RtoC c * csum g (fun l => aj_dcm a j l * h l)%C)%C).
  { intro j. rewrite <- csum_scal, <- csum_add. apply csum_ext. intros. ring. }
  destruct (k <? g)%nat; rewrite E; cbn; ring.
Qed.
Lemma coords_0 g a i : coords g a (fun _ => RtoC 0) i = 0.
Proof.
  unfold coords. transitivity (rsum_to (2 * g) (fun k => 0 + 0 * 0)).
  - apply rsum_to_ext. intros k _. assert (E : forall j, csum g (fun l => aj_dcm a j l * RtoC 0)%C = RtoC 0).
    { intro j. apply csum_zero. intros. ring. } destruct (k <? g)%nat; rewrite E; cbn; ring.
  - rewrite rsum_to_lin. induction (2 * g)%nat as [|n IH]; cbn [rsum_to]; lra.
Qed.

Lemma distance_unique pts x j p : next_to pts x j p -> distance x pts = Done (Cmod (x - p)%C, j).
Proof.
  intros (Hj & H). assert (Hn : pts <> []) by (destruct pts; [destruct j; discriminate|easy]).
  destruct (distance_spec x pts Hn) as (i & q & E & Hi & Hq). rewrite E.
  destruct (Nat.eq_dec i j) as [->|Hij]; [congruence|].
  specialize (H i q Hi Hij). specialize (Hq p (nth_error_In _ _ Hj)). lra.
Qed.

Section Map.
Variable integ : C -> C -> nat -> nat -> C.
Variable inf : Z -> nat -> R.
Variable c : se_curve.
Variable a : aj_data.
Hypothesis full : complete c a.

Definition val (i : nat) (p : point) : R :=
  match p with
  | PInf k => inf k i
  | PFin x y => match distance x (sc_pts c) with
      | Done (d, j) => match nth_error (aj_ram a) j with
          | Some r => r i + (if Rlt_dec (sc_error c) d then coords (sc_g c) a (integ x y j) i else 0)
          | None => 0 end
      | _ => 0 end
  end.

Lemma val_ok : point_values integ inf c a val.
Proof using All.
  split; [reflexivity|]. intros i x y j p r H Hr. unfold val. rewrite (distance_unique _ _ _ _ H), Hr. reflexivity.
Qed.

Lemma edge_integrals_app l x y k v j :
  edge_integrals integ (l ++ [(x, y, k, v)]) j = (edge_integrals integ l j + RtoC (IZR v) * integ x y k j)%C.
Proof. unfold edge_integrals. rewrite fold_left_app. reflexivity. Qed.

Lemma sort_ok : forall s rat real edges, (forall k v, In (PInf k, v) s -> (1 <= k <= sc_delta c)%Z) ->
  exists rat' real' edges', sort_points inf c a s rat real edges = Done (rat', real', edges') /\
    forall i, rat' i + real' i + coords (sc_g c) a (edge_integrals integ edges') i =
      rat i + real i + coords (sc_g c) a (edge_integrals integ edges) i + extend (val i) s.
Proof using All.
  induction s as [|(p & v) s IH]; intros rat real edges Hk; cbn [sort_points extend].
  - eexists _, _, _. split; [reflexivity|]. intro i. ring.
  - assert (Hs : forall k w, In (PInf k, w) s -> (1 <= k <= sc_delta c)%Z) by (intros k w Hw; apply (Hk k w); now right).
    destruct p as [k|x y].
    + specialize (Hk k v (or_introl eq_refl)).
      replace ((1 <=? k) && (k <=? sc_delta c))%Z with true by (symmetry; apply andb_true_iff; lia). cbn [negb].
      destruct (Z.eqb_spec (sc_delta c) 1) as [H1|H1].
      * replace k with 1%Z by lia. destruct (IH (fun i => rat i + IZR v * inf 1 i) real edges Hs) as (r1 & r2 & e & E & H).
        rewrite E. eexists _, _, _. split; [reflexivity|]. intro i. rewrite H. unfold val. ring.
      * destruct (IH rat (fun i => real i + IZR v * inf k i) edges Hs) as (r1 & r2 & e & E & H).
        rewrite E. eexists _, _, _. split; [reflexivity|]. intro i. rewrite H. unfold val. ring.
    + destruct full as (Hn & Hl). destruct (distance_spec x _ Hn) as (j & q & E & Hj & _).
      rewrite E. cbn [bind snd fst]. unfold tget.
      assert (Hr : exists r, nth_error (aj_ram a) j = Some r).
      { destruct (nth_error (aj_ram a) j) as [r|] eqn:F; [now exists r|]. apply nth_error_None in F.
        pose proof (proj1 (nth_error_Some (sc_pts c) j) ltac:(congruence)). lia. }
      destruct Hr as (r & Hr). rewrite Hr. cbn [bind]. cbv zeta.
      set (ed := if Rlt_dec (sc_error c) (Cmod (x - q)%C) then edges ++ [(x, y, j, v)] else edges).
      destruct (IH (fun i => rat i + IZR v * r i) real ed Hs) as (r1 & r2 & e & E2 & H).
      rewrite E2. eexists _, _, _. split; [reflexivity|]. intro i. rewrite H. unfold val. rewrite E, Hr. unfold ed.
      destruct (Rlt_dec (sc_error c) (Cmod (x - q)%C)); [|ring].
      rewrite (coords_ext _ _ _ _ _ (edge_integrals_app edges x y j v)), coords_lin. ring.
Qed.

Lemma map_nth_R f n i : (i < n)%nat -> nth i (map f (seq 0 n)) 0 = f i.
Proof. intro H. rewrite (nth_indep _ 0 (f 0%nat)) by (now rewrite map_length, seq_length). now rewrite map_nth, seq_nth. Qed.

Lemma aj_ok d : zero_divisor_on c d ->
  exists r, abel_jacobi integ inf c a d = Done r /\ value_is (sc_g c) r (fun i => extend (val i) (d_supp d)).
Proof using All.
  intros (H1 & H2 & H3). unfold abel_jacobi. rewrite (proj2 (same_curve_iff _ _) H1), H2. cbn [negb Z.eqb].
  destruct (sort_ok (d_supp d) (fun _ => 0) (fun _ => 0) [] H3) as (rat & real & edges & E & H). rewrite E. cbn [bind].
  assert (Z0 : forall i, coords (sc_g c) a (edge_integrals integ []) i = 0) by (intro; apply coords_0).
  destruct edges as [|e edges].
  - eexists. split; [reflexivity|]. split; [now rewrite map_length, seq_length|]. intros i Hi. rewrite map_nth_R by exact Hi.
    specialize (H i). rewrite Z0 in H. replace (extend (val i) (d_supp d)) with (real i + rat i) by lra. apply round_off_spec.
  - eexists. split; [reflexivity|]. split; [now rewrite map_length, seq_length|]. intros i Hi. rewrite map_nth_R by exact Hi.
    split; [apply round_off_spec|]. specialize (H i). rewrite Z0 in H. set (ci := edge_integrals integ (e :: edges)) in *.
    set (L := lattice_reduction _ _ _ _). destruct (round_off_spec (L + (rat i + real i))) as (_ & I1).
    assert (I2 : integer (L - coords (sc_g c) a ci i)) by (apply round_off_spec).
    replace (round_off (L + (rat i + real i)) - extend (val i) (d_supp d))
      with ((round_off (L + (rat i + real i)) - (L + (rat i + real i))) + (L - coords (sc_g c) a ci i)) by lra.
    now apply integer_add.
Qed.
End Map.

Lemma extend_app phi s t : extend phi (s ++ t) = extend phi s + extend phi t.
Proof. induction s as [|(p & v) s IH]; cbn [app extend]; [ring|]. rewrite IH. ring. Qed.
Lemma degree_app s t : degree_of (s ++ t) = (degree_of s + degree_of t)%Z.
Proof. induction s as [|(p & v) s IH]; cbn [app degree_of]; [ring|]. rewrite IH. ring. Qed.
Lemma extend_perm phi s t : Permutation s t -> extend phi s = extend phi t.
Proof. induction 1 as [|(p & v) s t _ IH|(p & v) (q & w) s|s t u _ IH1 _ IH2]; cbn [extend]; lra. Qed.

Lemma value_det g r r' s : value_is g r s -> value_is g r' s -> forall i, (i < 2 * g)%nat -> integer (nth i r 0 - nth i r' 0).
Proof.
  intros (_ & H) (_ & H') i Hi. destruct (H i Hi) as (_ & A), (H' i Hi) as (_ & B).
  replace (nth i r 0 - nth i r' 0) with ((nth i r 0 - s i) + - (nth i r' 0 - s i)) by ring.
  apply integer_add; [exact A|now apply integer_opp].
Qed.

Lemma aj_sum integ inf c a d1 d2 d : complete c a -> zero_divisor_on c d1 -> zero_divisor_on c d2 -> zero_divisor_on c d ->
  Permutation (d_supp d) (d_supp d1 ++ d_supp d2) ->
  exists r1 r2 r, abel_jacobi integ inf c a d1 = Done r1 /\ abel_jacobi integ inf c a d2 = Done r2 /\
    abel_jacobi integ inf c a d = Done r /\
    forall i, (i < 2 * sc_g c)%nat -> integer (nth i r 0 - (nth i r1 0 + nth i r2 0)).
Proof.
  intros Hf H1 H2 H P. destruct (aj_ok integ inf c a Hf d1 H1) as (r1 & E1 & _ & V1).
  destruct (aj_ok integ inf c a Hf d2 H2) as (r2 & E2 & _ & V2). destruct (aj_ok integ inf c a Hf d H) as (r & E & _ & V).
  exists r1, r2, r. repeat split; try assumption. intros i Hi.
  destruct (V1 i Hi) as (_ & A1), (V2 i Hi) as (_ & A2), (V i Hi) as (_ & A).
  rewrite (extend_perm _ _ _ P), extend_app in A.
  replace (nth i r 0 - (nth i r1 0 + nth i r2 0)) with
    ((nth i r 0 - (extend (val integ inf c a i) (d_supp d1) + extend (val integ inf c a i) (d_supp d2))) +
     - (nth i r1 0 - extend (val integ inf c a i) (d_supp d1)) + - (nth i r2 0 - extend (val integ inf c a i) (d_supp d2))) by ring.
  apply integer_add; [apply integer_add|]; try apply integer_opp; assumption.
Qed.

(** ** sessions *)
Lemma store_ok c check : forall l s, store_points c check l = Done s ->
  degree_of s = fold_right Z.add 0%Z (map snd l) /\ length s = length l /\ (forall p v, In (p, v) s -> v <> 0%Z) /\
  (forall k v, In (PInf k, v) s -> (1 <= k <= sc_delta c)%Z).
Proof.
  induction l as [|(p & v) l IH]; intros s E; cbn [store_points] in E.
  - injection E as <-. repeat split; easy.
  - destruct (store_point c check (p, v)) as [q| | |] eqn:Eq; try discriminate. cbn [bind] in E.
    destruct (store_points c check l) as [r| | |]; try discriminate. cbn [bind] in E. injection E as <-.
    destruct (IH r eq_refl) as (A & B & D & F). unfold store_point in Eq.
    destruct (Z.eqb_spec v 0) as [|Hv]; [discriminate|].
    assert (Hq : snd q = v /\ forall k, fst q = PInf k -> (1 <= k <= sc_delta c)%Z).
    { destruct p as [k|x y|x y z|]; try discriminate.
      - destruct ((1 <=? k) && (k <=? sc_delta c))%Z eqn:Ek; [|discriminate]. apply andb_true_iff in Ek. injection Eq as <-.
        split; [reflexivity|]. cbn. intros k' F'. injection F' as <-. lia.
      - unfold store_finite in Eq. destruct (if check then is_point c x y (point_error c) else Done true) as [[]| | |]; try discriminate.
        cbn [bind] in Eq. injection Eq as <-. easy.
      - destruct (Ceq_dec z (RtoC 0)); [discriminate|]. unfold store_finite in Eq.
        destruct (if check then is_point c (x / z)%C (y / z)%C (point_error c) else Done true) as [[]| | |]; try discriminate.
        cbn [bind] in Eq. injection Eq as <-. easy. }
    destruct q as (q & v'). cbn [fst snd] in Hq. destruct Hq as (-> & Hq).
    cbn [degree_of map fold_right snd length In]. repeat split.
    + lia.
    + lia.
    + intros p' v' [E'|E']; [injection E' as _ <-; exact Hv|now apply (D p' v')].
    + destruct H as [E'|E']; [injection E' as -> _; now apply Hq|now apply (F k v0)].
    + destruct H as [E'|E']; [injection E' as -> _; now apply Hq|now apply (F k v0)].
Qed.

Lemma new_ok h c check l h' i : new_divisor h c check l = Done (h', i) ->
  i = length h /\ exists d, h' = h ++ [d] /\ sound d /\ d_curve d = curve_key c /\
    (forall k v, In (PInf k, v) (d_supp d) -> (1 <= k <= sc_delta c)%Z) /\
    store_points c check l = Done (d_supp d) /\ d_deg d = fold_right Z.add 0%Z (map snd l).
Proof.
  unfold new_divisor. intros E. destruct l as [|p l]; [discriminate|].
  destruct (store_points c check (p :: l)) as [s| | |] eqn:Es; try discriminate. cbn [bind] in E. injection E as <- <-.
  destruct (store_ok c check _ s Es) as (A & B & D & F). split; [reflexivity|]. eexists. split; [reflexivity|].
  split; [|split; [reflexivity|]; split; [exact F|]; now split]. split; [exact (eq_sym A)|]. split; [|exact D]. cbn [d_supp]. intros ->. discriminate.
Qed.

Lemma add_ok h i j h' k : add_divisors h i j = Done (h', k) ->
  k = i /\ exists d1 d2, nth_error h i = Some d1 /\ nth_error h j = Some d2 /\ d_curve d1 = d_curve d2 /\
    h' = upd h i {| d_curve := d_curve d1; d_supp := d_supp d1 ++ d_supp d2; d_deg := d_deg d1 + d_deg d2 |}.
Proof.
  unfold add_divisors, tget. destruct (nth_error h i) as [d1|]; [|discriminate]. cbn [bind].
  destruct (nth_error h j) as [d2|]; [|discriminate]. cbn [bind]. destruct (same_curve (d_curve d1) (d_curve d2)) eqn:E; [|discriminate].
  apply same_curve_iff in E. intro F. injection F as <- <-. split; [reflexivity|]. exists d1, d2. repeat split. exact E.
Qed.

Lemma in_upd {A} (h : list A) i v x : In x (upd h i v) -> x = v \/ In x h.
Proof.
  revert i. induction h as [|y h IH]; intros [|i] H; cbn [upd] in H; try easy.
  - destruct H as [<-|H]; [now left|right; now right].
  - destruct H as [<-|H]; [right; now left|]. destruct (IH i H); [now left|right; now right].
Qed.

Lemma add_sound h i j h' k : Forall sound h -> add_divisors h i j = Done (h', k) -> Forall sound h'.
Proof.
  intros Hh E. destruct (add_ok _ _ _ _ _ E) as (-> & d1 & d2 & H1 & H2 & _ & ->).
  apply Forall_forall. intros d Hd. rewrite Forall_forall in Hh. apply in_upd in Hd. destruct Hd as [->|Hd]; [|now apply Hh].
  destruct (Hh d1 (nth_error_In _ _ H1)) as (A1 & B1 & C1). destruct (Hh d2 (nth_error_In _ _ H2)) as (A2 & B2 & C2).
  split; cbn [d_deg d_supp]; [rewrite degree_app; lia|]. split.
  - destruct (d_supp d1); easy.
  - intros p v Hp. apply in_app_iff in Hp. destruct Hp as [Hp|Hp]; [now apply (C1 p)|now apply (C2 p)].
Qed.
Lemma new_sound h c check l h' k : Forall sound h -> new_divisor h c check l = Done (h', k) -> Forall sound h'.
Proof.
  intros Hh E. destruct (new_ok _ _ _ _ _ _ E) as (_ & d & -> & Hd & _). apply Forall_app. split; [exact Hh|]. now constructor.
Qed.

Lemma after_sound h k : Forall sound h -> Forall sound (heap_after h k).
Proof.
  intro Hh. destruct k as [c check l|i j|c a i p0|c a p q]; cbn [heap_after].
  - destruct (new_divisor h c check l) as [(h' & i)| | |] eqn:E; try assumption. eapply new_sound; eassumption.
  - destruct (add_divisors h i j) as [(h' & k)| | |] eqn:E; try assumption. eapply add_sound; eassumption.
  - destruct (tget h i) as [d| | |]; cbn [bind]; try assumption. destruct (negb (d_deg d =? 0)%Z); [|assumption].
    destruct (new_divisor h c true [(p0, (- d_deg d)%Z)]) as [(h1 & j)| | |] eqn:E; cbn [bind]; try assumption. cbn [fst snd].
    destruct (add_divisors h1 i j) as [(h2 & k)| | |] eqn:E2; try assumption. eapply add_sound; [|eassumption]. eapply new_sound; eassumption.
  - destruct (new_divisor h c true [(q, 1%Z); (p, (-1)%Z)]) as [(h' & i)| | |] eqn:E; try assumption. eapply new_sound; eassumption.
Qed.
Lemma session_sound ks : forall h, Forall sound h -> Forall sound (fold_left heap_after ks h).
Proof. induction ks as [|k ks IH]; intros h Hh; cbn [fold_left]; [exact Hh|]. apply IH. now apply after_sound. Qed.

(** what a call leaves alone *)
Definition target (k : call) : option nat := match k with Add i _ | AjBase _ _ i _ => Some i | _ => None end.
Lemma nth_error_new (h : heap) d i x : nth_error h i = Some x -> nth_error (h ++ [d]) i = Some x.
Proof. intro H. rewrite nth_error_app1; [exact H|]. apply nth_error_Some. congruence. Qed.
Lemma nth_error_upd_other {A} (t : list A) i v j : j <> i -> nth_error (upd t i v) j = nth_error t j.
Proof. revert i j. induction t as [|x t IH]; intros [|i] [|j] H; cbn [upd nth_error]; try easy. apply IH. lia. Qed.
Lemma after_frame h k i d : nth_error h i = Some d -> target k <> Some i -> nth_error (heap_after h k) i = Some d.
Proof.
  intros H Ht. destruct k as [c check l|i' j|c a i' p0|c a p q]; cbn [heap_after target] in *.
  - destruct (new_divisor h c check l) as [(h' & j)| | |] eqn:E; try assumption.
    destruct (new_ok _ _ _ _ _ _ E) as (_ & d' & -> & _). now apply nth_error_new.
  - destruct (add_divisors h i' j) as [(h' & k)| | |] eqn:E; try assumption.
    destruct (add_ok _ _ _ _ _ E) as (_ & d1 & d2 & _ & _ & _ & ->). rewrite nth_error_upd_other by congruence. exact H.
  - destruct (tget h i') as [d0| | |]; cbn [bind]; try assumption. destruct (negb (d_deg d0 =? 0)%Z); [|assumption].
    destruct (new_divisor h c true [(p0, (- d_deg d0)%Z)]) as [(h1 & j)| | |] eqn:E; cbn [bind]; try assumption. cbn [fst snd].
    destruct (add_divisors h1 i' j) as [(h2 & k)| | |] eqn:E2; try assumption.
    destruct (new_ok _ _ _ _ _ _ E) as (_ & d' & -> & _). destruct (add_ok _ _ _ _ _ E2) as (_ & d1 & d2 & _ & _ & _ & ->).
    rewrite nth_error_upd_other by congruence. now apply nth_error_new.
  - destruct (new_divisor h c true [(q, 1%Z); (p, (-1)%Z)]) as [(h' & j)| | |] eqn:E; try assumption.
    destruct (new_ok _ _ _ _ _ _ E) as (_ & d' & -> & _). now apply nth_error_new.
Qed.

Lemma after_others h k i d : nth_error h i = Some d ->
  (match k with Add i' _ | AjBase _ _ i' _ => i' <> i | _ => True end) -> nth_error (heap_after h k) i = Some d.
Proof. intros H T. apply after_frame; [exact H|]. destruct k; cbn [target]; congruence. Qed.

(** the base point is remembered *)
Lemma nth_error_upd_same {A} (t : list A) i v : (i < length t)%nat -> nth_error (upd t i v) i = Some v.
Proof. revert i. induction t as [|x t IH]; intros [|i] H; cbn [upd nth_error length] in *; try lia; [reflexivity|]. apply IH. lia. Qed.

Lemma aj_base_again integ inf h c a i p0 h' r p1 : aj_base integ inf h c a i p0 = Done (h', r) ->
  aj_base integ inf h' c a i p1 = Done (h', r) /\ exists d, nth_error h' i = Some d /\ d_deg d = 0%Z.
Proof.
  unfold aj_base at 1, tget at 1. destruct (nth_error h i) as [d|] eqn:Ed; [|discriminate]. cbn [bind].
  destruct (Z.eqb_spec (d_deg d) 0) as [H0|H0]; cbn [negb].
  - destruct (aj_zero integ inf h c a i) as [r0| | |] eqn:Er; try discriminate. cbn [bind]. intro E. injection E as <- <-.
    split; [|now exists d]. unfold aj_base, tget. rewrite Ed. cbn [bind]. rewrite H0. cbn [Z.eqb negb]. rewrite Er. reflexivity.
  - destruct (new_divisor h c true [(p0, (- d_deg d)%Z)]) as [(h1 & j)| | |] eqn:E1; try discriminate. cbn [bind fst snd].
    destruct (add_divisors h1 i j) as [(h2 & k)| | |] eqn:E2; try discriminate. cbn [bind fst snd].
    destruct (aj_zero integ inf h2 c a k) as [r0| | |] eqn:Er; try discriminate. cbn [bind]. intro E. injection E as <- <-.
    destruct (new_ok _ _ _ _ _ _ E1) as (-> & d' & -> & _ & _ & _ & _ & Hd').
    destruct (add_ok _ _ _ _ _ E2) as (-> & d1 & d2 & H1 & H2 & _ & Eh2).
    rewrite (nth_error_new _ _ _ _ Ed) in H1. injection H1 as <-.
    rewrite nth_error_app2, Nat.sub_diag in H2 by lia. cbn in H2. injection H2 as <-.
    cbn in Hd'. assert (G : nth_error h2 i = Some {| d_curve := d_curve d; d_supp := d_supp d ++ d_supp d'; d_deg := d_deg d + d_deg d' |}).
    { rewrite Eh2. apply nth_error_upd_same. rewrite app_length. pose proof (proj1 (nth_error_Some h i) ltac:(congruence)). lia. }
    split; [|eexists; split; [exact G|]; cbn [d_deg]; lia].
    unfold aj_base, tget. rewrite G. cbn [bind d_deg]. replace (d_deg d + d_deg d' =? 0)%Z with true by (symmetry; apply Z.eqb_eq; lia).
    cbn [negb]. rewrite Er. reflexivity.
Qed.

(** [heap_after] and the functions *)
Lemma after_base integ inf h c a i p0 h' r : aj_base integ inf h c a i p0 = Done (h', r) ->
  heap_after h (AjBase c a i p0) = h'.
Proof.
  unfold aj_base, heap_after. destruct (tget h i) as [d| | |]; try discriminate. cbn [bind].
  destruct (negb (d_deg d =? 0)%Z).
  - destruct (new_divisor h c true [(p0, (- d_deg d)%Z)]) as [(h1 & j)| | |]; try discriminate. cbn [bind fst snd].
    destruct (add_divisors h1 i j) as [(h2 & k)| | |]; try discriminate. cbn [bind fst snd].
    destruct (aj_zero integ inf h2 c a k); try discriminate. cbn [bind]. intro E. now injection E.
  - destruct (aj_zero integ inf h c a i); try discriminate. cbn [bind]. intro E. now injection E.
Qed.

(** the value with a base point, on a fresh divisor *)
Lemma aj_base_value integ inf h c a i p0 p0' d : complete c a -> nth_error h i = Some d -> sound d -> d_deg d <> 0%Z ->
  d_curve d = curve_key c -> (forall k v, In (PInf k, v) (d_supp d) -> (1 <= k <= sc_delta c)%Z) ->
  store_point c true (p0, (- d_deg d)%Z) = Done (p0', (- d_deg d)%Z) ->
  exists h' r, aj_base integ inf h c a i p0 = Done (h', r) /\
    value_is (sc_g c) r (fun n => extend (val integ inf c a n) (d_supp d) - IZR (d_deg d) * val integ inf c a n p0').
Proof.
  intros Hf Hd Hs H0 Hc Hi Hp. unfold aj_base, tget. rewrite Hd. cbn [bind].
  destruct (Z.eqb_spec (d_deg d) 0) as [|_]; [easy|]. cbn [negb].
  assert (EN : new_divisor h c true [(p0, (- d_deg d)%Z)] =
    Done (h ++ [{| d_curve := curve_key c; d_supp := [(p0', (- d_deg d)%Z)]; d_deg := (- d_deg d)%Z |}], length h)).
  { unfold new_divisor. cbn [store_points]. rewrite Hp. cbn [bind map fold_right snd]. rewrite Z.add_0_r. reflexivity. }
  rewrite EN. cbn [bind fst snd]. unfold add_divisors, tget.
  rewrite (nth_error_new _ _ _ _ Hd). cbn [bind]. rewrite nth_error_app2, Nat.sub_diag by lia. cbn [nth_error bind d_curve d_supp d_deg].
  rewrite (proj2 (same_curve_iff _ _) Hc). cbn [bind fst snd]. unfold aj_zero, tget.
  assert (Hl : (i < length h)%nat) by (apply nth_error_Some; congruence).
  rewrite nth_error_upd_same by (rewrite app_length; cbn [length]; lia). cbn [bind].
  set (dd := {| d_curve := _; d_supp := _; d_deg := _ |}).
  assert (Z1 : zero_divisor_on c dd).
  { split; [exact Hc|]. split; [cbn; lia|]. intros k v Hk. cbn in Hk. apply in_app_iff in Hk. destruct Hk as [Hk|[Hk|[]]]; [now apply (Hi k v)|].
    injection Hk as -> _. apply (store_ok c true [(p0, (- d_deg d)%Z)] [(PInf k, (- d_deg d)%Z)]) with (v := (- d_deg d)%Z); [|now left].
    cbn [store_points]. rewrite Hp. reflexivity. }
  destruct (aj_ok integ inf c a Hf dd Z1) as (r & E & V). rewrite E. cbn [bind]. eexists _, r. split; [reflexivity|].
  destruct V as (V1 & V2). split; [exact V1|]. intros n Hn. destruct (V2 n Hn) as (A & B). split; [exact A|].
  unfold dd in B. cbn [d_supp] in B. rewrite extend_app in B. cbn [extend] in B. rewrite opp_IZR in B.
  replace (extend (val integ inf c a n) (d_supp d) - IZR (d_deg d) * val integ inf c a n p0') with
    (extend (val integ inf c a n) (d_supp d) + (- IZR (d_deg d) * val integ inf c a n p0' + 0)) by ring. exact B.
Qed.

Lemma aj_points_value integ inf h c a p q p' q' : complete c a ->
  store_point c true (p, (-1)%Z) = Done (p', (-1)%Z) -> store_point c true (q, 1%Z) = Done (q', 1%Z) ->
  exists h' r, aj_points integ inf h c a p q = Done (h', r) /\
    value_is (sc_g c) r (fun i => val integ inf c a i q' - val integ inf c a i p').
Proof.
  intros Hf Hp Hq. unfold aj_points, new_divisor. cbn [store_points]. rewrite Hq. cbn [bind]. rewrite Hp. cbn [bind fst snd].
  unfold aj_zero, tget. rewrite nth_error_app2, Nat.sub_diag by lia. cbn [nth_error bind map fold_right snd].
  set (dd := {| d_curve := _; d_supp := _; d_deg := _ |}).
  assert (Z1 : zero_divisor_on c dd).
  { split; [reflexivity|]. split; [reflexivity|]. intros k v Hk.
    apply (store_ok c true [(q, 1%Z); (p, (-1)%Z)] (d_supp dd)) with (v := v); [|exact Hk].
    cbn [store_points]. rewrite Hq. cbn [bind]. rewrite Hp. reflexivity. }
  destruct (aj_ok integ inf c a Hf dd Z1) as (r & E & V). rewrite E. cbn [bind]. eexists _, r. split; [reflexivity|].
  destruct V as (V1 & V2). split; [exact V1|]. intros n Hn. destruct (V2 n Hn) as (A & B). split; [exact A|].
  unfold dd in B. cbn [d_supp extend] in B.
  replace (val integ inf c a n q' - val integ inf c a n p') with (1 * val integ inf c a n q' + (-1 * val integ inf c a n p' + 0)) by ring. exact B.
Qed.

(** ** y^2 = x (x - 1) (x - 2), the values of the branch points being half periods *)
Definition half_data : aj_data :=
  {| aj_ram := [(fun _ => 0); (fun i => if (i =? 0)%nat then / 2 else 0); (fun _ => / 2)];
     aj_red := fun i j => if (i =? j)%nat then 1 else 0; aj_dcm := fun i j => if (i =? j)%nat then RtoC 1 else RtoC 0 |}.
Definition half_curve : se_curve := example_curve 2 1.
Definition half_divisor : divisor := {| d_curve := curve_key half_curve; d_supp := [(PFin (RtoC 1) (RtoC 0), 1%Z)]; d_deg := 1 |}.

Lemma half_complete : complete half_curve half_data.
Proof. split; [easy|reflexivity]. Qed.
Lemma half_sound : sound half_divisor.
Proof. split; [reflexivity|]. split; [easy|]. intros p v [E|[]]. injection E as _ <-. lia. Qed.
Lemma half_store x v : In x (sc_pts half_curve) -> v <> 0%Z -> store_point half_curve true (RAff x (RtoC 0), v) = Done (PFin x (RtoC 0), v).
Proof.
  intros Hx Hv. unfold store_point. destruct (Z.eqb_spec v 0); [easy|]. unfold store_finite.
  assert (Hs : sensible half_curve) by (apply example_sensible; [lia|lra]).
  rewrite test_accepts; [reflexivity|exact Hs|now right|left; apply point_error_pos|].
  apply (branches_near half_curve x x Hs Hx). replace (x - x)%C with (RtoC 0) by ring. rewrite Cmod_0. apply sc_error_pos.
Qed.
Lemma half_new : new_divisor [] half_curve true [(RAff (RtoC 1) (RtoC 0), 1%Z)] = Done ([half_divisor], 0%nat).
Proof. unfold new_divisor. cbn [store_points]. rewrite half_store; [reflexivity|cbn; tauto|easy]. Qed.

Lemma cmod_real r s : Cmod (RtoC r - RtoC s)%C = Rabs (r - s).
Proof. now rewrite <- RtoC_minus, Cmod_R. Qed.
Lemma half_next0 : next_to (sc_pts half_curve) (RtoC 0) 0 (RtoC 0).
Proof.
  split; [reflexivity|]. intros [|[|[|k]]] q E H; cbn in E; try easy; try (destruct k; discriminate); injection E as <-; rewrite !cmod_real, Rminus_eq_0, Rabs_R0;
    apply Rabs_pos_lt; lra. Qed.
Lemma half_next1 : next_to (sc_pts half_curve) (RtoC 1) 1 (RtoC 1).
Proof.
  split; [reflexivity|]. intros [|[|[|k]]] q E H; cbn in E; try easy; try (destruct k; discriminate); injection E as <-; rewrite !cmod_real, Rminus_eq_0, Rabs_R0;
    apply Rabs_pos_lt; lra. Qed.
Lemma half_val0 integ inf : val integ inf half_curve half_data 0 (PFin (RtoC 0) (RtoC 0)) = 0.
Proof.
  destruct (val_ok integ inf half_curve half_data half_complete) as (_ & V). rewrite (V _ _ _ _ _ _ half_next0 eq_refl).
  rewrite cmod_real, Rminus_eq_0, Rabs_R0. pose proof (sc_error_pos half_curve). destruct (Rlt_dec (sc_error half_curve) 0); lra.
Qed.
Lemma half_val1 integ inf : val integ inf half_curve half_data 0 (PFin (RtoC 1) (RtoC 0)) = / 2.
Proof.
  destruct (val_ok integ inf half_curve half_data half_complete) as (_ & V). rewrite (V _ _ _ _ _ _ half_next1 eq_refl).
  rewrite cmod_real, Rminus_eq_0, Rabs_R0. cbn [Nat.eqb]. pose proof (sc_error_pos half_curve). destruct (Rlt_dec (sc_error half_curve) 0); lra.
Qed.

Lemma not_half_integer : ~ integer (/ 2).
Proof. intros (z & E). assert (F : IZR 1 = IZR (2 * z)) by (rewrite mult_IZR; lra). apply eq_IZR in F. lia. Qed.

Lemma base_forgotten integ inf :
  let h := [half_divisor] in let p0 := RAff (RtoC 0) (RtoC 0) in let p1 := RAff (RtoC 1) (RtoC 0) in
  exists h1 h2 r r1, aj_base integ inf h half_curve half_data 0 p0 = Done (h1, r) /\
    aj_base integ inf h1 half_curve half_data 0 p1 = Done (h1, r) /\
    aj_base integ inf h half_curve half_data 0 p1 = Done (h2, r1) /\ ~ integer (nth 0 r 0 - nth 0 r1 0).
Proof.
  cbv zeta. assert (HI : forall k v, In (PInf k, v) (d_supp half_divisor) -> (1 <= k <= sc_delta half_curve)%Z) by (intros k v [E|[]]; discriminate).
  destruct (aj_base_value integ inf [half_divisor] half_curve half_data 0 (RAff (RtoC 0) (RtoC 0)) (PFin (RtoC 0) (RtoC 0)) half_divisor
    half_complete eq_refl half_sound ltac:(easy) eq_refl HI ltac:(apply half_store; [cbn; tauto|easy])) as (h1 & r & E & V).
  destruct (aj_base_value integ inf [half_divisor] half_curve half_data 0 (RAff (RtoC 1) (RtoC 0)) (PFin (RtoC 1) (RtoC 0)) half_divisor
    half_complete eq_refl half_sound ltac:(easy) eq_refl HI ltac:(apply half_store; [cbn; tauto|easy])) as (h2 & r1 & E1 & V1).
  exists h1, h2, r, r1. split; [exact E|]. split; [exact (proj1 (aj_base_again _ _ _ _ _ _ _ _ _ _ E))|]. split; [exact E1|].
  destruct V as (_ & V), V1 as (_ & V1). destruct (V 0%nat ltac:(cbn; lia)) as (_ & I). destruct (V1 0%nat ltac:(cbn; lia)) as (_ & I1).
  cbn [half_divisor d_supp extend d_deg] in I, I1. rewrite half_val1 in I, I1. rewrite half_val0 in I.
  intro N. apply not_half_integer.
  replace (/ 2) with ((nth 0 r 0 - nth 0 r1 0) + - (nth 0 r 0 - (1 * / 2 + 0 - 1 * 0)) + (nth 0 r1 0 - (1 * / 2 + 0 - 1 * / 2))) by lra.
  apply integer_add; [apply integer_add; [exact N|apply integer_opp; exact I]|exact I1].
Qed.

Lemma add_changes h i j h' k d2 : add_divisors h i j = Done (h', k) -> nth_error h j = Some d2 -> sound d2 ->
  k = i /\ nth_error h' i <> nth_error h i.
Proof.
  intros E H2 (_ & S & _). destruct (add_ok _ _ _ _ _ E) as (-> & e1 & e2 & F1 & F2 & _ & ->). split; [reflexivity|].
  rewrite nth_error_upd_same by (apply nth_error_Some; congruence). rewrite F1. intro G. injection G as G.
  rewrite H2 in F2. injection F2 as <-. apply (f_equal d_supp) in G. cbn [d_supp] in G. apply S.
  rewrite <- (app_nil_r (d_supp e1)) in G at 2. now apply app_inv_head in G.
Qed.
Lemma add_value h i j d1 d2 : nth_error h i = Some d1 -> nth_error h j = Some d2 -> d_curve d1 = d_curve d2 ->
  exists h' d, add_divisors h i j = Done (h', i) /\ nth_error h' i = Some d /\ d_supp d = d_supp d1 ++ d_supp d2 /\
    d_deg d = (d_deg d1 + d_deg d2)%Z /\ d_curve d = d_curve d1.
Proof.
  intros H1 H2 E. unfold add_divisors, tget. rewrite H1. cbn [bind]. rewrite H2. cbn [bind]. rewrite (proj2 (same_curve_iff _ _) E).
  eexists _, _. split; [reflexivity|]. split; [apply nth_error_upd_same, nth_error_Some; congruence|]. repeat split.
Qed.
