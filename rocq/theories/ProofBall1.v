(** Computations on balls enclose the exact ones: vectors, factors of an edge, period matrices. *)
From Coq Require Import Reals Lra Lia.
From Verif Require Import CArg ModelTree ModelCurve ModelBasis ModelPeriod ModelVec ModelCache ModelTurn ModelBall SpecBall.
Local Open Scope nat_scope.

(** the run on balls follows the exact run, unless it aborts for the reason [ab] *)
Definition simu (ab : Prop) {B E : Type} (P : B -> E -> Prop) (o : outcome B) (e : outcome E) : Prop :=
  match o, e with
  | Done b, Done x => P b x
  | Abort, Abort => True
  | Abort, _ => ab
  | Fault f, Fault f' => f = f'
  | OutOfFuel, OutOfFuel => True
  | _, _ => False
  end.
Lemma sim_bind {ab : Prop} {B E B' E' : Type} (P : B -> E -> Prop) (Q : B' -> E' -> Prop) o e k k' :
  simu ab P o e -> (forall b x, P b x -> simu ab Q (k b) (k' x)) -> simu ab Q (bind o k) (bind e k').
Proof. destruct o, e; cbn; try tauto; auto. intros H _. destruct (k' a); auto. Qed.
Lemma sim_done {ab : Prop} {B E : Type} (P : B -> E -> Prop) b e : simu ab P (Done b) e -> exists x, e = Done x /\ P b x.
Proof. destruct e; cbn; try tauto. intro H. exists a. auto. Qed.
Lemma sim_mono {ab : Prop} {B E : Type} (P Q : B -> E -> Prop) o e : (forall b x, P b x -> Q b x) -> simu ab P o e -> simu ab Q o e.
Proof. destruct o, e; cbn; auto. Qed.
Lemma sim_ab {ab : Prop} {B E : Type} (P : B -> E -> Prop) (e : outcome E) : ab -> simu ab P Abort e.
Proof. destruct e; cbn; auto. Qed.
(** without such a reason, the run on balls ends if the exact one does *)
Lemma sim_exact {ab : Prop} {B E : Type} (P : B -> E -> Prop) o e : ~ ab -> simu ab P o (Done e) -> exists b, o = Done b /\ P b e.
Proof. intro H. destruct o; cbn; try tauto. intro Hb. exists a. auto. Qed.

Lemma Forall2_nth {X Y} (P : X -> Y -> Prop) l k d d' i : Forall2 P l k -> P d d' -> P (nth i l d) (nth i k d').
Proof. intros H Hd. revert i. induction H; destruct i; cbn; auto. Qed.
Lemma Forall2_upd {X Y} (P : X -> Y -> Prop) l k i v w : Forall2 P l k -> P v w -> Forall2 P (upd l i v) (upd k i w).
Proof. intros H Hv. revert i. induction H; destruct i; cbn; constructor; auto. Qed.
Lemma Forall2_tab {X Y} (P : X -> Y -> Prop) n (f : nat -> X) (g : nat -> Y) :
  (forall i, i < n -> P (f i) (g i)) -> Forall2 P (map f (seq 0 n)) (map g (seq 0 n)).
Proof.
  intro H. assert (G : forall s, (forall i, s <= i < s + n -> P (f i) (g i)) -> Forall2 P (map f (seq s n)) (map g (seq s n))).
  { clear H. induction n; intros s H; cbn; constructor; [apply H; lia|]. apply IHn. intros i Hi. apply H. lia. }
  apply G. intros i Hi. apply H. lia.
Qed.
Lemma Forall2_len {X Y} (P : X -> Y -> Prop) l k : Forall2 P l k -> length l = length k.
Proof. induction 1; cbn; congruence. Qed.

Section Sound.
Variable A : arith.
Variable mem : ball A -> C -> Prop.
Hypothesis S : sound A mem.
Notation mv := (Forall2 mem).
Context {why : Prop}.
Local Notation sim := (simu why).

Lemma mget V v i : mv V v -> mem (bget A V i) (vget v i).
Proof using S. intro H. unfold bget, vget. apply Forall2_nth; [exact H|apply (s_zero A mem S)]. Qed.
Lemma mread V v i : mv V v -> sim mem (bread A V i) (vread v i).
Proof using S.
  intro H. unfold bread, vread. rewrite (Forall2_len _ _ _ H). destruct (i <? length v); cbn; [now apply mget|reflexivity].
Qed.
Lemma mwrite V v i X x : mv V v -> mem X x -> sim mv (bwrite A V i X) (vwrite v i x).
Proof using S.
  intros H Hx. unfold bwrite, vwrite. rewrite (Forall2_len _ _ _ H). destruct (i <? length v); cbn; [now apply Forall2_upd|reflexivity].
Qed.
Lemma one_mem : mem (b_one A) (RtoC 1).
Proof using S. exact (s_int A mem S 1). Qed.

Variable p : Z.

Lemma shift_pass_sim X x : mem X x -> forall cnt l off V v, mv V v -> sim mv (b_shift_pass A p cnt l off X V) (shift_pass cnt l off x v).
Proof using S.
  intros Hx. induction cnt as [|cnt IH]; intros l off V v H; cbn [b_shift_pass shift_pass]; [exact H|].
  eapply sim_bind; [apply mread, H|]. intros a a' Ha. eapply sim_bind; [apply mread, H|]. intros b b' Hb.
  eapply sim_bind; [apply mwrite; [exact H|]; now apply (s_addmul A mem S)|]. intros V' v' H'. now apply IH.
Qed.
Lemma shift_rounds_sim X x : mem X x -> forall todo k off len V v, mv V v ->
  sim mv (b_shift_rounds A p todo k off len X V) (shift_rounds todo k off len x v).
Proof using S.
  intros Hx. induction todo as [|todo IH]; intros k off len V v H; cbn [b_shift_rounds shift_rounds]; [exact H|].
  eapply sim_bind; [now apply shift_pass_sim|]. intros V' v' H'. now apply IH.
Qed.
Lemma polynomial_shift_sim X x V v off len : mem X x -> mv V v -> sim mv (b_polynomial_shift A p V off len X) (polynomial_shift v off len x).
Proof using S. intros. now apply shift_rounds_sim. Qed.

Definition mpair (r : list (ball A) * ball A) (r' : vec * C) : Prop := mv (fst r) (fst r') /\ mem (snd r) (snd r').
Definition op_ok (OP : ball A -> ball A -> nat -> ball A) (op : C -> C -> nat -> C) : Prop :=
  forall X Y x y k, mem X x -> mem Y y -> mem (OP X Y k) (op x y k).
Lemma geom_rest_sim OP op Y y : op_ok OP op -> mem Y y -> forall todo k off X x V v, mem X x -> mv V v ->
  sim mpair (b_geom_rest A p OP todo k off X Y V) (geom_rest op todo k off x y v).
Proof using S.
  intros Hop Hy. induction todo as [|todo IH]; intros k off X x V v Hx H; cbn [b_geom_rest geom_rest]; [split; assumption|].
  assert (Hxy := s_mul A mem S p _ _ _ _ Hx Hy).
  eapply sim_bind; [apply mread, H|]. intros a a' Ha.
  eapply sim_bind; [apply mwrite; [exact H|]; now apply Hop|]. intros V' v' H'. now apply IH.
Qed.
Lemma geom_sim OP op V v off len X x Y y : op_ok OP op -> mv V v -> mem X x -> mem Y y ->
  sim mpair (b_geom A p OP V off len X Y) (geom op v off len x y).
Proof using S.
  intros Hop H Hx Hy. unfold b_geom, geom. eapply sim_bind; [apply mread, H|]. intros a a' Ha.
  eapply sim_bind; [apply mwrite; [exact H|]; now apply Hop|]. intros V' v' H'. now apply geom_rest_sim.
Qed.
Lemma mul_geom_sim V v off len X x Y y : mv V v -> mem X x -> mem Y y -> sim mpair (b_mul_geom A p V off len X Y) (mul_geom v off len x y).
Proof using S. apply geom_sim. intros ? ? ? ? ? H1 H2. now apply (s_mul A mem S). Qed.
Lemma add_geom_sim V v off len X x Y y : mv V v -> mem X x -> mem Y y -> sim mpair (b_add_geom A p V off len X Y) (add_geom v off len x y).
Proof using S. apply geom_sim. intros ? ? ? ? ? H1 H2. now apply (s_add A mem S). Qed.
Lemma sub_geom_sim V v off len X x Y y : mv V v -> mem X x -> mem Y y -> sim mpair (b_sub_geom A p V off len X Y) (sub_geom v off len x y).
Proof using S.
  apply geom_sim. intros ? ? ? ? k H1 H2. destruct (Nat.odd k); [now apply (s_sub A mem S)|now apply (s_add A mem S)].
Qed.

Lemma scalar_mul_sim V v off len X x : mv V v -> mem X x -> sim mv (b_scalar_mul A p V off len X) (scalar_mul v off len x).
Proof using S.
  intros H Hx. unfold b_scalar_mul, scalar_mul. rewrite (Forall2_len _ _ _ H). destruct (off + len <=? length v); [|reflexivity].
  apply Forall2_tab. intros i _. destruct (_ && _); [apply (s_mul A mem S)|]; try assumption; now apply mget.
Qed.
Lemma unit_roots_mem m : mv (b_unit_roots A p m) (unit_roots m).
Proof using S. apply Forall2_tab. intros i Hi. apply (s_units A mem S). lia. Qed.

Lemma factor_blocks_sim BA ba AB ab CAB cab m j1 Z z : mem BA ba -> mem AB ab -> mem CAB cab -> mv Z z -> forall ni j off V v, mv V v ->
  sim mv (b_factor_blocks A p ni j off BA AB CAB m j1 Z V) (factor_blocks ni j off ba ab cab m j1 z v).
Proof using S.
  intros H1 H2 H3 Hz. induction ni as [|n ni IH]; intros j off V v H; cbn [b_factor_blocks factor_blocks]; [exact H|].
  eapply sim_bind; [now apply polynomial_shift_sim|]. intros V1 v1 G1.
  eapply sim_bind; [now apply mul_geom_sim|]. intros V2 v2 [G2 _].
  rewrite (Forall2_len _ _ _ Hz). destruct (_ || _); [reflexivity|].
  eapply sim_bind.
  { apply scalar_mul_sim; [exact G2|]. apply (s_div A mem S); [|now apply (s_pow A mem S)].
    apply (s_neg A mem S), (s_sub A mem S); [now apply mget|exact one_mem]. }
  intros V3 v3 G3. now apply IH.
Qed.
Lemma edge_factors_sim V v BA ba AB ab CAB cab c : mv V v -> mem BA ba -> mem AB ab -> mem CAB cab ->
  sim mv (b_edge_factors A p V BA AB CAB c) (integrals_edge_factors v ba ab cab c).
Proof using S. intros. apply factor_blocks_sim; try assumption. apply unit_roots_mem. Qed.

(** ** period matrices *)
Notation mm := (Forall2 mv).
Lemma slice_sim F f R r X x off len : (forall a a' b b', mem a a' -> mem b b' -> mem (F a b) (f a' b')) -> mv R r -> mv X x ->
  sim mv (b_slice A F R X off len)
    (if ((off + len <=? length r) && (off + len <=? length x))%nat then
      Done (vtab (length r) (fun k => if ((off <=? k) && (k <? off + len))%nat then f (vget r k) (vget x k) else vget r k))
     else Fault OutOfBounds).
Proof using S.
  intros HF Hr Hx. unfold b_slice. rewrite (Forall2_len _ _ _ Hr), (Forall2_len _ _ _ Hx). destruct (_ && _); [|reflexivity].
  apply Forall2_tab. intros i _. destruct (_ && _); [apply HF|]; now apply mget.
Qed.
Lemma shifted_blocks_sim m j1 l co Z z R r : mv Z z -> mv R r -> forall ni j off V v, mv V v ->
  sim mv (b_shifted_blocks A p ni j off m j1 l co Z R V) (shifted_blocks ni j off m j1 l co z r v).
Proof using S.
  intros Hz Hr. induction ni as [|n ni IH]; intros j off V v H; cbn [b_shifted_blocks shifted_blocks]; [exact H|].
  rewrite (Forall2_len _ _ _ Hz). destruct (_ || _); [reflexivity|].
  eapply sim_bind.
  { apply (slice_sim _ (fun a b => (a + b * (vget z (Z.to_nat (Z.rem ((m - l) * (j1 + j)) m)) * ZC co))%C)); [|exact H|exact Hr].
    intros a a' b b' Ha Hb. apply (s_addmul A mem S); try assumption. apply (s_mul_int A mem S). now apply mget. }
  intros V' v' H'. now apply IH.
Qed.
Lemma periods_term_sim c I i Z z g V v : mm I i -> mv Z z -> mv V v ->
  sim mv (b_periods_term A p c I Z g V) (periods_term c i z g v).
Proof using S.
  intros HI Hz H. unfold b_periods_term, periods_term. rewrite (Forall2_len _ _ _ HI). destruct (_ || _); [reflexivity|].
  assert (Hrow : mv (nth (Z.to_nat (gindex g)) I []) (nth (Z.to_nat (gindex g)) i [])) by (apply Forall2_nth; [exact HI|constructor]).
  destruct (slong_as_fmpz (gcoeff g)) as [co| | |]; cbn [bind sim]; try easy.
  destruct (gshift g =? 0)%Z.
  - apply (slice_sim _ (fun a b => (a + b * ZC co)%C)); try assumption. intros. now apply (s_addmul_int A mem S).
  - now apply shifted_blocks_sim.
Qed.
Lemma periods_terms_sim c I i Z z : mm I i -> mv Z z -> forall l V v, mv V v ->
  sim mv (b_periods_terms A p c I Z l V) (periods_terms c i z l v).
Proof using S.
  intros HI Hz. induction l as [|g l IH]; intros V v H; cbn [b_periods_terms periods_terms]; [exact H|].
  eapply sim_bind; [now apply periods_term_sim|]. intros V' v' H'. now apply IH.
Qed.
Lemma zeros_mem n : mv (btab A n (fun _ => b_zero A)) (vtab n (fun _ => RtoC 0)).
Proof using S. apply Forall2_tab. intros. apply (s_zero A mem S). Qed.
Lemma periods_rows_sim c I i Z z : mm I i -> mv Z z -> forall basis,
  sim mm (b_periods_rows A p c I Z basis) (periods_rows c i z basis).
Proof using S.
  intros HI Hz. induction basis as [|l basis IH]; cbn [b_periods_rows periods_rows]; [constructor|].
  eapply sim_bind; [apply periods_terms_sim; try assumption; apply zeros_mem|]. intros R r Hr.
  eapply sim_bind; [exact IH|]. intros Rs rs Hrs. now constructor.
Qed.
Lemma period_matrix_sim c basis I i : mm I i -> sim mm (b_period_matrix A p c basis I) (period_matrix c basis i).
Proof using S.
  intro HI. unfold b_period_matrix, period_matrix. eapply sim_bind; [apply periods_rows_sim; [exact HI|apply unit_roots_mem]|].
  intros R r Hr. cbn [simu]. unfold transpose. apply Forall2_tab. intros k _. apply Forall2_tab. intros j _.
  apply mget. apply Forall2_nth; [exact Hr|constructor].
Qed.
End Sound.
