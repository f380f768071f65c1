(** Proofs about the symplectic reduction. *)
From Verif Require Import Base ModelSymp SpecSymp.
From Coq Require Import Znumtheory Zquot.

(* ------------------------------------------------------------------ *)
(** * Entries *)

Lemma get_tab r c f i j :
  get (tab r c f) i j = if ((i <? r) && (j <? c))%nat then f i j else 0.
Proof.
  unfold get, tab.
  destruct (Nat.ltb_spec i r) as [Hi|Hi]; cbn [andb].
  - rewrite nth_map_seq by exact Hi.
    destruct (Nat.ltb_spec j c) as [Hj|Hj].
    + apply nth_map_seq, Hj.
    + apply nth_overflow. rewrite map_length, seq_length. exact Hj.
  - rewrite (nth_overflow (map _ (seq 0 r))) by (rewrite map_length, seq_length; exact Hi).
    destruct j; reflexivity.
Qed.

Lemma get_out_row r m i j : square r m -> (r <= i)%nat -> get m i j = 0.
Proof.
  intros [Hl _] Hi. unfold get. rewrite (nth_overflow m) by lia. destruct j; reflexivity.
Qed.

Lemma get_out_col r m i j : square r m -> (r <= j)%nat -> get m i j = 0.
Proof.
  intros [Hl Hr] Hj. unfold get.
  destruct (Nat.ltb_spec i (length m)) as [Hi|Hi].
  - apply nth_overflow. rewrite (Hr (nth i m [])); [exact Hj|]. apply nth_In, Hi.
  - rewrite (nth_overflow m) by lia. destruct j; reflexivity.
Qed.

Lemma square_tab r f : square r (tab r r f).
Proof.
  unfold tab. split.
  - rewrite map_length, seq_length. reflexivity.
  - intros row H. apply in_map_iff in H. destruct H as (i & <- & _).
    rewrite map_length, seq_length. reflexivity.
Qed.

Lemma square_nrows r m : square r m -> nrows m = r.
Proof. intros [H _]. exact H. Qed.
Lemma square_ncols r m : square r m -> ncols m = r.
Proof.
  intros [H H']. unfold ncols. destruct m as [|row m]; [cbn in *; lia|].
  cbn. apply H'. left. reflexivity.
Qed.

(* ------------------------------------------------------------------ *)
(** * Two-row combinations: the four steps are instances *)

Definition rowc (x y : nat) (a b c d : Z) (F : nat -> nat -> Z) (i j : nat) : Z :=
  if (i =? x)%nat then a * F x j + b * F y j
  else if (i =? y)%nat then c * F x j + d * F y j
  else F i j.
Definition colc (x y : nat) (a b c d : Z) (F : nat -> nat -> Z) (i j : nat) : Z :=
  if (j =? x)%nat then a * F i x + b * F i y
  else if (j =? y)%nat then c * F i x + d * F i y
  else F i j.

(** s' is s after replacing rows (and for M columns) x, y by their combinations *)
Record step_rel (r x y : nat) (a b c d : Z) (s s' : st) : Prop := {
  sr_sqP : square r (stP s');
  sr_sqM : square r (stM s');
  sr_P : forall i j, get (stP s') i j = rowc x y a b c d (get (stP s)) i j;
  sr_M : forall i j, get (stM s') i j = colc x y a b c d (rowc x y a b c d (get (stM s))) i j
}.

Ltac beq :=
  repeat match goal with
  | |- context [(?a =? ?b)%nat] => destruct (Nat.eqb_spec a b); subst
  | |- context [(?a <? ?b)%nat] => destruct (Nat.ltb_spec a b); cbn [andb]
  end.

Section Steps.
Variable r : nat.
Variable s : st.
Hypothesis HP : square r (stP s).
Hypothesis HM : square r (stM s).

Lemma inb_true i : (i < r)%nat -> inb s i = true.
Proof using HP HM.
  intros H. unfold inb. rewrite (square_nrows r _ HP), (square_nrows r _ HM).
  destruct (Nat.ltb_spec i r); [reflexivity|lia].
Qed.

Lemma zP_row i j : (r <= i)%nat -> get (stP s) i j = 0.
Proof using HP. apply get_out_row, HP. Qed.
Lemma zP_col i j : (r <= j)%nat -> get (stP s) i j = 0.
Proof using HP. apply get_out_col, HP. Qed.
Lemma zM_row i j : (r <= i)%nat -> get (stM s) i j = 0.
Proof using HM. apply get_out_row, HM. Qed.
Lemma zM_col i j : (r <= j)%nat -> get (stM s) i j = 0.
Proof using HM. apply get_out_col, HM. Qed.

Ltac dims := rewrite ?(square_nrows r _ HP), ?(square_ncols r _ HP), ?(square_nrows r _ HM), ?(square_ncols r _ HM).
Ltac fin := rewrite ?zP_row, ?zP_col, ?zM_row, ?zM_col by lia; try lia.

Lemma swap_step_rel i k : i <> k -> (i < r)%nat -> (k < r)%nat ->
  exists s', swap_step s i k = Done s' /\ step_rel r i k 0 1 1 0 s s'.
Proof using HP HM.
  intros Hik Hi Hk. unfold swap_step.
  destruct (Nat.eqb_spec i k) as [?|_]; [contradiction|].
  rewrite !inb_true by assumption. cbn [andb guard].
  eexists. split; [reflexivity|].
  assert (SM : square r (row_swap (stM s) i k)).
  { unfold row_swap. dims. apply square_tab. }
  constructor; cbn [stP stM].
  - unfold row_swap. dims. apply square_tab.
  - unfold col_swap. rewrite (square_nrows r _ SM), (square_ncols r _ SM). apply square_tab.
  - intros x y. unfold row_swap, rowc. dims. rewrite get_tab. beq; fin.
  - intros x y. unfold col_swap. rewrite (square_nrows r _ SM), (square_ncols r _ SM), get_tab.
    unfold row_swap, colc, rowc. dims. rewrite !get_tab. beq; fin.
Qed.

Lemma neg_step_rel i k : i <> k -> (i < r)%nat -> (k < r)%nat ->
  exists s', neg_step s i = Done s' /\ step_rel r i k (-1) 0 0 1 s s'.
Proof using HP HM.
  intros Hik Hi Hk. unfold neg_step.
  rewrite !inb_true by assumption. cbn [andb guard].
  eexists. split; [reflexivity|].
  assert (SM : square r (row_neg (stM s) i)).
  { unfold row_neg. dims. apply square_tab. }
  constructor; cbn [stP stM].
  - unfold row_neg. dims. apply square_tab.
  - unfold col_neg. rewrite (square_nrows r _ SM), (square_ncols r _ SM). apply square_tab.
  - intros x y. unfold row_neg, rowc. dims. rewrite get_tab. beq; fin.
  - intros x y. unfold col_neg. rewrite (square_nrows r _ SM), (square_ncols r _ SM), get_tab.
    unfold row_neg, colc, rowc. dims. rewrite !get_tab. beq; fin.
Qed.

Lemma transvect_step_rel i k q : i <> k -> (i < r)%nat -> (k < r)%nat ->
  exists s', transvect_step s i k q = Done s' /\ step_rel r i k 1 q 0 1 s s'.
Proof using HP HM.
  intros Hik Hi Hk. unfold transvect_step.
  rewrite !inb_true by assumption. cbn [andb guard].
  eexists. split; [reflexivity|].
  assert (SM : square r (row_addmul (stM s) i k q)).
  { unfold row_addmul. dims. apply square_tab. }
  constructor; cbn [stP stM].
  - unfold row_addmul. dims. apply square_tab.
  - unfold col_addmul. rewrite (square_nrows r _ SM), (square_ncols r _ SM). apply square_tab.
  - intros x y. unfold row_addmul, rowc. dims. rewrite get_tab. beq; fin.
  - intros x y. unfold col_addmul. rewrite (square_nrows r _ SM), (square_ncols r _ SM), get_tab.
    unfold row_addmul, colc, rowc. dims. rewrite !get_tab. beq; fin.
Qed.

Lemma bezout_step_rel xgcd i k a b : xgcd_ok xgcd -> a <> 0 ->
  i <> k -> (i < r)%nat -> (k < r)%nat ->
  exists u v s', bezout_step xgcd s i k a b = Done s' /\
    u * a + v * b = Z.gcd a b /\
    step_rel r i k u v (- (b / Z.gcd a b)) (a / Z.gcd a b) s s'.
Proof using HP HM.
  intros Hx Ha Hik Hi Hk. unfold bezout_step.
  specialize (Hx a b). destruct (xgcd a b) as [[g u] v]. destruct Hx as [-> Huv].
  destruct (Z.eqb_spec (Z.gcd a b) 0) as [E|Hg].
  { apply Z.gcd_eq_0_l in E. contradiction. }
  rewrite !inb_true by assumption. cbn [andb guard].
  set (u1 := - (b / Z.gcd a b)). set (v1 := a / Z.gcd a b).
  exists u, v. eexists. split; [reflexivity|]. split; [exact Huv|].
  assert (SM : square r (row_bezout (stM s) i k u v u1 v1)).
  { unfold row_bezout. dims. apply square_tab. }
  constructor; cbn [stP stM].
  - unfold row_bezout. dims. apply square_tab.
  - unfold col_bezout. rewrite (square_nrows r _ SM), (square_ncols r _ SM). apply square_tab.
  - intros x y. unfold row_bezout, rowc. dims. rewrite get_tab. beq; fin.
  - intros x y. unfold col_bezout. rewrite (square_nrows r _ SM), (square_ncols r _ SM), get_tab.
    unfold row_bezout, colc, rowc. dims. rewrite !get_tab. beq; fin.
Qed.
End Steps.

(* ------------------------------------------------------------------ *)
(** * Congruence and unimodularity are preserved by every step *)

Definition Bil (r : nat) (m : mat) (v w : nat -> Z) : Z :=
  zsum r (fun k => zsum r (fun l => v k * get m k l * w l)).
Definition dot (r : nat) (v w : nat -> Z) : Z := zsum r (fun k => v k * w k).

Lemma dot_ext r v v' w w' : (forall k, (k < r)%nat -> v k = v' k) ->
  (forall k, (k < r)%nat -> w k = w' k) -> dot r v w = dot r v' w'.
Proof. intros H H'. apply zsum_ext. intros k Hk. rewrite H, H' by exact Hk. reflexivity. Qed.

Lemma dot_lin_l r a b v w z :
  dot r (fun k => a * v k + b * w k) z = a * dot r v z + b * dot r w z.
Proof.
  unfold dot. rewrite <- !zsum_scal, <- zsum_add. apply zsum_ext. intros; ring.
Qed.
Lemma dot_lin_r r a b v w z :
  dot r z (fun k => a * v k + b * w k) = a * dot r z v + b * dot r z w.
Proof.
  unfold dot. rewrite <- !zsum_scal, <- zsum_add. apply zsum_ext. intros; ring.
Qed.

Lemma Bil_ext r m v v' w w' : (forall k, (k < r)%nat -> v k = v' k) ->
  (forall k, (k < r)%nat -> w k = w' k) -> Bil r m v w = Bil r m v' w'.
Proof.
  intros H H'. apply zsum_ext. intros k Hk. apply zsum_ext. intros l Hl.
  rewrite H, H' by assumption. reflexivity.
Qed.
Lemma Bil_lin_l r m a b v w z :
  Bil r m (fun k => a * v k + b * w k) z = a * Bil r m v z + b * Bil r m w z.
Proof.
  unfold Bil. rewrite <- !zsum_scal, <- zsum_add. apply zsum_ext. intros k Hk.
  rewrite <- !zsum_scal, <- zsum_add. apply zsum_ext. intros; ring.
Qed.
Lemma Bil_lin_r r m a b v w z :
  Bil r m z (fun k => a * v k + b * w k) = a * Bil r m z v + b * Bil r m z w.
Proof.
  unfold Bil. rewrite <- !zsum_scal, <- zsum_add. apply zsum_ext. intros k Hk.
  rewrite <- !zsum_scal, <- zsum_add. apply zsum_ext. intros; ring.
Qed.

(** A sum only changes by the change of two of its terms. *)
Lemma zsum_one n f x : (x < n)%nat ->
  zsum n f = zsum n (fun k => if (k =? x)%nat then 0 else f k) + f x.
Proof.
  induction n as [|n IH]; [lia|]. intros Hx. cbn [zsum].
  destruct (Nat.eqb_spec n x) as [->|Hne].
  - rewrite (zsum_ext x (fun k => if (k =? x)%nat then 0 else f k) f); [lia|].
    intros k Hk. destruct (Nat.eqb_spec k x); [lia|reflexivity].
  - rewrite IH by lia. lia.
Qed.

Lemma zsum_two n f g x y : x <> y -> (x < n)%nat -> (y < n)%nat ->
  (forall k, k <> x -> k <> y -> f k = g k) -> f x + f y = g x + g y ->
  zsum n f = zsum n g.
Proof.
  intros Hxy Hx Hy Hk Hs.
  rewrite (zsum_one n f x Hx), (zsum_one n g x Hx).
  rewrite (zsum_one n _ y Hy), (zsum_one n (fun k => if (k =? x)%nat then 0 else g k) y Hy).
  destruct (Nat.eqb_spec y x) as [?|_]; [lia|].
  rewrite (zsum_ext n (fun k => if (k =? y)%nat then 0 else if (k =? x)%nat then 0 else f k)
     (fun k => if (k =? y)%nat then 0 else if (k =? x)%nat then 0 else g k)); [lia|].
  intros k _. destruct (Nat.eqb_spec k y); [reflexivity|].
  destruct (Nat.eqb_spec k x); [reflexivity|]. apply Hk; assumption.
Qed.

Record Core (r : nat) (m0 : mat) (s : st) : Prop := {
  co_P : square r (stP s);
  co_M : square r (stM s);
  co_anti : forall i j, get (stM s) i j = - get (stM s) j i;
  co_cong : forall i j, (i < r)%nat -> (j < r)%nat ->
     get (stM s) i j = Bil r m0 (get (stP s) i) (get (stP s) j);
  co_uni : exists Q : nat -> nat -> Z, forall i j, (i < r)%nat -> (j < r)%nat ->
     dot r (get (stP s) i) (fun k => Q k j) = delta i j /\
     dot r (Q i) (fun k => get (stP s) k j) = delta i j
}.

Lemma core_diag r m0 s i : Core r m0 s -> get (stM s) i i = 0.
Proof. intros H. pose proof (co_anti _ _ _ H i i). lia. Qed.

(** Row of P after a step, as a function. *)
Lemma step_row r x y a b c d s s' (H : step_rel r x y a b c d s s') i k :
  get (stP s') i k =
    (if (i =? x)%nat then (fun k => a * get (stP s) x k + b * get (stP s) y k)
     else if (i =? y)%nat then (fun k => c * get (stP s) x k + d * get (stP s) y k)
     else get (stP s) i) k.
Proof. rewrite (sr_P _ _ _ _ _ _ _ _ _ H). unfold rowc. beq; reflexivity. Qed.

Lemma core_step r m0 x y a b c d s s' :
  x <> y -> (x < r)%nat -> (y < r)%nat -> (a * d - b * c = 1 \/ a * d - b * c = -1) ->
  step_rel r x y a b c d s s' -> Core r m0 s -> Core r m0 s'.
Proof.
  intros Hxy Hx Hy Hdet H HC.
  destruct HC as [CP CM CA CC [Q CQ]].
  constructor.
  - apply (sr_sqP _ _ _ _ _ _ _ _ _ H).
  - apply (sr_sqM _ _ _ _ _ _ _ _ _ H).
  - intros i j. rewrite !(sr_M _ _ _ _ _ _ _ _ _ H). unfold colc, rowc.
    assert (Mxx : get (stM s) x x = 0) by (pose proof (CA x x); lia).
    assert (Myy : get (stM s) y y = 0) by (pose proof (CA y y); lia).
    rewrite ?(CA i x), ?(CA j x), ?(CA i y), ?(CA j y), ?(CA y x), ?(CA i j).
    beq; try congruence; rewrite ?Mxx, ?Myy; ring.
  - intros i j Hi Hj.
    rewrite (Bil_ext r m0 _ _ _ _ (fun k _ => step_row r x y a b c d s s' H i k)
                                  (fun k _ => step_row r x y a b c d s s' H j k)).
    rewrite !(sr_M _ _ _ _ _ _ _ _ _ H). unfold colc, rowc.
    beq; try congruence; rewrite ?Bil_lin_l, ?Bil_lin_r, ?Bil_lin_l, ?Bil_lin_r;
    rewrite <- ?CC by assumption; ring.
  - set (e := a * d - b * c).
    assert (He : e * e = 1) by (unfold e; destruct Hdet as [-> | ->]; reflexivity).
    exists (fun i j => if (j =? x)%nat then (e * d) * Q i x + (- (e * c)) * Q i y
               else if (j =? y)%nat then (- (e * b)) * Q i x + (e * a) * Q i y
               else Q i j).
    intros i j Hi Hj.
    destruct (CQ x x Hx Hx) as [Qxx _]. destruct (CQ x y Hx Hy) as [Qxy _].
    destruct (CQ y x Hy Hx) as [Qyx _]. destruct (CQ y y Hy Hy) as [Qyy _].
    destruct (CQ i x Hi Hx) as [Qix _]. destruct (CQ i y Hi Hy) as [Qiy _].
    destruct (CQ x j Hx Hj) as [Qxj _]. destruct (CQ y j Hy Hj) as [Qyj _].
    destruct (CQ i j Hi Hj) as [Qij Qij'].
    split.
    + rewrite (dot_ext r _ _ _ (
         if (j =? x)%nat then (fun i => (e * d) * Q i x + (- (e * c)) * Q i y)
         else if (j =? y)%nat then (fun i => (- (e * b)) * Q i x + (e * a) * Q i y)
         else (fun i => Q i j))
         (fun k _ => step_row r x y a b c d s s' H i k)) by (intros; beq; reflexivity).
      unfold delta in *.
      assert (E1 : e * (a * d - b * c) = 1) by exact He.
      destruct (Nat.eqb_spec i x) as [->|Nix]; [|destruct (Nat.eqb_spec i y) as [->|Niy]];
      (destruct (Nat.eqb_spec j x) as [->|Njx]; [|destruct (Nat.eqb_spec j y) as [->|Njy]]);
      rewrite ?dot_lin_l, ?dot_lin_r, ?dot_lin_l, ?dot_lin_r;
      rewrite ?Qxx, ?Qxy, ?Qyx, ?Qyy, ?Qix, ?Qiy, ?Qxj, ?Qyj, ?Qij;
      beq; try congruence;
      solve [ring | (transitivity (e * (a * d - b * c)); [ring|exact E1])].
    + unfold dot. rewrite <- Qij'. unfold dot.
      apply (zsum_two r _ _ x y Hxy Hx Hy).
      * intros k Hkx Hky. rewrite (step_row _ _ _ _ _ _ _ _ _ H). beq; congruence.
      * rewrite !(step_row _ _ _ _ _ _ _ _ _ H). beq; try congruence; try lia.
        assert (E1 : e * (a * d - b * c) = 1) by exact He.
        replace (Q i x * get (stP s) x j + Q i y * get (stP s) y j)
          with ((e * (a * d - b * c)) * (Q i x * get (stP s) x j + Q i y * get (stP s) y j))
          by (rewrite E1; ring).
        ring.
Qed.
