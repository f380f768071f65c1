(** C06-C08: the polynomial parser.  A text is the list of its character codes;
    in memory it is followed by 0 and by anything. *)
From Coq Require Import String Ascii.
From Verif Require Import Base ModelParse SpecParse ProofParse.

(** string literals, for the examples *)
Definition codes (s : string) : list Z :=
  map (fun a => Z.of_N (N_of_ascii a)) (list_ascii_of_string s).
Arguments codes s%string.

(** C06: a sum of terms in distinct powers, read into a zero polynomial, gives that
    polynomial (and every polynomial has such a text). *)
Theorem C06_round_trip :
  forall l t memory, poly_text l t -> in_range l -> NoDup (map snd l) ->
    exists q, poly_parse (fun _ => 0) (t ++ 0 :: memory) = Done (q, true) /\
      forall k, q k = sum_coeff l k.
Proof. exact parse_sum. Qed.
Print Assumptions C06_round_trip.

Theorem C06_every_polynomial_has_a_text : forall l, in_range l -> exists t, poly_text l t.
Proof. exact text_exists. Qed.
Print Assumptions C06_every_polynomial_has_a_text.

Example C06_nonvacuous :
  poly_text [(3, 5); (-1, 1); (12, 0)] (codes "3*x^5 - x +12") /\
  in_range [(3, 5); (-1, 1); (12, 0)] /\ NoDup (map snd [(3, 5); (-1, 1); (12, 0)]).
Proof.
  split; [|split].
  - assert (D : forall s v, codes s <> [] -> forallb (fun c => (48 <=? c) && (c <=? 57)) (codes s) = true ->
        dec_value (codes s) = v -> decimal (codes s) v).
    { intros s v H1 H2 H3. split; [exact H1|]. split; [|exact H3].
      rewrite forallb_forall in H2. intros c Hc. specialize (H2 c Hc). lia. }
    apply (poly_first [] 3 5 [(-1, 1); (12, 0)] (codes "3*x^5") (codes " - x +12")).
    + intros ? [].
    + apply (body_cxe 3 5 (codes "3") (codes "*") (codes "5")); [apply D; [discriminate|reflexivity..]| |apply D; [discriminate|reflexivity..]].
      intros c [<-|[]]. right. reflexivity.
    + apply (terms_cons (-1) 1 1 [(12, 0)] (codes " - ") (codes "x") (codes " +12")).
      * apply (sign_minus [32] [32]); intros c [<-|[]]; reflexivity.
      * apply body_x.
      * apply (terms_cons 1 12 0 [] (codes " +") (codes "12") []).
        -- apply (sign_plus [32] []); [intros c [<-|[]]; reflexivity|intros ? []].
        -- apply body_const, D; [discriminate|reflexivity..].
        -- constructor.
  - intros c e [E|[E|[E|[]]]]; injection E as <- <-; lia.
  - cbn. repeat constructor; cbn; lia.
Qed.

(** C07: in general each power gets the coefficient of its last term, and keeps its
    old coefficient when it does not occur. *)
Theorem C07_last_term_wins_partial :
  forall l t memory p, poly_text l t -> in_range l ->
    exists q, poly_parse p (t ++ 0 :: memory) = Done (q, true) /\
      forall k, q k = last_coeff l k (p k).
Proof. exact parse_poly_text. Qed.
Print Assumptions C07_last_term_wins_partial.

(** so that accepted texts do not denote the sum of their terms: *)
Definition accepted (t : list Z) (k v : Z) : Prop :=
  exists q, poly_parse (fun _ => 0) (t ++ [0]) = Done (q, true) /\ q k = v.
Theorem C07_sum_refuted :
  (* repeated monomial: x + x is read as x *)
  (poly_text [(1, 1); (1, 1)] (codes "x+x") /\ accepted (codes "x+x") 1 1) /\
  (* double sign: 1--x is read as 1-x *)
  accepted (codes "1--x") 1 (-1) /\
  (* missing operator: x2 is read as x+2 *)
  (accepted (codes "x2") 1 1 /\ accepted (codes "x2") 0 2) /\
  (* a large coefficient is silently replaced by 2^63-1 *)
  accepted (codes "9223372036854775808*x") 1 9223372036854775807 /\
  (* the target polynomial is not reset *)
  (forall p, exists q, poly_parse p (codes "x" ++ [0]) = Done (q, true) /\
     forall k, k <> 1 -> q k = p k).
Proof.
  split; [|split; [|split; [|split]]].
  - split.
    + apply (poly_first [] 1 1 [(1, 1)] (codes "x") (codes "+x")); [intros ? []|apply body_x|].
      apply (terms_cons 1 1 1 [] (codes "+") (codes "x") []); [|apply body_x|constructor].
      apply (sign_plus [] []); intros ? [].
    + eexists. split; reflexivity.
  - eexists. split; reflexivity.
  - split; eexists; split; reflexivity.
  - eexists. split; [vm_compute; reflexivity|reflexivity].
  - intros p. eexists. split; [reflexivity|]. intros k Hk.
    cbv beta. apply Z.eqb_neq in Hk. rewrite Hk. reflexivity.
Qed.
Print Assumptions C07_sum_refuted.

(** Blanks are accepted between terms but not at the end. *)
Theorem C06_trailing_blank_refuted :
  exists q, poly_parse (fun _ => 0) (codes "1 + x " ++ [0]) = Done (q, false).
Proof. eexists. reflexivity. Qed.
Print Assumptions C06_trailing_blank_refuted.

(** C08: for every text the parser terminates and never reads past the terminator,
    whatever follows it: it either returns or fails when writing a coefficient. *)
Theorem C08_terminates_and_reads_in_bounds :
  forall p t memory,
    let r := poly_parse p (t ++ 0 :: memory) in
    (exists q b, r = Done (q, b)) \/ r = Fault BadIndex \/ r = Fault SignedOverflow.
Proof.
  intros p t memory r. pose proof (parse_safe p t memory) as H. fold r in H.
  destruct H; eauto.
Qed.
Print Assumptions C08_terminates_and_reads_in_bounds.

Theorem C08_memory_safe_partial :
  forall p t, small_numbers t -> no_negative_exponent t ->
    exists q b, poly_parse p (t ++ [0]) = Done (q, b).
Proof. exact parse_no_ub. Qed.
Print Assumptions C08_memory_safe_partial.

Example C08_nonvacuous : small_numbers (codes "7*x^3 -2") /\ no_negative_exponent (codes "7*x^3 -2").
Proof.
  split.
  - apply short_small. vm_compute. lia.
  - intros pre ws post E Hw. vm_compute in E.
    repeat (destruct pre as [|? pre]; [
      cbn in E; try discriminate E; injection E as E;
      destruct ws as [|w ws]; cbn in E; try discriminate E; injection E as <- E;
      specialize (Hw _ (or_introl eq_refl)); lia
      | cbn in E; try discriminate E; injection E as _ E]).
Qed.

(** Negative or overflowing exponents and the negated least integer are undefined
    behaviour. *)
Theorem C08_memory_safety_refuted :
  (forall p, poly_parse p (codes "x^-2" ++ [0]) = Fault BadIndex) /\
  (forall p, poly_parse p (codes "x^9223372036854775807" ++ [0]) = Fault SignedOverflow) /\
  (forall p, poly_parse p (codes "-" ++ [9] ++ codes "-9223372036854775808" ++ [0]) = Fault SignedOverflow).
Proof. split; [|split]; intros p; vm_compute; reflexivity. Qed.
Print Assumptions C08_memory_safety_refuted.
