(** Proofs for C79: the printed texts read back. *)
From Coq Require Import Reals Bool List ZArith Ascii String Lia Lra.
From Verif Require Import ModelOut SpecOut.
Import ListNotations.
Local Open Scope Z_scope.

(** characters that cannot continue a number *)
Definition stops (l : text) : Prop :=
  match l with [] => True | c :: _ => is_digit c = false /\ Ascii.eqb c "." = false /\ Ascii.eqb c "e" = false end.

Lemma span_all f a r : (forall c, In c a -> f c = true) ->
  match r with [] => True | c :: _ => f c = false end -> span f (a ++ r) = (a, r).
Proof.
  induction a as [|c a IH]; cbn; intros Ha Hr.
  - destruct r as [|c r]; [reflexivity|]. cbn. rewrite Hr. reflexivity.
  - rewrite (Ha c (or_introl eq_refl)). rewrite IH; [reflexivity| |exact Hr]. intros d Hd. apply Ha. right; exact Hd.
Qed.

Lemma span_len f l : (List.length (snd (span f l)) <= List.length l)%nat.
Proof. induction l as [|c l IH]; cbn; [lia|]. destruct (f c); [|cbn; lia]. destruct (span f l); cbn in *; lia. Qed.

Lemma scan_frac_len l : (List.length (snd (scan_frac l)) <= List.length l)%nat.
Proof.
  destruct l as [|c l]; cbn; [lia|]. destruct (Ascii.eqb c "."); [|cbn; lia].
  pose proof (span_len is_digit l). lia.
Qed.

Lemma scan_exp_len l : (List.length (snd (scan_exp l)) <= List.length l)%nat.
Proof.
  destruct l as [|c l]; cbn; [lia|]. destruct (Ascii.eqb c "e"); [|cbn; lia].
  destruct l as [|s l]; [cbn; lia|].
  pose proof (span_len is_digit l). pose proof (span_len is_digit (s :: l)).
  destruct (Ascii.eqb s "-"); [destruct (span is_digit l); cbn in *; lia|].
  destruct (Ascii.eqb s "+"); [destruct (span is_digit l); cbn in *; lia|].
  destruct (span is_digit (s :: l)); cbn in *; lia.
Qed.

Lemma scan_number_len c t : is_digit c = true -> (List.length (snd (scan_number (c :: t))) <= List.length t)%nat.
Proof.
  intros Hc. unfold scan_number. cbn [span]. rewrite Hc.
  pose proof (span_len is_digit t) as H1. destruct (span is_digit t) as [a b]. cbn in H1.
  pose proof (scan_frac_len b) as H2. destruct (scan_frac b) as [fp l2]. cbn in H2.
  pose proof (scan_exp_len l2) as H3. destruct (scan_exp l2) as [ex l3]. cbn in H3 |- *. lia.
Qed.

Lemma lex_fuel n : forall n' l, (List.length l < n)%nat -> (List.length l < n')%nat -> lex_aux n l = lex_aux n' l.
Proof.
  induction n as [|n IH]; intros n' l H H'; [lia|].
  destruct n' as [|n']; [lia|]. destruct l as [|c t]; [reflexivity|]. cbn [List.length] in H, H'.
  cbn [lex_aux]. destruct (is_blank c); [apply IH; lia|].
  destruct (is_digit c) eqn:Hd.
  { pose proof (scan_number_len c t Hd) as L. destruct (scan_number (c :: t)) as [v r]. cbn in L. f_equal. apply IH; lia. }
  destruct (is_letter c) eqn:Hl; [|f_equal; apply IH; lia].
  cbn [span]. unfold is_word at 1 3. rewrite Hd, Hl. cbn [orb].
  pose proof (span_len is_word t) as L. destruct (span is_word t) as [w r]. cbn in L. f_equal. apply IH; lia.
Qed.

Lemma lex_step n c t : lex_aux (S n) (c :: t) =
  if is_blank c then lex_aux n t
  else if is_digit c then let (v, r) := scan_number (c :: t) in TNum v :: lex_aux n r
  else if is_letter c then let (w, r) := span is_word (c :: t) in TWord w :: lex_aux n r
  else TSym c :: lex_aux n t.
Proof. reflexivity. Qed.

Lemma lex_blank c t : is_blank c = true -> lex (c :: t) = lex t.
Proof. intros H. unfold lex. cbn [List.length]. rewrite lex_step, H. reflexivity. Qed.

Lemma lex_sym c t : is_blank c = false -> is_digit c = false -> is_letter c = false -> lex (c :: t) = TSym c :: lex t.
Proof. intros H1 H2 H3. unfold lex. cbn [List.length]. rewrite lex_step, H1, H2, H3. reflexivity. Qed.

Lemma digit_not_blank c : is_digit c = true -> is_blank c = false.
Proof.
  intros H. destruct (is_blank c) eqn:E; [|reflexivity]. exfalso. unfold is_blank in E.
  apply orb_true_iff in E as [E|E]; apply Ascii.eqb_eq in E; subst; discriminate.
Qed.

Lemma digit_not_e c : is_digit c = true -> Ascii.eqb c "e" = false /\ Ascii.eqb c "." = false /\ Ascii.eqb c "+" = false /\ Ascii.eqb c "-" = false.
Proof.
  intros H. repeat split; (destruct (Ascii.eqb c _) eqn:E; [|reflexivity]);
    apply Ascii.eqb_eq in E; subst; discriminate.
Qed.

Definition lit_abs (q : literal) : R :=
  number (l_int q) (match l_frac q with Some f => f | None => [] end)
    (match l_exp q with Some (EMinus, e) => - dval e | Some (_, e) => dval e | None => 0 end).

Definition exp_text (e : option (exp_sign * text)) : text :=
  match e with
  | Some (ENone, e) => "e"%char :: e
  | Some (EPlus, e) => "e"%char :: "+"%char :: e
  | Some (EMinus, e) => "e"%char :: "-"%char :: e
  | None => []
  end.

Lemma stops_digit r : stops r -> match r with [] => True | c :: _ => is_digit c = false end.
Proof. destruct r; cbn; tauto. Qed.

Lemma scan_exp_text e r : match e with Some (_, e) => digits e | None => True end -> stops r ->
  scan_exp (exp_text e ++ r) = (match e with Some (EMinus, e) => - dval e | Some (_, e) => dval e | None => 0 end, r).
Proof.
  intros He Hr. destruct e as [[[| |] e]|]; cbn [exp_text].
  - destruct He as [Hne Hd]. destruct e as [|d e]; [congruence|].
    destruct (digit_not_e d (Hd d (or_introl eq_refl))) as (_ & _ & E3 & E4).
    cbn [app scan_exp]. change (Ascii.eqb "e" "e") with true. cbv iota. rewrite E4, E3.
    change (d :: e ++ r) with ((d :: e) ++ r). rewrite span_all; [reflexivity|exact Hd|apply stops_digit, Hr].
  - cbn [app scan_exp]. change (Ascii.eqb "e" "e") with true. change (Ascii.eqb "+" "-") with false.
    change (Ascii.eqb "+" "+") with true. cbv iota. rewrite span_all; [reflexivity|apply He|apply stops_digit, Hr].
  - cbn [app scan_exp]. change (Ascii.eqb "e" "e") with true.
    change (Ascii.eqb "-" "-") with true. cbv iota. rewrite span_all; [reflexivity|apply He|apply stops_digit, Hr].
  - cbn [app]. destruct r as [|c r]; [reflexivity|]. cbn. destruct Hr as (_ & _ & H). rewrite H. reflexivity.
Qed.

Lemma exp_text_nodigit e r : stops r -> match exp_text e ++ r with [] => True | c :: _ => is_digit c = false /\ Ascii.eqb c "." = false end.
Proof.
  intros Hr. destruct e as [[[| |] e]|]; cbn; try (split; reflexivity).
  destruct r as [|c r]; [exact I|]. cbn in Hr. tauto.
Qed.

(** the unsigned part of a literal is one token *)
Lemma scan_literal q r : good_literal q -> stops r ->
  scan_number (l_int q ++ match l_frac q with Some f => "."%char :: f | None => [] end ++ exp_text (l_exp q) ++ r) = (lit_abs q, r).
Proof.
  intros (Hi & Hf & He) Hr. unfold scan_number, lit_abs.
  pose proof (exp_text_nodigit (l_exp q) r Hr) as Hx.
  rewrite span_all; [|apply Hi|].
  2:{ destruct (l_frac q); cbn; [reflexivity|]. destruct (exp_text (l_exp q) ++ r); [exact I|apply Hx]. }
  destruct (l_frac q) as [f|].
  - cbn [app scan_frac]. change (Ascii.eqb "." ".") with true. cbv iota.
    rewrite span_all; [|apply Hf|destruct (exp_text (l_exp q) ++ r); [exact I|apply Hx]].
    rewrite scan_exp_text by assumption. reflexivity.
  - cbn [app].
    assert (E : scan_frac (exp_text (l_exp q) ++ r) = ([], exp_text (l_exp q) ++ r)).
    { destruct (exp_text (l_exp q) ++ r) as [|c t]; [reflexivity|]. cbn. rewrite (proj2 Hx). reflexivity. }
    rewrite E, scan_exp_text by assumption. reflexivity.
Qed.

Lemma lex_number l v r c t : l = c :: t -> is_digit c = true -> scan_number l = (v, r) -> lex l = TNum v :: lex r.
Proof.
  intros -> Hd Hs. unfold lex at 1. cbn [List.length]. rewrite lex_step, (digit_not_blank _ Hd), Hd, Hs. f_equal.
  pose proof (scan_number_len c t Hd) as L. rewrite Hs in L. cbn in L. apply lex_fuel; lia.
Qed.

Lemma lit_text_eq q : lit_text q = (if l_neg q then ["-"%char] else []) ++
  l_int q ++ match l_frac q with Some f => "."%char :: f | None => [] end ++ exp_text (l_exp q).
Proof. reflexivity. Qed.

Definition lit_tokens (q : literal) : list token := (if l_neg q then [TSym "-"] else []) ++ [TNum (lit_abs q)].

Lemma lex_literal q r : good_literal q -> stops r -> lex (lit_text q ++ r) = lit_tokens q ++ lex r.
Proof.
  intros Hq Hr. rewrite lit_text_eq. pose proof (scan_literal q r Hq Hr) as Hs.
  assert (E : lex (l_int q ++ match l_frac q with Some f => "."%char :: f | None => [] end ++ exp_text (l_exp q) ++ r)
              = TNum (lit_abs q) :: lex r).
  { destruct Hq as ((Hne & Hd) & _). destruct (l_int q) as [|c t] eqn:Eq; [congruence|].
    eapply lex_number; [reflexivity|apply Hd; left; reflexivity|exact Hs]. }
  unfold lit_tokens. rewrite <- !app_assoc. destruct (l_neg q); cbn [app].
  - rewrite lex_sym by reflexivity. rewrite E. reflexivity.
  - exact E.
Qed.

Lemma lex_I r : match r with [] => True | c :: _ => is_word c = false end -> lex ("I"%char :: r) = TWord ["I"%char] :: lex r.
Proof.
  intros Hr. unfold lex at 1. cbn [List.length]. rewrite lex_step.
  change (is_blank "I") with false. change (is_digit "I") with false. change (is_letter "I") with true. cbv iota.
  change ("I"%char :: r) with (["I"%char] ++ r). rewrite span_all.
  - f_equal. 
  - intros c [<-|[]]. reflexivity.
  - exact Hr.
Qed.

(** what the parser does on the tokens of an entry *)
Definition ends (ts : list token) : Prop :=
  exists c r, ts = TSym c :: r /\ (c = ","%char \/ c = ";"%char \/ c = "]"%char).

Lemma ends_prods n v ts : ends ts -> (1 <= n)%nat -> p_prods n v ts = Some (v, ts).
Proof. intros (c & r & -> & [->|[->| ->]]) H; destruct n; try lia; reflexivity. Qed.
Lemma ends_sums n v ts : ends ts -> (1 <= n)%nat -> p_sums n v ts = Some (v, ts).
Proof. intros (c & r & -> & [->|[->| ->]]) H; destruct n; try lia; reflexivity. Qed.

Lemma term_num n v ts : (2 <= n)%nat -> p_term n (TNum v :: ts) = p_prods (n - 1) (GNum v 0) ts.
Proof. intros H. destruct n as [|[|n]]; try lia. reflexivity. Qed.

(** a real literal *)
Lemma expr_real n q ts : ends ts -> (3 <= n)%nat -> p_expr n (lit_tokens q ++ ts) = Some (GNum (lit_value q) 0, ts).
Proof.
  intros He Hn. destruct n as [|n]; [lia|]. unfold lit_tokens.
  assert (V : lit_value q = if l_neg q then (- lit_abs q)%R else lit_abs q) by reflexivity.
  destruct (l_neg q); cbn [app p_expr].
  - change (Ascii.eqb "-" "-") with true. cbv iota. rewrite term_num by lia. rewrite ends_prods by (auto; lia).
    cbn [obind fst snd gneg]. rewrite ends_sums by (auto; lia). rewrite V, Ropp_0. reflexivity.
  - rewrite term_num by lia. rewrite ends_prods by (auto; lia). cbn [obind fst snd].
    rewrite ends_sums by (auto; lia). rewrite V. reflexivity.
Qed.

Definition star_I : list token := [TSym "*"; TWord ["I"%char]].

Lemma prods_I n v ts : ends ts -> (3 <= n)%nat -> p_prods n (GNum v 0) (star_I ++ ts) = Some (GNum 0 v, ts).
Proof.
  intros He Hn. destruct n as [|[|n]]; try lia.
  assert (E : p_prods (S (S n)) (GNum v 0) (star_I ++ ts) = p_prods (S n) (GNum (v * 0 - 0 * 1) (v * 1 + 0 * 0)) ts) by reflexivity.
  rewrite E, ends_prods by (auto; lia). do 3 f_equal; ring.
Qed.

Lemma sums_I n v ts : ends ts -> (1 <= n)%nat -> p_sums n v ts = Some (v, ts).
Proof. apply ends_sums. Qed.

(** literal * I *)
Lemma expr_imag n q ts : ends ts -> (5 <= n)%nat ->
  p_expr n (lit_tokens q ++ star_I ++ ts) = Some (GNum 0 (lit_value q), ts).
Proof.
  intros He Hn. destruct n as [|n]; [lia|]. unfold lit_tokens.
  assert (V : lit_value q = if l_neg q then (- lit_abs q)%R else lit_abs q) by reflexivity.
  destruct (l_neg q); cbn [app p_expr].
  - change (Ascii.eqb "-" "-") with true. cbv iota. rewrite term_num by lia. rewrite prods_I by (auto; lia).
    cbn [obind fst snd gneg]. rewrite ends_sums by (auto; lia). rewrite V, Ropp_0. reflexivity.
  - rewrite term_num by lia. rewrite prods_I by (auto; lia). cbn [obind fst snd].
    rewrite ends_sums by (auto; lia). rewrite V. reflexivity.
Qed.

(** signed sum of a real and an imaginary literal; the sign of the second is that of the literal,
    or a plus sign before a literal without sign *)
Definition signed_tokens (q : literal) : list token :=
  (if l_neg q then [TSym "-"] else [TSym "+"]) ++ [TNum (lit_abs q)].

Lemma sums_signed n x q ts : ends ts -> (5 <= n)%nat ->
  p_sums n (GNum x 0) (signed_tokens q ++ star_I ++ ts) = Some (GNum x (lit_value q), ts).
Proof.
  intros He Hn. destruct n as [|n]; [lia|]. unfold signed_tokens.
  assert (V : lit_value q = if l_neg q then (- lit_abs q)%R else lit_abs q) by reflexivity.
  destruct (l_neg q); cbn [app p_sums].
  - change (Ascii.eqb "-" "-") with true. cbv iota. rewrite term_num by lia. rewrite prods_I by (auto; lia).
    cbn [obind fst snd gneg gadd]. rewrite ends_sums by (auto; lia). rewrite V. do 3 f_equal; ring.
  - change (Ascii.eqb "+" "-") with false. change (Ascii.eqb "+" "+") with true. cbv iota.
    rewrite term_num by lia. rewrite prods_I by (auto; lia).
    cbn [obind fst snd gadd]. rewrite ends_sums by (auto; lia). rewrite V. do 3 f_equal; ring.
Qed.

Lemma prods_signed n v q ts : (1 <= n)%nat -> p_prods n v (signed_tokens q ++ ts) = Some (v, signed_tokens q ++ ts).
Proof. intros H. destruct n; [lia|]. unfold signed_tokens. destruct (l_neg q); reflexivity. Qed.

Lemma expr_both n p q ts : ends ts -> (7 <= n)%nat ->
  p_expr n (lit_tokens p ++ signed_tokens q ++ star_I ++ ts) = Some (GNum (lit_value p) (lit_value q), ts).
Proof.
  intros He Hn. destruct n as [|n]; [lia|]. unfold lit_tokens.
  assert (V : lit_value p = if l_neg p then (- lit_abs p)%R else lit_abs p) by reflexivity.
  destruct (l_neg p); cbn [app p_expr].
  - change (Ascii.eqb "-" "-") with true. cbv iota. rewrite term_num by lia. rewrite prods_signed by lia.
    cbn [obind fst snd gneg]. rewrite Ropp_0, sums_signed by (auto; lia). rewrite V. reflexivity.
  - rewrite term_num by lia. rewrite prods_signed by lia. cbn [obind fst snd].
    rewrite sums_signed by (auto; lia). rewrite V. reflexivity.
Qed.
