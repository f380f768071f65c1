From Verif Require Import Base ModelParse SpecParse.

Definition is_sign_char c := (c =? c_space) || (c =? c_plus) || (c =? c_minus).

(** [stops l]: l does not start with a digit *)
Definition nodigit (l : text) : Prop := match l with [] => False | c :: _ => is_digit c = false end.

Lemma digits_app ds : forall l acc some, (forall c, In c ds -> 48 <= c <= 57) -> nodigit l ->
  digits (ds ++ l) acc some =
  Done (fold_left (fun v c => 10 * v + (c - 48)) ds acc, match ds with [] => some | _ => true end, l).
Proof.
  induction ds as [|c ds IH]; intros l acc some Hd Hl; cbn [app digits fold_left].
  - destruct l as [|c l]; [contradiction|]. cbn in Hl. cbn [digits]. rewrite Hl. reflexivity.
  - assert (Hc : is_digit c = true).
    { specialize (Hd c (or_introl eq_refl)). unfold is_digit. lia. }
    rewrite Hc. rewrite IH; [|intros; apply Hd; right; assumption|exact Hl].
    destruct ds; reflexivity.
Qed.

Lemma dec_value_ge ds : (forall c, In c ds -> 48 <= c <= 57) -> forall acc, 0 <= acc ->
  0 <= fold_left (fun v c => 10 * v + (c - 48)) ds acc.
Proof.
  induction ds as [|c ds IH]; intros H acc Ha; cbn [fold_left]; [exact Ha|].
  apply IH; [intros; apply H; right; assumption|].
  specialize (H c (or_introl eq_refl)). lia.
Qed.

Lemma decimal_ge ds v : decimal ds v -> 0 <= v.
Proof. intros (_ & Hd & <-). apply dec_value_ge; [exact Hd|lia]. Qed.

Lemma same_ptr_app (a b : text) : a <> [] -> same_ptr (a ++ b) b = false.
Proof.
  intros H. unfold same_ptr. rewrite app_length. destruct a; [congruence|]. cbn [length].
  apply Nat.eqb_neq. lia.
Qed.

Lemma strtol_dec ds v l : decimal ds v -> v <= slong_max -> nodigit l ->
  strtol (ds ++ l) = Done (v, l).
Proof.
  intros Hdec Hv Hl. pose proof (decimal_ge _ _ Hdec) as Hge.
  destruct Hdec as (Hne & Hd & Hval).
  destruct ds as [|c ds]; [congruence|].
  pose proof (Hd c (or_introl eq_refl)) as Hc.
  unfold strtol. cbn [app skip_space].
  assert (E1 : is_space c = false) by (unfold is_space; lia). rewrite E1. cbn [bind].
  assert (E2 : (c =? c_minus) = false) by (unfold c_minus; lia).
  assert (E3 : (c =? c_plus) = false) by (unfold c_plus; lia).
  rewrite E2, E3. cbn [orb].
  change (c :: ds ++ l) with ((c :: ds) ++ l). rewrite digits_app by assumption.
  cbn [bind]. unfold dec_value in Hval. rewrite Hval. f_equal. f_equal. unfold clamp, slong_min, slong_max in *. lia.
Qed.

(** text which is not a number for strtol: first character x, '*', NUL, ... *)
Lemma strtol_x l : strtol (c_x :: l) = Done (0, c_x :: l).
Proof. reflexivity. Qed.

Lemma skip_signs_run ts : forall s0 l, (forall c, In c ts -> is_sign_char c = true) ->
  match l with [] => False | c :: _ => is_sign_char c = false end ->
  skip_signs (ts ++ l) s0 = Done (if existsb (fun c => c =? c_minus) ts then -1 else s0, l).
Proof.
  induction ts as [|c ts IH]; intros s0 l Hs Hl; cbn [app skip_signs existsb].
  - destruct l as [|c l]; [contradiction|]. cbn [skip_signs]. unfold is_sign_char in Hl. rewrite Hl. reflexivity.
  - pose proof (Hs c (or_introl eq_refl)) as Hc. unfold is_sign_char in Hc. rewrite Hc.
    rewrite IH; [|intros; apply Hs; right; assumption|exact Hl].
    destruct (existsb (fun c0 => c0 =? c_minus) ts); [rewrite orb_true_r; reflexivity|].
    rewrite orb_false_r. reflexivity.
Qed.

Lemma skip_stars_run sep : forall l, product_sign sep ->
  match l with [] => False | c :: _ => c <> 32 /\ c <> 42 end -> skip_stars (sep ++ l) = Done l.
Proof.
  induction sep as [|c sep IH]; intros l Hs Hl; cbn [app skip_stars].
  - destruct l as [|c l]; [contradiction|]. cbn [skip_stars].
    assert (E : (c =? c_space) || (c =? c_star) = false) by (unfold c_space, c_star; lia).
    rewrite E. reflexivity.
  - assert (E : (c =? c_space) || (c =? c_star) = true).
    { destruct (Hs c (or_introl eq_refl)); unfold c_space, c_star; lia. }
    rewrite E. apply IH; [intros x Hx; apply Hs; right; exact Hx|exact Hl].
Qed.

Lemma set_coeff_ok p e c : 0 <= e < slong_max ->
  set_coeff p e c = Done (fun k => if k =? e then c else p k).
Proof.
  intros He. unfold set_coeff. destruct (Z.ltb_spec e 0); [lia|]. destruct (Z.leb_spec slong_max e); [lia|]. reflexivity.
Qed.

(** What may follow a term: the terminator or a sign. *)
Definition follow (l : text) : Prop :=
  match l with [] => False | c :: _ => c = 0 \/ c = 32 \/ c = 43 \/ c = 45 end.

Lemma follow_nodigit l : follow l -> nodigit l.
Proof. destruct l as [|c l]; cbn; [auto|]. unfold is_digit. lia. Qed.

(** removing the blanks in front *)
Fixpoint strip (l : text) : text :=
  match l with c :: t => if c =? 32 then strip t else l | [] => [] end.

Definition signs_only (ts : text) (s : Z) : Prop :=
  (forall c, In c ts -> is_sign_char c = true) /\
  (if existsb (fun c => c =? c_minus) ts then -1 else 1) = s.

(** the part of [accept_term] after the signs *)
Definition after_signs (p : poly) (s : Z) (l : text) : outcome (poly * text * bool) :=
  do r <- strtol l;
  let '(c, rest) := r in
  do c0 <- peek l;
  if same_ptr l rest && negb (c0 =? c_x) then Done (p, l, false)
  else
    let c := if same_ptr l rest then 1 else c in
    do c <- smul c s;
    do l <- skip_stars rest;
    do r <- exponent l;
    let '(e, l) := r in
    do p <- set_coeff p e c;
    Done (p, l, true).

(** parsing one term *)
Lemma accept_body p s c e ts tb l : signs_only ts s -> body c e tb -> (s = 1 \/ s = -1) ->
  c <= slong_max -> 0 <= e < slong_max -> follow l -> follow (strip l) ->
  exists l', (l' = l \/ l' = strip l) /\
    accept_term p (ts ++ tb ++ l) = Done (fun k => if k =? e then s * c else p k, l', true).
Proof.
  intros [Hts Hs] Hb Hs1 Hc He Hf Hf'.
  assert (Hstart : match tb ++ l with [] => False | c :: _ => is_sign_char c = false end).
  { assert (D : forall ds v r, decimal ds v -> match ds ++ r with [] => False | c :: _ => is_sign_char c = false end).
    { intros ds v r (Hne & Hd & _). destruct ds as [|d ds]; [congruence|]. cbn.
      specialize (Hd d (or_introl eq_refl)). unfold is_sign_char, c_space, c_plus, c_minus. lia. }
    destruct Hb; try reflexivity; rewrite <- ?app_assoc; eapply D; eassumption. }
  unfold accept_term. rewrite skip_signs_run by assumption. rewrite Hs. change (exists l', (l' = l \/ l' = strip l) /\
    after_signs p s (tb ++ l) = Done (fun k => if k =? e then s * c else p k, l', true)).
  assert (Hmul : forall v, 0 <= v <= slong_max -> smul v s = Done (s * v)).
  { intros v Hv. unfold smul, is_slong, slong_min, slong_max in *.
    destruct Hs1 as [E|E]; rewrite E in *; rewrite (Z.mul_comm v);
    match goal with |- (if ?b then _ else _) = _ => assert (Hbt : b = true) by lia; rewrite Hbt; reflexivity end. }
  (* starting with a decimal coefficient *)
  assert (Hdec : forall ds v r, decimal ds v -> v <= slong_max -> nodigit r ->
    after_signs p s (ds ++ r) =
    (do l0 <- skip_stars r; do r1 <- exponent l0;
       let '(e0, l1) := r1 in do p0 <- set_coeff p e0 (s * v); Done (p0, l1, true))).
  { intros ds v r Hd Hv Hr. unfold after_signs. rewrite (strtol_dec ds v r Hd Hv Hr). cbn [bind].
    assert (Hpk : exists c0, peek (ds ++ r) = Done c0).
    { destruct Hd as (Hne & _). destruct ds as [|d ds]; [congruence|]. exists d. reflexivity. }
    destruct Hpk as [c0 Hpk]. rewrite Hpk. cbn [bind].
    rewrite same_ptr_app by apply Hd. cbn [andb].
    pose proof (decimal_ge _ _ Hd). rewrite Hmul by lia. reflexivity. }
  (* starting with x *)
  assert (Hx : forall r, after_signs p s (c_x :: r) =
    (do r1 <- exponent (c_x :: r);
       let '(e0, l1) := r1 in do p0 <- set_coeff p e0 (s * 1); Done (p0, l1, true))).
  { intros r. unfold after_signs. rewrite strtol_x. cbn [bind peek]. rewrite Z.eqb_refl. cbn [negb]. rewrite andb_false_r.
    assert (E : same_ptr (c_x :: r) (c_x :: r) = true) by (unfold same_ptr; apply Nat.eqb_refl).
    rewrite E. rewrite Hmul by (unfold slong_max; lia). reflexivity. }
  assert (Hexpx : forall l0, follow l0 -> exponent (c_x :: l0) = Done (1, l0)).
  { intros l0 Hl0. destruct l0 as [|c1 l0]; [contradiction|]. cbn [exponent]. rewrite Z.eqb_refl. cbn [peek bind].
    assert (E : (c1 =? c_hat) = false) by (cbn in Hl0; unfold c_hat; lia). rewrite E. reflexivity. }
  assert (Hexpe : forall es v, decimal es v -> v <= slong_max -> exponent (c_x :: c_hat :: es ++ l) = Done (v, l)).
  { intros es v Hd Hv. cbn [exponent]. rewrite Z.eqb_refl. cbn [peek bind]. rewrite Z.eqb_refl. cbn [tl].
    rewrite (strtol_dec es v l Hd Hv (follow_nodigit l Hf)). cbn [bind]. rewrite same_ptr_app by apply Hd. reflexivity. }
  destruct Hb as [c ds Hd| |c ds sep Hd Hsep|e es Hes|c e ds sep es Hd Hsep Hes].
  - exists (strip l). split; [right; reflexivity|].
    rewrite (Hdec ds c l Hd Hc (follow_nodigit l Hf)).
    assert (E : skip_stars l = Done (strip l)).
    { clear -Hf Hf'. induction l as [|c l IH]; [contradiction|]. cbn [skip_stars strip] in *.
      destruct (Z.eqb_spec c 32) as [->|Hne].
      - change ((32 =? c_space) || (32 =? c_star)) with true. cbv iota. 
        apply IH; [|exact Hf']. clear IH Hf. destruct l as [|c l]; [contradiction|]. cbn [strip] in Hf'. cbn.
        destruct (Z.eqb_spec c 32); [lia|exact Hf'].
      - assert (E : (c =? c_space) || (c =? c_star) = false) by (cbn in Hf; unfold c_space, c_star; lia).
        rewrite E. reflexivity. }
    rewrite E. cbn [bind].
    assert (E2 : exponent (strip l) = Done (0, strip l)).
    { destruct (strip l) as [|c1 l1]; [contradiction|]. cbn [exponent].
      assert (Ex : (c1 =? c_x) = false) by (cbn in Hf'; unfold c_x; lia). rewrite Ex. reflexivity. }
    rewrite E2. cbn [bind]. rewrite set_coeff_ok by exact He. reflexivity.
  - exists l. split; [left; reflexivity|]. cbn [app]. change 120 with c_x. rewrite Hx.
    rewrite Hexpx by exact Hf. cbn [bind]. rewrite set_coeff_ok by exact He. reflexivity.
  - exists l. split; [left; reflexivity|]. rewrite <- !app_assoc. cbn [app].
    rewrite (Hdec ds c (sep ++ 120 :: l) Hd Hc).
    2:{ destruct sep as [|q sep]; [reflexivity|]. cbn. specialize (Hsep q (or_introl eq_refl)). unfold is_digit. lia. }
    rewrite skip_stars_run; [|exact Hsep|lia]. cbn [bind]. change 120 with c_x.
    rewrite Hexpx by exact Hf. cbn [bind]. rewrite set_coeff_ok by exact He. reflexivity.
  - exists l. split; [left; reflexivity|]. cbn [app]. change 120 with c_x. change 94 with c_hat. rewrite Hx.
    rewrite (Hexpe es e Hes) by (unfold slong_max in *; lia). cbn [bind]. rewrite set_coeff_ok by exact He. reflexivity.
  - exists l. split; [left; reflexivity|]. rewrite <- !app_assoc. cbn [app].
    rewrite (Hdec ds c (sep ++ 120 :: 94 :: es ++ l) Hd Hc).
    2:{ destruct sep as [|q sep]; [reflexivity|]. cbn. specialize (Hsep q (or_introl eq_refl)). unfold is_digit. lia. }
    rewrite skip_stars_run; [|exact Hsep|lia]. cbn [bind]. change 120 with c_x. change 94 with c_hat.
    rewrite (Hexpe es e Hes) by (unfold slong_max in *; lia). cbn [bind]. rewrite set_coeff_ok by exact He. reflexivity.
Qed.

Lemma existsb_blank b : blank b -> existsb (fun c => c =? c_minus) b = false.
Proof.
  intros H. induction b as [|c b IH]; [reflexivity|]. cbn [existsb].
  rewrite (H c (or_introl eq_refl)). rewrite IH; [reflexivity|]. intros x Hx. apply H. right. exact Hx.
Qed.

Lemma sign_signs s ts : sign s ts -> signs_only ts s /\ (s = 1 \/ s = -1).
Proof.
  intros H. destruct H as [b1 b2 H1 H2|b1 b2 H1 H2].
  - split; [|left; reflexivity]. split.
    + intros c Hc. rewrite !in_app_iff in Hc. unfold is_sign_char.
      destruct Hc as [Hc|[[<-|[]]|Hc]]; [rewrite (H1 c Hc)|..|rewrite (H2 c Hc)]; reflexivity.
    + rewrite !existsb_app. rewrite (existsb_blank b1), (existsb_blank b2) by assumption. reflexivity.
  - split; [|right; reflexivity]. split.
    + intros c Hc. rewrite !in_app_iff in Hc. unfold is_sign_char.
      destruct Hc as [Hc|[[<-|[]]|Hc]]; [rewrite (H1 c Hc)|..|rewrite (H2 c Hc)]; reflexivity.
    + rewrite !existsb_app. rewrite (existsb_blank b1), (existsb_blank b2) by assumption. reflexivity.
Qed.

Lemma strip_app b l : blank b -> strip (b ++ l) = strip l.
Proof.
  intros H. induction b as [|c b IH]; [reflexivity|]. cbn [app strip].
  rewrite (H c (or_introl eq_refl)). cbn [Z.eqb]. apply IH. intros x Hx. apply H. right. exact Hx.
Qed.

(** blanks in front of further terms can be removed *)
Lemma terms_strip l t z : terms l t -> exists t', terms l t' /\ strip (t ++ 0 :: z) = t' ++ 0 :: z.
Proof.
  intros H. destruct H as [|s c e l ts tb tl Hs Hb Ht].
  - exists []. split; [constructor|reflexivity].
  - destruct Hs as [b1 b2 H1 H2|b1 b2 H1 H2].
    + exists (([] ++ [43] ++ b2) ++ tb ++ tl). split.
      * apply terms_cons; try assumption. apply sign_plus; [intros ? []|exact H2].
      * rewrite <- !app_assoc. rewrite strip_app by exact H1. reflexivity.
    + exists (([] ++ [45] ++ b2) ++ tb ++ tl). split.
      * apply (terms_cons (-1)); try assumption. apply sign_minus; [intros ? []|exact H2].
      * rewrite <- !app_assoc. rewrite strip_app by exact H1. reflexivity.
Qed.

Lemma terms_follow l t z : terms l t -> follow (t ++ 0 :: z) /\ follow (strip (t ++ 0 :: z)).
Proof.
  intros H. destruct H as [|s c e l ts tb tl Hs Hb Ht]; [cbn; lia|].
  assert (F : forall b q r, blank b -> q = 43 \/ q = 45 -> follow (b ++ q :: r) /\ follow (strip (b ++ q :: r))).
  { intros b q r Hbl Hq. split.
    - destruct b as [|d b]; cbn; [lia|]. rewrite (Hbl d (or_introl eq_refl)). lia.
    - rewrite strip_app by exact Hbl. cbn [strip]. destruct (Z.eqb_spec q 32); [lia|]. cbn. lia. }
  destruct Hs as [b1 b2 H1 H2|b1 b2 H1 H2]; rewrite <- !app_assoc; cbn [app]; apply F; auto.
Qed.

Lemma body_nonempty c e tb : body c e tb -> tb <> [].
Proof.
  intros H. destruct H as [c ds Hd| |c ds sep Hd|e es Hd|c e ds sep es Hd]; try discriminate.
  - apply Hd.
  - destruct Hd as (Hne & _). destruct ds; [congruence|discriminate].
  - destruct Hd as (Hne & _). destruct ds; [congruence|discriminate].
Qed.

Lemma body_pos c e tb : body c e tb -> 0 <= c.
Proof. intros H. destruct H; try lia; eapply decimal_ge; eassumption. Qed.

Lemma terms_nonul l t : terms l t -> t <> [] -> match t with [] => False | c :: _ => c <> 0 end.
Proof.
  intros H Hne. destruct H as [|s c e l ts tb tl Hs Hb Ht]; [congruence|].
  destruct Hs as [b1 b2 H1 H2|b1 b2 H1 H2].
  - destruct b1 as [|d b]; cbn; [lia|]. rewrite (H1 d (or_introl eq_refl)). lia.
  - destruct b1 as [|d b]; cbn; [lia|]. rewrite (H1 d (or_introl eq_refl)). lia.
Qed.

Lemma strip_length l : (length (strip l) <= length l)%nat.
Proof. induction l as [|c l IH]; cbn [strip length]; [lia|]. destruct (c =? 32); cbn [length]; lia. Qed.

Definition same_poly (p q : poly) : Prop := forall k, p k = q k.

Lemma parse_terms l : forall t z p fuel, terms l t -> in_range l ->
  (length t < fuel)%nat ->
  exists q, parse_loop fuel p (t ++ 0 :: z) = Done (q, true) /\ forall k, q k = last_coeff l k (p k).
Proof.
  induction l as [|[c0 e0] l IH]; intros t z p fuel Ht Hr Hf.
  - inversion Ht. subst. destruct fuel; [cbn in Hf; lia|]. exists p. split; reflexivity.
  - pose proof (terms_nonul _ _ Ht) as Hn.
    inversion Ht as [|s c e l' ts tb tl Hs Hb Hl E1 E2]. subst.
    destruct fuel as [|fuel]; [lia|]. cbn [parse_loop].
    destruct (sign_signs s ts Hs) as [Hso Hs1].
    pose proof (Hr _ _ (or_introl eq_refl)) as [Hc He].
    pose proof (body_pos _ _ _ Hb) as Hc0.
    destruct (terms_follow l tl z Hl) as [F1 F2].
    destruct (accept_body p s c e0 ts tb (tl ++ 0 :: z) Hso Hb Hs1) as (l' & Hl' & Ha); try assumption.
    { unfold slong_max. destruct Hs1; subst s; lia. }
    assert (Hpk : exists c1, peek ((ts ++ tb ++ tl) ++ 0 :: z) = Done c1 /\ c1 <> 0).
    { assert (Hne : ts ++ tb ++ tl <> []).
      { intros E. apply app_eq_nil in E. destruct E as [_ E]. apply app_eq_nil in E. apply (body_nonempty _ _ _ Hb), E. }
      specialize (Hn Hne). destruct (ts ++ tb ++ tl) as [|c1 r]; [congruence|]. exists c1. split; [reflexivity|exact Hn]. }
    destruct Hpk as (c1 & Hpk & Hc1). rewrite Hpk. cbn [bind].
    destruct (Z.eqb_spec c1 c_nul) as [?|_]; [contradiction|].
    rewrite <- !app_assoc. rewrite Ha. cbn [bind].
    assert (Hlen : (length tl < fuel)%nat).
    { rewrite !app_length in Hf. pose proof (body_nonempty _ _ _ Hb). destruct tb; [congruence|]. cbn [length] in Hf. lia. }
    assert (Hr' : in_range l) by (intros a b Hab; apply Hr; right; exact Hab).
    assert (Hgo : forall t', terms l t' -> l' = t' ++ 0 :: z -> (length t' < fuel)%nat ->
      exists q, parse_loop fuel (fun k => if k =? e0 then s * c else p k) l' = Done (q, true) /\
        forall k, q k = last_coeff ((s * c, e0) :: l) k (p k)).
    { intros t' Ht' -> Hlt. destruct (IH t' z (fun k => if k =? e0 then s * c else p k) fuel Ht' Hr' Hlt) as (q & Eq & Hq).
      exists q. split; [exact Eq|]. intros k. rewrite Hq. cbn [last_coeff]. rewrite (Z.eqb_sym k e0). reflexivity. }
    destruct Hl' as [El|El].
    + apply (Hgo tl Hl El Hlen).
    + destruct (terms_strip l tl z Hl) as (t' & Ht' & Est).
      apply (Hgo t' Ht'); [congruence|].
      pose proof (strip_length (tl ++ 0 :: z)) as HL. rewrite Est in HL. rewrite !app_length in HL. cbn [length] in HL. lia.
Qed.

Lemma blank_signs b : blank b -> signs_only b 1.
Proof.
  intros H. split.
  - intros c Hc. rewrite (H c Hc). reflexivity.
  - rewrite existsb_blank by exact H. reflexivity.
Qed.

Lemma parse_poly_text l t z p : poly_text l t -> in_range l ->
  exists q, poly_parse p (t ++ 0 :: z) = Done (q, true) /\ forall k, q k = last_coeff l k (p k).
Proof.
  intros H Hr. unfold poly_parse. destruct H as [l t Ht|b c e l tb tl Hb Hbo Hl].
  - apply parse_terms; try assumption. rewrite app_length. cbn [length]. lia.
  - pose proof (Hr _ _ (or_introl eq_refl)) as [Hc He].
    destruct (terms_follow l tl z Hl) as [F1 F2].
    destruct (accept_body p 1 c e b tb (tl ++ 0 :: z) (blank_signs b Hb) Hbo (or_introl eq_refl)) as (l' & Hl' & Ha); try assumption.
    { unfold slong_max. lia. }
    rewrite <- !app_assoc.
    assert (Hpk : exists c1, peek (b ++ tb ++ tl ++ 0 :: z) = Done c1 /\ c1 <> 0).
    { destruct b as [|d b].
      - cbn [app]. pose proof (body_nonempty _ _ _ Hbo).
        destruct Hbo as [? ds Hd| |? ds ? Hd|? ? Hd|? ? ds ? ? Hd];
          try (eexists; split; [reflexivity|discriminate]);
          destruct Hd as (Hne & Hd & _); destruct ds as [|d ds]; try congruence;
          exists d; (split; [reflexivity|]); specialize (Hd d (or_introl eq_refl)); lia.
      - exists d. split; [reflexivity|]. rewrite (Hb d (or_introl eq_refl)). discriminate. }
    destruct Hpk as (c1 & Hpk & Hc1).
    destruct (length (b ++ tb ++ tl ++ 0 :: z)) as [|fuel] eqn:El.
    { rewrite !app_length in El. cbn [length] in El. lia. }
    cbn [parse_loop]. rewrite Hpk. cbn [bind].
    destruct (Z.eqb_spec c1 c_nul) as [?|_]; [contradiction|].
    rewrite Ha. cbn [bind].
    assert (Hlen : (length tl < fuel)%nat).
    { rewrite !app_length in El. cbn [length] in El. pose proof (body_nonempty _ _ _ Hbo). destruct tb; [congruence|]. cbn [length] in El. lia. }
    assert (Hr' : in_range l) by (intros a d Hab; apply Hr; right; exact Hab).
    assert (Hgo : forall t', terms l t' -> l' = t' ++ 0 :: z -> (length t' < fuel)%nat ->
      exists q, parse_loop fuel (fun k => if k =? e then 1 * c else p k) l' = Done (q, true) /\
        forall k, q k = last_coeff ((c, e) :: l) k (p k)).
    { intros t' Ht' -> Hlt. destruct (parse_terms l t' z (fun k => if k =? e then 1 * c else p k) fuel Ht' Hr' Hlt) as (q & Eq & Hq).
      exists q. split; [exact Eq|]. intros k. rewrite Hq. cbn [last_coeff]. rewrite (Z.eqb_sym k e), Z.mul_1_l. reflexivity. }
    destruct Hl' as [E|E].
    + apply (Hgo tl Hl E Hlen).
    + destruct (terms_strip l tl z Hl) as (t' & Ht' & Est).
      apply (Hgo t' Ht'); [congruence|].
      pose proof (strip_length (tl ++ 0 :: z)) as HL. rewrite Est in HL. rewrite !app_length in HL. cbn [length] in HL. lia.
Qed.

(** distinct exponents: last = sum *)
Lemma last_sum l : NoDup (map snd l) -> forall k d,
  last_coeff l k d = if existsb (fun t => snd t =? k) l then sum_coeff l k else d.
Proof.
  induction l as [|[c e] l IH]; intros Hn k d; [reflexivity|].
  cbn [map snd] in Hn. inversion Hn as [|? ? Hin Hn']. subst.
  cbn [last_coeff sum_coeff existsb snd]. rewrite IH by exact Hn'.
  destruct (Z.eqb_spec e k) as [->|Hne]; cbn [orb].
  - assert (E : existsb (fun t => snd t =? k) l = false).
    { apply Bool.not_true_is_false. intros H. apply existsb_exists in H. destruct H as (t & Ht & Hk).
      apply Hin. apply in_map_iff. exists t. split; [lia|exact Ht]. }
    rewrite E.
    assert (E2 : sum_coeff l k = 0).
    { clear -Hin. induction l as [|[c e] l IH]; [reflexivity|]. cbn in *.
      destruct (Z.eqb_spec e k); [exfalso; apply Hin; left; assumption|]. rewrite IH; [reflexivity|]. tauto. }
    lia.
  - reflexivity.
Qed.

Lemma sum_none l k : existsb (fun t => snd t =? k) l = false -> sum_coeff l k = 0.
Proof.
  induction l as [|[c e] l IH]; [reflexivity|]. cbn [existsb snd sum_coeff].
  intros H. apply orb_false_iff in H. destruct H as [H1 H2]. rewrite H1, IH by exact H2. reflexivity.
Qed.

Lemma parse_sum l t z : poly_text l t -> in_range l -> NoDup (map snd l) ->
  exists q, poly_parse (fun _ => 0) (t ++ 0 :: z) = Done (q, true) /\ forall k, q k = sum_coeff l k.
Proof.
  intros H Hr Hn. destruct (parse_poly_text l t z (fun _ => 0) H Hr) as (q & E & Hq).
  exists q. split; [exact E|]. intros k. rewrite Hq, last_sum by exact Hn.
  destruct (existsb (fun t0 => snd t0 =? k) l) eqn:Ex; [reflexivity|]. symmetry. apply sum_none, Ex.
Qed.

(* ------------------------------------------------------------------ *)
(** * Totality and memory safety *)

Fixpoint has_nul (l : text) : Prop := match l with [] => False | c :: t => c = 0 \/ has_nul t end.

(** a suffix of l reached without stepping over the terminator *)
Inductive reach : text -> text -> Prop :=
| reach_refl l : reach l l
| reach_step c l l' : c <> 0 -> reach l l' -> reach (c :: l) l'.

Lemma reach_trans a b c : reach a b -> reach b c -> reach a c.
Proof. induction 1; intros; [assumption|]. apply reach_step; auto. Qed.

Lemma reach_nul a b : reach a b -> has_nul a -> has_nul b.
Proof. induction 1; cbn; intros; [assumption|]. tauto. Qed.

Lemma reach_length a b : reach a b -> (length b <= length a)%nat.
Proof. induction 1; cbn [length]; lia. Qed.

Lemma reach_strict a b c l : reach a b -> reach b (c :: l) -> c <> 0 -> reach a l.
Proof. intros. eapply reach_trans; [eassumption|]. eapply reach_trans; [eassumption|]. apply reach_step; [assumption|constructor]. Qed.

Lemma skip_space_safe l : has_nul l -> exists l', skip_space l = Done l' /\ reach l l'.
Proof.
  induction l as [|c t IH]; cbn; intros H; [contradiction|].
  destruct (is_space c) eqn:E.
  - assert (Hc : c <> 0) by (unfold is_space in E; lia).
    destruct IH as (l' & E' & R); [tauto|]. exists l'. split; [exact E'|apply reach_step; assumption].
  - exists (c :: t). split; [reflexivity|constructor].
Qed.

Lemma digits_safe l : forall acc some, has_nul l ->
  exists v b l', digits l acc some = Done (v, b, l') /\ reach l l' /\
    (b = true -> some = true \/ (length l' < length l)%nat).
Proof.
  induction l as [|c t IH]; cbn [has_nul digits]; intros acc some H; [contradiction|].
  destruct (is_digit c) eqn:E.
  - assert (Hc : c <> 0) by (unfold is_digit in E; lia).
    destruct (IH (10 * acc + (c - 48)) true ltac:(tauto)) as (v & b & l' & E' & R & _).
    exists v, b, l'. conj; [exact E'|apply reach_step; assumption|].
    intros _. right. pose proof (reach_length _ _ R). cbn [length]. lia.
  - exists acc, some, (c :: t). conj; [reflexivity|constructor|]. tauto.
Qed.

Lemma strtol_safe l : has_nul l -> exists v l', strtol l = Done (v, l') /\ reach l l' /\
  slong_min <= v <= slong_max /\ (same_ptr l l' = true -> l' = l).
Proof.
  intros H. unfold strtol. destruct (skip_space_safe l H) as (l1 & E1 & R1). rewrite E1. cbn [bind].
  pose proof (reach_nul _ _ R1 H) as H1. destruct l1 as [|c t]; [contradiction|].
  set (l2 := if (c =? c_minus) || (c =? c_plus) then t else c :: t).
  assert (R2 : reach (c :: t) l2).
  { unfold l2. destruct ((c =? c_minus) || (c =? c_plus)) eqn:E; [|constructor].
    apply reach_step; [unfold c_minus, c_plus in E; lia|constructor]. }
  destruct (digits_safe l2 0 false (reach_nul _ _ R2 H1)) as (v & b & l' & E' & R' & Hb).
  rewrite E'. cbn [bind]. destruct b.
  - exists (clamp ((if c =? c_minus then -1 else 1) * v)), l'. conj.
    + reflexivity.
    + eapply reach_trans; [exact R1|]. eapply reach_trans; eassumption.
    + unfold clamp, slong_min, slong_max. lia.
    + unfold clamp, slong_min, slong_max. lia.
    + intros Hs. exfalso. unfold same_ptr in Hs. apply Nat.eqb_eq in Hs.
      destruct (Hb eq_refl) as [?|Hl]; [discriminate|].
      pose proof (reach_length _ _ R1). pose proof (reach_length _ _ R2). lia.
  - exists 0, l. conj; [reflexivity|constructor|unfold slong_min; lia|unfold slong_max; lia|reflexivity].
Qed.

Lemma skip_signs_safe l : forall s, has_nul l -> (s = 1 \/ s = -1) ->
  exists s' l', skip_signs l s = Done (s', l') /\ reach l l' /\ (s' = 1 \/ s' = -1).
Proof.
  induction l as [|c t IH]; cbn [has_nul skip_signs]; intros s H Hs; [contradiction|].
  destruct ((c =? c_space) || (c =? c_plus) || (c =? c_minus)) eqn:E.
  - assert (Hc : c <> 0) by (unfold c_space, c_plus, c_minus in E; lia).
    destruct (IH (if c =? c_minus then -1 else s) ltac:(tauto)) as (s' & l' & E' & R & Hs').
    { destruct (c =? c_minus); tauto. }
    exists s', l'. conj; [exact E'|apply reach_step; assumption|exact Hs'].
  - exists s, (c :: t). conj; [reflexivity|constructor|exact Hs].
Qed.

Lemma skip_stars_safe l : has_nul l -> exists l', skip_stars l = Done l' /\ reach l l'.
Proof.
  induction l as [|c t IH]; cbn [has_nul skip_stars]; intros H; [contradiction|].
  destruct ((c =? c_space) || (c =? c_star)) eqn:E.
  - assert (Hc : c <> 0) by (unfold c_space, c_star in E; lia).
    destruct IH as (l' & E' & R); [tauto|]. exists l'. split; [exact E'|apply reach_step; assumption].
  - exists (c :: t). split; [reflexivity|constructor].
Qed.

Lemma exponent_safe l : has_nul l -> exists e l', exponent l = Done (e, l') /\ reach l l' /\
   (forall t, l = c_x :: t -> (length l' < length l)%nat).
Proof.
  intros H. destruct l as [|c t]; [contradiction|]. cbn [exponent].
  destruct (Z.eqb_spec c c_x) as [->|Hne].
  - assert (Ht : has_nul t) by (destruct H; [discriminate|assumption]).
    destruct t as [|c2 t2]; [contradiction|]. cbn [peek bind tl].
    destruct (Z.eqb_spec c2 c_hat) as [->|Hne2].
    + assert (Ht2 : has_nul t2) by (destruct Ht; [discriminate|assumption]).
      destruct (strtol_safe t2 Ht2) as (e & l' & E & R & _ & _). rewrite E. cbn [bind].
      exists (if same_ptr t2 l' then 1 else e), l'. conj; [reflexivity| |].
      * apply reach_step; [discriminate|]. apply reach_step; [discriminate|exact R].
      * intros _ _. pose proof (reach_length _ _ R). cbn [length]. lia.
    + exists 1, (c2 :: t2). conj; [reflexivity| |].
      * apply reach_step; [discriminate|constructor].
      * intros _ _. cbn [length]. lia.
  - exists 0, (c :: t). conj; [reflexivity|constructor|]. intros t0 E. congruence.
Qed.

Inductive parse_res : outcome (poly * bool) -> Prop :=
| pr_done q b : parse_res (Done (q, b))
| pr_index : parse_res (Fault BadIndex)
| pr_overflow : parse_res (Fault SignedOverflow).

Lemma accept_term_safe p l : has_nul l ->
  (exists q l', accept_term p l = Done (q, l', true) /\ reach l l' /\ (length l' < length l)%nat) \/
  (exists q l', accept_term p l = Done (q, l', false)) \/
  accept_term p l = Fault BadIndex \/ accept_term p l = Fault SignedOverflow.
Proof.
  intros H. unfold accept_term.
  destruct (skip_signs_safe l 1 H (or_introl eq_refl)) as (s & l1 & E1 & R1 & Hs). rewrite E1. cbn [bind].
  pose proof (reach_nul _ _ R1 H) as H1.
  destruct (strtol_safe l1 H1) as (c & l2 & E2 & R2 & _ & Hsame). rewrite E2. cbn [bind].
  assert (Hpk : exists c0 t0, l1 = c0 :: t0) by (destruct l1; [contradiction|eauto]).
  destruct Hpk as (c0 & t0 & ->). cbn [peek bind].
  destruct (same_ptr (c0 :: t0) l2 && negb (c0 =? c_x)) eqn:Er.
  { right. left. eauto. }
  unfold smul. destruct (is_slong _); cbn [bind]; [|auto].
  pose proof (reach_nul _ _ R2 H1) as H2.
  destruct (skip_stars_safe l2 H2) as (l3 & E3 & R3). rewrite E3. cbn [bind].
  pose proof (reach_nul _ _ R3 H2) as H3.
  destruct (exponent_safe l3 H3) as (e & l4 & E4 & R4 & Hx). rewrite E4. cbn [bind].
  unfold set_coeff. destruct (e <? 0); cbn [bind]; [auto|]. destruct (slong_max <=? e); cbn [bind]; [auto|].
  left. eexists. exists l4. conj; [reflexivity| |].
  - eapply reach_trans; [exact R1|]. eapply reach_trans; [exact R2|]. eapply reach_trans; eassumption.
  - pose proof (reach_length _ _ R1). pose proof (reach_length _ _ R2).
    pose proof (reach_length _ _ R3). pose proof (reach_length _ _ R4).
    destruct (same_ptr (c0 :: t0) l2) eqn:Es.
    + rewrite (Hsame eq_refl) in *. cbn [andb] in Er. apply negb_false_iff in Er. apply Z.eqb_eq in Er. subst c0.
      cbn [skip_stars] in E3. change ((c_x =? c_space) || (c_x =? c_star)) with false in E3. injection E3 as <-.
      specialize (Hx t0 eq_refl). lia.
    + unfold same_ptr in Es. apply Nat.eqb_neq in Es. lia.
Qed.

Lemma parse_loop_safe : forall fuel p l, has_nul l -> (length l <= fuel)%nat -> parse_res (parse_loop fuel p l).
Proof.
  induction fuel as [|fuel IH]; intros p l H Hf; [destruct l; [contradiction|cbn in Hf; lia]|].
  cbn [parse_loop]. destruct l as [|c t]; [contradiction|]. cbn [peek bind].
  destruct (c =? c_nul); [constructor|].
  destruct (accept_term_safe p (c :: t) H) as [(q & l' & E & R & Hl)|[(q & l' & E)|[E|E]]]; rewrite E; cbn [bind].
  - apply IH; [exact (reach_nul _ _ R H)|lia].
  - constructor.
  - constructor.
  - constructor.
Qed.

Lemma parse_safe p s z : parse_res (poly_parse p (s ++ 0 :: z)).
Proof.
  apply parse_loop_safe; [|lia]. induction s as [|c s IH]; cbn; [left; reflexivity|right; exact IH].
Qed.

(* ------------------------------------------------------------------ *)
(** * No undefined behaviour on reasonable texts *)
Lemma skip_space_split l l' : skip_space l = Done l' -> exists ws, l = ws ++ l' /\ white ws.
Proof.
  revert l'. induction l as [|c t IH]; intros l' H; cbn [skip_space] in H; [discriminate|].
  destruct (is_space c) eqn:E.
  - destruct (IH l' H) as (ws & -> & Hw). exists (c :: ws). split; [reflexivity|].
    intros x [<-|Hx]; [unfold is_space in E; lia|apply Hw, Hx].
  - injection H as <-. exists []. split; [reflexivity|intros ? []].
Qed.

Lemma digits_split l : forall acc some v b l', digits l acc some = Done (v, b, l') ->
  exists ds, l = ds ++ l' /\ (forall c, In c ds -> 48 <= c <= 57) /\
    v = fold_left (fun v c => 10 * v + (c - 48)) ds acc.
Proof.
  induction l as [|c t IH]; intros acc some v b l' H; cbn [digits] in H; [discriminate|].
  destruct (is_digit c) eqn:E.
  - destruct (IH _ _ _ _ _ H) as (ds & -> & Hd & ->). exists (c :: ds). conj; [reflexivity| |reflexivity].
    intros x [<-|Hx]; [unfold is_digit in E; lia|apply Hd, Hx].
  - injection H as <- _ <-. exists []. conj; [reflexivity|intros ? []|reflexivity].
Qed.

Lemma small_suffix a b : small_numbers (a ++ b) -> small_numbers b.
Proof. intros H pre ds post -> Hd. apply (H (a ++ pre) ds post); [rewrite <- app_assoc; reflexivity|exact Hd]. Qed.

Lemma neg_suffix a b : no_negative_exponent (a ++ b) -> no_negative_exponent b.
Proof. intros H pre ws post ->. apply (H (a ++ pre) ws post). rewrite <- app_assoc. reflexivity. Qed.

Lemma reach_split a b : reach a b -> exists pre, a = pre ++ b.
Proof.
  induction 1 as [l|c l l' _ _ (pre & ->)]; [exists []; reflexivity|]. exists (c :: pre). reflexivity.
Qed.

Lemma reach_small a b : reach a b -> small_numbers a -> small_numbers b.
Proof. intros R. destruct (reach_split _ _ R) as (pre & ->). apply small_suffix. Qed.
Lemma reach_neg a b : reach a b -> no_negative_exponent a -> no_negative_exponent b.
Proof. intros R. destruct (reach_split _ _ R) as (pre & ->). apply neg_suffix. Qed.

Lemma strtol_small l v l' : strtol l = Done (v, l') -> small_numbers l ->
  - slong_max < v < slong_max /\ (v < 0 -> exists ws post, l = ws ++ 45 :: post /\ white ws).
Proof.
  unfold strtol. intros H Hs. destruct (skip_space l) as [l1| | |] eqn:E1; try discriminate. cbn [bind] in H.
  destruct (skip_space_split _ _ E1) as (ws & El & Hw).
  destruct l1 as [|c t]; [discriminate|].
  set (l2 := if (c =? c_minus) || (c =? c_plus) then t else c :: t) in H.
  assert (E2 : exists pre, l = pre ++ l2).
  { unfold l2. destruct ((c =? c_minus) || (c =? c_plus)).
    - exists (ws ++ [c]). rewrite El, <- app_assoc. reflexivity.
    - exists ws. exact El. }
  destruct E2 as (pre & E2).
  destruct (digits l2 0 false) as [[[v0 b] l3]| | |] eqn:E3; try discriminate. cbn [bind] in H.
  destruct (digits_split _ _ _ _ _ _ E3) as (ds & El2 & Hd & Hv).
  assert (Hlt : v0 < slong_max).
  { rewrite Hv. apply (Hs pre ds l3); [congruence|exact Hd]. }
  assert (Hge : 0 <= v0) by (rewrite Hv; apply dec_value_ge; [exact Hd|lia]).
  destruct b; injection H as <- <-.
  - unfold clamp, slong_min, slong_max in *. destruct (Z.eqb_spec c c_minus) as [->|Hne].
    + split; [lia|]. intros _. exists ws, t. split; [exact El|exact Hw].
    + split; lia.
  - unfold slong_max. split; lia.
Qed.

Lemma exponent_small l e l' : exponent l = Done (e, l') -> small_numbers l -> no_negative_exponent l ->
  0 <= e < slong_max.
Proof.
  intros H Hs Hn. destruct l as [|c t]; [discriminate|]. cbn [exponent] in H.
  destruct (Z.eqb_spec c c_x) as [->|Hne]; [|injection H as <- <-; unfold slong_max; lia].
  destruct t as [|c2 t2]; [discriminate|]. cbn [peek bind tl] in H.
  destruct (Z.eqb_spec c2 c_hat) as [->|Hne2]; [|injection H as <- <-; unfold slong_max; lia].
  destruct (strtol t2) as [[v r]| | |] eqn:E; try discriminate. cbn [bind] in H.
  destruct (strtol_small _ _ _ E) as [Hb Hneg].
  { apply (small_suffix [c_x; c_hat]), Hs. }
  injection H as <- <-. destruct (same_ptr t2 r); [unfold slong_max; lia|].
  destruct (Z.lt_ge_cases v 0) as [Hlt|]; [exfalso|lia].
  destruct (Hneg Hlt) as (ws & post & -> & Hw). apply (Hn [c_x] ws post); [reflexivity|exact Hw].
Qed.

Lemma accept_term_small p l : has_nul l -> small_numbers l -> no_negative_exponent l ->
  exists r, accept_term p l = Done r.
Proof.
  intros H Hsm Hn. unfold accept_term.
  destruct (skip_signs_safe l 1 H (or_introl eq_refl)) as (s & l1 & E1 & R1 & Hs). rewrite E1. cbn [bind].
  pose proof (reach_nul _ _ R1 H) as H1.
  destruct (strtol_safe l1 H1) as (c & l2 & E2 & R2 & _ & _). rewrite E2. cbn [bind].
  assert (Hpk : exists c0 t0, l1 = c0 :: t0) by (destruct l1; [contradiction|eauto]).
  destruct Hpk as (c0 & t0 & ->). cbn [peek bind].
  destruct (same_ptr (c0 :: t0) l2 && negb (c0 =? c_x)); [eauto|].
  assert (Hfit : is_slong ((if same_ptr (c0 :: t0) l2 then 1 else c) * s) = true).
  { destruct (strtol_small _ _ _ E2 (reach_small _ _ R1 Hsm)) as [Hb _].
    unfold is_slong, slong_min, slong_max in *. destruct (same_ptr (c0 :: t0) l2); destruct Hs; subst s; lia. }
  unfold smul. rewrite Hfit. cbn [bind].
  pose proof (reach_nul _ _ R2 H1) as H2.
  destruct (skip_stars_safe l2 H2) as (l3 & E3 & R3). rewrite E3. cbn [bind].
  pose proof (reach_nul _ _ R3 H2) as H3.
  destruct (exponent_safe l3 H3) as (e & l4 & E4 & R4 & _). rewrite E4. cbn [bind].
  rewrite set_coeff_ok; [cbn [bind]; eauto|].
  apply (exponent_small _ _ _ E4).
  - eapply reach_small; [exact R3|]. eapply reach_small; [exact R2|]. eapply reach_small; eassumption.
  - eapply reach_neg; [exact R3|]. eapply reach_neg; [exact R2|]. eapply reach_neg; eassumption.
Qed.

Lemma parse_loop_small : forall fuel p l, has_nul l -> (length l <= fuel)%nat ->
  small_numbers l -> no_negative_exponent l -> exists q b, parse_loop fuel p l = Done (q, b).
Proof.
  induction fuel as [|fuel IH]; intros p l H Hf Hs Hn; [destruct l; [contradiction|cbn in Hf; lia]|].
  cbn [parse_loop]. destruct l as [|c t]; [contradiction|]. cbn [peek bind].
  destruct (c =? c_nul); [eauto|].
  destruct (accept_term_small p (c :: t) H Hs Hn) as (r & Er).
  destruct (accept_term_safe p (c :: t) H) as [(q & l' & E & R & Hl)|[(q & l' & E)|[E|E]]];
    try congruence; rewrite E; cbn [bind].
  - apply IH; [exact (reach_nul _ _ R H)|lia|exact (reach_small _ _ R Hs)|exact (reach_neg _ _ R Hn)].
  - eauto.
Qed.

Lemma parse_loop_zero_tail : forall fuel (s : text) p, (length (s ++ [0%Z]) <= fuel)%nat ->
  small_numbers (s ++ [0]) -> no_negative_exponent (s ++ [0]) ->
  exists q b, parse_loop fuel p (s ++ [0]) = Done (q, b).
Proof.
  intros fuel s p Hf Hs Hn. apply parse_loop_small; try assumption.
  clear. induction s as [|c s IH]; cbn; [left; reflexivity|right; exact IH].
Qed.

Lemma small_nul s : small_numbers s -> small_numbers (s ++ [0]).
Proof.
  intros H pre ds post E Hd.
  destruct (list_eq_dec Z.eq_dec ds []) as [->|Hne]; [cbn; lia|].
  destruct (exists_last Hne) as (ds0 & d & Ed).
  destruct post as [|x post] using rev_ind.
  - exfalso. rewrite app_nil_r, Ed, app_assoc in E. apply app_inj_tail in E. destruct E as [_ E].
    assert (In d ds) by (rewrite Ed; apply in_or_app; right; left; reflexivity).
    specialize (Hd d H0). lia.
  - clear IHpost. rewrite !app_assoc in E. apply app_inj_tail in E. destruct E as [E _].
    apply (H pre ds post); [rewrite E, app_assoc; reflexivity|exact Hd].
Qed.

Lemma noneg_nul s : no_negative_exponent s -> no_negative_exponent (s ++ [0]).
Proof.
  intros H pre ws post E Hw.
  destruct post as [|x post] using rev_ind.
  - replace (pre ++ 94 :: ws ++ [45]) with ((pre ++ 94 :: ws) ++ [45]) in E by (rewrite <- app_assoc; reflexivity).
    apply app_inj_tail in E. destruct E as [_ E]. discriminate.
  - clear IHpost.
    replace (pre ++ 94 :: ws ++ 45 :: post ++ [x]) with ((pre ++ 94 :: ws ++ 45 :: post) ++ [x]) in E
      by (rewrite <- !app_assoc; cbn; rewrite <- !app_assoc; reflexivity).
    apply app_inj_tail in E. destruct E as [E _]. apply (H pre ws post E Hw).
Qed.

Lemma parse_no_ub p s : small_numbers s -> no_negative_exponent s ->
  exists q b, poly_parse p (s ++ [0]) = Done (q, b).
Proof.
  intros Hs Hn. unfold poly_parse. apply (parse_loop_zero_tail _ s); [lia| |].
  - apply small_nul, Hs.
  - apply noneg_nul, Hn.
Qed.

(* ------------------------------------------------------------------ *)
(** * Every polynomial has a text *)
Lemma decimal_exists v : 0 <= v -> exists ds, decimal ds v.
Proof.
  intros Hv. rewrite <- (Z2Nat.id v Hv). generalize (Z.to_nat v). clear v Hv. intros n.
  induction n as [n IH] using (well_founded_induction Wf_nat.lt_wf).
  destruct (Nat.lt_ge_cases n 10) as [Hlt|Hge].
  - exists [48 + Z.of_nat n]. split; [discriminate|]. split.
    + intros c [<-|[]]. lia.
    + unfold dec_value. cbn [fold_left]. lia.
  - destruct (IH (n / 10)%nat) as (ds & Hne & Hd & Hval); [apply Nat.div_lt; lia|].
    pose proof (Nat.div_mod n 10 ltac:(lia)) as E. pose proof (Nat.mod_upper_bound n 10 ltac:(lia)).
    exists (ds ++ [48 + Z.of_nat (n mod 10)]). split; [|split].
    + destruct ds; discriminate.
    + intros c Hc. apply in_app_or in Hc. destruct Hc as [Hc|[<-|[]]]; [apply Hd, Hc|lia].
    + unfold dec_value in *. rewrite fold_left_app, Hval. cbn [fold_left]. lia.
Qed.

Lemma text_exists l : in_range l -> exists t, poly_text l t.
Proof.
  intros H. enough (exists t, terms l t) as (t & Ht) by (exists t; apply poly_signed, Ht).
  induction l as [|[c e] l IH]; [exists []; constructor|].
  destruct IH as (t & Ht); [intros a b Hab; apply H; right; exact Hab|].
  destruct (H c e (or_introl eq_refl)) as [Hc He].
  destruct (decimal_exists (Z.abs c) ltac:(lia)) as (ds & Hds).
  destruct (decimal_exists e ltac:(lia)) as (es & Hes).
  assert (Hb : body (Z.abs c) e (ds ++ [42] ++ [120; 94] ++ es)).
  { apply body_cxe; try assumption. intros x [<-|[]]. right. reflexivity. }
  assert (Hnil : blank []) by (intros ? []).
  destruct (Z.lt_ge_cases c 0) as [Hn|Hp].
  - exists (([] ++ [45] ++ []) ++ (ds ++ [42] ++ [120; 94] ++ es) ++ t).
    replace c with (-1 * Z.abs c) by lia. apply terms_cons; [apply sign_minus; assumption|exact Hb|exact Ht].
  - exists (([] ++ [43] ++ []) ++ (ds ++ [42] ++ [120; 94] ++ es) ++ t).
    replace c with (1 * Z.abs c) by lia. apply terms_cons; [apply sign_plus; assumption|exact Hb|exact Ht].
Qed.

Lemma dec_value_lt ds : (forall c, In c ds -> 48 <= c <= 57) -> forall acc, 0 <= acc ->
  fold_left (fun v c => 10 * v + (c - 48)) ds acc < (acc + 1) * 10 ^ Z.of_nat (length ds).
Proof.
  induction ds as [|c ds IH]; intros H acc Ha; cbn [fold_left length].
  - change (10 ^ Z.of_nat 0) with 1. lia.
  - pose proof (H c (or_introl eq_refl)) as Hc.
    assert (H' : forall c, In c ds -> 48 <= c <= 57) by (intros; apply H; right; assumption).
    specialize (IH H' (10 * acc + (c - 48)) ltac:(lia)).
    rewrite Nat2Z.inj_succ, Z.pow_succ_r by lia.
    assert (0 < 10 ^ Z.of_nat (length ds)) by (apply Z.pow_pos_nonneg; lia).
    assert ((10 * acc + (c - 48) + 1) * 10 ^ Z.of_nat (length ds) <= (10 * acc + 10) * 10 ^ Z.of_nat (length ds)).
    { apply Z.mul_le_mono_nonneg_r; lia. }
    lia.
Qed.

Lemma short_small t : (length t <= 18)%nat -> small_numbers t.
Proof.
  intros H pre ds post -> Hd. rewrite !app_length in H.
  pose proof (dec_value_lt ds Hd 0 ltac:(lia)) as Hlt. unfold dec_value.
  assert (10 ^ Z.of_nat (length ds) <= 10 ^ 18) by (apply Z.pow_le_mono_r; lia).
  change (10 ^ 18) with 1000000000000000000 in *. lia.
Qed.
