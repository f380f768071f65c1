(** Proofs for C79, continued: statements. *)
From Coq Require Import Reals Bool List ZArith Ascii String Lia Lra.
From Verif Require Import ModelOut SpecOut ProofOut ProofOut2.
Import ListNotations.
Local Open Scope Z_scope.

Lemma rows_read pr eps m : decimal_printer pr eps -> (forall r, In r m -> r <> [] /\ forall u, In u r -> finite u) ->
  exists V, Forall2 (Forall2 (near eps)) m V /\ Forall2 (fun row vs => row_ok row vs pr) m V.
Proof.
  intros Hpr. induction m as [|r m IH]; intros H; [exists []; split; constructor|].
  destruct IH as (V & H1 & H2); [intros r' Hr'; apply H; right; exact Hr'|].
  destruct (H r (or_introl eq_refl)) as (Hne & Hf).
  assert (X : exists vs, Forall2 (near eps) r vs /\ Forall2 (fun x v => reads (entry_printd pr x) v) r vs).
  { clear -Hpr Hf. induction r as [|u r IH]; [exists []; split; constructor|].
    destruct IH as (vs & A & B); [intros x Hx; apply Hf; right; exact Hx|].
    destruct (entry_reads pr eps u Hpr (Hf u (or_introl eq_refl))) as (v & C & D).
    exists (v :: vs). split; constructor; assumption. }
  destruct X as (vs & A & B). exists (vs :: V). split; constructor; try assumption. split; assumption.
Qed.

Lemma Forall2_len {A B} (P : A -> B -> Prop) l l' : Forall2 P l l' -> List.length l = List.length l'.
Proof. induction 1; cbn; congruence. Qed.

Lemma print_read pr m V v : m <> [] -> Forall2 (fun row vs => row_ok row vs pr) m V -> bracket V = Some v ->
  gp_read (mat_print_gp pr m) = Some v.
Proof.
  intros Hne H Hb. destruct (mat_reads pr m V Hne H) as (ts & Ho & Hlen & Hl & Hp).
  unfold gp_read, mat_print_gp.
  assert (E : lex (txt "[" ++ rows_print pr 0 m ++ txt "]") = TSym "[" :: ts ++ [TSym "]"]).
  { cbn [txt list_ascii_of_string app]. rewrite lex_sym by reflexivity. f_equal.
    pose proof (Hl 0 [] (Z.le_refl 0)) as X. rewrite app_nil_r in X. cbn [Z.eqb app] in X.
    change (rows_print pr 0 m ++ ["]"%char]) with (rows_print pr 0 m ++ txt "]"). rewrite X. reflexivity. }
  rewrite E. apply (top_bracket (20 * List.length m) ts V v); [exact Ho|exact Hp|exact Hb|lia].
Qed.

Lemma matrix_reads pr eps nc m : decimal_printer pr eps ->
  (2 <= List.length m)%nat -> (1 <= nc)%nat ->
  (forall r, In r m -> List.length r = nc /\ forall u, In u r -> finite u) ->
  exists V, gp_read (mat_print_gp pr m) = Some (GMat V) /\ Forall2 (Forall2 (near eps)) m V.
Proof.
  intros Hpr Hm Hc H.
  destruct (rows_read pr eps m Hpr) as (V & H1 & H2).
  { intros r Hr. destruct (H r Hr) as (A & B). split; [|exact B]. intros ->. cbn in A. lia. }
  exists V. split; [|exact H1]. apply (print_read pr m V); [intros ->; cbn in Hm; lia|exact H2|].
  assert (L : forall vs, In vs V -> List.length vs = nc).
  { clear -H H1. induction H1 as [|r vs m V A B IH]; intros w Hw; [destruct Hw|].
    destruct Hw as [<-|Hw]; [|apply IH; [intros r' Hr'; apply H; right; exact Hr'|exact Hw]].
    rewrite <- (Forall2_len _ _ _ A). apply H. left; reflexivity. }
  pose proof (Forall2_len _ _ _ H1) as Lm.
  destruct V as [|r1 [|r2 V]]; cbn in Lm; try lia. cbn [bracket].
  replace (forallb (fun r' => Nat.eqb (List.length r') (List.length r1)) (r2 :: V)) with true; [reflexivity|].
  symmetry. apply forallb_forall. intros w Hw. apply Nat.eqb_eq.
  rewrite (L w), (L r1); [reflexivity|left; reflexivity|right; exact Hw].
Qed.

Lemma vector_reads pr eps r : decimal_printer pr eps -> r <> [] -> (forall u, In u r -> finite u) ->
  exists vs, gp_read (mat_print_gp pr [r]) = Some (GVec vs) /\ Forall2 (near eps) r vs.
Proof.
  intros Hpr Hr H. destruct (rows_read pr eps [r] Hpr) as (V & H1 & H2).
  { intros r' [<-|[]]. auto. }
  inversion H1 as [|a vs b V' A B E1 E2]; subst. inversion B; subst.
  exists vs. split; [|exact A]. apply (print_read pr [r] [vs]); [discriminate|exact H2|reflexivity].
Qed.

(** an entry that is not a number is printed as zero *)
Lemma nan_prints_zero pr : mat_print_gp pr [[(Nan, Nan)]] = mat_print_gp pr [[(Fin 0 0, Fin 0 0)]].
Proof. reflexivity. Qed.

(** digits of an integer *)
Lemma digit_char_val d : 0 <= d < 10 -> is_digit (digit_char d) = true /\ Z.of_nat (nat_of_ascii (digit_char d)) - 48 = d.
Proof.
  intros H. assert (E : Z.of_nat (nat_of_ascii (digit_char d)) = 48 + d).
  { unfold digit_char. rewrite nat_ascii_embedding by lia. lia. }
  split; [|lia]. unfold is_digit. rewrite E. apply andb_true_iff. split; apply Z.leb_le; lia.
Qed.

Lemma dval_app l c : dval (l ++ [c]) = 10 * dval l + (Z.of_nat (nat_of_ascii c) - 48).
Proof. unfold dval. rewrite fold_left_app. reflexivity. Qed.

Lemma nat_digits_val f : forall n, 0 <= n < 2 ^ Z.of_nat f -> (1 <= f)%nat ->
  digits (nat_digits f n) /\ dval (nat_digits f n) = n.
Proof.
  induction f as [|f IH]; intros n Hn Hf; [lia|]. cbn [nat_digits].
  assert (M : 0 <= n mod 10 < 10) by (apply Z.mod_pos_bound; lia).
  destruct (digit_char_val _ M) as (D & V).
  destruct (Z.ltb_spec n 10) as [L|L].
  - cbn [app]. split.
    + split; [discriminate|]. intros c [<-|[]]. exact D.
    + change [digit_char (n mod 10)] with ([] ++ [digit_char (n mod 10)]). rewrite dval_app, V.
      change (dval []) with 0. rewrite Z.mod_small; lia.
  - rewrite Nat2Z.inj_succ, Z.pow_succ_r in Hn by lia.
    destruct f as [|f]; [cbn in Hn; lia|].
    destruct (IH (n / 10)) as ((A1 & A2) & B); [|lia|].
    { split; [apply Z.div_pos; lia|]. apply Z.div_lt_upper_bound; lia. }
    split.
    + split; [intros E; apply app_eq_nil in E as [_ E]; discriminate|].
      intros c Hc. apply in_app_or in Hc as [Hc|[<-|[]]]; [apply A2, Hc|exact D].
    + rewrite dval_app, B, V. pose proof (Z.div_mod n 10). lia.
Qed.

Lemma abs_digits n : digits (nat_digits (S (Z.to_nat (Z.log2 (Z.abs n)))) (Z.abs n)) /\
  dval (nat_digits (S (Z.to_nat (Z.log2 (Z.abs n)))) (Z.abs n)) = Z.abs n.
Proof.
  apply nat_digits_val; [|lia]. split; [lia|].
  rewrite Nat2Z.inj_succ, Z2Nat.id by apply Z.log2_nonneg.
  destruct (Z.eq_dec n 0) as [->|H]; [cbn; lia|].
  apply (Z.log2_spec (Z.abs n)). lia.
Qed.

(** the literal of an integer *)
Definition int_lit (n : Z) (ex : option (exp_sign * text)) : literal :=
  {| l_neg := n <? 0; l_int := nat_digits (S (Z.to_nat (Z.log2 (Z.abs n)))) (Z.abs n); l_frac := None; l_exp := ex |}.
Lemma ld_literal n : ld n = lit_text (int_lit n None).
Proof. unfold ld, lit_text, int_lit. cbn [l_neg l_int l_frac l_exp]. rewrite !app_nil_r. reflexivity. Qed.
Lemma int_lit_good n ex : match ex with Some (_, e) => digits e | None => True end -> good_literal (int_lit n ex).
Proof. intros H. split; [apply abs_digits|]. split; [exact I|exact H]. Qed.
Lemma int_lit_value n ex : lit_value (int_lit n ex) =
  (IZR n * powerRZ 10 (match ex with Some (EMinus, e) => - dval e | Some (_, e) => dval e | None => 0 end))%R.
Proof.
  unfold lit_value, int_lit, number. cbn [l_neg l_int l_frac l_exp List.length]. rewrite app_nil_r.
  rewrite (proj2 (abs_digits n)). set (E := match ex with Some (EMinus, e) => _ | Some (_, e) => _ | None => _ end).
  change (Z.of_nat 0) with 0. rewrite Z.sub_0_r. destruct (Z.ltb_spec n 0).
  - rewrite Z.abs_neq, opp_IZR by lia. ring.
  - rewrite Z.abs_eq by lia. reflexivity.
Qed.

Lemma reads_ld n : reads (ld n) (GNum (IZR n) 0).
Proof.
  rewrite ld_literal. replace (IZR n) with (lit_value (int_lit n None)).
  - apply reads_literal. apply int_lit_good. exact I.
  - rewrite int_lit_value. cbn. ring.
Qed.

(** an edge *)
Lemma reads_mono K K' t v : (K <= K')%nat -> reads_in K t v -> reads_in K' t v.
Proof.
  intros HK (et & (Ho & He) & Hl). exists et. split; [|exact Hl]. split; [exact Ho|].
  intros n ts H Hn. apply He; [exact H|lia].
Qed.

Lemma ld_short n : exists et, elem 20 et (GNum (IZR n) 0) /\ (List.length et <= 2)%nat /\
  forall r, sepd r -> lex (ld n ++ r) = et ++ lex r.
Proof.
  exists (lit_tokens (int_lit n None)). split; [|split].
  - replace (IZR n) with (lit_value (int_lit n None)) by (rewrite int_lit_value; cbn; ring).
    split; [rewrite <- (app_nil_r (lit_tokens _)); apply opens_lit|]. intros k ts He Hk. apply expr_real; [exact He|lia].
  - unfold lit_tokens. destruct (l_neg _); cbn; lia.
  - intros r Hr. rewrite ld_literal. apply lex_literal; [apply int_lit_good; exact I|apply sepd_stops, Hr].
Qed.

Lemma reads_pair x y :
  reads_in 30 (txt "[" ++ ld x ++ txt "," ++ ld y ++ txt "]") (GVec [GNum (IZR x) 0; GNum (IZR y) 0]).
Proof.
  destruct (ld_short x) as (ea & Ha & Sa & La). destruct (ld_short y) as (eb & Hb & Sb & Lb).
  set (va := GNum (IZR x) 0) in *. set (vb := GNum (IZR y) 0) in *. set (a := ld x) in *. set (b := ld y) in *.
  set (et := TSym "[" :: row_toks [ea; eb] ++ [TSym "]"]).
  assert (SL : (List.length (row_toks [ea; eb]) <= 5)%nat).
  { cbn [row_toks comma_toks flat_map]. rewrite app_nil_r, app_length. cbn [List.length]. lia. }
  exists et. split; [split|].
  - eexists _, _. split; [reflexivity|]. right. reflexivity.
  - intros n ts He Hn. unfold et.
    destruct n as [|[|[|n]]]; try lia.
    change ((TSym "[" :: row_toks [ea; eb] ++ [TSym "]"]) ++ ts) with (TSym "[" :: (row_toks [ea; eb] ++ [TSym "]"]) ++ ts).
    rewrite <- app_assoc. cbn [app].
    assert (R : p_rows n (row_toks [ea; eb] ++ TSym "]" :: ts) = Some ([[va; vb]], ts)).
    { apply (rows_close 20); [discriminate| |lia]. constructor; [exact Ha|]. constructor; [exact Hb|constructor]. }
    assert (F : p_factor (S n) (TSym "[" :: row_toks [ea; eb] ++ TSym "]" :: ts) = Some (GVec [va; vb], ts)).
    { destruct Ha as ((t & r & -> & Ho) & _). cbn [row_toks app] in R |- *. cbn [p_factor].
      change (Ascii.eqb "[" "[") with true. cbv iota.
      destruct t as [x1|w|c]; [| |destruct Ho as [->| ->]]; cbn [Ascii.eqb Bool.eqb andb]; rewrite R; reflexivity. }
    assert (T : p_term (S (S n)) (TSym "[" :: row_toks [ea; eb] ++ TSym "]" :: ts) = Some (GVec [va; vb], ts)).
    { assert (G : forall l, p_term (S (S n)) l = obind (p_factor (S n) l) (fun r => p_prods (S n) (fst r) (snd r))) by reflexivity.
      rewrite G, F. cbn [obind fst snd]. apply ends_prods; [exact He|lia]. }
    assert (G : forall l, p_expr (S (S (S n))) (TSym "[" :: l) = obind (p_term (S (S n)) (TSym "[" :: l)) (fun r => p_sums (S (S n)) (fst r) (snd r))) by reflexivity.
    rewrite G, T. cbn [obind fst snd]. apply ends_sums; [exact He|lia].
  - intros r Hr. rewrite <- !app_assoc. unfold et.
    change (txt "[" ++ a ++ txt "," ++ b ++ txt "]" ++ r) with ("["%char :: (a ++ (","%char :: (b ++ ("]"%char :: r))))).
    rewrite lex_sym by reflexivity. cbn [app]. f_equal.
    rewrite La by (eexists _, _; split; [reflexivity|auto]).
    rewrite lex_sym by reflexivity. rewrite Lb by (eexists _, _; split; [reflexivity|auto]).
    rewrite lex_sym by reflexivity. cbn [row_toks comma_toks flat_map]. rewrite app_nil_r, <- !app_assoc. cbn [app].
    reflexivity.
Qed.

(** elements after commas *)
Lemma edges_read e : exists ets, Forall2 (elem 30) ets (map (fun ab => GVec [GNum (IZR (fst ab)) 0; GNum (IZR (snd ab)) 0]) e) /\
  forall r, sepd r -> lex (edges_print e ++ r) = comma_toks ets ++ lex r.
Proof.
  induction e as [|[a b] e (ets & He & Hl)]; [exists []; split; [constructor|reflexivity]|].
  destruct (reads_pair a b) as (et & Hel & Hxl). exists (et :: ets). split; [constructor; assumption|].
  intros r Hr.
  assert (E : edges_print ((a, b) :: e) ++ r =
              ","%char :: ((txt "[" ++ ld a ++ txt "," ++ ld b ++ txt "]") ++ (edges_print e ++ r))).
  { unfold edges_print. cbn [flat_map fst snd]. rewrite <- !app_assoc. reflexivity. }
  rewrite E, lex_sym by reflexivity. cbn [comma_toks flat_map app]. f_equal. rewrite Hxl.
  - rewrite <- app_assoc. f_equal. apply Hl, Hr.
  - destruct e as [|[a' b'] e]; [exact Hr|]. unfold edges_print. cbn [flat_map txt list_ascii_of_string app].
    eexists _, _. split; [reflexivity|auto].
Qed.

Lemma elem_mono K K' et v : (K <= K')%nat -> elem K et v -> elem K' et v.
Proof. intros HK (Ho & He). split; [exact Ho|]. intros n ts H Hn. apply He; [exact H|lia]. Qed.

(** C79: the text of a tree *)
Lemma tree_reads q e : good_literal q ->
  gp_read (tree_print (lit_text q) e) =
  Some (GVec (GNum (lit_value q) 0 :: GNum (IZR (Z.of_nat (List.length e))) 0 ::
              map (fun ab => GVec [GNum (IZR (fst ab)) 0; GNum (IZR (snd ab)) 0]) e)).
Proof.
  intros Hq. destruct (reads_literal q Hq) as (e1 & H1 & L1).
  destruct (ld_short (Z.of_nat (List.length e))) as (e2 & H2 & _ & L2).
  destruct (edges_read e) as (ets & He & Hl).
  set (vs := GNum (lit_value q) 0 :: _ :: _).
  assert (HF : Forall2 (elem 30) (e1 :: e2 :: ets) vs).
  { constructor; [eapply elem_mono; [|exact H1]; lia|]. constructor; [eapply elem_mono; [|exact H2]; lia|exact He]. }
  unfold gp_read.
  assert (E : lex (tree_print (lit_text q) e) = TSym "[" :: row_toks (e1 :: e2 :: ets) ++ [TSym "]"]).
  { unfold tree_print, nl. cbn [txt list_ascii_of_string app].
    rewrite lex_blank by reflexivity. rewrite lex_sym by reflexivity. f_equal.
    rewrite L1 by (eexists _, _; split; [reflexivity|auto]).
    rewrite lex_sym by reflexivity. rewrite lex_blank by reflexivity.
    assert (S1 : forall r, sepd (edges_print e ++ "]"%char :: r)).
    { intros r. destruct e as [|[a' b'] e']; cbn [edges_print flat_map txt list_ascii_of_string app]; eexists _, _; (split; [reflexivity|auto]). }
    rewrite L2 by apply S1. rewrite Hl by (eexists _, _; split; [reflexivity|auto]).
    rewrite lex_sym by reflexivity. rewrite lex_blank by reflexivity. change (lex []) with (@nil token).
    cbn [row_toks comma_toks flat_map]. rewrite <- !app_assoc. cbn [app]. rewrite <- ?app_assoc. reflexivity. }
  rewrite E. apply (top_bracket 30 (row_toks (e1 :: e2 :: ets)) [vs]).
  - apply (row_toks_opens 30 (e1 :: e2 :: ets) vs); [discriminate|exact HF].
  - intros n ts' Hn. apply (rows_close 30); [discriminate|exact HF|exact Hn].
  - reflexivity.
  - lia.
Qed.

(** C79: the text of a loop determines it *)
Lemma digits_prefix a b r r' : (forall c, In c a -> is_digit c = true) -> (forall c, In c b -> is_digit c = true) ->
  stops r -> stops r' -> a ++ r = b ++ r' -> a = b /\ r = r'.
Proof.
  intros Ha Hb Hr Hr' E. pose proof (span_all is_digit a r Ha (stops_digit r Hr)) as X.
  pose proof (span_all is_digit b r' Hb (stops_digit r' Hr')) as Y. rewrite E, Y in X. inversion X. auto.
Qed.

Lemma ld_prefix n n' r r' : stops r -> stops r' -> ld n ++ r = ld n' ++ r' -> n = n' /\ r = r'.
Proof.
  intros Hr Hr' E. unfold ld in E.
  destruct (abs_digits n) as ((N1 & D1) & V1). destruct (abs_digits n') as ((N2 & D2) & V2).
  set (a := nat_digits _ (Z.abs n)) in *. set (b := nat_digits _ (Z.abs n')) in *.
  assert (Neg : forall l t, (forall c, In c l -> is_digit c = true) -> l <> [] -> l ++ t <> "-"%char :: (skipn 1 (l ++ t))).
  { intros l t Hl Hne X. destruct l as [|c l]; [congruence|]. cbn in X. inversion X. subst.
    specialize (Hl "-"%char (or_introl eq_refl)). discriminate. }
  destruct (Z.ltb_spec n 0) as [A|A]; destruct (Z.ltb_spec n' 0) as [B|B]; cbn [txt list_ascii_of_string app] in E.
  - inversion E as [E']. destruct (digits_prefix a b r r' D1 D2 Hr Hr' E') as (X & Y). split; [|exact Y].
    rewrite X in V1. lia.
  - exfalso. apply (Neg b r' D2 N2). rewrite <- E. reflexivity.
  - exfalso. apply (Neg a r D1 N1). rewrite E. reflexivity.
  - destruct (digits_prefix a b r r' D1 D2 Hr Hr' E) as (X & Y). split; [|exact Y]. rewrite X in V1. lia.
Qed.

Lemma loop_print_inj l : forall k l', loop_print k l = loop_print k l' -> 0 <= k -> l = l'.
Proof.
  assert (NE : forall k c i s l, 0 <= k -> loop_print k ((c, i, s) :: l) <> []).
  { intros k c i s t Hk E. cbn [loop_print] in E. apply app_eq_nil in E as [_ E]. apply app_eq_nil in E as [_ E]. discriminate. }
  induction l as [|[[c i] s] l IH]; intros k [|[[c' i'] s'] l'] E Hk.
  - reflexivity.
  - exfalso. exact (NE k c' i' s' l' Hk (eq_sym E)).
  - exfalso. exact (NE k c i s l Hk E).
  - cbn [loop_print] in E. apply app_inv_head in E.
    apply ld_prefix in E as (-> & E); [|cbn; repeat split; reflexivity|cbn; repeat split; reflexivity].
    apply app_inv_head in E.
    apply ld_prefix in E as (-> & E); [|cbn; repeat split; reflexivity|cbn; repeat split; reflexivity].
    apply app_inv_head in E.
    apply ld_prefix in E as (-> & E); [|cbn; repeat split; reflexivity|cbn; repeat split; reflexivity].
    apply app_inv_head in E. f_equal. apply (IH (k + 1)); [exact E|lia].
Qed.

(** a printer: exact decimal notation of dyadic numbers *)
Definition exact_lit (m e : Z) : literal :=
  if 0 <=? e then int_lit (m * 2 ^ e) None
  else int_lit (m * 5 ^ (- e)) (Some (EMinus, nat_digits (S (Z.to_nat (Z.log2 (Z.abs (- e))))) (Z.abs (- e)))).
Definition exact_printer (x : arf) : text :=
  match x with Fin m e => lit_text (exact_lit m e) | Nan => txt "nan" | Inf b => if b then txt "-inf" else txt "inf" end.

Lemma exact_printer_decimal : decimal_printer exact_printer 0.
Proof.
  intros m e Hm. exists (exact_lit m e). cbn [exact_printer]. unfold exact_lit.
  destruct (Z.leb_spec 0 e) as [He|He].
  - split; [apply int_lit_good; exact I|]. split; [reflexivity|]. split.
    + cbn [int_lit l_neg]. rewrite Z.ltb_lt. pose proof (Z.pow_pos_nonneg 2 e). nia.
    + rewrite int_lit_value. cbn [powerRZ]. rewrite Rmult_1_r, mult_IZR.
      unfold dyadic. replace (IZR (2 ^ e)) with (powerRZ 2 e).
      * rewrite Rminus_diag_eq by reflexivity. rewrite Rabs_R0. lra.
      * rewrite <- (Z2Nat.id e) at 1 by lia. rewrite <- pow_powerRZ. rewrite pow_IZR. rewrite Z2Nat.id by lia. reflexivity.
  - split; [apply int_lit_good; apply abs_digits|]. split; [reflexivity|]. split.
    + cbn [int_lit l_neg]. rewrite Z.ltb_lt. pose proof (Z.pow_pos_nonneg 5 (- e)). nia.
    + rewrite int_lit_value. rewrite (proj2 (abs_digits (- e))). rewrite Z.abs_eq by lia.
      unfold dyadic. rewrite Z.opp_involutive, mult_IZR.
      assert (E : (IZR (5 ^ (- e)) * powerRZ 10 e = powerRZ 2 e)%R).
      { replace 10%R with (2 * 5)%R by lra. rewrite powerRZ_mult.
        replace (IZR (5 ^ (- e))) with (powerRZ 5 (- e)).
        - rewrite (Rmult_comm (powerRZ 2 e)), <- Rmult_assoc, <- powerRZ_add by lra.
          rewrite Z.add_opp_diag_l. cbn. ring.
        - rewrite <- (Z2Nat.id (- e)) at 1 by lia. rewrite <- pow_powerRZ. rewrite pow_IZR. rewrite Z2Nat.id by lia. reflexivity. }
      rewrite Rmult_assoc, E. rewrite Rminus_diag_eq by reflexivity. rewrite Rabs_R0. lra.
Qed.

(** not-a-number replaced by zero *)
Definition nan0 (x : arf) : arf := match x with Nan => Fin 0 0 | _ => x end.
Definition nan0_entry (u : arf * arf) : arf * arf := (nan0 (fst u), nan0 (snd u)).

Lemma nan_as_zero pr m : mat_print_gp pr m = mat_print_gp pr (map (map nan0_entry) m).
Proof.
  assert (E : forall u, entry_printd pr u = entry_printd pr (nan0_entry u)) by (intros [[|[]|a b] [|[]|c d]]; reflexivity).
  assert (V : forall u k sep, vec_printd pr k u sep = vec_printd pr k (map nan0_entry u) sep).
  { induction u as [|x u IH]; intros k sep; [reflexivity|]. cbn [vec_printd map]. rewrite E, IH. reflexivity. }
  assert (M : forall m' i, rows_print pr i m' = rows_print pr i (map (map nan0_entry) m')).
  { induction m' as [|r m' IH]; intros i; [reflexivity|]. cbn [rows_print map]. rewrite V, IH. reflexivity. }
  unfold mat_print_gp. rewrite M. reflexivity.
Qed.

Lemma nan_matrix pr : gp_read (mat_print_gp pr [[(Nan, Nan); (Nan, Nan)]; [(Nan, Nan); (Nan, Nan)]])
  = Some (GMat [[GNum 0 0; GNum 0 0]; [GNum 0 0; GNum 0 0]]).
Proof.
  rewrite nan_as_zero. cbn [map nan0_entry nan0 fst snd].
  set (z := (Fin 0 0, Fin 0 0)).
  transitivity (gp_read (mat_print_gp exact_printer [[z; z]; [z; z]])); [reflexivity|].
  destruct (matrix_reads exact_printer 0 2 [[z; z]; [z; z]] exact_printer_decimal) as (V & HV & HF).
  - cbn; lia.
  - lia.
  - intros r [<-|[<-|[]]]; split; try reflexivity; intros u [<-|[<-|[]]]; exists 0, 0, 0, 0; reflexivity.
  - rewrite HV. do 2 f_equal.
    assert (N : forall v, near 0 z v -> v = GNum 0 0).
    { intros v (m & e & m' & e' & x & y & E & -> & H1 & H2). inversion E; subst.
      unfold dyadic in *. rewrite !Rmult_0_l, Rminus_0_r in H1, H2.
      assert (A : forall t, (Rabs t <= 0)%R -> t = 0%R).
      { intros t Ht. destruct (Req_dec t 0) as [|Hn]; [assumption|]. pose proof (Rabs_pos_lt t Hn). lra. }
      rewrite (A x H1), (A y H2). reflexivity. }
    repeat match goal with
           | H : Forall2 _ (_ :: _) _ |- _ => inversion H; clear H; subst
           | H : Forall2 _ [] _ |- _ => inversion H; clear H; subst
           | H : near _ _ ?v |- _ => apply N in H; subst v
           end.
    reflexivity.
Qed.
