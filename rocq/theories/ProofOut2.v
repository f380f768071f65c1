(** Proofs for C79, continued: matrices, trees, loops. *)
From Coq Require Import Reals Bool List ZArith Ascii String Lia Lra.
From Verif Require Import ModelOut SpecOut ProofOut.
Import ListNotations.
Local Open Scope Z_scope.

(** token lists that read as one value, wherever an element of a vector ends *)
Definition opens (et : list token) : Prop :=
  exists t r, et = t :: r /\ match t with TSym c => c = "-"%char \/ c = "["%char | _ => True end.
Definition elem (K : nat) (et : list token) (v : gval) : Prop :=
  opens et /\ forall n ts, ends ts -> (K <= n)%nat -> p_expr n (et ++ ts) = Some (v, ts).

(** text followed by a separator *)
Definition sepd (r : text) : Prop := exists c t, r = c :: t /\ (c = ","%char \/ c = ";"%char \/ c = "]"%char).
Lemma sepd_stops r : sepd r -> stops r.
Proof. intros (c & t & -> & [->|[->| ->]]); cbn; repeat split; reflexivity. Qed.
Lemma sepd_word r : sepd r -> match r with [] => True | c :: _ => is_word c = false end.
Proof. intros (c & t & -> & [->|[->| ->]]); reflexivity. Qed.

Lemma opens_lit q ts : opens (lit_tokens q ++ ts).
Proof. unfold lit_tokens. destruct (l_neg q); eexists _, _; split; [reflexivity| |reflexivity|]; cbn; auto. Qed.

Definition reads_in (K : nat) (t : text) (v : gval) : Prop :=
  exists et, elem K et v /\ forall r, sepd r -> lex (t ++ r) = et ++ lex r.

Definition reads := reads_in 20.

Lemma reads_literal q : good_literal q -> reads (lit_text q) (GNum (lit_value q) 0).
Proof.
  intros Hq. exists (lit_tokens q). split.
  - split; [rewrite <- (app_nil_r (lit_tokens q)); apply opens_lit|]. intros n ts He Hn. apply expr_real; [exact He|lia].
  - intros r Hr. apply lex_literal; [exact Hq|apply sepd_stops, Hr].
Qed.

Lemma lex_star_I r : sepd r -> lex (txt " * I" ++ r) = star_I ++ lex r.
Proof.
  intros Hr. cbn [txt list_ascii_of_string app].
  rewrite lex_blank by reflexivity. rewrite lex_sym by reflexivity. rewrite lex_blank by reflexivity.
  rewrite lex_I by (apply sepd_word, Hr). reflexivity.
Qed.

Lemma stops_space l : stops (" "%char :: l).
Proof. cbn; repeat split; reflexivity. Qed.

Lemma reads_imag q : good_literal q -> reads (lit_text q ++ txt " * I") (GNum 0 (lit_value q)).
Proof.
  intros Hq. exists (lit_tokens q ++ star_I). split.
  - split; [apply opens_lit|]. intros n ts He Hn. rewrite <- app_assoc. apply expr_imag; [exact He|lia].
  - intros r Hr. rewrite <- app_assoc. rewrite lex_literal; [|exact Hq|apply stops_space].
    rewrite lex_star_I by exact Hr. rewrite app_assoc. reflexivity.
Qed.

Lemma reads_both p q : good_literal p -> good_literal q ->
  reads (lit_text p ++ (if l_neg q then txt " " else txt " + ") ++ lit_text q ++ txt " * I") (GNum (lit_value p) (lit_value q)).
Proof.
  intros Hp Hq. exists (lit_tokens p ++ signed_tokens q ++ star_I). split.
  - split; [apply opens_lit|]. intros n ts He Hn. rewrite <- !app_assoc. apply expr_both; [exact He|lia].
  - intros r Hr. rewrite <- !app_assoc. rewrite lex_literal; [|exact Hp|destruct (l_neg q); apply stops_space].
    f_equal. unfold signed_tokens. destruct (l_neg q) eqn:E.
    + cbn [txt list_ascii_of_string app]. rewrite lex_blank by reflexivity.
      change (lit_text q ++ txt " * I" ++ r) with (lit_text q ++ (txt " * I" ++ r)).
      assert (X : lex (lit_text q ++ (txt " * I" ++ r)) = lit_tokens q ++ star_I ++ lex r).
      { rewrite lex_literal; [|exact Hq|apply stops_space]. rewrite lex_star_I by exact Hr. reflexivity. }
      unfold lit_tokens in X. rewrite E in X. exact X.
    + assert (X : lex (lit_text q ++ (txt " * I" ++ r)) = lit_tokens q ++ star_I ++ lex r).
      { rewrite lex_literal; [|exact Hq|apply stops_space]. rewrite lex_star_I by exact Hr. reflexivity. }
      unfold lit_tokens in X. rewrite E in X.
      change (txt " + " ++ lit_text q ++ txt " * I" ++ r) with (" "%char :: "+"%char :: " "%char :: (lit_text q ++ txt " * I" ++ r)).
      rewrite lex_blank by reflexivity. rewrite lex_sym by reflexivity. rewrite lex_blank by reflexivity.
      rewrite X. reflexivity.
Qed.

(** the text "0" *)
Definition zero_lit : literal := {| l_neg := false; l_int := ["0"%char]; l_frac := None; l_exp := None |}.
Lemma good_zero : good_literal zero_lit.
Proof. split; [|split; exact I]. split; [discriminate|]. intros c [<-|[]]. reflexivity. Qed.
Lemma value_zero : lit_value zero_lit = 0%R.
Proof. unfold lit_value, number. cbn [l_neg l_int l_frac l_exp zero_lit]. replace (dval (["0"%char] ++ [])) with 0 by reflexivity. ring. Qed.

(** C79: an entry of a matrix *)
Lemma entry_reads pr eps u : decimal_printer pr eps -> finite u ->
  exists v, near eps u v /\ reads (entry_printd pr u) v.
Proof.
  intros Hpr (m & e & m' & e' & ->).
  assert (Z0 : forall e, dyadic 0 e = 0%R) by (intros; unfold dyadic; ring).
  assert (N0 : forall e, (Rabs (0 - dyadic 0 e) <= eps * Rabs (dyadic 0 e))%R).
  { intros x. rewrite Z0, Rminus_0_r, Rabs_R0. lra. }
  unfold entry_printd, is_zero. cbn [arf_sgn].
  destruct (Z.eq_dec m 0) as [->|Hm]; destruct (Z.eq_dec m' 0) as [->|Hm'].
  - exists (GNum 0 0). split; [exists 0, e, 0, e', 0%R, 0%R; refine (conj eq_refl (conj eq_refl (conj _ _))); auto|].
    cbn. rewrite <- value_zero at 1. apply (reads_literal zero_lit good_zero).
  - destruct (Hpr m' e' Hm') as (q & Hq & Ht & Hs & Hv).
    exists (GNum 0 (lit_value q)). split; [exists 0, e, m', e', 0%R, (lit_value q); refine (conj eq_refl (conj eq_refl (conj _ _))); auto|].
    assert (E : (Z.sgn m' =? 0) = false) by (apply Z.eqb_neq; intros A; apply (proj1 (Z.sgn_null_iff _)) in A; contradiction).
    change (Z.sgn 0 =? 0) with true. rewrite E. cbn [andb negb app]. rewrite Ht. apply reads_imag, Hq.
  - destruct (Hpr m e Hm) as (q & Hq & Ht & Hs & Hv).
    exists (GNum (lit_value q) 0). split; [exists m, e, 0, e', (lit_value q), 0%R; refine (conj eq_refl (conj eq_refl (conj _ _))); auto|].
    assert (E : (Z.sgn m =? 0) = false) by (apply Z.eqb_neq; intros A; apply (proj1 (Z.sgn_null_iff _)) in A; contradiction).
    change (Z.sgn 0 =? 0) with true. rewrite E. cbn. rewrite Ht, !app_nil_r. apply reads_literal, Hq.
  - destruct (Hpr m e Hm) as (p & Hp & Htp & _ & Hvp).
    destruct (Hpr m' e' Hm') as (q & Hq & Ht & Hs & Hv).
    exists (GNum (lit_value p) (lit_value q)). split; [exists m, e, m', e', (lit_value p), (lit_value q); refine (conj eq_refl (conj eq_refl (conj _ _))); auto|].
    assert (E : (Z.sgn m =? 0) = false) by (apply Z.eqb_neq; intros A; apply (proj1 (Z.sgn_null_iff _)) in A; contradiction).
    assert (E' : (Z.sgn m' =? 0) = false) by (apply Z.eqb_neq; intros A; apply (proj1 (Z.sgn_null_iff _)) in A; contradiction).
    rewrite E, E'. cbn [andb negb app]. rewrite Htp, Ht.
    pose proof (reads_both p q Hp Hq) as X.
    destruct (l_neg q) eqn:En.
    + assert (m' < 0) by (apply Hs; reflexivity).
      rewrite Z.sgn_neg by assumption. rewrite <- app_assoc. exact X.
    + assert (0 < m'). { destruct (Z.lt_trichotomy m' 0) as [A|[A|A]]; [|lia|exact A]. apply Hs in A. discriminate. }
      rewrite Z.sgn_pos by assumption. rewrite <- app_assoc. exact X.
Qed.

(** tokens of a row *)
Definition comma_toks (ets : list (list token)) : list token := flat_map (fun et => TSym "," :: et) ets.
Definition row_toks (ets : list (list token)) : list token :=
  match ets with [] => [] | et :: ets => et ++ comma_toks ets end.

Lemma vec_tail pr sepu u : sepu = txt ", " -> forall vs, Forall2 (fun x v => reads (entry_printd pr x) v) u vs ->
  exists ets, Forall2 (elem 20) ets vs /\ forall k r, 0 < k -> sepd r -> lex (vec_printd pr k u sepu ++ r) = comma_toks ets ++ lex r.
Proof.
  intros ->. induction u as [|x u IH]; intros vs H; inversion H as [|a v b vs' Hx Hu E1 E2]; subst.
  - exists []. split; [constructor|]. intros. reflexivity.
  - destruct (IH _ Hu) as (ets & He & Hl). destruct Hx as (et & Hel & Hxl).
    exists (et :: ets). split; [constructor; assumption|]. intros k r Hk Hr.
    cbn [vec_printd]. assert (Ek : is_zero k = false) by (apply Z.eqb_neq; lia). rewrite Ek. cbn [negb].
    cbn [txt list_ascii_of_string]. rewrite <- !app_assoc. cbn [app].
    rewrite lex_sym by reflexivity. rewrite lex_blank by reflexivity.
    cbn [comma_toks flat_map app]. f_equal. rewrite Hxl.
    + rewrite <- app_assoc. f_equal. apply Hl; [lia|exact Hr].
    + destruct u as [|y u]; [exact Hr|]. cbn [vec_printd].
      assert (Ek' : is_zero (k + 1) = false) by (apply Z.eqb_neq; lia). rewrite Ek'. cbn [negb txt list_ascii_of_string].
      eexists _, _. split; [reflexivity|auto].
Qed.

Lemma row_reads pr u vs : u <> [] -> Forall2 (fun x v => reads (entry_printd pr x) v) u vs ->
  exists ets, ets <> [] /\ Forall2 (elem 20) ets vs /\
    forall r, sepd r -> lex (vec_printd pr 0 u (txt ", ") ++ r) = row_toks ets ++ lex r.
Proof.
  intros Hne H. destruct H as [|x v u vs Hx Hu]; [congruence|].
  destruct Hx as (et & Hel & Hxl). destruct (vec_tail pr (txt ", ") u eq_refl vs Hu) as (ets & He & Hl).
  exists (et :: ets). split; [discriminate|]. split; [constructor; assumption|]. intros r Hr.
  cbn [vec_printd]. change (is_zero 0) with true. cbn [negb app row_toks]. rewrite <- !app_assoc. rewrite Hxl.
  - f_equal. apply Hl; [lia|exact Hr].
  - destruct u as [|y u]; [exact Hr|]. cbn [vec_printd]. change (is_zero (0 + 1)) with false. cbn [negb txt list_ascii_of_string].
    eexists _, _. split; [reflexivity|auto].
Qed.

(** the parser on a row *)
Lemma rows_close K ets : forall vs ts n, ets <> [] -> Forall2 (elem K) ets vs -> (K + List.length (row_toks ets) < n)%nat ->
  p_rows n (row_toks ets ++ TSym "]" :: ts) = Some ([vs], ts).
Proof.
  induction ets as [|et ets IH]; intros vs ts n Hne H Hn; [congruence|].
  inversion H as [|a v b vs' (Ho & He) Hu E1 E2]; subst. destruct n as [|n]; [lia|]. cbn [row_toks p_rows] in *.
  destruct ets as [|et' ets].
  - inversion Hu; subst. cbn [comma_toks flat_map]. rewrite app_nil_r in *. rewrite He; [reflexivity| |lia].
    eexists _, _. split; [reflexivity|auto].
  - rewrite <- app_assoc. rewrite He; [|eexists _, _; split; [reflexivity|auto]|rewrite app_length in Hn; lia].
    cbn [comma_toks flat_map app obind fst snd]. change (Ascii.eqb "," "]") with false.
    change (Ascii.eqb "," ";") with false. change (Ascii.eqb "," ",") with true. cbv iota.
    specialize (IH vs' ts n ltac:(discriminate) Hu). cbn [row_toks] in IH.
    unfold comma_toks in IH |- *. rewrite <- !app_assoc in IH |- *. cbn [app] in *. rewrite IH; [reflexivity|].
    unfold comma_toks in Hn. cbn [flat_map] in Hn. rewrite app_length in Hn. cbn [List.length app] in Hn.
    rewrite app_length in Hn |- *. lia.
Qed.

Lemma rows_next ets : forall vs ts rows ts' K n, ets <> [] -> Forall2 (elem 20) ets vs ->
  (forall k, (K <= k)%nat -> p_rows k ts = Some (rows, ts')) ->
  (20 + K + List.length (row_toks ets) < n)%nat ->
  p_rows n (row_toks ets ++ TSym ";" :: ts) = Some (vs :: rows, ts').
Proof.
  induction ets as [|et ets IH]; intros vs ts rows ts' K n Hne H HK Hn; [congruence|].
  inversion H as [|a v b vs' (Ho & He) Hu E1 E2]; subst. destruct n as [|n]; [lia|]. cbn [row_toks p_rows] in *.
  destruct ets as [|et' ets].
  - inversion Hu; subst. cbn [comma_toks flat_map]. rewrite app_nil_r in *. rewrite He; [| |lia].
    + cbn [obind fst snd]. change (Ascii.eqb ";" "]") with false. change (Ascii.eqb ";" ";") with true. cbv iota.
      rewrite HK by lia. reflexivity.
    + eexists _, _. split; [reflexivity|auto].
  - rewrite <- app_assoc. rewrite He; [|eexists _, _; split; [reflexivity|auto]|rewrite app_length in Hn; lia].
    cbn [comma_toks flat_map app obind fst snd]. change (Ascii.eqb "," "]") with false.
    change (Ascii.eqb "," ";") with false. change (Ascii.eqb "," ",") with true. cbv iota.
    specialize (IH vs' ts rows ts' K n ltac:(discriminate) Hu HK). cbn [row_toks] in IH.
    unfold comma_toks in IH |- *. rewrite <- !app_assoc in IH |- *. cbn [app] in *. rewrite IH; [reflexivity|].
    unfold comma_toks in Hn. cbn [flat_map] in Hn. rewrite app_length in Hn. cbn [List.length app] in Hn.
    rewrite app_length in Hn |- *. lia.
Qed.

Lemma row_toks_opens K ets vs : ets <> [] -> Forall2 (elem K) ets vs -> opens (row_toks ets).
Proof.
  intros Hne H. destruct H as [|et v ets vs ((t & r & -> & Ho) & _) _]; [congruence|].
  cbn. eexists _, _. split; [reflexivity|exact Ho].
Qed.

(** the parser on several rows *)
Definition row_ok (row : list (arf * arf)) (vs : list gval) (pr : arf -> text) : Prop :=
  row <> [] /\ Forall2 (fun x v => reads (entry_printd pr x) v) row vs.

Lemma mat_reads pr m : forall V, m <> [] -> Forall2 (fun row vs => row_ok row vs pr) m V ->
  exists ts, opens ts /\ (2 * List.length m <= List.length ts + 1)%nat /\
    (forall i r, (0 <= i) -> lex (rows_print pr i m ++ txt "]" ++ r) = (if i =? 0 then [] else [TSym ";"]) ++ ts ++ TSym "]" :: lex r) /\
    (forall n ts', (20 * List.length m + List.length ts < n)%nat -> p_rows n (ts ++ TSym "]" :: ts') = Some (V, ts')).
Proof.
  induction m as [|row m IH]; intros V Hne H; [congruence|].
  inversion H as [|a vs b V' (Hrow & Hr) Hm E1 E2]; subst.
  destruct (row_reads pr row vs Hrow Hr) as (ets & Hets & Hel & Hlex).
  assert (B : forall r, lex (txt "]" ++ r) = TSym "]" :: lex r) by (intros; apply lex_sym; reflexivity).
  assert (I0 : forall i t, lex ((if negb (is_zero i) then txt ";" else []) ++ t) = (if i =? 0 then [] else [TSym ";"]) ++ lex t).
  { intros i t. unfold is_zero. destruct (i =? 0); [reflexivity|]. cbn [negb txt list_ascii_of_string app]. apply lex_sym; reflexivity. }
  destruct m as [|row' m].
  - inversion Hm; subst. exists (row_toks ets). pose proof (row_toks_opens 20 ets vs Hets Hel) as Ho.
    split; [exact Ho|]. split; [destruct Ho as (t & q & -> & _); cbn; lia|]. split.
    + intros i r Hi. cbn [rows_print]. rewrite app_nil_r, <- app_assoc, I0. f_equal.
      rewrite Hlex by (eexists _, _; split; [reflexivity|auto]). rewrite B. reflexivity.
    + intros n ts' Hn. cbn [List.length] in Hn. apply (rows_close 20); [exact Hets|exact Hel|lia].
  - destruct (IH V' ltac:(discriminate) Hm) as (ts & Ho & Hlen & Hl & Hp).
    exists (row_toks ets ++ TSym ";" :: ts). split; [|split; [|split]].
    + destruct (row_toks_opens 20 ets vs Hets Hel) as (t & q & E & Ht). rewrite E. eexists _, _. split; [reflexivity|exact Ht].
    + destruct (row_toks_opens 20 ets vs Hets Hel) as (t & q & E & Ht). rewrite E, app_length. cbn [List.length] in *. lia.
    + intros i r Hi. change (rows_print pr i (row :: row' :: m)) with
        ((if negb (is_zero i) then txt ";" else []) ++ vec_printd pr 0 row (txt ", ") ++ rows_print pr (i + 1) (row' :: m)).
      rewrite <- !app_assoc, I0. f_equal. rewrite Hlex.
      * rewrite Hl by lia. replace (i + 1 =? 0) with false by (symmetry; apply Z.eqb_neq; lia).
        cbn [app]. rewrite <- ?app_assoc. reflexivity.
      * cbn [rows_print]. assert (E : is_zero (i + 1) = false) by (apply Z.eqb_neq; lia). rewrite E. cbn [negb txt list_ascii_of_string].
        eexists _, _. split; [reflexivity|auto].
    + intros n ts' Hn. rewrite <- app_assoc. cbn [app].
      apply (rows_next ets vs _ V' ts' (S (20 * List.length (row' :: m) + List.length ts))); [exact Hets|exact Hel| |].
      * intros k Hk. apply Hp. lia.
      * rewrite app_length in Hn. cbn [List.length] in Hn |- *. lia.
Qed.

(** a bracketed list at the top *)
Lemma top_bracket C ts V v : opens ts -> (forall n ts', (C + List.length ts < n)%nat -> p_rows n (ts ++ TSym "]" :: ts') = Some (V, ts')) ->
  bracket V = Some v -> (C <= 10 * List.length ts + 50)%nat ->
  match p_expr (20 * S (List.length (TSym "[" :: ts ++ [TSym "]"]))) (TSym "[" :: ts ++ [TSym "]"]) with
  | Some (w, []) => Some w | _ => None end = Some v.
Proof.
  intros (t & r & -> & Ho) Hp Hb Hlen.
  set (L := List.length (TSym "[" :: (t :: r) ++ [TSym "]"])).
  assert (HL : L = (S (S (List.length (t :: r))))) by (unfold L; cbn [List.length]; rewrite app_length; cbn; lia).
  replace (20 * S L)%nat with (S (S (S (20 * S L - 3))))%nat by lia.
  set (N := (20 * S L - 3)%nat).
  assert (HN : (C + List.length (t :: r) < N)%nat) by (unfold N; lia).
  cbn [p_expr]. change (Ascii.eqb "[" "-") with false. change (Ascii.eqb "[" "+") with false. cbv iota.
  assert (F : p_term (S (S N)) (TSym "[" :: (t :: r) ++ [TSym "]"]) = obind (p_factor (S N) (TSym "[" :: (t :: r) ++ [TSym "]"])) (fun r0 => p_prods (S N) (fst r0) (snd r0))) by reflexivity.
  rewrite F. clear F.
  assert (F : p_factor (S N) (TSym "[" :: (t :: r) ++ [TSym "]"]) = obind (p_rows N ((t :: r) ++ [TSym "]"])) (fun r => obind (bracket (fst r)) (fun v => Some (v, snd r)))).
  { cbn [p_factor app]. change (Ascii.eqb "[" "[") with true. cbv iota. destruct t as [x|w|c]; try reflexivity.
    destruct Ho as [->| ->]; reflexivity. }
  rewrite F, (Hp N [] HN). cbn [obind fst snd]. rewrite Hb. cbn [obind fst snd].
  change (p_prods (S N) v []) with (Some (v, @nil token)). cbn [obind fst snd]. reflexivity.
Qed.
