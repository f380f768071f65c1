From Coq Require Import String Ascii FunctionalExtensionality Permutation.
From Verif Require Import Base SpecParse ModelParse ProofParse ModelCli SpecCli.
Local Open Scope Z_scope.

Lemma memory_codes s : memory s = codes s ++ [0].
Proof. reflexivity. Qed.

Lemma atol_numeral s z : numeral s z -> atol s = Done z.
Proof.
  intros [Hr Hd]. unfold atol. rewrite memory_codes. destruct Hd as [Hd|(ds & E & Hd)].
  - rewrite (strtol_dec (codes s) z [0] Hd); [reflexivity|unfold slong_max; lia|reflexivity].
  - rewrite E. destruct Hd as (Hne & Hdig & Hv). cbn [app]. unfold strtol. cbn [skip_space].
    change (is_space 45) with false. cbn iota. cbn [bind].
    change (45 =? c_minus) with true. cbn [orb]. rewrite digits_app by (assumption || reflexivity). cbn [bind].
    unfold dec_value in Hv. rewrite Hv. destruct ds as [|c ds]; [congruence|]. cbn [bind fst].
    f_equal. unfold clamp, slong_min, slong_max. lia.
Qed.

Lemma set_coeff_ok p e c : 0 <= e < 2 ^ 62 -> set_coeff p e c = Done (fun k => if k =? e then c else p k).
Proof.
  intros H. unfold set_coeff. rewrite (proj2 (Z.ltb_ge e 0)) by lia.
  rewrite (proj2 (Z.leb_gt slong_max e)) by (unfold slong_max; lia). reflexivity.
Qed.

Lemma coeffs_ok : forall vals rest n j p, 0 <= j -> n < 2 ^ 62 -> Z.of_nat (length vals) = n + 1 - j ->
  (forall s z, In (s, z) vals -> numeral s z) ->
  coeffs_loop (map fst vals ++ rest) n j p =
    Done ((fun k => if (0 <=? k) && (k <=? n - j) then snd (nth (Z.to_nat (n - j - k)) vals (""%string, 0)) else p k), rest).
Proof.
  induction vals as [|[v z] vals IH]; intros rest n j p Hj Hn HL Hv; cbn [map fst app].
  - cbn in HL. assert (E : (fun k : Z => if (0 <=? k) && (k <=? n - j) then snd (nth (Z.to_nat (n - j - k)) [] (""%string, 0)) else p k) = p).
    { apply functional_extensionality. intros k. destruct ((0 <=? k) && (k <=? n - j)) eqn:B; [lia|reflexivity]. }
    rewrite E. destruct rest as [|v rest]; cbn [coeffs_loop]; [reflexivity|].
    rewrite (proj2 (Z.leb_gt j n)) by lia. reflexivity.
  - cbn [length] in HL. cbn [coeffs_loop]. rewrite (proj2 (Z.leb_le j n)) by lia.
    rewrite (atol_numeral v z) by (apply Hv; left; reflexivity). cbn [bind].
    rewrite set_coeff_ok by lia. cbn [bind]. rewrite IH; [|lia|lia|lia|intros s z' Hi; apply Hv; right; exact Hi].
    f_equal. f_equal. apply functional_extensionality. intros k.
    destruct ((0 <=? k) && (k <=? n - (j + 1))) eqn:B.
    + replace ((0 <=? k) && (k <=? n - j)) with true by lia.
      replace (Z.to_nat (n - j - k)) with (S (Z.to_nat (n - (j + 1) - k))) by lia. reflexivity.
    + destruct (Z.eqb_spec k (n - j)) as [->|Hk].
      * replace ((0 <=? n - j) && (n - j <=? n - j)) with true by lia.
        replace (n - j - (n - j)) with 0 by lia. reflexivity.
      * replace ((0 <=? k) && (k <=? n - j)) with false by lia. reflexivity.
Qed.

Lemma stoll_ok p : stoll p = Done (fun k => if (0 <=? k) && (k <=? 6) then nth (Z.to_nat k) stoll_coeffs 0 else p k).
Proof.
  unfold stoll. rewrite !set_coeff_ok by lia. cbn [bind]. repeat (rewrite set_coeff_ok by lia; cbn [bind]).
  f_equal. apply functional_extensionality. intros k. destruct ((0 <=? k) && (k <=? 6)) eqn:B.
  - assert (H : k = 0 \/ k = 1 \/ k = 2 \/ k = 3 \/ k = 4 \/ k = 5 \/ k = 6) by lia.
    destruct H as [-> | [-> | [-> | [-> | [-> | [-> | ->]]]]]]; reflexivity.
  - repeat match goal with |- context[k =? ?v] => rewrite (proj2 (Z.eqb_neq k v)) by lia end. reflexivity.
Qed.

(** ** flag word *)
Lemma lor_high a b c : 0 <= b < 512 -> 0 <= c < 512 ->
  Z.lor (512 * a + b) c = 512 * a + Z.lor b c /\ 0 <= Z.lor b c < 512.
Proof.
  intros Hb Hc.
  assert (Hhi : forall x k, 0 <= x < 512 -> 9 <= k -> Z.testbit x k = false).
  { intros x k Hx Hk. rewrite <- (Z.mod_small x (2 ^ 9)) by (cbn; lia). apply Z.mod_pow2_bits_high. lia. }
  assert (Hsum : forall x, 0 <= x < 512 -> 512 * a + x = Z.lor (Z.shiftl a 9) x).
  { intros x Hx. rewrite Z.shiftl_mul_pow2 by lia. change (2 ^ 9) with 512. rewrite (Z.mul_comm a 512).
    rewrite Z.add_nocarry_lxor, Z.lxor_lor; [reflexivity| |];
      (apply Z.bits_inj'; intros k Hk; rewrite Z.land_spec, Z.bits_0; destruct (Z_lt_ge_dec k 9) as [H|H];
       [|rewrite (Hhi x k Hx) by lia; apply andb_false_r];
       rewrite <- (Z.mul_comm a 512); change 512 with (2 ^ 9); rewrite Z.mul_pow2_bits_low by lia; reflexivity). }
  assert (Hr : 0 <= Z.lor b c < 512).
  { split; [apply Z.lor_nonneg; lia|]. change 512 with (2 ^ 9). destruct (Z.eq_dec (Z.lor b c) 0) as [E|E]; [rewrite E; reflexivity|].
    apply Z.log2_lt_pow2; [assert (0 <= Z.lor b c) by (apply Z.lor_nonneg; lia); lia|].
    rewrite Z.log2_lor by lia. apply Z.max_lub_lt.
    - destruct (Z.eq_dec b 0) as [->|]; [reflexivity|]. apply Z.log2_lt_pow2; cbn; lia.
    - destruct (Z.eq_dec c 0) as [->|]; [reflexivity|]. apply Z.log2_lt_pow2; cbn; lia. }
  split; [|exact Hr]. rewrite (Hsum b Hb), (Hsum _ Hr). symmetry. apply Z.lor_assoc.
Qed.

Lemma bit_range o : 0 <= onoff_bit o < 512.
Proof. destruct o; vm_compute; split; congruence. Qed.

(** union of the bits of the switches of a list *)
Definition bits (items : list item) (b : Z) : Z :=
  fold_left (fun b i => match i with Switch o => Z.lor b (onoff_bit o) | _ => b end) items b.

Lemma bits_range : forall items b, 0 <= b < 512 -> 0 <= bits items b < 512.
Proof.
  unfold bits. induction items as [|i items IH]; intros b Hb; [exact Hb|]. cbn [fold_left]. apply IH.
  destruct i; try exact Hb. apply (lor_high 0 b (onoff_bit o) Hb (bit_range o)).
Qed.

Lemma flag_value : forall items s a b, o_flag s = 512 * a + b -> 0 <= b < 512 ->
  o_flag (fold_left effect items s) = 512 * (a + 5 * verbosity items) + bits items b.
Proof.
  induction items as [|i items IH]; intros s a b Hs Hb; cbn [fold_left].
  - change (verbosity []) with 0. change (bits [] b) with b. lia.
  - assert (V : verbosity (i :: items) = (if is_verbose i then 1 else 0) + verbosity items).
    { unfold verbosity. cbn [filter]. destruct (is_verbose i); cbn [length]; lia. }
    unfold bits. cbn [fold_left].
    destruct i; rewrite V; cbn [is_verbose effect];
      try (rewrite (IH _ a b); [unfold bits; lia|exact Hs|exact Hb]).
    + rewrite (IH _ (a + 5) b); [unfold bits; lia|cbn [with_flag o_flag]; unfold AJ_VERBOSE; lia|exact Hb].
    + destruct (lor_high a b (onoff_bit o) Hb (bit_range o)) as [E R].
      rewrite (IH _ a (Z.lor b (onoff_bit o))); [unfold bits; lia| |exact R].
      cbn [with_flag o_flag]. rewrite Hs. exact E.
Qed.

(** ** one option *)
Ltac skip := repeat (match goal with |- context[String.eqb ?a ?b] => change (String.eqb a b) with false end; cbn iota).

Lemma round_item s i rest : well_formed i -> o_flag s + 2560 < 2 ^ 31 \/ is_verbose i = false ->
  exists a r, words i ++ rest = a :: r /\ round s a r = Done (Some (effect s i, rest)).
Proof.
  intros Hw Hf. destruct i as [|o|w z|w z|w z|w z|f w z|w z|w l|w z vals| | |].
  - exists "-v"%string, rest. split; [reflexivity|]. unfold round. cbn [String.eqb Ascii.eqb Bool.eqb].
    unfold AJ_VERBOSE. destruct Hf as [Hf|Hf]; [|discriminate].
    rewrite (proj2 (Z.leb_gt (2 ^ 31) (o_flag s + 2560))) by exact Hf. reflexivity.
  - exists (onoff_word o), rest. split; [reflexivity|]. destruct o; reflexivity.
  - exists "-m"%string, (w :: rest). split; [reflexivity|]. unfold round. cbn [String.eqb Ascii.eqb Bool.eqb next_number].
    rewrite (atol_numeral w z Hw). reflexivity.
  - exists "--prec"%string, (w :: rest). split; [reflexivity|]. unfold round. cbn [String.eqb Ascii.eqb Bool.eqb next_number].
    rewrite (atol_numeral w z Hw). reflexivity.
  - exists "--digits"%string, (w :: rest). split; [reflexivity|]. unfold round. cbn [String.eqb Ascii.eqb Bool.eqb next_number].
    rewrite (atol_numeral w z Hw). reflexivity.
  - exists "--bench"%string, (w :: rest). split; [reflexivity|]. unfold round. cbn [String.eqb Ascii.eqb Bool.eqb next_number].
    rewrite (atol_numeral w z Hw). reflexivity.
  - destruct f; eexists _, (w :: rest); (split; [reflexivity|]); unfold round; cbn [String.eqb Ascii.eqb Bool.eqb next_number];
      rewrite (atol_numeral w z Hw); reflexivity.
  - exists "--bernrev"%string, (w :: rest). split; [reflexivity|]. unfold round. cbn [String.eqb Ascii.eqb Bool.eqb next_number].
    rewrite (atol_numeral w z Hw). reflexivity.
  - exists "--pol"%string, (w :: rest). split; [reflexivity|]. unfold round. cbn [String.eqb Ascii.eqb Bool.eqb].
    destruct Hw as [Ht Hr]. rewrite memory_codes.
    destruct (parse_poly_text l (codes w) [] (o_poly s) Ht Hr) as (q & E & Hq). rewrite E. cbn [bind snd fst].
    assert (Eq : q = fun k => last_coeff l k (o_poly s k)) by (apply functional_extensionality; exact Hq).
    rewrite Eq. reflexivity.
  - exists "--coeffs"%string, (w :: map fst vals ++ rest). split; [reflexivity|]. unfold round. cbn [String.eqb Ascii.eqb Bool.eqb next_number].
    destruct Hw as (Hw & Hz & HL & Hv). rewrite (atol_numeral w z Hw). cbn [bind fst snd].
    rewrite (coeffs_ok vals rest z 0) by (try assumption; lia). cbn [bind fst snd].
    cbn [effect]. rewrite Z.sub_0_r. reflexivity.
  - exists "--stoll"%string, rest. split; [reflexivity|]. unfold round. cbn [String.eqb Ascii.eqb Bool.eqb].
    rewrite stoll_ok. reflexivity.
  - exists "--gp"%string, rest. split; reflexivity.
  - exists "--error"%string, rest. split; reflexivity.
Qed.

Lemma verbosity_cons i items : verbosity (i :: items) = (if is_verbose i then 1 else 0) + verbosity items.
Proof. unfold verbosity. cbn [filter]. destruct (is_verbose i); cbn [length]; lia. Qed.
Lemma verbosity_pos items : 0 <= verbosity items.
Proof. unfold verbosity. lia. Qed.

Lemma loop_items : forall items fuel s rest a b, Forall well_formed items ->
  o_flag s = 512 * a + b -> 0 <= b < 512 -> a + 5 * verbosity items <= 5 * 838860 ->
  (length (command items ++ rest) <= fuel)%nat ->
  exists fuel', (length rest <= fuel')%nat /\
    args_loop fuel s (command items ++ rest) = args_loop fuel' (fold_left effect items s) rest.
Proof.
  induction items as [|i items IH]; intros fuel s rest a b Hw Hs Hb Hv Hfuel.
  - exists fuel. split; [exact Hfuel|reflexivity].
  - inversion Hw as [|? ? Hi Hw']; subst. rewrite verbosity_cons in Hv. pose proof (verbosity_pos items) as Hp.
    unfold command in *. cbn [map concat] in *. rewrite <- app_assoc in *.
    destruct (round_item s i (concat (map words items) ++ rest) Hi) as (w & r & E & R).
    { destruct (is_verbose i); [left|right; reflexivity]. rewrite Hs. lia. }
    rewrite E in *. cbn [length] in Hfuel. destruct fuel as [|fuel]; [lia|]. cbn [args_loop]. rewrite R. cbn [bind fold_left].
    assert (HL : (length (concat (map words items) ++ rest) <= fuel)%nat).
    { apply (f_equal (@length string)) in E. rewrite app_length in E. cbn [length] in E.
      assert (1 <= length (words i))%nat by (destruct i as [| | | | | |[]| | | | | |]; cbn; lia). lia. }
    assert (G : exists a' b', o_flag (effect s i) = 512 * a' + b' /\ 0 <= b' < 512 /\ a' + 5 * verbosity items <= 5 * 838860).
    { destruct i; cbn [is_verbose] in Hv; cbn [effect with_flag with_m with_prec with_digits with_bench with_family with_poly with_printer o_flag];
        try (exists a, b; split; [exact Hs|]; split; [exact Hb|lia]).
      - exists (a + 5), b. split; [unfold AJ_VERBOSE; lia|]. split; [exact Hb|lia].
      - destruct (lor_high a b (onoff_bit o) Hb (bit_range o)) as [E1 R1]. exists a, (Z.lor b (onoff_bit o)).
        split; [rewrite Hs; exact E1|]. split; [exact R1|lia]. }
    destruct G as (a' & b' & G1 & G2 & G3). exact (IH fuel (effect s i) rest a' b' Hw' G1 G2 G3 HL).
Qed.

Lemma loop_command items : Forall well_formed items -> verbosity items <= 838860 ->
  args_loop (length (command items)) default (command items) = Done (Some (fold_left effect items default)).
Proof.
  intros Hw Hv. destruct (loop_items items (length (command items)) default [] 0 0 Hw eq_refl) as (f & _ & E).
  - lia.
  - lia.
  - rewrite app_nil_r. lia.
  - rewrite app_nil_r in E. rewrite E. destruct f; reflexivity.
Qed.

Lemma missing_value items a : Forall well_formed items -> verbosity items <= 838860 -> expects_value a ->
  args_loop (length (command items ++ [a])) default (command items ++ [a]) = Fault BadPointer.
Proof.
  intros Hw Hv Ha. destruct (loop_items items (length (command items ++ [a])) default [a] 0 0 Hw eq_refl) as (f & Hf & E); [lia|lia|lia|].
  rewrite E. destruct f as [|f]; [cbn in Hf; lia|].
  repeat (destruct Ha as [<-|Ha]; [reflexivity|]). contradiction.
Qed.

(** never out of fuel, whatever the words are *)
Lemma coeffs_loop_length : forall rest n j p q, coeffs_loop rest n j p = Done q -> (length (snd q) <= length rest)%nat.
Proof.
  induction rest as [|v rest IH]; intros n j p q H; cbn [coeffs_loop] in H.
  - injection H as <-. cbn. lia.
  - destruct (j <=? n); [|injection H as <-; cbn; lia].
    destruct (atol v); try discriminate. cbn [bind] in H. destruct (set_coeff _ _ _); try discriminate. cbn [bind] in H.
    apply IH in H. cbn [length]. lia.
Qed.
Lemma next_number_length rest q : next_number rest = Done q -> (length (snd q) <= length rest)%nat.
Proof. destruct rest as [|v rest]; [discriminate|]. cbn. destruct (atol v); try discriminate. cbn. intros H. injection H as <-. cbn. lia. Qed.

Lemma has_nul_memory s : exists l, strtol (memory s) = Done l.
Proof.
  destruct (strtol_safe (memory s)) as (v & l' & E & _).
  - rewrite memory_codes. induction (codes s) as [|c l IH]; [left; reflexivity|right; exact IH].
  - eexists. exact E.
Qed.
Lemma atol_done s : exists z, atol s = Done z.
Proof. unfold atol. destruct (has_nul_memory s) as ([z l] & E). rewrite E. eexists. reflexivity. Qed.

(** ** all command lines *)
Definition suffix (l' l : list string) : Prop := exists pre, l = pre ++ l'.
Lemma suffix_refl l : suffix l l. Proof. exists []. reflexivity. Qed.
Lemma suffix_cons v l' l : suffix l' l -> suffix l' (v :: l).
Proof. intros [pre ->]. exists (v :: pre). reflexivity. Qed.

Inductive mild {A : Type} : outcome A -> Prop :=
| mild_abort : mild Abort
| mild_index : mild (Fault BadIndex)
| mild_over : mild (Fault SignedOverflow).

Lemma set_coeff_cases p e c : (exists q, set_coeff p e c = Done q) \/ (@set_coeff p e c = Fault BadIndex \/ set_coeff p e c = Fault SignedOverflow).
Proof. unfold set_coeff. destruct (e <? 0); [auto|]. destruct (slong_max <=? e); eauto. Qed.

Lemma coeffs_cases : forall rest n j p, (exists q, coeffs_loop rest n j p = Done q /\ suffix (snd q) rest) \/ mild (coeffs_loop rest n j p).
Proof.
  induction rest as [|v rest IH]; intros n j p; cbn [coeffs_loop].
  - left. eexists. split; [reflexivity|apply suffix_refl].
  - destruct (j <=? n); [|left; eexists; split; [reflexivity|apply suffix_refl]].
    destruct (atol_done v) as [z E]. rewrite E. cbn [bind].
    destruct (set_coeff_cases p (n - j) z) as [[q Eq]|[Eq|Eq]]; rewrite Eq; cbn [bind]; [|right; constructor..].
    destruct (IH n (j + 1) q) as [(q' & E' & Hs)|H]; [left|right; exact H].
    exists q'. split; [exact E'|apply suffix_cons, Hs].
Qed.

Lemma number_cases rest : (exists z v r, rest = v :: r /\ next_number rest = Done (z, r)) \/ (rest = [] /\ next_number rest = Fault BadPointer).
Proof.
  destruct rest as [|v r]; [right; split; reflexivity|left]. destruct (atol_done v) as [z E].
  exists z, v, r. split; [reflexivity|]. cbn. rewrite E. reflexivity.
Qed.

Inductive round_result (a : string) (rest : list string) : outcome (option (config * list string)) -> Prop :=
| rr_usage : round_result a rest (Done None)
| rr_next s' rest' : suffix rest' rest -> round_result a rest (Done (Some (s', rest')))
| rr_mild r : mild r -> round_result a rest r
| rr_null : rest = [] -> expects_value a -> round_result a rest (Fault BadPointer).

Lemma number_round a rest (f : Z -> config) : expects_value a ->
  round_result a rest (do r <- next_number rest; Done (Some (f (fst r), snd r))).
Proof.
  intros Ha. destruct (number_cases rest) as [(z & v & r & -> & E)|[-> E]]; rewrite E; cbn [bind fst snd].
  - apply rr_next. apply suffix_cons, suffix_refl.
  - apply rr_null; [reflexivity|exact Ha].
Qed.
Lemma switch_round a rest s b : round_result a rest (switch s b rest).
Proof. apply rr_next, suffix_refl. Qed.

Ltac ev := unfold expects_value; cbn [In]; repeat (try (left; reflexivity); right).
Lemma round_cases s a rest : round_result a rest (round s a rest).
Proof.
  unfold round.
  destruct (String.eqb_spec a "-v") as [->|_].
  { destruct (2 ^ 31 <=? o_flag s + AJ_VERBOSE); [apply rr_mild; constructor|apply rr_next, suffix_refl]. }
  destruct (String.eqb_spec a "-m") as [->|_]; [apply (number_round _ _ (with_m s)); ev|].
  destruct (String.eqb_spec a "--prec") as [->|_]; [apply (number_round _ _ (with_prec s)); ev|].
  destruct (String.eqb_spec a "--de") as [->|_]; [apply switch_round|].
  destruct (String.eqb_spec a "--desame") as [->|_]; [apply switch_round|].
  destruct (String.eqb_spec a "--rootdef") as [->|_]; [apply switch_round|].
  destruct (String.eqb_spec a "--rootprod") as [->|_]; [apply switch_round|].
  destruct (String.eqb_spec a "--rootturn") as [->|_]; [apply switch_round|].
  destruct (String.eqb_spec a "--xn1") as [->|_]; [apply (number_round _ _ (fun z => with_family s z Xn1 (o_rev s))); ev|].
  destruct (String.eqb_spec a "--exp") as [->|_]; [apply (number_round _ _ (fun z => with_family s z Exp (o_rev s))); ev|].
  destruct (String.eqb_spec a "--bern") as [->|_]; [apply (number_round _ _ (fun z => with_family s z Bern (o_rev s))); ev|].
  destruct (String.eqb_spec a "--bernrev") as [->|_]; [apply (number_round _ _ (fun z => with_family s z Bern true)); ev|].
  destruct (String.eqb_spec a "--pol") as [->|_].
  { destruct rest as [|v r]; [apply rr_null; [reflexivity|ev]|]. rewrite memory_codes.
    pose proof (parse_safe (o_poly s) (codes v) []) as H. destruct H as [q b| |]; cbn [bind snd fst]; [|apply rr_mild; constructor..].
    destruct b; [apply rr_next, suffix_cons, suffix_refl|apply rr_mild; constructor]. }
  destruct (String.eqb_spec a "--coeffs") as [->|_].
  { destruct (number_cases rest) as [(z & v & r & -> & E)|[-> E]]; rewrite E; cbn [bind fst snd]; [|apply rr_null; [reflexivity|ev]].
    destruct (coeffs_cases r z 0 (o_poly s)) as [(q & Eq & Hs)|H].
    - rewrite Eq. cbn [bind]. apply rr_next, suffix_cons, Hs.
    - apply rr_mild. destruct H; cbn [bind]; constructor. }
  destruct (String.eqb_spec a "--stoll") as [->|_]; [rewrite stoll_ok; cbn [bind]; apply rr_next, suffix_refl|].
  destruct (String.eqb_spec a "--big") as [->|_]; [apply switch_round|].
  destruct (String.eqb_spec a "--int") as [->|_]; [apply switch_round|].
  destruct (String.eqb_spec a "--tree") as [->|_]; [apply switch_round|].
  destruct (String.eqb_spec a "--gp") as [->|_]; [apply rr_next, suffix_refl|].
  destruct (String.eqb_spec a "--error") as [->|_]; [apply rr_next, suffix_refl|].
  destruct (String.eqb_spec a "--trim") as [->|_]; [apply switch_round|].
  destruct (String.eqb_spec a "--digits") as [->|_]; [apply (number_round _ _ (with_digits s)); ev|].
  destruct (String.eqb_spec a "--bench") as [->|_]; [apply (number_round _ _ (fun z => with_bench s (to_int z))); ev|].
  apply rr_usage.
Qed.

Lemma loop_cases : forall fuel args s, (length args <= fuel)%nat ->
  (exists r, args_loop fuel s args = Done r) \/ mild (args_loop fuel s args) \/
  (args_loop fuel s args = Fault BadPointer /\ exists pre a, args = pre ++ [a] /\ expects_value a).
Proof.
  induction fuel as [|fuel IH]; intros args s HL; destruct args as [|a rest]; cbn [args_loop];
    try (left; eexists; reflexivity); [cbn in HL; lia|].
  destruct (round_cases s a rest) as [|s' rest' [pre ->]|r Hr| -> Ha]; cbn [bind].
  - left. eexists. reflexivity.
  - cbn [length] in HL. rewrite app_length in HL.
    destruct (IH rest' s') as [H|[H|(H & pre' & a' & -> & Ha)]]; [lia|left; exact H|right; left; exact H|].
    right. right. split; [exact H|]. exists (a :: pre ++ pre'), a'. split; [cbn; rewrite <- app_assoc; reflexivity|exact Ha].
  - right. left. destruct Hr; cbn [bind]; constructor.
  - right. right. split; [reflexivity|]. exists [], a. split; [reflexivity|exact Ha].
Qed.

(** ** polynomials *)
Lemma numer_ok : forall num k p, 0 <= k -> k + Z.of_nat (length num) < 2 ^ 62 ->
  poly_numer num k p = Done (fun i => if (k <=? i) && (i <? k + Z.of_nat (length num)) then nth (Z.to_nat (i - k)) num 0 else p i).
Proof.
  induction num as [|c num IH]; intros k p Hk HL; cbn [poly_numer length] in *.
  - f_equal. apply functional_extensionality. intros i. replace ((k <=? i) && (i <? k + Z.of_nat 0)) with false by lia. reflexivity.
  - rewrite set_coeff_ok by lia. cbn [bind]. rewrite IH by lia. f_equal. apply functional_extensionality. intros i.
    destruct ((k + 1 <=? i) && (i <? k + 1 + Z.of_nat (length num))) eqn:B.
    + replace ((k <=? i) && (i <? k + Z.of_nat (S (length num)))) with true by lia.
      replace (Z.to_nat (i - k)) with (S (Z.to_nat (i - (k + 1)))) by lia. reflexivity.
    + destruct (Z.eqb_spec i k) as [->|Hi].
      * replace ((k <=? k) && (k <? k + Z.of_nat (S (length num)))) with true by lia. rewrite Z.sub_diag. reflexivity.
      * replace ((k <=? i) && (i <? k + Z.of_nat (S (length num)))) with false by lia. reflexivity.
Qed.

Lemma fact_pos n : 0 < fact n.
Proof. induction n as [|n IH]; cbn [fact]; [lia|]. nia. Qed.

Lemma exp_poly p n : 1 <= n < 2 ^ 61 ->
  pol_exp p n = Done (fun i => if (0 <=? i) && (i <? n) then fact (Z.to_nat (n - 1)) / fact (Z.to_nat i) else p i).
Proof.
  intros Hn. unfold pol_exp. rewrite numer_ok; unfold exp_numerators; rewrite ?map_length, ?seq_length; [|lia|lia].
  f_equal. apply functional_extensionality. intros i. rewrite Z.sub_0_r, Z2Nat.id by lia. cbn [Z.add].
  destruct ((0 <=? i) && (i <? n)) eqn:B; [|reflexivity].
  replace (Z.to_nat n - 1)%nat with (Z.to_nat (n - 1)) by lia.
  rewrite nth_indep with (d' := (fun k => fact (Z.to_nat (n - 1)) / fact k) 0%nat) by (rewrite map_length, seq_length; lia).
  rewrite map_nth with (f := fun k => fact (Z.to_nat (n - 1)) / fact k). rewrite seq_nth by lia. reflexivity.
Qed.

(** options that do not choose the polynomial leave it alone *)
Lemma effect_other : forall items s, forallb (fun i => negb (about_polynomial i)) items = true ->
  let s' := fold_left effect items s in
  o_poly s' = o_poly s /\ o_family s' = o_family s /\ o_n s' = o_n s /\ o_rev s' = o_rev s.
Proof.
  induction items as [|i items IH]; intros s H; cbn [fold_left]; [repeat split|].
  cbn [forallb] in H. apply andb_true_iff in H. destruct H as [Hi H]. specialize (IH (effect s i) H).
  cbn zeta in *. destruct IH as (E1 & E2 & E3 & E4). rewrite E1, E2, E3, E4.
  destruct i; cbn in Hi; try discriminate; repeat split.
Qed.

Lemma main_items bern items : items <> [] -> Forall well_formed items -> verbosity items <= 838860 ->
  main_args bern (command items) =
    do p <- final_poly bern (fold_left effect items default); Done (Some (fold_left effect items default, p)).
Proof.
  intros Hne Hw Hv. unfold main_args. rewrite (loop_command items Hw Hv).
  destruct (command items) eqn:E; [|reflexivity]. exfalso. destruct items as [|i items]; [congruence|].
  unfold command in E. cbn in E. destruct i as [| | | | | |[]| | | | | |]; discriminate.
Qed.

(** one polynomial option among others *)
Lemma one_polynomial bern pre i post : Forall well_formed (pre ++ i :: post) -> verbosity (pre ++ i :: post) <= 838860 ->
  forallb (fun i => negb (about_polynomial i)) (pre ++ post) = true ->
  exists s, o_poly (effect default i) = o_poly s /\ o_family (effect default i) = o_family s /\
    (about_polynomial i = true -> o_n (effect default i) = o_n s /\ o_rev (effect default i) = o_rev s) /\
    main_args bern (command (pre ++ i :: post)) = do p <- final_poly bern s; Done (Some (s, p)).
Proof.
  intros Hw Hv Ho. rewrite forallb_app in Ho. apply andb_true_iff in Ho. destruct Ho as [Hpre Hpost].
  exists (fold_left effect (pre ++ i :: post) default).
  rewrite main_items; [|destruct pre; discriminate|exact Hw|exact Hv].
  rewrite fold_left_app. cbn [fold_left].
  destruct (effect_other post (effect (fold_left effect pre default) i) Hpost) as (E1 & E2 & E3 & E4).
  destruct (effect_other pre default Hpre) as (F1 & F2 & F3 & F4).
  rewrite E1, E2, E3, E4.
  destruct i; cbn [effect with_flag with_m with_prec with_digits with_bench with_family with_poly with_printer o_poly o_family o_n o_rev about_polynomial];
    rewrite ?F1, ?F2, ?F3, ?F4; repeat split; reflexivity.
Qed.

(** order of switches *)
Lemma bits_testbit : forall items b k, 0 <= k ->
  Z.testbit (bits items b) k = Z.testbit b k || existsb (fun i => match i with Switch o => Z.testbit (onoff_bit o) k | _ => false end) items.
Proof.
  unfold bits. induction items as [|i items IH]; intros b k Hk; cbn [fold_left existsb]; [rewrite orb_false_r; reflexivity|].
  rewrite IH by exact Hk. destruct i; try reflexivity. rewrite Z.lor_spec, orb_assoc. reflexivity.
Qed.
Lemma low_testbit a b k : 0 <= b < 512 -> 0 <= k < 9 -> Z.testbit (512 * a + b) k = Z.testbit b k.
Proof.
  intros Hb Hk. rewrite <- (Z.mod_pow2_bits_low (512 * a + b) 9 k) by lia.
  replace ((512 * a + b) mod 2 ^ 9) with b; [reflexivity|].
  change (2 ^ 9) with 512. rewrite Z.add_comm, Z.mul_comm, Z_mod_plus_full, Z.mod_small by lia. reflexivity.
Qed.
Lemma bit_of o : exists k, 0 <= k < 9 /\ onoff_bit o = 2 ^ k.
Proof.
  destruct o; [exists 0|exists 8|exists 5|exists 7|exists 6|exists 1|exists 2|exists 3|exists 4]; split; (lia || reflexivity).
Qed.
Lemma bit_inj o o' k : 0 <= k -> onoff_bit o = 2 ^ k -> Z.testbit (onoff_bit o') k = true -> o' = o.
Proof.
  intros Hk E. destruct (bit_of o') as (k' & Hk' & E'). rewrite E'. intros T.
  destruct (Z.eq_dec k' k) as [->|Hne].
  - rewrite <- E in E'. destruct o, o'; try reflexivity; discriminate.
  - rewrite Z.pow2_bits_false in T by lia. discriminate.
Qed.

Lemma flag_test items o : Forall well_formed items -> (0 <=? verbosity items) = true ->
  (Z.land (o_flag (fold_left effect items default)) (onoff_bit o) <> 0 <-> In (Switch o) items).
Proof.
  intros _ _. destruct (bit_of o) as (k & Hk & E).
  rewrite (flag_value items default 0 0 eq_refl) by lia.
  assert (T : Z.land (512 * (0 + 5 * verbosity items) + bits items 0) (onoff_bit o) <> 0 <->
              Z.testbit (bits items 0) k = true).
  { rewrite <- (low_testbit (0 + 5 * verbosity items) (bits items 0) k (bits_range items 0 (conj (Z.le_refl 0) eq_refl)) Hk).
    set (f := 512 * _ + _). rewrite E. split; intros H.
    - destruct (Z.testbit f k) eqn:B; [reflexivity|]. exfalso. apply H. apply Z.bits_inj'. intros j Hj.
      rewrite Z.land_spec, Z.bits_0. destruct (Z.eq_dec j k) as [->|Hne]; [rewrite B; reflexivity|].
      rewrite Z.pow2_bits_false by lia. apply andb_false_r.
    - intros A. apply (f_equal (fun z => Z.testbit z k)) in A. rewrite Z.land_spec, H, Z.bits_0, Z.pow2_bits_true in A by lia. discriminate. }
  rewrite T, bits_testbit, Z.bits_0 by lia. cbn [orb]. rewrite existsb_exists. split.
  - intros (i & Hi & B). destruct i; try discriminate. apply (bit_inj o o0 k) in B; [subst; exact Hi|lia|exact E].
  - intros Hi. exists (Switch o). split; [exact Hi|]. rewrite E. apply Z.pow2_bits_true. lia.
Qed.

Lemma flag_verbose items : AJ_VERBOSE <= o_flag (fold_left effect items default) <-> In Verbose items.
Proof.
  rewrite (flag_value items default 0 0 eq_refl) by lia. pose proof (bits_range items 0 (conj (Z.le_refl 0) eq_refl)) as Hb.
  unfold AJ_VERBOSE, verbosity. split; intros H.
  - destruct (filter is_verbose items) as [|i l] eqn:E; [cbn [length] in H; lia|].
    assert (Hi : In i (filter is_verbose items)) by (rewrite E; left; reflexivity). apply filter_In in Hi.
    destruct Hi as [Hi Hv]. destruct i; try discriminate. exact Hi.
  - assert (Hi : In Verbose (filter is_verbose items)) by (apply filter_In; split; [exact H|reflexivity]).
    destruct (filter is_verbose items) as [|i l]; [contradiction|]. cbn [length]. lia.
Qed.

Lemma flag_perm items items' : Permutation items items' ->
  o_flag (fold_left effect items default) = o_flag (fold_left effect items' default).
Proof.
  intros HP. rewrite !(flag_value _ default 0 0 eq_refl) by lia.
  assert (V : verbosity items = verbosity items').
  { unfold verbosity. f_equal. apply Permutation_length. clear -HP. induction HP; cbn [filter]; try reflexivity.
    - destruct (is_verbose x); [apply perm_skip|]; assumption.
    - destruct (is_verbose x), (is_verbose y); try reflexivity. apply perm_swap.
    - etransitivity; eassumption. }
  rewrite V. f_equal. apply Z.bits_inj'. intros k Hk. rewrite !bits_testbit by exact Hk. f_equal.
  apply Bool.eq_iff_eq_true. rewrite !existsb_exists. split; intros (i & Hi & B); exists i; split; try exact B.
  - apply (Permutation_in _ HP Hi).
  - apply (Permutation_in _ (Permutation_sym HP) Hi).
Qed.

(** ** the families *)
Lemma no_polynomial bern items : items <> [] -> Forall well_formed items -> verbosity items <= 838860 ->
  forallb (fun i => negb (about_polynomial i)) items = true ->
  exists s, main_args bern (command items) =
    Done (Some (s, fun k => if k =? 5 then 1 else if k =? 0 then -1 else 0)).
Proof.
  intros Hne Hw Hv Ho. rewrite main_items by assumption. destruct (effect_other items default Ho) as (E1 & E2 & E3 & E4).
  eexists. unfold final_poly. rewrite E2, E1, E3, E4. cbn [o_family o_poly o_n o_rev default]. unfold pol_xn1.
  rewrite set_coeff_ok by lia. cbn [bind]. rewrite set_coeff_ok by lia. cbn [bind]. reflexivity.
Qed.

Lemma coeffs_poly bern pre w n vals post :
  let items := pre ++ Coeffs w n vals :: post in
  Forall well_formed items -> verbosity items <= 838860 -> forallb (fun i => negb (about_polynomial i)) (pre ++ post) = true ->
  exists s p, main_args bern (command items) = Done (Some (s, p)) /\
    forall k, p k = if (0 <=? k) && (k <=? n) then snd (nth (Z.to_nat (n - k)) vals (""%string, 0)) else 0.
Proof.
  intros items Hw Hv Ho. destruct (one_polynomial bern pre _ post Hw Hv Ho) as (s & E1 & E2 & E3 & E).
  destruct (E3 eq_refl) as [E4 E5]. unfold items. rewrite E. unfold final_poly. rewrite <- E1, <- E2, <- E5.
  cbn [effect with_poly o_family o_poly o_rev default bind]. do 2 eexists. split; [reflexivity|]. intros k. reflexivity.
Qed.

Lemma xn1_poly bern pre w n post : 0 < n < 2 ^ 62 ->
  let items := pre ++ Family Xn1 w n :: post in
  Forall well_formed items -> verbosity items <= 838860 -> forallb (fun i => negb (about_polynomial i)) (pre ++ post) = true ->
  exists s p, main_args bern (command items) = Done (Some (s, p)) /\
    forall k, p k = if k =? n then 1 else if k =? 0 then -1 else 0.
Proof.
  intros Hn items Hw Hv Ho. destruct (one_polynomial bern pre _ post Hw Hv Ho) as (s & E1 & E2 & E3 & E).
  destruct (E3 eq_refl) as [E4 E5]. unfold items. rewrite E. unfold final_poly. rewrite <- E1, <- E2, <- E4, <- E5.
  cbn [effect with_family o_family o_poly o_rev o_n default]. unfold pol_xn1. rewrite set_coeff_ok by lia. cbn [bind].
  rewrite set_coeff_ok by lia. cbn [bind]. do 2 eexists. split; [reflexivity|]. intros k. reflexivity.
Qed.

Lemma exp_poly_main bern pre w n post : 0 < n < 2 ^ 61 ->
  let items := pre ++ Family Exp w n :: post in
  Forall well_formed items -> verbosity items <= 838860 -> forallb (fun i => negb (about_polynomial i)) (pre ++ post) = true ->
  exists s p, main_args bern (command items) = Done (Some (s, p)) /\
    forall k, p k = if (0 <=? k) && (k <? n) then fact (Z.to_nat (n - 1)) / fact (Z.to_nat k) else 0.
Proof.
  intros Hn items Hw Hv Ho. destruct (one_polynomial bern pre _ post Hw Hv Ho) as (s & E1 & E2 & E3 & E).
  destruct (E3 eq_refl) as [E4 E5]. unfold items. rewrite E. unfold final_poly. rewrite <- E1, <- E2, <- E4, <- E5.
  cbn [effect with_family o_family o_poly o_rev o_n default]. rewrite exp_poly by lia. cbn [bind].
  do 2 eexists. split; [reflexivity|]. intros k. reflexivity.
Qed.

Lemma bern_poly_main bern pre w n post : 0 <= n < 2 ^ 61 -> length (bern (Z.to_nat n)) = S (Z.to_nat n) ->
  let items := pre ++ Family Bern w n :: post in
  Forall well_formed items -> verbosity items <= 838860 -> forallb (fun i => negb (about_polynomial i)) (pre ++ post) = true ->
  exists s p, main_args bern (command items) = Done (Some (s, p)) /\
    forall k, p k = if 0 <=? k then nth (Z.to_nat k) (bern (Z.to_nat n)) 0 else 0.
Proof.
  intros Hn Hl items Hw Hv Ho. destruct (one_polynomial bern pre _ post Hw Hv Ho) as (s & E1 & E2 & E3 & E).
  destruct (E3 eq_refl) as [E4 E5]. unfold items. rewrite E. unfold final_poly. rewrite <- E1, <- E2, <- E4, <- E5.
  cbn [effect with_family o_family o_poly o_rev o_n default]. unfold pol_bern. rewrite (proj2 (Z.ltb_ge n 0)) by lia.
  rewrite numer_ok by lia. cbn [bind].
  do 2 eexists. split; [reflexivity|]. intros k. cbn beta. rewrite Hl, Z.sub_0_r.
  destruct (0 <=? k) eqn:B; [|reflexivity]. cbn [andb].
  destruct (k <? 0 + Z.of_nat (S (Z.to_nat n))) eqn:B2; [reflexivity|]. rewrite nth_overflow by lia. reflexivity.
Qed.

Lemma bernrev_poly_main bern pre w n post : 0 <= n < 2 ^ 61 -> length (bern (Z.to_nat n)) = S (Z.to_nat n) ->
  let items := pre ++ BernRev w n :: post in
  Forall well_formed items -> verbosity items <= 838860 -> forallb (fun i => negb (about_polynomial i)) (pre ++ post) = true ->
  exists s p, main_args bern (command items) = Done (Some (s, p)) /\
    forall k, p k = if (0 <=? k) && (k <? n) then nth (Z.to_nat (n - 1 - k)) (bern (Z.to_nat n)) 0 else 0.
Proof.
  intros Hn Hl items Hw Hv Ho. destruct (one_polynomial bern pre _ post Hw Hv Ho) as (s & E1 & E2 & E3 & E).
  destruct (E3 eq_refl) as [E4 E5]. unfold items. rewrite E. unfold final_poly. rewrite <- E1, <- E2, <- E4, <- E5.
  cbn [effect with_family o_family o_poly o_rev o_n default]. unfold pol_bern. rewrite (proj2 (Z.ltb_ge n 0)) by lia.
  rewrite numer_ok by lia. cbn [bind].
  do 2 eexists. split; [reflexivity|]. intros k. unfold poly_reverse. rewrite Hl, Z.sub_0_r.
  destruct ((0 <=? k) && (k <? n)) eqn:B; [|reflexivity].
  replace ((0 <=? n - 1 - k) && (n - 1 - k <? 0 + Z.of_nat (S (Z.to_nat n)))) with true by lia. reflexivity.
Qed.

Lemma stoll_xn1 bern w n : 6 <> n -> 0 < n < 2 ^ 62 -> numeral w n ->
  exists s p, main_args bern (command [Stoll; Family Xn1 w n]) = Done (Some (s, p)) /\ p 6 = 82342800.
Proof.
  intros Hn Hn' Hw. rewrite (main_items bern [Stoll; Family Xn1 w n]); [|discriminate|constructor; [exact I|constructor; [exact Hw|constructor]]|discriminate].
  cbn [fold_left]. unfold final_poly. cbn [effect with_family with_poly o_family o_poly o_rev o_n default].
  unfold pol_xn1. rewrite set_coeff_ok by lia. cbn [bind]. rewrite set_coeff_ok by lia. cbn [bind].
  do 2 eexists. split; [reflexivity|]. cbn beta. rewrite (proj2 (Z.eqb_neq 6 n) Hn). reflexivity.
Qed.

Lemma main_cases bern args :
  main_args bern args <> OutOfFuel /\ main_args bern args <> Fault OutOfBounds /\
  (main_args bern args = Fault BadPointer -> exists pre a, args = pre ++ [a] /\ expects_value a).
Proof.
  unfold main_args. destruct args as [|a args]; [repeat split; discriminate|].
  destruct (loop_cases (length (a :: args)) (a :: args) default (Nat.le_refl _)) as [[r E]|[H|[E H]]].
  - rewrite E. cbn [bind]. destruct r as [s|]; [|repeat split; discriminate].
    assert (P : forall num k p, (exists q, poly_numer num k p = Done q) \/ mild (poly_numer num k p)).
    { induction num as [|c num IH]; intros k p; cbn [poly_numer]; [left; eexists; reflexivity|].
      destruct (set_coeff_cases p k c) as [[q Eq]|[Eq|Eq]]; rewrite Eq; cbn [bind]; [apply IH|right; constructor..]. }
    assert (F : (exists p, final_poly bern s = Done p) \/ mild (final_poly bern s) \/ final_poly bern s = Fault HugeAlloc).
    { unfold final_poly. destruct (o_family s) as [[]|]; cbn [bind].
      - unfold pol_xn1. destruct (set_coeff_cases (o_poly s) 0 (-1)) as [[q Eq]|[Eq|Eq]]; rewrite Eq; cbn [bind]; [|right; left; constructor..].
        destruct (set_coeff_cases q (o_n s) 1) as [[q' Eq']|[Eq'|Eq']]; rewrite Eq'; cbn [bind]; [left; eexists; reflexivity|right; left; constructor..].
      - unfold pol_exp. destruct (P (exp_numerators (Z.to_nat (o_n s))) 0 (o_poly s)) as [[q Eq]|H]; [rewrite Eq; left; eexists; reflexivity|].
        right. left. destruct H; cbn [bind]; constructor.
      - unfold pol_bern. destruct (o_n s <? 0); [right; right; reflexivity|].
        destruct (P (bern (Z.to_nat (o_n s))) 0 (o_poly s)) as [[q Eq]|H]; [rewrite Eq; left; eexists; reflexivity|].
        right. left. destruct H; cbn [bind]; constructor.
      - left. eexists. reflexivity. }
    destruct F as [[p F]|[F|F]].
    + rewrite F. repeat split; discriminate.
    + destruct F; cbn [bind]; repeat split; discriminate.
    + rewrite F. repeat split; discriminate.
  - destruct H; cbn [bind]; repeat split; discriminate.
  - rewrite E. cbn [bind]. repeat split; try discriminate. intros _. exact H.
Qed.

Lemma missing_main bern items a : Forall well_formed items -> verbosity items <= 838860 -> expects_value a ->
  main_args bern (command items ++ [a]) = Fault BadPointer.
Proof.
  intros Hw Hv Ha. unfold main_args. rewrite (missing_value items a Hw Hv Ha).
  destruct (command items ++ [a]) eqn:E; [|reflexivity]. destruct (command items); discriminate.
Qed.

Lemma decimal_numeral s z : 0 <= z <= 9223372036854775807 -> decimal (codes s) z -> numeral s z.
Proof. intros H Hd. split; [lia|left; exact Hd]. Qed.

Lemma fact_div n k : (k <= n)%nat -> fact n / fact k * fact k = fact n.
Proof.
  intros H. rewrite Z.mul_comm. symmetry. apply Z_div_exact_full_2; [pose proof (fact_pos k); lia|].
  apply Z.mod_divide; [pose proof (fact_pos k); lia|]. induction H as [|n H IH]; [apply Z.divide_refl|].
  cbn [fact]. apply Z.divide_mul_r, IH.
Qed.
Lemma exp_degree bern pre w n post : 0 < n < 2 ^ 61 ->
  let items := pre ++ Family Exp w n :: post in
  Forall well_formed items -> verbosity items <= 838860 -> forallb (fun i => negb (about_polynomial i)) (pre ++ post) = true ->
  exists s p, main_args bern (command items) = Done (Some (s, p)) /\
    (forall k, 0 <= k < n -> p k * fact (Z.to_nat k) = fact (Z.to_nat (n - 1))) /\ (forall k, n <= k -> p k = 0).
Proof.
  intros Hn items Hw Hv Ho. destruct (exp_poly_main bern pre w n post Hn Hw Hv Ho) as (s & p & E & Hp).
  exists s, p. split; [exact E|]. split; intros k Hk; rewrite Hp.
  - replace ((0 <=? k) && (k <? n)) with true by lia. apply fact_div. lia.
  - replace ((0 <=? k) && (k <? n)) with false by lia. reflexivity.
Qed.

Lemma method_choice items m n : Forall well_formed items ->
  int_type m n (o_flag (fold_left effect items default)) =
    if existsb (fun i => match i with Switch De => true | _ => false end) items then INT_DE
    else if (2 <? m) && (2 <? n) then INT_DE else if m =? 2 then INT_GC else INT_D2.
Proof.
  intros Hw. unfold int_type. pose proof (flag_test items De Hw (proj2 (Z.leb_le _ _) (verbosity_pos items))) as H.
  change (onoff_bit De) with AJ_USE_DE in H.
  destruct (existsb _ items) eqn:B.
  - apply existsb_exists in B. destruct B as (i & Hi & B). destruct i as [|[]| | | | | | | | | | |]; try discriminate.
    apply H in Hi. rewrite (proj2 (Z.eqb_neq _ _) Hi). reflexivity.
  - destruct (Z.eqb_spec (Z.land (o_flag (fold_left effect items default)) AJ_USE_DE) 0) as [E|E]; [reflexivity|].
    exfalso. apply H in E. assert (T : existsb (fun i => match i with Switch De => true | _ => false end) items = true).
    { apply existsb_exists. exists (Switch De). split; [exact E|reflexivity]. } congruence.
Qed.

(** C52: the other settings *)
Lemma last_set_fold {A} (f : item -> option A) (g : config -> A) :
  (forall s i, g (effect s i) = match f i with Some x => x | None => g s end) ->
  forall items s, g (fold_left effect items s) = last_set f items (g s).
Proof.
  intros H items. induction items as [|i items IH]; intros s; [reflexivity|].
  cbn [fold_left]. rewrite IH, H. reflexivity.
Qed.

Lemma to_int_of z : int_of z (to_int z).
Proof.
  unfold int_of, to_int. change (2 ^ 31) with 2147483648. change (2 ^ 32) with 4294967296.
  pose proof (Z.mod_pos_bound (z + 2147483648) 4294967296 ltac:(lia)). split; [lia|].
  replace (z - ((z + 2147483648) mod 4294967296 - 2147483648)) with (z + 2147483648 - (z + 2147483648) mod 4294967296) by ring.
  rewrite Zminus_mod_idemp_r. rewrite Z.sub_diag. reflexivity.
Qed.

Lemma run_set items : forall s, (exists z, int_of z (o_run s) /\ z = o_run s) ->
  int_of (last_set bench_set items (o_run s)) (o_run (fold_left effect items s)).
Proof.
  assert (G : forall items v s, int_of v (o_run s) -> int_of (last_set bench_set items v) (o_run (fold_left effect items s))).
  { clear items. induction items as [|i items IH]; intros v s H; [exact H|]. unfold last_set. cbn [fold_left].
    apply IH. destruct i as [| | | | | |[]| | | | | |]; try exact H. apply to_int_of. }
  intros s (z & H & ->). apply G. exact H.
Qed.

Lemma settings_main bern items s p : items <> [] -> Forall well_formed items -> verbosity items <= 838860 ->
  main_args bern (command items) = Done (Some (s, p)) ->
  o_m s = last_set m_set items 2 /\ o_prec s = last_set prec_set items 128 /\
  o_digits s = last_set digits_set items 0 /\ o_printer s = last_set printer_set items PrintD /\
  o_print s = negb (existsb (fun i => match i with Bench _ _ => true | _ => false end) items) /\
  int_of (last_set bench_set items 1) (o_run s).
Proof.
  intros Hne Hw Hv E. rewrite main_items in E by assumption.
  destruct (final_poly bern (fold_left effect items default)) as [q| | |]; try discriminate. cbn [bind] in E.
  injection E as <- _.
  split; [|split; [|split; [|split; [|split]]]].
  - apply (last_set_fold m_set o_m). intros s [| | | | | |[]| | | | | |]; reflexivity.
  - apply (last_set_fold prec_set o_prec). intros s [| | | | | |[]| | | | | |]; reflexivity.
  - apply (last_set_fold digits_set o_digits). intros s [| | | | | |[]| | | | | |]; reflexivity.
  - apply (last_set_fold printer_set o_printer). intros s [| | | | | |[]| | | | | |]; reflexivity.
  - assert (G : forall items s, o_print (fold_left effect items s) = o_print s && negb (existsb (fun i => match i with Bench _ _ => true | _ => false end) items)).
    { clear. induction items as [|i items IH]; intros s; [cbn; rewrite andb_true_r; reflexivity|].
      cbn [fold_left existsb]. rewrite IH. destruct i as [| | | | | |[]| | | | | |]; cbn [effect o_print with_flag with_m with_prec with_digits with_bench with_family with_poly with_printer orb negb]; try reflexivity.
      rewrite andb_false_r. reflexivity. }
    rewrite G. reflexivity.
  - apply (run_set items default). exists 1. split; [|reflexivity]. split; [cbn; lia|reflexivity].
Qed.
