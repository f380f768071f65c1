(** C48, C51, C52: the command line.  Statements only. *)
From Coq Require Import String Ascii Permutation.
From Verif Require Import Base SpecParse ModelParse ModelCli SpecCli ProofCli.
Local Open Scope Z_scope.

Local Notation settings items := (fold_left effect items default).
Local Notation not_polynomial := (fun i => negb (about_polynomial i)).

Lemma numeral_5 : numeral "5" 5.
Proof. split; [lia|left]. split; [discriminate|]. split; [|reflexivity]. intros c [<-|[]]. cbn; lia. Qed.
Lemma numeral_m3 : numeral "-3" (-3).
Proof.
  split; [lia|right]. exists [51]. split; [reflexivity|]. split; [discriminate|]. split; [|reflexivity].
  intros c [<-|[]]. lia.
Qed.

(** ** C48 *)
(** Each switch tests as set exactly when it was given, whatever else was given and however often;
    in particular repeating -v changes no switch. *)
Theorem C48_switch_set :
  forall items o, Forall well_formed items ->
    (Z.land (o_flag (settings items)) (onoff_bit o) <> 0 <-> In (Switch o) items).
Proof. intros items o H. exact (flag_test items o H (proj2 (Z.leb_le _ _) (verbosity_pos items))). Qed.
Print Assumptions C48_switch_set.

(** The program is verbose exactly when -v was given. *)
Theorem C48_verbose :
  forall items, AJ_VERBOSE <= o_flag (settings items) <-> In Verbose items.
Proof. exact flag_verbose. Qed.
Print Assumptions C48_verbose.

(** The order of the options does not matter for the switches. *)
Theorem C48_any_order :
  forall items items', Permutation items items' -> o_flag (settings items) = o_flag (settings items').
Proof. exact flag_perm. Qed.
Print Assumptions C48_any_order.

(** The integration method depends on m, n and --de only. *)
Theorem C48_method :
  forall items m n, Forall well_formed items ->
    int_type m n (o_flag (settings items)) =
      if existsb (fun i => match i with Switch De => true | _ => false end) items then INT_DE
      else if (2 <? m) && (2 <? n) then INT_DE else if m =? 2 then INT_GC else INT_D2.
Proof. exact method_choice. Qed.
Print Assumptions C48_method.

(** The command line is read as the settings: C51_well_formed_partial below. *)
Example C48_example :
  Forall well_formed [Verbose; Switch De; SetM "5" 5; Verbose; Switch Trim] /\
  o_flag (settings [Verbose; Switch De; SetM "5" 5; Verbose; Switch Trim]) = 2 * 2560 + 1 + 16.
Proof. split; [|reflexivity]. repeat (constructor; [exact I || exact numeral_5|]). constructor. Qed.

(** ** C51 *)
(** A command line of well formed options, each followed by the values it expects, is read
    entirely and yields the settings the options mean. *)
Theorem C51_well_formed_partial :
  forall items, Forall well_formed items -> verbosity items <= 838860 ->
    args_loop (length (command items)) default (command items) = Done (Some (settings items)).
Proof. exact loop_command. Qed.
Print Assumptions C51_well_formed_partial.

(** For any words at all: the loop ends, no byte is read outside of an argument, and the null
    pointer that ends the argument vector is only read when the last argument is an option that
    expects a value. *)
Theorem C51_any_words_partial :
  forall bern args,
    main_args bern args <> OutOfFuel /\ main_args bern args <> Fault OutOfBounds /\
    (main_args bern args = Fault BadPointer -> exists pre a, args = pre ++ [a] /\ expects_value a).
Proof. exact main_cases. Qed.
Print Assumptions C51_any_words_partial.

(** It is read then: after any well formed options, an option without its value. *)
Theorem C51_missing_value_refuted :
  forall bern items a, Forall well_formed items -> verbosity items <= 838860 -> expects_value a ->
    main_args bern (command items ++ [a]) = Fault BadPointer.
Proof. exact missing_main. Qed.
Print Assumptions C51_missing_value_refuted.

Example C51_example :
  Forall well_formed [SetM "5" 5; Gp] /\ verbosity [SetM "5" 5; Gp] <= 838860 /\ expects_value "--pol" /\
  main_args (fun _ => []) ["-m"; "5"; "--gp"; "--pol"]%string = Fault BadPointer.
Proof.
  split; [|split; [discriminate|split; [|reflexivity]]].
  - repeat (constructor; [exact I || exact numeral_5|]). constructor.
  - unfold expects_value. cbn [In]. tauto.
Qed.

(** ** C52 *)
(** --coeffs n cn ... c0 gives cn x^n + ... + c0, wherever it stands among options that do not
    choose a polynomial. *)
Theorem C52_coeffs :
  forall bern pre w n vals post,
    Forall well_formed (pre ++ Coeffs w n vals :: post) -> verbosity (pre ++ Coeffs w n vals :: post) <= 838860 ->
    forallb not_polynomial (pre ++ post) = true ->
    exists s p, main_args bern (command (pre ++ Coeffs w n vals :: post)) = Done (Some (s, p)) /\
      forall k, p k = if (0 <=? k) && (k <=? n) then snd (nth (Z.to_nat (n - k)) vals (""%string, 0)) else 0.
Proof. exact coeffs_poly. Qed.
Print Assumptions C52_coeffs.

Example C52_coeffs_example :
  let items := [Verbose] ++ Coeffs "5" 5 [("5", 5); ("-3", -3); ("5", 5); ("5", 5); ("-3", -3); ("5", 5)]%string :: [Gp] in
  Forall well_formed items /\ verbosity items <= 838860 /\ forallb not_polynomial ([Verbose] ++ [Gp]) = true.
Proof.
  split; [|split; [discriminate|reflexivity]]. cbn [app]. constructor; [exact I|]. constructor; [|constructor; [exact I|constructor]].
  split; [exact numeral_5|]. split; [lia|]. split; [reflexivity|]. intros s z H. cbn in H.
  repeat (destruct H as [H|H]; [injection H as <- <-; exact numeral_5 || exact numeral_m3|]). contradiction.
Qed.

(** --xn1 n gives x^n - 1. *)
Theorem C52_xn1 :
  forall bern pre w n post, 0 < n < 2 ^ 62 ->
    Forall well_formed (pre ++ Family Xn1 w n :: post) -> verbosity (pre ++ Family Xn1 w n :: post) <= 838860 ->
    forallb not_polynomial (pre ++ post) = true ->
    exists s p, main_args bern (command (pre ++ Family Xn1 w n :: post)) = Done (Some (s, p)) /\
      forall k, p k = if k =? n then 1 else if k =? 0 then -1 else 0.
Proof. exact xn1_poly. Qed.
Print Assumptions C52_xn1.

(** --bern n gives the numerators of the Bernoulli polynomial of the library, all n + 1 of them. *)
Theorem C52_bern :
  forall bern pre w n post, 0 <= n < 2 ^ 61 -> length (bern (Z.to_nat n)) = S (Z.to_nat n) ->
    Forall well_formed (pre ++ Family Bern w n :: post) -> verbosity (pre ++ Family Bern w n :: post) <= 838860 ->
    forallb not_polynomial (pre ++ post) = true ->
    exists s p, main_args bern (command (pre ++ Family Bern w n :: post)) = Done (Some (s, p)) /\
      forall k, p k = if 0 <=? k then nth (Z.to_nat k) (bern (Z.to_nat n)) 0 else 0.
Proof. exact bern_poly_main. Qed.
Print Assumptions C52_bern.

(** --exp n is documented as the sum of x^k/k!; its degree is n - 1 instead of n. *)
Theorem C52_exp_degree_refuted :
  forall bern pre w n post, 0 < n < 2 ^ 61 ->
    Forall well_formed (pre ++ Family Exp w n :: post) -> verbosity (pre ++ Family Exp w n :: post) <= 838860 ->
    forallb not_polynomial (pre ++ post) = true ->
    exists s p, main_args bern (command (pre ++ Family Exp w n :: post)) = Done (Some (s, p)) /\
      (forall k, 0 <= k < n -> p k * fact (Z.to_nat k) = fact (Z.to_nat (n - 1))) /\ (forall k, n <= k -> p k = 0).
Proof. exact exp_degree. Qed.
Print Assumptions C52_exp_degree_refuted.

(** --bernrev n is documented as x^n Bn(1/x), whose coefficient of x^k is that of x^(n-k) in Bn; the
    program takes that of x^(n-1-k): the leading coefficient of Bn is dropped. *)
Theorem C52_bernrev_refuted :
  forall bern pre w n post, 0 <= n < 2 ^ 61 -> length (bern (Z.to_nat n)) = S (Z.to_nat n) ->
    Forall well_formed (pre ++ BernRev w n :: post) -> verbosity (pre ++ BernRev w n :: post) <= 838860 ->
    forallb not_polynomial (pre ++ post) = true ->
    exists s p, main_args bern (command (pre ++ BernRev w n :: post)) = Done (Some (s, p)) /\
      forall k, p k = if (0 <=? k) && (k <? n) then nth (Z.to_nat (n - 1 - k)) (bern (Z.to_nat n)) 0 else 0.
Proof. exact bernrev_poly_main. Qed.
Print Assumptions C52_bernrev_refuted.

Example C52_families_example : forall i, In i [Family Xn1 "5" 5; Family Bern "5" 5; Family Exp "5" 5; BernRev "5" 5] ->
  Forall well_formed ([Verbose] ++ i :: [Gp]) /\ verbosity ([Verbose] ++ i :: [Gp]) <= 838860 /\
  forallb not_polynomial ([Verbose] ++ [Gp]) = true.
Proof.
  intros i H. cbn in H. repeat (destruct H as [<-|H]; [split; [|split; [discriminate|reflexivity]];
    repeat (constructor; [exact I || exact numeral_5|]); constructor|]). contradiction.
Qed.

(** Without an option on the polynomial it is documented as x^5 + 1 and is x^5 - 1. *)
Theorem C52_default_refuted :
  forall bern items, items <> [] -> Forall well_formed items -> verbosity items <= 838860 ->
    forallb not_polynomial items = true ->
    exists s, main_args bern (command items) = Done (Some (s, fun k => if k =? 5 then 1 else if k =? 0 then -1 else 0)).
Proof. exact no_polynomial. Qed.
Print Assumptions C52_default_refuted.

(** The exponent, the precision, the number of digits and the output format are those of the last
    option that sets them, by default 2, 128, 0 (chosen from the precision) and balls; the result
    is printed unless --bench is given, and computed once or as often as --bench says. *)
Theorem C52_settings :
  forall bern items s p, items <> [] -> Forall well_formed items -> verbosity items <= 838860 ->
    main_args bern (command items) = Done (Some (s, p)) ->
    o_m s = last_set m_set items 2 /\ o_prec s = last_set prec_set items 128 /\
    o_digits s = last_set digits_set items 0 /\ o_printer s = last_set printer_set items PrintD /\
    o_print s = negb (existsb (fun i => match i with Bench _ _ => true | _ => false end) items) /\
    int_of (last_set bench_set items 1) (o_run s).
Proof. exact settings_main. Qed.
Print Assumptions C52_settings.

Example C52_settings_example :
  let items := [SetM "5" 5; Gp; SetPrec "5" 5; Error; SetM "-3" (-3)] in
  Forall well_formed items /\ verbosity items <= 838860 /\
  (exists s p, main_args (fun _ => []) (command items) = Done (Some (s, p))) /\
  last_set m_set items 2 = -3 /\ last_set prec_set items 128 = 5 /\ last_set printer_set items PrintD = PrintError.
Proof.
  split; [|split; [discriminate|]].
  - repeat (constructor; [exact I || exact numeral_5 || exact numeral_m3|]). constructor.
  - split; [eexists _, _; reflexivity|]. repeat split; reflexivity.
Qed.

(** Coefficients of an earlier polynomial stay: --stoll --xn1 n is not x^n - 1. *)
Theorem C52_leftover_refuted :
  forall bern w n, 6 <> n -> 0 < n < 2 ^ 62 -> numeral w n ->
    exists s p, main_args bern (command [Stoll; Family Xn1 w n]) = Done (Some (s, p)) /\ p 6 = 82342800.
Proof. exact stoll_xn1. Qed.
Print Assumptions C52_leftover_refuted.

(** Two documented options are not recognised: the usage message is printed. *)
Theorem C52_documented_option_refuted :
  forall bern rest, main_args bern ("--exprev" :: rest)%string = Done None /\ main_args bern ("--quiet" :: rest)%string = Done None.
Proof. intros bern rest. split; reflexivity. Qed.
Print Assumptions C52_documented_option_refuted.
