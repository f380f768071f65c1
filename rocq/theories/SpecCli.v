(** Command lines as lists of options, and what each option means. *)
From Coq Require Import String Ascii.
From Verif Require Import Base SpecParse ModelParse ModelCli.
Local Open Scope Z_scope.

Definition codes (s : string) : list Z := map (fun a => Z.of_N (N_of_ascii a)) (list_ascii_of_string s).

(** [s] is a decimal notation of the integer z, of machine size *)
Definition numeral (s : string) (z : Z) : Prop :=
  - 9223372036854775807 <= z <= 9223372036854775807 /\
  (decimal (codes s) z \/ exists ds, codes s = 45 :: ds /\ decimal ds (- z)).

Inductive onoff := De | DeSame | RootDef | RootProd | RootTurn | Big | Int | Tree | Trim.

(** an option with its values; a number is kept with the word that denotes it *)
Inductive item :=
| Verbose
| Switch (o : onoff)
| SetM (s : string) (z : Z)
| SetPrec (s : string) (z : Z)
| SetDigits (s : string) (z : Z)
| Bench (s : string) (z : Z)
| Family (f : family) (s : string) (z : Z)
| BernRev (s : string) (z : Z)
| PolText (s : string) (l : list (Z * Z))
| Coeffs (s : string) (z : Z) (vals : list (string * Z))
| Stoll
| Gp
| Error.

Definition onoff_word (o : onoff) : string :=
  match o with
  | De => "--de" | DeSame => "--desame" | RootDef => "--rootdef" | RootProd => "--rootprod"
  | RootTurn => "--rootturn" | Big => "--big" | Int => "--int" | Tree => "--tree" | Trim => "--trim"
  end.
Definition onoff_bit (o : onoff) : Z :=
  match o with
  | De => AJ_USE_DE | DeSame => AJ_DE_SAME | RootDef => AJ_ROOT_DEF | RootProd => AJ_ROOT_PROD
  | RootTurn => AJ_ROOT_TURN | Big => AJ_NO_TAU | Int => AJ_NO_AB | Tree => AJ_NO_INT | Trim => AJ_TRIM
  end.

(** the words of the command line *)
Definition words (i : item) : list string :=
  match i with
  | Verbose => ["-v"]
  | Switch o => [onoff_word o]
  | SetM s _ => ["-m"; s]
  | SetPrec s _ => ["--prec"; s]
  | SetDigits s _ => ["--digits"; s]
  | Bench s _ => ["--bench"; s]
  | Family Xn1 s _ => ["--xn1"; s]
  | Family Exp s _ => ["--exp"; s]
  | Family Bern s _ => ["--bern"; s]
  | BernRev s _ => ["--bernrev"; s]
  | PolText s _ => ["--pol"; s]
  | Coeffs s _ vals => "--coeffs" :: s :: map fst vals
  | Stoll => ["--stoll"]
  | Gp => ["--gp"]
  | Error => ["--error"]
  end%string.

(** numbers are numbers, the text of a polynomial denotes it, --coeffs n has n + 1 values *)
Definition well_formed (i : item) : Prop :=
  match i with
  | SetM s z | SetPrec s z | SetDigits s z | Bench s z | Family _ s z | BernRev s z => numeral s z
  | PolText s l => poly_text l (codes s) /\ in_range l
  | Coeffs s z vals => numeral s z /\ 0 <= z < 2 ^ 31 - 1 /\ Z.of_nat (length vals) = z + 1 /\
      forall s z, In (s, z) vals -> numeral s z
  | _ => True
  end.

Definition is_verbose (i : item) : bool := match i with Verbose => true | _ => false end.
(** number of -v; beyond 838860 of them the flag word overflows *)
Definition verbosity (items : list item) : Z := Z.of_nat (length (filter is_verbose items)).

Definition stoll_coeffs : list Z := [247747600; -985905640; 567207969; 2396040466; 52485681; -470135160; 82342800].

(** effect of an option on the settings.  Coefficients of polynomials are set on top of those
    already there. *)
Definition effect (s : config) (i : item) : config :=
  match i with
  | Verbose => with_flag s (o_flag s + AJ_VERBOSE)
  | Switch o => with_flag s (Z.lor (o_flag s) (onoff_bit o))
  | SetM _ z => with_m s z
  | SetPrec _ z => with_prec s z
  | SetDigits _ z => with_digits s z
  | Bench _ z => with_bench s (to_int z)
  | Family f _ z => with_family s z f (o_rev s)
  | BernRev _ z => with_family s z Bern true
  | PolText _ l => with_poly s (o_n s) (fun k => last_coeff l k (o_poly s k))
  | Coeffs _ z vals => with_poly s z (fun k =>
      if (0 <=? k) && (k <=? z) then snd (nth (Z.to_nat (z - k)) vals (""%string, 0)) else o_poly s k)
  | Stoll => with_poly s (o_n s) (fun k => if (0 <=? k) && (k <=? 6) then nth (Z.to_nat k) stoll_coeffs 0 else o_poly s k)
  | Gp => with_printer s PrintGP
  | Error => with_printer s PrintError
  end.

(** options that choose the polynomial *)
Definition about_polynomial (i : item) : bool :=
  match i with Family _ _ _ | BernRev _ _ | PolText _ _ | Coeffs _ _ _ | Stoll => true | _ => false end.

(** options that expect a value *)
Definition expects_value (a : string) : Prop :=
  In a ["-m"; "--prec"; "--digits"; "--bench"; "--xn1"; "--exp"; "--bern"; "--bernrev"; "--pol"; "--coeffs"]%string.

(** the command line made of the words of the options *)
Definition command (items : list item) : list string := concat (map words items).

(** the value that the last option of a kind sets, d when there is none *)
Definition last_set {A} (f : item -> option A) (items : list item) (d : A) : A :=
  fold_left (fun v i => match f i with Some x => x | None => v end) items d.
Definition m_set (i : item) := match i with SetM _ z => Some z | _ => None end.
Definition prec_set (i : item) := match i with SetPrec _ z => Some z | _ => None end.
Definition digits_set (i : item) := match i with SetDigits _ z => Some z | _ => None end.
Definition bench_set (i : item) := match i with Bench _ z => Some z | _ => None end.
Definition printer_set (i : item) := match i with Gp => Some PrintGP | Error => Some PrintError | _ => None end.
(** r is z converted to a 32-bit int *)
Definition int_of (z r : Z) : Prop := - 2147483648 <= r <= 2147483647 /\ (z - r) mod 4294967296 = 0.
