(** Model of the command line program: arb/example/periods.c:9-43 and 70-217, with the flags of
    arb/abel_jacobi.h:170-181. *)
From Coq Require Import String Ascii.
From Verif Require Import Base ModelParse.
Local Open Scope Z_scope.

(** abel_jacobi.h:170-181 *)
Definition AJ_USE_DE := 1.
Definition AJ_NO_TAU := 2.
Definition AJ_NO_AB := 4.
Definition AJ_NO_INT := 8.
Definition AJ_TRIM := 16.
Definition AJ_ROOT_DEF := 32.
Definition AJ_ROOT_TURN := 64.
Definition AJ_ROOT_PROD := 128.
Definition AJ_DE_SAME := 256.
Definition AJ_VERBOSE := 2560.

(** an argument in memory *)
Definition memory (s : string) : text := map (fun a => Z.of_N (N_of_ascii a)) (list_ascii_of_string s) ++ [0].
(** C library atol *)
Definition atol (s : string) : outcome Z := do r <- strtol (memory s); Done (fst r).
(** conversion of a slong to int (two's complement) *)
Definition to_int (z : Z) : Z := (z + 2 ^ 31) mod 2 ^ 32 - 2 ^ 31.

Inductive printer := PrintD | PrintGP | PrintError.
Inductive family := Xn1 | Exp | Bern.

(** local variables of main, periods.c:72-77 *)
Record config := {
  o_print : bool; o_flag : Z; o_run : Z; o_rev : bool;
  o_n : Z; o_m : Z; o_prec : Z; o_digits : Z;
  o_printer : printer; o_family : option family; o_poly : poly }.
Definition default : config :=
  {| o_print := true; o_flag := 0; o_run := 1; o_rev := false; o_n := 5; o_m := 2; o_prec := 128;
     o_digits := 0; o_printer := PrintD; o_family := Some Xn1; o_poly := fun _ => 0 |}.

Definition with_flag (s : config) f := {| o_print := o_print s; o_flag := f; o_run := o_run s; o_rev := o_rev s;
  o_n := o_n s; o_m := o_m s; o_prec := o_prec s; o_digits := o_digits s; o_printer := o_printer s; o_family := o_family s; o_poly := o_poly s |}.
Definition with_m (s : config) v := {| o_print := o_print s; o_flag := o_flag s; o_run := o_run s; o_rev := o_rev s;
  o_n := o_n s; o_m := v; o_prec := o_prec s; o_digits := o_digits s; o_printer := o_printer s; o_family := o_family s; o_poly := o_poly s |}.
Definition with_prec (s : config) v := {| o_print := o_print s; o_flag := o_flag s; o_run := o_run s; o_rev := o_rev s;
  o_n := o_n s; o_m := o_m s; o_prec := v; o_digits := o_digits s; o_printer := o_printer s; o_family := o_family s; o_poly := o_poly s |}.
Definition with_digits (s : config) v := {| o_print := o_print s; o_flag := o_flag s; o_run := o_run s; o_rev := o_rev s;
  o_n := o_n s; o_m := o_m s; o_prec := o_prec s; o_digits := v; o_printer := o_printer s; o_family := o_family s; o_poly := o_poly s |}.
Definition with_printer (s : config) v := {| o_print := o_print s; o_flag := o_flag s; o_run := o_run s; o_rev := o_rev s;
  o_n := o_n s; o_m := o_m s; o_prec := o_prec s; o_digits := o_digits s; o_printer := v; o_family := o_family s; o_poly := o_poly s |}.
Definition with_bench (s : config) v := {| o_print := false; o_flag := o_flag s; o_run := v; o_rev := o_rev s;
  o_n := o_n s; o_m := o_m s; o_prec := o_prec s; o_digits := o_digits s; o_printer := o_printer s; o_family := o_family s; o_poly := o_poly s |}.
Definition with_family (s : config) n f r := {| o_print := o_print s; o_flag := o_flag s; o_run := o_run s; o_rev := r;
  o_n := n; o_m := o_m s; o_prec := o_prec s; o_digits := o_digits s; o_printer := o_printer s; o_family := Some f; o_poly := o_poly s |}.
Definition with_poly (s : config) n p := {| o_print := o_print s; o_flag := o_flag s; o_run := o_run s; o_rev := o_rev s;
  o_n := n; o_m := o_m s; o_prec := o_prec s; o_digits := o_digits s; o_printer := o_printer s; o_family := None; o_poly := p |}.

(** atol(argv[i++]) on the remaining arguments: argv[argc] is NULL *)
Definition next_number (rest : list string) : outcome (Z * list string) :=
  match rest with
  | [] => Fault BadPointer
  | v :: rest => do z <- atol v; Done (z, rest)
  end.

(** periods.c:135-136; j counts up while n - j counts down *)
Fixpoint coeffs_loop (rest : list string) (n j : Z) (p : poly) : outcome (poly * list string) :=
  match rest with
  | [] => Done (p, [])
  | v :: rest' =>
      if j <=? n then
        do z <- atol v;
        do p <- set_coeff p (n - j) z;
        coeffs_loop rest' n (j + 1) p
      else Done (p, rest)
  end.

(** periods.c:142-148 *)
Definition stoll (p : poly) : outcome poly :=
  do p <- set_coeff p 6 82342800;
  do p <- set_coeff p 5 (- 470135160);
  do p <- set_coeff p 4 52485681;
  do p <- set_coeff p 3 2396040466;
  do p <- set_coeff p 2 567207969;
  do p <- set_coeff p 1 (- 985905640);
  set_coeff p 0 247747600.

(** flag |= b *)
Definition switch (s : config) (b : Z) (rest : list string) : outcome (option (config * list string)) :=
  Done (Some (with_flag s (Z.lor (o_flag s) b), rest)).

(** periods.c:84-178, one round; [None]: the usage message *)
Definition round (s : config) (a : string) (rest : list string) : outcome (option (config * list string)) :=
  if String.eqb a "-v" then
    if 2 ^ 31 <=? o_flag s + AJ_VERBOSE then Fault SignedOverflow
    else Done (Some (with_flag s (o_flag s + AJ_VERBOSE), rest))
  else if String.eqb a "-m" then do r <- next_number rest; Done (Some (with_m s (fst r), snd r))
  else if String.eqb a "--prec" then do r <- next_number rest; Done (Some (with_prec s (fst r), snd r))
  else if String.eqb a "--de" then switch s AJ_USE_DE rest
  else if String.eqb a "--desame" then switch s AJ_DE_SAME rest
  else if String.eqb a "--rootdef" then switch s AJ_ROOT_DEF rest
  else if String.eqb a "--rootprod" then switch s AJ_ROOT_PROD rest
  else if String.eqb a "--rootturn" then switch s AJ_ROOT_TURN rest
  else if String.eqb a "--xn1" then do r <- next_number rest; Done (Some (with_family s (fst r) Xn1 (o_rev s), snd r))
  else if String.eqb a "--exp" then do r <- next_number rest; Done (Some (with_family s (fst r) Exp (o_rev s), snd r))
  else if String.eqb a "--bern" then do r <- next_number rest; Done (Some (with_family s (fst r) Bern (o_rev s), snd r))
  else if String.eqb a "--bernrev" then do r <- next_number rest; Done (Some (with_family s (fst r) Bern true, snd r))
  else if String.eqb a "--pol" then
    match rest with
    | [] => Fault BadPointer
    | v :: rest =>
        do r <- poly_parse (o_poly s) (memory v);
        if snd r then Done (Some (with_poly s (o_n s) (fst r), rest)) else Abort
    end
  else if String.eqb a "--coeffs" then
    do r <- next_number rest;
    do q <- coeffs_loop (snd r) (fst r) 0 (o_poly s);
    Done (Some (with_poly s (fst r) (fst q), snd q))
  else if String.eqb a "--stoll" then do p <- stoll (o_poly s); Done (Some (with_poly s (o_n s) p, rest))
  else if String.eqb a "--big" then switch s AJ_NO_TAU rest
  else if String.eqb a "--int" then switch s AJ_NO_AB rest
  else if String.eqb a "--tree" then switch s AJ_NO_INT rest
  else if String.eqb a "--gp" then Done (Some (with_printer s PrintGP, rest))
  else if String.eqb a "--error" then Done (Some (with_printer s PrintError, rest))
  else if String.eqb a "--trim" then switch s AJ_TRIM rest
  else if String.eqb a "--digits" then do r <- next_number rest; Done (Some (with_digits s (fst r), snd r))
  else if String.eqb a "--bench" then do r <- next_number rest; Done (Some (with_bench s (to_int (fst r)), snd r))
  else Done None.

(** the loop; one round consumes an argument at least *)
Fixpoint args_loop (fuel : nat) (s : config) (args : list string) : outcome (option config) :=
  match args with
  | [] => Done (Some s)
  | a :: rest =>
      match fuel with
      | O => OutOfFuel
      | S fuel =>
          do r <- round s a rest;
          match r with
          | None => Done None
          | Some (s, rest) => args_loop fuel s rest
          end
      end
  end.

(** periods.c:9-16; the numerators of a polynomial, constant coefficient first, as
    fmpz_poly_set_coeff_fmpz is called on them *)
Fixpoint poly_numer (num : list Z) (k : Z) (p : poly) : outcome poly :=
  match num with
  | [] => Done p
  | c :: num => do p <- set_coeff p k c; poly_numer num (k + 1) p
  end.

Fixpoint fact (n : nat) : Z := match n with O => 1 | S k => Z.of_nat (S k) * fact k end.
(** fmpq_poly_exp_series (library): numerators of the sum of x^k/k! for k < n over the common
    denominator (n-1)! *)
Definition exp_numerators (n : nat) : list Z := map (fun k => fact (n - 1) / fact k) (seq 0 n).

(** fmpz_poly_reverse (library): reversed polynomial of length n *)
Definition poly_reverse (p : poly) (n : Z) : poly := fun k => if (0 <=? k) && (k <? n) then p (n - 1 - k) else 0.

Section Main.
(** arith_bernoulli_polynomial (library): numerators over a common denominator *)
Variable bernoulli : nat -> list Z.

(** periods.c:18-43 *)
Definition pol_xn1 (p : poly) (n : Z) : outcome poly := do p <- set_coeff p 0 (-1); set_coeff p n 1.
Definition pol_bern (p : poly) (n : Z) : outcome poly :=
  if n <? 0 then Fault HugeAlloc else poly_numer (bernoulli (Z.to_nat n)) 0 p.
Definition pol_exp (p : poly) (n : Z) : outcome poly := poly_numer (exp_numerators (Z.to_nat n)) 0 p.

(** periods.c:183-186 *)
Definition final_poly (s : config) : outcome poly :=
  do p <- match o_family s with
          | None => Done (o_poly s)
          | Some Xn1 => pol_xn1 (o_poly s) (o_n s)
          | Some Exp => pol_exp (o_poly s) (o_n s)
          | Some Bern => pol_bern (o_poly s) (o_n s)
          end;
  Done (if o_rev s then poly_reverse p (o_n s) else p).

(** periods.c:81-188: [None] for the usage message; otherwise the settings and the polynomial the
    curve is initialised with.  [args] is argv without the program name. *)
Definition main_args (args : list string) : outcome (option (config * poly)) :=
  match args with
  | [] => Done None
  | _ =>
      do r <- args_loop (length args) default args;
      match r with
      | None => Done None
      | Some s => do p <- final_poly s; Done (Some (s, p))
      end
  end.
End Main.

(** aj_struct.c:80 *)
Inductive int_method := INT_GC | INT_D2 | INT_DE.
Definition int_type (m n flag : Z) : int_method :=
  if negb (Z.land flag AJ_USE_DE =? 0) || ((2 <? m) && (2 <? n)) then INT_DE
  else if m =? 2 then INT_GC else INT_D2.
