(** How PARI/GP reads the text of a number, of a vector or of a matrix, independently of the code
    that prints it.  Only the part of the language that the printed texts use. *)
From Coq Require Import Reals List ZArith Ascii String.
From Verif Require Import ModelOut.
Import ListNotations.
Local Open Scope Z_scope.

Definition text := list ascii.
Definition is_digit (c : ascii) : bool := let n := Z.of_nat (nat_of_ascii c) in (48 <=? n) && (n <=? 57).
Definition is_letter (c : ascii) : bool :=
  let n := Z.of_nat (nat_of_ascii c) in ((65 <=? n) && (n <=? 90)) || ((97 <=? n) && (n <=? 122)).
Definition is_word (c : ascii) : bool := is_digit c || is_letter c || Ascii.eqb c "_".
(** blank, newline *)
Definition is_blank (c : ascii) : bool := Ascii.eqb c " " || Ascii.eqb c "010".

(** value of a string of digits *)
Definition dval (l : text) : Z := fold_left (fun v c => 10 * v + (Z.of_nat (nat_of_ascii c) - 48)) l 0.

(** longest beginning made of characters satisfying f, and the rest *)
Fixpoint span (f : ascii -> bool) (l : text) : text * text :=
  match l with
  | [] => ([], [])
  | c :: t => if f c then let (a, b) := span f t in (c :: a, b) else ([], l)
  end.

(** value of mantissa digits [ip].[fp] and exponent ex *)
Definition number (ip fp : text) (ex : Z) : R :=
  (IZR (dval (ip ++ fp)) * powerRZ 10 (ex - Z.of_nat (List.length fp)))%R.

(** fractional part, if there is a point *)
Definition scan_frac (l : text) : text * text :=
  match l with c :: t => if Ascii.eqb c "." then span is_digit t else ([], l) | [] => ([], []) end.
(** exponent, if there is an e *)
Definition scan_exp (l : text) : Z * text :=
  match l with
  | c :: t =>
      if Ascii.eqb c "e" then
        match t with
        | s :: t' =>
            if Ascii.eqb s "-" then let (d, r) := span is_digit t' in (- dval d, r)
            else if Ascii.eqb s "+" then let (d, r) := span is_digit t' in (dval d, r)
            else let (d, r) := span is_digit t in (dval d, r)
        | [] => (0, [])
        end
      else (0, l)
  | [] => (0, [])
  end.
Definition scan_number (l : text) : R * text :=
  let (ip, l1) := span is_digit l in
  let (fp, l2) := scan_frac l1 in
  let (ex, l3) := scan_exp l2 in
  (number ip fp ex, l3).

Inductive token := TNum (v : R) | TWord (w : text) | TSym (c : ascii).
Fixpoint lex_aux (n : nat) (l : text) : list token :=
  match n with
  | O => []
  | S n =>
      match l with
      | [] => []
      | c :: t =>
          if is_blank c then lex_aux n t
          else if is_digit c then let (v, r) := scan_number l in TNum v :: lex_aux n r
          else if is_letter c then let (w, r) := span is_word l in TWord w :: lex_aux n r
          else TSym c :: lex_aux n t
      end
  end.
(** the tokens of a text *)
Definition lex (l : text) : list token := lex_aux (S (List.length l)) l.

(** values: complex numbers, row vectors, matrices given by their rows *)
Inductive gval := GNum (re im : R) | GVec (l : list gval) | GMat (rows : list (list gval)).
Definition gadd (a b : gval) : option gval :=
  match a, b with GNum x y, GNum x' y' => Some (GNum (x + x') (y + y')) | _, _ => None end.
Definition gneg (a : gval) : option gval := match a with GNum x y => Some (GNum (- x) (- y)) | _ => None end.
Definition gmul (a b : gval) : option gval :=
  match a, b with
  | GNum x y, GNum x' y' => Some (GNum (x * x' - y * y') (x * y' + y * x'))
  | _, _ => None
  end.
(** rows between brackets: one row is a vector, several rows of the same length a matrix *)
Definition bracket (rows : list (list gval)) : option gval :=
  match rows with
  | [r] => Some (GVec r)
  | r :: rs => if forallb (fun r' => Nat.eqb (List.length r') (List.length r)) rs then Some (GMat rows) else None
  | [] => None
  end.
Definition obind {A B} (o : option A) (f : A -> option B) : option B := match o with Some a => f a | None => None end.

(** grammar:  expr ::= [-|+] term { (+|-) term }     term ::= factor { * factor }
              factor ::= number | I | [ ] | [ row { ; row } ]     row ::= expr { , expr } *)
Fixpoint p_expr (n : nat) (ts : list token) : option (gval * list token) :=
  match n with
  | O => None
  | S n =>
      match ts with
      | TSym c :: ts' =>
          if Ascii.eqb c "-" then
            obind (p_term n ts') (fun r => obind (gneg (fst r)) (fun v => p_sums n v (snd r)))
          else if Ascii.eqb c "+" then obind (p_term n ts') (fun r => p_sums n (fst r) (snd r))
          else obind (p_term n ts) (fun r => p_sums n (fst r) (snd r))
      | _ => obind (p_term n ts) (fun r => p_sums n (fst r) (snd r))
      end
  end
with p_sums (n : nat) (v : gval) (ts : list token) : option (gval * list token) :=
  match n with
  | O => None
  | S n =>
      match ts with
      | TSym c :: ts' =>
          if Ascii.eqb c "-" then
            obind (p_term n ts') (fun r => obind (gneg (fst r)) (fun w => obind (gadd v w) (fun u => p_sums n u (snd r))))
          else if Ascii.eqb c "+" then
            obind (p_term n ts') (fun r => obind (gadd v (fst r)) (fun u => p_sums n u (snd r)))
          else Some (v, ts)
      | _ => Some (v, ts)
      end
  end
with p_term (n : nat) (ts : list token) : option (gval * list token) :=
  match n with
  | O => None
  | S n => obind (p_factor n ts) (fun r => p_prods n (fst r) (snd r))
  end
with p_prods (n : nat) (v : gval) (ts : list token) : option (gval * list token) :=
  match n with
  | O => None
  | S n =>
      match ts with
      | TSym c :: ts' =>
          if Ascii.eqb c "*" then
            obind (p_factor n ts') (fun r => obind (gmul v (fst r)) (fun u => p_prods n u (snd r)))
          else Some (v, ts)
      | _ => Some (v, ts)
      end
  end
with p_factor (n : nat) (ts : list token) : option (gval * list token) :=
  match n with
  | O => None
  | S n =>
      match ts with
      | TNum x :: ts' => Some (GNum x 0, ts')
      | TWord [c] :: ts' => if Ascii.eqb c "I" then Some (GNum 0 1, ts') else None
      | TSym c :: ts' =>
          if Ascii.eqb c "[" then
            match ts' with
            | TSym d :: ts'' =>
                if Ascii.eqb d "]" then Some (GVec [], ts'')
                else obind (p_rows n ts') (fun r => obind (bracket (fst r)) (fun v => Some (v, snd r)))
            | _ => obind (p_rows n ts') (fun r => obind (bracket (fst r)) (fun v => Some (v, snd r)))
            end
          else None
      | _ => None
      end
  end
with p_rows (n : nat) (ts : list token) : option (list (list gval) * list token) :=
  match n with
  | O => None
  | S n =>
      obind (p_expr n ts) (fun r =>
        match snd r with
        | TSym c :: ts' =>
            if Ascii.eqb c "]" then Some ([[fst r]], ts')
            else if Ascii.eqb c ";" then obind (p_rows n ts') (fun q => Some ([fst r] :: fst q, snd q))
            else if Ascii.eqb c "," then
              obind (p_rows n ts') (fun q =>
                match fst q with
                | row :: rows => Some ((fst r :: row) :: rows, snd q)
                | [] => None
                end)
            else None
        | _ => None
        end)
  end.
(** the value of a text, if the whole of it is an expression *)
Definition gp_read (t : text) : option gval :=
  match p_expr (20 * S (List.length (lex t))) (lex t) with Some (v, []) => Some v | _ => None end.

(** decimal notation with a point and an exponent: [-] digits [ . digits ] [ e [+|-] digits ] *)
Inductive exp_sign := ENone | EPlus | EMinus.
Record literal := { l_neg : bool; l_int : text; l_frac : option text; l_exp : option (exp_sign * text) }.
Definition digits (t : text) : Prop := t <> [] /\ forall c, In c t -> is_digit c = true.
Definition good_literal (q : literal) : Prop :=
  digits (l_int q) /\ match l_frac q with Some f => digits f | None => True end /\
  match l_exp q with Some (_, e) => digits e | None => True end.
Definition lit_text (q : literal) : text :=
  (if l_neg q then ["-"%char] else []) ++ l_int q ++
  match l_frac q with Some f => "."%char :: f | None => [] end ++
  match l_exp q with
  | Some (ENone, e) => "e"%char :: e
  | Some (EPlus, e) => "e"%char :: "+"%char :: e
  | Some (EMinus, e) => "e"%char :: "-"%char :: e
  | None => []
  end.
Definition lit_value (q : literal) : R :=
  let v := number (l_int q) (match l_frac q with Some f => f | None => [] end)
             (match l_exp q with Some (EMinus, e) => - dval e | Some (_, e) => dval e | None => 0 end) in
  (if l_neg q then - v else v)%R.

(** the number m 2^e *)
Definition dyadic (m e : Z) : R := (IZR m * powerRZ 2 e)%R.
(** [pr] writes nonzero numbers in decimal notation, with a minus sign exactly when they are
    negative, and with relative error at most eps *)
Definition decimal_printer (pr : arf -> text) (eps : R) : Prop :=
  forall m e, m <> 0 -> exists q, good_literal q /\ pr (Fin m e) = lit_text q /\ (l_neg q = true <-> m < 0) /\
    (Rabs (lit_value q - dyadic m e) <= eps * Rabs (dyadic m e))%R.
(** [v] is the number x + i y with x close to m 2^e and y close to m' 2^e' *)
Definition near (eps : R) (u : arf * arf) (v : gval) : Prop :=
  exists m e m' e' x y, u = (Fin m e, Fin m' e') /\ v = GNum x y /\
    (Rabs (x - dyadic m e) <= eps * Rabs (dyadic m e))%R /\
    (Rabs (y - dyadic m' e') <= eps * Rabs (dyadic m' e'))%R.
Definition finite (u : arf * arf) : Prop := exists m e m' e', u = (Fin m e, Fin m' e').
