(** What the text of a polynomial means, independently of the parser. *)
From Verif Require Import Base.

(** [ds] is a decimal notation of v (leading zeros allowed) *)
Definition dec_value (ds : list Z) : Z := fold_left (fun v c => 10 * v + (c - 48)) ds 0.
Definition decimal (ds : list Z) (v : Z) : Prop :=
  ds <> [] /\ (forall c, In c ds -> 48 <= c <= 57) /\ dec_value ds = v.

Definition blank (t : list Z) : Prop := forall c, In c t -> c = 32.
(** blanks and stars between a coefficient and the variable *)
Definition product_sign (t : list Z) : Prop := forall c, In c t -> c = 32 \/ c = 42.

(** unsigned term: coefficient, exponent, text ('x' is 120, '^' is 94) *)
Inductive body : Z -> Z -> list Z -> Prop :=
| body_const c ds : decimal ds c -> body c 0 ds
| body_x : body 1 1 [120]
| body_cx c ds sep : decimal ds c -> product_sign sep -> body c 1 (ds ++ sep ++ [120])
| body_xe e es : decimal es e -> body 1 e ([120; 94] ++ es)
| body_cxe c e ds sep es : decimal ds c -> product_sign sep -> decimal es e ->
    body c e (ds ++ sep ++ [120; 94] ++ es).

(** sign with blanks around ('+' is 43, '-' is 45) *)
Inductive sign : Z -> list Z -> Prop :=
| sign_plus b1 b2 : blank b1 -> blank b2 -> sign 1 (b1 ++ [43] ++ b2)
| sign_minus b1 b2 : blank b1 -> blank b2 -> sign (-1) (b1 ++ [45] ++ b2).

(** further signed terms *)
Inductive terms : list (Z * Z) -> list Z -> Prop :=
| terms_nil : terms [] []
| terms_cons s c e l ts tb tl : sign s ts -> body c e tb -> terms l tl ->
    terms ((s * c, e) :: l) (ts ++ tb ++ tl).

(** a whole polynomial: the first sign may be missing *)
Inductive poly_text : list (Z * Z) -> list Z -> Prop :=
| poly_signed l t : terms l t -> poly_text l t
| poly_first b c e l tb tl : blank b -> body c e tb -> terms l tl ->
    poly_text ((c, e) :: l) (b ++ tb ++ tl).

(** coefficient of x^k in the sum of the terms *)
Fixpoint sum_coeff (l : list (Z * Z)) (k : Z) : Z :=
  match l with
  | [] => 0
  | (c, e) :: l => (if e =? k then c else 0) + sum_coeff l k
  end.

(** coefficient of the last term in x^k, [d] if there is none *)
Fixpoint last_coeff (l : list (Z * Z)) (k d : Z) : Z :=
  match l with
  | [] => d
  | (c, e) :: l => last_coeff l k (if e =? k then c else d)
  end.

(** coefficients and exponents in machine range *)
Definition in_range (l : list (Z * Z)) : Prop :=
  forall c e, In (c, e) l -> - 9223372036854775807 <= c <= 9223372036854775807 /\
                             0 <= e < 9223372036854775807.

(** every number written in the text is below 2^63 - 1 *)
Definition small_numbers (t : list Z) : Prop :=
  forall pre ds post, t = pre ++ ds ++ post -> (forall c, In c ds -> 48 <= c <= 57) ->
    dec_value ds < 9223372036854775807.

(** white space as skipped by the C library *)
Definition white (t : list Z) : Prop := forall c, In c t -> c = 32 \/ 9 <= c <= 13.

(** no '^' is followed by a negative number *)
Definition no_negative_exponent (t : list Z) : Prop :=
  forall pre ws post, t = pre ++ 94 :: ws ++ 45 :: post -> ~ white ws.
