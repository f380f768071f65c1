(** Enclosures and coverings. *)
From Coq Require Import Reals.
From Verif Require Import Base ModelMag.
Local Open Scope R_scope.

Definition inb (x : R) (b : ball) : Prop := fst b - snd b <= x <= fst b + snd b.
(** f gives enclosures of F *)
Definition encloses (f : ball -> option ball) (F : R -> R) : Prop :=
  forall t y, f t = Some y -> forall x, inb x t -> inb (F x) y.
(** ball operations return enclosures *)
Definition sound_add (add : ball -> R -> ball) : Prop := forall t s x, inb x t -> inb (x + s) (add t s).
Definition sound_union (un : ball -> ball -> ball) : Prop := forall a b x, inb x a \/ inb x b -> inb x (un a b).
Definition sound_mag (mg : ball -> R) : Prop := forall a x, inb x a -> Rabs x <= mg a.
Definition sound_interval (iv : R -> R -> ball) : Prop := forall a b x, a <= x <= b -> inb x (iv a b).
(** mag_func.c:9: the contract of the subdivision: b is covered by t + k step, k = 0..n-1 *)
Definition covers (b : ball) (t : ball) (step : R) (n : nat) : Prop :=
  forall x, inb x b -> exists k, (k < n)%nat /\ inb (x - INR k * step) t.

(** f decreases then increases on [a, b], strictly *)
Definition valley (f : R -> R) (a b xm : R) : Prop :=
  a <= xm <= b /\ (forall x y, a <= x < y -> y <= xm -> f y < f x) /\ (forall x y, xm <= x < y -> y <= b -> f x < f y).
