(** Model of arb/tau_matrix.c on matrices of balls, as sequences of calls to Arb.
    A matrix is the list of its rows; the functions on matrices of the library are the fields of a
    record, and nothing is assumed about them here. *)
From Verif Require Import Base ModelBall.
Local Open Scope nat_scope.

Record mats (A : arith) := {
  mt_lu_type : Type;                                                     (* permutation and LU *)
  mt_lu : Z -> nat -> list (list (ball A)) -> option mt_lu_type;         (* arb_mat_lu *)
  mt_lu_solve : Z -> nat -> nat -> mt_lu_type -> list (list (ball A)) -> list (list (ball A));   (* arb_mat_solve_lu_precomp *)
  mt_solve : Z -> nat -> nat -> list (list (ball A)) -> list (list (ball A)) -> option (list (list (ball A)));   (* acb_mat_solve *)
  mt_mul : Z -> nat -> nat -> nat -> list (list (ball A)) -> list (list (ball A)) -> list (list (ball A));       (* arb_mat_mul, acb_mat_mul *)
  mt_det : Z -> nat -> list (list (ball A)) -> ball A;                   (* acb_mat_det *)
  mt_charpoly : Z -> nat -> list (list (ball A)) -> list (ball A);       (* acb_mat_charpoly *)
  mt_re : ball A -> ball A;                                              (* acb_realref *)
  mt_im : ball A -> ball A;                                              (* acb_imagref *)
  mt_join : ball A -> ball A -> ball A;                                  (* the ball with given real and imaginary parts *)
  mt_onei : ball A                                                       (* acb_onei *)
}.

Section Run.
Variables (A : arith) (M : mats A) (p : Z).
Notation bmat := (list (list (ball A))).
Definition bent (X : bmat) (i j : nat) : ball A := nth j (nth i X []) (b_zero A).
Definition bmat_tab (n m : nat) (f : nat -> nat -> ball A) : bmat := map (fun i => map (f i) (seq 0 m)) (seq 0 n).

(** tau_matrix.c:47-110; [None] for the result 0, for which X is left as it was *)
Definition b_solve_real (n m : nat) (X A0 B0 : bmat) : option bmat :=
  if (n =? 0) || (m =? 0) then Some X
  else
    let a := bmat_tab n n (fun i j => mt_re A M (bent A0 i j)) in
    let b := bmat_tab n n (fun i j => mt_im A M (bent A0 i j)) in
    let c := bmat_tab n m (fun i j => mt_re A M (bent B0 i j)) in
    let d := bmat_tab n m (fun i j => mt_im A M (bent B0 i j)) in
    match mt_lu A M p n a with
    | None => None
    | Some lu =>
        let d := mt_lu_solve A M p n m lu d in
        let x := mt_mul A M p n n m b d in
        let c := bmat_tab n m (fun i j => b_add A p (bent c i j) (bent x i j)) in
        let t := mt_lu_solve A M p n n lu b in
        let b := mt_mul A M p n n n b t in
        let a := bmat_tab n n (fun i j => b_add A p (bent a i j) (bent b i j)) in
        match mt_lu A M p n a with
        | None => None
        | Some lu =>
            let x := mt_lu_solve A M p n m lu c in
            let c := mt_mul A M p n n m t x in
            let y := bmat_tab n m (fun i j => b_sub A p (bent d i j) (bent c i j)) in
            Some (bmat_tab n m (fun i j => mt_join A M (bent x i j) (bent y i j)))
        end
    end.

(** tau_matrix.c:112-133; [reads_first]: the division of a vector reads the divisor before writing
    (see ModelTau.divide_by_const) *)
Definition b_divide_by_const (reads_first : bool) (chi : list (ball A)) : list (ball A) :=
  match chi with
  | [] => []
  | c0 :: rest => b_div A p c0 c0 :: map (fun c => b_div A p c (if reads_first then c0 else b_div A p c0 c0)) rest
  end.
Fixpoint b_charpoly_loop (n m : nat) (A0 : bmat) (chi : list (ball A)) (k rounds : nat) (AB X : bmat) : bmat :=
  match rounds with
  | O => X
  | S rounds =>
      let AB := mt_mul A M p n n m A0 AB in
      b_charpoly_loop n m A0 chi (S k) rounds AB
        (bmat_tab n m (fun i j => b_addmul A p (bent X i j) (bent AB i j) (nth k chi (b_zero A))))
  end.
Definition b_solve_charpoly (reads_first : bool) (n m : nat) (A0 B0 : bmat) : bmat :=
  let chi := b_divide_by_const reads_first (mt_charpoly A M p n A0) in
  b_charpoly_loop n m A0 chi 2 (length chi - 2) B0
    (bmat_tab n m (fun i j => b_mul A p (bent B0 i j) (nth 1 chi (b_zero A)))).

(** tau_matrix.c:135-179; X is the matrix given for the result *)
Definition b_solve_multi (reads_first : bool) (n m : nat) (X A0 B0 : bmat) : outcome bmat :=
  match mt_solve A M p n m A0 B0 with
  | Some X => Done X
  | None =>
      if b_has0 A (mt_det A M p n A0) then Abort
      else
        match b_solve_real n m X A0 B0 with
        | Some X => Done X
        | None =>
            let times_i (r c : nat) (Y : bmat) := bmat_tab r c (fun i j => b_mul A p (bent Y i j) (mt_onei A M)) in
            match b_solve_real n m X (times_i n n A0) (times_i n m B0) with
            | Some X => Done X
            | None => Done (b_solve_charpoly reads_first n m A0 B0)
            end
        end
  end.
(** tau_matrix.c:181-184 *)
Definition b_tau_matrix (reads_first : bool) (g : nat) (tau omega0 omega1 : bmat) : outcome bmat :=
  b_solve_multi reads_first g g tau omega0 omega1.
End Run.
