(** Model of arb/ydata.c:10-138 (data attached to an edge), of the defining root product in
    arb/mth_root_pol.c:31-49 and of the angle computations of arb/intersections_tree.c:42-142.

    Complex balls are replaced by the exact numbers they enclose.  The sign tests on balls
    (arb_is_nonpositive, arb_is_negative) may answer "no" for lack of precision: those used
    to arrange points or to choose a branch are arbitrary arguments. *)
From Verif Require Import CArg ModelTree ModelInter.

Section Arrange.
Context {A : Type} (d : A).
(** acb_swap *)
Definition swap_at (u : list A) (i j : nat) : list A := upd (upd u i (nth j u d)) j (nth i u d).
(** ydata.c:68-70; l = k + gap; result: array and final l *)
Fixpoint arrange (nonpos : A -> bool) (gap : nat) (u : list A) (k : nat) : list A * nat :=
  match gap with
  | O => (u, k)
  | S g => if nonpos (nth k u d) then arrange nonpos g (swap_at u k (k + g)) k
           else arrange nonpos g u (S k)
  end.
End Arrange.

(** ydata.c:55-57: the indices visited *)
Definition other_points (n a b : nat) : list nat :=
  filter (fun k => negb ((k =? a) || (k =? b))%nat) (seq 0 n).

(** mth_root_pol.c:31-49: points from index k on *)
Fixpoint root_product (m : Z) (u : list C) (k d1 : nat) (x : C) (y : C) : C :=
  match u with
  | [] => y
  | p :: u =>
      let t := (p - x)%C in
      let t := if (d1 <=? k)%nat then (- t)%C else t in
      root_product m u (S k) d1 x (y * croot m t)%C
  end.
Definition mth_root_pol_def (m : Z) (u : list C) (d1 : nat) (x : C) : C := root_product m u 0 d1 x (RtoC 1).

(** ydata.c:10-35; [neg] is arb_is_negative of the real part.  The abort at lines 30-34 is
    that of c = 0. *)
Definition constant_cab (neg : C -> bool) (ba2 : C) (n1 n : nat) (m : Z) : outcome C :=
  let c := cpow ba2 n in
  let k := neg c in
  let c := croot m (if k then (- c)%C else c) in
  let c := if Nat.even ((if k then 1 else 0) + n1) then (c * root (2 * m) 1)%C else c in
  if Req_EM_T (Cmod c) 0 then Abort else Done c.

(** abel_jacobi.h:68-83 *)
Record ydata := { y_u : list C; y_n1 : nat; y_ba2 : C; y_ab : C; y_c : C; y_ya : C; y_yb : C }.

(** ydata.c:43-77 and 98-123.  A zero difference b - a makes all quotients non finite, and
    constant_cab aborts. *)
Definition ydata_init_edge (nonpos neg : C -> bool) (x : list C) (a b : nat) (m : Z) : outcome ydata :=
  let n := length x in
  if negb ((a <? n) && (b <? n))%nat then Fault OutOfBounds
  else
    let ba := (vget x b - vget x a)%C in
    let ab := (vget x b + vget x a)%C in
    let u := map (fun k => ((RtoC 2 * vget x k - ab) / ba)%C) (other_points n a b) in
    if negb (length u + 2 =? n)%nat then Abort
    else if Req_EM_T (Cmod ba) 0 then Abort
    else
      let '(u, l) := arrange (RtoC 0) nonpos (length u) u 0 in
      let ba2 := (ba / RtoC 2)%C in
      do c <- constant_cab neg ba2 l n m;
      Done {| y_u := u; y_n1 := l; y_ba2 := ba2; y_ab := (ab / ba)%C; y_c := c;
              y_ya := (mth_root_pol_def m u l (RtoC (-1)) * c)%C;
              y_yb := (mth_root_pol_def m u l (RtoC 1) * c)%C |}.

(** intersections_tree.c:42-76, the sign tests being exact *)
Definition angle (ab cd : C) : outcome R :=
  if Req_EM_T (Cmod cd) 0 then Abort
  else
    let t := (ab / cd)%C in
    let rho := if Rle_dec (fst t) 0 then
                 let a := carg (- t)%C in if Rle_dec 0 a then (a - PI)%R else (a + PI)%R
               else carg t in
    Done (rho / PI / 2)%R.

(** intersections_tree.c:78-94 *)
Definition get_si (a : R) : outcome Z :=
  if Req_EM_T (IZR (Int_part a)) a then Done (Int_part a) else Abort.

(** intersections_tree.c:98-129 *)
Definition shift_number (yab ycd : ydata) (m : Z) (t : incidence) : outcome Z :=
  do rho <- angle (y_ba2 yab) (y_ba2 ycd);
  do psi <- angle (y_ya ycd) (match t with ABAD => y_ya yab | ABBD => y_yb yab end);
  let rho := (rho + psi * IZR m)%R in
  get_si (match t with ABAD => rho | ABBD => (rho + / 2)%R end).

(** intersections_tree.c:131-142, exact *)
Definition is_neg_abad (ab2 cd2 : C) : bool :=
  if Rle_dec (snd (ab2 / cd2)%C) 0 then true else false.

(** ydata.c:131-138; the sign tests depend on the balls, which differ from edge to edge *)
Fixpoint tree_ydata (nonpos neg : edge -> C -> bool) (x : list C) (m : Z) (es : list edge) : outcome (list ydata) :=
  match es with
  | [] => Done []
  | e :: es =>
      do y <- ydata_init_edge (nonpos e) (neg e) x (ea e) (eb e) m;
      do ys <- tree_ydata nonpos neg x m es;
      Done (y :: ys)
  end.

(** intersections_tree.c:144-194 with the sheet numbers of the data *)
Definition no_ydata : ydata :=
  {| y_u := []; y_n1 := 0; y_ba2 := RtoC 0; y_ab := RtoC 0; y_c := RtoC 0; y_ya := RtoC 0; y_yb := RtoC 0 |}.
Definition intersection_of_data (ys : list ydata) (es : list edge) (m : Z) : outcome imat :=
  intersection_tree (fun k l t => shift_number (nth k ys no_ydata) (nth l ys no_ydata) m t)
    (fun k l => is_neg_abad (y_ba2 (nth k ys no_ydata)) (y_ba2 (nth l ys no_ydata))) es m.
