(** Model of the spanning trees of the GP scripts: max_spanning of gp/periods.gp and max_spanning_gc
    of gp/gcperiods.gp.

    Points are numbered from 0 (from 1 in the code).  Real numbers (tau_edge, r_edge and the real parts
    of the points) are only compared, they are integers here.  vecsort is a parameter.  A GP error is
    a fault. *)
From Verif Require Import Base.

(** weight, first end, second end: an entry of tau_v or r_v *)
Notation wedge := (Z * (nat * nat))%type.

(** gp/gcperiods.gp:180-186, max_spanning_gc: all edges *)
Definition edges_gc (n : nat) (w : nat -> nat -> Z) : list wedge :=
  flat_map (fun i => map (fun j => (w i j, (i, j))) (seq (S i) (n - S i))) (seq 0 n).
(** gp/periods.gp:634-640, max_spanning: all edges, from left to right; [re] is the real part *)
Definition edges_lr (n : nat) (w : nat -> nat -> Z) (re : nat -> Z) : list wedge :=
  flat_map (fun i => map (fun j => (w i j, if re j <? re i then (j, i) else (i, j))) (seq (S i) (n - S i))) (seq 0 n).

(** gp/periods.gp:651 and gp/gcperiods.gp:196: exactly one end is taken *)
Definition one_taken (taken : nat -> bool) (e : wedge) : bool := xorb (taken (fst (snd e))) (taken (snd (snd e))).
(** gp/periods.gp:656 and gp/gcperiods.gp:203 *)
Definition mark (taken : nat -> bool) (i j : nat) : nat -> bool :=
  fun v => if (v =? i)%nat || (v =? j)%nat then true else taken v.

(** gp/periods.gp:648-657 and gp/gcperiods.gp:193-204, the loop: [l] is the sorted vector read from its
    end; going beyond its start is an error.  [gc] tells whether the ends are exchanged so that the
    first one is in the tree (gp/gcperiods.gp:200). *)
Fixpoint grow (gc : bool) (k : nat) (l : list wedge) (taken : nat -> bool) (least : Z) : outcome (list (nat * nat) * Z) :=
  match k with
  | O => Done ([], least)
  | S k =>
      match find (one_taken taken) l with
      | None => Fault OutOfBounds
      | Some (r, (i, j)) =>
          do rest <- grow gc k l (mark taken i j) (Z.min least r) ;
          Done ((if gc && taken j then (j, i) else (i, j)) :: fst rest, snd rest)
      end
  end.

(** gp/periods.gp:627-660, max_spanning *)
Definition max_spanning (sort : list wedge -> list wedge) (n : nat) (w : nat -> nat -> Z) (re : nat -> Z) (nedges : nat)
  : outcome (list (nat * nat) * Z) :=
  let k := match nedges with O => (n - 1)%nat | _ => nedges end in
  match rev (sort (edges_lr n w re)) with
  | [] => Fault OutOfBounds
  | (r, (i, j)) :: _ => grow false k (rev (sort (edges_lr n w re))) (mark (fun _ => false) i i) r
  end.

(** gp/gcperiods.gp:172-207, max_spanning_gc: the first edge is the last of the vector (line 196 does
    not test the marks if k = 1) *)
Definition max_spanning_gc (sort : list wedge -> list wedge) (n : nat) (w : nat -> nat -> Z) (nedges : nat)
  : outcome (list (nat * nat) * Z) :=
  let k := match nedges with O => (n - 1)%nat | _ => nedges end in
  match rev (sort (edges_gc n w)) with
  | [] => Fault OutOfBounds
  | (r, (i, j)) :: _ =>
      match k with
      | O => Done ([], r)
      | S k => do rest <- grow true k (rev (sort (edges_gc n w))) (mark (fun _ => false) i j) r ;
               Done ((i, j) :: fst rest, snd rest)
      end
  end.
