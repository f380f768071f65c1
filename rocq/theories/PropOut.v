(** C79: printed output.  Statements only. *)
From Coq Require Import Reals Bool List ZArith Ascii String Lia Lra.
From Verif Require Import ModelOut SpecOut ProofOut ProofOut2 ProofOut3.
Import ListNotations.
Local Open Scope Z_scope.

(** C79: the text that option --gp prints for a matrix with two rows or more whose midpoints are
    finite is read by PARI/GP as a matrix of the same shape, and every entry read is the midpoint
    of the ball of the same position, up to the relative error of the decimal conversion. *)
Theorem C79_matrix_partial :
  forall pr eps nc m, decimal_printer pr eps ->
    (2 <= List.length m)%nat -> (1 <= nc)%nat ->
    (forall r, In r m -> List.length r = nc /\ forall u, In u r -> finite u) ->
    exists V, gp_read (mat_print_gp pr m) = Some (GMat V) /\ Forall2 (Forall2 (near eps)) m V.
Proof. exact matrix_reads. Qed.
Print Assumptions C79_matrix_partial.

(** a printer that meets the hypothesis *)
Example C79_printer : decimal_printer exact_printer 0.
Proof. exact exact_printer_decimal. Qed.
(** a matrix that meets the hypotheses: -3/4 + 5i, -i, 7 and 0 *)
Example C79_matrix_nonvacuous :
  let m := [[(Fin (-3) (-2), Fin 5 0); (Fin 0 0, Fin (-1) 0)]; [(Fin 7 0, Fin 0 0); (Fin 0 0, Fin 0 0)]] in
  (2 <= List.length m)%nat /\ (forall r, In r m -> List.length r = 2%nat /\ forall u, In u r -> finite u) /\
  mat_print_gp exact_printer m = txt "[-75e-2 + 5 * I, -1 * I;7, 0]".
Proof.
  split; [cbn; lia|]. split; [|reflexivity].
  intros r [<-|[<-|[]]]; (split; [reflexivity|]); intros u [<-|[<-|[]]]; eexists _, _, _, _; reflexivity.
Qed.

(** A matrix with one row, such as that of a curve of genus 1, is not read as a matrix but as a
    vector; its entries are right. *)
Theorem C79_one_row_refuted :
  forall pr eps r, decimal_printer pr eps -> r <> [] -> (forall u, In u r -> finite u) ->
    exists vs, gp_read (mat_print_gp pr [r]) = Some (GVec vs) /\ Forall2 (near eps) r vs.
Proof. exact vector_reads. Qed.
Print Assumptions C79_one_row_refuted.

(** An entry that is not a number, of which nothing is known, is printed as 0. *)
Theorem C79_nan_refuted :
  forall pr, gp_read (mat_print_gp pr [[(Nan, Nan); (Nan, Nan)]; [(Nan, Nan); (Nan, Nan)]])
    = Some (GMat [[GNum 0 0; GNum 0 0]; [GNum 0 0; GNum 0 0]]).
Proof. exact nan_matrix. Qed.
Print Assumptions C79_nan_refuted.

(** C79: the text that option --tree prints, when the parameter of the tree is written in decimal
    notation, is read as the vector of this number, of the number of edges and of all edges. *)
Theorem C79_tree :
  forall q e, good_literal q ->
    gp_read (tree_print (lit_text q) e) =
    Some (GVec (GNum (lit_value q) 0 :: GNum (IZR (Z.of_nat (List.length e))) 0 ::
                map (fun ab => GVec [GNum (IZR (fst ab)) 0; GNum (IZR (snd ab)) 0]) e)).
Proof. exact tree_reads. Qed.
Print Assumptions C79_tree.

Example C79_tree_nonvacuous :
  let q := {| l_neg := false; l_int := txt "1"; l_frac := Some (txt "570796"); l_exp := None |} in
  good_literal q /\ lit_text q = txt "1.570796" /\
  tree_print (lit_text q) [(0, 1); (1, 12)] = nl ++ txt "[1.570796, 2,[0,1],[1,12]]" ++ nl.
Proof.
  split; [|split; reflexivity]. split; [|split; [|exact I]]; split; try discriminate; cbn; intros c H;
    repeat (destruct H as [<-|H]; [reflexivity|]); destruct H.
Qed.

(** C79: two loops with the same text are the same loop. *)
Theorem C79_loop : forall l l', loop_print 0 l = loop_print 0 l' -> l = l'.
Proof. intros l l' H. apply (loop_print_inj l 0 l' H), Z.le_refl. Qed.
Print Assumptions C79_loop.

Example C79_loop_nonvacuous : loop_print 0 [(1, 0, 1); (-1, 12, 0)] = txt "1*g_0^(1)+ -1*g_12^(0)".
Proof. reflexivity. Qed.
