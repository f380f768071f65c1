From Verif Require Import Base ModelCli ModelStage ModelRes SpecRes.
From Coq Require Import Permutation.
Local Open Scope Z_scope.

Notation cell := (nat * Z)%type.
Definition cell_dec : forall x y : cell, {x = y} + {x <> y}.
Proof. decide equality; [apply Z.eq_dec|apply Nat.eq_dec]. Defined.
Definition cnt1 (y x : cell) : nat := if cell_dec y x then 1%nat else 0%nat.
Lemma cnt_cons y l x : count_occ cell_dec (y :: l) x = (cnt1 y x + count_occ cell_dec l x)%nat.
Proof. unfold cnt1. cbn [count_occ]. destruct (cell_dec y x); reflexivity. Qed.
Lemma cnt_nil x : count_occ cell_dec [] x = 0%nat.
Proof. reflexivity. Qed.
Ltac perm := apply (proj2 (Permutation_count_occ cell_dec _ _)); intros ?x; repeat (rewrite count_occ_app || rewrite cnt_cons || rewrite cnt_nil); lia.

Definition own (L : list cell) (h : heap) : Prop :=
  NoDup (map fst L) /\
  (forall i v, In (i, v) L -> h_cell h i = v /\ v <> 0 /\ (i < h_next h)%nat) /\
  (forall i, h_cell h i <> 0 -> In i (map fst L)).

Lemma own_perm L L' h : Permutation L L' -> own L h -> own L' h.
Proof.
  intros HP (H1 & H2 & H3). split; [apply (Permutation_NoDup (Permutation_map fst HP) H1)|].
  split.
  - intros i v Hi. apply H2, (Permutation_in _ (Permutation_sym HP) Hi).
  - intros i Hi. apply (Permutation_in _ (Permutation_map fst HP)), H3, Hi.
Qed.

Definition run {A} (p : M A) (L : list cell) (post : A -> list cell -> Prop) : Prop :=
  forall F h, own (L ++ F) h -> exists a h' L', p h = Done (a, h') /\ own (L' ++ F) h' /\ post a L'.

Lemma run_ret {A} (a : A) L (post : A -> list cell -> Prop) : post a L -> run (ret a) L post.
Proof. intros H F h Ho. exists a, h, L. split; [reflexivity|]. split; [exact Ho|exact H]. Qed.
Lemma run_ret_perm {A} (a : A) L L' (post : A -> list cell -> Prop) : Permutation L L' -> post a L' -> run (ret a) L post.
Proof.
  intros HP H F h Ho. exists a, h, L'. split; [reflexivity|]. split; [|exact H].
  apply (own_perm (L ++ F)); [apply Permutation_app_tail, HP|exact Ho].
Qed.
Lemma run_bind {A B} (p : M A) (q : A -> M B) L post : run p L (fun a L' => run (q a) L' post) -> run (andthen p q) L post.
Proof.
  intros H F h Ho. destruct (H F h Ho) as (a & h1 & L1 & E & Ho1 & H1). destruct (H1 F h1 Ho1) as (b & h2 & L2 & E2 & Ho2 & H2).
  exists b, h2, L2. split; [|split; assumption]. unfold andthen. rewrite E. cbn [bind fst snd]. exact E2.
Qed.
Lemma run_conseq {A} (p : M A) L (post post' : A -> list cell -> Prop) : (forall a L, post a L -> post' a L) -> run p L post -> run p L post'.
Proof. intros HH H F h Ho. destruct (H F h Ho) as (a & h1 & L1 & E & Ho1 & H1). exists a, h1, L1. split; [exact E|split; [exact Ho1|apply HH, H1]]. Qed.
Lemma run_perm {A} (p : M A) L L' post : Permutation L' L -> run p L post -> run p L' post.
Proof. intros HP H F h Ho. apply H. apply (own_perm (L' ++ F)); [apply Permutation_app_tail, HP|exact Ho]. Qed.
Lemma run_init k L (post : nat -> list cell -> Prop) : 0 <= k -> (forall i, post i ((i, 1 + k) :: L)) -> run (init k) L post.
Proof.
  intros Hk H F h (H1 & H2 & H3). exists (h_next h). eexists. exists ((h_next h, 1 + k) :: L). split; [reflexivity|]. split; [|apply H].
  cbn [app]. split; [|split].
  - cbn [map fst]. constructor; [|exact H1]. intros Hi. apply in_map_iff in Hi. destruct Hi as ([i v] & E & Hi). cbn in E. subst i.
    destruct (H2 _ _ Hi) as (_ & _ & Hlt). lia.
  - intros i v [Hi|Hi]; cbn [h_cell h_next].
    + pose proof (f_equal fst Hi) as E1. pose proof (f_equal snd Hi) as E2. cbn [fst snd] in E1, E2. subst i v. rewrite Nat.eqb_refl. repeat split; lia.
    + destruct (H2 i v Hi) as (E & Hv & Hlt). destruct (Nat.eqb_spec i (h_next h)); [lia|]. repeat split; [exact E|exact Hv|lia].
  - intros i Hi. cbn [h_cell] in Hi. cbn [map fst]. destruct (Nat.eqb_spec i (h_next h)) as [E|]; [left; symmetry; exact E|right; apply H3, Hi].
Qed.

Lemma own_head i v L h : own ((i, v) :: L) h -> h_cell h i = v /\ v <> 0 /\ ~ In i (map fst L).
Proof.
  intros (H1 & H2 & _). destruct (H2 i v (or_introl eq_refl)) as (E & Hv & _). repeat split; try assumption.
  cbn [map fst] in H1. inversion H1; assumption.
Qed.
Lemma run_clear i k L (post : unit -> list cell -> Prop) : 0 <= k -> post tt L -> run (clear i k) ((i, 1 + k) :: L) post.
Proof.
  intros Hk H F h Ho. cbn [app] in Ho. destruct (own_head _ _ _ _ Ho) as (E & _ & Hn). destruct Ho as (H1 & H2 & H3).
  exists tt. eexists. exists L. split.
  { unfold clear. rewrite E. rewrite (proj2 (Z.leb_gt _ _)) by lia. rewrite (proj2 (Z.ltb_ge _ _)) by lia. reflexivity. }
  split; [|exact H]. cbn [map fst] in H1. inversion H1 as [|x l Hx Hl]; subst. split; [exact Hl|]. split.
  - intros j v Hj. cbn [h_cell h_next]. assert (j <> i) by (intros ->; apply Hx; apply in_map_iff; exists (i, v); split; [reflexivity|exact Hj]).
    destruct (Nat.eqb_spec j i); [congruence|]. exact (H2 j v (or_intror Hj)).
  - intros j Hj. cbn [h_cell] in Hj. destruct (Nat.eqb_spec j i) as [Ej|Hne]; [exfalso; lia|].
    destruct (H3 j Hj) as [Eq|Hin]; [cbn in Eq; congruence|exact Hin].
Qed.
Lemma run_clear_short i k k' L (post : unit -> list cell -> Prop) : 0 <= k < k' -> post tt ((i, k - k') :: L) -> run (clear i k) ((i, 1 + k') :: L) post.
Proof.
  intros Hk H F h Ho. cbn [app] in Ho. destruct (own_head _ _ _ _ Ho) as (E & _ & Hn). destruct Ho as (H1 & H2 & H3).
  exists tt. eexists. exists ((i, k - k') :: L). split.
  { unfold clear. rewrite E. rewrite (proj2 (Z.leb_gt _ _)) by lia. rewrite (proj2 (Z.ltb_ge _ _)) by lia. reflexivity. }
  split; [|exact H]. cbn [app]. cbn [map fst] in H1. split; [exact H1|]. inversion H1 as [|x l Hx Hl]; subst. split.
  - intros j v [Hj|Hj]; cbn [h_cell h_next].
    + pose proof (f_equal fst Hj) as E1. pose proof (f_equal snd Hj) as E2. cbn [fst snd] in E1, E2. subst j v. rewrite Nat.eqb_refl. destruct (H2 i _ (or_introl eq_refl)) as (_ & _ & Hlt). repeat split; lia.
    + assert (j <> i) by (intros ->; apply Hx; apply in_map_iff; exists (i, v); split; [reflexivity|exact Hj]).
      destruct (Nat.eqb_spec j i); [congruence|]. exact (H2 j v (or_intror Hj)).
  - intros j Hj. cbn [h_cell] in Hj. cbn [map fst]. destruct (Nat.eqb_spec j i) as [Ej|Hne]; [left; symmetry; exact Ej|]. exact (H3 j Hj).
Qed.
Lemma run_clear_at L1 L2 i k (post : unit -> list cell -> Prop) : 0 <= k -> post tt (L1 ++ L2) -> run (clear i k) (L1 ++ (i, 1 + k) :: L2) post.
Proof. intros Hk H. apply (run_perm _ ((i, 1 + k) :: L1 ++ L2)); [symmetry; apply Permutation_middle|]. apply run_clear; assumption. Qed.

Lemma run_clear_to L' i k L (post : unit -> list cell -> Prop) : 0 <= k -> Permutation L ((i, 1 + k) :: L') -> post tt L' -> run (clear i k) L post.
Proof. intros Hk HP H. apply (run_perm _ _ _ _ HP). apply run_clear; assumption. Qed.

(** [p] loses j blocks and keeps everything else *)
Definition loses {A} (p : M A) (j : nat) : Prop :=
  forall L (post : A -> list cell -> Prop), (forall a G, length G = j -> post a (G ++ L)) -> run p L post.

Lemma loses_ret {A} (a : A) : loses (ret a) 0.
Proof. intros L post H. apply run_ret. exact (H a [] eq_refl). Qed.
Lemma loses_bind {A B} (p : M A) (q : A -> M B) j k : loses p j -> (forall a, loses (q a) k) -> loses (andthen p q) (j + k).
Proof.
  intros Hp Hq L post H. apply run_bind, Hp. intros a G HG. apply Hq. intros b G' HG'. rewrite app_assoc. apply H. rewrite app_length. lia.
Qed.
Lemma loses_init k : 0 <= k -> loses (init k) 1.
Proof. intros Hk L post H. apply run_init; [exact Hk|]. intros i. apply (H i [(i, 1 + k)] eq_refl). Qed.
Lemma loses_eq {A} (p : M A) j k : loses p j -> j = k -> loses p k.
Proof. intros H <-. exact H. Qed.
Lemma loses_scope {A} k (body : nat -> M A) j : 0 <= k -> (forall i, loses (body i) j) ->
  loses (let! i := init k in let! a := body i in clear i k ;! ret a) j.
Proof.
  intros Hk Hb L post H. apply run_bind, run_init; [exact Hk|]. intros i. apply run_bind, Hb. intros a G HG.
  apply run_bind, run_clear_at; [exact Hk|]. apply run_ret, H, HG.
Qed.
Lemma loses_locals {A} (p : M A) j : loses p j -> forall ks, Forall (fun k => 0 <= k) ks -> loses (locals ks p) j.
Proof.
  intros Hp ks. induction ks as [|k ks IH]; intros HF; cbn [locals]; [exact Hp|]. inversion HF as [|x l Hk HF']; subst.
  apply loses_scope; [exact Hk|]. intros _. apply IH, HF'.
Qed.
Lemma loses_each {A B} (f : A -> M B) (c : A -> nat) : forall l, (forall a, In a l -> loses (f a) (c a)) -> loses (each l f) (list_sum (map c l)).
Proof.
  induction l as [|a l IH]; intros H; cbn [each map]; [apply loses_ret|].
  change (list_sum (c a :: map c l)) with (c a + list_sum (map c l))%nat. apply loses_bind; [apply H; left; reflexivity|]. intros b. apply (loses_eq _ (list_sum (map c l) + 0)); [|lia].
  apply loses_bind; [apply IH; intros x Hx; apply H; right; exact Hx|]. intros r. apply loses_ret.
Qed.
Lemma loses_then_ret {A B} (p : M A) (b : A -> B) j : loses p j -> loses (andthen p (fun a => ret (b a))) j.
Proof. intros H. apply (loses_eq _ (j + 0)); [|lia]. apply loses_bind; [exact H|intros a; apply loses_ret]. Qed.
Lemma sum_zero {A} (l : list A) : list_sum (map (fun _ => 0%nat) l) = 0%nat.
Proof. induction l; cbn; [reflexivity|assumption]. Qed.
Lemma sum_const {A} (l : list A) k : list_sum (map (fun _ => k) l) = (k * length l)%nat.
Proof. induction l as [|a l IH]; cbn [map list_sum fold_right length]; [lia|]. change (fold_right Nat.add 0%nat (map (fun _ => k) l)) with (list_sum (map (fun _ : A => k) l)). rewrite IH. lia. Qed.

Ltac nonneg := repeat (constructor; [try lia; try nia|]); constructor.
Ltac bal := apply loses_locals; [|nonneg].

Lemma split_eq {A B} (l : list (A * B)) : split l = (map fst l, map snd l).
Proof. induction l as [|[a b] l IH]; cbn; [reflexivity|]. rewrite IH. reflexivity. Qed.
Lemma combine_fst {A B} : forall (a : list A) (b : list B), length a = length b -> map fst (combine a b) = a.
Proof. induction a as [|x a IH]; intros [|y b] H; cbn in *; try reflexivity; try discriminate. rewrite IH by lia. reflexivity. Qed.
Lemma combine_snd {A B} : forall (a : list A) (b : list B), length a = length b -> map snd (combine a b) = b.
Proof. induction a as [|x a IH]; intros [|y b] H; cbn in *; try reflexivity; try discriminate. rewrite IH by lia. reflexivity. Qed.

Section Stages.
Context (m n g : Z) (edges : nat) (Hm : 1 <= m) (Hn : 0 <= n) (Hg : 0 <= g).

Lemma spanning_loses : loses spanning_res 0.
Proof. bal. apply loses_ret. Qed.
Lemma extraprec_loses : loses (extraprec_res edges) 0.
Proof.
  bal. apply (loses_eq _ (list_sum (map (fun _ => 0%nat) (seq 0 edges)) + 0)); [|rewrite sum_zero; reflexivity].
  apply loses_bind; [|intros; apply loses_ret]. apply loses_each. intros k _. bal. bal. apply loses_ret.
Qed.
Lemma ydata_edge_run c k L (post : nat -> list cell -> Prop) : (forall u, post u ((u, 1 + (n - 2 + 5)) :: L)) -> run (ydata_init_edge n c k) L post.
Proof.
  intros H. unfold ydata_init_edge. apply run_bind, run_init; [lia|]. intros u.
  assert (B : forall (p : M unit), loses p 0 -> forall (q : M nat) L, run q L post -> run (p ;! q) L post).
  { intros p Hp q L' Hq. apply run_bind, Hp. intros _ G HG. destruct G; [exact Hq|discriminate]. }
  apply B. { destruct (ch_root c k); [bal|]; apply loses_ret. }
  apply B. { bal. bal. apply loses_ret. }
  apply B. { bal. bal. apply loses_ret. }
  apply run_ret, H.
Qed.
Definition ydata_cells (l : list nat) : list cell := map (fun u => (u, 1 + (n - 2 + 5))) l.
Lemma ydata_edges_run c : forall ks L (post : list nat -> list cell -> Prop), (forall l, length l = length ks -> post l (ydata_cells l ++ L)) -> run (each ks (ydata_init_edge n c)) L post.
Proof.
  induction ks as [|k ks IH]; intros L post H; cbn [each].
  - apply run_ret. exact (H [] eq_refl).
  - apply run_bind, ydata_edge_run. intros u. apply run_bind, IH. intros l Hl.
    apply (run_ret_perm _ _ (ydata_cells (u :: l) ++ L)); [symmetry; apply Permutation_middle|]. apply H. cbn. lia.
Qed.
Lemma ydata_run c L (post : nat * list nat -> list cell -> Prop) : (forall d l, length l = edges -> post (d, l) ((d, 1) :: ydata_cells l ++ L)) -> run (ydata_init n edges c) L post.
Proof.
  intros H. unfold ydata_init. apply run_bind, run_init; [lia|]. intros d. apply run_bind, ydata_edges_run. intros l Hl.
  rewrite seq_length in Hl. apply (run_ret_perm _ _ ((d, 1 + 0) :: ydata_cells l ++ L)); [symmetry; apply Permutation_middle|]. apply H, Hl.
Qed.
Lemma ydata_clear_run : forall l d L (post : unit -> list cell -> Prop), post tt L -> run (ydata_clear n (d, l)) ((d, 1) :: ydata_cells l ++ L) post.
Proof.
  intros l d L post H. unfold ydata_clear. cbn [fst snd]. apply run_bind.
  assert (E : forall l L (post : list unit -> list cell -> Prop), (forall x, post x L) -> run (each l (fun u => clear u (n - 2 + 5))) (ydata_cells l ++ L) post).
  { clear - Hn. intros l. induction l as [|u l IH]; intros L post H; cbn [each]; [apply run_ret, H|].
    apply run_bind, run_clear; [lia|]. apply run_bind, IH. intros x. apply run_ret, H. }
  apply (run_perm _ (ydata_cells l ++ (d, 1) :: L)); [apply Permutation_middle|]. apply E. intros _. apply (run_clear d 0); [lia|]. exact H.
Qed.

Lemma shift_loses : loses shift_number_res 2.
Proof.
  unfold shift_number_res. apply (loses_bind _ _ 1 1); [apply loses_init; lia|]. intros _.
  apply (loses_bind _ _ 1 0); [apply loses_init; lia|]. intros _.
  apply (loses_bind _ _ 0 0); [bal; apply loses_ret|]. intros _.
  apply (loses_bind _ _ 0 0); [bal; apply loses_ret|]. intros _. bal. apply loses_ret.
Qed.

Definition loop_cells (l : list (Z * nat)) : list cell := flat_map (fun x => if fst x =? 0 then [] else [(snd x, 1)]) l.
Lemma loops_run : forall ab L (post : list ((Z * nat) * (Z * nat)) -> list cell -> Prop),
  (forall l G, map (fun x => (fst (fst x), fst (snd x))) l = ab -> length G = (count_zero (map fst ab) + count_zero (map snd ab))%nat ->
     post l (loop_cells (map fst l) ++ loop_cells (map snd l) ++ G ++ L)) ->
  run (each ab (fun ab => let! a := loop_init (fst ab) in let! b := loop_init (snd ab) in ret (a, b))) L post.
Proof.
  induction ab as [|[a b] ab IH]; intros L post H; cbn [each].
  - apply run_ret. exact (H [] [] eq_refl eq_refl).
  - apply run_bind. unfold loop_init. apply run_bind, run_bind, run_init; [lia|]. intros i. apply run_ret.
    apply run_bind, run_bind, run_init; [lia|]. intros j. apply run_ret, run_ret. apply run_bind, IH. intros l G Hl HG.
    assert (C : exists G', length G' = (count_zero (map fst ((a, b) :: ab)) + count_zero (map snd ((a, b) :: ab)))%nat /\
       Permutation (loop_cells (map fst l) ++ loop_cells (map snd l) ++ G ++ (j, 1 + 0) :: (i, 1 + 0) :: L)
         (loop_cells (map fst (((a, i), (b, j)) :: l)) ++ loop_cells (map snd (((a, i), (b, j)) :: l)) ++ G' ++ L)).
    { exists ((if a =? 0 then [(i, 1)] else []) ++ (if b =? 0 then [(j, 1)] else []) ++ G). split.
      - unfold count_zero in *. cbn [map fst snd filter]. destruct (a =? 0), (b =? 0); cbn [length app]; lia.
      - unfold loop_cells. cbn [map flat_map fst snd]. fold (loop_cells (map fst l)). fold (loop_cells (map snd l)).
        set (A := loop_cells (map fst l)). set (B := loop_cells (map snd l)). change (1 + 0) with 1.
        destruct (a =? 0), (b =? 0); perm. }
    destruct C as (G' & HG' & HP). apply (run_ret_perm _ _ _ _ HP). apply H; [cbn; rewrite Hl; reflexivity|exact HG'].
Qed.

Lemma basis_run c L (post : list (Z * nat) * list (Z * nat) -> list cell -> Prop) :
  length (ch_a c) = length (ch_b c) ->
  (forall la lb G, map fst la = ch_a c -> map fst lb = ch_b c ->
     length G = (2 * length (ch_meet c) + count_zero (ch_a c) + count_zero (ch_b c))%nat ->
     post (la, lb) (loop_cells la ++ loop_cells lb ++ G ++ L)) ->
  run (basis_res m edges c) L post.
Proof.
  intros Hab H. unfold basis_res. set (len := Z.of_nat edges * (m - 1)).
  apply run_bind, run_init; [nia|]. intros mm. apply run_bind, run_init; [nia|]. intros p.
  apply run_bind. refine (loses_each _ (fun _ => 2%nat) (ch_meet c) _ _ _ _); [intros; apply shift_loses|].
  intros _ G HG. rewrite sum_const in HG.
  apply run_bind, (run_clear_to (G ++ (p, 1 + len * len) :: L)); [nia|perm|].
  apply run_bind, loops_run. intros l G' Hl HG'.
  apply run_bind, (run_clear_to (loop_cells (map fst l) ++ loop_cells (map snd l) ++ (G' ++ G) ++ L)); [nia|perm|].
  apply run_ret. rewrite (split_eq l). apply H.
  - rewrite map_map, <- (combine_fst (ch_a c) (ch_b c) Hab), <- Hl, map_map. reflexivity.
  - rewrite map_map, <- (combine_snd (ch_a c) (ch_b c) Hab), <- Hl, map_map. reflexivity.
  - rewrite app_length, HG, HG', (combine_fst _ _ Hab), (combine_snd _ _ Hab). lia.
Qed.

Lemma prod_turn_loses b : loses (prod_turn_res b) (if b then 1 else 0).
Proof.
  destruct b; cbn [prod_turn_res]; [apply loses_then_ret, loses_init; lia|bal; apply loses_ret].
Qed.
Lemma turns_loses l : loses (each l prod_turn_res) (count_true l).
Proof.
  apply (loses_eq _ (list_sum (map (fun b : bool => if b then 1%nat else 0%nat) l))).
  - apply loses_each. intros b _. apply prod_turn_loses.
  - unfold count_true. induction l as [|[] l IH]; cbn; [reflexivity| |exact IH]. f_equal. exact IH.
Qed.

Definition gc_cells (s : Z * nat) : list cell := [(snd s, 1 + fst s)].
Definition gc_lost (np : Z) : nat := if np =? 0 then 0%nat else 1%nat.
Lemma gc_init_run np L (post : Z * nat -> list cell -> Prop) : 0 <= np ->
  (forall s G, 0 <= fst s -> length G = gc_lost np -> post s (gc_cells s ++ G ++ L)) -> run (gc_init np) L post.
Proof.
  intros Hnp H. unfold gc_init. assert (Hl : 0 <= np / 2) by (apply Z.div_pos; lia). set (len := np / 2) in *.
  apply run_bind, run_init; [lia|]. intros x. apply run_bind. unfold gc_lost in H. destruct (np =? 0).
  - apply run_ret, run_ret. exact (H (len, x) [] Hl eq_refl).
  - apply run_bind, run_init; [lia|]. intros t.
    apply run_bind. assert (B : loses (locals [1] (ret tt)) 0) by (bal; apply loses_ret). apply B. intros _ G HG. destruct G; [|discriminate].
    cbn [app]. apply run_clear_short; [lia|]. apply (run_ret_perm _ _ (gc_cells (len, x) ++ [(t, len - (len + 1))] ++ L)); [unfold gc_cells; cbn [fst snd app]; perm|].
    apply H; [exact Hl|reflexivity].
Qed.
Lemma gc_clear_run s L (post : unit -> list cell -> Prop) : 0 <= fst s -> post tt L -> run (gc_clear s) (gc_cells s ++ L) post.
Proof. intros Hs H. unfold gc_clear, gc_cells. cbn [app]. apply run_clear; assumption. Qed.

Lemma run_frame {A} (p : M A) L F (post : A -> list cell -> Prop) : run p L (fun a L' => post a (L' ++ F)) -> run p (L ++ F) post.
Proof.
  intros H F' h Ho. rewrite <- app_assoc in Ho. destruct (H (F ++ F') h Ho) as (a & h' & L' & E & Ho' & HP).
  exists a, h', (L' ++ F). split; [exact E|]. split; [rewrite <- app_assoc; exact Ho'|exact HP].
Qed.
Lemma run_locals {A} (p : M A) L (post : A -> list cell -> Prop) : run p L post ->
  forall ks, Forall (fun k => 0 <= k) ks -> run (locals ks p) L post.
Proof.
  intros Hp ks. revert L post Hp. induction ks as [|k ks IH]; intros L post Hp HF; cbn [locals]; [exact Hp|].
  inversion HF as [|x l Hk HF']; subst. apply run_bind, run_init; [exact Hk|]. intros i. apply run_bind.
  apply (run_perm _ (L ++ [(i, 1 + k)])); [perm|]. apply run_frame.
  apply (run_conseq _ _ post); [|apply IH; assumption]. intros a L' H.
  apply run_bind, (run_clear_to L'); [exact Hk|perm|]. apply run_ret, H.
Qed.

Definition gc_edge_lost (c : choices) (k : nat) : nat :=
  ((match ch_gc c k with Some np => gc_lost np | None => 0 end) + count_true (ch_turn c k))%nat.
Lemma edge_gc_run c s k L (post : Z * nat -> list cell -> Prop) : (forall k np, ch_gc c k = Some np -> 0 <= np) -> 0 <= fst s ->
  (forall s G, 0 <= fst s -> length G = gc_edge_lost c k -> post s (gc_cells s ++ G ++ L)) ->
  run (edge_gc c s k) (gc_cells s ++ L) post.
Proof.
  intros Hc Hs H. unfold edge_gc. apply run_locals; [|nonneg].
  assert (T : forall s L (post : Z * nat -> list cell -> Prop), (forall G, length G = count_true (ch_turn c k) -> exists L', Permutation (G ++ L) L' /\ post s L') ->
     run (locals [1; 1; 1; 1] (each (ch_turn c k) prod_turn_res ;! ret tt) ;! ret s) L post).
  { intros s' L' post' H'. apply run_bind. assert (B : loses (locals [1; 1; 1; 1] (each (ch_turn c k) prod_turn_res ;! ret tt)) (count_true (ch_turn c k))).
    { bal. apply loses_then_ret, turns_loses. } apply B. intros _ G HG. destruct (H' G HG) as (L1 & HP & HQ). exact (run_ret_perm _ _ _ _ HP HQ). }
  apply run_bind. unfold gc_edge_lost in H. destruct (ch_gc c k) as [np|] eqn:E.
  - apply run_bind, gc_clear_run; [exact Hs|]. apply gc_init_run; [exact (Hc k np E)|]. intros s' G Hs' HG.
    apply T. intros G' HG'. exists (gc_cells s' ++ (G ++ G') ++ L). split; [perm|]. apply H; [exact Hs'|]. rewrite app_length. lia.
  - apply run_ret, T. intros G HG. exists (gc_cells s ++ G ++ L). split; [perm|]. apply H; [exact Hs|exact HG].
Qed.
Lemma carry_gc_run c : (forall k np, ch_gc c k = Some np -> 0 <= np) -> forall ks s L (post : Z * nat -> list cell -> Prop), 0 <= fst s ->
  (forall s G, 0 <= fst s -> length G = list_sum (map (gc_edge_lost c) ks) -> post s (gc_cells s ++ G ++ L)) ->
  run (carry (edge_gc c) ks s) (gc_cells s ++ L) post.
Proof.
  intros Hc. induction ks as [|k ks IH]; intros s L post Hs H; cbn [carry].
  - apply run_ret. exact (H s [] Hs eq_refl).
  - apply run_bind, edge_gc_run; [exact Hc|exact Hs|]. intros s' G Hs' HG. apply IH; [exact Hs'|]. intros s2 G2 Hs2 HG2.
    rewrite (app_assoc G2 G L). apply H; [exact Hs2|]. rewrite app_length. change (list_sum (map (gc_edge_lost c) (k :: ks))) with (gc_edge_lost c k + list_sum (map (gc_edge_lost c) ks))%nat. lia.
Qed.
Lemma sum_add {A} (f h : A -> nat) l : list_sum (map (fun a => f a + h a)%nat l) = (list_sum (map f l) + list_sum (map h l))%nat.
Proof. induction l as [|a l IH]; [reflexivity|]. cbn [map list_sum fold_right]. unfold list_sum in IH. rewrite IH. lia. Qed.
Lemma gc_lost_sum c : list_sum (map (gc_edge_lost c) (seq 0 edges)) = (lost_gc edges c + lost_turns edges c)%nat.
Proof. unfold gc_edge_lost, lost_gc, lost_turns. rewrite <- sum_add. reflexivity. Qed.
Lemma tree_gc_loses c : (forall k np, ch_gc c k = Some np -> 0 <= np) -> loses (tree_gc edges c) (lost_gc edges c + lost_turns edges c).
Proof.
  intros Hc L post H. unfold tree_gc. apply run_bind, run_init; [lia|]. intros t.
  apply run_bind, gc_init_run; [lia|]. intros s G Hs HG. destruct G; [|discriminate]. cbn [app].
  apply run_bind, carry_gc_run; [exact Hc|exact Hs|]. intros s' G Hs' HG'. rewrite gc_lost_sum in HG'.
  apply run_bind, gc_clear_run; [exact Hs'|]. apply (run_clear_to (G ++ L)); [lia|perm|]. apply H, HG'.
Qed.

(** double exponential schemes *)
Definition de_cells (s : Z * list nat) : list cell :=
  if fst s =? 0 then [] else combine (snd s) [2; 2; 2; 2; 1 + fst s; 1 + fst s; 1 + fst s].
Definition de_ok (s : Z * list nat) : Prop := 0 <= fst s /\ (fst s <> 0 -> length (snd s) = 7%nat).
Lemma de_init_run np L (post : Z * list nat -> list cell -> Prop) : 0 <= np ->
  (forall s, de_ok s -> post s (de_cells s ++ L)) -> run (de_init np) L post.
Proof.
  intros Hnp H. unfold de_init. destruct (np =? 0) eqn:E0.
  - apply run_ret. apply (H (0, [])). split; cbn; lia.
  - apply run_bind, run_init; [lia|]. intros x1. apply run_bind, run_init; [lia|]. intros x2. apply run_bind, run_init; [lia|]. intros x3.
    apply run_bind, run_init; [lia|]. intros x4. apply run_bind, run_init; [lia|]. intros x5. apply run_bind, run_init; [lia|]. intros x6.
    apply run_bind, run_init; [lia|]. intros x7.
    apply run_bind. assert (B : loses (locals [1; 1; 1; 1; 1; 1; 1] (ret tt)) 0) by (bal; apply loses_ret). apply B. intros _ G HG. destruct G; [|discriminate].
    cbn [app]. apply (run_ret_perm _ _ (de_cells (np, [x1; x2; x3; x4; x5; x6; x7]) ++ L)).
    + unfold de_cells. cbn [fst snd]. rewrite E0. cbn [combine app]. change (1 + 1) with 2. perm.
    + apply H. split; cbn; [lia|reflexivity].
Qed.
Lemma de_clear_run s L (post : unit -> list cell -> Prop) : de_ok s -> post tt L -> run (de_clear s) (de_cells s ++ L) post.
Proof.
  intros [Hs Hl] H. unfold de_clear, de_cells. destruct (fst s =? 0) eqn:E0; [apply run_ret, H|].
  destruct s as [np l]. cbn [fst snd] in *. specialize (Hl ltac:(lia)).
  destruct l as [|x1 [|x2 [|x3 [|x4 [|x5 [|x6 [|x7 [|]]]]]]]]; try discriminate. cbn [combine each app fst snd].
  apply run_bind. do 7 (apply run_bind, run_clear; [lia|]; apply run_bind). repeat apply run_ret. exact H.
Qed.
Lemma edge_de_run c s k L (post : Z * list nat -> list cell -> Prop) : (forall k np, ch_de c k = Some np -> 0 <= np) -> de_ok s ->
  (forall s G, de_ok s -> length G = count_true (ch_turn c k) -> post s (de_cells s ++ G ++ L)) ->
  run (edge_de m c s k) (de_cells s ++ L) post.
Proof.
  intros Hc Hs H. unfold edge_de. apply run_locals; [|nonneg].
  assert (T : forall s L (post : Z * list nat -> list cell -> Prop), (forall G, length G = count_true (ch_turn c k) -> exists L', Permutation (G ++ L) L' /\ post s L') ->
     run (locals [1; 1; 1; 1; m] (each (ch_turn c k) prod_turn_res ;! ret tt) ;! ret s) L post).
  { intros s' L' post' H'. apply run_bind. assert (B : loses (locals [1; 1; 1; 1; m] (each (ch_turn c k) prod_turn_res ;! ret tt)) (count_true (ch_turn c k))).
    { bal. apply loses_then_ret, turns_loses. } apply B. intros _ G HG. destruct (H' G HG) as (L1 & HP & HQ). exact (run_ret_perm _ _ _ _ HP HQ). }
  apply run_bind. destruct (ch_de c k) as [np|] eqn:E.
  - apply run_bind, de_clear_run; [exact Hs|]. apply de_init_run; [exact (Hc k np E)|]. intros s' Hs'.
    apply T. intros G HG. exists (de_cells s' ++ G ++ L). split; [perm|]. apply H; assumption.
  - apply run_ret, T. intros G HG. exists (de_cells s ++ G ++ L). split; [perm|]. apply H; assumption.
Qed.
Lemma carry_de_run c : (forall k np, ch_de c k = Some np -> 0 <= np) -> forall ks s L (post : Z * list nat -> list cell -> Prop), de_ok s ->
  (forall s G, de_ok s -> length G = list_sum (map (fun k => count_true (ch_turn c k)) ks) -> post s (de_cells s ++ G ++ L)) ->
  run (carry (edge_de m c) ks s) (de_cells s ++ L) post.
Proof.
  intros Hc. induction ks as [|k ks IH]; intros s L post Hs H; cbn [carry].
  - apply run_ret. exact (H s [] Hs eq_refl).
  - apply run_bind, edge_de_run; [exact Hc|exact Hs|]. intros s' G Hs' HG. apply IH; [exact Hs'|]. intros s2 G2 Hs2 HG2.
    rewrite (app_assoc G2 G L). apply H; [exact Hs2|]. rewrite app_length. cbn [map list_sum fold_right]. unfold list_sum in HG2. lia.
Qed.
Lemma tree_de_loses c : (forall k np, ch_de c k = Some np -> 0 <= np) -> loses (tree_de m edges c) (lost_turns edges c).
Proof.
  intros Hc L post H. unfold tree_de. apply run_bind, run_init; [lia|]. intros t.
  apply run_bind. change ((t, 1 + 0) :: L) with (de_cells (0, []) ++ (t, 1 + 0) :: L).
  apply carry_de_run; [exact Hc|split; cbn; lia|]. intros s' G Hs' HG'.
  apply run_bind, de_clear_run; [exact Hs'|]. apply (run_clear_to (G ++ L)); [lia|perm|]. apply H, HG'.
Qed.

Lemma d2_loses : loses d2_res 0.
Proof. bal. apply loses_ret. Qed.
Lemma period_loses : loses (period_res m g) 0.
Proof.
  bal. apply loses_then_ret. apply (loses_eq _ (list_sum (map (fun _ => 0%nat) (repeat tt (Z.to_nat g))))); [|apply sum_zero].
  apply loses_each. intros a _. bal. apply loses_ret.
Qed.
Lemma solve_real_loses : loses (solve_real_res g) (lost_real g).
Proof.
  unfold solve_real_res, lost_real. destruct (g =? 0) eqn:E0; [apply loses_ret|]. set (gg := g * g). assert (Hgg : 0 <= gg) by nia.
  intros L post H. do 5 (apply run_bind, run_init; [lia|]; intros ?x).
  apply run_bind, run_init; [lia|]; intros y. do 2 (apply run_bind, run_init; [lia|]; intros ?x).
  apply run_bind, (run_clear_to ((x5, 1 + gg) :: (x4, 1 + 0) :: (y, 1 + gg) :: (x3, 1 + gg) :: (x2, 1 + gg) :: (x1, 1 + gg) :: (x0, 1 + gg) :: L)); [lia|perm|].
  apply run_bind, (run_clear_to ((x5, 1 + gg) :: (x4, 1 + 0) :: (y, 1 + gg) :: (x3, 1 + gg) :: (x2, 1 + gg) :: (x1, 1 + gg) :: L)); [lia|perm|].
  apply run_bind, (run_clear_to ((x5, 1 + gg) :: (x4, 1 + 0) :: (y, 1 + gg) :: (x3, 1 + gg) :: (x2, 1 + gg) :: L)); [lia|perm|].
  apply run_bind, (run_clear_to ((x5, 1 + gg) :: (x4, 1 + 0) :: (y, 1 + gg) :: (x3, 1 + gg) :: L)); [lia|perm|].
  apply run_bind, (run_clear_to ((x5, 1 + gg) :: (x4, 1 + 0) :: (y, 1 + gg) :: L)); [lia|perm|].
  apply run_bind, run_init; [lia|]; intros z.
  apply run_bind, (run_clear_to ((x4, 1 + 0) :: [(y, 1 + gg); (z, 1 + gg)] ++ L)); [lia|cbn [app]; perm|].
  apply run_clear; [lia|]. apply H. reflexivity.
Qed.
Lemma tau_loses c : ch_solve c = true \/ ch_det0 c = false -> loses (tau_res g c) (lost_tau g c).
Proof.
  intros Hc. unfold tau_res, lost_tau. destruct (ch_solve c); [apply loses_ret|]. destruct Hc as [Hc|Hc]; [discriminate|]. rewrite Hc.
  apply (loses_bind _ _ 1 _); [apply loses_init; lia|]. intros _.
  apply (loses_bind _ _ (lost_real g)); [apply solve_real_loses|]. intros _. destruct (ch_real1 c); [apply loses_ret|].
  bal. apply (loses_eq _ (lost_real g + 0)); [|lia]. apply loses_bind; [apply solve_real_loses|]. intros _.
  destruct (ch_real2 c); [apply loses_ret|]. bal. apply loses_ret.
Qed.

Definition base (a : aj) : list cell :=
  [(a_pol a, 2); (a_ni a, 1); (a_roots a, 1 + n); (a_e a, 1); (a_cyca a, 1); (a_cycb a, 1);
   (a_omega0 a, 1 + g * g); (a_omega1 a, 1 + g * g); (a_tau a, 1 + g * g); (a_proj a, 1 + 2 * g * (2 * g))].
Definition ints_cell (a : aj) : cell := (a_ints a, 1 + Z.of_nat edges * g).
Definition all_cells (a : aj) : list cell := ints_cell a :: base a ++ loop_cells (a_loopa a) ++ loop_cells (a_loopb a).

Lemma no_loops_cells : loop_cells (no_loops g) = [].
Proof. unfold no_loops, loop_cells. induction (Z.to_nat g) as [|k IH]; cbn; [reflexivity|exact IH]. Qed.
Lemma init_run L (post : aj -> list cell -> Prop) : (forall a, loop_cells (a_loopa a) = [] -> loop_cells (a_loopb a) = [] -> post a (all_cells a ++ L)) ->
  run (aj_init n g edges) L post.
Proof.
  intros H. unfold aj_init. do 11 (apply run_bind, run_init; [lia || nia|]; intros ?x).
  match goal with |- run (ret ?a) _ _ => apply (run_ret_perm _ _ (all_cells a ++ L)); [|apply (H a); apply no_loops_cells] end.
  unfold all_cells, base, ints_cell. cbn [a_pol a_ni a_roots a_e a_cyca a_cycb a_loopa a_loopb a_ints a_omega0 a_omega1 a_tau a_proj].
  rewrite no_loops_cells. cbn [app]. change (1 + 0) with 1. change (1 + 1) with 2. perm.
Qed.

Lemma loops_clear_run : forall l L (post : list unit -> list cell -> Prop), (forall x, post x L) -> run (each l loop_clear) (loop_cells l ++ L) post.
Proof.
  induction l as [|[z i] l IH]; intros L post H; cbn [each]; [apply run_ret, H|].
  apply run_bind. unfold loop_clear, loop_cells. cbn [flat_map fst snd]. fold (loop_cells l). destruct (z =? 0).
  - apply run_ret. cbn [app]. apply run_bind, IH. intros x. apply run_ret, H.
  - cbn [app]. apply (run_clear i 0); [lia|]. apply run_bind, IH. intros x. apply run_ret, H.
Qed.
Lemma clear_run a L (post : unit -> list cell -> Prop) : post tt L -> run (aj_clear n g edges a) (all_cells a ++ L) post.
Proof.
  intros H. unfold aj_clear, all_cells, base, ints_cell. destruct a as [a1 a2 a3 a4 a5 a6 a7 la lb a8 a9 a10 a11 a12].
  cbn [a_pol a_ni a_roots a_e a_cyca a_cycb a_loopa a_loopb a_ints a_omega0 a_omega1 a_tau a_proj app].
  set (gg := g * g). assert (0 <= gg) by nia. set (g4 := 2 * g * (2 * g)). assert (0 <= g4) by nia. set (eg := Z.of_nat edges * g). assert (0 <= eg) by nia.
  set (A := loop_cells la). set (B := loop_cells lb).
  apply run_bind, (run_clear_to ((a8, 1 + eg) :: (a9, 1 + gg) :: (a10, 1 + gg) :: (a11, 1 + gg) :: (a12, 1 + g4) :: (a4, 1) :: (a6, 1) :: (a7, 1) :: (a1, 2) :: (a2, 1) :: A ++ B ++ L)); [lia|perm|].
  do 5 (apply run_bind, run_clear; [assumption|]).
  apply run_bind, (run_clear a4 0); [lia|].
  unfold homol_clear. apply run_bind, run_bind. apply (run_perm _ (A ++ (a6, 1) :: (a7, 1) :: (a1, 2) :: (a2, 1) :: B ++ L)); [perm|].
  apply loops_clear_run. intros _. apply (run_clear a6 0); [lia|].
  apply run_bind, run_bind. apply (run_perm _ (B ++ (a7, 1) :: (a1, 2) :: (a2, 1) :: L)); [perm|].
  apply loops_clear_run. intros _. apply (run_clear a7 0); [lia|].
  apply run_bind, (run_clear a1 1); [lia|]. apply (run_clear a2 0); [lia|]. exact H.
Qed.

Definition live_loops (a : aj) : nat := (length (loop_cells (a_loopa a)) + length (loop_cells (a_loopb a)))%nat.
Lemma compute_run flag c a L (post : aj -> list cell -> Prop) : sensible g c ->
  (forall a' G, map fst (a_loopa a') = ch_a c -> map fst (a_loopb a') = ch_b c ->
     length G = (lost m n g edges flag c + live_loops a + count_zero (ch_a c) + count_zero (ch_b c))%nat ->
     post a' (all_cells a' ++ G ++ L)) ->
  run (aj_compute m n g edges flag c a) (all_cells a ++ L) post.
Proof.
  intros (Ha & Hb & Hgc & Hde & Hso) H. unfold aj_compute.
  apply run_bind, spanning_loses. intros _ G HG. destruct G; [|discriminate]. cbn [app].
  apply run_bind, extraprec_loses. intros _ G HG'. destruct G; [|discriminate]. cbn [app]. clear HG HG'.
  apply run_bind, ydata_run. intros d l Hl.
  apply run_bind, basis_run; [congruence|]. intros la lb G Hla Hlb HG. cbn [fst snd].
  unfold lost in H. destruct a as [a1 a2 a3 a4 a5 a6 a7 oa ob a8 a9 a10 a11 a12].
  unfold all_cells, base, ints_cell, live_loops in *.
  cbn [a_pol a_ni a_roots a_e a_cyca a_cycb a_loopa a_loopb a_ints a_omega0 a_omega1 a_tau a_proj] in *.
  set (OA := loop_cells oa) in *. set (OB := loop_cells ob) in *. set (eg := Z.of_nat edges * g) in *. assert (0 <= eg) by nia.
  destruct (has flag AJ_NO_INT) eqn:B1.
  { match goal with |- run (ret ?a) _ _ => eapply (run_ret_perm _ _ _ _); [|apply (H a ((d, 1) :: ydata_cells l ++ OA ++ OB ++ G))]; try assumption end.
    - cbn [a_pol a_ni a_roots a_e a_cyca a_cycb a_loopa a_loopb a_ints a_omega0 a_omega1 a_tau a_proj app]. perm.
    - cbn [length]. rewrite !app_length. unfold ydata_cells. rewrite map_length, Hl, HG. lia. }
  apply run_bind, run_init; [lia|]. intros ni.
  set (B := [(a1, 2); (a2, 1); (a3, 1 + n); (a4, 1); (a6, 1); (a7, 1); (a9, 1 + g * g); (a10, 1 + g * g); (a11, 1 + g * g); (a12, 1 + 2 * g * (2 * g))]) in *.
  apply run_bind.
  assert (T : loses (match int_type m n flag with INT_D2 => d2_res | INT_GC => tree_gc edges c | INT_DE => tree_de m edges c end)
     match int_type m n flag with INT_D2 => 0 | INT_GC => lost_gc edges c + lost_turns edges c | INT_DE => lost_turns edges c end).
  { destruct (int_type m n flag); [apply tree_gc_loses, Hgc|apply d2_loses|apply tree_de_loses, Hde]. }
  set (T0 := match int_type m n flag with INT_GC => _ | _ => _ end) in T at 2. fold T0 in H.
  apply T. intros _ G2 HG2. clear T.
  apply run_bind. apply (run_perm _ ((d, 1) :: ydata_cells l ++ (ni, 1 + eg) :: (a8, 1 + eg) :: B ++ loop_cells la ++ loop_cells lb ++ OA ++ OB ++ G ++ G2 ++ L)); [cbn [app]; perm|].
  apply ydata_clear_run.
  assert (Q : forall G3 (a' : aj), a_loopa a' = la -> a_loopb a' = lb -> ints_cell a' = (ni, 1 + eg) -> base a' = B ->
     length G3 = (if has flag AJ_NO_AB then 0 else if has flag AJ_NO_TAU then 0 else lost_tau g c)%nat ->
     run (ret a') (G3 ++ (ni, 1 + eg) :: (a8, 1 + eg) :: B ++ loop_cells la ++ loop_cells lb ++ OA ++ OB ++ G ++ G2 ++ L) post).
  { intros G3 a' E1 E2 E3 E4 HG3. specialize (H a' ((a8, 1 + eg) :: OA ++ OB ++ G ++ G2 ++ G3)).
    rewrite E1, E2 in H. unfold ints_cell in E3. fold eg in E3. rewrite E3 in H. unfold base in E4. rewrite E4 in H.
    eapply run_ret_perm; [|apply H; [exact Hla|exact Hlb|]].
    - cbn [app]. perm.
    - cbn [length]. rewrite !app_length, HG, HG2, HG3. lia. }
  destruct (has flag AJ_NO_AB); [apply (Q []); reflexivity|].
  apply run_bind, period_loses. intros _ G3 HG3. destruct G3; [|discriminate].
  apply run_bind, period_loses. intros _ G3 HG3'. destruct G3; [|discriminate]. clear HG3 HG3'. cbn [app].
  destruct (has flag AJ_NO_TAU); [apply (Q []); reflexivity|].
  apply run_bind, (tau_loses c Hso). intros _ G3 HG3. apply Q; try reflexivity. exact HG3.
Qed.

Lemma loop_cells_count : forall l, (length (loop_cells l) + count_zero (map fst l))%nat = length l.
Proof.
  induction l as [|[z i] l IH]; [reflexivity|]. unfold loop_cells, count_zero in *. cbn [flat_map map filter fst snd length].
  destruct (z =? 0); cbn [app length]; lia.
Qed.

Lemma sum_cons (x : nat) l : list_sum (x :: l) = (x + list_sum l)%nat.
Proof. reflexivity. Qed.
Lemma computes_run : forall calls a L (post : aj -> list cell -> Prop), Forall (fun fc => sensible g (snd fc)) calls ->
  (forall a' G, length G = (list_sum (map (fun fc => lost m n g edges (fst fc) (snd fc)) calls) + lost_loops calls +
       (if calls then 0 else live_loops a))%nat ->
     post a' (all_cells a' ++ G ++ L)) ->
  run (computes_res m n g edges calls a) (all_cells a ++ L) post.
Proof.
  induction calls as [|[flag c] calls IH]; intros a L post HF H; cbn [computes_res].
  - apply run_ret. exact (H a [] eq_refl).
  - inversion HF as [|x l Hc HF']; subst. cbn [snd] in Hc. apply run_bind, (compute_run flag c a L _ Hc). intros a1 G Hla Hlb HG.
    apply IH; [exact HF'|]. intros a' G' HG'. rewrite (app_assoc G' G L). apply H.
    rewrite app_length, HG, HG'. cbn [map fst snd]. rewrite sum_cons.
    pose proof (loop_cells_count (a_loopa a1)) as E1. pose proof (loop_cells_count (a_loopb a1)) as E2. rewrite Hla in E1. rewrite Hlb in E2.
    assert (E3 : length (a_loopa a1) = length (ch_a c)) by (rewrite <- Hla, map_length; reflexivity).
    assert (E4 : length (a_loopb a1) = length (ch_b c)) by (rewrite <- Hlb, map_length; reflexivity).
    unfold live_loops at 1. destruct calls as [|fc calls]; cbn [lost_loops]; [cbn; lia|].
    set (X := list_sum _). fold (lost_loops (fc :: calls)). lia.
Qed.

Lemma own_empty : own [] empty_heap.
Proof. split; [constructor|]. split; [intros i v []|]. intros i H. cbn in H. congruence. Qed.
Lemma own_unreleased L h : own L h -> unreleased h (length L).
Proof.
  intros (H1 & H2 & H3). exists (map fst L). split; [exact H1|]. split; [apply map_length|]. intros i. split; [|apply H3].
  intros Hi. apply in_map_iff in Hi. destruct Hi as ([j v] & E & Hj). cbn in E. subst j. destruct (H2 i v Hj) as (E & Hv & _). congruence.
Qed.

Lemma life_ok calls : Forall (fun fc => sensible g (snd fc)) calls ->
  exists h, life m n g edges calls empty_heap = Done (tt, h) /\ unreleased h (total_lost m n g edges calls).
Proof.
  intros HF.
  assert (R : run (life m n g edges calls) [] (fun _ L => length L = total_lost m n g edges calls)).
  { unfold life. apply run_bind, init_run. intros a E1 E2. apply run_bind, (computes_run calls a [] _ HF). intros a' G HG.
    apply clear_run. rewrite app_nil_r, HG. unfold total_lost. unfold live_loops. rewrite E1, E2. destruct calls; cbn [length]; lia. }
  destruct (R [] empty_heap own_empty) as (a & h & L & E & Ho & HL). rewrite app_nil_r in Ho.
  destruct a. exists h. split; [exact E|]. rewrite <- HL. apply own_unreleased, Ho.
Qed.
End Stages.

Lemma lost_pos m n g edges flag c : (1 <= lost m n g edges flag c)%nat.
Proof. unfold lost. destruct (has flag AJ_NO_INT); lia. Qed.
Lemma total_pos m n g edges calls : calls <> [] -> (length calls <= total_lost m n g edges calls)%nat.
Proof.
  intros _. unfold total_lost. enough (length calls <= list_sum (map (fun fc => lost m n g edges (fst fc) (snd fc)) calls))%nat by lia.
  induction calls as [|[f c] calls IH]; [reflexivity|]. cbn [map length fst snd]. rewrite sum_cons. pose proof (lost_pos m n g edges f c). lia.
Qed.
Lemma unreleased_zero h : unreleased h 0 -> forall i, h_cell h i = 0.
Proof.
  intros (l & _ & Hl & H) i. destruct l; [|discriminate]. destruct (Z.eq_dec (h_cell h i) 0) as [E|E]; [exact E|]. apply H in E. contradiction.
Qed.
