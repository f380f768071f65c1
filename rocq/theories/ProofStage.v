From Verif Require Import Base ModelCli ModelTree SpecTree ProofTree ProofTreeMax ProofTreeEx ModelStage SpecStage.
Local Open Scope Z_scope.

(** the edges chosen do not depend on the worst edge found before *)
Lemma grow_edges : forall todo k e t r mn r' mn',
  (exists l r1 mn1 r2 mn2, grow todo k e t r mn = Done (l, r1, mn1) /\ grow todo k e t r' mn' = Done (l, r2, mn2)) \/
  (forall l r1 mn1, grow todo k e t r mn <> Done (l, r1, mn1)) /\ (forall l r1 mn1, grow todo k e t r' mn' <> Done (l, r1, mn1)).
Proof.
  induction todo as [|todo IH]; intros k e t r mn r' mn'; cbn [grow].
  { left. do 5 eexists. split; reflexivity. }
  destruct (length e) as [|last]; [right; split; discriminate|].
  destruct (if (k =? 0)%nat then Done last else scan e t last) as [i| |f|]; cbn [bind]; try (right; split; discriminate).
  destruct (tget e i) as [x| |f|]; cbn [bind]; try (right; split; discriminate).
  destruct (tget t (eb x)) as [tb| |f|]; cbn [bind]; try (right; split; discriminate).
  set (y := if tb then edge_flip x else x). destruct (tget t (ea y)) as [ta| |f|]; cbn [bind]; try (right; split; discriminate).
  match goal with |- context [grow todo (S k) ?e ?t (if ?b then ?a else r) (if ?b then ?c else mn)] =>
    match goal with |- context [grow todo (S k) e t (if ?b' then a else r') (if ?b' then c else mn')] =>
      destruct (IH (S k) e t (if b then a else r) (if b then c else mn) (if b' then a else r') (if b' then c else mn'))
        as [(l & r1 & m1 & r2 & m2 & E1 & E2)|[H1 H2]] end end.
  - rewrite E1, E2. cbn [bind]. left. do 5 eexists. split; reflexivity.
  - right. split; intros l r1 m1.
    + destruct (grow todo _ _ _ _ _) as [[[l' ?] ?]| |f|] eqn:E; cbn [bind]; try discriminate. exfalso. exact (H1 _ _ _ eq_refl).
    + clear H1. destruct (grow todo _ _ _ (if dzero r' || _ then _ else _) _) as [[[l' ?] ?]| |f|] eqn:E; cbn [bind]; try discriminate. exfalso. exact (H2 _ _ _ eq_refl).
Qed.

Section Stage.
Context {Roots Ydata Loops Ints Omega Tau : Type}.
Context (branch_points : Z -> Roots)
        (sort : list edge -> list edge) (param : int_method -> Roots -> nat -> nat -> nat -> dbl)
        (extraprec : list edge -> Roots -> Z)
        (ydata : list edge -> Roots -> Z -> Ydata)
        (basis : list edge -> Ydata -> Loops * Loops)
        (integrals : int_method -> list edge -> Ydata -> Z -> Z -> Ints)
        (period : Loops -> Ints -> Z -> Omega)
        (trim_omega : Omega -> Omega) (trim_tau : Tau -> Tau)
        (tau_matrix : Omega -> Omega -> Z -> Tau)
        (m n : Z) (edges : nat).
Notation compute := (compute branch_points sort param extraprec ydata basis integrals period trim_omega trim_tau tau_matrix m n edges).
Notation computes := (computes branch_points sort param extraprec ydata basis integrals period trim_omega trim_tau tau_matrix m n edges).
Notation session := (session branch_points sort param extraprec ydata basis integrals period trim_omega trim_tau tau_matrix m n edges).

Lemma has_true flag b : Z.land flag b <> 0 -> has flag b = true.
Proof. intros H. unfold has. rewrite (proj2 (Z.eqb_neq _ _) H). reflexivity. Qed.
Lemma has_false flag b : Z.land flag b = 0 -> has flag b = false.
Proof. intros H. unfold has. rewrite H. reflexivity. Qed.
Lemma has_zero flag b : has flag b = true -> Z.land flag b = 0 -> False.
Proof. unfold has. intros H E. rewrite E in H. discriminate. Qed.

Lemma fields s flag prec s' : compute s flag prec = Done s' ->
    let p := prec + extraprec (st_edges s') (branch_points 64) in
    let d := ydata (st_edges s') (st_roots s') (p + 10) in
    st_type s' = int_type m n flag /\ st_roots s' = branch_points (p + 10) /\
    st_a s' = fst (basis (st_edges s') d) /\ st_b s' = snd (basis (st_edges s') d) /\
    (Z.land flag AJ_NO_INT = 0 -> st_ints s' = integrals (st_type s') (st_edges s') d flag p) /\
    (Z.land flag AJ_NO_INT = 0 -> Z.land flag AJ_NO_AB = 0 ->
      (if (Z.land flag AJ_TRIM =? 0)%Z then
        st_omega0 s' = period (st_a s') (st_ints s') p /\ st_omega1 s' = period (st_b s') (st_ints s') p
      else
        st_omega0 s' = trim_omega (period (st_a s') (st_ints s') p) /\ st_omega1 s' = trim_omega (period (st_b s') (st_ints s') p))) /\
    (Z.land flag AJ_NO_INT = 0 -> Z.land flag AJ_NO_AB = 0 -> Z.land flag AJ_NO_TAU = 0 ->
      (if (Z.land flag AJ_TRIM =? 0)%Z then st_tau s' = tau_matrix (st_omega0 s') (st_omega1 s') p
      else st_tau s' = trim_tau (tau_matrix (st_omega0 s') (st_omega1 s') p))).
Proof.
  unfold compute. destruct (spanning_tree _ _ _ _ _ _) as [[[e r] mn]| |f|]; cbn [bind]; try discriminate.
  destruct (basis _ _) as [a b] eqn:Eb. assert (Ht : has flag AJ_TRIM = negb (Z.land flag AJ_TRIM =? 0)) by reflexivity.
  destruct (has flag AJ_NO_INT) eqn:B1.
  { intros [= <-]. cbn [st_type st_roots st_edges st_a st_b st_ints st_omega0 st_omega1 st_tau]. rewrite Eb. cbn [fst snd].
    do 4 (split; [reflexivity|]). split; [|split]; intros H; exfalso; exact (has_zero _ _ B1 H). }
  destruct (has flag AJ_NO_AB) eqn:B2.
  { intros [= <-]. cbn [st_type st_roots st_edges st_a st_b st_ints st_omega0 st_omega1 st_tau]. rewrite Eb. cbn [fst snd].
    do 5 (split; [reflexivity|]). split; intros _ H; exfalso; exact (has_zero _ _ B2 H). }
  destruct (has flag AJ_NO_TAU) eqn:B3; intros [= <-];
    cbn [st_type st_roots st_edges st_a st_b st_ints st_omega0 st_omega1 st_tau]; rewrite Eb; cbn [fst snd]; rewrite Ht;
    do 4 (split; [reflexivity|]); (split; [reflexivity|]).
  - split; [intros _ _; destruct (_ =? _); split; reflexivity|]. intros _ _ H. exfalso. exact (has_zero _ _ B3 H).
  - split; [intros _ _; destruct (_ =? _); split; reflexivity|]. intros _ _ _. destruct (_ =? _); reflexivity.
Qed.

Lemma untouched s flag prec s' : compute s flag prec = Done s' ->
  (Z.land flag AJ_NO_INT <> 0 -> st_ints s' = st_ints s) /\
  (Z.land flag AJ_NO_INT <> 0 \/ Z.land flag AJ_NO_AB <> 0 -> st_omega0 s' = st_omega0 s /\ st_omega1 s' = st_omega1 s) /\
  (Z.land flag AJ_NO_INT <> 0 \/ Z.land flag AJ_NO_AB <> 0 \/ Z.land flag AJ_NO_TAU <> 0 -> st_tau s' = st_tau s).
Proof.
  unfold compute. destruct (spanning_tree _ _ _ _ _ _) as [[[e r] mn]| |f|]; cbn [bind]; try discriminate.
  destruct (basis _ _) as [a b].
  destruct (has flag AJ_NO_INT) eqn:B1; [intros [= <-]; cbn; repeat split; reflexivity|].
  destruct (has flag AJ_NO_AB) eqn:B2.
  { intros [= <-]; cbn. repeat split; try reflexivity. intros H. apply has_true in H. congruence. }
  destruct (has flag AJ_NO_TAU) eqn:B3; intros [= <-]; cbn; repeat split; try reflexivity.
  all: try (intros H; exfalso; repeat (destruct H as [H|H]); apply has_true in H; congruence).
  all: destruct H as [H|H]; apply has_true in H; congruence.
Qed.

Lemma compute_agree s1 s2 flag prec : (forall l, Permutation l (sort l)) -> (edges < Z.to_nat n)%nat ->
  exists t1 t2, compute s1 flag prec = Done t1 /\ compute s2 flag prec = Done t2 /\ same_results flag t1 t2 /\
    (st_r s1 = st_r s2 -> st_min s1 = st_min s2 -> st_r t1 = st_r t2 /\ st_min t1 = st_min t2).
Proof.
  intros Hs Hn. unfold compute. set (P := param _ _).
  destruct (tree_final sort P (Z.to_nat n) edges (st_r s1) (st_min s1) Hs Hn) as (l1 & r1 & m1 & E1 & _).
  assert (A : exists r2 m2, spanning_tree sort P (Z.to_nat n) edges (st_r s2) (st_min s2) = Done (l1, r2, m2)).
  { unfold spanning_tree in *. destruct (grow_edges edges 0 (sort (edges_init P (Z.to_nat n))) (repeat false (Z.to_nat n)) (st_r s1) (st_min s1) (st_r s2) (st_min s2))
      as [(l & x1 & y1 & x2 & y2 & F1 & F2)|[H _]].
    - rewrite E1 in F1. injection F1 as <- _ _. do 2 eexists. exact F2.
    - exfalso. exact (H _ _ _ E1). }
  destruct A as (r2 & m2 & E2).
  assert (Hr : st_r s1 = st_r s2 -> st_min s1 = st_min s2 -> r1 = r2 /\ m1 = m2).
  { intros Er Em. rewrite Er, Em, E2 in E1. injection E1 as -> ->. split; reflexivity. }
  rewrite E1, E2. cbn [bind]. destruct (basis _ _) as [a b]. unfold same_results.
  destruct (has flag AJ_NO_INT) eqn:B1.
  { do 2 eexists. split; [reflexivity|]. split; [reflexivity|]. cbn. split; [|exact Hr]. repeat split; intros; try reflexivity; exfalso; eapply has_zero; eassumption. }
  destruct (has flag AJ_NO_AB) eqn:B2.
  { do 2 eexists. split; [reflexivity|]. split; [reflexivity|]. cbn. split; [|exact Hr]. repeat split; intros; try reflexivity; exfalso; eapply has_zero; eassumption. }
  destruct (has flag AJ_NO_TAU) eqn:B3.
  { do 2 eexists. split; [reflexivity|]. split; [reflexivity|]. cbn. split; [|exact Hr]. repeat split; intros; try reflexivity; exfalso; eapply has_zero; eassumption. }
  do 2 eexists. split; [reflexivity|]. split; [reflexivity|]. cbn. split; [|exact Hr]. repeat split.
Qed.

Lemma computes_agree flag prec : (forall l, Permutation l (sort l)) -> (edges < Z.to_nat n)%nat ->
  forall k s1 s2, st_r s1 = st_r s2 -> st_min s1 = st_min s2 -> (k = O -> same_results flag s1 s2) ->
  exists t1 t2, computes s1 (repeat (flag, prec) k) = Done t1 /\ computes s2 (repeat (flag, prec) k) = Done t2 /\
    same_results flag t1 t2 /\ st_r t1 = st_r t2.
Proof.
  intros Hs Hn. induction k as [|k IH]; intros s1 s2 Er Em H0; cbn [repeat ModelStage.computes].
  - exists s1, s2. split; [reflexivity|]. split; [reflexivity|]. split; [exact (H0 eq_refl)|exact Er].
  - destruct (compute_agree s1 s2 flag prec Hs Hn) as (t1 & t2 & E1 & E2 & Hr & Hm).
    rewrite E1, E2. cbn [bind]. destruct (Hm Er Em) as [Er' Em']. apply IH; [exact Er'|exact Em'|intros _; exact Hr].
Qed.

Lemma printed_agree flag (s1 s2 : @state Roots Ydata Loops Ints Omega Tau) : same_results flag s1 s2 -> st_r s1 = st_r s2 -> printed flag s1 = printed flag s2.
Proof.
  intros (_ & _ & He & _ & _ & _ & H) Er. unfold printed, has. destruct (Z.eqb_spec (Z.land flag AJ_NO_INT) 0) as [E|E]; cbn [negb].
  2:{ rewrite Er, He. reflexivity. }
  destruct (H E) as [Hi H']. destruct (Z.eqb_spec (Z.land flag AJ_NO_AB) 0) as [E'|E']; cbn [negb]; [|rewrite Hi; reflexivity].
  destruct (H' E') as (H1 & H2 & H3). destruct (Z.eqb_spec (Z.land flag AJ_NO_TAU) 0) as [E''|E'']; cbn [negb].
  - rewrite (H3 E''). reflexivity.
  - rewrite H1, H2. reflexivity.
Qed.

Lemma session_agree s1 s2 print run flag prec : (forall l, Permutation l (sort l)) -> (edges < Z.to_nat n)%nat ->
  st_r s1 = st_r s2 -> st_min s1 = st_min s2 -> (print = true -> 1 <= run) ->
  exists o, session s1 print run flag prec = Done o /\ session s2 print run flag prec = Done o /\ (o = None <-> print = false).
Proof.
  intros Hs Hn Er Em Hp. unfold session. destruct print.
  - destruct (computes_agree flag prec Hs Hn (Z.to_nat run) s1 s2 Er Em) as (t1 & t2 & E1 & E2 & Hr & Hrr).
    { specialize (Hp eq_refl). lia. }
    rewrite E1, E2. cbn [bind]. rewrite (printed_agree flag t1 t2 Hr Hrr). eexists. split; [reflexivity|split; [reflexivity|]]. split; discriminate.
  - assert (T : forall k s, exists t, computes s (repeat (flag, prec) k) = Done t).
    { induction k as [|k IH]; intros s; cbn [repeat ModelStage.computes]; [eexists; reflexivity|].
      destruct (compute_agree s s flag prec Hs Hn) as (t1 & _ & E1 & _). rewrite E1. cbn [bind]. apply IH. }
    destruct (T (Z.to_nat run) s1) as [t1 E1]. destruct (T (Z.to_nat run) s2) as [t2 E2]. rewrite E1, E2. cbn [bind].
    exists None. repeat split; reflexivity.
Qed.
End Stage.
