(** The loops of the Magma package over pairs of edges, and its intersection matrix. *)
From Coquelicot Require Import Coquelicot.
From Verif Require Import CArg ModelTree ModelVec ModelPeriod ModelTurn ModelEdge ModelMaRoot ModelMaTree ModelSymp SpecSymp SpecTree SpecTurn SpecMaRoot SpecMaTree SpecInter ProofMaRoot3 ProofHol11 ProofAngle SpecCross ProofCross ProofCross2 ModelMaInter ProofMaInter ProofMaInter2 SpecDeq SpecEdge.
Local Open Scope nat_scope.

Section Pairs.
Context (points ze : vec) (m n : nat) (es : list tedge) (ds : list se_edge) (g : nat -> nat -> Z * Z).
Hypothesis Hg : forall j k, 1 <= j -> j < k < n -> exists e1 e2, get_edge es ds j = Done e1 /\ get_edge es ds k = Done e2 /\
  se_intersection_number (t_a (fst e1)) (t_b (fst e1)) (snd e1) (t_a (fst e2)) (t_b (fst e2)) (snd e2) points m n ze = Done (g j k).
Definition mods (v : Z * Z) : Z * Z := (fst v mod Z.of_nat m, snd v mod Z.of_nat m)%Z.

Lemma row_spec j cnt : forall k0 sps, 1 <= j < k0 -> k0 + cnt <= n ->
  exists sps', oloop (pair_step points ze m n es ds j) (seq k0 cnt) sps = Done sps' /\
    forall u w, sps' u w = if (u =? j) && (k0 <=? w) && (w <? k0 + cnt) then Some (mods (g j w)) else sps u w.
Proof using Hg.
  induction cnt as [|cnt IH]; intros k0 sps Hj Hn.
  - exists sps. split; [reflexivity|]. intros u w. destruct (Nat.leb_spec k0 w), (Nat.ltb_spec w (k0 + 0)); try lia; rewrite ?andb_false_r; reflexivity.
  - cbn [seq oloop]. unfold pair_step at 1. destruct (Hg j k0 ltac:(lia) ltac:(lia)) as (e1 & e2 & E1 & E2 & E). rewrite E1, E2. cbn [bind]. rewrite E. cbn [bind].
    destruct (IH (S k0) (put_pair sps j k0 (mods (g j k0))) ltac:(lia) ltac:(lia)) as (sps' & E' & S'). unfold mods in E' at 1. rewrite E'.
    exists sps'. split; [reflexivity|]. intros u w. rewrite S'. unfold put_pair.
    destruct (Nat.eqb_spec u j); cbn [andb]; [|reflexivity]. destruct (Nat.eqb_spec w k0) as [->|N].
    + destruct (Nat.leb_spec (S k0) k0); [lia|]. cbn [andb]. destruct (Nat.leb_spec k0 k0), (Nat.ltb_spec k0 (k0 + S cnt)); try lia. reflexivity.
    + destruct (Nat.leb_spec (S k0) w), (Nat.leb_spec k0 w); try lia; cbn [andb]; [|reflexivity]. destruct (Nat.ltb_spec w (S k0 + cnt)), (Nat.ltb_spec w (k0 + S cnt)); try lia; reflexivity.
Qed.
Lemma rows_spec cnt : forall j0 sps, 1 <= j0 -> j0 + cnt <= n ->
  exists sps', oloop (row_step points ze m n es ds) (seq j0 cnt) sps = Done sps' /\
    (forall u w, u < j0 -> sps' u w = sps u w) /\ (forall u w, j0 <= u < j0 + cnt -> u < w < n -> sps' u w = Some (mods (g u w))).
Proof using Hg.
  induction cnt as [|cnt IH]; intros j0 sps Hj Hn.
  - exists sps. split; [reflexivity|]. split; [reflexivity|]. intros; lia.
  - cbn [seq oloop]. unfold row_step at 1. destruct (row_spec j0 (n - 1 - j0) (j0 + 1) (put_pair sps j0 j0 (1, Z.of_nat m - 1)%Z) ltac:(lia) ltac:(lia)) as (s1 & E1 & S1). rewrite E1. cbn [bind].
    destruct (IH (S j0) s1 ltac:(lia) ltac:(lia)) as (s2 & E2 & A & B). exists s2. split; [exact E2|]. split.
    + intros u w Hu. rewrite A, S1 by lia. destruct (Nat.eqb_spec u j0); [lia|]. cbn [andb]. unfold put_pair. destruct (Nat.eqb_spec u j0); [lia|]. reflexivity.
    + intros u w Hu Hw. destruct (Nat.eq_dec u j0) as [->|N]; [|apply B; lia]. rewrite A, S1 by lia. rewrite Nat.eqb_refl. cbn [andb].
      destruct (Nat.leb_spec (j0 + 1) w), (Nat.ltb_spec w (j0 + 1 + (n - 1 - j0))); try lia. reflexivity.
Qed.
Lemma intersections_spec : 2 <= m -> 1 <= n -> exists T, se_intersections points ze m n es ds = Done T /\ square ((n - 1) * (m - 1)) T /\
  forall k l u v, k < n - 1 -> l < n - 1 -> u < m - 1 -> v < m - 1 ->
    get T (k * (m - 1) + u) (l * (m - 1) + v) = target m (fun j l => mods (g j l)) (k + 1) (l + 1) (u + 1) (v + 1).
Proof using Hg.
  intros Hm Hn. unfold se_intersections. destruct (rows_spec (n - 1) 1 (fun _ _ => None) ltac:(lia) ltac:(lia)) as (sps & E & _ & S). rewrite E. cbn [bind].
  apply matrix_spec; [exact Hm|]. intros j l Hj Hl. apply S; lia.
Qed.
End Pairs.

Lemma target_anti m f j l u v : target m f l j (v + 1) (u + 1) = Z.opp (target m f j l (u + 1) (v + 1)).
Proof.
  unfold target. destruct (Nat.eqb_spec j l) as [->|N].
  - rewrite Nat.eqb_refl. unfold self_block. rewrite !self_fold.
    destruct (Nat.eqb_spec (u + 1) (v + 1 + 1)), (Nat.eqb_spec (v + 1) (u + 1 + 1)); try lia; rewrite ?andb_false_r, ?andb_true_r.
    + destruct (_ && _); reflexivity.
    + destruct (_ && _); reflexivity.
    + reflexivity.
  - destruct (Nat.eqb_spec l j); [lia|]. destruct (Nat.ltb_spec l j), (Nat.ltb_spec j l); try lia; unfold minus_transpose; lia.
Qed.
Lemma anti_blocks N m T (f : nat -> nat -> Z * Z) : 2 <= m ->
  (forall k l u v, k < N -> l < N -> u < m - 1 -> v < m - 1 -> get T (k * (m - 1) + u) (l * (m - 1) + v) = target m f (k + 1) (l + 1) (u + 1) (v + 1)) ->
  antisymmetric (N * (m - 1)) T.
Proof.
  intros Hm H i j Hi Hj.
  assert (D : forall i, i < N * (m - 1) -> exists k u, k < N /\ u < m - 1 /\ i = k * (m - 1) + u).
  { clear - Hm. intros i Hi. exists (i / (m - 1)), (i mod (m - 1)). split; [apply Nat.div_lt_upper_bound; nia|]. split; [apply Nat.mod_upper_bound; lia|].
    pose proof (Nat.div_mod i (m - 1) ltac:(lia)) as X. rewrite (Nat.mul_comm (m - 1)) in X. exact X. }
  destruct (D i Hi) as (k & u & Hk & Hu & ->). destruct (D j Hj) as (l & v & Hl & Hv & ->). rewrite !H by assumption. rewrite (target_anti m f (k + 1) (l + 1) u v). lia.
Qed.

Local Open Scope R_scope.
Definition no_tedge : tedge := {| t_a := 0; t_b := 0; t_r := 0 |}.
Lemma plains_nth es k : (k < length es)%nat -> nth k (plains es) no_edge = plain (nth k es no_tedge).
Proof. intro H. unfold plains. rewrite <- (map_nth plain). apply nth_indep. rewrite map_length. exact H. Qed.

Lemma clear_of_free x a b : distinct x -> (a < length x)%nat -> (b < length x)%nat -> free_segment x (vget x a) (vget x b) -> clear_edge x a b.
Proof.
  intros Hd Ha Hb F k t Hk Ka Kb Ht E. destruct (Req_dec t (-1)) as [->|N1].
  - apply (distinct_get x k a Hd Hk Ha Ka). rewrite E. unfold edge_point. rewrite ProofEdge.m1, ProofEdge.two. field. intros H0. injection H0. lra.
  - destruct (Req_dec t 1) as [->|N2].
    + apply (distinct_get x k b Hd Hk Hb Kb). rewrite E. unfold edge_point. rewrite ProofEdge.two. field. intros H0. injection H0. lra.
    + apply (F t ltac:(lra)). rewrite <- E. apply nth_In. exact Hk.
Qed.

Section Tree.
Context (x : list C) (m : nat) (es : list tedge).
Let n := length x.
Hypothesis Hd : distinct x.
Hypothesis Hm : (2 <= m)%nat.
Hypothesis Hn : (3 <= n)%nat.
Hypothesis Hl : length es = (n - 1)%nat.
Hypothesis Hgr : growing (plains es).
Hypothesis Ht : forall v, touched (plains es) v -> (v < n)%nat.
Hypothesis Hfree : forall e, In e es -> free_segment x (vget x (t_a e)) (vget x (t_b e)).
Hypothesis Hap : edges_apart x (plains es).
Let M := Z.of_nat m.
Notation e k := (nth k es no_tedge).

Lemma ends_in k : (k < n - 1)%nat -> (t_a (e k) < n)%nat /\ (t_b (e k) < n)%nat /\ t_a (e k) <> t_b (e k) /\ free_segment x (vget x (t_a (e k))) (vget x (t_b (e k))).
Proof using All.
  intro Hk. assert (I : In (e k) es) by (apply nth_In; lia). assert (I' : In (plain (e k)) (plains es)) by (apply in_map; exact I).
  split; [apply Ht; exists (plain (e k)); split; [exact I'|left; reflexivity]|]. split; [apply Ht; exists (plain (e k)); split; [exact I'|right; reflexivity]|]. split; [|apply Hfree, I].
  destruct (in_split _ _ I') as (l1 & l2 & E). destruct (Hgr l1 (plain (e k)) l2 E) as (N & _). exact N.
Qed.
Lemma new_end k l : (k < l < n - 1)%nat -> t_b (e l) <> t_a (e k) /\ t_b (e l) <> t_b (e k).
Proof using All.
  intro H. destruct (growing_new (plains es) k l Hgr) as (A & B); [unfold plains; rewrite map_length; lia|].
  rewrite !plains_nth in A, B by lia. split; assumption.
Qed.

(** the data of the edges *)
Lemma data_exist : exists ds fs, tree_data x (zetas m) m n es = Done ds /\ length ds = length es /\
  forall k, (k < n - 1)%nat -> edge_values x m (t_a (e k)) (t_b (e k)) (nth k ds {| e_data := []; e_up := 0; e_isgn := [] |}) (nth k fs (fun _ => RtoC 0)).
Proof using All.
  assert (H : forall k, (k < length es)%nat -> exists d f, edge_values x m (t_a (e k)) (t_b (e k)) d f).
  { intros k Hk. destruct (ends_in k ltac:(lia)) as (A & B & D & F). apply (values_exist x m Hd Hm Hn); auto. apply clear_of_free; auto. }
  clear - H Hl. fold n. rewrite <- Hl. clear Hl. revert H. generalize es as l. induction l as [|a l IH]; intro H.
  - exists [], []. split; [reflexivity|]. split; [reflexivity|]. cbn. intros; lia.
  - destruct IH as (ds & fs & E & L & V); [intros k Hk; exact (H (S k) ltac:(cbn; lia))|]. destruct (H 0%nat ltac:(cbn; lia)) as (d & f & Vd).
    exists (d :: ds), (f :: fs). split; [|split; [cbn; lia|intros [|k] Hk; [exact Vd|exact (V k ltac:(cbn in Hk; lia))]]].
    cbn [tree_data]. cbn [nth] in Vd. pose proof (proj1 Vd) as E1. fold n in E1. rewrite E1. cbn [bind]. rewrite E. reflexivity.
Qed.

Section Data.
Context (ds : list se_edge) (fs : list (R -> C)).
Notation d k := (nth k ds {| e_data := []; e_up := 0%nat; e_isgn := [] |}).
Notation f k := (nth k fs (fun _ => RtoC 0)).
Hypothesis Ld : length ds = length es.
Hypothesis HV : forall k, (k < n - 1)%nat -> edge_values x m (t_a (e k)) (t_b (e k)) (d k) (f k).

Definition pair_of (k l : nat) : Z * Z :=
  match se_intersection_number (t_a (e k)) (t_b (e k)) (d k) (t_a (e l)) (t_b (e l)) (d l) x m n (zetas m) with Done v => v | _ => (0, 0)%Z end.
Let num k l := se_intersection_number (t_a (e k)) (t_b (e k)) (d k) (t_a (e l)) (t_b (e l)) (d l) x m n (zetas m).

(** quotient of the half edges *)
Definition hq k l : C := ((vget x (t_b (e k)) - vget x (t_a (e k))) / RtoC 2 / ((vget x (t_b (e l)) - vget x (t_a (e l))) / RtoC 2))%C.
Lemma pair_cases k l : (k < l < n - 1)%nat ->
  (t_a (e l) = t_a (e k) /\ exists s r, num k l = Done (if Rlt_dec r 0 then (- s, -1 - s) else (1 - s, - s))%Z /\ -1 < r < 1 /\ r <> 0 /\ offset_by M (f k (-1)) (f l (-1)) s r /\ carg (hq k l) = 2 * PI * r) \/
  (t_a (e l) <> t_a (e k) /\ t_a (e l) = t_b (e k) /\ exists s r, num k l = Done (- s, 1 - s)%Z /\ 0 < r < 1 /\ offset_by M (f k 1) (f l (-1)) s r /\ carg (hq k l) = 2 * PI * (r - / 2)) \/
  (t_a (e l) <> t_a (e k) /\ t_a (e l) <> t_b (e k) /\ num k l = Done (0, 0)%Z).
Proof using All.
  intro Hkl. destruct (ends_in k ltac:(lia)) as (A1 & B1 & D1 & F1). destruct (ends_in l ltac:(lia)) as (A2 & B2 & D2 & F2).
  destruct (new_end k l Hkl) as (N1 & N2). pose proof (HV k ltac:(lia)) as V1. pose proof (HV l ltac:(lia)) as V2. unfold num, hq.
  destruct (Nat.eq_dec (t_a (e l)) (t_a (e k))) as [E|E].
  - left. split; [exact E|]. rewrite E in D2, F2, V2 |- *. exact (pair_start x m Hd Hm Hn _ _ _ _ _ _ _ A1 B1 B2 D1 D2 (not_eq_sym N2) F1 F2 V1 V2).
  - right. destruct (Nat.eq_dec (t_a (e l)) (t_b (e k))) as [E'|E'].
    + left. split; [exact E|]. split; [exact E'|]. rewrite E' in D2, F2, V2 |- *. exact (pair_end x m Hd Hm Hn _ _ _ _ _ _ _ A1 B1 B2 D1 (not_eq_sym N1) D2 F1 F2 V1 V2).
    + right. split; [exact E|]. split; [exact E'|]. assert (ND : NoDup [t_a (e k); t_b (e k); t_a (e l); t_b (e l)]).
      { constructor; [cbn [In]; intros [?|[?|[?|[]]]]; congruence|]. constructor; [cbn [In]; intros [?|[?|[]]]; congruence|]. constructor; [cbn [In]; intros [?|[]]; congruence|]. constructor; [intros []|constructor]. }
      exact (pair_apart x m Hm Hn _ _ _ _ _ _ ND).
Qed.
Lemma edges_get k : (1 <= k < n)%nat -> get_edge es ds k = Done (e (k - 1)%nat, d (k - 1)%nat).
Proof using All.
  intro Hk. unfold get_edge. rewrite (nth_error_nth' es no_tedge) by lia. rewrite (nth_error_nth' ds {| e_data := []; e_up := 0%nat; e_isgn := [] |}) by lia. reflexivity.
Qed.
Lemma matrix_done : exists T, se_intersections x (zetas m) m n es ds = Done T /\ square ((n - 1) * (m - 1))%nat T /\
  forall k l u v, (k < n - 1)%nat -> (l < n - 1)%nat -> (u < m - 1)%nat -> (v < m - 1)%nat ->
    get T (k * (m - 1) + u)%nat (l * (m - 1) + v)%nat = target m (fun j l => mods m (pair_of (j - 1)%nat (l - 1)%nat)) (k + 1)%nat (l + 1)%nat (u + 1)%nat (v + 1)%nat.
Proof using All.
  apply (intersections_spec x (zetas m) m n es ds (fun j l => pair_of (j - 1)%nat (l - 1)%nat)); [|exact Hm|lia].
  intros j k Hj Hk. exists (e (j - 1)%nat, d (j - 1)%nat), (e (k - 1)%nat, d (k - 1)%nat). split; [apply edges_get; lia|]. split; [apply edges_get; lia|]. cbn [fst snd].
  unfold pair_of. destruct (pair_cases (j - 1)%nat (k - 1)%nat ltac:(lia)) as [(_ & s & r & E & _)|[(_ & _ & s & r & E & _)|(_ & _ & E)]]; unfold num in E; rewrite E; reflexivity.
Qed.

Context (T : mat).
Hypothesis HT : forall k l u v, (k < n - 1)%nat -> (l < n - 1)%nat -> (u < m - 1)%nat -> (v < m - 1)%nat ->
    get T (k * (m - 1) + u)%nat (l * (m - 1) + v)%nat = target m (fun j l => mods m (pair_of (j - 1)%nat (l - 1)%nat)) (k + 1)%nat (l + 1)%nat (u + 1)%nat (v + 1)%nat.
Let rho := rroot M (/ 2 ^ n).
Definition ya k := (RtoC rho * f k (-1))%C.
Definition yb k := (RtoC rho * f k 1)%C.
Definition Yb k (t : R) := (RtoC (rroot M (1 - t * t)) * (RtoC rho * f k t))%C.
Lemma rho_pos : 0 < rho /\ rho ^ m = / 2 ^ n.
Proof using All.
  assert (0 < / 2 ^ n) by (apply Rinv_0_lt_compat, pow_lt; lra). unfold rho, M. split; [apply rroot_pos; assumption|]. apply rroot_pow; [lia|lra].
Qed.

Lemma above_diag k l u v : (k < l < n - 1)%nat -> (u < m - 1)%nat -> (v < m - 1)%nat ->
  get T (k * (m - 1) + u)%nat (l * (m - 1) + v)%nat = shift_block m (fst (pair_of k l) mod M) (snd (pair_of k l) mod M) (u + 1)%nat (v + 1)%nat.
Proof using All.
  intros. rewrite HT by lia. unfold target. destruct (Nat.eqb_spec (k + 1) (l + 1)); [lia|]. destruct (Nat.ltb_spec (k + 1) (l + 1)); [|lia]. rewrite !Nat.add_sub. reflexivity.
Qed.

Lemma sheets_ok : sheets m x (plains es) ya yb Yb.
Proof using All.
  intros k Hk. unfold plains in Hk. rewrite map_length in Hk. rewrite plains_nth by exact Hk. cbn [plain ea eb].
  destruct (HV k ltac:(lia)) as (_ & Co & V & _). exists (fun t => (RtoC rho * f k t)%C). split; [reflexivity|]. split; [reflexivity|]. split.
  - intros t _. apply (ProofErr3.ccont_mult (fun _ => RtoC rho)); [apply ProofErr3.ccont_const|apply Co].
  - intros t Htt. split; [reflexivity|]. unfold Yb. destruct (V t Htt) as (_ & E). destruct rho_pos as (R1 & R2).
    rewrite !cpow_mul, !cpow_RtoC, R2. unfold M. rewrite rroot_pow; [|lia|nra].
    assert (N2 : RtoC (2 ^ n) <> RtoC 0). { intro X. injection X. pose proof (pow_lt 2 n ltac:(lra)). lra. }
    rewrite cpow_RtoC in E. replace (poly_at x (edge_point (vget x (t_a (e k))) (vget x (t_b (e k))) (RtoC t))) with (RtoC (/ 2 ^ n) * (RtoC (2 ^ n) * poly_at x (edge_point (vget x (t_a (e k))) (vget x (t_b (e k))) (RtoC t))))%C.
    2: { rewrite Cmult_assoc, <- RtoC_mult, Rinv_l, Cmult_1_l; [reflexivity|]. pose proof (pow_lt 2 n ltac:(lra)). lra. }
    fold n in E. rewrite E, RtoC_minus, RtoC_mult. ring.
Qed.

Lemma shift_dlt sp sm u v : ((sp - sm) mod M <> 0)%Z -> (u < m - 1)%nat -> (v < m - 1)%nat ->
  shift_block m (sp mod M) (sm mod M) (u + 1)%nat (v + 1)%nat = (dlt0 M (Z.of_nat v - Z.of_nat u - sp) - dlt0 M (Z.of_nat v - Z.of_nat u - sm))%Z.
Proof using All.
  intros H Hu Hv. unfold M in H |- *. rewrite shift_entry by assumption. apply number_dlt; [lia|exact H].
Qed.
Lemma ends_crossings k l u v : (k <= l < n - 1)%nat -> (u < m - 1)%nat -> (v < m - 1)%nat ->
  exists e0, 0 < e0 /\ forall eps, 0 < eps < e0 ->
    crossings (list_prod (passes M (plain (e k)) (ya k) (yb k) (Z.of_nat u)) (map (pushed eps) (passes M (plain (e l)) (ya l) (yb l) (Z.of_nat v)))) (get T (k * (m - 1) + u)%nat (l * (m - 1) + v)%nat).
Proof using All.
  intros Hkl Hu Hv. assert (M2 : (2 <= M)%Z) by (unfold M; lia). destruct (mod1 M M2) as [D1 D2]. destruct rho_pos as (Rp & _).
  destruct (Nat.lt_ge_cases k l) as [L|L].
  - destruct (new_end k l ltac:(lia)) as (N1 & N2). destruct (ends_in k ltac:(lia)) as (_ & _ & A3 & _).
    rewrite above_diag by lia. destruct (pair_cases k l ltac:(lia)) as [(Ea & s & r & E & R1 & R0 & OF & _)|[(Na & Eb & s & r & E & R1 & OF & _)|(Na & Nb & E)]];
    unfold pair_of; unfold num in E; rewrite E; cbn [fst snd].
    + assert (OF' := offset_scal M _ _ s r rho Rp OF). fold (ya k) (ya l) in OF'.
      destruct (start_start M (Z.of_nat u) (Z.of_nat v) M2 _ _ s r OF' R1 R0) as (e0 & P0 & H). exists e0. split; [exact P0|]. intros eps He. specialize (H eps He).
      unfold passes, pushed. cbn [list_prod map app fst snd plain ea eb].
      set (K := shift_block _ _ _ _ _). replace K with (K + 0)%Z by lia. apply cr_same; [cbn [fst]; auto| |].
      * cbn [snd]. replace K with (if Rlt_dec r 0 then dlt0 M (Z.of_nat v + s - Z.of_nat u) - dlt0 M (Z.of_nat v + 1 + s - Z.of_nat u) else dlt0 M (Z.of_nat v - 1 + s - Z.of_nat u) - dlt0 M (Z.of_nat v + s - Z.of_nat u))%Z; [exact H|].
        unfold K. destruct (Rlt_dec r 0) as [Ln|Ln]; cbn [fst snd]; rewrite shift_dlt; try assumption.
        { f_equal; f_equal; lia. }
        { replace (- s - (-1 - s))%Z with 1%Z by lia. exact D1. }
        { f_equal; f_equal; lia. }
        { replace (1 - s - - s)%Z with 1%Z by lia. exact D1. }
      * apply cr_other; [cbn [fst]; auto|]. apply cr_other; [cbn [fst]; congruence|]. apply cr_other; [cbn [fst]; auto|]. constructor.
    + assert (OF' := offset_scal M _ _ s r rho Rp OF). fold (yb k) (ya l) in OF'.
      destruct (end_start M (Z.of_nat u) (Z.of_nat v) M2 _ _ s r OF' R1) as (e0 & P0 & H). exists e0. split; [exact P0|]. intros eps He. specialize (H eps He).
      unfold passes, pushed. cbn [list_prod map app fst snd plain ea eb]. set (K := shift_block _ _ _ _ _).
      apply cr_other; [cbn [fst]; congruence|]. apply cr_other; [cbn [fst]; auto|]. replace K with (K + 0)%Z by lia. apply cr_same; [cbn [fst]; auto| |apply cr_other; [cbn [fst]; auto|constructor]].
      cbn [snd]. replace K with (dlt0 M (Z.of_nat v + s - Z.of_nat u) - dlt0 M (Z.of_nat v - 1 + s - Z.of_nat u))%Z; [exact H|]. unfold K. rewrite shift_dlt; try assumption.
      * f_equal; f_equal; lia.
      * replace (- s - (1 - s))%Z with (-1)%Z by lia. exact D2.
    + rewrite !Z.mod_0_l by lia. rewrite zero_entry. exists 1. split; [lra|]. intros eps _. unfold passes, pushed. cbn [list_prod map app fst snd plain ea eb].
      do 4 (apply cr_other; [cbn [fst]; auto|]). constructor.
  - assert (l = k) by lia. subst l. destruct (ends_in k ltac:(lia)) as (_ & _ & A3 & _).
    destruct (HV k ltac:(lia)) as (_ & _ & _ & _ & _ & _ & Za & Zb).
    assert (A5 : ya k <> RtoC 0). { apply Cmult_neq_0'; [|exact Za]. intro X. injection X. lra. }
    assert (A6 : yb k <> RtoC 0). { apply Cmult_neq_0'; [|exact Zb]. intro X. injection X. lra. }
    exists (2 * PI * 1 / IZR M). split; [exact (small1_pos M M2)|]. intros eps He. assert (S1 := self_start M (Z.of_nat u) (Z.of_nat v) M2 _ A5 eps He). assert (S2 := self_end M (Z.of_nat u) (Z.of_nat v) M2 _ A6 eps He).
    rewrite HT by lia. unfold target. rewrite Nat.eqb_refl, self_entry by lia. fold M.
    unfold passes, pushed. cbn [list_prod map app fst snd plain ea eb]. set (K := number _ _ _ _). replace K with (0 + (K + 0))%Z by lia.
    apply cr_same; [reflexivity|exact S1|]. apply cr_other; [exact A3|]. apply cr_other; [cbn [fst]; auto|]. apply cr_same; [reflexivity| |constructor]. cbn [snd].
    replace K with (dlt0 M (Z.of_nat v - 1 - Z.of_nat u) - dlt0 M (Z.of_nat v + 1 - Z.of_nat u))%Z; [exact S2|]. unfold K. destruct (Z.eq_dec M 2) as [E2|E2].
    + assert (u = 0%nat) by (unfold M in E2; lia). assert (v = 0%nat) by (unfold M in E2; lia). subst u v. rewrite E2. reflexivity.
    + rewrite number_dlt; [f_equal; f_equal; lia|exact M2|]. replace (1 - -1)%Z with 2%Z by lia. rewrite Z.mod_small by lia. discriminate.
Qed.

Lemma matrix_loops : loop_matrix m x (plains es) ya yb Yb T.
Proof using All.
  assert (Lp : length (plains es) = (n - 1)%nat) by (unfold plains; rewrite map_length; exact Hl).
  split.
  - rewrite Lp. exact (anti_blocks (n - 1) m T _ Hm HT).
  - rewrite Lp. intros k l u v Hkl Hu Hv. rewrite !plains_nth by lia.
    exists (get T (k * (m - 1) + u)%nat (l * (m - 1) + v)%nat), 0%Z. split; [lia|]. split; [apply ends_crossings; assumption|].
    destruct ((ea (plain (e k)) =? ea (plain (e l))) && (eb (plain (e k)) =? eb (plain (e l))))%nat eqn:B; [reflexivity|]. apply ci_none.
    assert (k < l)%nat. { destruct (Nat.eq_dec k l) as [->|]; [|lia]. rewrite !Nat.eqb_refl in B. discriminate. }
    intros t t' H1 H2. assert (X := Hap k l t t' ltac:(lia) H1 H2). rewrite !plains_nth in X by lia. exact X.
Qed.
End Data.
End Tree.
