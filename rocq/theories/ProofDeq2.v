(** Integrals of all the edges of a tree by the double exponential rule, and periods. *)
From Coq Require Import Reals Lra Lia List Sorting.Sorted.
From Coquelicot Require Import Coquelicot.
From Verif Require Import CArg ModelTree SpecTree ProofTree ProofTreeEx ModelInter ModelCurve ProofCurve ModelSymp SpecSymp ProofSymp ProofSympMain ModelBasis SpecBasis
  ModelPeriod SpecPeriod ProofPeriod ProofPeriodMain ModelVec SpecVec ProofVec ModelQuad SpecQuad ModelCache SpecCache ProofCache SpecInter ModelEdge SpecEdge ProofEdge ProofAngle
  ModelTurn SpecTurn ProofTurn ModelDe SpecDe ModelDeq SpecErr SpecDeq ModelExtra SpecExtra ProofQuad ProofTrap ProofExtra ProofDe2 ProofErr3 ProofErr4 ProofErr5 ProofErr6
  ProofHol7 ProofHol10 ProofHol11 ProofLat9 SpecHyp ProofHyp ProofDeq.
Import ListNotations.
Local Open Scope R_scope.

(** ** Order of the edges *)
Lemma param_smallest ts : forall r0 p r, 0 < p -> smallest_r ts (Rmin r0 p) = Done r -> r = Rmin r0 (param_min ts p).
Proof.
  induction ts as [|t ts IH]; intros r0 p r Hp H; cbn [smallest_r param_min] in *; [now injection H as <-|].
  destruct (Rle_dec t 0) as [L|L]; [discriminate|]. destruct (Rlt_dec p 0) as [L0|L0]; [lra|].
  apply IH; [destruct (Rlt_dec t p); lra|]. rewrite <- H. f_equal.
  unfold Rmin. destruct (Rlt_dec t p); repeat destruct (Rle_dec _ _); repeat destruct (Rlt_dec _ _); lra.
Qed.
Lemma key_r u r : u <> [] -> choose_r (map de_tau u) = Done r -> r = Rmin (14 / 10) (edge_key u) * (9 / 10).
Proof.
  destruct u as [|w u]; [easy|]. intros _. unfold choose_r, edge_key. cbn [map smallest_r param_min].
  destruct (Rle_dec (de_tau w) 0) as [L|L]; cbn [bind]; [discriminate|].
  destruct (smallest_r _ _) as [s| | |] eqn:E; cbn [bind]; try discriminate. intro I. injection I as <-.
  destruct (Rlt_dec (-1) 0) as [_|L']; [|lra]. f_equal. apply param_smallest; [lra|]. rewrite <- E. f_equal.
  unfold Rmin. repeat destruct (Rle_dec _ _); repeat destruct (Rlt_dec _ _); lra.
Qed.
Lemma key_order u u' r r' : u <> [] -> u' <> [] -> choose_r (map de_tau u) = Done r -> choose_r (map de_tau u') = Done r' ->
  edge_key u <= edge_key u' -> r <= r'.
Proof.
  intros Hu Hu' H H' L. rewrite (key_r u r Hu H), (key_r u' r' Hu' H'). apply Rmult_le_compat_r; [lra|]. now apply Rle_min_compat_l.
Qed.

(** ** The loop *)
Lemma loop_inv {Row Key Scheme : Type} (integ : Scheme -> nat -> outcome (Row * Scheme)) (good : nat -> Row -> Prop) (Inv : Scheme -> list nat -> Prop) (d : Row)
  (Hst : forall s k rest, Inv s (k :: rest) -> exists row s', integ s k = Done (row, s') /\ good k row /\ Inv s' rest) :
  forall (t : list (Key * nat)) s rows, Inv s (map snd t) ->
  NoDup (map snd t) -> (forall k, In k (map snd t) -> (k < length rows)%nat) ->
  exists rows', edge_loop integ t s rows = Done rows' /\ length rows' = length rows /\
    (forall k, In k (map snd t) -> good k (nth k rows' d)) /\ (forall k, ~ In k (map snd t) -> nth k rows' d = nth k rows d).
Proof.
  induction t as [|[key k] t IH]; intros s rows HI Hnd Hlt; cbn [edge_loop map snd] in *.
  - exists rows. split; [reflexivity|]. split; [reflexivity|]. split; [intros k []|reflexivity].
  - destruct (Hst s k (map snd t) HI) as (row & s' & Er & Hrow & HI'). rewrite Er. cbn [bind snd fst].
    assert (Hk := Hlt k (or_introl eq_refl)). rewrite (proj2 (Nat.ltb_lt _ _) Hk).
    inversion Hnd as [|? ? Hk0 Hnd']; subst.
    destruct (IH s' (upd rows k row)) as (rows' & E & HL & Hin & Hout).
    + exact HI'.
    + exact Hnd'.
    + intros k' Hk'. rewrite upd_length. apply Hlt. now right.
    + rewrite upd_length in HL. exists rows'. split; [exact E|]. split; [exact HL|]. split.
      * intros q [<-|Hq]; [|now apply Hin]. rewrite Hout by exact Hk0. rewrite (nth_upd d rows k row k Hk), Nat.eqb_refl. exact Hrow.
      * intros q Hq. rewrite Hout by (intro; apply Hq; now right). rewrite (nth_upd d rows k row q Hk). destruct (Nat.eqb_spec q k) as [->|_]; [|reflexivity]. exfalso. apply Hq. now left.
Qed.

(** ** Free segments *)
Lemma free_points nonpos neg x a b m ye : distinct x -> (1 <= m)%nat -> (a < length x)%nat -> (b < length x)%nat -> vget x a <> vget x b ->
  ydata_init_edge nonpos neg x a b (Z.of_nat m) = Done ye -> free_segment x (vget x a) (vget x b) ->
  forall p, In p (y_u ye) -> forall t, -1 <= t <= 1 -> p <> RtoC t.
Proof.
  intros Hd Hm Ha Hb Hab Hye Hf p Hp t Ht E.
  destruct (init_spec nonpos neg x a b m Ha Hb Hab Hm) as (y & Ey & HP & _). assert (y = ye) by congruence. subst y.
  apply (Permutation_in _ (Permutation_sym HP)), in_map_iff in Hp. destruct Hp as (k & Ek & Hk).
  assert (Hab' : (vget x b - vget x a)%C <> RtoC 0).
  { intro E0. apply Hab. transitivity (vget x b - (vget x b - vget x a))%C; [ring|]. rewrite E0. ring. }
  assert (Ex : vget x k = edge_point (vget x a) (vget x b) (RtoC t)).
  { rewrite <- E, <- Ek. unfold edge_point. assert (N2 : RtoC 2 <> RtoC 0) by (intro E0; injection E0; lra). unfold scaled. field. split; assumption. }
  assert (Hkk : (k < length x)%nat /\ k <> a /\ k <> b) by now apply other_points_in.
  destruct Hkk as (K1 & K2 & K3).
  assert (Hinj : forall q, (q < length x)%nat -> vget x k = vget x q -> k = q).
  { intros q Hq Eq. unfold distinct in Hd. now apply (proj1 (NoDup_nth x (RtoC 0)) Hd). }
  destruct (Req_dec t 1) as [->|T1]; [|destruct (Req_dec t (-1)) as [->|T2]].
  - apply K3, Hinj; [exact Hb|]. rewrite Ex. unfold edge_point. apply injective_projections; cbn; field.
  - apply K2, Hinj; [exact Ha|]. rewrite Ex. unfold edge_point. apply injective_projections; cbn; field.
  - apply (Hf t); [lra|]. rewrite <- Ex. apply nth_In. exact K1.
Qed.

Lemma pair_bound n (R0 : nat -> nat -> Prop) (P : nat -> nat -> R -> Prop) : (forall k q K K', K <= K' -> P k q K -> P k q K') ->
  (forall k q, (k < n)%nat -> (q < n)%nat -> R0 k q -> exists K, 0 <= K /\ P k q K) ->
  (forall k q, {R0 k q} + {~ R0 k q}) ->
  exists K, 0 <= K /\ forall k q, (k < n)%nat -> (q < n)%nat -> R0 k q -> P k q K.
Proof.
  intros Mo H Dec.
  destruct (bound_choice n (fun k K => forall q, (q < n)%nat -> R0 k q -> P k q K)) as (K & HK & HP).
  - intros k K K' _ HKK HP q Hq Hr. apply (Mo k q K); [exact HKK|now apply HP].
  - intros k Hk. destruct (bound_choice n (fun q K => R0 k q -> P k q K)) as (K & HK & HP).
    + intros q K K' _ HKK HP Hr. apply (Mo k q K); [exact HKK|now apply HP].
    + intros q Hq. destruct (Dec k q) as [D|D].
      * destruct (H k q Hk Hq D) as (K & HK & HP). exists K. split; [exact HK|now intros _].
      * exists 0. split; [lra|]. intro; contradiction.
    + exists K. split; [exact HK|]. intros q Hq. now apply HP.
  - exists K. split; [exact HK|]. intros k q Hk Hq. now apply HP.
Qed.

Section Tree.
Context (nonpos neg : edge -> C -> bool) (x : list C) (m : nat) (c : sec) (es : list edge) (ys : list ydata)
  (qsort : list (R * nat) -> list (R * nat)) (keys : list R).
Let M := Z.of_nat m.
Hypothesis Hc : sec_init M (Z.of_nat (length x)) = Done c.
Hypothesis Hn : (3 <= length x)%nat.
Hypothesis Hd : distinct x.
Hypothesis Hes : SpecExtra.edges_of x es.
Hypothesis Hys : tree_ydata nonpos neg x M es = Done ys.
Hypothesis Hfree : forall k, (k < length es)%nat -> free_segment x (vget x (ea (nth k es no_edge))) (vget x (eb (nth k es no_edge))).
Hypothesis Hq : forall l, Permutation (qsort l) l.
Hypothesis Hqs : forall l, StronglySorted Rle (map fst (qsort l)).
Hypothesis Hkeys : length keys = length es.
Hypothesis Hkey : forall k, (k < length es)%nat -> nth k keys 0 = edge_key (y_u (nth k ys no_ydata)).

Let ye k := nth k ys no_ydata.
Let xa k := vget x (ea (nth k es no_edge)).
Let xb k := vget x (eb (nth k es no_edge)).
Lemma tree_choice : exists (r : nat -> R) (b : cmat), length b = length es /\
  (forall k, (k < length es)%nat -> choose_r (map de_tau (y_u (ye k))) = Done (r k) /\ 0 < r k <= 126 / 100 /\ length (nth k b []) = Z.to_nat (sec_g c) /\
    cycle_integrals m c x (xa k) (xb k) (y_ya (ye k)) (y_yb (ye k)) (nth k b [])) /\
  exists K, 0 <= K /\ forall k q, (k < length es)%nat -> (q < length es)%nat -> r q <= r k ->
   forall rdef rprod rturn prec, (0 <= prec)%Z -> safe_roots rdef rprod rturn prec (y_u (ye k)) (y_n1 (ye k)) ->
    exists v', row_with c (ye k) rdef rprod rturn prec (store_of m (r q) prec) = Done v' /\ length v' = Z.to_nat (sec_g c) /\
      forall j i, in_block (sec_ni c) j i ->
        Cmod (vget v' (offset (sec_ni c) j + i) - vget (nth k b []) (offset (sec_ni c) j + i))%C <= K * de_rate M (sec_j1 c + Z.of_nat j) prec.
Proof using All.
  assert (H2 : (2 <= M)%Z) by (destruct (sec_init_inv M _ c Hc ltac:(lia)) as (H & _); exact H).
  assert (HE : forall k, (k < length es)%nat -> exists r1 w', choose_r (map de_tau (y_u (ye k))) = Done r1 /\ length w' = Z.to_nat (sec_g c) /\
    cycle_integrals m c x (xa k) (xb k) (y_ya (ye k)) (y_yb (ye k)) w' /\
    forall r, 0 < r <= r1 -> exists K, 0 <= K /\ forall rdef rprod rturn prec, (0 <= prec)%Z -> safe_roots rdef rprod rturn prec (y_u (ye k)) (y_n1 (ye k)) ->
    exists v', row_with c (ye k) rdef rprod rturn prec (store_of m r prec) = Done v' /\ length v' = Z.to_nat (sec_g c) /\
      forall q i, in_block (sec_ni c) q i ->
        Cmod (vget v' (offset (sec_ni c) q + i) - vget w' (offset (sec_ni c) q + i))%C <= K * de_rate M (sec_j1 c + Z.of_nat q) prec).
  { intros k Hk. destruct (Hes (nth k es no_edge) (nth_In es no_edge Hk)) as (A1 & A2 & A3).
    assert (Ey := tree_ydata_nth nonpos neg x M es ys k Hys Hk).
    apply (edge_de _ _ x (ea (nth k es no_edge)) (eb (nth k es no_edge)) m c (ye k) Hc Hn A1 A2 A3 Ey).
    apply (free_points _ _ x (ea (nth k es no_edge)) (eb (nth k es no_edge)) m (ye k) Hd ltac:(unfold M in H2; lia) A1 A2 A3 Ey (Hfree k Hk)). }
  set (r := fun k => match choose_r (map de_tau (y_u (ye k))) with Done r => r | _ => 0 end).
  destruct (rows_choice (length es) (fun k w' => length w' = Z.to_nat (sec_g c) /\
    cycle_integrals m c x (xa k) (xb k) (y_ya (ye k)) (y_yb (ye k)) w' /\
    forall r0, 0 < r0 <= r k -> exists K, 0 <= K /\ forall rdef rprod rturn prec, (0 <= prec)%Z -> safe_roots rdef rprod rturn prec (y_u (ye k)) (y_n1 (ye k)) ->
    exists v', row_with c (ye k) rdef rprod rturn prec (store_of m r0 prec) = Done v' /\ length v' = Z.to_nat (sec_g c) /\
      forall q i, in_block (sec_ni c) q i ->
        Cmod (vget v' (offset (sec_ni c) q + i) - vget w' (offset (sec_ni c) q + i))%C <= K * de_rate M (sec_j1 c + Z.of_nat q) prec)) as (b & HLb & Hb).
  { intros k Hk. destruct (HE k Hk) as (r1 & w' & E1 & H). exists w'. unfold r. rewrite E1. exact H. }
  assert (Hr : forall k, (k < length es)%nat -> choose_r (map de_tau (y_u (ye k))) = Done (r k) /\ 0 < r k <= 126 / 100).
  { intros k Hk. destruct (HE k Hk) as (r1 & w' & E1 & _). unfold r. rewrite E1. split; [reflexivity|]. now apply (choose_r_range _ _ E1). }
  exists r, b. split; [exact HLb|]. split.
  - intros k Hk. destruct (Hr k Hk) as (R1 & R2). destruct (Hb k Hk) as (B1 & B2 & _). split; [exact R1|]. split; [exact R2|]. split; [exact B1|exact B2].
  - destruct (pair_bound (length es) (fun k q => r q <= r k) (fun k q K => forall rdef rprod rturn prec, (0 <= prec)%Z -> safe_roots rdef rprod rturn prec (y_u (ye k)) (y_n1 (ye k)) ->
      exists v', row_with c (ye k) rdef rprod rturn prec (store_of m (r q) prec) = Done v' /\ length v' = Z.to_nat (sec_g c) /\
      forall j i, in_block (sec_ni c) j i ->
        Cmod (vget v' (offset (sec_ni c) j + i) - vget (nth k b []) (offset (sec_ni c) j + i))%C <= K * de_rate M (sec_j1 c + Z.of_nat j) prec)) as (K & HK & HP).
    + intros k q K K' HKK HP rdef rprod rturn prec Hp Hs. destruct (HP rdef rprod rturn prec Hp Hs) as (v' & V1 & V2 & V3). exists v'. split; [exact V1|]. split; [exact V2|].
      intros j i Hbk. eapply Rle_trans; [now apply V3|]. apply Rmult_le_compat_r; [left; apply rate_pos|exact HKK].
    + intros k q Hk Hq' Hrr. destruct (Hb k Hk) as (_ & _ & B3). apply B3. split; [apply (Hr q Hq')|exact Hrr].
    + intros k q. apply Rle_dec.
    + exists K. split; [exact HK|]. exact HP.
Qed.

Theorem tree_de : exists (b : cmat) (K : R), 0 <= K /\ length b = length es /\
  (forall k, (k < length es)%nat -> length (nth k b []) = Z.to_nat (sec_g c) /\ cycle_integrals m c x (xa k) (xb k) (y_ya (ye k)) (y_yb (ye k)) (nth k b [])) /\
  forall rdef rprod rturn same prec (rows : cmat), (0 <= prec)%Z -> length rows = length es ->
    (forall k, (k < length es)%nat -> safe_roots rdef rprod rturn prec (y_u (ye k)) (y_n1 (ye k))) ->
    exists a, tree_integrals_de qsort rdef rprod rturn same c ys prec keys rows = Done a /\ length a = length es /\
      forall k, (k < length es)%nat -> length (nth k a []) = Z.to_nat (sec_g c) /\
        forall j i, in_block (sec_ni c) j i ->
          Cmod (vget (nth k a []) (offset (sec_ni c) j + i) - vget (nth k b []) (offset (sec_ni c) j + i))%C <= K * de_rate M (sec_j1 c + Z.of_nat j) prec.
Proof using All.
  assert (H2 : (2 <= M)%Z) by (destruct (sec_init_inv M _ c Hc ltac:(lia)) as (H & _); exact H).
  destruct tree_choice as (r & b & HLb & Hk0 & K & HK & HP). exists b, K. split; [exact HK|]. split; [exact HLb|]. split.
  { intros k Hk. apply (Hk0 k Hk). }
  intros rdef rprod rturn same prec rows Hp Hrows Hs.
  destruct (sec_init_fields M _ c Hc) as (Em & En).
  assert (Hu : forall k, (k < length es)%nat -> length (y_u (ye k)) = (length x - 2)%nat).
  { intros k Hk. destruct (Hes (nth k es no_edge) (nth_In es no_edge Hk)) as (A1 & A2 & A3).
    assert (Ey := tree_ydata_nth nonpos neg x M es ys k Hys Hk).
    apply (fields _ _ x (ea (nth k es no_edge)) (eb (nth k es no_edge)) m c (ye k) Hc Hn A1 A2 A3 Ey).
    apply (free_points _ _ x (ea (nth k es no_edge)) (eb (nth k es no_edge)) m (ye k) Hd ltac:(unfold M in H2; lia) A1 A2 A3 Ey (Hfree k Hk)). }
  assert (Hu0 : forall k, (k < length es)%nat -> y_u (ye k) <> []) by (intros k Hk E; assert (L := Hu k Hk); rewrite E in L; cbn in L; lia).
  set (order := qsort (combine keys (seq 0 (length keys)))).
  assert (HPo : Permutation (map snd order) (seq 0 (length es))).
  { unfold order. rewrite Hq, Hkeys. rewrite map_snd_combine by (rewrite seq_length; lia). reflexivity. }
  assert (Hin : forall k, In k (map snd order) <-> (k < length es)%nat).
  { intro k. split; intro H.
    - apply (Permutation_in _ HPo), in_seq in H. lia.
    - apply (Permutation_in _ (Permutation_sym HPo)), in_seq. lia. }
  assert (Hpair : forall kk, In kk order -> (snd kk < length es)%nat /\ fst kk = edge_key (y_u (ye (snd kk)))).
  { intros [ky k] Hin'. assert (Hk : (k < length es)%nat) by (apply Hin; apply in_map_iff; now exists (ky, k)). split; [exact Hk|]. cbn [fst snd].
    apply (Permutation_in _ (Hq _)) in Hin'. unfold ye. rewrite <- Hkey by exact Hk.
    apply (In_nth _ _ (0, 0%nat)) in Hin'. destruct Hin' as (p & Hp' & E). rewrite combine_length, seq_length, Nat.min_id in Hp'.
    rewrite combine_nth in E by (now rewrite seq_length). rewrite seq_nth in E by lia. injection E as E1 E2. cbn in E2. subst p. now symmetry. }
  assert (Hsort : StronglySorted (fun k k' => r k <= r k') (map snd order)).
  { assert (S0 := Hqs (combine keys (seq 0 (length keys)))). fold order in S0. revert S0 Hpair. clear - Hk0 Hu0 Hkeys. generalize order. intro o.
    induction o as [|[ky k] o IH]; intros S0 Hpair; cbn [map fst snd] in *; constructor.
    - apply IH; [now inversion S0|]. intros kk Hkk. apply Hpair. now right.
    - inversion S0 as [|? ? _ HF]; subst. rewrite Forall_forall in HF |- *. intros k' Hk'. apply in_map_iff in Hk'. destruct Hk' as ((ky', k2) & E & Hk'). cbn in E. subst k2.
      destruct (Hpair (ky, k) (or_introl eq_refl)) as (P1 & P2). destruct (Hpair (ky', k') (or_intror Hk')) as (P3 & P4). cbn [fst snd] in *.
      apply (key_order (y_u (ye k)) (y_u (ye k'))); [now apply Hu0|now apply Hu0|apply (Hk0 k P1)|apply (Hk0 k' P3)|].
      rewrite <- P2, <- P4. apply HF. apply in_map_iff. now exists (ky', k'). }
  set (Inv := fun (s : de_store) (rest : list nat) => StronglySorted (fun k k' => r k <= r k') rest /\ (forall k, In k rest -> (k < length es)%nat) /\
    (s = no_store \/ exists q, (q < length es)%nat /\ s = store_of m (r q) prec /\ forall k, In k rest -> r q <= r k)).
  destruct (loop_inv (Key := R) (fun s k => edge_integrals_de rdef rprod rturn same c s (nth k ys no_ydata) prec)
    (fun k v' => length v' = Z.to_nat (sec_g c) /\ forall j i, in_block (sec_ni c) j i ->
          Cmod (vget v' (offset (sec_ni c) j + i) - vget (nth k b []) (offset (sec_ni c) j + i))%C <= K * de_rate M (sec_j1 c + Z.of_nat j) prec)
    Inv [] ) with (t := order) (s := no_store) (rows := rows) as (a & Ea & HLa & Ha & _).
  - intros s k rest (I1 & I2 & I3). inversion I1 as [|? ? I1' I1f]; subst. rewrite Forall_forall in I1f.
    assert (Hk : (k < length es)%nat) by (apply I2; now left). destruct (Hk0 k Hk) as (R1 & R2 & _).
    assert (Hpn : (1 <= p_n (r k) M prec)%Z) by (assert (K0 := p_n_pos (r k) M R2 ltac:(lia) prec Hp); lia).
    assert (Hsch : exists q, (q < length es)%nat /\ r q <= r k /\ (forall k', In k' rest -> r q <= r k') /\
      edge_scheme_de same c s (y_u (ye k)) prec = Done (store_of m (r q) prec)).
    { assert (Epar : de_params_d (map de_tau (firstn (Z.to_nat (sec_n c - 2)) (y_u (ye k)))) (sec_m c) prec = Done (r k, p_h (r k) M prec, p_n (r k) M prec)).
      { rewrite En, Em. replace (Z.to_nat (Z.of_nat (length x) - 2)) with (length (y_u (ye k))) by (rewrite (Hu k Hk); lia). rewrite firstn_all.
        apply params_done; [lia|exact R1]. }
      unfold edge_scheme_de. rewrite Epar. cbn [bind].
      assert (Cself : exists q, (q < length es)%nat /\ r q <= r k /\ (forall k', In k' rest -> r q <= r k') /\
        Done {| st_n := p_n (r k) M prec; st_h := p_h (r k) M prec |} = Done (store_of m (r q) prec)).
      { exists k. split; [exact Hk|]. split; [lra|]. split; [exact I1f|]. reflexivity. }
      destruct I3 as [->|(q & Hq' & -> & Hle)].
      - cbn [no_store st_n Z.eqb orb]. exact Cself.
      - assert (Ck : exists q0, (q0 < length es)%nat /\ r q0 <= r k /\ (forall k', In k' rest -> r q0 <= r k') /\ Done (store_of m (r q) prec) = Done (store_of m (r q0) prec)).
        { exists q. split; [exact Hq'|]. split; [apply Hle; now left|]. split; [|reflexivity]. intros k' Hk'. apply Hle. now right. }
        destruct ((st_n (store_of m (r q) prec) =? 0)%Z || negb same)%bool; [|exact Ck].
        destruct (_ || _)%bool; [exact Cself|exact Ck]. }
    destruct Hsch as (q & Hq' & Hqk & Hqr & Es).
    destruct (HP k q Hk Hq' Hqk rdef rprod rturn prec Hp (Hs k Hk)) as (v' & V1 & V2 & V3).
    exists v', (store_of m (r q) prec). split; [|split; [split; [exact V2|exact V3]|]].
    + unfold edge_integrals_de, edge_moments_de. fold (ye k). rewrite Es. cbn [bind]. unfold row_with in V1.
      destruct (de_integrals_run _ _ _ _ _ _ _ _ _) as [v| | |]; try discriminate. cbn [bind fst snd] in *. rewrite V1. reflexivity.
    + split; [exact I1'|]. split; [intros k' Hk'; apply I2; now right|]. right. exists q. split; [exact Hq'|]. split; [reflexivity|exact Hqr].
  - split; [exact Hsort|]. split; [intros k Hk; now apply Hin|]. now left.
  - apply (Permutation_NoDup (Permutation_sym HPo)), seq_NoDup.
  - intros k Hk. rewrite Hrows. now apply Hin.
  - exists a. split; [exact Ea|]. split; [lia|]. intros k Hk. apply Ha. now apply Hin.
Qed.
End Tree.
