(** The intersection matrix of the Magma package as the form of a tree of edges. *)
From Coquelicot Require Import Coquelicot.
From Verif Require Import CArg ModelTree ModelVec ModelPeriod ModelTurn ModelEdge ModelMaRoot ModelMaTree ModelSymp SpecSymp SpecTree SpecTurn SpecMaRoot SpecMaTree SpecInter SpecCross ProofCross ProofCross2 ModelMaInter ProofMaInter ProofMaInter2 ProofMaInter3 SpecDeq SpecEdge
  ProofAngle ProofLat1 ProofLat2 ProofLat3 ProofLat4 ProofLat5 ProofLat6 ProofLat7.
From Coq Require Import Lra.
Local Open Scope R_scope.

Lemma along_turns z t : along z t -> exists i : Z, t = 2 * PI * (turn z + IZR i).
Proof.
  intros [N E]. assert (P := Cmod_pos z N). assert (Hpi := PI_RGT_0).
  assert (Nm : RtoC (Cmod z) <> RtoC 0) by (intros H; injection H; lra).
  assert (Ec : cis t = cis (2 * PI * turn z)).
  { pose proof (turn_polar z) as E'. rewrite E in E' at 1. apply (f_equal (fun w => / RtoC (Cmod z) * w)%C) in E'.
    rewrite !Cmult_assoc, !Cinv_l, !Cmult_1_l in E' by exact Nm. exact E'. }
  destruct (cis_eq _ _ Ec) as [k Hk]. exists k. rewrite Hk. ring.
Qed.
Lemma quot_turns a b : a <> RtoC 0 -> b <> RtoC 0 -> exists i : Z, carg (a / b)%C = 2 * PI * (turn a - turn b + IZR i).
Proof.
  intros Na Nb. assert (Hpi := PI_RGT_0). assert (Nq : (a / b)%C <> RtoC 0) by (apply quot_neq; assumption).
  assert (A : along a (carg b + carg (a / b)%C)).
  { replace a with (RtoC (Cmod (a / b)%C) * (b * cis (carg (a / b)%C)))%C at 1.
    - apply along_scal; [apply Cmod_pos, Nq|]. apply along_cis. split; [exact Nb|apply carg_polar].
    - transitivity (b * (RtoC (Cmod (a / b)%C) * cis (carg (a / b)%C)))%C; [ring|]. rewrite <- carg_polar. field. exact Nb. }
  destruct (along_turns _ _ A) as [i E]. exists i. unfold turn in E |- *. replace (carg (a / b)%C) with (carg b + carg (a / b)%C - carg b) by ring. rewrite E. field. lra.
Qed.
Lemma offset_turns m p q s r : (2 <= m)%nat -> offset_by (Z.of_nat m) p q s r -> exists j : Z, IZR s = r + IZR (Z.of_nat m) * (turn q - turn p + IZR j).
Proof.
  intros Hm (t & A & B). destruct (along_turns _ _ A) as [i E]. destruct (along_turns _ _ B) as [k F]. exists (k - i)%Z.
  assert (Hpi := PI_RGT_0). assert (M0 : 0 < IZR (Z.of_nat m)) by (apply IZR_lt; lia). rewrite minus_IZR.
  assert (G : 2 * PI * (IZR s - r) / IZR (Z.of_nat m) = 2 * PI * (turn q - turn p + (IZR k - IZR i))) by lra.
  apply (Rmult_eq_reg_l (2 * PI / IZR (Z.of_nat m))); [|apply Rmult_integral_contrapositive_currified; [lra|apply Rinv_neq_0_compat; lra]].
  transitivity (2 * PI * (IZR s - r) / IZR (Z.of_nat m) + 2 * PI / IZR (Z.of_nat m) * r); [field; lra|]. rewrite G. field. lra.
Qed.

Section Tree.
Context (x : list C) (m : nat) (es : list tedge).
Let n := length x.
Hypothesis Hd : distinct x.
Hypothesis Hm : (2 <= m)%nat.
Hypothesis Hn : (3 <= n)%nat.
Hypothesis Hl : length es = (n - 1)%nat.
Hypothesis Hgr : growing (plains es).
Hypothesis Ht : forall v, touched (plains es) v -> (v < n)%nat.
Hypothesis Hfree : forall e, In e es -> free_segment x (vget x (t_a e)) (vget x (t_b e)).
Hypothesis Hap : edges_apart x (plains es).
Context (ds : list se_edge) (fs : list (R -> C)).
Notation e k := (nth k es no_tedge).
Notation d k := (nth k ds {| e_data := []; e_up := 0%nat; e_isgn := [] |}).
Notation f k := (nth k fs (fun _ => RtoC 0)).
Hypothesis Ld : length ds = length es.
Hypothesis HV : forall k, (k < n - 1)%nat -> edge_values x m (t_a (e k)) (t_b (e k)) (d k) (f k).
Context (T : mat).
Hypothesis HT : forall k l u v, (k < n - 1)%nat -> (l < n - 1)%nat -> (u < m - 1)%nat -> (v < m - 1)%nat ->
    get T (k * (m - 1) + u)%nat (l * (m - 1) + v)%nat = target m (fun j l => mods m (pair_of x m es ds (j - 1)%nat (l - 1)%nat)) (k + 1)%nat (l + 1)%nat (u + 1)%nat (v + 1)%nat.
Let M := Z.of_nat m.
Let pr := pair_of x m es ds.
Let h k := ((vget x (t_b (e k)) - vget x (t_a (e k))) / RtoC 2)%C.
Definition ma_th k := turn (h k).
Definition ma_al k := turn (f k (-1)).
Definition ma_be k := turn (f k 1).
Definition ma_ng k l : bool := if Rlt_dec 0 (carg (hq x es k l)) then (if Rlt_dec (carg (hq x es k l)) PI then false else true) else true.
Definition ma_s k l : Z := if ((t_a (e l) =? t_a (e k))%nat && negb (ma_ng k l))%bool then (- snd (pr k l))%Z else (- fst (pr k l))%Z.
Notation th := ma_th.
Notation al := ma_al.
Notation be := ma_be.
Notation ng := ma_ng.
Notation s := ma_s.
Notation cases := (pair_cases x m es Hd Hm Hn Hl Hgr Ht Hfree Hap ds fs Ld HV).

Lemma half_neq k : (k < n - 1)%nat -> h k <> RtoC 0.
Proof using All. intro Hk. destruct (ends_in x m es Hd Hm Hn Hl Hgr Ht Hfree Hap k Hk) as (A & B & D & _). apply (ProofEdge.h_neq x), (distinct_get x); assumption. Qed.
Lemma half_turns k l : (k < n - 1)%nat -> (l < n - 1)%nat -> exists i : Z, carg (hq x es k l) = 2 * PI * (th k - th l + IZR i).
Proof using All. intros Hk Hl'. apply quot_turns; apply half_neq; assumption. Qed.

Lemma same_start k l : (k < l < n - 1)%nat -> t_a (e l) = t_a (e k) ->
  (pr k l = if ng k l then (- s k l, -1 - s k l) else (1 - s k l, - s k l))%Z /\
  exists rho (i j : Z), - / 2 <= rho < / 2 /\ rho = th k - th l + IZR i /\
    IZR (s k l) = rho + IZR M * (al l - al k + IZR j) /\ (ng k l = true <-> rho <= 0).
Proof using All.
  intros Hkl E. destruct (cases k l Hkl) as [(_ & s0 & r & Ep & R1 & R0 & OF & Er)|[(N & _)|(N & _)]]; [|contradiction|contradiction].
  destruct (half_turns k l) as (i & Ei); [unfold n; lia|unfold n; lia|]. destruct (offset_turns _ _ _ _ _ Hm OF) as (j & Ej). fold M in Ej. fold (al l) (al k) in Ej.
  assert (Hpi := PI_RGT_0). assert (Rg := carg_range (hq x es k l)).
  assert (Ei' : r = th k - th l + IZR i) by (rewrite Er in Ei; apply (Rmult_eq_reg_l (2 * PI)); lra). rewrite Er in Rg.
  assert (Pr : pr k l = if Rlt_dec r 0 then (- s0, -1 - s0)%Z else (1 - s0, - s0)%Z) by (unfold pr, pair_of; fold n; unfold n in *; rewrite Ep; reflexivity).
  assert (Rr : - / 2 < r <= / 2) by (split; nra).
  destruct (Req_dec r (/ 2)) as [Eh|Nh].
  - assert (Nn : ng k l = true). { unfold ma_ng. rewrite Er. destruct (Rlt_dec 0 _) as [|]; [|reflexivity]. destruct (Rlt_dec _ PI) as [L|]; [|reflexivity]. exfalso. rewrite Eh in L. lra. }
    destruct (Rlt_dec r 0); [lra|]. unfold ma_s. rewrite Nn, E, Nat.eqb_refl, Pr. cbn [negb andb fst snd]. split; [f_equal; lia|].
    exists (- / 2), (i - 1)%Z, j. rewrite minus_IZR. split; [lra|]. split; [lra|]. split; [|split; [lra|reflexivity]]. rewrite opp_IZR, minus_IZR, Ej. lra.
  - destruct (Rlt_dec r 0) as [Ln|Ln].
    + assert (Nn : ng k l = true). { unfold ma_ng. rewrite Er. destruct (Rlt_dec 0 _) as [L|]; [|reflexivity]. exfalso. nra. }
      unfold ma_s. rewrite Nn, E, Nat.eqb_refl, Pr. cbn [negb andb fst snd]. rewrite !Z.opp_involutive. split; [reflexivity|].
      exists r, i, j. split; [lra|]. split; [exact Ei'|]. split; [exact Ej|]. split; [lra|reflexivity].
    + assert (Nn : ng k l = false). { unfold ma_ng. rewrite Er. destruct (Rlt_dec 0 _) as [L|L]; [|exfalso; apply L; nra]. destruct (Rlt_dec _ PI) as [|L']; [reflexivity|]. exfalso. apply L'. nra. }
      unfold ma_s. rewrite Nn, E, Nat.eqb_refl, Pr. cbn [negb andb fst snd]. rewrite !Z.opp_involutive. split; [reflexivity|].
      exists r, i, j. split; [lra|]. split; [exact Ei'|]. split; [exact Ej|]. split; [discriminate|lra].
Qed.
Lemma end_start k l : (k < l < n - 1)%nat -> t_a (e l) = t_b (e k) ->
  (pr k l = (- s k l, 1 - s k l))%Z /\
  exists rho (i j : Z), - / 2 <= rho < / 2 /\ rho = th k - th l + IZR i /\
    IZR (s k l) = rho + / 2 + IZR M * (al l - be k + IZR j).
Proof using All.
  intros Hkl E. destruct (ends_in x m es Hd Hm Hn Hl Hgr Ht Hfree Hap k ltac:(fold n; lia)) as (_ & _ & D & _).
  destruct (cases k l Hkl) as [(N & _)|[(N & _ & s0 & r & Ep & R1 & OF & Er)|(_ & N & _)]]; [congruence| |contradiction].
  destruct (half_turns k l) as (i & Ei); [unfold n; lia|unfold n; lia|]. destruct (offset_turns _ _ _ _ _ Hm OF) as (j & Ej). fold M in Ej. fold (al l) (be k) in Ej.
  assert (Hpi := PI_RGT_0). assert (Ei' : r - / 2 = th k - th l + IZR i) by (rewrite Er in Ei; apply (Rmult_eq_reg_l (2 * PI)); lra).
  assert (Pr : pr k l = (- s0, 1 - s0)%Z) by (unfold pr, pair_of; fold n; unfold n in *; rewrite Ep; reflexivity).
  unfold ma_s. destruct (Nat.eqb_spec (t_a (e l)) (t_a (e k))); [contradiction|]. rewrite Pr. cbn [negb andb fst snd]. rewrite !Z.opp_involutive. split; [reflexivity|].
  exists (r - / 2), i, j. split; [lra|]. split; [exact Ei'|]. rewrite Ej. lra.
Qed.

Lemma ma_block_above k l u v : (k < l < n - 1)%nat -> (u < m - 1)%nat -> (v < m - 1)%nat ->
  get T (k * (m - 1) + u)%nat (l * (m - 1) + v)%nat =
  table M (relative (ng k l) (nth k (plains es) no_edge) (nth l (plains es) no_edge)) (s k l) (Z.of_nat v - Z.of_nat u).
Proof using All.
  intros Hkl Hu Hv. rewrite (above_diag x m es Hd Hm Hn Hl Hgr Ht Hfree Hap ds fs Ld HV T HT k l u v Hkl Hu Hv). fold pr.
  rewrite !plains_nth by (fold n in Hl; lia). unfold relative. cbn [plain ea eb].
  assert (M2 : (2 <= M)%Z) by (unfold M; lia). destruct (mod1 M M2) as [D1 D2].
  destruct (Nat.eqb_spec (t_a (e l)) (t_a (e k))) as [E|N].
  - destruct (same_start k l Hkl E) as (Ep & _). rewrite Ep. destruct (ng k l); cbn [table fst snd]; apply shift_entry; try assumption.
    + replace (- s k l - (-1 - s k l))%Z with 1%Z by lia. exact D1.
    + replace (1 - s k l - - s k l)%Z with 1%Z by lia. exact D1.
  - destruct (Nat.eqb_spec (t_a (e l)) (t_b (e k))) as [E|N'].
    + destruct (end_start k l Hkl E) as (Ep & _). rewrite Ep. cbn [table fst snd]. apply shift_entry; try assumption.
      replace (- s k l - (1 - s k l))%Z with (-1)%Z by lia. exact D2.
    + destruct (cases k l Hkl) as [(E & _)|[(_ & E & _)|(_ & _ & E)]]; [contradiction|contradiction|].
      cbv beta in E. unfold pr, pair_of. rewrite E. cbn [fst snd table]. rewrite !Z.mod_0_l by lia. apply zero_entry.
Qed.
Lemma ma_block k l u v : (k < n - 1)%nat -> (l < n - 1)%nat -> (u < m - 1)%nat -> (v < m - 1)%nat ->
  get T (k * (m - 1) + u)%nat (l * (m - 1) + v)%nat = intersection M (plains es) ng s k l (Z.of_nat u) (Z.of_nat v).
Proof using All.
  intros Hk Hl' Hu Hv. unfold intersection. destruct (Nat.ltb_spec k l) as [L|L]; [apply ma_block_above; assumption || lia|].
  destruct (Nat.ltb_spec l k) as [L'|L'].
  - rewrite <- ma_block_above by (assumption || lia). rewrite !HT by assumption. apply target_anti.
  - assert (l = k) by lia. subst l. rewrite HT by assumption. unfold target. rewrite Nat.eqb_refl. apply self_entry; assumption.
Qed.

Let pa' := par (plains es).
Let N := length (plains es).
Lemma len_plains : N = (n - 1)%nat.
Proof using All. unfold N, plains. rewrite map_length. exact Hl. Qed.
Lemma ma_sib k l : (k < l < N)%nat -> pa' k = pa' l ->
  exists rho (i j : Z), - / 2 <= rho < / 2 /\ rho = th k - th l + IZR i /\
    IZR (s k l) = rho + IZR M * (al l - al k + IZR j) /\ (ng k l = true <-> rho <= 0).
Proof using All.
  intros Hkl Ep. pose proof len_plains as LN. apply (par_start m (plains es) ng s Hm Hgr) in Ep; [|fold N; lia|fold N; lia].
  rewrite !plains_nth in Ep by (fold n in Hl; lia). apply same_start; [lia|symmetry; exact Ep].
Qed.
Lemma ma_chi k l : (k < l < N)%nat -> pa' l = S k ->
  exists rho (i j : Z), - / 2 <= rho < / 2 /\ rho = th k - th l + IZR i /\
    IZR (s k l) = rho + / 2 + IZR M * (al l - be k + IZR j).
Proof using All.
  intros Hkl Ep. pose proof len_plains as LN. apply (par_end m (plains es) ng s Hm Hgr) in Ep; [|fold N; lia|fold N; lia].
  rewrite !plains_nth in Ep by (fold n in Hl; lia). apply end_start; [lia|exact Ep].
Qed.
Let bf := before pa' th.
Let G := gauge pa' th s.
Definition ma_sib_gauge := gauge_siblings m N pa' th al be s ng (par_le m (plains es) ng s Hm Hgr) ma_sib ma_chi.
Definition ma_chi_gauge := gauge_child m N pa' th al be s ng (par_le m (plains es) ng s Hm Hgr) ma_sib ma_chi.
Lemma ma_form k u l v : (k < N)%nat -> (u < m - 1)%nat -> (l < N)%nat -> (v < m - 1)%nat ->
  get T (k * (m - 1) + u)%nat (l * (m - 1) + v)%nat = pair (pa bf N pa') (pb bf N pa') G (cyc m (pa bf N pa') (pb bf N pa') G k u) l (Z.of_nat v).
Proof using All.
  intros Hk Hu Hl' Hv. pose proof len_plains as LN. rewrite ma_block by lia. apply (intersection_pair m (plains es) ng s Hm Hgr bf G).
  - apply before_irr.
  - apply before_trans.
  - apply before_total.
  - exact ma_sib_gauge.
  - exact ma_chi_gauge.
  - exact Hk.
  - exact Hl'.
  - exact Hu.
  - exact Hv.
Qed.
Lemma ma_upper : rad_upper (N * (m - 1)) T (dl (S N) m - 1).
Proof using All.
  pose proof (par_le m (plains es) ng s Hm Hgr) as Hp. fold N pa' in Hp.
  apply (form_upper m (S N) (pos bf N pa' 0) N (pa bf N pa') (pb bf N pa') G T Hm).
  - apply (pos_bound bf (before_irr _ _) (before_trans _ _) (before_total _ _) N pa' Hp). lia.
  - apply (tree_grows bf (before_irr _ _) (before_trans _ _) (before_total _ _) N pa' Hp).
  - apply (tree_reach bf (before_irr _ _) (before_trans _ _) (before_total _ _) N pa' Hp).
  - exact ma_form.
Qed.
End Tree.
