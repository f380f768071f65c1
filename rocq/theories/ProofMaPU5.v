(** The symplectic basis of the Magma package for hyperelliptic curves. *)
From Coquelicot Require Import Coquelicot.
From Verif Require Import CArg ModelTree ModelVec ModelPeriod ModelTurn ModelEdge ModelMaRoot ModelMaTree ModelSymp SpecSymp SpecTree SpecTurn SpecMaRoot SpecMaTree SpecInter SpecCross ModelMaInter ProofMaInter ProofMaInter2 ProofMaInter3 ProofMaInter4 SpecDeq SpecEdge SpecMaInter
  ProofSymp ProofSympRed ProofLat1 ProofLat3 ProofLat6 ProofLat7 ModelMaSymp SpecMaSymp ProofMaTree5 ProofMaPU1 ProofMaPU2 ProofMaPU3 ProofMaPU4.
Local Open Scope Z_scope.

Definition sgz (z : Z) : Z := if Z.even z then 1 else -1.
Lemma sgz_unit z : sgz z * sgz z = 1.
Proof. unfold sgz. destruct (Z.even z); reflexivity. Qed.
Lemma sgz_add a b : sgz (a + b) = sgz a * sgz b.
Proof. unfold sgz. rewrite Z.even_add. destruct (Z.even a), (Z.even b); reflexivity. Qed.
Lemma sgz_opp a : sgz (- a) = sgz a.
Proof. unfold sgz. rewrite Z.even_opp. reflexivity. Qed.
Lemma sgz_div s a b c : (2 | s - (a - b + c)) -> sgz s = sgz a * sgz b * sgz c.
Proof.
  intros [q E]. replace s with (a + - b + c + 2 * q) by lia. rewrite !sgz_add, sgz_opp.
  replace (sgz (2 * q)) with 1; [ring|]. unfold sgz. rewrite Z.even_mul. reflexivity.
Qed.
Lemma number_two a b : (2 | a - (b + 1)) -> number 2 a b 0 = sgz a.
Proof.
  intros [q E]. unfold number, sgz. rewrite !Z.sub_0_l. rewrite <- (Z.even_opp a).
  rewrite !Zmod_even, !Z.even_opp. replace (Z.even b) with (negb (Z.even a)).
  - destruct (Z.even a); reflexivity.
  - replace a with (b + 1 + 2 * q) by lia. rewrite !Z.even_add, Z.even_mul. cbn. destruct (Z.even b); reflexivity.
Qed.

Lemma hyper_basis sort ty p x : sort_ok sort -> distinct x -> same_sides p x -> (3 <= length x)%nat ->
  exists t ty' ds T b, spanning_tree_ma sort ty p = Done (t, ty') /\
    tree_data x (zetas 2) 2 (length x) (s_edges t) = Done ds /\
    se_intersections x (zetas 2) 2 (length x) (s_edges t) ds = Done T /\
    (exists ya yb Y, sheets 2 x (plains (s_edges t)) ya yb Y /\ data_sheets 2 (length x) ds ya yb Y /\
      loop_matrix 2 x (plains (s_edges t)) ya yb Y T) /\
    symplectic_basis T = Done b /\ square (length x - 1) b /\ unimodular (length x - 1) b /\
    is_symplectic_basis (length x - 1) ((length x - 1) / 2) T b.
Proof.
  intros Hs Hd Hp Hn. destruct (ma_spanning sort ty p Hs) as (t & ty' & E & L & Hg & _ & _ & Ht); [rewrite (proj1 Hp); lia|].
  rewrite (proj1 Hp) in L, Ht. destruct (ma_apart _ _ _ _ _ _ Hs Hd Hp E) as (Hf & Ha).
  assert (Ht' : forall v, touched (plains (s_edges t)) v -> (v < length x)%nat) by (intros v; apply Ht).
  assert (Hm : (2 <= 2)%nat) by lia.
  destruct (data_exist x 2 (s_edges t) Hd Hm Hn L Hg Ht' Hf Ha) as (ds & fs & Ed & Ld & HV).
  destruct (matrix_done x 2 (s_edges t) Hd Hm Hn L Hg Ht' Hf Ha ds fs Ld HV) as (T & ET & Sq & HT).
  set (es := s_edges t) in *. set (r := (length x - 1)%nat) in *.
  replace (r * (2 - 1))%nat with r in Sq by lia.
  pose proof (len_plains x 2 es Hd Hm Hn L Hg Ht' Hf Ha ds fs Ld HV T HT) as LN. fold r in LN.
  assert (HA : antisymmetric r T). { pose proof (anti_blocks r 2 T _ Hm HT) as X. replace (r * (2 - 1))%nat with r in X by lia. exact X. }
  set (ng := ma_ng x es). set (s := ma_s x 2 es ds). set (th := ma_th x es). set (pa' := par (plains es)).
  set (G := ProofLat7.gauge pa' th s). set (bf := before pa' th).
  assert (HK : forall k l, (k < r)%nat -> (l < r)%nat -> get T k l = intersection 2 (plains es) ng s k l 0 0).
  { intros k l Hk Hl. pose proof (ma_block x 2 es Hd Hm Hn L Hg Ht' Hf Ha ds fs Ld HV T HT k l 0 0 Hk Hl ltac:(lia) ltac:(lia)) as X.
    replace (k * (2 - 1) + 0)%nat with k in X by lia. replace (l * (2 - 1) + 0)%nat with l in X by lia. exact X. }
  assert (Up : forall k l, (k < l < r)%nat -> get T k l = table 2 (relative (ng k l) (nth k (plains es) no_edge) (nth l (plains es) no_edge)) (s k l) 0).
  { intros k l H. rewrite HK by lia. unfold intersection. destruct (Nat.ltb_spec k l); [reflexivity|lia]. }
  assert (PS := fun k l A B => par_start 2 (plains es) ng s Hm Hg k l A B). assert (PE := fun k l A B => par_end 2 (plains es) ng s Hm Hg k l A B). rewrite LN in PS, PE. fold pa' in PS, PE.
  assert (PL := par_le 2 (plains es) ng s Hm Hg). rewrite LN in PL. fold pa' in PL.
  assert (GS := ma_sib_gauge x 2 es Hd Hm Hn L Hg Ht' Hf Ha ds fs Ld HV T HT). rewrite LN in GS. fold pa' th s ng G bf in GS.
  assert (GC := ma_chi_gauge x 2 es Hd Hm Hn L Hg Ht' Hf Ha ds fs Ld HV T HT). rewrite LN in GC. fold pa' th s ng G in GC.
  change (Z.of_nat 2) with 2 in GS, GC.
  assert (Sib : forall k l, (k < l < r)%nat -> pa' k = pa' l -> (bf k l = true -> get T k l = sgz (G k) * sgz (G l)) /\ (bf l k = true -> get T k l = - (sgz (G k) * sgz (G l)))).
  { intros k l Hkl Ep. rewrite (Up k l Hkl). pose proof (proj2 (PS k l ltac:(lia) ltac:(lia)) Ep) as Ea. unfold relative. rewrite <- Ea, Nat.eqb_refl.
    assert (Asym : bf k l = true -> bf l k = true -> False).
    { intros A B. pose proof (before_trans pa' th k l k A B) as X. rewrite before_irr in X. discriminate. }
    destruct (GS k l Hkl Ep) as [[B [[Nn D]|[Nn D]]]|[B [[Nn D]|[Nn D]]]]; rewrite Nn; cbn [table]; (split; intro B'; [try (exfalso; apply Asym; assumption)|try (exfalso; apply Asym; assumption)]).
    - rewrite number_two by (exists 0; lia). rewrite sgz_opp. rewrite (sgz_div _ (G l) (G k) 0); [change (sgz 0) with 1; ring|rewrite Z.add_0_r; exact D].
    - rewrite number_two by (exists 0; lia). replace (1 - s k l) with (1 + - s k l) by lia. rewrite sgz_add, sgz_opp. rewrite (sgz_div _ _ _ _ D). change (sgz 1) with (-1). ring.
    - rewrite number_two by (exists 0; lia). replace (1 - s k l) with (1 + - s k l) by lia. rewrite sgz_add, sgz_opp. change (sgz 1) with (-1). rewrite (sgz_div _ (G l) (G k) 0); [change (sgz 0) with 1; ring|rewrite Z.add_0_r; exact D].
    - rewrite number_two by (exists 0; lia). rewrite sgz_opp. rewrite (sgz_div _ (G l) (G k) (-1)); [change (sgz (-1)) with (-1); ring|]. replace (G l - G k + -1) with (G l - G k - 1) by ring. exact D. }
  assert (Chi : forall k l, (k < l < r)%nat -> pa' l = S k -> get T k l = sgz (G k) * sgz (G l)).
  { intros k l Hkl Ep. rewrite (Up k l Hkl). pose proof (proj2 (PE k l ltac:(lia) ltac:(lia)) Ep) as Eb. unfold relative.
    assert (Na : ea (nth l (plains es) no_edge) <> ea (nth k (plains es) no_edge)).
    { intro X. symmetry in X. apply PS in X; [|lia|lia]. pose proof (PL k ltac:(lia)). lia. }
    apply Nat.eqb_neq in Na. rewrite Na, Eb, Nat.eqb_refl. cbn [table]. rewrite number_two by (exists (-1); lia). rewrite sgz_opp.
    rewrite (sgz_div _ (G l) (G k) 0); [change (sgz 0) with 1; ring|]. rewrite Z.add_0_r. apply GC; assumption. }
  assert (Apa : forall k l, (k < l < r)%nat -> pa' k <> pa' l -> pa' l <> S k -> get T k l = 0).
  { intros k l Hkl N1 N2. rewrite (Up k l Hkl). unfold relative.
    destruct (Nat.eqb_spec (ea (nth l (plains es) no_edge)) (ea (nth k (plains es) no_edge))) as [X|_]; [exfalso; apply N1, PS; [lia|lia|symmetry; exact X]|].
    destruct (Nat.eqb_spec (ea (nth l (plains es) no_edge)) (eb (nth k (plains es) no_edge))) as [X|_]; [exfalso; apply N2, PE; [lia|lia|exact X]|]. reflexivity. }
  assert (KA : forall i j, (i < r)%nat -> (j < r)%nat -> get T i j = - get T j i) by (intros i j Hi Hj; apply HA; assumption).
  assert (Di : forall S0, (forall i, In i S0 -> (i < r)%nat) -> degenerate r (get T) S0 \/ saturated r (get T) S0).
  { apply (tree_dichotomy r (get T) KA pa' (fun k l => bf k l = true) (fun k => sgz (G k)) 1 (-1)).
    - exact PL.
    - apply before_trans.
    - intros i j _ _ N _. apply before_total, N.
    - intros k. apply sgz_unit.
    - reflexivity.
    - reflexivity.
    - intros k l Hk Hl N Ep B. destruct (Nat.lt_ge_cases k l) as [H|H].
      + rewrite (proj1 (Sib k l ltac:(lia) Ep) B). ring.
      + rewrite KA by assumption. rewrite (proj2 (Sib l k ltac:(lia) (eq_sym Ep)) B). ring.
    - intros k l Hk Hl Ep. rewrite KA by assumption. pose proof (PL k Hk). rewrite (Chi l k ltac:(lia) Ep). ring.
    - intros k l Hk Hl N1 N2 N3. destruct (Nat.lt_trichotomy k l) as [H|[H|H]]; [apply Apa; lia|congruence|].
      rewrite KA by assumption. rewrite (Apa l k) by lia. reflexivity. }
  destruct (basis_complete r T Sq HA Di) as (b & g & Eb & Sb & Ub & Hgr & Hb & st & HC & HF).
  assert (Eg : g = (r / 2)%nat).
  { destruct (co_uni _ _ _ HC) as [Q HQ]. pose proof (ma_upper x 2 es Hd Hm Hn L Hg Ht' Hf Ha ds fs Ld HV T HT) as HU. rewrite LN in HU.
    replace (r * (2 - 1))%nat with r in HU by lia.
    assert (Hk : (r <= 2 * g + (dl (S r) 2 - 1))%nat).
    { destruct (Nat.lt_ge_cases (2 * g + (dl (S r) 2 - 1)) r) as [X|X]; [|exact X]. exfalso. exact (upper_stuck r T st HC Q HQ _ g _ HF X HU). }
    unfold dl in Hk. assert (Hd2 : (Z.gcd (Z.of_nat 2) (Z.of_nat (S r)) | 2)) by apply Z.gcd_divide_l.
    assert (Hle : Z.gcd (Z.of_nat 2) (Z.of_nat (S r)) <= 2) by (apply Z.divide_pos_le; [lia|exact Hd2]).
    apply Nat.div_unique with (r - 2 * g)%nat; lia. }
  subst g. destruct (ma_matrix sort ty p x 2 Hs Hd Hp Hn Hm) as (t2 & ty2 & ds2 & T2 & E1 & E2 & E3 & _ & Hsh).
  rewrite E in E1. injection E1 as <- <-. fold es in E2, E3, Hsh. rewrite Ed in E2. injection E2 as <-. rewrite ET in E3. injection E3 as <-.
  exists t, ty', ds, T, b. repeat (split; [assumption|]). exact Hb.
Qed.

Local Open Scope nat_scope.
Lemma basis_of_parts :
  forall r k, square r k -> antisymmetric r k ->
  (forall S0, (forall i, In i S0 -> i < r) ->
     (exists x : nat -> Z, (forall i, ~ In i S0 -> x i = 0%Z) /\ (exists i, In i S0 /\ x i <> 0%Z) /\
        forall t, In t S0 -> zsum r (fun i => x i * get k i t)%Z = 0%Z) \/
     (forall N x, (forall i, ~ In i S0 -> x i = 0%Z) ->
        (forall t, In t S0 -> (N | zsum r (fun i => x i * get k i t))%Z) -> forall i, (N | x i)%Z)) ->
  exists b g, symplectic_basis k = Done b /\ square r b /\ unimodular r b /\ 2 * g <= r /\ is_symplectic_basis r g k b.
Proof.
  intros r k HS HA H. destruct (basis_complete r k HS HA) as (b & g & E & Sb & Ub & Hg & Hb & _); [|exists b, g; auto].
  intros S0 HS0. destruct (H S0 HS0) as [(x & Sx & (i & _ & Ni) & Rx)|Sa]; [left|right].
  - exists x. split; [exact Sx|]. split; [exists i; exact Ni|exact Rx].
  - exact Sa.
Qed.
