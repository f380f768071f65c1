From Coq Require Import Permutation.
From Verif Require Import Base ModelTree ModelEdge ProofEdge ProofTree ModelCurve ModelCache SpecCache.
Local Open Scope Z_scope.

Lemma gc_scheme_done c a n : 1 <= sec_n c -> 0 <= sec_g c -> 1 <= a -> 1 <= n ->
  (a + 1) * (sec_n c + sec_g c + 1) < 2 ^ 62 -> (n + 1) * (sec_n c + sec_g c + 1) < 2 ^ 62 ->
  gc_scheme c a n = Done (if (a - n) * (sec_n c + sec_g c) >? n then n else a).
Proof.
  intros H1 H2 H3 H4 H5 H6. unfold gc_scheme. rewrite (proj2 (Z.eqb_neq a 0)) by lia. cbv zeta.
  set (s := sec_n c + sec_g c) in *.
  assert (B : is_slong s && is_slong (a - n) && is_slong ((a - n) * s) = true).
  { unfold is_slong, slong_min, slong_max. rewrite !andb_true_iff, !Z.leb_le. nia. }
  rewrite B. cbn [negb]. destruct ((a - n) * s >? n); reflexivity.
Qed.

(** schemes never have fewer points when requests decrease *)
Lemma gc_schemes_decreasing c : forall reqs a, (a = 0 \/ (1 <= a /\ (a + 1) * (sec_n c + sec_g c + 1) < 2 ^ 62)) ->
  params_small c reqs -> non_increasing reqs -> (a = 0 \/ match reqs with [] => True | n :: _ => n <= a end) ->
  exists l, gc_schemes c a reqs = Done l /\ Forall2 (fun s n => n <= s) l reqs.
Proof.
  induction reqs as [|n reqs IH]; intros a Ha (H1 & H2 & H3) Hd Hle; cbn [gc_schemes].
  - exists []. split; [reflexivity|constructor].
  - destruct (H3 n (or_introl eq_refl)) as [Hn1 Hn2].
    assert (E : exists s, gc_scheme c a n = Done s /\ n <= s /\ (s = n \/ s = a /\ 1 <= a)).
    { destruct Ha as [->|[Ha1 Ha2]].
      - exists n. split; [reflexivity|]. lia.
      - rewrite gc_scheme_done by assumption. destruct Hle as [->|Hle]; [lia|].
        destruct ((a - n) * (sec_n c + sec_g c) >? n); eexists; (split; [reflexivity|]); lia. }
    destruct E as (s & E & Hs & Hs2). rewrite E. cbn [bind].
    destruct (IH s) as (l & El & Hl).
    + right. destruct Hs2 as [->|[-> Ha1]]; [split; assumption|]. destruct Ha as [->|Ha]; [lia|exact Ha].
    + split; [exact H1|]. split; [exact H2|]. intros k Hk. apply H3. right. exact Hk.
    + apply Hd.
    + right. destruct reqs as [|k reqs]; [exact I|]. destruct Hd as [Hd _]. lia.
    + rewrite El. cbn [bind]. eexists. split; [reflexivity|]. constructor; assumption.
Qed.

(** whenever more points are needed for the second of two edges, the first scheme is kept *)
Lemma gc_scheme_too_small c a n : 1 <= sec_n c -> 0 <= sec_g c -> 1 <= a -> a < n ->
  (n + 1) * (sec_n c + sec_g c + 1) < 2 ^ 62 -> gc_schemes c 0 [a; n] = Done [a; a].
Proof.
  intros H1 H2 H3 H4 H5. cbn [gc_schemes]. unfold gc_scheme at 1. cbn [Z.eqb bind].
  rewrite gc_scheme_done by (try assumption; nia).
  assert (B : (a - n) * (sec_n c + sec_g c) >? n = false).
  { rewrite Z.gtb_ltb. apply Z.ltb_ge. nia. }
  rewrite B. reflexivity.
Qed.

(** ** double exponential *)
Lemma de_update_enough c de k n : 1 <= sec_n c -> 0 <= sec_g c -> 0 <= ds_n de -> 1 <= n ->
  n * (sec_n c + sec_g c + 1) < 2 ^ 64 -> ds_n de < 2 ^ 64 ->
  n <= ds_n (de_update c false de k n) /\
  (de_update c false de k n = de \/ de_update c false de k n = {| ds_n := n; ds_edge := k |}).
Proof.
  intros H1 H2 H3 H4 H5 H6. unfold de_update. cbn [negb]. rewrite orb_true_r.
  destruct (Z.eqb_spec (ds_n de) 0) as [E|E]; cbn [orb ds_n]; [split; [lia|right; reflexivity]|].
  set (s := sec_n c + sec_g c) in *.
  destruct (Z_lt_ge_dec (ds_n de) n) as [Hlt|Hge].
  - assert (B : wrap (wrap (ds_n de - n) * wrap s) >? wrap n = true); [|rewrite B; cbn [ds_n]; split; [lia|right; reflexivity]].
    rewrite Z.gtb_ltb. apply Z.ltb_lt. unfold wrap.
    rewrite (Z.mod_small n) by nia. rewrite <- Zmult_mod.
    replace ((ds_n de - n) * s) with (- ((n - ds_n de) * s)) by ring.
    assert (Hp : 0 < (n - ds_n de) * s < 2 ^ 64) by nia.
    rewrite Z_mod_nz_opp_full by (rewrite Z.mod_small; lia). rewrite Z.mod_small by lia. nia.
  - destruct (wrap (wrap (ds_n de - n) * wrap s) >? wrap n); cbn [ds_n]; split; try lia; [right|left]; reflexivity.
Qed.

Lemma de_schemes_enough c : forall reqs de, 1 <= sec_n c -> 0 <= sec_g c -> 0 <= ds_n de < 2 ^ 64 ->
  (forall k n, In (k, n) reqs -> 1 <= n /\ n * (sec_n c + sec_g c + 1) < 2 ^ 64) ->
  length (de_schemes c false de reqs) = length reqs /\
  forall p, (p < length reqs)%nat ->
    let s := nth p (de_schemes c false de reqs) no_scheme in
    snd (nth p reqs (0%nat, 0)) <= ds_n s /\
    (1 <= ds_n de /\ s = de \/ In (ds_edge s, ds_n s) (firstn (S p) reqs)).
Proof.
  induction reqs as [|[k n] reqs IH]; intros de H1 H2 H3 H4; cbn [de_schemes length].
  - split; [reflexivity|]. intros p Hp. lia.
  - destruct (H4 k n (or_introl eq_refl)) as [Hn Hs].
    destruct (de_update_enough c de k n) as [Hle Hor]; try lia.
    set (de' := de_update c false de k n) in *.
    destruct (IH de') as [HL Hin]; [lia|lia| |intros k1 n1 Hk1; apply (H4 k1 n1); right; exact Hk1|].
    + destruct Hor as [-> | ->]; cbn [ds_n]; nia.
    + split; [rewrite HL; reflexivity|]. intros [|p] Hp; cbn [nth firstn].
      * split; [exact Hle|]. destruct Hor as [E | E]; rewrite E in *; [left; split; [lia|reflexivity]|right; left; reflexivity].
      * destruct (Hin p) as [Hq1 Hq2]; [lia|]. cbn zeta. split; [exact Hq1|].
        destruct Hq2 as [[Ha Hb]|Hq2]; [|right; right; exact Hq2]. rewrite Hb.
        destruct Hor as [E | E]; rewrite E in *; [left; split; [lia|reflexivity]|right; left; reflexivity].
Qed.

(** ** every row once *)
Section Rows.
Context {Row Scheme Key : Type} (noscheme : Scheme) (integ : Scheme -> nat -> outcome (Row * Scheme)).

Lemma edge_loop_spec : forall (t : list (Key * nat)) s rows rows', NoDup (map snd t) ->
  edge_loop integ t s rows = Done rows' ->
  exists rs, run integ s (map snd t) rs /\ length rows' = length rows /\
    (forall p d, (p < length t)%nat -> nth (nth p (map snd t) 0%nat) rows' d = nth p rs d) /\
    (forall k d, ~ In k (map snd t) -> nth k rows' d = nth k rows d).
Proof.
  induction t as [|[key k] t IH]; intros s rows rows' Hnd E; cbn [edge_loop map snd] in *.
  - injection E as <-. exists []. split; [constructor|]. split; [reflexivity|]. split; [intros p d Hp; cbn in Hp; lia|reflexivity].
  - destruct (integ s k) as [[r s']| | |] eqn:Ei; cbn [bind] in E; try discriminate.
    cbn [fst snd] in E. destruct (Nat.ltb_spec k (length rows)) as [Hk|Hk]; [|discriminate].
    inversion Hnd as [|? ? Hnin Hnd']; subst.
    destruct (IH s' _ _ Hnd' E) as (rs & Hrun & HL & Hin & Hout). rewrite upd_length in HL.
    exists (r :: rs). split; [econstructor; eassumption|]. split; [exact HL|]. split.
    + intros [|p] d Hp; cbn [nth length] in *.
      * rewrite Hout by exact Hnin. rewrite (nth_upd d rows k r k Hk), Nat.eqb_refl. reflexivity.
      * apply Hin. lia.
    + intros j d Hj. cbn [In] in Hj. rewrite Hout by tauto. rewrite (nth_upd d rows k r j Hk).
      destruct (Nat.eqb_spec j k); [subst; tauto|reflexivity].
Qed.

Lemma integrals_tree_spec (qsort : list (Key * nat) -> list (Key * nat)) keys rows rows' :
  (forall l, Permutation (qsort l) l) -> length rows = length keys ->
  integrals_tree noscheme integ qsort keys rows = Done rows' ->
  exists order rs, Permutation order (seq 0 (length keys)) /\ run integ noscheme order rs /\ length rows' = length keys /\
    forall p d, (p < length keys)%nat -> nth (nth p order 0%nat) rows' d = nth p rs d.
Proof.
  intros Hq HL E. unfold integrals_tree in E. set (t := qsort (combine keys (seq 0 (length keys)))) in *.
  assert (Hm : Permutation (map snd t) (seq 0 (length keys))).
  { transitivity (map snd (combine keys (seq 0 (length keys)))).
    - apply Permutation_map, Hq.
    - rewrite <- (seq_length (length keys) 0) at 1.
      assert (G : forall (l : list Key) s, map snd (combine l (seq s (length l))) = seq s (length l)).
      { induction l as [|x l IHl]; intros s; cbn; [reflexivity|]. rewrite IHl. reflexivity. }
      rewrite seq_length, G. reflexivity. }
  assert (Hnd : NoDup (map snd t)) by (eapply Permutation_NoDup; [symmetry; exact Hm|apply seq_NoDup]).
  destruct (edge_loop_spec t noscheme rows rows' Hnd E) as (rs & Hrun & HL' & Hin & _).
  exists (map snd t), rs. split; [exact Hm|]. split; [exact Hrun|]. split; [congruence|].
  intros p d Hp. apply Hin. apply Permutation_length in Hm. rewrite map_length, seq_length in Hm. lia.
Qed.

(** no other outcome than those of the integrations *)
Lemma edge_loop_done : forall (t : list (Key * nat)) s rows, (forall x, In x t -> (snd x < length rows)%nat) ->
  (forall s k, exists r, integ s k = Done r) -> exists rows', edge_loop integ t s rows = Done rows'.
Proof.
  induction t as [|[key k] t IH]; intros s rows Ht Hi; cbn [edge_loop]; [eexists; reflexivity|].
  destruct (Hi s k) as ([r s'] & E). rewrite E. cbn [bind fst snd].
  pose proof (Ht _ (or_introl eq_refl)) as Hk. cbn [snd] in Hk. rewrite (proj2 (Nat.ltb_lt _ _) Hk).
  apply IH; [|exact Hi]. intros x Hx. rewrite upd_length. apply Ht. right. exact Hx.
Qed.
Lemma integrals_tree_done (qsort : list (Key * nat) -> list (Key * nat)) keys rows :
  (forall l, Permutation (qsort l) l) -> length rows = length keys ->
  (forall s k, exists r, integ s k = Done r) -> exists rows', integrals_tree noscheme integ qsort keys rows = Done rows'.
Proof.
  intros Hq HL Hi. apply edge_loop_done; [|exact Hi]. intros [key k] Hx.
  apply (Permutation_in _ (Hq _)) in Hx. apply in_combine_r in Hx. apply in_seq in Hx. cbn [snd]. lia.
Qed.
End Rows.

Lemma same_request_keeps_radius c n : 1 <= sec_n c -> 0 <= sec_g c -> 1 <= n < 2 ^ 64 ->
  de_schemes c false no_scheme [(0%nat, n); (1%nat, n)] =
    [{| ds_n := n; ds_edge := 0 |}; {| ds_n := n; ds_edge := 0 |}].
Proof.
  intros H1 H2 H3. cbn [de_schemes]. unfold de_update. cbn [no_scheme ds_n Z.eqb orb negb].
  rewrite (proj2 (Z.eqb_neq n 0)) by lia. cbn [orb ds_n]. rewrite Z.sub_diag. unfold wrap at 2.
  rewrite Z.mod_0_l, Z.mul_0_l by lia. unfold wrap. rewrite Z.mod_0_l, Z.mod_small by lia.
  assert (B : (0 >? n) = false) by (rewrite Z.gtb_ltb; apply Z.ltb_ge; lia). rewrite B. reflexivity.
Qed.
