(** The intersection matrix of the Magma package, for the tree it makes. *)
From Coquelicot Require Import Coquelicot.
From Verif Require Import CArg ModelTree ModelVec ModelPeriod ModelTurn ModelEdge ModelMaRoot ModelMaTree ModelSymp SpecSymp SpecTree SpecTurn SpecMaRoot SpecMaTree SpecInter ProofMaTree5 SpecCross ModelMaInter ProofMaInter ProofMaInter2 ProofMaInter3 SpecDeq SpecEdge SpecMaInter.
Local Open Scope R_scope.

Lemma ma_matrix sort ty p x m : sort_ok sort -> distinct x -> same_sides p x -> (3 <= length x)%nat -> (2 <= m)%nat ->
  exists t ty' ds T, spanning_tree_ma sort ty p = Done (t, ty') /\
    tree_data x (zetas m) m (length x) (s_edges t) = Done ds /\
    se_intersections x (zetas m) m (length x) (s_edges t) ds = Done T /\
    square ((length x - 1) * (m - 1))%nat T /\
    exists ya yb Y, sheets m x (plains (s_edges t)) ya yb Y /\ data_sheets m (length x) ds ya yb Y /\
      loop_matrix m x (plains (s_edges t)) ya yb Y T.
Proof.
  intros Hs Hd Hp Hn Hm. destruct (ma_spanning sort ty p Hs) as (t & ty' & E & L & Hg & _ & _ & Ht); [rewrite (proj1 Hp); lia|].
  rewrite (proj1 Hp) in L, Ht. destruct (ma_apart _ _ _ _ _ _ Hs Hd Hp E) as (Hf & Ha).
  assert (Ht' : forall v, touched (plains (s_edges t)) v -> (v < length x)%nat) by (intros v; apply Ht).
  destruct (data_exist x m (s_edges t) Hd Hm Hn L Hg Ht' Hf Ha) as (ds & fs & Ed & Ld & HV).
  destruct (matrix_done x m (s_edges t) Hd Hm Hn L Hg Ht' Hf Ha ds fs Ld HV) as (T & ET & Sq & HT).
  exists t, ty', ds, T. split; [exact E|]. split; [exact Ed|]. split; [exact ET|]. split; [exact Sq|].
  exists (ya x m fs), (yb x m fs), (Yb x m fs).
  split; [exact (sheets_ok x m (s_edges t) Hd Hm Hn L Hg Ht' Hf Ha ds fs Ld HV T HT)|].
  split; [|exact (matrix_loops x m (s_edges t) Hd Hm Hn L Hg Ht' Hf Ha ds fs Ld HV T HT)].
  intros k d Hk. assert (K : (k < length ds)%nat) by (apply nth_error_Some; congruence). destruct (HV k ltac:(lia)) as (_ & _ & V & _).
  rewrite (nth_error_nth _ _ _ Hk) in V. exists (nth k fs (fun _ => RtoC 0)). split; [intros u Hu; split; [apply V, Hu|reflexivity]|]. split; reflexivity.
Qed.
