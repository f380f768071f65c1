(** The tree of the Magma package has the least total length. *)
From Coq Require Import Reals Lra Lia List Permutation ZArith Bool.
From Coquelicot Require Import Coquelicot.
From Verif Require Import CArg ModelTree ModelPeriod ModelMaTree SpecTree SpecEdge SpecDeq SpecInter SpecCross SpecMaTree ProofTree ProofMaTree ProofMaTree2 ProofCross5.
Import ListNotations.
Local Open Scope R_scope.

Lemma linked_minus A y B u v : linked (A ++ y :: B) u v ->
  linked (A ++ B) u v \/ exists p q, joins y p q /\ linked (A ++ B) u p /\ linked (A ++ B) q v.
Proof.
  induction 1 as [|v w x0 _ IH Ix J]; [left; apply linked_refl|].
  assert (D : In x0 (A ++ B) \/ x0 = y). { apply in_app_iff in Ix. rewrite in_app_iff. destruct Ix as [?|[<-|?]]; auto. }
  destruct IH as [IH|(p & q & Jy & H1 & H2)], D as [D| ->].
  - left. eapply linked_step; eassumption.
  - right. exists v, w. split; [exact J|]. split; [exact IH|apply linked_refl].
  - right. exists p, q. split; [exact Jy|]. split; [exact H1|]. eapply linked_step; eassumption.
  - destruct J as [[J1 J2]|[J1 J2]], Jy as [[K1 K2]|[K1 K2]]; subst.
    + right. exists (ea y), (eb y). split; [left; auto|]. split; [exact H1|apply linked_refl].
    + left. exact H1.
    + left. exact H1.
    + right. exists (eb y), (ea y). split; [right; auto|]. split; [exact H1|apply linked_refl].
Qed.
Lemma linked_replace G G' u v : (forall y, In y G -> linked G' (ea y) (eb y)) -> linked G u v -> linked G' u v.
Proof.
  intro H. induction 1 as [|v w x0 _ IH Ix J]; [apply linked_refl|]. eapply linked_trans; [exact IH|].
  destruct J as [[<- <-]|[<- <-]]; [now apply H|apply linked_sym; now apply H].
Qed.
Lemma exchange n : forall l rest (S : nat -> bool) u v, (length rest <= n)%nat -> linked (l ++ rest) u v -> S u <> S v -> (forall y, In y l -> S (ea y) = S (eb y)) ->
  exists r1 y r2 p q, rest = r1 ++ y :: r2 /\ S (ea y) <> S (eb y) /\ joins y p q /\ linked (l ++ r1 ++ r2) u p /\ linked (l ++ r1 ++ r2) q v.
Proof.
  induction n as [|n IH]; intros l rest S u v Hn HL HS Hl.
  - destruct rest; [|cbn in Hn; lia]. destruct (cut_edge _ S u v HL HS) as (y & Iy & Ny). rewrite app_nil_r in Iy. destruct (Ny (Hl y Iy)).
  - destruct (cut_edge _ S u v HL HS) as (y & Iy & Ny). apply in_app_iff in Iy as [Iy|Iy]; [destruct (Ny (Hl y Iy))|].
    apply in_split in Iy as (r1 & r2 & ->). rewrite app_assoc in HL. destruct (linked_minus _ _ _ _ _ HL) as [H|(p & q & J & H1 & H2)].
    + rewrite <- app_assoc in H. destruct (IH l (r1 ++ r2) S u v) as (s1 & z & s2 & p & q & E & Nz & J & H1 & H2); [rewrite app_length in *; cbn in Hn; lia|exact H|exact HS|exact Hl|].
      assert (K : exists s1' s2', r1 ++ y :: r2 = s1' ++ z :: s2' /\ forall w, In w (s1 ++ s2) -> In w (s1' ++ s2')).
      { clear - E. revert s1 E. induction r1 as [|a r1 IH]; intros s1 E; cbn in *.
        - exists (y :: s1), s2. rewrite E. split; [reflexivity|]. intros w W. now right.
        - destruct s1 as [|b s1]; cbn in E; injection E as -> E.
          + exists [], (r1 ++ y :: r2). split; [reflexivity|]. cbn. rewrite <- E. intros w W. apply in_app_iff in W. apply in_app_iff. cbn. tauto.
          + destruct (IH s1 E) as (s1' & s2' & E' & H). exists (b :: s1'), s2'. rewrite E'. split; [reflexivity|]. cbn. intros w [->|W]; [now left|right; now apply H]. }
      destruct K as (s1' & s2' & E' & H'). exists s1', z, s2', p, q. split; [exact E'|]. split; [exact Nz|]. split; [exact J|].
      split; [eapply linked_incl; [|exact H1]|eapply linked_incl; [|exact H2]]; intros w W; apply in_app_iff in W; apply in_app_iff; destruct W as [W|W]; auto.
    + exists r1, y, r2, p, q. rewrite <- app_assoc in H1, H2. repeat (split; [first [reflexivity|assumption]|]). assumption.
Qed.

Definition tb (l : list edge) (v : nat) : bool := existsb (fun e => (ea e =? v) || (eb e =? v))%nat l.
Lemma tb_spec l v : tb l v = true <-> touched l v.
Proof.
  unfold tb. rewrite existsb_exists. split; intros (e & I & H); exists e; (split; [exact I|]).
  - apply orb_true_iff in H. rewrite !Nat.eqb_eq in H. exact H.
  - apply orb_true_iff. rewrite !Nat.eqb_eq. exact H.
Qed.
Lemma total_app p l l' : total_length p (l ++ l') = total_length p l + total_length p l'.
Proof. unfold total_length. induction l as [|e l IH]; cbn [app fold_right]; [lra|]. rewrite IH. lra. Qed.
Lemma edge_length_nonneg p e : 0 <= edge_length p e.
Proof. apply Cmod_ge_0. Qed.
Lemma total_nonneg p l : 0 <= total_length p l.
Proof. unfold total_length. induction l as [|e l IH]; cbn [fold_right]; [lra|]. assert (H := edge_length_nonneg p e). lra. Qed.

Lemma shortest p es l' : growing es -> cheapest p es -> (forall v, touched es v -> (v < length p)%nat) ->
  (forall v, touched l' v -> (v < length p)%nat) -> (forall u v, (u < length p)%nat -> (v < length p)%nat -> linked l' u v) ->
  total_length p es <= total_length p l'.
Proof.
  intros Hg Hc Ht Ht' Hl.
  assert (K : forall l2 l1, es = l1 ++ l2 -> exists rest, (forall v, touched rest v -> (v < length p)%nat) /\
    (forall u v, (u < length p)%nat -> (v < length p)%nat -> linked (l1 ++ rest) u v) /\ total_length p (l1 ++ rest) <= total_length p l').
  { intros l2 l1. revert l2. induction l1 as [|e l1 IH] using rev_ind; intros l2 E.
    - exists l'. cbn [app]. split; [exact Ht'|]. split; [exact Hl|apply Rle_refl].
    - rewrite <- app_assoc in E. cbn in E. destruct (IH _ E) as (rest & R1 & R2 & R3). destruct (Hg l1 e l2 E) as (N & Nt & Hn).
      assert (Ie : In e es) by (rewrite E; apply in_app_iff; right; now left).
      assert (Ra : (ea e < length p)%nat) by (apply Ht; exists e; auto). assert (Rb : (eb e < length p)%nat) by (apply Ht; exists e; auto).
      assert (Ex : exists S : nat -> bool, S (ea e) <> S (eb e) /\ (forall y, In y l1 -> S (ea y) = S (eb y)) /\
        forall y, In y rest -> S (ea y) <> S (eb y) -> edge_length p e <= edge_length p y).
      { destruct l1 as [|e0 l1].
        - exists (fun v => (v =? ea e)%nat). split; [rewrite Nat.eqb_refl; intro X; symmetry in X; apply Nat.eqb_eq in X; congruence|]. split; [intros y []|].
          intros y Iy Sy. apply (Hc [] e l2 E (ea y) (eb y)); [apply R1; exists y; auto|apply R1; exists y; auto|intro X; rewrite X in Sy; now destruct Sy|now left].
        - set (l := e0 :: l1) in *. exists (tb l). assert (Te : touched l (ea e)) by (apply Hn; discriminate).
          split; [apply tb_spec in Te; rewrite Te; intro X; symmetry in X; apply tb_spec in X; contradiction|].
          split. { intros y Iy. assert (T1 : touched l (ea y)) by (exists y; auto). assert (T2 : touched l (eb y)) by (exists y; auto). apply tb_spec in T1, T2. congruence. }
          intros y Iy Sy. assert (Ya : (ea y < length p)%nat) by (apply R1; exists y; auto). assert (Yb : (eb y < length p)%nat) by (apply R1; exists y; auto).
          assert (Ny : ea y <> eb y) by (intro X; rewrite X in Sy; now destruct Sy).
          destruct (tb l (ea y)) eqn:B1; destruct (tb l (eb y)) eqn:B2; try (now destruct Sy).
          + apply (Hc l e l2 E (ea y) (eb y)); auto. right. split; [now apply tb_spec|]. intro X. apply tb_spec in X. congruence.
          + rewrite <- (dist_sym p (eb y) (ea y) : dist p (eb y) (ea y) = edge_length p y). apply (Hc l e l2 E (eb y) (ea y)); auto. right. split; [now apply tb_spec|]. intro X. apply tb_spec in X. congruence. }
      destruct Ex as (S & S1 & S2 & S3).
      destruct (exchange (length rest) l1 rest S (ea e) (eb e) (le_n _) (R2 _ _ Ra Rb) S1 S2) as (r1 & y & r2 & u & v & -> & Ny & J & H1 & H2).
      assert (Ey := S3 y ltac:(apply in_app_iff; right; now left) Ny).
      exists (r1 ++ r2). split; [|split].
      + intros w (z & Iz & Hz). apply R1. exists z. split; [|exact Hz]. apply in_app_iff in Iz. apply in_app_iff. cbn. tauto.
      + set (G' := (l1 ++ [e]) ++ r1 ++ r2). assert (Inc : forall w, In w (l1 ++ r1 ++ r2) -> In w G').
        { intros w W. unfold G'. rewrite !in_app_iff in *. cbn. tauto. }
        intros s t Hs0 Ht0. apply (linked_replace (l1 ++ r1 ++ y :: r2) G'); [|now apply R2]. intros z Iz.
        assert (D : In z (l1 ++ r1 ++ r2) \/ z = y). { rewrite !in_app_iff in *. cbn in Iz. destruct Iz as [?|[?|[<-|?]]]; auto. }
        destruct D as [D| ->]; [apply (linked_one _ z); [now apply Inc|left; auto]|].
        assert (U : linked G' u v).
        { eapply linked_trans; [apply linked_sym; eapply linked_incl; [exact Inc|exact H1]|]. eapply linked_trans; [|apply linked_sym; eapply linked_incl; [exact Inc|exact H2]].
          apply (linked_one _ e); [unfold G'; rewrite !in_app_iff; cbn; tauto|left; auto]. }
        destruct J as [[-> ->]|[-> ->]]; [exact U|now apply linked_sym].
      + assert (Tc : forall z l, total_length p (z :: l) = edge_length p z + total_length p l) by reflexivity. rewrite !total_app, !Tc in *. change (total_length p []) with 0. lra. }
  destruct (K [] es ltac:(now rewrite app_nil_r)) as (rest & _ & _ & R3). rewrite total_app in R3. assert (H := total_nonneg p rest). lra.
Qed.
