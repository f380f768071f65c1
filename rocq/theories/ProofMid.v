(** A ball arithmetic that meets the contract of SpecBall: discs with a centre and a radius, and
    the whole plane.  It shows that the contract can be met, and it serves for counterexamples.
    Sums, products and square roots in the right half plane keep a finite radius; the other
    functions are exact on points and give the whole plane on larger discs. *)
From Coq Require Import Reals Lra Lia.
From Coquelicot Require Import Coquelicot.
From Verif Require Import CArg ModelTurn ModelBall SpecBall ProofBall2.
Local Open Scope R_scope.

Definition disc : Type := option (C * R).
Definition disc_mem (X : disc) (x : C) : Prop := match X with Some (c, r) => Cmod (x - c)%C <= r | None => True end.
(** the disc of radius 0 *)
Definition point (c : C) : disc := Some (c, 0).
Definition is_point (X : disc) (x : C) : Prop := X = point x.

Definition lift1 (f : C -> C) (X : disc) : disc :=
  match X with Some (c, r) => if Req_EM_T r 0 then point (f c) else None | None => None end.
Definition lift2 (f : C -> C -> C) (X Y : disc) : disc :=
  match X, Y with
  | Some (c, r), Some (c', r') => if Req_EM_T r 0 then if Req_EM_T r' 0 then point (f c c') else None else None
  | _, _ => None
  end.
Definition d_add (X Y : disc) : disc := match X, Y with Some (c, r), Some (c', r') => Some ((c + c')%C, r + r') | _, _ => None end.
Definition d_sub (X Y : disc) : disc := match X, Y with Some (c, r), Some (c', r') => Some ((c - c')%C, r + r') | _, _ => None end.
Definition d_mul (X Y : disc) : disc :=
  match X, Y with Some (c, r), Some (c', r') => Some ((c * c')%C, Cmod c * r' + Cmod c' * r + r * r') | _, _ => None end.
Definition d_scale (X : disc) (k : R) : disc := match X with Some (c, r) => Some ((c * RtoC k)%C, r * Rabs k) | None => None end.
Definition d_neg (X : disc) : disc := match X with Some (c, r) => Some ((- c)%C, r) | None => None end.
Definition d_re (X : disc) : disc := match X with Some (c, r) => Some (RtoC (fst c), r) | None => None end.
Definition d_im (X : disc) : disc := match X with Some (c, r) => Some (RtoC (snd c), r) | None => None end.
Definition d_err (X : disc) (e : option R) : disc := match X, e with Some (c, r), Some e => Some (c, r + e) | _, _ => None end.
Definition d_root (m : Z) (X : disc) : disc :=
  match X with
  | Some (c, r) => if Req_EM_T r 0 then point (croot m c)
                   else if Z.eqb m 2 then if Rlt_dec r (fst c) then Some (croot 2 c, r / sqrt (Cmod c)) else None else None
  | None => None
  end.
Definition yes {P : Prop} (d : {P} + {~ P}) : bool := if d then true else false.
Definition d_test (f : C -> R -> bool) (default : bool) (X : disc) : bool := match X with Some (c, r) => f c r | None => default end.
Definition d_unique (X : disc) : option Z :=
  match X with
  | Some (c, r) => if Req_EM_T r 0 then
                     if Req_EM_T (fst c) (IZR (up (fst c) - 1)) then if Req_EM_T (snd c) 0 then Some (up (fst c) - 1)%Z else None else None
                   else None
  | None => None
  end.

Definition discs : arith := {|
  ball := disc;
  b_zero := point (RtoC 0);
  b_int z := point (RtoC (IZR z));
  b_add _ := d_add;
  b_sub _ := d_sub;
  b_mul _ := d_mul;
  b_div _ := lift2 Cdiv;
  b_addmul _ Z X Y := d_add Z (d_mul X Y);
  b_mul_int _ X k := d_scale X (IZR k);
  b_addmul_int _ Z X k := d_add Z (d_scale X (IZR k));
  b_neg := d_neg;
  b_inv _ := lift1 Cinv;
  b_2exp X k := d_scale X (powerRZ 2 k);
  b_pow _ X n := lift1 (fun x => cpow x n) X;
  b_root _ := d_root;
  b_log _ := lift1 clog;
  b_exp _ := lift1 cexp;
  b_unit _ n := point (root n 1);
  b_units _ n k := point (root n (Z.of_nat k));
  b_re _ := d_re;
  b_im _ := d_im;
  b_pi _ := point (RtoC PI);
  b_arg _ := lift1 (fun x => RtoC (carg x));
  b_sinh _ := lift1 (fun x => RtoC (sinh (fst x)));
  b_cosh _ := lift1 (fun x => RtoC (cosh (fst x)));
  b_real r := point (RtoC r);
  b_err := d_err;
  b_re_nonpos := d_test (fun c r => yes (Rle_dec (fst c + r) 0)) false;
  b_re_nonneg := d_test (fun c r => yes (Rle_dec r (fst c))) false;
  b_re_neg := d_test (fun c r => yes (Rlt_dec (fst c + r) 0)) false;
  b_im_nonpos := d_test (fun c r => yes (Rle_dec (snd c + r) 0)) false;
  b_im_has0 := d_test (fun c r => yes (Rle_dec (Rabs (snd c)) r)) true;
  b_im_sgn X := match X with Some (c, r) => if Rlt_dec 0 (snd c) then 1%Z else if Rlt_dec (snd c) 0 then (-1)%Z else 0%Z | None => 0%Z end;
  b_has0 := d_test (fun c r => yes (Rle_dec (Cmod c) r)) true;
  b_finite := d_test (fun _ _ => true) false;
  b_unique := d_unique
|}.

(** ** Facts on the plane *)
Lemma part_le (z : C) : Rabs (fst z) <= Cmod z /\ Rabs (snd z) <= Cmod z.
Proof.
  assert (H := Rmax_Cmod z). split; (eapply Rle_trans; [|exact H]); [apply Rmax_l|apply Rmax_r].
Qed.
Lemma Cmod_zero_eq (x c : C) : Cmod (x - c)%C <= 0 -> x = c.
Proof.
  intro H. assert (E : (x - c)%C = RtoC 0) by (apply Cmod_eq_0; assert (G := Cmod_ge_0 (x - c)%C); lra).
  transitivity ((x - c) + c)%C; [ring|]. rewrite E. ring.
Qed.
Lemma parts_in x c r : Cmod (x - c)%C <= r -> Rabs (fst x - fst c) <= r /\ Rabs (snd x - snd c) <= r.
Proof. intro H. destruct (part_le (x - c)%C) as [H1 H2]. cbn in H1, H2. unfold Rminus. lra. Qed.
Lemma parts_within x c r : Cmod (x - c)%C <= r -> fst c - r <= fst x <= fst c + r /\ snd c - r <= snd x <= snd c + r.
Proof.
  intro H. destruct (parts_in x c r H) as [H1 H2]. apply Rabs_le_between in H1. apply Rabs_le_between in H2. lra.
Qed.
Lemma same_real a b : RtoC a = RtoC b -> a = b.
Proof. intro H. now injection H. Qed.

(** square roots in the right half plane *)
Lemma rroot_sqrt x : 0 <= x -> rroot 2 x = sqrt x.
Proof.
  intro H. symmetry. apply sqrt_lem_1; [exact H|apply rroot_nonneg|]. assert (E := rroot_pow 2 x ltac:(lia) H). change (Z.of_nat 2) with 2%Z in E.
  rewrite <- E at 3. cbn [pow]. ring.
Qed.
Lemma cos_quarter t : - (PI / 4) <= t <= PI / 4 -> sqrt 2 / 2 <= cos t.
Proof.
  intro H. assert (HP := PI_RGT_0). replace (sqrt 2 / 2) with (cos (PI / 4)).
  - destruct (Rle_dec 0 t) as [T|T].
    + apply cos_decr_1; lra.
    + rewrite <- (cos_neg t). apply cos_decr_1; lra.
  - rewrite cos_PI4. assert (S2 := sqrt_sqrt 2 ltac:(lra)). assert (0 < sqrt 2) by (apply sqrt_lt_R0; lra). apply Rmult_eq_reg_r with (sqrt 2); [|lra]. field_simplify; [|lra]. simpl. nra.
Qed.
Lemma root2_parts z : 0 < fst z -> let w := croot 2 z in (w * w = z)%C /\ Cmod w = sqrt (Cmod z) /\ - (PI / 4) <= carg z / 2 <= PI / 4 /\ w = (RtoC (sqrt (Cmod z)) * cis (carg z / 2))%C.
Proof.
  intros Hz w. assert (Hz0 : z <> RtoC 0) by (intros ->; cbn in Hz; lra).
  assert (E := croot_pow 2 z ltac:(lia)). change (Z.of_nat 2) with 2%Z in E. fold w in E. cbn [cpow] in E.
  split; [rewrite <- E; ring|]. unfold w at 1. rewrite croot_mod, rroot_sqrt by apply Cmod_ge_0. split; [reflexivity|].
  assert (H := carg_right z Hz0 ltac:(lra)). split; [lra|]. unfold w, croot. rewrite rroot_sqrt by apply Cmod_ge_0. reflexivity.
Qed.
Lemma root2_close c x r : r < fst c -> Cmod (x - c)%C <= r -> Cmod (croot 2 x - croot 2 c)%C <= r / sqrt (Cmod c).
Proof.
  intros Hc Hx. assert (Hr : 0 <= r) by (eapply Rle_trans; [apply Cmod_ge_0|exact Hx]).
  destruct (parts_within x c r Hx) as [Hf _]. assert (HP := PI_RGT_0).
  destruct (root2_parts c ltac:(lra)) as (E1 & M1 & A1 & P1). destruct (root2_parts x ltac:(lra)) as (E2 & M2 & A2 & P2).
  set (v := croot 2 c) in *. set (w := croot 2 x) in *.
  assert (Hc0 : 0 < Cmod c). { destruct (part_le c) as [H _]. rewrite Rabs_pos_eq in H; lra. }
  assert (Hs : 0 < sqrt (Cmod c)) by now apply sqrt_lt_R0.
  assert (Hsum : sqrt (Cmod c) <= Cmod (w + v)%C).
  { (* w v* has a nonnegative real part *)
    assert (Hre : 0 <= fst w * fst v + snd w * snd v).
    { rewrite P1, P2. unfold cis. cbn. ring_simplify.
      match goal with |- 0 <= ?e => replace e with (sqrt (Cmod x) * sqrt (Cmod c) * (cos (carg x / 2) * cos (carg c / 2) + sin (carg x / 2) * sin (carg c / 2))) by ring end.
      rewrite <- cos_minus. apply Rmult_le_pos; [apply Rmult_le_pos; apply sqrt_pos|]. apply cos_ge_0; lra. }
    rewrite <- M1. unfold Cmod. apply sqrt_le_1_alt. revert Hre. clear. cbn [Cplus fst snd]. destruct w as [a b], v as [d e]. cbn [fst snd].
    intro H. assert (S1 := pow2_ge_0 a). assert (S2 := pow2_ge_0 b). cbn [pow] in *. nra. }
  assert (Ed : ((w - v) * (w + v))%C = (x - c)%C) by (transitivity (w * w - v * v)%C; [ring|]; now rewrite E1, E2).
  apply (f_equal Cmod) in Ed. rewrite Cmod_mult in Ed. apply Rle_div_r; [exact Hs|].
  eapply Rle_trans; [|exact Hx]. rewrite <- Ed. apply Rmult_le_compat_l; [apply Cmod_ge_0|exact Hsum].
Qed.

(** ** The contract *)
Lemma unique_int k r : r = IZR k -> IZR (up r - 1) = r /\ (up r - 1 = k)%Z.
Proof.
  intros ->. destruct (archimed (IZR k)) as [H1 H2]. assert (E : (up (IZR k) = k + 1)%Z).
  { apply Z.le_antisymm; [|apply lt_IZR in H1; lia]. apply le_IZR. rewrite plus_IZR. lra. }
  rewrite E. replace (k + 1 - 1)%Z with k by lia. auto.
Qed.
Ltac dpoint := unfold is_point, point in *; subst; cbn -[Cplus Cminus Cmult Cdiv Copp Cinv croot cpow clog cexp carg root sinh cosh RtoC Rabs powerRZ Cmod fst snd d_root];
  repeat match goal with |- context [Req_EM_T 0 0] => destruct (Req_EM_T 0 0); [|lra] end.
Theorem discs_point_sound : sound discs is_point.
Proof.
  constructor; intros; try (dpoint; reflexivity); try (dpoint; apply f_equal, f_equal2; [reflexivity|ring]).
  - dpoint. unfold d_root. destruct (Req_EM_T 0 0); [reflexivity|lra].
  - dpoint. cbn in H. destruct (Rle_dec (fst x + 0) 0); [lra|discriminate].
  - dpoint. cbn in H. destruct (Rle_dec 0 (fst x)); [lra|discriminate].
  - dpoint. cbn in H. destruct (Rlt_dec (fst x + 0) 0); [lra|discriminate].
  - dpoint. cbn in H. destruct (Rle_dec (snd x + 0) 0); [lra|discriminate].
  - dpoint. cbn in H. destruct (Rle_dec (Rabs (snd x)) 0) as [L|]; [|discriminate]. exists (fst x). do 2 f_equal.
    assert (E : snd x = 0) by (destruct (Rabs_le_between (snd x) 0) as [F _]; specialize (F L); lra). destruct x as [a b]. cbn in *. now subst b.
  - dpoint. cbn in H. cbn -[Rle_dec]. destruct (Rle_dec (Rabs (snd x)) 0) as [|N]; [discriminate|].
    destruct (Rlt_dec 0 (snd x)); [left; auto|]. right. destruct (Rlt_dec (snd x) 0) as [L|L].
    + split; [reflexivity|]. split; [exact L|]. destruct (Rle_dec (snd x + 0) 0); [reflexivity|lra].
    + exfalso. apply N. replace (snd x) with 0 by lra. rewrite Rabs_R0. lra.
  - intro E. unfold is_point, point in E. subst X. cbn -[Cmod RtoC] in H. rewrite Cmod_0 in H. destruct (Rle_dec 0 0); [discriminate|lra].
  - dpoint. cbn -[up RtoC] in H. destruct (Req_EM_T 0 0); [|lra]. cbn [fst snd RtoC] in H.
    destruct (Req_EM_T (IZR z) (IZR (up (IZR z) - 1))) as [E|]; [|discriminate]. destruct (Req_EM_T 0 0) in H; [|lra]. injection H as <-. now apply eq_IZR.
Qed.

Lemma lift1_mem f X x : disc_mem X x -> disc_mem (lift1 f X) (f x).
Proof.
  destruct X as [[c r]|]; [|easy]. cbn -[Cmod Cminus]. intro H. destruct (Req_EM_T r 0) as [->|]; [|exact I].
  rewrite (Cmod_zero_eq _ _ H). cbn -[Cmod Cminus]. replace (f c - f c)%C with (RtoC 0) by ring. rewrite Cmod_0. lra.
Qed.
Lemma lift2_mem f X Y x y : disc_mem X x -> disc_mem Y y -> disc_mem (lift2 f X Y) (f x y).
Proof.
  destruct X as [[c r]|], Y as [[c' r']|]; try easy. cbn -[Cmod Cminus]. intros H H'. destruct (Req_EM_T r 0) as [->|]; [|exact I].
  destruct (Req_EM_T r' 0) as [->|]; [|exact I].
  rewrite (Cmod_zero_eq _ _ H), (Cmod_zero_eq _ _ H'). cbn -[Cmod Cminus]. replace (f c c' - f c c')%C with (RtoC 0) by ring. rewrite Cmod_0. lra.
Qed.
Lemma point_mem x : disc_mem (point x) x.
Proof. cbn -[Cmod Cminus]. replace (x - x)%C with (RtoC 0) by ring. rewrite Cmod_0. lra. Qed.
Lemma d_add_mem X Y x y : disc_mem X x -> disc_mem Y y -> disc_mem (d_add X Y) (x + y)%C.
Proof.
  destruct X as [[c r]|], Y as [[c' r']|]; try easy. cbn -[Cmod Cminus Cplus]. intros H H'.
  replace (x + y - (c + c'))%C with ((x - c) + (y - c'))%C by ring. eapply Rle_trans; [apply Cmod_triangle|lra].
Qed.
Lemma d_sub_mem X Y x y : disc_mem X x -> disc_mem Y y -> disc_mem (d_sub X Y) (x - y)%C.
Proof.
  destruct X as [[c r]|], Y as [[c' r']|]; try easy. cbn -[Cmod Cminus Cplus]. intros H H'.
  replace (x - y - (c - c'))%C with ((x - c) + - (y - c'))%C by ring. eapply Rle_trans; [apply Cmod_triangle|]. rewrite Cmod_opp. lra.
Qed.
Lemma d_mul_mem X Y x y : disc_mem X x -> disc_mem Y y -> disc_mem (d_mul X Y) (x * y)%C.
Proof.
  destruct X as [[c r]|], Y as [[c' r']|]; try easy. cbn -[Cmod Cminus Cplus Cmult]. intros H H'.
  replace (x * y - c * c')%C with (c * (y - c') + c' * (x - c) + (x - c) * (y - c'))%C by ring.
  eapply Rle_trans; [apply Cmod_triangle|]. eapply Rle_trans; [apply Rplus_le_compat_r, Cmod_triangle|]. rewrite !Cmod_mult.
  assert (G := Cmod_ge_0 c). assert (G' := Cmod_ge_0 c'). assert (P := Cmod_ge_0 (x - c)%C). assert (P' := Cmod_ge_0 (y - c')%C).
  apply Rplus_le_compat; [apply Rplus_le_compat; apply Rmult_le_compat_l; lra|apply Rmult_le_compat; lra].
Qed.
Lemma d_scale_mem X x k : disc_mem X x -> disc_mem (d_scale X k) (x * RtoC k)%C.
Proof.
  destruct X as [[c r]|]; [|easy]. cbn -[Cmod Cminus Cmult RtoC]. intro H.
  replace (x * RtoC k - c * RtoC k)%C with ((x - c) * RtoC k)%C by ring. rewrite Cmod_mult, Cmod_R. apply Rmult_le_compat_r; [apply Rabs_pos|exact H].
Qed.
Lemma d_neg_mem X x : disc_mem X x -> disc_mem (d_neg X) (- x)%C.
Proof.
  destruct X as [[c r]|]; [|easy]. cbn -[Cmod Cminus Copp]. intro H. replace (- x - - c)%C with (- (x - c))%C by ring. now rewrite Cmod_opp.
Qed.
Lemma d_part_mem X x : disc_mem X x -> disc_mem (d_re X) (RtoC (fst x)) /\ disc_mem (d_im X) (RtoC (snd x)).
Proof.
  destruct X as [[c r]|]; [|easy]. cbn -[Cmod Cminus RtoC]. intro H. destruct (parts_in x c r H). rewrite <- !RtoC_minus, !Cmod_R. auto.
Qed.
Lemma d_root_mem m X x : disc_mem X x -> disc_mem (d_root m X) (croot m x).
Proof.
  destruct X as [[c r]|]; [|easy]. cbn -[Cmod Cminus croot]. intro H. destruct (Req_EM_T r 0) as [->|].
  - rewrite (Cmod_zero_eq _ _ H). apply point_mem.
  - destruct (Z.eqb_spec m 2) as [->|]; [|exact I]. destruct (Rlt_dec r (fst c)) as [L|]; [|exact I]. now apply root2_close.
Qed.
Theorem discs_sound : sound discs disc_mem.
Proof.
  assert (Ht : forall f d X x, d_test f d X = true -> disc_mem X x -> d = false -> exists c r, X = Some (c, r) /\ f c r = true /\ Cmod (x - c)%C <= r).
  { intros f d [[c r]|] x H1 H2 H3; [exists c, r; auto|]. cbn in H1. congruence. }
  constructor; intros; cbn -[Cmod Cplus Cminus Cmult Cdiv Copp Cinv croot cpow clog cexp carg root sinh cosh RtoC Rabs powerRZ fst snd d_root d_add d_sub d_mul d_scale lift1 lift2 point d_test disc_mem d_unique] in *;
    auto using point_mem, d_add_mem, d_sub_mem, d_mul_mem, d_scale_mem, d_neg_mem, d_root_mem, lift1_mem, lift2_mem.
  - now apply (lift1_mem (fun x => cpow x n)).
  - now apply d_part_mem.
  - now apply d_part_mem.
  - now apply (lift1_mem (fun x => RtoC (carg x))).
  - now apply (lift1_mem (fun x => RtoC (sinh (fst x))) X (RtoC r)).
  - now apply (lift1_mem (fun x => RtoC (cosh (fst x))) X (RtoC r)).
  - destruct (Ht _ _ _ _ H H0 eq_refl) as (c & r & -> & T & M). destruct (Rle_dec (fst c + r) 0); [|discriminate]. apply parts_within in M. lra.
  - destruct (Ht _ _ _ _ H H0 eq_refl) as (c & r & -> & T & M). destruct (Rle_dec r (fst c)); [|discriminate]. apply parts_within in M. lra.
  - destruct (Ht _ _ _ _ H H0 eq_refl) as (c & r & -> & T & M). destruct (Rlt_dec (fst c + r) 0); [|discriminate]. apply parts_within in M. lra.
  - destruct (Ht _ _ _ _ H H0 eq_refl) as (c & r & -> & T & M). destruct (Rle_dec (snd c + r) 0); [|discriminate]. apply parts_within in M. lra.
  - destruct X as [[c r]|]; [|exists 0; exact I]. cbn -[Rabs] in H. destruct (Rle_dec (Rabs (snd c)) r) as [L|]; [|discriminate].
    exists (fst c). cbn -[Cmod]. replace (RtoC (fst c) - c)%C with ((0, - snd c) : C) by (apply injective_projections; cbn; ring).
    replace ((0, - snd c) : C) with (Ci * RtoC (- snd c))%C by (apply injective_projections; cbn; ring).
    rewrite Cmod_mult, Cmod_R, Rabs_Ropp. unfold Ci, Cmod at 1. cbn. replace (0 * (0 * 1) + 1 * (1 * 1)) with 1 by ring. rewrite sqrt_1. lra.
  - destruct X as [[c r]|]; [|discriminate]. cbn -[Rabs] in H. destruct (Rle_dec (Rabs (snd c)) r) as [|N]; [discriminate|]. clear H.
    assert (M := H0). cbn -[Cmod Cminus] in M. assert (Hr : 0 <= r) by (eapply Rle_trans; [apply Cmod_ge_0|exact M]). apply parts_within in M. destruct M as [_ M].
    apply Rnot_le_lt in N. destruct (Rlt_dec 0 (snd c)) as [L|L].
    + left. split; [reflexivity|]. rewrite Rabs_pos_eq in N by lra. lra.
    + right. assert (snd c < 0). { destruct (Rtotal_order (snd c) 0) as [|[E|]]; [assumption| |lra]. rewrite E, Rabs_R0 in N. lra. }
      destruct (Rlt_dec (snd c) 0); [|lra]. rewrite Rabs_left in N by lra. split; [reflexivity|]. split; [lra|]. cbn. destruct (Rle_dec (snd c + r) 0); [reflexivity|lra].
  - destruct X as [[c r]|]; [|discriminate]. cbn -[Cmod] in H. destruct (Rle_dec (Cmod c) r) as [|N]; [discriminate|]. intro M. cbn -[Cmod Cminus RtoC] in M.
    apply N. replace (RtoC 0 - c)%C with (- c)%C in M by ring. now rewrite Cmod_opp in M.
  - destruct X as [[c r]|]; [|discriminate]. cbn -[up] in H. destruct (Req_EM_T r 0) as [->|]; [|discriminate].
    destruct (Req_EM_T (fst c) (IZR (up (fst c) - 1))) as [E|]; [|discriminate]. destruct (Req_EM_T (snd c) 0); [|discriminate].
    injection H as <-. cbn -[Cmod Cminus RtoC] in H0. apply Cmod_zero_eq in H0. apply eq_IZR. rewrite <- E, <- H0. reflexivity.
Qed.
Theorem discs_widens : widens discs disc_mem.
Proof.
  constructor; intros.
  - destruct X as [[c r]|]; [|exact I]. cbn -[Cmod Cminus] in *. replace (z - c)%C with ((z - x) + (x - c))%C by ring. eapply Rle_trans; [apply Cmod_triangle|lra].
  - now destruct X as [[c r]|].
Qed.
(** points are never too large *)
Theorem discs_decided : ~ undecided discs is_point.
Proof.
  intros [(X & x & -> & Hx & H)|[(p & X & Y & x & y & -> & -> & Hy & H)|(X & z & -> & H)]].
  - cbn -[Cmod] in H. destruct (Rle_dec (Cmod x) 0) as [L|]; [|discriminate]. apply Hx, Cmod_eq_0. assert (G := Cmod_ge_0 x). lra.
  - cbn in H. destruct (Req_EM_T 0 0); [|lra]. discriminate.
  - cbn -[up] in H. destruct (Req_EM_T 0 0); [|lra]. destruct (unique_int z (IZR z) eq_refl) as [E _].
    destruct (Req_EM_T (IZR z) (IZR (up (IZR z) - 1))); [discriminate|]. now rewrite E in *.
Qed.
