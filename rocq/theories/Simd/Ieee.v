(** The arithmetic of Rust's [f32]: IEEE 754 binary32 with round to nearest, ties to even, from
    Flocq, with all NaNs identified ([f32::min] and [f32::max] are defined here). *)
From Coq Require Import ZArith Reals Lra Lia Bool.
From Flocq Require Import Core.Core Calc.Operations IEEE754.BinarySingleNaN.
From Verif.Simd Require Import Model.
Local Open Scope Z_scope.

Definition f32 := binary_float 24 128.
#[local] Instance prec_gt_0_24 : Prec_gt_0 24 := eq_refl.
#[local] Instance prec_lt_emax_24 : Prec_lt_emax 24 128 := eq_refl.
Definition f32_lt (a b : f32) : bool := Bltb a b.
Definition f32_min (a b : f32) : f32 :=
  if is_nan a then b else if is_nan b then a else if f32_lt b a then b else a.
Definition f32_max (a b : f32) : f32 :=
  if is_nan a then b else if is_nan b then a else if f32_lt a b then b else a.
Definition f32_one : f32 := binary_normalize 24 128 _ _ mode_NE 1 0 false.
(** [f32::MIN_POSITIVE] = 2^-126. *)
Definition f32_min_positive : f32 := binary_normalize 24 128 _ _ mode_NE 1 (-126) false.
Definition f32_ops : fops f32 :=
  mkF (B754_zero false) f32_one f32_min_positive (Bplus mode_NE) (Bminus mode_NE) (Bmult mode_NE) Bopp
      (Bdiv mode_NE) (Bfma mode_NE) Babs (Bsqrt mode_NE) f32_min f32_max f32_lt.

(** Not NaN and with the sign bit clear. *)
Definition pos (v : f32) : Prop := is_nan v = false /\ Bsign v = false.

Lemma pos_R (v : f32) : Bsign v = false -> (0 <= B2R v)%R.
Proof. destruct v as [s|s| |s m e H]; cbn; intros S; try lra. subst s. apply F2R_ge_0. cbn. lia. Qed.
Lemma finite_nan (v : f32) : is_finite v = true -> is_nan v = false.
Proof. now destruct v. Qed.
Lemma pos_inf (v : f32) : B2SF v = binary_overflow 24 128 mode_NE false -> pos v.
Proof. destruct v; cbn; intros E; inversion E; subst; now split. Qed.
Lemma pos_plus a b : pos a -> pos b -> pos (Bplus mode_NE a b).
Proof.
  intros [N1 S1] [N2 S2].
  destruct (is_finite a) eqn:F1; [destruct (is_finite b) eqn:F2|].
  - pose proof (Bplus_correct 24 128 _ _ mode_NE a b F1 F2) as C. rewrite S1, S2 in C.
    destruct (Rlt_bool _ _).
    + destruct C as (_ & F & S). split; [now apply finite_nan|]. rewrite S.
      pose proof (pos_R a S1). pose proof (pos_R b S2).
      destruct (Rcompare_spec (B2R a + B2R b) 0); [lra|reflexivity..].
    + apply pos_inf. tauto.
  - destruct b as [s|s| |]; try discriminate. cbn in S2. subst s. destruct a as [s|s| |]; try discriminate; now split.
  - destruct a as [s|s| |]; try discriminate. cbn in S1. subst s. destruct b as [s|s| |]; try discriminate; try (now split).
    cbn in S2. subst s. now split.
Qed.
Lemma pos_sq c : is_nan c = false -> pos (Bmult mode_NE c c).
Proof.
  intros N. pose proof (Bmult_correct 24 128 _ _ mode_NE c c) as C. rewrite xorb_nilpotent in C.
  destruct (Rlt_bool _ _) eqn:B.
  - destruct C as (_ & F & S). assert (is_nan (Bmult mode_NE c c) = false) as NN.
    { destruct (is_finite c) eqn:FC; [now apply finite_nan; rewrite F|]. destruct c as [s|s| |]; try discriminate. reflexivity. }
    split; [exact NN|now apply S].
  - now apply pos_inf.
Qed.
Lemma pos_fma c a : is_nan c = false -> pos a -> pos (Bfma mode_NE c c a).
Proof.
  intros N [NA SA].
  destruct (is_finite c) eqn:FC; [destruct (is_finite a) eqn:FA|].
  - pose proof (Bfma_correct 24 128 _ _ mode_NE c c a FC FC FA) as C. cbv zeta in C.
    pose proof (pos_R a SA). assert (0 <= B2R c * B2R c)%R by nra.
    destruct (Rlt_bool (Rabs _) _).
    + destruct C as (_ & F & S). split; [now apply finite_nan|]. rewrite S.
      destruct (Rcompare_spec (B2R c * B2R c + B2R a) 0); [lra| |reflexivity].
      unfold Bfma_szero. rewrite xorb_nilpotent, SA. reflexivity.
    + rewrite Rlt_bool_false in C by lra. now apply pos_inf.
  - destruct a as [s|s| |]; try discriminate. cbn in SA. subst s. destruct c as [s|s| |]; try discriminate; now split.
  - destruct c as [s|s| |]; try discriminate. cbn [Bfma]. rewrite xorb_nilpotent.
    destruct a as [s'|s'| |]; try discriminate; try (now split). cbn in SA. subst s'. now split.
Qed.
Lemma sub_not_nan (x y : f32) : is_finite x = true -> is_finite y = true -> is_nan (Bminus mode_NE x y) = false.
Proof.
  intros F1 F2. pose proof (Bminus_correct 24 128 _ _ mode_NE x y F1 F2) as C.
  destruct (Rlt_bool _ _); [now apply finite_nan|]. destruct C as [C _]. destruct (Bminus mode_NE x y); try reflexivity. discriminate.
Qed.
Lemma sub_self (x : f32) : is_finite x = true -> Bminus mode_NE x x = B754_zero false.
Proof.
  intros F. pose proof (Bminus_correct 24 128 _ _ mode_NE x x F F) as C.
  rewrite Rminus_diag_eq, round_0, Rabs_R0, Rlt_bool_true in C by (reflexivity || apply bpow_gt_0 || auto with typeclass_instances).
  destruct C as (E & FF & S). rewrite Rcompare_Eq in S by reflexivity.
  apply B2R_Bsign_inj; auto. rewrite S. now destruct (Bsign x).
Qed.

Lemma mul_comm (a b : f32) : Bmult mode_NE a b = Bmult mode_NE b a.
Proof.
  apply B2SF_inj. destruct a as [s|s| |s m e H], b as [s'|s'| |s' m' e' H']; cbn [Bmult B2SF]; try reflexivity;
    rewrite ?(xorb_comm s s'); try reflexivity.
  rewrite !B2SF_SF2B. rewrite (Pos.mul_comm m m'), (Z.add_comm e e'), (xorb_comm s s'). reflexivity.
Qed.
Lemma fma_comm (a b t : f32) : Bfma mode_NE a b t = Bfma mode_NE b a t.
Proof.
  assert (Z0 : forall a b t : f32, Bfma_szero 24 128 mode_NE a b t = Bfma_szero 24 128 mode_NE b a t).
  { intros. unfold Bfma_szero. now rewrite xorb_comm. }
  destruct a as [s|s| |s m e H], b as [s'|s'| |s' m' e' H'], t as [u|u| |u mu eu Hu]; cbn [Bfma]; try reflexivity;
    rewrite ?(xorb_comm s s'), ?(Z0 (B754_zero s)), ?(Z0 (B754_finite s m e H)); try reflexivity.
  - unfold Operations.Fmult. rewrite (Z.mul_comm (cond_Zopp s _)), (Z.add_comm e). reflexivity.
  - unfold Operations.Fmult. rewrite (Z.mul_comm (cond_Zopp s _)), (Z.add_comm e). reflexivity.
Qed.
Definition anti (d d' : f32) : Prop := d' = Bopp d \/ exists s s', d = B754_zero s /\ d' = B754_zero s'.
Lemma sub_anti (x y : f32) : anti (Bminus mode_NE x y) (Bminus mode_NE y x).
Proof.
  destruct (is_finite x) eqn:F1; [destruct (is_finite y) eqn:F2|].
  - pose proof (Bminus_correct 24 128 _ _ mode_NE x y F1 F2) as C. pose proof (Bminus_correct 24 128 _ _ mode_NE y x F2 F1) as D.
    replace (B2R y - B2R x)%R with (- (B2R x - B2R y))%R in D by ring.
    cbn [round_mode] in C, D. rewrite round_NE_opp, Rabs_Ropp in D. destruct (Rlt_bool _ _).
    + destruct C as (C1 & C2 & C3), D as (D1 & D2 & D3).
      set (d := (B2R x - B2R y)%R) in *.
      destruct (Rtotal_order d 0) as [G|[G|G]].
      * rewrite Rcompare_Lt in C3 by lra. rewrite Rcompare_Gt in D3 by lra. left.
        apply B2R_Bsign_inj; [assumption|now rewrite is_finite_Bopp|rewrite B2R_Bopp; congruence|].
        rewrite Bsign_Bopp by now apply finite_nan. now rewrite C3, D3.
      * right. rewrite G, round_0 in C1, D1 by auto with typeclass_instances. rewrite Ropp_0 in D1.
        assert (Z0 : forall v : f32, is_finite v = true -> B2R v = 0%R -> exists s, v = B754_zero s).
        { intros [s|s| |s m e H] FF E; try discriminate; eauto. cbn in E. apply eq_0_F2R in E. now destruct s. }
        destruct (Z0 _ C2 C1) as [s ->], (Z0 _ D2 D1) as [s' ->]. eauto.
      * rewrite Rcompare_Gt in C3 by lra. rewrite Rcompare_Lt in D3 by lra. left.
        apply B2R_Bsign_inj; [assumption|now rewrite is_finite_Bopp|rewrite B2R_Bopp; congruence|].
        rewrite Bsign_Bopp by now apply finite_nan. now rewrite C3, D3.
    + destruct C as [C1 C2], D as [D1 D2]. left. apply B2SF_inj. rewrite D1.
      destruct (Bminus mode_NE x y) as [s|s| |]; try discriminate. cbn in C1 |- *. rewrite C2 in C1. injection C1 as ->.
      cbn. f_equal. now destruct (Bsign y).
  - destruct y as [s|s| |]; try discriminate; destruct x as [s'|s'| |]; try discriminate; left; cbn; now rewrite ?negb_involutive.
  - destruct x as [s|s| |]; try discriminate; destruct y as [s'|s'| |]; try (left; cbn; now rewrite ?negb_involutive).
    left. now destruct s, s'.
Qed.
Lemma sq_anti d d' : anti d d' -> Bmult mode_NE d d = Bmult mode_NE d' d'.
Proof.
  intros [->|(s & s' & -> & ->)]; [|cbn; now rewrite !xorb_nilpotent].
  apply B2SF_inj. destruct d as [s|s| |s m e H]; cbn [Bopp Bmult B2SF]; rewrite ?xorb_nilpotent; try reflexivity.
  rewrite !B2SF_SF2B. now rewrite !xorb_nilpotent.
Qed.
Lemma fma_anti d d' t : anti d d' -> Bfma mode_NE d d t = Bfma mode_NE d' d' t.
Proof.
  assert (Z0 : forall a b : f32, Bfma_szero 24 128 mode_NE a a t = Bfma_szero 24 128 mode_NE b b t).
  { intros. unfold Bfma_szero. now rewrite !xorb_nilpotent. }
  intros [->|(s & s' & -> & ->)].
  - destruct d as [s|s| |s m e H]; cbn [Bopp Bfma]; rewrite ?xorb_nilpotent; try reflexivity.
    + destruct t; try reflexivity. f_equal. apply Z0.
    + rewrite (Z0 (B754_finite s m e H) (B754_finite (negb s) m e H)). now destruct s.
  - cbn [Bfma]. destruct t; try reflexivity. f_equal. apply Z0.
Qed.

(** [f32::max(-1, f32::min(1, v))]. *)
Lemma clamp_ok v : let r := f32_max (Bopp f32_one) (f32_min f32_one v) in
  is_finite r = true /\ (-1 <= B2R r <= 1)%R.
Proof.
  assert (O : is_finite f32_one = true /\ B2R f32_one = 1%R).
  { split; [reflexivity|]. unfold B2R, F2R. cbn. lra. }
  destruct O as [O1 O2].
  assert (M : is_finite (Bopp f32_one) = true /\ B2R (Bopp f32_one) = (-1)%R).
  { split; [reflexivity|]. rewrite B2R_Bopp, O2. lra. }
  destruct M as [M1 M2].
  set (m := Bopp f32_one) in *.
  assert (NM : is_nan m = false) by (now apply finite_nan).
  assert (N1 : is_nan f32_one = false) by (now apply finite_nan).
  set (w := f32_min f32_one v).
  assert (W : is_nan w = false /\ (w = B754_infinity true \/ is_finite w = true /\ (B2R w <= 1)%R)).
  { unfold w, f32_min. rewrite N1. destruct (is_nan v) eqn:NV; [split; [assumption|right; rewrite O2; split; [assumption|lra]]|].
    unfold f32_lt. destruct (is_finite v) eqn:FV.
    - rewrite Bltb_correct by assumption. destruct (Rlt_bool_spec (B2R v) (B2R f32_one)).
      + split; [assumption|]. right. split; [assumption|lra].
      + split; [assumption|]. right. split; [assumption|lra].
    - destruct v as [s|s| |]; try discriminate. destruct s; cbn.
      + split; auto.
      + split; [reflexivity|]. right. split; [reflexivity|]. change (B2R f32_one <= 1)%R. lra. }
  destruct W as [NW W]. cbv zeta. fold w. unfold f32_max. rewrite NM, NW. unfold f32_lt.
  destruct W as [E|[FW BW]].
  - rewrite E. cbn. split; [reflexivity|]. change (-1 <= B2R m <= 1)%R. lra.
  - rewrite Bltb_correct by assumption. destruct (Rlt_bool_spec (B2R m) (B2R w)); split; try assumption; lra.
Qed.
