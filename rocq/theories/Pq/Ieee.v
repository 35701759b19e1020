(** The special values of f32 and the laws of its comparison. *)
From Coq Require Import List ZArith Reals Lra Lia Bool.
From Flocq Require Import Core.Core Calc.Operations IEEE754.BinarySingleNaN.
From Verif.Simd Require Import Model Ieee.
From Verif.Pq Require Import Model Spec.
Local Open Scope Z_scope.
#[local] Instance prec_gt_0_24 : Prec_gt_0 24 := eq_refl.
#[local] Instance prec_lt_emax_24 : Prec_lt_emax 24 128 := eq_refl.

(** [f32::MAX] = (2^24 - 1) 2^104. *)
Definition f32_x : xops f32 :=
  mkX f32_ops (B754_infinity false) (B754_infinity true) (binary_normalize 24 128 _ _ mode_NE 16777215 104 false)
      (binary_normalize 24 128 _ _ mode_NE 2 0 false) is_finite (fun v => match v with B754_infinity _ => true | _ => false end).

Definition key (a : f32) : R :=
  match a with B754_infinity false => bpow radix2 128 | B754_infinity true => - bpow radix2 128 | _ => B2R a end.
Lemma key_bound (a : f32) : (- bpow radix2 128 <= key a <= bpow radix2 128)%R.
Proof.
  pose proof (bpow_gt_0 radix2 128). destruct a as [s|[]| |s m e B]; cbn [key]; try (cbn [B2R]; lra).
  pose proof (abs_B2R_lt_emax 24 128 (B754_finite s m e B)) as H'. apply Rabs_lt_inv in H'. lra.
Qed.
Lemma key_strict (a : f32) : is_finite a = true -> (- bpow radix2 128 < B2R a < bpow radix2 128)%R.
Proof. intros _. pose proof (abs_B2R_lt_emax 24 128 a) as H'. now apply Rabs_lt_inv in H'. Qed.
Lemma lt_key (a b : f32) : is_nan a = false -> is_nan b = false -> f32_lt a b = Rlt_bool (key a) (key b).
Proof.
  intros N1 N2. unfold f32_lt. destruct (is_finite a) eqn:F1; [destruct (is_finite b) eqn:F2|].
  - rewrite Bltb_correct by assumption. destruct a, b; try discriminate; reflexivity.
  - pose proof (key_strict a F1) as K. assert (E : key a = B2R a) by (destruct a; try discriminate; reflexivity).
    destruct b as [s|[]| |]; try discriminate; rewrite E; cbn [key].
    + rewrite Rlt_bool_false by lra. destruct a; try discriminate; reflexivity.
    + rewrite Rlt_bool_true by lra. destruct a as [| | |[]]; try discriminate; reflexivity.
  - pose proof (bpow_gt_0 radix2 128). destruct a as [s|s| |]; try discriminate. destruct (is_finite b) eqn:F2.
    + pose proof (key_strict b F2) as K. assert (E : key b = B2R b) by (destruct b; try discriminate; reflexivity). rewrite E.
      destruct s; cbn [key]; [rewrite Rlt_bool_true by lra|rewrite Rlt_bool_false by lra]; destruct b as [| | |[]]; try discriminate; reflexivity.
    + destruct b as [s'|s'| |]; try discriminate. destruct s, s'; cbn [key].
      all: first [rewrite Rlt_bool_false by lra; reflexivity|rewrite Rlt_bool_true by lra; reflexivity].
Qed.
Lemma lt_nan (a b : f32) : f32_lt a b = true -> is_nan a = false /\ is_nan b = false /\ (key a < key b)%R.
Proof.
  intros H. assert (is_nan a = false /\ is_nan b = false) as [N1 N2] by (destruct a as [|[]| |[]], b as [|[]| |[]]; split; solve [reflexivity|discriminate H]).
  split; [assumption|]. split; [assumption|]. rewrite lt_key in H by assumption. now destruct (Rlt_bool_spec (key a) (key b)).
Qed.
Lemma key_lt (a b : f32) : is_nan a = false -> is_nan b = false -> (key a < key b)%R -> f32_lt a b = true.
Proof. intros N1 N2 H. rewrite lt_key by assumption. now apply Rlt_bool_true. Qed.
Lemma not_lt (a b : f32) : (is_nan a = false -> is_nan b = false -> ~ (key a < key b)%R) -> f32_lt a b = false.
Proof. intros H. destruct (f32_lt a b) eqn:E; [|reflexivity]. apply lt_nan in E as (N1 & N2 & L). elim (H N1 N2 L). Qed.
Lemma f32_ordered : ordered f32_x.
Proof.
  split; cbn [fo f32_x f32_ops lt inf ninf].
  - intros a. apply not_lt. intros _ _ L. lra.
  - intros a b c H1 H2. apply lt_nan in H1 as (A1 & A2 & A3), H2 as (B1 & B2 & B3). apply key_lt; [assumption..|lra].
  - intros a b c d H1 H2. apply lt_nan in H1 as (A1 & A2 & A3), H2 as (B1 & B2 & B3).
    destruct (Rlt_dec (key a) (key b)); [left; now apply key_lt|right; apply key_lt; [assumption..|lra]].
  - intros a. apply not_lt. intros _ _ L. pose proof (key_bound a). cbn [key] in L. lra.
  - intros a c H. apply lt_nan in H as (A1 & A2 & A3). apply key_lt; [assumption|reflexivity|]. pose proof (key_bound c). cbn [key]. lra.
  - reflexivity.
Qed.
(** A value is a [number] iff it is not NaN. *)
Lemma f32_number v : number f32_x v <-> is_nan v = false.
Proof.
  split.
  - intros H. destruct (is_nan v) eqn:N; [|reflexivity]. destruct (H (ninf f32_x) (inf f32_x) eq_refl) as [E|E]; cbn [fo f32_x f32_ops lt] in E;
      apply lt_nan in E; destruct E as (A & B & _); congruence.
  - intros N b c H. cbn [fo f32_x f32_ops lt] in *. apply lt_nan in H as (A1 & A2 & A3).
    destruct (Rlt_dec (key b) (key v)); [left; now apply key_lt|right; apply key_lt; [assumption..|lra]].
Qed.
(** Twice a value is the value plus itself. *)
Lemma two_R : B2R (two f32_x) = 2%R.
Proof. cbn. unfold F2R. cbn. lra. Qed.
Lemma f32_two (v : f32) : mul f32_ops (two f32_x) v = add f32_ops v v.
Proof.
  cbn [mul add f32_ops].
  destruct (is_finite v) eqn:F; [|destruct v as [|[]| |]; try discriminate; reflexivity].
  pose proof (Bmult_correct 24 128 _ _ mode_NE (two f32_x) v) as M. pose proof (Bplus_correct 24 128 _ _ mode_NE v v F F) as P.
  rewrite two_R in M. replace (B2R v + B2R v)%R with (2 * B2R v)%R in P by lra.
  assert (S2 : Bsign (two f32_x) = false) by reflexivity. rewrite S2, xorb_false_l in M. assert (F2 : is_finite (two f32_x) = true) by reflexivity. rewrite F2 in M.
  destruct (Rlt_bool _ _).
  - destruct M as (M1 & M2 & M3), P as (P1 & P2 & P3). rewrite F in M2. cbn [andb] in M2.
    apply B2R_Bsign_inj; [assumption..|etransitivity; [exact M1|symmetry; exact P1]|]. etransitivity; [apply M3; now apply finite_nan|]. symmetry. etransitivity; [exact P3|].
    destruct v as [s|s| |s m e B]; try discriminate; cbn [Bsign].
    + cbn [B2R]. rewrite Rmult_0_r, Rcompare_Eq by reflexivity. now destruct s.
    + destruct s.
      * change (B2R (B754_finite true m e B)) with (F2R (Float radix2 (Zneg m) e)). assert (F2R (Float radix2 (Zneg m) e) < 0)%R by (apply F2R_lt_0; reflexivity). rewrite Rcompare_Lt by lra. reflexivity.
      * change (B2R (B754_finite false m e B)) with (F2R (Float radix2 (Zpos m) e)). assert (0 < F2R (Float radix2 (Zpos m) e))%R by (apply F2R_gt_0; reflexivity). rewrite Rcompare_Gt by lra. reflexivity.
  - destruct P as [P _]. apply B2SF_inj. etransitivity; [exact M|symmetry; exact P].
Qed.
