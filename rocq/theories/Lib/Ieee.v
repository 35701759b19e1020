(** Single precision arithmetic on bit patterns, taken from Flocq's formalisation of
    IEEE 754 binary32 (round to nearest, ties to even), and the order facts needed here. *)
From Coq Require Import ZArith Reals Lra Lia.
From Flocq Require Import Core.Core IEEE754.Binary IEEE754.Bits.
From Verif.Lib Require Import Base F32.
Local Open Scope Z_scope.

(** The float denoted by a bit pattern (taken modulo 2^32, as a Rust f32 has 32 bits). *)
Definition flt (x : f32) : binary32 := b32_of_bits (Z.of_N x mod 2 ^ 32).
(** The bit pattern of a float. *)
Definition of_flt (b : binary32) : f32 := Z.to_N (bits_of_b32 b).

Definition ieee_mul (x y : f32) : f32 := of_flt (b32_mult BinarySingleNaN.mode_NE (flt x) (flt y)).
Definition ieee_div (x y : f32) : f32 := of_flt (b32_div BinarySingleNaN.mode_NE (flt x) (flt y)).
Definition ieee_add (x y : f32) : f32 := of_flt (b32_plus BinarySingleNaN.mode_NE (flt x) (flt y)).

Example ieee_sanity :
  ieee_mul f32_two f32_one = f32_two /\ ieee_add f32_one f32_two = f32_three /\
  ieee_div f32_three f32_zero = f32_inf /\ ieee_mul f32_max f32_two = f32_inf /\
  is_nan (ieee_div f32_zero f32_zero) = true.
Proof. vm_compute. repeat split. Qed.

Lemma bits_range b : 0 <= bits_of_b32 b < 2 ^ 32.
Proof. apply (bits_of_binary_float_range 23 8); reflexivity. Qed.

Lemma flt_of_flt b : flt (of_flt b) = b.
Proof.
  unfold flt, of_flt. pose proof (bits_range b).
  rewrite Z2N.id by lia. rewrite Z.mod_small by lia.
  exact (binary_float_of_bits_of_binary_float 23 8 eq_refl eq_refl eq_refl b).
Qed.

(** The magnitude bits and the real value they stand for. *)
Definition mag_bits (x : f32) : Z := Z.of_N (x mod f32_sign_bit).
Definition sgn (x : f32) : bool := negb (N.even (x / f32_sign_bit)).
Definition mag_val (m : Z) : R :=
  if m <? 2 ^ 23 then (IZR m * bpow radix2 (-149))%R
  else (IZR (m mod 2 ^ 23 + 2 ^ 23) * bpow radix2 (m / 2 ^ 23 - 150))%R.

Lemma mag_bits_range x : 0 <= mag_bits x < 2 ^ 31.
Proof.
  unfold mag_bits. pose proof (N.mod_lt x f32_sign_bit ltac:(discriminate)).
  change (2 ^ 31) with (Z.of_N f32_sign_bit). lia.
Qed.

Lemma key_eq x : f32_key x = if sgn x then - mag_bits x else mag_bits x.
Proof. unfold f32_key, sgn, mag_bits. now destruct (N.even _). Qed.

Lemma nan_eq x : F32.is_nan x = (2139095040 <? mag_bits x).
Proof.
  unfold F32.is_nan, mag_bits, f32_inf_bits.
  destruct (N.ltb_spec 2139095040 (x mod f32_sign_bit)), (Z.ltb_spec 2139095040 (Z.of_N (x mod f32_sign_bit))); lia.
Qed.

Lemma split_flt x : split_bits 23 8 (Z.of_N x mod 2 ^ 32) =
  (sgn x, mag_bits x mod 2 ^ 23, mag_bits x / 2 ^ 23).
Proof.
  unfold split_bits. pose proof (mag_bits_range x) as R.
  assert (E : Z.of_N x mod 2 ^ 32 = mag_bits x + (if sgn x then 2 ^ 31 else 0)).
  { unfold mag_bits, sgn. set (q := (x / f32_sign_bit)%N).
    assert (D : (x = f32_sign_bit * q + x mod f32_sign_bit)%N)
      by (apply N.div_mod; discriminate).
    pose proof (N.mod_lt x f32_sign_bit ltac:(discriminate)) as L.
    set (r := (x mod f32_sign_bit)%N) in *. clearbody q r.
    assert (Zx : Z.of_N x = 2147483648 * Z.of_N q + Z.of_N r) by (unfold f32_sign_bit in *; lia).
    rewrite Zx. clear D R Zx. unfold f32_sign_bit in L.
    destruct (N.even q) eqn:Ev; cbn [negb].
    - apply N.even_spec in Ev as [p ->].
      symmetry. apply (Z.mod_unique _ _ (Z.of_N p)); lia.
    - assert (Od : N.odd q = true) by (unfold N.odd; now rewrite Ev).
      apply N.odd_spec in Od as [p ->].
      symmetry. apply (Z.mod_unique _ _ (Z.of_N p)); lia. }
  rewrite E. set (m := mag_bits x) in *. clearbody m.
  change (2 ^ 23 * 2 ^ 8) with (2 ^ 31).
  assert (M : (m + (if sgn x then 2 ^ 31 else 0)) mod 2 ^ 23 = m mod 2 ^ 23).
  { destruct (sgn x); [|now rewrite Z.add_0_r].
    change (2 ^ 31) with (2 ^ 8 * 2 ^ 23). now apply Z.mod_add. }
  assert (Q : ((m + (if sgn x then 2 ^ 31 else 0)) / 2 ^ 23) mod 2 ^ 8 = m / 2 ^ 23).
  { assert (0 <= m / 2 ^ 23 < 2 ^ 8).
    { split; [apply Z.div_pos; lia|apply Z.div_lt_upper_bound; lia]. }
    destruct (sgn x).
    - change (2 ^ 31) with (2 ^ 8 * 2 ^ 23). rewrite Z.div_add by lia.
      rewrite <- (Z.mul_1_l (2 ^ 8)) at 1. rewrite Z.mod_add by lia. now apply Z.mod_small.
    - rewrite Z.add_0_r. now apply Z.mod_small. }
  cbv zeta. rewrite M, Q. f_equal. f_equal.
  destruct (sgn x); [apply Z.leb_le|apply Z.leb_gt]; lia.
Qed.

(** What Flocq makes of a bit pattern. *)
Definition full (x : f32) : full_float :=
  let m := mag_bits x in
  if m =? 0 then F754_zero (sgn x)
  else if m <? 2 ^ 23 then F754_finite (sgn x) (Z.to_pos m) (-149)
  else if m <? 2139095040 then F754_finite (sgn x) (Z.to_pos (m mod 2 ^ 23 + 2 ^ 23)) (m / 2 ^ 23 - 150)
  else if m =? 2139095040 then F754_infinity (sgn x)
  else F754_nan (sgn x) (Z.to_pos (m mod 2 ^ 23)).

Lemma full_flt x : B2FF 24 128 (flt x) = full x.
Proof.
  unfold flt, b32_of_bits, binary_float_of_bits. rewrite B2FF_FF2B.
  unfold binary_float_of_bits_aux. rewrite split_flt.
  pose proof (mag_bits_range x) as R. unfold full. set (m := mag_bits x) in *. clearbody m.
  pose proof (Z.div_mod m (2 ^ 23) ltac:(lia)) as D.
  pose proof (Z.mod_pos_bound m (2 ^ 23) ltac:(lia)) as B.
  set (q := m / 2 ^ 23) in *. set (r := m mod 2 ^ 23) in *. clearbody q r.
  cbv zeta.
  destruct (Z.eqb_spec m 0) as [->|N0].
  { assert (q = 0) by lia. assert (r = 0) by lia. subst. reflexivity. }
  destruct (Z.ltb_spec m (2 ^ 23)).
  { assert (q = 0) by lia. assert (r = m) by lia. subst q r. cbn [Zeq_bool].
    change (Zeq_bool 0 0) with true. cbv iota. destruct m; try lia. reflexivity. }
  assert (q > 0) by lia.
  destruct (Zeq_bool q 0) eqn:Z0; [apply Zeq_bool_eq in Z0; lia|].
  change (2 ^ 8 - 1) with 255.
  destruct (Zeq_bool q 255) eqn:Z255.
  - apply Zeq_bool_eq in Z255. subst q.
    destruct (Z.ltb_spec m 2139095040); [lia|].
    destruct (Z.eqb_spec m 2139095040).
    + assert (r = 0) by lia. subst r. reflexivity.
    + destruct r; try lia. reflexivity.
  - assert (q <> 255) by (intros ->; discriminate).
    destruct (Z.ltb_spec m 2139095040); [|lia].
    destruct (r + 2 ^ 23) as [|p|p] eqn:P; try lia.
    f_equal. cbn. lia.
Qed.

Lemma flt_real x : mag_bits x < 2139095040 ->
  is_finite 24 128 (flt x) = true /\
  B2R 24 128 (flt x) = if sgn x then (- mag_val (mag_bits x))%R else mag_val (mag_bits x).
Proof.
  intros L. pose proof (full_flt x) as F. unfold full in F.
  pose proof (mag_bits_range x) as R. set (m := mag_bits x) in *.
  split.
  - destruct (flt x); cbn [B2FF is_finite] in F |- *; auto;
      destruct (m =? 0); try discriminate; destruct (m <? 2 ^ 23); try discriminate;
      destruct (Z.ltb_spec m 2139095040); try discriminate; lia.
  - rewrite <- FF2R_B2FF, F. unfold mag_val.
    destruct (Z.eqb_spec m 0) as [->|N0].
    { cbn [FF2R]. change (0 <? 2 ^ 23) with true. cbv iota. destruct (sgn x); ring. }
    pose proof (Z.mod_pos_bound m (2 ^ 23) ltac:(lia)) as B.
    destruct (Z.ltb_spec m (2 ^ 23)).
    { cbn [FF2R]. unfold F2R. cbn [Fnum Fexp]. rewrite Z2Pos.id by lia.
      destruct (sgn x); cbn [cond_Zopp]; rewrite ?opp_IZR; ring. }
    destruct (Z.ltb_spec m 2139095040); [|lia].
    cbn [FF2R]. unfold F2R. cbn [Fnum Fexp]. rewrite Z2Pos.id by lia.
    destruct (sgn x); cbn [cond_Zopp]; rewrite ?opp_IZR; ring.
Qed.

Lemma mag_val_step m : 0 <= m -> (mag_val m < mag_val (m + 1))%R.
Proof.
  intros H. unfold mag_val.
  assert (P : forall e, (0 < bpow radix2 e)%R) by (intros; apply bpow_gt_0).
  destruct (Z.ltb_spec m (2 ^ 23)), (Z.ltb_spec (m + 1) (2 ^ 23)); try lia.
  - apply Rmult_lt_compat_r; [apply P|]. apply IZR_lt. lia.
  - assert (m = 2 ^ 23 - 1) by lia. subst m. apply Rmult_lt_compat_r; [apply P|].
    apply IZR_lt. reflexivity.
  - pose proof (Z.div_mod m (2 ^ 23) ltac:(lia)) as D.
    pose proof (Z.mod_pos_bound m (2 ^ 23) ltac:(lia)) as B.
    set (q := m / 2 ^ 23) in *. set (r := m mod 2 ^ 23) in *.
    destruct (Z.eq_dec r (2 ^ 23 - 1)) as [E|E].
    + assert (E1 : (m + 1) / 2 ^ 23 = q + 1) by (symmetry; apply (Z.div_unique _ _ _ 0); lia).
      assert (E2 : (m + 1) mod 2 ^ 23 = 0) by (symmetry; apply (Z.mod_unique _ _ (q + 1)); lia).
      rewrite E1, E2, E. replace (q + 1 - 150) with (1 + (q - 150)) by ring.
      rewrite bpow_plus. change (bpow radix2 1) with 2%R.
      rewrite <- Rmult_assoc. apply Rmult_lt_compat_r; [apply P|].
      rewrite <- mult_IZR. apply IZR_lt. reflexivity.
    + assert (E1 : (m + 1) / 2 ^ 23 = q) by (symmetry; apply (Z.div_unique _ _ _ (r + 1)); lia).
      assert (E2 : (m + 1) mod 2 ^ 23 = r + 1) by (symmetry; apply (Z.mod_unique _ _ q); lia).
      rewrite E1, E2. apply Rmult_lt_compat_r; [apply P|]. apply IZR_lt. lia.
Qed.

Lemma mag_val_lt m n : 0 <= m -> m < n -> (mag_val m < mag_val n)%R.
Proof.
  intros H L. replace n with (m + 1 + Z.of_nat (Z.to_nat (n - m - 1))) by lia.
  induction (Z.to_nat (n - m - 1)) as [|k IH].
  - rewrite Z.add_0_r. now apply mag_val_step.
  - eapply Rlt_trans; [exact IH|]. rewrite Nat2Z.inj_succ.
    replace (m + 1 + Z.succ (Z.of_nat k)) with (m + 1 + Z.of_nat k + 1) by lia.
    apply mag_val_step. lia.
Qed.

Lemma mag_val_0 : mag_val 0 = 0%R.
Proof. unfold mag_val. change (0 <? 2 ^ 23) with true. cbv iota. ring. Qed.

Lemma mag_val_nonneg m : 0 <= m -> (0 <= mag_val m)%R.
Proof.
  intros H. destruct (Z.eq_dec m 0) as [->|N]; [rewrite mag_val_0; lra|].
  rewrite <- mag_val_0. left. apply mag_val_lt; lia.
Qed.

(** Keys order finite values as the reals do. *)
Definition finite (x : f32) : Prop := mag_bits x < 2139095040.
Definition real (x : f32) : R := B2R 24 128 (flt x).

Lemma key_lt_real x y : finite x -> finite y -> f32_key x < f32_key y -> (real x < real y)%R.
Proof.
  unfold real. intros Fx Fy. rewrite (proj2 (flt_real x Fx)), (proj2 (flt_real y Fy)), !key_eq.
  pose proof (mag_bits_range x). pose proof (mag_bits_range y).
  destruct (sgn x), (sgn y); intros L.
  - apply Ropp_lt_contravar. apply mag_val_lt; lia.
  - destruct (Z.eq_dec (mag_bits x) 0) as [E|E].
    + rewrite E, mag_val_0, Ropp_0. rewrite <- mag_val_0. apply mag_val_lt; lia.
    + pose proof (mag_val_lt 0 (mag_bits x) ltac:(lia) ltac:(lia)).
      rewrite mag_val_0 in *. pose proof (mag_val_nonneg (mag_bits y) ltac:(lia)). lra.
  - lia.
  - apply mag_val_lt; lia.
Qed.

Lemma key_eq_real x y : finite x -> finite y -> f32_key x = f32_key y -> real x = real y.
Proof.
  unfold real. intros Fx Fy. rewrite (proj2 (flt_real x Fx)), (proj2 (flt_real y Fy)), !key_eq.
  pose proof (mag_bits_range x). pose proof (mag_bits_range y).
  destruct (sgn x), (sgn y); intros L.
  - f_equal. f_equal. lia.
  - assert (mag_bits x = 0) as -> by lia. assert (mag_bits y = 0) as -> by lia.
    rewrite mag_val_0. ring.
  - assert (mag_bits x = 0) as -> by lia. assert (mag_bits y = 0) as -> by lia.
    rewrite mag_val_0. ring.
  - f_equal. lia.
Qed.

Lemma real_lt_key x y : finite x -> finite y -> (real x < real y)%R -> f32_key x < f32_key y.
Proof.
  intros Fx Fy L. destruct (Z.lt_trichotomy (f32_key x) (f32_key y)) as [?|[E|G]]; auto; exfalso.
  - rewrite (key_eq_real x y) in L; auto. lra.
  - apply key_lt_real in G; auto. lra.
Qed.

Lemma real_le_key x y : finite x -> finite y -> (real x <= real y)%R -> f32_key x <= f32_key y.
Proof.
  intros Fx Fy L. destruct (Z.le_gt_cases (f32_key x) (f32_key y)) as [?|G]; auto.
  apply key_lt_real in G; auto. lra.
Qed.

Lemma real_eq_key x y : finite x -> finite y -> real x = real y -> f32_key x = f32_key y.
Proof.
  intros Fx Fy E. apply Z.le_antisymm; apply real_le_key; auto; lra.
Qed.

Lemma finite_nan x : finite x -> F32.is_nan x = false.
Proof. unfold finite. rewrite nan_eq. intros. apply Z.ltb_ge. lia. Qed.

Lemma is_finite_flt x : is_finite 24 128 (flt x) = true <-> finite x.
Proof.
  split; [|intros; now apply flt_real].
  unfold finite. pose proof (full_flt x) as F. unfold full in F.
  intros H. destruct (Z.lt_ge_cases (mag_bits x) 2139095040) as [|G]; auto. exfalso.
  destruct (Z.eqb_spec (mag_bits x) 0); [lia|].
  destruct (Z.ltb_spec (mag_bits x) (2 ^ 23)); [lia|].
  destruct (Z.ltb_spec (mag_bits x) 2139095040); [lia|].
  destruct (mag_bits x =? 2139095040); destruct (flt x); cbn in *; discriminate.
Qed.

Lemma inf_flt x s : flt x = B754_infinity 24 128 s ->
  f32_key x = (if s then -2139095040 else 2139095040) /\ F32.is_nan x = false.
Proof.
  intros E. pose proof (full_flt x) as F. rewrite E in F. unfold full in F. cbn [B2FF] in F.
  rewrite nan_eq, key_eq.
  destruct (Z.eqb_spec (mag_bits x) 0); [discriminate|].
  destruct (Z.ltb_spec (mag_bits x) (2 ^ 23)); [discriminate|].
  destruct (Z.ltb_spec (mag_bits x) 2139095040); [discriminate|].
  destruct (Z.eqb_spec (mag_bits x) 2139095040) as [->|]; [|discriminate].
  injection F as <-. split; [reflexivity|]. reflexivity.
Qed.

Lemma flt_inf x : F32.is_nan x = false -> ~ finite x -> flt x = B754_infinity 24 128 (sgn x).
Proof.
  unfold finite. rewrite nan_eq. intros N F. apply Z.ltb_ge in N.
  pose proof (full_flt x) as E. unfold full in E.
  destruct (Z.eqb_spec (mag_bits x) 0); [lia|].
  destruct (Z.ltb_spec (mag_bits x) (2 ^ 23)); [lia|].
  destruct (Z.ltb_spec (mag_bits x) 2139095040); [lia|].
  destruct (Z.eqb_spec (mag_bits x) 2139095040); [|lia].
  destruct (flt x); cbn in E; try discriminate. now injection E as ->.
Qed.

Notation rnd := (round radix2 (SpecFloat.fexp 24 128) ZnearestE).

(** Multiplication: either the exact product, correctly rounded, or overflow. *)
Lemma mul_cases x y : finite x -> finite y ->
  (finite (ieee_mul x y) /\ real (ieee_mul x y) = rnd (real x * real y)) \/
  ((bpow radix2 128 <= Rabs (rnd (real x * real y)))%R /\
   flt (ieee_mul x y) = B754_infinity 24 128 (xorb (Bsign 24 128 (flt x)) (Bsign 24 128 (flt y)))).
Proof.
  intros Fx Fy.
  pose proof (Bmult_correct 24 128 eq_refl eq_refl binop_nan_pl32 BinarySingleNaN.mode_NE (flt x) (flt y)) as C.
  unfold ieee_mul, real in *. set (r := b32_mult _ _ _).
  change (Binary.Bmult _ _ _ _ _ _ _ _) with r in C. 
  destruct (Rlt_bool_spec (Rabs (rnd (B2R 24 128 (flt x) * B2R 24 128 (flt y)))) (bpow radix2 128)) as [L|L].
  - left. rewrite Rlt_bool_true in C by exact L. destruct C as (C1 & C2 & _).
    rewrite <- is_finite_flt, !flt_of_flt. split; [|exact C1].
    rewrite C2. apply is_finite_flt in Fx, Fy. now rewrite Fx, Fy.
  - right. rewrite Rlt_bool_false in C by exact L. split; [exact L|].
    rewrite flt_of_flt. destruct r; cbn in C; try discriminate. now injection C as ->.
Qed.

Lemma finite_key x : F32.is_nan x = false -> (- 2139095040 < f32_key x < 2139095040) -> finite x.
Proof.
  unfold finite. rewrite key_eq. pose proof (mag_bits_range x). destruct (sgn x); lia.
Qed.

Lemma key_range x : F32.is_nan x = false -> - 2139095040 <= f32_key x <= 2139095040.
Proof.
  rewrite nan_eq, key_eq. pose proof (mag_bits_range x). rewrite Z.ltb_ge.
  destruct (sgn x); lia.
Qed.

Lemma real_one : real f32_one = 1%R.
Proof.
  unfold real. rewrite (proj2 (flt_real f32_one eq_refl)).
  change (sgn f32_one) with false. cbv iota. unfold mag_val.
  change (mag_bits f32_one) with 1065353216. change (1065353216 <? 2 ^ 23) with false. cbv iota.
  change (1065353216 mod 2 ^ 23 + 2 ^ 23) with (2 ^ 23). change (1065353216 / 2 ^ 23 - 150) with (-23).
  change (2 ^ 23) with (Zpower radix2 23). rewrite IZR_Zpower by lia. rewrite <- bpow_plus. reflexivity.
Qed.

(** 1.2f32 is at least 1 + 1/8. *)
Lemma real_1_2 : (1 + / 8 <= real 1067030938%N)%R.
Proof.
  unfold real. rewrite (proj2 (flt_real 1067030938%N eq_refl)).
  change (sgn _) with false. cbv iota. unfold mag_val.
  change (mag_bits _) with 1067030938. change (1067030938 <? 2 ^ 23) with false. cbv iota.
  change (1067030938 mod 2 ^ 23 + 2 ^ 23) with 10066330. change (1067030938 / 2 ^ 23 - 150) with (-23).
  change (bpow radix2 (-23)) with (/ 8388608)%R. lra.
Qed.

Lemma real_zero : real f32_zero = 0%R.
Proof.
  unfold real. rewrite (proj2 (flt_real f32_zero eq_refl)).
  change (sgn f32_zero) with false. change (mag_bits f32_zero) with 0. apply mag_val_0.
Qed.

Lemma real_format x : generic_format radix2 (SpecFloat.fexp 24 128) (real x).
Proof. apply (generic_format_B2R 24 128). Qed.

Lemma one_mul_ieee x : F32.is_nan x = false -> f32_eq (ieee_mul f32_one x) x = true.
Proof.
  intros N. assert (D : finite x \/ ~ finite x) by (unfold finite; lia).
  destruct D as [F|I].
  - destruct (mul_cases f32_one x eq_refl F) as [(F' & E)|(L & _)].
    + rewrite real_one, Rmult_1_l, round_generic in E by auto using real_format with typeclass_instances.
      unfold f32_eq. rewrite (finite_nan _ F'), N. cbn [negb andb]. apply Z.eqb_eq.
      now apply real_eq_key.
    + exfalso. rewrite real_one, Rmult_1_l, round_generic in L by auto using real_format with typeclass_instances.
      pose proof (abs_B2R_lt_emax 24 128 (flt x)). unfold real in L. lra.
  - pose proof (flt_inf x N I) as E.
    assert (E' : flt (ieee_mul f32_one x) = B754_infinity 24 128 (sgn x)).
    { unfold ieee_mul. rewrite flt_of_flt, E. now destruct (sgn x). }
    destruct (inf_flt _ _ E) as [K _]. destruct (inf_flt _ _ E') as [K' N'].
    unfold f32_eq. rewrite N', N. cbn [negb andb]. apply Z.eqb_eq. congruence.
Qed.

Lemma grow_ieee c : f32_le f32_one c = true -> f32_key c < 2139095040 ->
  f32_lt c (ieee_mul c 1067030938%N) = true.
Proof.
  intros H L. apply f32_le_spec in H as (_ & N & H). change (f32_key f32_one) with 1065353216 in H.
  assert (F : finite c) by (apply finite_key; [auto|lia]).
  assert (R1 : (1 <= real c)%R).
  { rewrite <- real_one. destruct (Z.eq_dec (f32_key c) 1065353216) as [E|E].
    - right. symmetry. apply key_eq_real; auto; reflexivity.
    - left. apply key_lt_real; auto; [reflexivity|]. change (f32_key f32_one) with 1065353216. lia. }
  pose proof real_1_2 as R2.
  apply f32_lt_spec. split; [exact N|].
  destruct (mul_cases c 1067030938%N F eq_refl) as [(F' & E)|(_ & E)].
  - split; [now apply finite_nan|]. apply real_lt_key; auto. rewrite E.
    assert (V : Valid_exp (SpecFloat.fexp 24 128)) by (apply FLT_exp_valid; reflexivity).
    apply Rlt_le_trans with (succ radix2 (SpecFloat.fexp 24 128) (real c)).
    + apply succ_gt_id. lra.
    + apply round_ge_generic; auto with typeclass_instances.
      * apply generic_format_succ; auto. apply real_format.
      * rewrite succ_eq_pos by lra.
        assert (U : (ulp radix2 (SpecFloat.fexp 24 128) (real c) <= Rabs (real c) * bpow radix2 (1 - 24))%R).
        { apply (ulp_FLT_le radix2 (3 - 128 - 24) 24). rewrite Rabs_pos_eq by lra.
          apply Rle_trans with (2 := R1). apply (bpow_le radix2 _ 0). discriminate. }
        rewrite Rabs_pos_eq in U by lra. change (bpow radix2 (1 - 24)) with (/ 8388608)%R in U.
        nra.
  - destruct (inf_flt _ _ E) as [K' N']. split; [exact N'|].
    assert (S : Bsign 24 128 (flt c) = false).
    { pose proof (full_flt c) as Fc. unfold full in Fc.
      assert (Sc : sgn c = false).
      { rewrite key_eq in H. pose proof (mag_bits_range c). destruct (sgn c); [lia|auto]. }
      rewrite Sc in Fc.
      repeat (match type of Fc with context [if ?b then _ else _] => destruct b end);
        destruct (flt c); cbn in Fc |- *; try discriminate; now injection Fc. }
    rewrite S in K'. change (Bsign 24 128 (flt 1067030938%N)) with false in K'. cbn [xorb] in K'. lia.
Qed.

Lemma sign_pos x : F32.is_nan x = false -> 0 < f32_key x -> Bsign 24 128 (flt x) = false.
Proof.
  intros N H. pose proof (full_flt x) as Fc. unfold full in Fc.
  assert (Sc : sgn x = false).
  { rewrite key_eq in H. pose proof (mag_bits_range x). destruct (sgn x); [lia|auto]. }
  rewrite Sc in Fc.
  repeat (match type of Fc with context [if ?b then _ else _] => destruct b end);
    destruct (flt x); cbn in Fc |- *; try discriminate; now injection Fc.
Qed.

Lemma nan_flt x : Binary.is_nan 24 128 (flt x) = F32.is_nan x.
Proof.
  rewrite nan_eq. pose proof (full_flt x) as F. unfold full in F.
  destruct (Z.eqb_spec (mag_bits x) 0) as [->|].
  { destruct (flt x); cbn in F |- *; try discriminate; reflexivity. }
  destruct (Z.ltb_spec (mag_bits x) (2 ^ 23)).
  { destruct (flt x); cbn in F |- *; try discriminate. symmetry. apply Z.ltb_ge. lia. }
  destruct (Z.ltb_spec (mag_bits x) 2139095040).
  { destruct (flt x); cbn in F |- *; try discriminate. symmetry. apply Z.ltb_ge. lia. }
  destruct (Z.eqb_spec (mag_bits x) 2139095040) as [->|].
  { destruct (flt x); cbn in F |- *; try discriminate; reflexivity. }
  destruct (flt x); cbn in F |- *; try discriminate. symmetry. apply Z.ltb_lt. lia.
Qed.

Lemma key0_flt x : f32_key x = 0 -> exists s, flt x = B754_zero 24 128 s.
Proof.
  intros K. pose proof (full_flt x) as F. unfold full in F. rewrite key_eq in K.
  pose proof (mag_bits_range x). assert (mag_bits x = 0) as E by (destruct (sgn x); lia).
  rewrite E in F. cbn in F. destruct (flt x); cbn in F; try discriminate. eauto.
Qed.

Lemma mul_inf_sign b : Binary.is_nan 24 128 b = false -> 
  forall b', b' = b32_mult BinarySingleNaN.mode_NE b (B754_infinity 24 128 false) \/
             b' = b32_mult BinarySingleNaN.mode_NE (B754_infinity 24 128 false) b ->
  Binary.is_nan 24 128 b' = true \/ (exists s, b = B754_zero 24 128 s) \/
  b' = B754_infinity 24 128 (Bsign 24 128 b).
Proof.
  intros N b' [->| ->]; destruct b as [s|s|s pl e|s m e' B]; try discriminate; eauto;
    right; right; destruct s; reflexivity.
Qed.

Lemma inf_case x y : F32.is_nan x = false -> 0 <= f32_key x -> F32.is_nan y = false ->
  0 <= f32_key y -> ~ finite y -> forall z,
  (flt z = b32_mult BinarySingleNaN.mode_NE (flt x) (flt y) \/
   flt z = b32_mult BinarySingleNaN.mode_NE (flt y) (flt x)) ->
  F32.is_nan z = true \/ 0 <= f32_key z.
Proof.
  intros Nx Hx Ny Hy Iy z Hz.
  pose proof (flt_inf y Ny Iy) as Ey.
  assert (Sy : sgn y = false).
  { unfold finite in Iy. rewrite key_eq in Hy. pose proof (mag_bits_range y). destruct (sgn y); [lia|auto]. }
  rewrite Sy in Ey. rewrite Ey in Hz. rewrite <- nan_flt in Nx |- *.
  destruct (Z.eq_dec (f32_key x) 0) as [K0|K0].
  - destruct (key0_flt x K0) as (s & E). rewrite E in Hz.
    left. destruct Hz as [-> | ->]; reflexivity.
  - destruct (mul_inf_sign (flt x) Nx (flt z) Hz) as [?|[(s & E)|E]]; auto.
    + left. rewrite E in Hz. destruct Hz as [-> | ->]; reflexivity.
    + right. rewrite sign_pos in E by (rewrite <- ?nan_flt; auto; lia).
      destruct (inf_flt _ _ E) as [K _]. cbn in K. lia.
Qed.

Lemma nonneg_ieee x y : f32_le f32_zero x = true -> f32_le f32_zero y = true ->
  f32_gt f32_zero (ieee_mul x y) = false.
Proof.
  intros Hx Hy. apply f32_le_spec in Hx as (_ & Nx & Hx), Hy as (_ & Ny & Hy).
  change (f32_key f32_zero) with 0 in *.
  assert (G : F32.is_nan (ieee_mul x y) = true \/ 0 <= f32_key (ieee_mul x y)).
  2:{ unfold f32_gt, f32_lt. destruct G as [->|G]; [now rewrite ?andb_false_r|].
      change (f32_key f32_zero) with 0. destruct (Z.ltb_spec (f32_key (ieee_mul x y)) 0); [lia|].
      apply andb_false_r. }
  assert (Z0 : forall z, F32.is_nan z = false -> 0 <= f32_key z -> finite z -> (0 <= real z)%R).
  { intros z Nz Kz Fz. rewrite <- real_zero. destruct (Z.eq_dec (f32_key z) 0) as [E|E].
    - right. apply key_eq_real; auto; reflexivity.
    - left. apply key_lt_real; auto; [reflexivity|]. change (f32_key f32_zero) with 0. lia. }
  assert (Dx : finite x \/ ~ finite x) by (unfold finite; lia).
  assert (Dy : finite y \/ ~ finite y) by (unfold finite; lia).
  destruct Dx as [Fx|Ix], Dy as [Fy|Iy].
  - destruct (mul_cases x y Fx Fy) as [(F & E)|(L & E)].
    + right. change 0 with (f32_key f32_zero). apply real_le_key; auto; [reflexivity|].
      rewrite real_zero, E.
      assert (V : Valid_exp (SpecFloat.fexp 24 128)) by (apply FLT_exp_valid; reflexivity).
      apply round_ge_generic; auto with typeclass_instances; [apply generic_format_0|].
      apply Rmult_le_pos; auto.
    + assert (V : Valid_exp (SpecFloat.fexp 24 128)) by (apply FLT_exp_valid; reflexivity).
      assert (P : forall z, 0 <= f32_key z -> finite z -> real z <> 0%R -> 0 < f32_key z).
      { intros z Kz Fz Rz. destruct (Z.eq_dec (f32_key z) 0) as [E0|]; [|lia].
        exfalso. apply Rz. rewrite <- real_zero. apply key_eq_real; auto; reflexivity. }
      assert (NZ : (real x * real y <> 0)%R).
      { intros E0. rewrite E0, round_0 in L by auto with typeclass_instances.
        rewrite Rabs_R0 in L. pose proof (bpow_gt_0 radix2 128). lra. }
      rewrite (sign_pos x), (sign_pos y) in E; auto.
      * destruct (inf_flt _ _ E) as [K _]. right. cbn in K. lia.
      * apply P; auto. intros E0. apply NZ. rewrite E0. ring.
      * apply P; auto. intros E0. apply NZ. rewrite E0. ring.
  - apply (inf_case x y Nx Hx Ny Hy Iy (ieee_mul x y)). unfold ieee_mul. rewrite flt_of_flt.
    left. reflexivity.
  - apply (inf_case y x Ny Hy Nx Hx Ix (ieee_mul x y)). unfold ieee_mul. rewrite flt_of_flt.
    right. reflexivity.
  - apply (inf_case x y Nx Hx Ny Hy Iy (ieee_mul x y)). unfold ieee_mul. rewrite flt_of_flt.
    left. reflexivity.
Qed.
