(** IEEE-754 binary32 values as bit patterns, with exactly the comparisons Rust uses on
    [f32].  Arithmetic is not defined here: models take it as a parameter. *)
From Verif.Lib Require Import Base.
Local Open Scope N_scope.

(** A bit pattern; theorems hold for every [N], values >= 2^32 included. *)
Definition f32 := N.

Definition f32_sign_bit : N := 2147483648.    (* 2^31 *)
Definition f32_inf_bits : N := 2139095040.    (* 0x7F800000 *)

(** [f32::is_nan]: exponent all ones, mantissa not zero. *)
Definition is_nan (x : f32) : bool := f32_inf_bits <? x mod f32_sign_bit.

(** Numeric order of non-NaN values: the magnitude bits, negated for negative values
    (so +0.0 and -0.0 both map to 0). *)
Definition f32_key (x : f32) : Z :=
  let m := Z.of_N (x mod f32_sign_bit) in
  if N.even (x / f32_sign_bit) then m else Z.opp m.

(** [x < y], [x <= y], [x >= y], [x == y] on f32: false if an operand is NaN. *)
Definition f32_lt (x y : f32) : bool :=
  negb (is_nan x) && negb (is_nan y) && Z.ltb (f32_key x) (f32_key y).
Definition f32_le (x y : f32) : bool :=
  negb (is_nan x) && negb (is_nan y) && Z.leb (f32_key x) (f32_key y).
Definition f32_ge (x y : f32) : bool := f32_le y x.
Definition f32_gt (x y : f32) : bool := f32_lt y x.
Definition f32_eq (x y : f32) : bool :=
  negb (is_nan x) && negb (is_nan y) && Z.eqb (f32_key x) (f32_key y).

(** [PartialOrd::partial_cmp] followed by [unwrap_or(Equal)]. *)
Definition f32_partial_cmp_or_eq (x y : f32) : comparison :=
  if is_nan x || is_nan y then Eq else Z.compare (f32_key x) (f32_key y).

(** Some literals. *)
Definition f32_zero : f32 := 0.                    (* 0.0 *)
Definition f32_one : f32 := 1065353216.            (* 1.0 = 0x3F800000 *)
Definition f32_two : f32 := 1073741824.            (* 2.0 = 0x40000000 *)
Definition f32_three : f32 := 1077936128.          (* 3.0 = 0x40400000 *)
Definition f32_neg_one : f32 := 3212836864.        (* -1.0 = 0xBF800000 *)
Definition f32_inf : f32 := f32_inf_bits.
Definition f32_max : f32 := 2139095039.            (* f32::MAX = 0x7F7FFFFF *)
Definition f32_nan : f32 := 2143289344.            (* 0x7FC00000 *)

Example f32_order_sanity :
  f32_lt f32_neg_one f32_zero = true /\ f32_lt f32_zero f32_one = true /\
  f32_lt f32_one f32_two = true /\ f32_lt f32_two f32_three = true /\
  f32_lt f32_three f32_inf = true /\ f32_lt f32_max f32_inf = true /\
  f32_eq f32_zero f32_sign_bit = true /\ is_nan f32_nan = true /\
  is_nan f32_inf = false /\ f32_le f32_nan f32_nan = false.
Proof. vm_compute. repeat split. Qed.

Lemma f32_lt_spec x y : f32_lt x y = true <->
  is_nan x = false /\ is_nan y = false /\ (f32_key x < f32_key y)%Z.
Proof.
  unfold f32_lt. rewrite !andb_true_iff, !negb_true_iff, Z.ltb_lt. tauto.
Qed.
Lemma f32_le_spec x y : f32_le x y = true <->
  is_nan x = false /\ is_nan y = false /\ (f32_key x <= f32_key y)%Z.
Proof.
  unfold f32_le. rewrite !andb_true_iff, !negb_true_iff, Z.leb_le. tauto.
Qed.
Lemma f32_lt_false x y : is_nan x = false -> is_nan y = false ->
  f32_lt x y = false -> (f32_key y <= f32_key x)%Z.
Proof.
  unfold f32_lt. intros -> ->. cbn. rewrite Z.ltb_ge. auto.
Qed.
Lemma f32_le_false x y : is_nan x = false -> is_nan y = false ->
  f32_le x y = false -> (f32_key y < f32_key x)%Z.
Proof.
  unfold f32_le. intros -> ->. cbn. rewrite Z.leb_gt. auto.
Qed.
