(** IEEE-754 binary64 values as bit patterns: the exact numeric value, the comparisons Rust
    uses on [f64], and the casts between [f64] and integers. *)
From Coq Require Export Lia ZifyBool ZifyN.
From Verif.Lib Require Import Base.
Local Open Scope N_scope.

Definition f64 := N.
Definition two52 : N := 4503599627370496.
Definition two53 : N := 9007199254740992.
Definition two63 : N := 9223372036854775808.
Definition two64 : N := 18446744073709551616.
Definition f64_inf_bits : N := 9218868437227405312.     (* 0x7FF0000000000000 *)
Definition f64_ok (x : f64) : Prop := x < two64.
Definition f64_mag (x : f64) : N := x mod two63.
Definition f64_neg (x : f64) : bool := two63 <=? x.
Definition f64_nan (x : f64) : bool := f64_inf_bits <? f64_mag x.

(** The magnitude times [2^1074], an integer: exponent field [e], fraction [m]; subnormal if
    [e = 0].  Infinity gets the value [2^1024] (times [2^1074]), larger than every finite one. *)
Definition f64_abs (m : N) : N := if m / two52 =? 0 then m mod two52 else (two52 + m mod two52) * 2 ^ (m / two52 - 1).
Definition f64_val (x : f64) : Z := if f64_neg x then Z.opp (Z.of_N (f64_abs (f64_mag x))) else Z.of_N (f64_abs (f64_mag x)).
Definition f64_unit : Z := Z.pow 2 1074.

(** [x < y], [x <= y], [x == y]: false if an operand is NaN. *)
Definition f64_lt (x y : f64) : bool := negb (f64_nan x) && negb (f64_nan y) && (f64_val x <? f64_val y)%Z.
Definition f64_le (x y : f64) : bool := negb (f64_nan x) && negb (f64_nan y) && (f64_val x <=? f64_val y)%Z.
Definition f64_eq (x y : f64) : bool := negb (f64_nan x) && negb (f64_nan y) && (f64_val x =? f64_val y)%Z.

(** [n as f64]: round to nearest, ties to even. *)
Definition f64_of_N (n : N) : f64 :=
  if n =? 0 then 0 else
  let k := N.log2 n in
  if k <=? 52 then (k + 1023) * two52 + (n * 2 ^ (52 - k) - two52)
  else let d := 2 ^ (k - 52) in
       let q := n / d in let r := n mod d in
       let up := (d <? 2 * r) || ((2 * r =? d) && N.odd q) in
       (k + 1023) * two52 + ((if up then q + 1 else q) - two52).
Definition f64_of_Z (z : Z) : f64 := if (z <? 0)%Z then two63 + f64_of_N (Z.to_N (Z.opp z)) else f64_of_N (Z.to_N z).
(** [x as i64]: towards zero, saturating, NaN to 0. *)
Definition i64_min : Z := -9223372036854775808.
Definition i64_max : Z := 9223372036854775807.
Definition f64_to_i64 (x : f64) : Z :=
  if f64_nan x then 0%Z else Z.max i64_min (Z.min i64_max (Z.quot (f64_val x) f64_unit)).

Definition f64_one : f64 := 4607182418800017408.          (* 1.0 *)
Definition f64_1_5 : f64 := 4609434218613702656.          (* 1.5 *)
Example f64_sanity :
  f64_of_N 1 = f64_one /\ f64_val f64_one = f64_unit /\ (2 * f64_val f64_1_5 = 3 * f64_unit)%Z /\
  f64_of_N 9007199254740993 = f64_of_N two53 /\ f64_of_N 9007199254740995 = f64_of_N 9007199254740996 /\
  f64_to_i64 f64_1_5 = 1%Z /\ f64_to_i64 (two63 + f64_1_5) = (-1)%Z /\ f64_to_i64 f64_inf_bits = i64_max /\
  f64_lt f64_one f64_1_5 = true /\ f64_eq 0 two63 = true /\ f64_of_Z (-1) = two63 + f64_one /\
  f64_of_N 18446744073709551615 = f64_of_N two63 + two52.
Proof. vm_compute. repeat split. Qed.

(** Magnitudes are ordered like the values. *)
Lemma f64_abs_lt a b : a < b -> f64_abs a < f64_abs b.
Proof.
  intros H. unfold f64_abs.
  assert (Ma : a mod two52 < two52) by (apply N.mod_lt; discriminate).
  assert (Mb : b mod two52 < two52) by (apply N.mod_lt; discriminate).
  pose proof (N.div_mod a two52 ltac:(discriminate)) as Da. pose proof (N.div_mod b two52 ltac:(discriminate)) as Db.
  set (ea := a / two52) in *. set (eb := b / two52) in *. set (ma := a mod two52) in *. set (mb := b mod two52) in *.
  assert (E : ea < eb \/ ea = eb /\ ma < mb).
  { destruct (N.lt_trichotomy ea eb) as [L|[L|L]]; [auto|right; split; [assumption|]; rewrite L in Da; lia|exfalso].
    assert (two52 * eb + two52 <= two52 * ea) by nia. lia. }
  clearbody ea eb ma mb. clear Da Db H a b.
  destruct (N.eqb_spec ea 0) as [->|Na]; destruct (N.eqb_spec eb 0) as [Hb|Nb].
  - lia.
  - assert (1 <= 2 ^ (eb - 1)) by (apply N.lt_pred_le; cbn; apply N.neq_0_lt_0; apply N.pow_nonzero; discriminate). nia.
  - lia.
  - destruct E as [E|(-> & E)].
    + replace (eb - 1) with ((ea - 1) + (eb - ea)) by lia. rewrite N.pow_add_r.
      assert (2 <= 2 ^ (eb - ea)). { replace (eb - ea) with (N.succ (eb - ea - 1)) by lia. rewrite N.pow_succ_r'. assert (1 <= 2 ^ (eb - ea - 1)); [|lia]. apply N.lt_pred_le; cbn; apply N.neq_0_lt_0; apply N.pow_nonzero; discriminate. }
      assert (0 < 2 ^ (ea - 1)) by (apply N.neq_0_lt_0; apply N.pow_nonzero; discriminate).
      set (x := 2 ^ (ea - 1)) in *. set (y := 2 ^ (eb - ea)) in *. clearbody x y.
      apply N.lt_le_trans with (two52 * 2 * x); [apply N.mul_lt_mono_pos_r; lia|].
      transitivity (two52 * (x * y)); [|apply N.mul_le_mono_r; lia]. rewrite <- N.mul_assoc. apply N.mul_le_mono_l. nia.
    + apply N.mul_lt_mono_pos_r; [|lia]. apply N.neq_0_lt_0; apply N.pow_nonzero; discriminate.
Qed.
Lemma f64_abs_lt_iff a b : a < b <-> f64_abs a < f64_abs b.
Proof.
  split; [apply f64_abs_lt|]. intros H. destruct (N.lt_trichotomy a b) as [L|[->|L]]; [assumption|lia|]. apply f64_abs_lt in L. lia.
Qed.
Lemma f64_abs_0 : f64_abs 0 = 0. Proof. reflexivity. Qed.
Lemma f64_split x : f64_ok x -> x = (if f64_neg x then two63 else 0) + f64_mag x /\ f64_mag x < two63.
Proof.
  unfold f64_ok, f64_neg, f64_mag. intros H. split; [|apply N.mod_lt; discriminate].
  destruct (N.leb_spec two63 x).
  - rewrite <- (N.mod_unique x two63 1 (x - two63)); [lia| |]; unfold two63, two64 in *; lia.
  - rewrite N.mod_small by assumption. reflexivity.
Qed.
(** Exact conversion of small integers. *)
Lemma f64_abs_of_N n : n <= two53 -> Z.of_N (f64_abs (f64_of_N n)) = (Z.of_N n * f64_unit)%Z /\ f64_of_N n < f64_inf_bits.
Proof.
  intros H. unfold f64_of_N. destruct (N.eqb_spec n 0) as [->|Hn]; [split; reflexivity|].
  destruct (N.log2_spec n ltac:(lia)) as (L1 & L2). set (k := N.log2 n) in *.
  destruct (N.leb_spec k 52) as [Hk|Hk].
  - assert (P : 2 ^ 52 = 2 ^ k * 2 ^ (52 - k)) by (rewrite <- N.pow_add_r; f_equal; lia).
    rewrite N.pow_succ_r' in L2. set (u := 2 ^ (52 - k)) in *. change (2 ^ 52) with two52 in P.
    assert (A1 : two52 <= n * u) by (rewrite P; apply N.mul_le_mono_r; assumption).
    assert (A2 : n * u < 2 * two52). { rewrite P, N.mul_assoc. apply N.mul_lt_mono_pos_r; [|lia]. apply N.neq_0_lt_0, N.pow_nonzero. discriminate. }
    assert (D : ((k + 1023) * two52 + (n * u - two52)) / two52 = k + 1023) by (symmetry; apply (N.div_unique _ _ _ (n * u - two52)); lia).
    assert (M : ((k + 1023) * two52 + (n * u - two52)) mod two52 = n * u - two52) by (symmetry; apply (N.mod_unique _ _ (k + 1023)); lia).
    split; [|unfold f64_inf_bits, two52 in *; lia].
    unfold f64_abs. rewrite D, M. replace (k + 1023 =? 0) with false by (symmetry; apply N.eqb_neq; lia).
    replace (two52 + (n * u - two52)) with (n * u) by lia. unfold f64_unit. change (Z.pow 2 1074) with (Z.of_N (2 ^ 1074)). rewrite <- N2Z.inj_mul. f_equal.
    rewrite <- N.mul_assoc. f_equal. unfold u. rewrite <- N.pow_add_r. f_equal. lia.
  - assert (n = two53). { apply N.le_antisymm; [assumption|]. transitivity (2 ^ k); [|assumption]. change two53 with (2 ^ 53). apply N.pow_le_mono_r; lia. }
    subst n. split; vm_compute; reflexivity.
Qed.
