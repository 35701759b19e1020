(** Number conversions: what rounding gives, and that the guards accept exactly the exact ones. *)
From Coq Require Import Lia ZifyN ZifyBool.
From Verif.Lib Require Import Base Bytes F32 F64.
From Verif.Record Require Import Model.
Local Open Scope N_scope.

Lemma pow2_pos k : 0 < 2 ^ k. Proof. apply N.neq_0_lt_0, N.pow_nonzero. discriminate. Qed.
(** A significand and an exponent, put together. *)
Lemma f64_abs_enc e q : 1 <= e -> two52 <= q <= two53 -> f64_abs (e * two52 + (q - two52)) = q * 2 ^ (e - 1).
Proof.
  intros He Hq. unfold f64_abs. destruct (N.eq_dec q two53) as [->|Hn].
  - replace (e * two52 + (two53 - two52)) with ((e + 1) * two52) by (unfold two52, two53; lia).
    rewrite N.div_mul, N.mod_mul by discriminate. replace (e + 1 =? 0) with false by (symmetry; apply N.eqb_neq; lia).
    replace (e + 1 - 1) with (N.succ (e - 1)) by lia. rewrite N.pow_succ_r'. change two53 with (2 * two52). lia.
  - assert (q < two53) by lia.
    assert (D : (e * two52 + (q - two52)) / two52 = e) by (symmetry; apply (N.div_unique _ _ _ (q - two52)); unfold two52, two53 in *; lia).
    assert (M : (e * two52 + (q - two52)) mod two52 = q - two52) by (symmetry; apply (N.mod_unique _ _ e); unfold two52, two53 in *; lia).
    rewrite D, M. replace (e =? 0) with false by (symmetry; apply N.eqb_neq; lia). f_equal. lia.
Qed.
(** Rounding [a / d]. *)
Definition rne (a d : N) : N := let n := a / d in let r := a mod d in if (d <? 2 * r) || ((2 * r =? d) && N.odd n) then n + 1 else n.
Lemma rne_bounds a d : 0 < d -> a / d <= rne a d <= a / d + 1.
Proof. intros. unfold rne. destruct (_ || _); lia. Qed.
Lemma rne_exact c d : 0 < d -> rne (c * d) d = c.
Proof.
  intros. unfold rne. rewrite N.div_mul, N.mod_mul by lia. replace (d <? 2 * 0) with false by (symmetry; apply N.ltb_ge; lia).
  replace (2 * 0 =? d) with false by (symmetry; apply N.eqb_neq; lia). reflexivity.
Qed.
(** [n as f64] has the value [r64 n]. *)
Definition r64 (n : N) : N := if N.log2 n <=? 52 then n else rne n (2 ^ (N.log2 n - 52)) * 2 ^ (N.log2 n - 52).
Lemma log2_quot n j k : 2 ^ k <= n < 2 ^ N.succ k -> j <= k -> 2 ^ (k - j) <= n / 2 ^ j < 2 ^ N.succ (k - j).
Proof.
  intros H J. pose proof (pow2_pos j) as P. assert (E1 : 2 ^ k = 2 ^ j * 2 ^ (k - j)) by (rewrite <- N.pow_add_r; f_equal; lia).
  assert (E2 : 2 ^ N.succ k = 2 ^ j * 2 ^ N.succ (k - j)) by (rewrite <- N.pow_add_r; f_equal; lia). split.
  - apply N.div_le_lower_bound; lia.
  - apply N.div_lt_upper_bound; lia.
Qed.
Lemma f64_abs_of_N_gen n : n < two64 -> f64_abs (f64_of_N n) = r64 n * 2 ^ 1074 /\ f64_of_N n < f64_inf_bits.
Proof.
  intros B. unfold f64_of_N, r64. destruct (N.eqb_spec n 0) as [->|Hn]; [split; reflexivity|].
  pose proof (N.log2_spec n ltac:(lia)) as L. set (k := N.log2 n) in *.
  assert (Kb : k < 64). { apply (N.pow_lt_mono_r_iff 2); [lia|]. change (2 ^ 64) with two64. lia. }
  destruct (N.leb_spec k 52) as [Hk|Hk].
  - assert (Q : two52 <= n * 2 ^ (52 - k) <= two53).
    { assert (P : 2 ^ k * 2 ^ (52 - k) = two52) by (rewrite <- N.pow_add_r; change two52 with (2 ^ 52); f_equal; lia).
      rewrite N.pow_succ_r' in L. pose proof (pow2_pos (52 - k)). change two53 with (2 * two52). nia. }
    rewrite (f64_abs_enc (k + 1023)) by (assumption || lia). split.
    + rewrite <- N.mul_assoc. f_equal. rewrite <- N.pow_add_r. f_equal. lia.
    + unfold f64_inf_bits, two52, two53 in *. lia.
  - assert (Qb : two52 <= n / 2 ^ (k - 52) < two53).
    { pose proof (log2_quot n (k - 52) k L ltac:(lia)) as Q. replace (k - (k - 52)) with 52 in Q by lia. exact Q. }
    pose proof (rne_bounds n (2 ^ (k - 52)) (pow2_pos _)) as Rb. fold (rne n (2 ^ (k - 52))).
    assert (Qr : two52 <= rne n (2 ^ (k - 52)) <= two53) by lia.
    rewrite (f64_abs_enc (k + 1023)) by (assumption || lia). split.
    + rewrite <- N.mul_assoc. f_equal. rewrite <- N.pow_add_r. f_equal. lia.
    + unfold f64_inf_bits, two52, two53 in *. lia.
Qed.
Lemma r64_small n : n <= two53 -> r64 n = n.
Proof.
  intros H. unfold r64. destruct (N.leb_spec (N.log2 n) 52) as [L|L]; [reflexivity|].
  assert (n <> 0) by (intros ->; cbn in L; lia). pose proof (N.log2_spec n ltac:(lia)) as S.
  assert (n = two53). { apply N.le_antisymm; [assumption|]. transitivity (2 ^ N.log2 n); [|apply S]. change two53 with (2 ^ 53). apply N.pow_le_mono_r; lia. }
  subst. reflexivity.
Qed.
(** Every integer that is the value of some f64 is converted to it. *)
Lemma r64_exact n m : n < two64 -> f64_abs m = n * 2 ^ 1074 -> r64 n = n.
Proof.
  intros B H. unfold r64. destruct (N.leb_spec (N.log2 n) 52) as [L|L]; [reflexivity|].
  assert (Hn : n <> 0) by (intros ->; cbn in L; lia). unfold f64_abs in H.
  pose proof (N.mod_lt m two52 ltac:(discriminate)) as Mb. set (f := m mod two52) in *. set (e := m / two52) in *. clearbody f e.
  destruct (N.eqb_spec e 0) as [He|He].
  { exfalso. assert (1 * 2 ^ 1074 <= n * 2 ^ 1074) by (apply N.mul_le_mono_r; lia). assert (two52 < 1 * 2 ^ 1074) by (vm_compute; reflexivity). lia. }
  assert (LL : N.log2 ((two52 + f) * 2 ^ (e - 1)) = N.log2 (n * 2 ^ 1074)) by now rewrite H.
  rewrite !N.log2_mul_pow2 in LL by (unfold two52; lia).
  assert (L52 : N.log2 (two52 + f) = 52). { apply N.log2_unique; [lia|]. change (2 ^ 52) with two52. change (2 ^ N.succ 52) with two53. unfold two52, two53 in *. lia. }
  rewrite L52 in LL. set (k := N.log2 n) in *.
  assert (E : (two52 + f) * 2 ^ (k - 52) = n).
  { apply (N.mul_cancel_r _ _ (2 ^ 1074)); [pose proof (pow2_pos 1074); lia|]. rewrite <- H, <- N.mul_assoc, <- N.pow_add_r. do 2 f_equal. lia. }
  rewrite <- E at 1. rewrite rne_exact by apply pow2_pos. exact E.
Qed.

(** Signs. *)
Lemma f64_pos_parts y : y < two63 -> f64_neg y = false /\ f64_mag y = y.
Proof. intros. unfold f64_neg, f64_mag. split; [apply N.leb_gt; assumption|now apply N.mod_small]. Qed.
Lemma f64_neg_parts y : y < two63 -> f64_neg (two63 + y) = true /\ f64_mag (two63 + y) = y.
Proof.
  intros. unfold f64_neg, f64_mag. split; [apply N.leb_le; lia|]. symmetry. apply (N.mod_unique _ _ 1); lia.
Qed.
Lemma inf_lt_63 : f64_inf_bits < two63. Proof. reflexivity. Qed.
Definition rz (z : Z) : Z := if (z <? 0)%Z then Z.opp (Z.of_N (r64 (Z.to_N (Z.opp z)))) else Z.of_N (r64 (Z.to_N z)).
Lemma unit_N : f64_unit = Z.of_N (2 ^ 1074). Proof. unfold f64_unit. rewrite N2Z.inj_pow. reflexivity. Qed.
Lemma unit_pos : (0 < f64_unit)%Z. Proof. reflexivity. Qed.
Lemma f64_of_Z_spec z : (- Z.of_N two64 < z < Z.of_N two64)%Z -> f64_nan (f64_of_Z z) = false /\ f64_val (f64_of_Z z) = (rz z * f64_unit)%Z.
Proof.
  intros B. unfold f64_of_Z, rz. destruct (Z.ltb_spec z 0) as [L|L].
  - destruct (f64_abs_of_N_gen (Z.to_N (- z)) ltac:(lia)) as (A & I). pose proof inf_lt_63.
    destruct (f64_neg_parts (f64_of_N (Z.to_N (- z))) ltac:(lia)) as (P1 & P2). unfold f64_nan, f64_val. rewrite P1, P2, A. split; [apply N.ltb_ge; lia|].
    rewrite unit_N, N2Z.inj_mul. lia.
  - destruct (f64_abs_of_N_gen (Z.to_N z) ltac:(lia)) as (A & I). pose proof inf_lt_63.
    destruct (f64_pos_parts (f64_of_N (Z.to_N z)) ltac:(lia)) as (P1 & P2). unfold f64_nan, f64_val. rewrite P1, P2, A. split; [apply N.ltb_ge; lia|].
    rewrite unit_N, N2Z.inj_mul. reflexivity.
Qed.
Lemma rz_exact z x : (- Z.of_N two64 < z < Z.of_N two64)%Z -> f64_val x = (z * f64_unit)%Z -> rz z = z.
Proof.
  intros B H. unfold rz. pose proof unit_pos. unfold f64_val in H. rewrite unit_N in *. destruct (Z.ltb_spec z 0) as [L|L].
  - destruct (f64_neg x).
    + rewrite (r64_exact _ (f64_mag x)); [lia|lia|]. apply N2Z.inj. rewrite N2Z.inj_mul. lia.
    + exfalso. nia.
  - destruct (f64_neg x).
    + assert (z = 0)%Z by nia. subst. reflexivity.
    + rewrite (r64_exact _ (f64_mag x)); [lia|lia|]. apply N2Z.inj. rewrite N2Z.inj_mul. lia.
Qed.
Lemma rz_small z : (- Z.of_N two53 <= z <= Z.of_N two53)%Z -> rz z = z.
Proof. intros. unfold rz. destruct (Z.ltb_spec z 0); rewrite r64_small; lia. Qed.
Lemma trunc_sat_val lo hi x z : f64_nan x = false -> f64_val x = (z * f64_unit)%Z -> trunc_sat lo hi x = Z.max lo (Z.min hi z).
Proof. intros N V. unfold trunc_sat. rewrite N, V, Z.quot_mul by (pose proof unit_pos; lia). reflexivity. Qed.
Lemma f64_eq_iff x y : f64_eq x y = true <-> f64_nan x = false /\ f64_nan y = false /\ f64_val x = f64_val y.
Proof. unfold f64_eq. destruct (f64_nan x), (f64_nan y); cbn; rewrite ?Z.eqb_eq; intuition discriminate. Qed.

Lemma irange_bounds t : (- Z.of_N two63 <= fst (irange t) <= 0 /\ 0 < snd (irange t) < Z.of_N two64)%Z.
Proof. destruct t; cbn; unfold two63, two64; lia. Qed.
Lemma as_int_complete t n c : in_range t c = true ->
  match n with NU64 v => Z.of_N v = c | NI64 v => v = c | NF64 x => f64_nan x = false /\ f64_val x = (c * f64_unit)%Z end ->
  as_int t n = Some c.
Proof.
  intros R H. unfold as_int. destruct n as [v|v|x].
  - now rewrite H, R.
  - now rewrite H, R.
  - destruct H as (N & V). unfold in_range in R. pose proof (irange_bounds t) as Bt.
    rewrite (trunc_sat_val _ _ _ c N V). replace (Z.max (fst (irange t)) (Z.min (snd (irange t)) c)) with c by lia.
    assert (B : (- Z.of_N two64 < c < Z.of_N two64)%Z) by (unfold two63, two64 in *; lia).
    destruct (f64_of_Z_spec c B) as (N' & V'). rewrite (rz_exact c x B V) in V'.
    replace (f64_eq (f64_of_Z c) x) with true; [reflexivity|]. symmetry. apply f64_eq_iff. split; [assumption|split; [assumption|congruence]].
Qed.
Lemma as_int_sound t n c : as_int t n = Some c -> in_range t c = true /\
  match n with
  | NU64 v => Z.of_N v = c
  | NI64 v => v = c
  | NF64 x => f64_nan x = false /\
    (f64_val x = (c * f64_unit)%Z \/ c = snd (irange t) /\ f64_val x = ((c + 1) * f64_unit)%Z /\ (c = 18446744073709551615 \/ c = 9223372036854775807)%Z)
  end.
Proof.
  unfold as_int. destruct n as [v|v|x].
  - destruct (in_range t (Z.of_N v)) eqn:R; [|discriminate]. intros [= <-]. auto.
  - destruct (in_range t v) eqn:R; [|discriminate]. intros [= <-]. auto.
  - cbn zeta. set (c' := trunc_sat _ _ x). destruct (f64_eq (f64_of_Z c') x) eqn:E; [|discriminate]. intros [= <-].
    pose proof (irange_bounds t) as Bt.
    apply f64_eq_iff in E. destruct E as (_ & N & V).
    assert (C : c' = Z.max (fst (irange t)) (Z.min (snd (irange t)) (Z.quot (f64_val x) f64_unit))) by (unfold c', trunc_sat; now rewrite N).
    clearbody c'.
    assert (B : (- Z.of_N two64 < c' < Z.of_N two64)%Z) by (unfold two63, two64 in *; lia).
    destruct (f64_of_Z_spec c' B) as (_ & V'). rewrite V' in V. rewrite <- V in *. rewrite Z.quot_mul in C by (pose proof unit_pos; lia).
    split; [unfold in_range; lia|]. split; [assumption|].
    assert (K : (rz c' = c')%Z \/ c' = fst (irange t) /\ (rz c' < fst (irange t))%Z \/ c' = snd (irange t) /\ (snd (irange t) < rz c')%Z) by lia.
    destruct K as [K|[(K & K2)|(K & K2)]]; [left; now rewrite K| |].
    + exfalso. rewrite K in K2. clear - K2. assert (X : rz (fst (irange t)) = fst (irange t)) by (destruct t; vm_compute; reflexivity). rewrite X in K2. lia.
    + right. split; [assumption|]. rewrite K in K2 |- *. clear - K2.
      destruct t; cbn [irange snd] in *;
        try (exfalso; match type of K2 with (?a < rz ?a)%Z => assert (X : rz a = a) by (vm_compute; reflexivity); rewrite X in K2; lia end);
        match goal with |- context [rz ?a] => assert (X : rz a = (a + 1)%Z) by (vm_compute; reflexivity); rewrite X end; (split; [reflexivity|auto]).
Qed.

(** ** To f64 *)
Lemma f64_of_N_Z n : f64_of_N n = f64_of_Z (Z.of_N n).
Proof. unfold f64_of_Z. destruct (Z.ltb_spec (Z.of_N n) 0); [lia|]. now rewrite N2Z.id. Qed.
Definition wide (n : number) : Prop :=
  match n with NU64 v => v < two64 | NI64 v => (i64_min <= v <= i64_max)%Z | NF64 x => x < two64 end.
Definition int_of (n : number) : Z := match n with NU64 v => Z.of_N v | NI64 v => v | NF64 _ => 0%Z end.
Definition int_max (n : number) : Z := match n with NI64 _ => 9223372036854775807 | _ => 18446744073709551615 end.
Definition is_flt (n : number) : bool := match n with NF64 _ => true | _ => false end.
Lemma as_f64_int n : is_flt n = false -> as_f64 n =
  let c := f64_of_Z (int_of n) in
  if (trunc_sat (match n with NI64 _ => i64_min | _ => 0 end) (int_max n) c =? int_of n)%Z then Some c else None.
Proof. destruct n; try discriminate; intros _; cbn [as_f64 int_of int_max]; rewrite <- ?f64_of_N_Z; reflexivity. Qed.
Lemma as_f64_sound n y : wide n -> as_f64 n = Some y ->
  match n with
  | NF64 x => y = x
  | _ => f64_nan y = false /\ (f64_val y = (int_of n * f64_unit)%Z \/ int_of n = int_max n /\ f64_val y = ((int_of n + 1) * f64_unit)%Z)
  end.
Proof.
  intros W H. destruct (is_flt n) eqn:F.
  - destruct n; try discriminate. cbn in H. repeat destruct (_ : bool) in H; congruence.
  - assert (B : (- Z.of_N two64 < int_of n < Z.of_N two64)%Z) by (destruct n; cbn in *; unfold two64, i64_min, i64_max in *; lia || discriminate).
    destruct (f64_of_Z_spec _ B) as (N & V).
    assert (G : y = f64_of_Z (int_of n) /\ trunc_sat (match n with NI64 _ => i64_min | _ => 0%Z end) (int_max n) y = int_of n).
    { rewrite as_f64_int in H by assumption. cbn zeta in H. destruct (Z.eqb_spec (trunc_sat (match n with NI64 _ => i64_min | _ => 0%Z end) (int_max n) (f64_of_Z (int_of n))) (int_of n)) as [E|E]; [|discriminate].
      injection H as <-. now split. }
    destruct G as (-> & G). rewrite (trunc_sat_val _ _ _ _ N V) in G.
    enough (f64_val (f64_of_Z (int_of n)) = (int_of n * f64_unit)%Z \/ int_of n = int_max n /\ f64_val (f64_of_Z (int_of n)) = ((int_of n + 1) * f64_unit)%Z) by (destruct n; try discriminate; now split).
    rewrite V.
    assert (K : rz (int_of n) = int_of n \/ int_of n = int_max n \/ int_of n = match n with NI64 _ => i64_min | _ => 0%Z end) by (destruct n; cbn [int_of int_max] in *; unfold i64_min in *; lia).
    destruct K as [K|[K|K]]; [left; now rewrite K| |].
    + right. split; [assumption|]. rewrite K. destruct n; try discriminate; reflexivity.
    + left. rewrite K. destruct n; try discriminate; reflexivity.
Qed.
Lemma as_f64_complete n y : wide n -> f64_nan y = false -> f64_val y = (int_of n * f64_unit)%Z -> is_flt n = false ->
  exists y', as_f64 n = Some y' /\ f64_nan y' = false /\ f64_val y' = f64_val y.
Proof.
  intros W N V F. assert (B : (- Z.of_N two64 < int_of n < Z.of_N two64)%Z) by (destruct n; cbn in *; unfold two64, i64_min, i64_max in *; lia || discriminate).
  destruct (f64_of_Z_spec _ B) as (N' & V'). rewrite (rz_exact _ _ B V) in V'. exists (f64_of_Z (int_of n)). split; [|split; congruence].
  rewrite as_f64_int by assumption. cbn zeta. rewrite (trunc_sat_val _ _ _ _ N' V').
  assert (R : (match n with NI64 _ => i64_min | _ => 0%Z end <= int_of n <= int_max n)%Z) by (destruct n; cbn in *; unfold two64, i64_min, i64_max in *; lia || discriminate).
  rewrite Z.min_r, Z.max_r by lia. now rewrite Z.eqb_refl.
Qed.

(** ** To f32 *)
Definition two23 : N := 8388608.
Definition two24 : N := 16777216.
(** The value of finite f32 magnitude bits, in units of [2^-1074]. *)
Definition f32_abs (m : N) : N := if m / two23 =? 0 then m mod two23 * 2 ^ 925 else (two23 + m mod two23) * 2 ^ (m / two23 - 1 + 925).
Lemma f32_abs_enc q n : 925 <= q -> n <= two24 -> (q = 925 \/ two23 <= n) -> f32_abs ((q - 925) * two23 + n) = n * 2 ^ q.
Proof.
  intros Q Hn C. unfold f32_abs. set (j := q - 925). replace q with (j + 925) by lia. assert (C' : j = 0 \/ two23 <= n) by lia. clearbody j. clear C Q q.
  assert (K : n < two23 /\ j = 0 \/ two23 <= n < two24 \/ n = two24) by (unfold two23, two24 in *; lia).
  destruct K as [(K & ->)|[K|K]].
  - rewrite N.mul_0_l, N.add_0_l, N.div_small, N.mod_small by assumption. reflexivity.
  - assert (D : (j * two23 + n) / two23 = j + 1) by (symmetry; apply (N.div_unique _ _ _ (n - two23)); unfold two23, two24 in *; lia).
    assert (M : (j * two23 + n) mod two23 = n - two23) by (symmetry; apply (N.mod_unique _ _ (j + 1)); unfold two23, two24 in *; lia).
    rewrite D, M. replace (j + 1 =? 0) with false by (symmetry; apply N.eqb_neq; lia). f_equal; [lia|f_equal; lia].
  - subst n. replace (j * two23 + two24) with ((j + 2) * two23) by (unfold two23, two24; lia).
    rewrite N.div_mul, N.mod_mul by discriminate. replace (j + 2 =? 0) with false by (symmetry; apply N.eqb_neq; lia).
    replace (j + 2 - 1 + 925) with (N.succ (j + 925)) by lia. rewrite N.pow_succ_r'. change two24 with (2 * two23). lia.
Qed.
Definition q32 (a : N) : N := N.max (N.log2 a - 23) 925.
Definition n32 (a : N) : N := rne a (2 ^ q32 a).
Lemma n32_range a : a <> 0 -> n32 a <= two24 /\ (q32 a = 925 \/ two23 <= n32 a).
Proof.
  intros H. pose proof (N.log2_spec a ltac:(lia)) as L. unfold n32. pose proof (rne_bounds a (2 ^ q32 a) (pow2_pos _)) as R.
  unfold q32 in *. set (k := N.log2 a) in *. destruct (N.le_gt_cases (k - 23) 925) as [C|C].
  - rewrite N.max_r in * by assumption. split; [|now left]. destruct (N.le_gt_cases 925 k) as [C2|C2].
    + destruct (log2_quot a 925 k L C2) as (_ & U). assert (2 ^ N.succ (k - 925) <= two24) by (change two24 with (2 ^ 24); apply N.pow_le_mono_r; lia). lia.
    + assert (a < 2 ^ 925). { apply N.lt_le_trans with (2 ^ N.succ k); [apply L|]. apply N.pow_le_mono_r; lia. } rewrite N.div_small in R by assumption. unfold two24. lia.
  - rewrite N.max_l in * by lia. destruct (log2_quot a (k - 23) k L ltac:(lia)) as (U1 & U2). replace (k - (k - 23)) with 23 in * by lia.
    change (2 ^ 23) with two23 in U1. change (2 ^ N.succ 23) with two24 in U2. lia.
Qed.
Lemma round32_eq a : a <> 0 -> round32 a = N.min ((q32 a - 925) * two23 + n32 a) f32_inf_bits.
Proof. intros H. unfold round32. apply N.eqb_neq in H. rewrite H. reflexivity. Qed.
Lemma round32_val a : a <> 0 -> round32 a < f32_inf_bits -> f32_abs (round32 a) = n32 a * 2 ^ q32 a.
Proof.
  intros H L. rewrite (round32_eq a H) in *. rewrite N.min_l by lia. destruct (n32_range a H) as (R1 & R2). apply f32_abs_enc; [unfold q32; lia|assumption|assumption].
Qed.
(** The 925-shifted significand, read back. *)
Lemma round32_f32_abs m : m < f32_inf_bits -> round32 (f32_abs m) = m.
Proof.
  intros H. pose proof (N.div_mod m two23 ltac:(discriminate)) as D. pose proof (N.mod_lt m two23 ltac:(discriminate)) as M.
  unfold f32_abs. set (e := m / two23) in *. set (f := m mod two23) in *. clearbody e f. destruct (N.eqb_spec e 0) as [E|E].
  - destruct (N.eq_dec f 0) as [F|F]; [subst; reflexivity|].
    assert (NZ : f * 2 ^ 925 <> 0) by (pose proof (pow2_pos 925); nia).
    assert (Q : q32 (f * 2 ^ 925) = 925). { unfold q32. rewrite N.log2_mul_pow2 by lia. assert (N.log2 f < 23) by (apply N.log2_lt_pow2; [lia|exact M]). lia. }
    rewrite round32_eq by assumption. unfold n32. rewrite Q, rne_exact by apply pow2_pos. change ((925 - 925) * two23) with 0. rewrite N.add_0_l. subst e. rewrite N.mul_0_r, N.add_0_l in D. subst. apply N.min_l. lia.
  - set (q := e - 1 + 925). assert (NZ : (two23 + f) * 2 ^ q <> 0) by (pose proof (pow2_pos q); unfold two23; nia).
    assert (Q : q32 ((two23 + f) * 2 ^ q) = q).
    { unfold q32. rewrite N.log2_mul_pow2 by (unfold two23; lia). replace (N.log2 (two23 + f)) with 23; [unfold q; lia|].
      symmetry. apply N.log2_unique; [lia|]. change (2 ^ 23) with two23. change (2 ^ N.succ 23) with (2 * two23). lia. }
    rewrite round32_eq by assumption. unfold n32. rewrite Q, rne_exact by apply pow2_pos. unfold q. replace (e - 1 + 925 - 925) with (e - 1) by lia.
    rewrite N.min_l; unfold two23 in *; lia.
Qed.
(** Widening. *)
Definition f32_ok (x : f32) : Prop := x < 4294967296.
Definition f32_mag (x : f32) : N := x mod f32_sign_bit.
Definition widen_mag (m : N) : N :=
  let e := m / two23 in let f := m mod two23 in
  if e =? 255 then f64_inf_bits + f * 536870912
  else if e =? 0 then (if f =? 0 then 0 else (N.log2 f + 874) * two52 + (f * 2 ^ (52 - N.log2 f) - two52))
  else (e + 896) * two52 + f * 536870912.
Lemma f32_to_f64_eq x : f32_to_f64 x = (if f32_sign_bit <=? x then two63 else 0) + widen_mag (f32_mag x).
Proof. reflexivity. Qed.
Lemma widen_mag_spec m : m < f32_inf_bits -> widen_mag m < f64_inf_bits /\ f64_abs (widen_mag m) = f32_abs m.
Proof.
  intros H. pose proof (N.div_mod m two23 ltac:(discriminate)) as D. pose proof (N.mod_lt m two23 ltac:(discriminate)) as M.
  unfold widen_mag, f32_abs. set (e := m / two23) in *. set (f := m mod two23) in *. clearbody e f. cbn zeta.
  assert (E : e < 255) by (unfold f32_inf_bits, two23 in *; lia). replace (e =? 255) with false by (symmetry; apply N.eqb_neq; lia).
  destruct (N.eqb_spec e 0) as [Z|Z].
  - destruct (N.eqb_spec f 0) as [F|F]; [subst; split; reflexivity|].
    pose proof (N.log2_spec f ltac:(lia)) as L. set (k := N.log2 f) in *.
    assert (K : k < 23) by (apply (N.pow_lt_mono_r_iff 2); [lia|]; change (2 ^ 23) with two23; lia).
    assert (Q : two52 <= f * 2 ^ (52 - k) < two53).
    { assert (P : 2 ^ k * 2 ^ (52 - k) = two52) by (rewrite <- N.pow_add_r; change two52 with (2 ^ 52); f_equal; lia).
      rewrite N.pow_succ_r' in L. pose proof (pow2_pos (52 - k)). change two53 with (2 * two52). nia. }
    rewrite (f64_abs_enc (k + 874)) by (assumption || lia). split; [unfold f64_inf_bits, two52, two53 in *; lia|].
    rewrite <- N.mul_assoc. f_equal. rewrite <- N.pow_add_r. f_equal. lia.
  - split; [unfold f64_inf_bits, two52, two23 in *; lia|].
    replace ((e + 896) * two52 + f * 536870912) with ((e + 896) * two52 + ((two23 + f) * 536870912 - two52)) by (unfold two23, two52; lia).
    rewrite (f64_abs_enc (e + 896)) by (unfold two23, two52, two53 in *; lia).
    change 536870912 with (2 ^ 29). rewrite <- N.mul_assoc. f_equal. rewrite <- N.pow_add_r. f_equal. lia.
Qed.
Lemma widen_inf : widen_mag f32_inf_bits = f64_inf_bits. Proof. reflexivity. Qed.
Lemma widen_mag_nan m : f32_inf_bits < m -> m < f32_sign_bit -> f64_inf_bits < widen_mag m < two63.
Proof.
  intros H B. pose proof (N.div_mod m two23 ltac:(discriminate)) as D. pose proof (N.mod_lt m two23 ltac:(discriminate)) as M.
  unfold widen_mag. set (e := m / two23) in *. set (f := m mod two23) in *. clearbody e f. cbn zeta.
  assert (e = 255) by (unfold f32_inf_bits, f32_sign_bit, two23 in *; lia). subst e. cbn [N.eqb Pos.eqb]. unfold f64_inf_bits, f32_inf_bits, two63, two23 in *. lia.
Qed.
Lemma f32_mag_lt x : f32_mag x < f32_sign_bit. Proof. apply N.mod_lt. discriminate. Qed.
Lemma widen_mag_lt m : m < f32_sign_bit -> widen_mag m < two63.
Proof.
  intros B. pose proof inf_lt_63. destruct (N.lt_trichotomy m f32_inf_bits) as [L|[->|L]].
  - destruct (widen_mag_spec m L). lia.
  - rewrite widen_inf. assumption.
  - apply widen_mag_nan; assumption.
Qed.
Lemma f32_to_f64_parts x : f64_neg (f32_to_f64 x) = (f32_sign_bit <=? x) /\ f64_mag (f32_to_f64 x) = widen_mag (f32_mag x).
Proof.
  rewrite f32_to_f64_eq. pose proof (widen_mag_lt _ (f32_mag_lt x)) as W. destruct (f32_sign_bit <=? x).
  - apply f64_neg_parts. assumption.
  - rewrite N.add_0_l. apply f64_pos_parts. assumption.
Qed.
Lemma f32_nan_widen x : f64_nan (f32_to_f64 x) = is_nan x.
Proof.
  destruct (f32_to_f64_parts x) as (_ & M). unfold f64_nan, is_nan. rewrite M. change (x mod f32_sign_bit) with (f32_mag x). pose proof (f32_mag_lt x) as B.
  destruct (N.lt_trichotomy (f32_mag x) f32_inf_bits) as [L|[L|L]].
  - destruct (widen_mag_spec _ L). transitivity false; [apply N.ltb_ge; lia|symmetry; apply N.ltb_ge; lia].
  - rewrite L. reflexivity.
  - transitivity true; [apply N.ltb_lt; now apply widen_mag_nan|symmetry; now apply N.ltb_lt].
Qed.
Lemma f32_split x : f32_ok x -> x = (if f32_sign_bit <=? x then f32_sign_bit else 0) + f32_mag x.
Proof.
  unfold f32_ok, f32_mag. intros H. destruct (N.leb_spec f32_sign_bit x).
  - rewrite <- (N.mod_unique x f32_sign_bit 1 (x - f32_sign_bit)); unfold f32_sign_bit in *; lia.
  - rewrite N.mod_small by assumption. reflexivity.
Qed.
Lemma round32_inf : round32 (f64_abs f64_inf_bits) = f32_inf_bits. Proof. vm_compute. reflexivity. Qed.
Lemma narrow_widen x : f32_ok x -> is_nan x = false -> f64_to_f32 (f32_to_f64 x) = x.
Proof.
  intros B N. unfold f64_to_f32. rewrite f32_nan_widen, N. destruct (f32_to_f64_parts x) as (-> & ->).
  transitivity ((if f32_sign_bit <=? x then f32_sign_bit else 0) + f32_mag x); [|symmetry; now apply f32_split]. f_equal.
  unfold is_nan in N. apply N.ltb_ge in N. change (x mod f32_sign_bit) with (f32_mag x) in N. apply N.le_lteq in N. destruct N as [L|L].
  - destruct (widen_mag_spec _ L) as (_ & ->). now apply round32_f32_abs.
  - rewrite L, widen_inf. apply round32_inf.
Qed.
Lemma narrow_nan x : f64_nan x = true -> is_nan (f64_to_f32 x) = true.
Proof.
  intros N. unfold f64_to_f32. rewrite N. unfold is_nan. set (p := f64_mag x mod two52 / 536870912).
  assert (P : p < two23). { unfold p. apply N.div_lt_upper_bound; [discriminate|]. pose proof (N.mod_lt (f64_mag x) two52 ltac:(discriminate)). unfold two52, two23 in *. lia. }
  assert (L : f32_nan <= N.lor f32_nan p < f32_sign_bit).
  { split.
    - apply N.ldiff_le. apply N.bits_inj. intros i. rewrite N.ldiff_spec, N.lor_spec, N.bits_0. now destruct (N.testbit f32_nan i), (N.testbit p i).
    - destruct (N.eq_dec (N.lor f32_nan p) 0) as [->|Z]; [reflexivity|]. change f32_sign_bit with (2 ^ 31). apply N.log2_lt_pow2; [lia|].
      rewrite N.log2_lor. apply N.max_lub_lt; [reflexivity|]. destruct (N.eq_dec p 0) as [->|]; [reflexivity|]. apply N.log2_lt_pow2; [lia|]. change (2 ^ 31) with f32_sign_bit. unfold two23, f32_sign_bit in *. lia. }
  apply N.ltb_lt. destruct (f64_neg x).
  - rewrite <- (N.mod_unique (f32_sign_bit + N.lor f32_nan p) f32_sign_bit 1 (N.lor f32_nan p)) by lia. unfold f32_nan, f32_inf_bits in *. lia.
  - rewrite N.add_0_l, N.mod_small by apply L. unfold f32_nan, f32_inf_bits in *. lia.
Qed.
Lemma f64_abs_inj a b : f64_abs a = f64_abs b -> a = b.
Proof. intros H. destruct (N.lt_trichotomy a b) as [L|[L|L]]; [|assumption|]; apply f64_abs_lt in L; lia. Qed.
Lemma f32_sign_parts s m : m < f32_sign_bit -> let x := (if s : bool then f32_sign_bit else 0) + m in (f32_sign_bit <=? x) = s /\ f32_mag x = m /\ f32_ok x.
Proof.
  intros B x. unfold x, f32_mag, f32_ok. destruct s.
  - split; [apply N.leb_le; lia|split; [symmetry; apply (N.mod_unique _ _ 1); lia|unfold f32_sign_bit in *; lia]].
  - rewrite N.add_0_l. split; [apply N.leb_gt; assumption|split; [now apply N.mod_small|unfold f32_sign_bit in *; lia]].
Qed.
Lemma widen_val x : f64_val (f32_to_f64 x) = (if f32_sign_bit <=? x then Z.opp else id) (Z.of_N (f64_abs (widen_mag (f32_mag x)))).
Proof. unfold f64_val. destruct (f32_to_f64_parts x) as (-> & ->). now destruct (f32_sign_bit <=? x). Qed.
(** An f64 with the value of an f32 is narrowed to it. *)
Lemma narrow_exact x c : f32_ok c -> is_nan c = false -> f64_nan x = false -> f64_val (f32_to_f64 c) = f64_val x ->
  f32_ok (f64_to_f32 x) /\ is_nan (f64_to_f32 x) = false /\ f64_val (f32_to_f64 (f64_to_f32 x)) = f64_val x.
Proof.
  intros B Nc Nx V.
  assert (A : widen_mag (f32_mag c) = f64_mag x).
  { apply f64_abs_inj. rewrite widen_val in V. unfold f64_val in V. unfold id in V. destruct (f32_sign_bit <=? c), (f64_neg x); lia. }
  assert (R : round32 (f64_abs (f64_mag x)) = f32_mag c).
  { rewrite <- A. unfold is_nan in Nc. apply N.ltb_ge in Nc. change (c mod f32_sign_bit) with (f32_mag c) in Nc. apply N.le_lteq in Nc. destruct Nc as [L|L].
    - destruct (widen_mag_spec _ L) as (_ & ->). now apply round32_f32_abs.
    - rewrite L, widen_inf. apply round32_inf. }
  unfold f64_to_f32. rewrite Nx, R. destruct (f32_sign_parts (f64_neg x) (f32_mag c) (f32_mag_lt c)) as (S1 & S2 & S3). cbn zeta in *.
  set (c' := (if f64_neg x then f32_sign_bit else 0) + f32_mag c) in *. split; [assumption|]. split.
  - unfold is_nan in *. change (c' mod f32_sign_bit) with (f32_mag c'). rewrite S2. assumption.
  - unfold f64_val. destruct (f32_to_f64_parts c') as (-> & ->). rewrite S1, S2, A. reflexivity.
Qed.
(** [n as f32] has the value [r32 n]. *)
Definition r32 (n : N) : N := if N.log2 n <? 23 then n else n32 (n * 2 ^ 1074) * 2 ^ (N.log2 n - 23).
Lemma f32_of_N_spec n : n < two64 -> f32_of_N n < f32_inf_bits /\ f32_abs (f32_of_N n) = r32 n * 2 ^ 1074.
Proof.
  intros B. destruct (N.eq_dec n 0) as [->|Hn]; [split; reflexivity|]. unfold f32_of_N.
  assert (NZ : n * 2 ^ 1074 <> 0) by (pose proof (pow2_pos 1074); nia).
  pose proof (N.log2_spec n ltac:(lia)) as L.
  assert (Q : q32 (n * 2 ^ 1074) = N.log2 n + 1051) by (unfold q32; rewrite N.log2_mul_pow2 by lia; lia).
  destruct (n32_range _ NZ) as (R1 & _).
  assert (Kb : N.log2 n < 64). { apply (N.pow_lt_mono_r_iff 2); [lia|]. change (2 ^ 64) with two64. lia. }
  assert (F : round32 (n * 2 ^ 1074) < f32_inf_bits).
  { rewrite (round32_eq _ NZ), Q. set (k := N.log2 n) in *. set (w := n32 (n * 2 ^ 1074)) in *. clearbody k w. unfold f32_inf_bits, two24, two23 in *. lia. }
  split; [assumption|]. rewrite (round32_val _ NZ F), Q. unfold r32. destruct (N.ltb_spec (N.log2 n) 23) as [K|K].
  - unfold n32. rewrite Q. assert (E : n * 2 ^ 1074 = n * 2 ^ (23 - N.log2 n) * 2 ^ (N.log2 n + 1051)) by (rewrite <- N.mul_assoc, <- N.pow_add_r; f_equal; f_equal; lia).
    rewrite E at 1. rewrite rne_exact by apply pow2_pos. symmetry. exact E.
  - rewrite <- N.mul_assoc, <- N.pow_add_r. f_equal. f_equal. lia.
Qed.
Definition rz32 (z : Z) : Z := if (z <? 0)%Z then Z.opp (Z.of_N (r32 (Z.to_N (Z.opp z)))) else Z.of_N (r32 (Z.to_N z)).
Lemma f32_of_Z_spec z : (- Z.of_N two64 < z < Z.of_N two64)%Z ->
  f32_ok (f32_of_Z z) /\ is_nan (f32_of_Z z) = false /\ f64_val (f32_to_f64 (f32_of_Z z)) = (rz32 z * f64_unit)%Z.
Proof.
  intros B. set (n := Z.to_N (Z.abs z)). assert (Bn : n < two64) by lia. destruct (f32_of_N_spec n Bn) as (I & V).
  assert (M : f32_of_N n < f32_sign_bit) by (unfold f32_inf_bits, f32_sign_bit in *; lia).
  assert (E : f32_of_Z z = (if (z <? 0)%Z then f32_sign_bit else 0) + f32_of_N n).
  { unfold f32_of_Z, n. destruct (Z.ltb_spec z 0); [now rewrite Z.abs_neq by lia|now rewrite Z.abs_eq by lia]. }
  destruct (f32_sign_parts (z <? 0)%Z _ M) as (S1 & S2 & S3). cbn zeta in *. rewrite <- E in *. split; [assumption|]. split.
  - unfold is_nan. change (f32_of_Z z mod f32_sign_bit) with (f32_mag (f32_of_Z z)). rewrite S2. apply N.ltb_ge. lia.
  - rewrite widen_val, S1, S2. destruct (widen_mag_spec _ I) as (_ & ->). rewrite V, unit_N, N2Z.inj_mul. unfold rz32, n.
    destruct (Z.ltb_spec z 0); [rewrite Z.abs_neq by lia|rewrite Z.abs_eq by lia]; unfold id; lia.
Qed.
Lemma r32_exact n m : n < two64 -> m < f32_inf_bits -> f32_abs m = n * 2 ^ 1074 -> r32 n = n.
Proof.
  intros B Hm H. destruct (f32_of_N_spec n B) as (_ & V). unfold f32_of_N in V. rewrite <- H, round32_f32_abs in V by assumption.
  rewrite H in V. apply (N.mul_cancel_r _ _ (2 ^ 1074)); [pose proof (pow2_pos 1074); lia|]. congruence.
Qed.
Lemma rz32_exact z c : (- Z.of_N two64 < z < Z.of_N two64)%Z -> is_nan c = false -> f64_val (f32_to_f64 c) = (z * f64_unit)%Z -> rz32 z = z.
Proof.
  intros B N H. rewrite widen_val in H. pose proof unit_pos.
  assert (A : f64_abs (widen_mag (f32_mag c)) = Z.to_N (Z.abs z) * 2 ^ 1074).
  { apply N2Z.inj. rewrite N2Z.inj_mul, <- unit_N. unfold id in H. destruct (f32_sign_bit <=? c); nia. }
  assert (F : f32_mag c < f32_inf_bits).
  { unfold is_nan in N. apply N.ltb_ge in N. change (c mod f32_sign_bit) with (f32_mag c) in N. apply N.le_lteq in N. destruct N as [L|L]; [assumption|exfalso].
    rewrite L, widen_inf in A. assert (X : f64_abs f64_inf_bits = 2 ^ 1024 * 2 ^ 1074) by (vm_compute; reflexivity). rewrite X in A.
    apply N.mul_cancel_r in A; [|pose proof (pow2_pos 1074); lia]. assert (two64 < 2 ^ 1024) by (vm_compute; reflexivity). lia. }
  destruct (widen_mag_spec _ F) as (_ & E). rewrite E in A. pose proof (r32_exact (Z.to_N (Z.abs z)) _ ltac:(lia) F A) as X.
  unfold rz32. destruct (Z.ltb_spec z 0); [rewrite Z.abs_neq in X by lia|rewrite Z.abs_eq in X by lia]; lia.
Qed.
Lemma f32_of_N_Z n : f32_of_N n = f32_of_Z (Z.of_N n).
Proof. unfold f32_of_Z. destruct (Z.ltb_spec (Z.of_N n) 0); [lia|]. now rewrite N2Z.id. Qed.
Lemma as_f32_int n : is_flt n = false -> as_f32 n =
  let c := f32_of_Z (int_of n) in
  if (trunc_sat (match n with NI64 _ => i64_min | _ => 0 end) (int_max n) (f32_to_f64 c) =? int_of n)%Z then Some c else None.
Proof. destruct n; try discriminate; intros _; cbn [as_f32 int_of int_max]; rewrite <- ?f32_of_N_Z; reflexivity. Qed.
Lemma as_f32_sound n y : wide n -> as_f32 n = Some y ->
  match n with
  | NF64 x => if f64_nan x then is_nan y = true else is_nan y = false /\ f64_val (f32_to_f64 y) = f64_val x
  | _ => is_nan y = false /\ (f64_val (f32_to_f64 y) = (int_of n * f64_unit)%Z \/ int_of n = int_max n /\ f64_val (f32_to_f64 y) = ((int_of n + 1) * f64_unit)%Z)
  end.
Proof.
  intros W H. destruct (is_flt n) eqn:F.
  - destruct n as [|?|x]; try discriminate. unfold as_f32 in H. destruct (f64_nan x) eqn:N.
    + injection H as <-. now apply narrow_nan.
    + cbn zeta in H. destruct (f64_eq (f32_to_f64 (f64_to_f32 x)) x) eqn:E; [|discriminate]. injection H as <-.
      apply f64_eq_iff in E. destruct E as (E1 & _ & E2). split; [now rewrite <- f32_nan_widen|assumption].
  - assert (B : (- Z.of_N two64 < int_of n < Z.of_N two64)%Z) by (destruct n; cbn in *; unfold two64, i64_min, i64_max in *; lia || discriminate).
    destruct (f32_of_Z_spec _ B) as (_ & N & V). pose proof N as N2. rewrite <- f32_nan_widen in N2.
    assert (G : y = f32_of_Z (int_of n) /\ trunc_sat (match n with NI64 _ => i64_min | _ => 0%Z end) (int_max n) (f32_to_f64 y) = int_of n).
    { rewrite as_f32_int in H by assumption. cbn zeta in H. destruct (Z.eqb_spec (trunc_sat (match n with NI64 _ => i64_min | _ => 0%Z end) (int_max n) (f32_to_f64 (f32_of_Z (int_of n)))) (int_of n)) as [E|E]; [|discriminate].
      injection H as <-. now split. }
    destruct G as (-> & G). rewrite (trunc_sat_val _ _ _ _ N2 V) in G.
    enough (f64_val (f32_to_f64 (f32_of_Z (int_of n))) = (int_of n * f64_unit)%Z \/ int_of n = int_max n /\ f64_val (f32_to_f64 (f32_of_Z (int_of n))) = ((int_of n + 1) * f64_unit)%Z) by (destruct n; try discriminate; now split).
    rewrite V.
    assert (K : rz32 (int_of n) = int_of n \/ int_of n = int_max n \/ int_of n = match n with NI64 _ => i64_min | _ => 0%Z end) by (destruct n; cbn [int_of int_max] in *; unfold i64_min in *; lia).
    destruct K as [K|[K|K]]; [left; now rewrite K| |].
    + right. split; [assumption|]. f_equal. rewrite K. destruct n; try discriminate; vm_compute; reflexivity.
    + left. f_equal. rewrite K. destruct n; try discriminate; vm_compute; reflexivity.
Qed.
Lemma as_f32_complete n c : wide n -> f32_ok c -> is_nan c = false ->
  match n with NF64 x => f64_nan x = false /\ f64_val (f32_to_f64 c) = f64_val x | _ => f64_val (f32_to_f64 c) = (int_of n * f64_unit)%Z end ->
  exists c', as_f32 n = Some c' /\ is_nan c' = false /\ f64_val (f32_to_f64 c') = f64_val (f32_to_f64 c).
Proof.
  intros W B N V. destruct (is_flt n) eqn:F.
  - destruct n as [|?|x]; try discriminate. destruct V as (Nx & V). destruct (narrow_exact x c B N Nx V) as (B' & N' & V').
    exists (f64_to_f32 x). split; [|split; congruence]. unfold as_f32. rewrite Nx. cbn zeta.
    replace (f64_eq (f32_to_f64 (f64_to_f32 x)) x) with true; [reflexivity|]. symmetry. apply f64_eq_iff. rewrite f32_nan_widen. auto.
  - assert (V' : f64_val (f32_to_f64 c) = (int_of n * f64_unit)%Z) by (destruct n; try discriminate; exact V). clear V.
    assert (Bz : (- Z.of_N two64 < int_of n < Z.of_N two64)%Z) by (destruct n; cbn in *; unfold two64, i64_min, i64_max in *; lia || discriminate).
    destruct (f32_of_Z_spec _ Bz) as (_ & Nz & Vz). pose proof Nz as N2. rewrite <- f32_nan_widen in N2. rewrite (rz32_exact _ _ Bz N V') in Vz.
    exists (f32_of_Z (int_of n)). split; [|split; congruence]. rewrite as_f32_int by assumption. cbn zeta. rewrite (trunc_sat_val _ _ _ _ N2 Vz).
    assert (R : (match n with NI64 _ => i64_min | _ => 0%Z end <= int_of n <= int_max n)%Z) by (destruct n; cbn in *; unfold two64, i64_min, i64_max in *; lia || discriminate).
    rewrite Z.min_r, Z.max_r by lia. now rewrite Z.eqb_refl.
Qed.
