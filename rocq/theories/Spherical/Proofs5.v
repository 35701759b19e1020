(** The code of a component is its level in its direction. *)
From Coq Require Import QArith Qabs Qround Lqa.
From Verif.Lib Require Import Base Lists.
From Verif.Spherical Require Import Model2 Spec2 Proofs2.
Local Open Scope nat_scope.

Lemma floor_is (z : Q) (c : Z) : (inject_Z c <= z -> z < inject_Z c + 1 -> Qfloor z = c)%Q.
Proof.
  intros L U. pose proof (Qfloor_le z) as A. pose proof (Qlt_floor z) as B.
  assert (c < Qfloor z + 1)%Z by (rewrite Zlt_Qlt; eapply Qle_lt_trans; eassumption).
  assert (Qfloor z < c + 1)%Z. { rewrite Zlt_Qlt. rewrite inject_Z_plus. eapply Qle_lt_trans; [exact A|]. exact U. } lia.
Qed.
Lemma code_level bits s t : 1 <= bits -> (0 < s)%Q -> clear_of (2 ^ (bits - 1)) s (Qabs t) ->
  decoded bits (code bits s t) = ((if Qle_bool 0 t then 1 else -1) * (2 * Z.of_nat (level (2 ^ (bits - 1)) s (Qabs t)) - 1))%Z.
Proof.
  intros HB HS HC. set (stop := 2 ^ (bits - 1)) in *. assert (E2 : 2 ^ bits = 2 * stop) by (unfold stop; replace bits with (S (bits - 1)) at 1 by lia; reflexivity).
  assert (S1 : 1 <= stop) by (unfold stop; pose proof (Nat.pow_nonzero 2 (bits - 1)); lia).
  unfold code. cbv zeta. unfold decoded. rewrite E2. set (hi := qn (2 * stop - 1)).
  assert (EH : (hi == 2 * qn stop - 1)%Q). { unfold hi. pose proof (qn_S (2 * stop - 1)) as Q1. replace (S (2 * stop - 1)) with (2 * stop) in Q1 by lia. rewrite qn_double in Q1. lra. }
  set (y := (s * Qabs t)%Q). set (L := level stop s (Qabs t)). pose proof (level_range stop s (Qabs t) S1) as LR. fold L in LR.
  assert (Q1 : (1 <= qn stop)%Q) by (apply (qn_le 1); exact S1).
  assert (F1 : (qn L - 1 <= y)%Q /\ (L = 1 \/ (qn L - 1 < y)%Q)).
  { destruct (Nat.eq_dec L 1) as [E|E]; [rewrite E; change (qn 1) with 1%Q; split; [|now left]; assert (0 <= y)%Q by (unfold y; pose proof (Qabs_nonneg t); nra); lra|].
    assert (X : L - 1 < level stop s (Qabs t)) by (fold L; lia). apply level_spec in X; [|lia]. fold y in X. pose proof (qn_S (L - 1)) as Q. replace (S (L - 1)) with L in Q by lia. unfold eps in X. split; [|right]; lra. }
  assert (F2 : L = stop \/ (y < qn L)%Q).
  { destruct (Nat.eq_dec L stop) as [E|E]; [now left|right]. apply Qnot_le_lt. intros N. apply (HC L); [lia|]. fold y. split; [exact N|]. apply Qnot_le_lt. intros N2. assert (X : L < level stop s (Qabs t)) by (apply level_spec; [lia|exact N2]). fold L in X. lia. }
  assert (QL : (qn L <= qn stop)%Q) by (apply qn_le; lia). assert (QL1 : (1 <= qn L)%Q) by (apply (qn_le 1); lia).
  assert (F3 : L <> stop -> (qn L + 1 <= qn stop)%Q) by (intros; apply qn_lt; lia).
  assert (ZQ : forall a b, (inject_Z (Z.of_nat a - Z.of_nat b) == qn a - qn b)%Q) by (intros; unfold qn, Z.sub; rewrite inject_Z_plus, inject_Z_opp; reflexivity).
  assert (ZP : forall a b, (inject_Z (Z.of_nat a + Z.of_nat b - 1) == qn a + qn b - 1)%Q) by (intros; unfold qn, Z.sub; rewrite !inject_Z_plus, inject_Z_opp; reflexivity).
  unfold clampq. destruct (Qle_bool 0 t) eqn:ET.
  - apply Qle_bool_iff in ET. assert (EY : (t * s == y)%Q) by (unfold y; rewrite Qabs_pos by exact ET; ring).
    assert (FL : forall z, (z == y + qn stop \/ (z == 2 * qn stop - (1 # 2) /\ qn stop - (1 # 2) < y) \/ False)%Q -> ((y <= qn stop - (1 # 2))%Q \/ (z == 2 * qn stop - (1 # 2))%Q) -> Qfloor z = (Z.of_nat stop + Z.of_nat L - 1)%Z).
    { intros z Z Y. apply floor_is; rewrite ZP.
      - destruct Z as [Z|[[Z Z']|[]]]; lra.
      - destruct Z as [Z|[[Z Z']|[]]].
        + destruct Y as [Y|Y]; destruct F2 as [->|F2]; lra.
        + destruct F2 as [->|F2]; [lra|]. destruct (Nat.eq_dec L stop) as [->|D]; [lra|]. specialize (F3 D). lra. }
    destruct (Qle_bool 0 (t * s + hi / 2)) eqn:B1.
    + destruct (Qle_bool (t * s + hi / 2) hi) eqn:B2.
      * apply Qle_bool_iff in B2. rewrite (FL (t * s + hi / 2 + (1 # 2))%Q); [lia|left; rewrite EY, EH; field|left; rewrite EY, EH in B2; assert ((2 * qn stop - 1) / 2 == qn stop - (1 # 2))%Q by field; lra].
      * assert (B3 : (hi < t * s + hi / 2)%Q) by (apply Qnot_le_lt; intros N; apply Qle_bool_iff in N; congruence). rewrite EY, EH in B3. assert (D : ((2 * qn stop - 1) / 2 == qn stop - (1 # 2))%Q) by field.
        rewrite (FL (hi + (1 # 2))%Q); [lia|right; left; split; lra|right; lra].
    + exfalso. assert (B3 : (t * s + hi / 2 < 0)%Q) by (apply Qnot_le_lt; intros N; apply Qle_bool_iff in N; congruence). rewrite EY, EH in B3. assert (D : ((2 * qn stop - 1) / 2 == qn stop - (1 # 2))%Q) by field. lra.
  - assert (TN : (t < 0)%Q) by (apply Qnot_le_lt; intros N; apply Qle_bool_iff in N; congruence). assert (EY : (t * s == - y)%Q) by (unfold y; rewrite Qabs_neg by lra; ring).
    assert (YP : (0 < y)%Q) by (unfold y; rewrite Qabs_neg by lra; nra). assert (F1' : (qn L - 1 < y)%Q) by (destruct F1 as [_ [->|F]]; [change (qn 1) with 1%Q; lra|exact F]).
    assert (D : ((2 * qn stop - 1) / 2 == qn stop - (1 # 2))%Q) by field.
    destruct (Qle_bool 0 (t * s + hi / 2)) eqn:B1.
    + apply Qle_bool_iff in B1. rewrite EY, EH, D in B1. destruct (Qle_bool (t * s + hi / 2) hi) eqn:B2.
      * rewrite (floor_is _ (Z.of_nat stop - Z.of_nat L)); [lia| |]; rewrite ZQ, EY, EH, D; [destruct F2 as [->|F2]; lra|lra].
      * exfalso. assert (B3 : (hi < t * s + hi / 2)%Q) by (apply Qnot_le_lt; intros N; apply Qle_bool_iff in N; congruence). rewrite EY, EH, D in B3. lra.
    + assert (B3 : (t * s + hi / 2 < 0)%Q) by (apply Qnot_le_lt; intros N; apply Qle_bool_iff in N; congruence). rewrite EY, EH, D in B3.
      assert (LS : L = stop) by (destruct F2 as [F2|F2]; [exact F2|]; destruct (Nat.eq_dec L stop) as [E|E]; [exact E|specialize (F3 E); lra]). rewrite LS. change (Qfloor (0 + (1 # 2))) with 0%Z. lia.
Qed.
Lemma sums_level bits s v : 1 <= bits -> (0 < s)%Q -> (forall x, In x v -> clear_of (2 ^ (bits - 1)) s (Qabs x)) ->
  (code_dot bits s v == 2 * dot v (levels (2 ^ (bits - 1)) s v))%Q /\ (code_norm2 bits s v == 4 * norm2 (levels (2 ^ (bits - 1)) s v))%Q.
Proof.
  intros HB HS. unfold levels. induction v as [|x v IH]; intros HC; cbn [code_dot code_norm2 dot norm2 map]; [split; reflexivity|].
  destruct IH as [I1 I2]; [intros y I; apply HC; now right|]. rewrite I1, I2. rewrite (code_level bits s x HB HS (HC x (or_introl eq_refl))). set (k := level (2 ^ (bits - 1)) s (Qabs x)).
  assert (E : forall e : Z, (inject_Z (e * (2 * Z.of_nat k - 1)) == inject_Z e * (2 * qn k - 1))%Q) by (intros e; unfold qn, Z.sub; rewrite inject_Z_mult, inject_Z_plus, inject_Z_mult; reflexivity).
  rewrite E. destruct (Qle_bool 0 x) eqn:EX.
  - apply Qle_bool_iff in EX. rewrite (Qabs_pos x EX). change (inject_Z 1) with 1%Q. split; ring.
  - assert (TN : (x < 0)%Q) by (apply Qnot_le_lt; intros N; apply Qle_bool_iff in N; congruence). rewrite (Qabs_neg x) by lra. change (inject_Z (-1)) with (- (1))%Q. split; ring.
Qed.
Lemma cosine_level bits s v : 1 <= bits -> (0 < s)%Q -> v <> [] -> (forall x, In x v -> clear_of (2 ^ (bits - 1)) s (Qabs x)) -> (cosine2 bits s v == match2 v (levels (2 ^ (bits - 1)) s v))%Q.
Proof.
  intros HB HS NE HC. destruct (sums_level bits s v HB HS HC) as [E1 E2]. unfold cosine2, match2. rewrite E1, E2. field.
  assert (P : (0 < norm2 (levels (2 ^ (bits - 1)) s v))%Q); [|lra]. apply norm2_pos; [destruct v; [congruence|discriminate]|]. intros k I. unfold levels in I. apply in_map_iff in I as (x & <- & _). unfold level. lia.
Qed.
