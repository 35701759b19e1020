(** Eight-bit against fewer bits, and the dispatch. *)
From Coq Require Import List NArith ZArith PeanoNat Bool Lia Setoid.
From Verif.Lib Require Import Base Lists.
From Verif.Bits Require Import Model Spec Proofs.
From Verif.Simd Require Import Model Proofs3.
From Verif.Simd Require Spec.
From Verif.BitDist Require Import Model Spec Proofs Proofs2 Proofs3 Proofs4.
Import ListNotations.

(** ** Unpacking *)
Lemma land_code nb b k : Z.of_N (N.land (N.shiftr b (N.of_nat (nb * k))) (N.shiftl 1 (N.of_nat nb) - 1)) = code nb b k.
Proof.
  unfold code. f_equal. apply N.bits_inj. intros t. rewrite <- (N2Nat.id t), mask_bits, number_bit, N.shiftr_spec by apply N.le_0_l.
  rewrite andb_comm. do 2 f_equal. lia.
Qed.
Lemma unpack_codes nb l : map Z.of_N (unpack_sub nb l) = flat_map (fun b => [code nb b 0; code nb b 1]) l.
Proof.
  unfold unpack_sub. induction l as [|b l IH]; [reflexivity|]. cbn [map zip flat_map app]. rewrite IH.
  pose proof (land_code nb b 0) as A. pose proof (land_code nb b 1) as B. rewrite Nat.mul_0_r, N.shiftr_0_r in A. rewrite Nat.mul_1_r in B.
  now rewrite A, B.
Qed.
Lemma unpack4 l : map Z.of_N (unpack_sub 4 l) = codes 4 l.
Proof. rewrite unpack_codes. reflexivity. Qed.
Lemma code_of_nibble b k j : j < 2 -> code 2 (N.land (N.shiftr b (N.of_nat (4 * k))) (N.shiftl 1 (N.of_nat 4) - 1)) j = code 2 b (2 * k + j).
Proof.
  intros J. unfold code. f_equal. apply number_ext. intros t T. rewrite mask_bits. destruct (Nat.ltb_spec (2 * j + t) 4); [|lia].
  rewrite andb_true_r, N.shiftr_spec by apply N.le_0_l. f_equal. lia.
Qed.
Lemma unpack42 l : map Z.of_N (unpack_sub 2 (unpack_sub 4 l)) = codes 2 l.
Proof.
  rewrite unpack_codes. unfold unpack_sub. induction l as [|b l IH]; [reflexivity|]. cbn [map zip flat_map app]. rewrite IH.
  change (codes 2 (b :: l)) with (code 2 b 0 :: code 2 b 1 :: code 2 b 2 :: code 2 b 3 :: codes 2 l).
  pose proof (code_of_nibble b 0) as A. pose proof (code_of_nibble b 1) as B. rewrite Nat.mul_0_r, N.shiftr_0_r in A. rewrite Nat.mul_1_r in B.
  now rewrite !A, !B by lia.
Qed.
Lemma unpack_sub_length n l : length (unpack_sub n l) = 2 * length l.
Proof. unfold unpack_sub. induction l as [|b l IH]; [reflexivity|]. cbn [map zip length] in *. lia. Qed.
Lemma unpack_sub_app n a b : unpack_sub n (a ++ b) = unpack_sub n a ++ unpack_sub n b.
Proof. unfold unpack_sub. induction a as [|v a IH]; [reflexivity|]. cbn [map zip app] in *. now rewrite IH. Qed.

(** ** Registers of i16 *)
Definition m16 (k : Z) (m : list Z) (v : Z) : Prop := length m = 16 /\ Forall (fun e => 0 <= e <= k)%Z m /\ zsum m = v.
Lemma add16_gen k1 k2 : (k1 + k2 < 2 ^ 15)%Z -> forall a b, length a = length b -> Forall (fun e => 0 <= e <= k1)%Z a -> Forall (fun e => 0 <= e <= k2)%Z b ->
  length (add16 a b) = length a /\ Forall (fun e => 0 <= e <= k1 + k2)%Z (add16 a b) /\ zsum (add16 a b) = (zsum a + zsum b)%Z.
Proof.
  intros K. unfold add16. induction a as [|u a IH]; intros [|v b] L A B; try discriminate; cbn [map2].
  { repeat split; constructor. }
  inversion A; inversion B; subst. destruct (IH b) as (C1 & C2 & C3); [now injection L|assumption|assumption|].
  assert (wadd16 u v = u + v)%Z as -> by (apply wrap16_id; lia).
  repeat split; [cbn [length]; lia|constructor; [lia|assumption]|]. rewrite !zsum_cons, C3. ring.
Qed.
Lemma add16_ok k1 k2 a b v w : (k1 + k2 < 2 ^ 15)%Z -> m16 k1 a v -> m16 k2 b w -> m16 (k1 + k2) (add16 a b) (v + w).
Proof.
  intros K (A1 & A2 & <-) (B1 & B2 & <-). destruct (add16_gen k1 k2 K a b) as (C1 & C2 & C3); [congruence|assumption|assumption|].
  repeat split; [congruence|assumption|assumption].
Qed.
Lemma zsum_ones m : ztotal Z.mul m (repeat 1%Z (length m)) = zsum m.
Proof. induction m as [|v m IH]; [reflexivity|]. cbn [length repeat Simd.Spec.ztotal]. rewrite zsum_cons, IH. ring. Qed.
Definition acc_ok (acc : list Z) : Prop := length acc = 8 /\ Forall (rng false) acc.
Lemma dot16_ok k acc m v : length acc = 8 -> m16 k m v -> acc_ok (dot16 acc m) /\ cg (zsum (dot16 acc m)) (zsum acc + v).
Proof.
  intros L (M & _ & <-). unfold dot16. change wrap_i32 with (wr false).
  destruct (dot_lanes_ok false Z.mul 2 acc m (repeat 1%Z 16)) as (A & B & C); [lia|rewrite repeat_length; lia|].
  repeat split; [congruence|assumption|]. rewrite <- ztotal_tot in C. rewrite <- M, zsum_ones in C. rewrite <- M. exact C.
Qed.
Lemma maddubs_gen k : (0 <= k <= 63)%Z -> forall n x y, length x = 2 * n -> length y = 2 * n -> Forall byte_ok x -> Forall (fun b => Z.of_N b <= k)%Z y ->
  length (maddubs x y) = n /\ Forall (fun e => 0 <= e <= 510 * k)%Z (maddubs x y) /\ zsum (maddubs x y) = ztotal Z.mul (map Z.of_N x) (map Z.of_N y).
Proof.
  intros K. induction n as [|n IH]; intros x y LX LY FX FY.
  { destruct x; [|discriminate]. destruct y; [|discriminate]. repeat split. constructor. }
  destruct x as [|a0 [|a1 x]]; cbn [length] in LX; try lia. destruct y as [|b0 [|b1 y]]; cbn [length] in LY; try lia.
  inversion FX as [|? ? HA0 FX1]; subst. inversion FX1 as [|? ? HA1 FX2]; subst. inversion FY as [|? ? HB0 FY1]; subst. inversion FY1 as [|? ? HB1 FY2]; subst.
  destruct (IH x y) as (C1 & C2 & C3); [lia|lia|assumption|assumption|]. cbn [maddubs map Simd.Spec.ztotal].
  unfold byte_ok in *. rewrite !signed_small by (cbn; lia).
  assert (0 <= Z.of_N a0 * Z.of_N b0 <= 255 * k)%Z by nia. assert (0 <= Z.of_N a1 * Z.of_N b1 <= 255 * k)%Z by nia.
  assert (sat16 (Z.of_N a0 * Z.of_N b0 + Z.of_N a1 * Z.of_N b1) = Z.of_N a0 * Z.of_N b0 + Z.of_N a1 * Z.of_N b1)%Z as -> by (unfold sat16; lia).
  repeat split; [cbn [length]; lia|constructor; [lia|assumption]|]. rewrite zsum_cons, C3. ring.
Qed.
Lemma maddubs_ok k nb x y l : (0 <= k <= 63)%Z -> (2 ^ Z.of_nat nb - 1 <= k)%Z -> length x = 32 -> length y = 32 -> Forall byte_ok x -> map Z.of_N y = codes nb l ->
  m16 (510 * k) (maddubs x y) (ztotal Z.mul (codes 8 x) (codes nb l)).
Proof.
  intros K KB LX LY FX EY. destruct (maddubs_gen k K 16 x y) as (A & B & C); [lia|lia|assumption| |].
  { apply Forall_forall. intros b H. apply (in_map Z.of_N) in H. rewrite EY in H. apply codes_bound in H. lia. }
  repeat split; [assumption|assumption|]. rewrite C, EY, codes8 by assumption. reflexivity.
Qed.

(** ** The unrolled loops *)
Section Loops.
  Context {Bk : Type} (block : nat -> option Bk) (four : list Z -> Bk -> Bk -> Bk -> Bk -> list Z) (one : list Z -> Bk -> list Z) (blocks : nat).
  Context (Q : Bk -> Z -> Prop) (v : nat -> Z) (P : nat -> Z).
  Context (hb : forall i, i < blocks -> exists m, block i = Some m /\ Q m (v i) /\ P (S i) = (P i + v i)%Z).
  Context (h4 : forall acc m0 m1 m2 m3 v0 v1 v2 v3, length acc = 8 -> Q m0 v0 -> Q m1 v1 -> Q m2 v2 -> Q m3 v3 ->
    acc_ok (four acc m0 m1 m2 m3) /\ cg (zsum (four acc m0 m1 m2 m3)) (zsum acc + (v0 + v1 + v2 + v3))).
  Context (h1 : forall acc m w, length acc = 8 -> Q m w -> acc_ok (one acc m) /\ cg (zsum (one acc m)) (zsum acc + w)).
  Lemma het_main_ok : forall fuel i acc, i <= blocks -> blocks < fuel + i -> acc_ok acc -> cg (zsum acc) (P i) ->
    exists i' acc', het_main block four blocks fuel i acc = Some (i', acc') /\ i' <= blocks /\ acc_ok acc' /\ cg (zsum acc') (P i').
  Proof.
    induction fuel as [|fuel IH]; intros i acc I F A C; [lia|]. cbn [het_main]. destruct (Nat.leb_spec (i + 4) blocks).
    - destruct (hb i) as (m0 & -> & Q0 & P0); [lia|]. destruct (hb (i + 1)) as (m1 & -> & Q1 & P1); [lia|].
      destruct (hb (i + 2)) as (m2 & -> & Q2 & P2); [lia|]. destruct (hb (i + 3)) as (m3 & -> & Q3 & P3); [lia|]. cbn [bind].
      destruct (h4 acc m0 m1 m2 m3 _ _ _ _ (proj1 A) Q0 Q1 Q2 Q3) as [A' C']. apply IH; [lia|lia|assumption|].
      eapply cg_trans; [exact C'|]. replace (P (i + 4)) with (P i + (v i + v (i + 1) + v (i + 2) + v (i + 3)))%Z; [apply cg_add; [assumption|apply cg_refl]|].
      replace (i + 4) with (S (i + 3)) by lia. rewrite P3. replace (i + 3) with (S (i + 2)) at 2 by lia. rewrite P2.
      replace (i + 2) with (S (i + 1)) at 2 by lia. rewrite P1. replace (i + 1) with (S i) at 2 by lia. rewrite P0. ring.
    - exists i, acc. auto.
  Qed.
  Lemma het_drain_ok : forall fuel i acc, i <= blocks -> blocks < fuel + i -> acc_ok acc -> cg (zsum acc) (P i) ->
    exists acc', het_drain block one blocks fuel i acc = Some (blocks, acc') /\ acc_ok acc' /\ cg (zsum acc') (P blocks).
  Proof.
    induction fuel as [|fuel IH]; intros i acc I F A C; [lia|]. cbn [het_drain]. destruct (Nat.ltb_spec i blocks).
    - destruct (hb i) as (m0 & -> & Q0 & P0); [lia|]. cbn [bind]. destruct (h1 acc m0 _ (proj1 A) Q0) as [A' C'].
      apply IH; [lia|lia|assumption|]. rewrite Nat.add_1_r, P0. eapply cg_trans; [exact C'|]. apply cg_add; [assumption|apply cg_refl].
    - assert (i = blocks) as -> by lia. exists acc. auto.
  Qed.
  Lemma het_run_ok : P 0 = 0%Z -> (0 <= P blocks < 2 ^ 32)%Z -> het_run block four one blocks = Some (blocks, P blocks).
  Proof.
    intros P0 PB. unfold het_run. destruct (Nat.ltb_spec 0 blocks) as [H|H].
    - destruct (het_main_ok (S blocks) 0 (repeat 0%Z 8)) as (i & acc & -> & I & A & C); [lia|lia| | |].
      + split; [reflexivity|]. apply Forall_forall. intros e He. apply repeat_spec in He as ->. apply rng0.
      + rewrite P0, zsum_zero. apply cg_refl.
      + cbn [bind]. destruct (het_drain_ok (S blocks) i acc) as (acc' & -> & A' & C'); [lia|lia|assumption|assumption|]. cbn [bind].
        do 2 f_equal. apply (reduce_ok 3); [apply A'|apply A'|assumption|assumption].
    - assert (blocks = 0) as -> by lia. now rewrite P0.
  Qed.
End Loops.

Lemma conf_u nb : 1 <= nb <= 8 -> conf_ok (unsigned nb).
Proof. intros H. unfold conf_ok. cbn [unsigned c_bits c_repr c_perm]. repeat split; try lia; discriminate. Qed.
Section Het.
  Context (ny : nat) (hy : ny = 4 \/ ny = 2 \/ ny = 1) (x y : bitslice).
  Context (vx : valid (unsigned 8) x) (vy : valid (unsigned ny) y) (E : bs_len x = bs_len y).
  Let X := elements (unsigned 8) x.
  Let Y := elements (unsigned ny) y.
  Let P := prefix Z.mul X Y.
  Context (B : (ztotal Z.mul X Y < 2 ^ 31)%Z).
  Lemma d8 : divides8 8. Proof. unfold divides8. auto. Qed.
  Lemma dy : divides8 ny. Proof. unfold divides8. destruct hy as [->|[->| ->]]; auto. Qed.
  Lemma Ph_len : P (bs_len x) = ztotal Z.mul X Y.
  Proof. unfold P. rewrite <- (prefix_all Z.mul X Y) by (unfold X, Y; rewrite !elements_length; exact E). unfold X at 3. now rewrite elements_length. Qed.
  Lemma Ph_le n m : n <= m <= bs_len x -> (0 <= P n <= P m)%Z.
  Proof. exact (pre_le Dense 8 ny x y E false n m). Qed.
  (** [n] elements from [off], a whole number of bytes of [y]. *)
  Lemma het_window q off n : off = q * (8 / ny) -> (exists k, n = k * (8 / ny)) -> off + n <= bs_len x ->
    off + n <= length (bs_data x) /\ q + n / (8 / ny) <= length (bs_data y) /\
    P (off + n) = (P off + ztotal Z.mul (codes 8 (firstn n (skipn off (bs_data x)))) (codes ny (firstn (n / (8 / ny)) (skipn q (bs_data y)))))%Z.
  Proof.
    intros -> [k ->] H. assert (0 < 8 / ny) by apply (divides8_eq ny dy). rewrite Nat.div_mul by lia.
    destruct (window 8 x (q * (8 / ny)) (k * (8 / ny)) d8 vx) as [W1 W2]; [change (8 / 8) with 1; lia|]. change (8 / 8) with 1 in W2. rewrite !Nat.mul_1_r in W2.
    destruct (window ny y q k dy vy) as [W3 W4]; [lia|]. split; [assumption|]. split; [assumption|].
    rewrite <- W2, <- W4. fold X Y. unfold P. apply prefix_step; [unfold X, Y; rewrite !elements_length; exact E|unfold X; rewrite elements_length; assumption].
  Qed.
  Lemma finish_ok per blocks : blocks * per <= bs_len x -> het_finish per ny x y (blocks, P (blocks * per)) = Some (ztotal Z.mul X Y).
  Proof.
    intros H. unfold het_finish. cbv zeta. destruct (Nat.eqb_spec (blocks * per) (bs_len x)) as [EQ|NE]; [rewrite EQ; now rewrite <- Ph_len|].
    pose proof (Ph_le (blocks * per) (bs_len x)) as LE. rewrite Ph_len in LE.
    assert (1 <= ny <= 8) as NY by (destruct hy as [->|[->| ->]]; lia).
    rewrite (scalar_from_ok false 8 ny x y _ (conf_u 8 ltac:(lia)) (conf_u ny NY) vx vy E H); fold X Y; change (prefix (term false)) with (prefix Z.mul);
      change (ztotal (term false)) with (ztotal Z.mul); fold P; [|lia].
    cbn [bind]. unfold add_u32. destruct (Z.ltb_spec (P (blocks * per) + (ztotal Z.mul X Y - P (blocks * per))) (2 ^ 32)); [f_equal; ring|lia].
  Qed.
  Lemma blocks_le per : per <> 0 -> bs_len x / per * per <= bs_len x.
  Proof. intros H. rewrite Nat.mul_comm. now apply Nat.mul_div_le. Qed.
  Lemma P_rng' n : n <= bs_len x -> (0 <= P n < 2 ^ 32)%Z.
  Proof. intros H. pose proof (Ph_le n (bs_len x)) as LE. rewrite Ph_len in LE. lia. Qed.
  Lemma app_parts {A} n (a b : list A) : length a = n -> firstn n (a ++ b) = a /\ skipn n (a ++ b) = b.
  Proof. intros <-. split; [rewrite firstn_app, Nat.sub_diag, firstn_all; cbn [firstn]; apply app_nil_r|rewrite skipn_app, Nat.sub_diag, skipn_all; reflexivity]. Qed.
  Lemma wlen {A} n off (l : list A) : off + n <= length l -> length (firstn n (skipn off l)) = n.
  Proof. intros H. rewrite firstn_length, skipn_length. lia. Qed.

  Lemma het_8x4_ok : ny = 4 -> het_8x4 x y = Some (ztotal Z.mul X Y).
  Proof.
    intros N4. unfold het_8x4.
    rewrite (het_run_ok _ _ _ _ (m16 7650) (fun i => (P (32 * S i) - P (32 * i))%Z) (fun i => P (i * 32))).
    - cbn [bind]. pose proof (finish_ok 32 (bs_len x / 32)) as FIN. rewrite N4 in FIN at 1. apply FIN, blocks_le. lia.
    - intros i I. pose proof (blocks_le 32). assert (32 * i + 32 <= bs_len x) as R by nia.
      destruct (het_window (16 * i) (32 * i) 32) as (W1 & W2 & W3); [rewrite N4; change (8 / 4) with 2; lia|exists 16; now rewrite N4|assumption|].
      rewrite N4 in W2, W3. change (32 / (8 / 4)) with 16 in W2, W3.
      unfold block_8x4. rewrite !load_full by assumption. cbn [bind]. eexists. split; [reflexivity|].
      replace (32 * S i) with (32 * i + 32) by lia. rewrite W3. split.
      + replace (P (32 * i) + _ - P (32 * i))%Z with (ztotal Z.mul (codes 8 (firstn 32 (skipn (32 * i) (bs_data x)))) (codes 4 (firstn 16 (skipn (16 * i) (bs_data y))))) by ring.
        apply (maddubs_ok 15); [lia|cbn; lia|now apply wlen|rewrite unpack_sub_length, wlen by assumption; reflexivity|apply bytes_window; apply vx|apply unpack4].
      + replace (S i * 32) with (32 * i + 32) by lia. rewrite W3, (Nat.mul_comm i). ring.
    - intros acc m0 m1 m2 m3 v0 v1 v2 v3 L Q0 Q1 Q2 Q3. apply (dot16_ok (7650 + 7650 + 7650 + 7650)); [assumption|].
      apply add16_ok; [lia| |assumption]. apply add16_ok; [lia| |assumption]. apply add16_ok; [lia|assumption|assumption].
    - intros acc m w L Q. now apply (dot16_ok 7650).
    - reflexivity.
    - apply P_rng', blocks_le. lia.
  Qed.

  Lemma het_8x2_ok : ny = 2 -> het_8x2 x y = Some (ztotal Z.mul X Y).
  Proof.
    intros N2. unfold het_8x2.
    rewrite (het_run_ok _ _ _ _ (fun '(a, b) v => exists va vb, m16 1530 a va /\ m16 1530 b vb /\ (va + vb = v)%Z)
               (fun i => (P (64 * S i) - P (64 * i))%Z) (fun i => P (i * 64))).
    - cbn [bind]. pose proof (finish_ok 64 (bs_len x / 64)) as FIN. rewrite N2 in FIN at 1. apply FIN, blocks_le. lia.
    - intros i I. pose proof (blocks_le 64). assert (64 * i + 64 <= bs_len x) as R by nia.
      destruct (het_window (16 * i) (64 * i) 32) as (W1 & W2 & W3); [rewrite N2; change (8 / 2) with 4; lia|exists 8; now rewrite N2|lia|].
      destruct (het_window (16 * i + 8) (64 * i + 32) 32) as (V1 & V2 & V3); [rewrite N2; change (8 / 2) with 4; lia|exists 8; now rewrite N2|lia|].
      rewrite N2 in W2, W3, V2, V3. change (32 / (8 / 2)) with 8 in W2, W3, V2, V3.
      unfold block_8x2. rewrite !load_full by lia. cbn [bind]. unfold unpack_crumbs. cbv zeta.
      set (l := firstn 16 (skipn (16 * i) (bs_data y))).
      assert (l = firstn 8 (skipn (16 * i) (bs_data y)) ++ firstn 8 (skipn (16 * i + 8) (bs_data y))) as EL.
      { unfold l. rewrite <- (firstn_skipn 8 (firstn 16 _)). rewrite firstn_firstn, skipn_firstn_comm, skipn_skipn'. reflexivity. }
      assert (firstn 16 (unpack_sub 4 l) = unpack_sub 4 (firstn 8 (skipn (16 * i) (bs_data y))) /\ skipn 16 (unpack_sub 4 l) = unpack_sub 4 (firstn 8 (skipn (16 * i + 8) (bs_data y)))) as [-> ->].
      { rewrite EL, unpack_sub_app. assert (length (unpack_sub 4 (firstn 8 (skipn (16 * i) (bs_data y)))) = 16) as LL by (rewrite unpack_sub_length, wlen by lia; reflexivity).
        now apply app_parts. }
      eexists. split; [reflexivity|]. replace (64 * S i) with (64 * i + 32 + 32) by lia. rewrite V3, W3. split.
      + eexists _, _. split; [|split].
        * apply (maddubs_ok 3 2); [lia|cbn; lia|apply wlen; lia|rewrite !unpack_sub_length, wlen by lia; reflexivity|apply bytes_window; apply vx|apply unpack42].
        * apply (maddubs_ok 3 2); [lia|cbn; lia|apply wlen; lia|rewrite !unpack_sub_length, wlen by lia; reflexivity|apply bytes_window; apply vx|apply unpack42].
        * ring.
      + replace (S i * 64) with (64 * i + 32 + 32) by lia. rewrite V3, W3, (Nat.mul_comm i). ring.
    - intros acc [a0 b0] [a1 b1] [a2 b2] [a3 b3] v0 v1 v2 v3 L (? & ? & A0 & B0 & <-) (? & ? & A1 & B1 & <-) (? & ? & A2 & B2 & <-) (? & ? & A3 & B3 & <-).
      match goal with |- acc_ok ?r /\ cg _ (_ + (?a + ?b + (?c + ?d) + (?e + ?f) + (?g + ?h))) =>
        replace (a + b + (c + d) + (e + f) + (g + h))%Z with ((a + b + c + d) + (e + f + g + h))%Z by ring end.
      apply (dot16_ok ((1530 + 1530 + 1530 + 1530) + (1530 + 1530 + 1530 + 1530))); [assumption|].
      apply add16_ok; [lia|repeat (apply add16_ok; [lia| |assumption]); assumption|repeat (apply add16_ok; [lia| |assumption]); assumption].
    - intros acc [a b] w L (va & vb & QA & QB & <-). apply (dot16_ok (1530 + 1530)); [assumption|]. apply add16_ok; [lia|assumption|assumption].
    - reflexivity.
    - apply P_rng', blocks_le. lia.
  Qed.

  Lemma masked_gen bits : forall l a, map (fun '(k, v) => if N.testbit bits (N.of_nat k) then Z.of_N v else 0%Z) (List.combine (seq a (length l)) l)
    = map2 Z.mul (map Z.of_N l) (map (code 1 bits) (seq a (length l))).
  Proof.
    induction l as [|v l IH]; intros a; [reflexivity|]. cbn [length seq List.combine map map2]. rewrite IH. f_equal. rewrite code1.
    destruct (N.testbit bits (N.of_nat a)); unfold bz; ring.
  Qed.
  Lemma sad_sum l : length l = 32 -> zsum (flat_map (fun g => [zsum (firstn 8 (skipn (8 * g) l)); 0%Z]) (seq 0 4)) = zsum l.
  Proof.
    intros L. cbn [seq flat_map app]. change (8 * 0) with 0. change (8 * 1) with 8. change (8 * 2) with 16. change (8 * 3) with 24. change (skipn 0 l) with l.
    rewrite !zsum_cons. change (zsum []) with 0%Z.
    assert (forall k, zsum (skipn k l) = zsum (firstn 8 (skipn k l)) + zsum (skipn (k + 8) l))%Z as SP.
    { intros k. rewrite <- zsum_app, <- skipn_skipn'. now rewrite firstn_skipn. }
    pose proof (SP 0) as S0. pose proof (SP 8) as S1. pose proof (SP 16) as S2. cbn [Nat.add] in S0, S1, S2. change (skipn 0 l) with l in S0. rewrite S0, S1, S2.
    rewrite (firstn_all2 (n := 8) (skipn 24 l)) by (rewrite skipn_length; lia). ring.
  Qed.
  Lemma sad_ok vxs l : length vxs = 32 -> length l = 4 -> Forall byte_ok vxs -> Forall byte_ok l ->
    length (masked_sad vxs (word l)) = 8 /\ zsum (masked_sad vxs (word l)) = ztotal Z.mul (codes 8 vxs) (codes 1 l).
  Proof.
    intros LX LL FX FL. unfold masked_sad. rewrite <- LX, masked_gen, LX. split; [reflexivity|].
    assert (forall a b : list Z, length (map2 Z.mul a b) = min (length a) (length b)) as ML.
    { induction a as [|u a IH]; intros [|w b]; cbn [map2 length]; try reflexivity. now rewrite IH. }
    rewrite sad_sum by (rewrite ML, !map_length, seq_length; lia).
    rewrite zsum_map2_tot, <- ztotal_tot. rewrite codes8 by assumption. rewrite (codes_word 1 l div1 FL), LL. reflexivity.
  Qed.
  Lemma wadd_acc acc s v : length acc = 8 -> length s = 8 -> zsum s = v -> acc_ok (map2 wadd acc s) /\ cg (zsum (map2 wadd acc s)) (zsum acc + v).
  Proof. intros L S <-. destruct (merge_ok acc s) as (A1 & A2 & A3); [congruence|]. repeat split; [congruence|assumption|assumption]. Qed.

  Lemma het_8x1_ok : ny = 1 -> het_8x1 x y = Some (ztotal Z.mul X Y).
  Proof.
    intros N1. unfold het_8x1.
    rewrite (het_run_ok _ _ _ _ (fun s v => length s = 8 /\ zsum s = v) (fun i => (P (32 * S i) - P (32 * i))%Z) (fun i => P (i * 32))).
    - cbn [bind]. pose proof (finish_ok 32 (bs_len x / 32)) as FIN. rewrite N1 in FIN at 1. apply FIN, blocks_le. lia.
    - intros i I. pose proof (blocks_le 32). assert (32 * i + 32 <= bs_len x) as R by nia.
      destruct (het_window (4 * i) (32 * i) 32) as (W1 & W2 & W3); [rewrite N1; change (8 / 1) with 8; lia|exists 4; now rewrite N1|assumption|].
      rewrite N1 in W2, W3. change (32 / (8 / 1)) with 4 in W2, W3.
      unfold block_8x1. rewrite load_full, read_ok by assumption. cbn [bind]. eexists. split; [reflexivity|].
      replace (32 * S i) with (32 * i + 32) by lia. rewrite W3.
      destruct (sad_ok (firstn 32 (skipn (32 * i) (bs_data x))) (firstn 4 (skipn (4 * i) (bs_data y)))) as [S1 S2];
        [now apply wlen|now apply wlen|apply bytes_window; apply vx|apply bytes_window; apply vy|].
      split; [split; [assumption|rewrite S2; ring]|]. replace (S i * 32) with (32 * i + 32) by lia. rewrite W3, (Nat.mul_comm i). ring.
    - intros acc m0 m1 m2 m3 v0 v1 v2 v3 L [L0 Q0] [L1 Q1] [L2 Q2] [L3 Q3].
      destruct (wadd_acc acc m0 v0 L L0 Q0) as [A0 C0]. destruct (wadd_acc _ m1 v1 (proj1 A0) L1 Q1) as [A1 C1].
      destruct (wadd_acc _ m2 v2 (proj1 A1) L2 Q2) as [A2 C2]. destruct (wadd_acc _ m3 v3 (proj1 A2) L3 Q3) as [A3 C3].
      split; [assumption|]. eapply cg_trans; [exact C3|]. replace (zsum acc + (v0 + v1 + v2 + v3))%Z with (zsum acc + v0 + v1 + v2 + v3)%Z by ring.
      apply cg_add; [|apply cg_refl]. eapply cg_trans; [exact C2|]. apply cg_add; [|apply cg_refl]. eapply cg_trans; [exact C1|].
      apply cg_add; [exact C0|apply cg_refl].
    - intros acc m w L [L0 Q0]. now apply wadd_acc.
    - reflexivity.
    - apply P_rng', blocks_le. lia.
  Qed.
End Het.

(** ** Dispatch *)
Lemma scalar_ok l2 nx ny x y : 1 <= nx <= 8 -> 1 <= ny <= 8 -> valid (unsigned nx) x -> valid (unsigned ny) y -> bs_len x = bs_len y ->
  (ztotal (term l2) (elements (unsigned nx) x) (elements (unsigned ny) y) < 2 ^ 31)%Z ->
  scalar_dist l2 nx ny x y = Some (ztotal (term l2) (elements (unsigned nx) x) (elements (unsigned ny) y)).
Proof.
  intros NX NY vx vy E B. unfold scalar_dist. rewrite <- (Nat.sub_0_r (bs_len x)).
  rewrite (scalar_from_ok l2 nx ny x y 0 (conf_u nx NX) (conf_u ny NY) vx vy E (Nat.le_0_l _)); change (prefix (term l2) (elements (unsigned nx) x) (elements (unsigned ny) y) 0) with 0%Z;
    rewrite Z.sub_0_r; [reflexivity|exact B].
Qed.
Lemma same_width_ok l2 a nb x y : 1 <= nb <= 8 -> valid (unsigned nb) x -> valid (unsigned nb) y -> bs_len x = bs_len y ->
  (ztotal (term l2) (elements (unsigned nb) x) (elements (unsigned nb) y) <= limit nb nb)%Z ->
  same_width l2 a nb x y = Some (ztotal (term l2) (elements (unsigned nb) x) (elements (unsigned nb) y)).
Proof.
  intros NB vx vy E B.
  assert (forall c, In c [v3_4; v3_2; v4_4_l2; v4_4_ip; v4_2_ip] -> m_bits c = nb -> sm_dist c l2 x y = Some (ztotal (term l2) (elements (unsigned nb) x) (elements (unsigned nb) y))) as SM.
  { intros c I <-. apply sm_dist_ok; try assumption; [now apply smcs_ok|].
    destruct (smcs_ok c I) as (_ & _ & NN & _). unfold limit in B. destruct NN as [NN|NN]; rewrite NN in B |- *; cbn in B; lia. }
  assert (nb <> 1 -> (ztotal (term l2) (elements (unsigned nb) x) (elements (unsigned nb) y) < 2 ^ 31)%Z) as LIM.
  { intros N1. unfold limit in B. destruct ((nb =? 8) && (nb =? 8)); [lia|]. destruct (Nat.eqb_spec nb 1); [contradiction|lia]. }
  assert (nb = 1 \/ nb = 2 \/ nb = 3 \/ nb = 4 \/ nb = 5 \/ nb = 6 \/ nb = 7 \/ nb = 8) as C by lia.
  destruct C as [->|[->|[->|[->|[->|[->|[->| ->]]]]]]]; cbn [same_width].
  - apply bitvector_ok; try assumption. unfold limit in B. cbn in B. lia.
  - destruct a; [destruct l2|..]; try (apply SM; [cbn; tauto|reflexivity]); apply scalar_ok; try assumption; try lia; apply LIM; lia.
  - apply scalar_ok; try assumption; try lia; apply LIM; lia.
  - destruct a; [destruct l2|..]; try (apply SM; [cbn; tauto|reflexivity]); apply scalar_ok; try assumption; try lia; apply LIM; lia.
  - apply scalar_ok; try assumption; try lia; apply LIM; lia.
  - apply scalar_ok; try assumption; try lia; apply LIM; lia.
  - apply scalar_ok; try assumption; try lia; apply LIM; lia.
  - rewrite byte_dist_ok; try assumption; [|apply LIM; lia]. f_equal.
    assert (0 <= ztotal (term l2) (elements (unsigned 8) x) (elements (unsigned 8) y))%Z.
    { apply ztotal_nonneg. intros u v U V. apply term_nonneg; eapply elements_nonneg; eassumption. }
    unfold limit in B. cbn [Nat.eqb andb] in B. rewrite lossy_exact by lia. unfold as_u32. lia.
Qed.
