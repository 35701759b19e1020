(** Proofs about bit-packed vectors. *)
From Coq Require Import List NArith ZArith PeanoNat Bool Lia ZifyNat ZifyN ZifyBool.
From Verif.Lib Require Import Base Lists.
From Verif.Bits Require Import Model Spec.
Import ListNotations.

(** ** Words *)
Lemma mask_ones nb : nb <= 8 -> mask nb = N.ones (N.of_nat nb).
Proof.
  intros H. do 9 (destruct nb as [|nb]; [reflexivity|]). lia.
Qed.
Lemma ones_bit n k : N.testbit (N.ones n) k = (k <? n)%N.
Proof.
  destruct (N.ltb_spec k n); [now apply N.ones_spec_low|now apply N.ones_spec_high].
Qed.
Lemma mod_bit a w k : N.testbit (a mod 2 ^ w) k = ((k <? w)%N && N.testbit a k).
Proof.
  destruct (N.ltb_spec k w); [now apply N.mod_pow2_bits_low|now apply N.mod_pow2_bits_high].
Qed.
Lemma shiftl_bit a n k : N.testbit (N.shiftl a n) k = ((n <=? k)%N && N.testbit a (k - n)).
Proof.
  destruct (N.leb_spec n k); [now apply N.shiftl_spec_high'|now apply N.shiftl_spec_low].
Qed.
Lemma small_bits a n : (a < 2 ^ n)%N -> forall k, (n <= k)%N -> N.testbit a k = false.
Proof.
  intros H k L. destruct (N.eq_dec a 0) as [->|Z]; [apply N.bits_0|]. apply N.bits_above_log2.
  apply N.log2_lt_pow2 in H; lia.
Qed.
Lemma bits_small a n : (forall k, (n <= k)%N -> N.testbit a k = false) -> (a < 2 ^ n)%N.
Proof.
  intros H. replace a with (a mod 2 ^ n)%N; [apply N.mod_lt; apply N.pow_nonzero; lia|].
  apply N.bits_inj. intros k. rewrite mod_bit. destruct (N.ltb_spec k n); [reflexivity|]. now rewrite H.
Qed.
(** The blend common to [pack_u8] and [pack_u16]. *)
Lemma blend_bit w nb before value s k : (k < w)%N ->
  N.testbit (N.lor (N.land before (N.lxor (N.shiftl (N.ones nb) s mod 2 ^ w) (N.ones w)))
                   (N.land (N.shiftl value s mod 2 ^ w) (N.shiftl (N.ones nb) s mod 2 ^ w))) k =
  if ((s <=? k) && (k <? s + nb))%N then N.testbit value (k - s) else N.testbit before k.
Proof.
  intros H. rewrite N.lor_spec, !N.land_spec, N.lxor_spec, !mod_bit, !shiftl_bit, !ones_bit.
  apply N.ltb_lt in H. rewrite H. cbn [andb].
  destruct (N.leb_spec s k) as [L|L]; cbn [andb].
  - replace (k - s <? nb)%N with (k <? s + nb)%N.
    + destruct (k <? s + nb)%N; cbn [xorb negb andb];
        rewrite ?andb_true_r, ?andb_false_r, ?orb_false_r, ?orb_false_l; reflexivity.
    + destruct (N.ltb_spec k (s + nb)), (N.ltb_spec (k - s) nb); lia || reflexivity.
  - cbn [xorb]. rewrite andb_true_r, orb_false_r. reflexivity.
Qed.
Lemma blend_high w nb before value s k : (w <= k)%N -> (before < 2 ^ w)%N ->
  N.testbit (N.lor (N.land before (N.lxor (N.shiftl (N.ones nb) s mod 2 ^ w) (N.ones w)))
                   (N.land (N.shiftl value s mod 2 ^ w) (N.shiftl (N.ones nb) s mod 2 ^ w))) k = false.
Proof.
  intros H B. rewrite N.lor_spec, !N.land_spec, !mod_bit. rewrite (small_bits before w B k H).
  destruct (N.ltb_spec k w); [lia|]. reflexivity.
Qed.
Lemma value_fits nb v : nb <= 8 -> (v <=? mask nb)%N = true <-> (v < 2 ^ N.of_nat nb)%N.
Proof.
  intros H. rewrite mask_ones, N.ones_equiv, N.leb_le by assumption.
  assert (2 ^ N.of_nat nb <> 0)%N by (apply N.pow_nonzero; lia). lia.
Qed.
Lemma pack_u8_spec nb before value s : 1 <= nb <= 8 -> s + nb <= 8 -> (before < 256)%N -> (value < 2 ^ N.of_nat nb)%N ->
  exists r, pack_u8 nb before value s = Some r /\ (r < 256)%N /\
  forall k, k < 8 -> N.testbit r (N.of_nat k) =
    if (s <=? k) && (k <? s + nb) then N.testbit value (N.of_nat (k - s)) else N.testbit before (N.of_nat k).
Proof.
  intros B S1 HB HV. unfold pack_u8. apply value_fits in HV; [|lia]. rewrite HV.
  destruct (Nat.leb_spec s (8 - nb)); [|lia]. cbn [andb]. eexists. split; [reflexivity|].
  rewrite mask_ones by lia. change 255%N with (N.ones 8). split.
  - change 256%N with (2 ^ 8)%N. apply bits_small. intros k Hk. now apply blend_high.
  - intros k Hk. rewrite blend_bit by lia.
    replace ((N.of_nat s <=? N.of_nat k) && (N.of_nat k <? N.of_nat s + N.of_nat nb))%N with ((s <=? k) && (k <? s + nb)) by lia.
    replace (N.of_nat k - N.of_nat s)%N with (N.of_nat (k - s)) by lia. reflexivity.
Qed.
Lemma pack_u16_spec nb before value s : 1 <= nb <= 8 -> s < 8 -> 8 < s + nb -> (before < 65536)%N -> (value < 2 ^ N.of_nat nb)%N ->
  exists r, pack_u16 nb before value s = Some r /\ (r < 65536)%N /\
  forall k, k < 16 -> N.testbit r (N.of_nat k) =
    if (s <=? k) && (k <? s + nb) then N.testbit value (N.of_nat (k - s)) else N.testbit before (N.of_nat k).
Proof.
  intros B S1 S2 HB HV. unfold pack_u16. apply value_fits in HV; [|lia]. rewrite HV.
  destruct (Nat.ltb_spec s 8); [|lia]. destruct (Nat.ltb_spec (8 - nb) s); [|lia]. cbn [andb]. eexists. split; [reflexivity|].
  rewrite mask_ones by lia. change 65535%N with (N.ones 16). split.
  - change 65536%N with (2 ^ 16)%N. apply bits_small. intros k Hk. now apply blend_high.
  - intros k Hk. rewrite blend_bit by lia.
    replace ((N.of_nat s <=? N.of_nat k) && (N.of_nat k <? N.of_nat s + N.of_nat nb))%N with ((s <=? k) && (k <? s + nb)) by lia.
    replace (N.of_nat k - N.of_nat s)%N with (N.of_nat (k - s)) by lia. reflexivity.
Qed.
Lemma unpack_u8_spec nb byte s : 1 <= nb <= 8 -> s + nb <= 8 ->
  exists r, unpack_u8 nb byte s = Some r /\
  forall k, N.testbit r (N.of_nat k) = (k <? nb) && N.testbit byte (N.of_nat (s + k)).
Proof.
  intros B S1. unfold unpack_u8. destruct (Nat.leb_spec s (8 - nb)); [|lia]. eexists. split; [reflexivity|].
  intros k. rewrite mask_ones, N.land_spec, N.shiftr_spec', ones_bit by lia.
  replace (N.of_nat k <? N.of_nat nb)%N with (k <? nb) by lia.
  replace (N.of_nat k + N.of_nat s)%N with (N.of_nat (s + k)) by lia. apply andb_comm.
Qed.
Lemma unpack_u16_spec nb word s : 1 <= nb <= 8 -> s < 8 -> 8 < s + nb ->
  exists r, unpack_u16 nb word s = Some r /\
  forall k, N.testbit r (N.of_nat k) = (k <? nb) && N.testbit word (N.of_nat (s + k)).
Proof.
  intros B S1 S2. unfold unpack_u16. destruct (Nat.ltb_spec s 8); [|lia]. destruct (Nat.ltb_spec (8 - nb) s); [|lia]. cbn [andb].
  eexists. split; [reflexivity|].
  intros k. rewrite mask_ones, N.land_spec, mod_bit, N.shiftr_spec', ones_bit by lia.
  replace (N.of_nat k <? N.of_nat nb)%N with (k <? nb) by lia.
  replace (N.of_nat k + N.of_nat s)%N with (N.of_nat (s + k)) by lia.
  destruct (Nat.ltb_spec k nb); [|now rewrite andb_false_r].
  destruct (N.ltb_spec (N.of_nat k) 8); [|lia]. now rewrite andb_true_r.
Qed.
Lemma word_bit b0 b1 k : (b0 < 256)%N -> (b1 < 256)%N -> k < 16 ->
  N.testbit (b0 + 256 * b1) (N.of_nat k) = if k <? 8 then N.testbit b0 (N.of_nat k) else N.testbit b1 (N.of_nat (k - 8)).
Proof.
  intros H0 H1 Hk. destruct (Nat.ltb_spec k 8) as [L|L].
  - rewrite <- (N.mod_pow2_bits_low _ 8) by lia.
    replace ((b0 + 256 * b1) mod 2 ^ 8)%N with b0; [reflexivity|].
    change (2 ^ 8)%N with 256%N. rewrite N.mul_comm, N.mod_add by lia. symmetry. now apply N.mod_small.
  - replace (N.of_nat k) with (N.of_nat (k - 8) + 8)%N by lia. rewrite <- N.div_pow2_bits.
    replace ((b0 + 256 * b1) / 2 ^ 8)%N with b1; [reflexivity|].
    change (2 ^ 8)%N with 256%N. rewrite N.mul_comm, N.div_add by lia. rewrite N.div_small by assumption. lia.
Qed.
Lemma split_word_bit w k : (w < 65536)%N -> k < 16 ->
  N.testbit w (N.of_nat k) = if k <? 8 then N.testbit (w mod 256) (N.of_nat k) else N.testbit (w / 256) (N.of_nat (k - 8)).
Proof.
  intros H Hk. rewrite (N.div_mod w 256) at 1 by lia. rewrite N.add_comm. apply word_bit; auto.
  - apply N.mod_lt. lia.
  - apply N.div_lt_upper_bound; lia.
Qed.

(** ** Bit strings *)
Lemma nth_set {A} (l : list A) k x j d : k < length l -> nth j (set_nth k x l) d = if j =? k then x else nth j l d.
Proof.
  intros H. destruct (Nat.lt_ge_cases j (length l)) as [L|L].
  - apply nth_error_nth. rewrite nth_error_set_nth.
    destruct (Nat.eqb_spec j k) as [->|D].
    + apply Nat.ltb_lt in H. now rewrite H.
    + now apply nth_error_nth'.
  - rewrite !nth_overflow by (rewrite ?set_nth_length; lia).
    destruct (Nat.eqb_spec j k); [lia|reflexivity].
Qed.
Lemma set_nth_forall {A} (P : A -> Prop) x : P x -> forall l k, Forall P l -> Forall P (set_nth k x l).
Proof.
  intros Hx. induction l as [|y l IH]; intros [|k] H; cbn [set_nth]; auto; inversion H; subst; constructor; auto.
Qed.
Definition dok (data : bytes) : Prop := Forall byte_ok data.
Lemma dok_nth data k : dok data -> (nth k data 0 < 256)%N.
Proof.
  intros H. destruct (Nat.lt_ge_cases k (length data)) as [L|L].
  - unfold dok in H. rewrite Forall_forall in H. apply H. now apply nth_In.
  - rewrite nth_overflow by lia. lia.
Qed.

(** Writing: the bits given by [pos 0 .. pos (nb-1)] become those of [v], no other changes. *)
Definition writes (pos : nat -> nat) (nb : nat) (v : N) (data data' : bytes) : Prop :=
  length data' = length data /\ dok data' /\
  (forall j, j < nb -> bit_of data' (pos j) = N.testbit v (N.of_nat j)) /\
  (forall k, (forall j, j < nb -> k <> pos j) -> bit_of data' k = bit_of data k).
Definition reads (pos : nat -> nat) (nb : nat) (r : N) (data : bytes) : Prop :=
  forall k, N.testbit r (N.of_nat k) = (k <? nb) && bit_of data (pos k).

Lemma divmod8 k : k = 8 * (k / 8) + k mod 8 /\ k mod 8 < 8.
Proof. split; [apply Nat.div_mod_eq|apply Nat.mod_upper_bound; lia]. Qed.
Lemma bit_at data q r : r < 8 -> bit_of data (8 * q + r) = N.testbit (nth q data 0%N) (N.of_nat r).
Proof.
  intros H. unfold bit_of. replace ((8 * q + r) / 8) with q.
  - replace ((8 * q + r) mod 8) with r; [reflexivity|]. rewrite Nat.mul_comm, Nat.add_comm, Nat.mod_add by lia.
    symmetry. now apply Nat.mod_small.
  - rewrite Nat.mul_comm, Nat.add_comm, Nat.div_add by lia. rewrite Nat.div_small by assumption. lia.
Qed.

Lemma dense_facts nb i : 1 <= nb <= 8 ->
  let ba := nb * i in let q := ba / 8 in let s := ba - 8 * q in
  ba = 8 * q + s /\ s < 8 /\ ((ba + nb - 1) / 8 = q /\ s + nb <= 8 \/ (ba + nb - 1) / 8 = q + 1 /\ 8 < s + nb).
Proof.
  intros B ba q s. destruct (divmod8 ba) as [D M].
  assert (E : s = ba mod 8) by (unfold s, q; lia). split; [lia|]. split; [lia|].
  destruct (Nat.le_gt_cases (s + nb) 8) as [L|L]; [left|right]; (split; [|assumption]).
  - symmetry. apply Nat.div_unique with (r := s + nb - 1); lia.
  - symmetry. apply Nat.div_unique with (r := s + nb - 1 - 8); lia.
Qed.
Lemma dense_pack_spec nb data i v : 1 <= nb <= 8 -> dok data -> (nb * i + nb - 1) / 8 < length data -> (v < 2 ^ N.of_nat nb)%N ->
  exists data', dense_pack nb data i v = Some data' /\ writes (fun j => nb * i + j) nb v data data'.
Proof.
  intros B D L HV. destruct (dense_facts nb i B) as (E & S8 & C). unfold dense_pack.
  set (q := nb * i / 8) in *. set (s := nb * i - 8 * q) in *.
  apply Nat.ltb_lt in L. rewrite L. apply Nat.ltb_lt in L. cbn [negb].
  destruct C as [[C1 C2]|[C1 C2]]; rewrite C1 in *.
  - rewrite Nat.eqb_refl. rewrite (nth_error_nth' _ 0%N) by assumption.
    destruct (pack_u8_spec nb (nth q data 0%N) v s B C2 (dok_nth data q D) HV) as (r & -> & R1 & R2).
    eexists. split; [reflexivity|]. split; [apply set_nth_length|]. split; [now apply set_nth_forall|]. split.
    + intros j Hj. rewrite E, <- Nat.add_assoc, bit_at by lia. rewrite nth_set, Nat.eqb_refl, R2 by (assumption || lia).
      destruct (Nat.leb_spec s (s + j)); [|lia]. destruct (Nat.ltb_spec (s + j) (s + nb)); [|lia]. cbn [andb].
      do 2 f_equal. lia.
    + intros k Hk. destruct (divmod8 k) as [K1 K2]. rewrite K1, !bit_at by assumption.
      rewrite nth_set by assumption. destruct (Nat.eqb_spec (k / 8) q) as [Q|Q]; [|reflexivity].
      rewrite R2 by assumption. rewrite <- Q.
      destruct (Nat.leb_spec s (k mod 8)); [|reflexivity]. destruct (Nat.ltb_spec (k mod 8) (s + nb)); [|reflexivity].
      exfalso. apply (Hk (k mod 8 - s)); lia.
  - destruct (Nat.eqb_spec q (q + 1)); [lia|]. rewrite !(nth_error_nth' _ 0%N) by lia.
    pose proof (dok_nth data q D) as D0. pose proof (dok_nth data (q + 1) D) as D1.
    set (b0 := nth q data 0%N) in *. set (b1 := nth (q + 1) data 0%N) in *.
    destruct (pack_u16_spec nb (b0 + 256 * b1) v s B S8 C2 ltac:(lia) HV) as (w & -> & R1 & R2).
    eexists. split; [reflexivity|].
    assert (W0 : (w mod 256 < 256)%N) by (apply N.mod_lt; lia).
    assert (W1 : (w / 256 < 256)%N) by (apply N.div_lt_upper_bound; lia).
    split; [now rewrite !set_nth_length|]. split; [now repeat apply set_nth_forall|].
    assert (BIT : forall r, r < 16 -> bit_of (set_nth (q + 1) (w / 256)%N (set_nth q (w mod 256)%N data)) (8 * q + r) = N.testbit w (N.of_nat r)).
    { intros r Hr. rewrite (split_word_bit w r R1 Hr). destruct (Nat.ltb_spec r 8).
      - rewrite bit_at by assumption. rewrite nth_set by (rewrite set_nth_length; lia).
        destruct (Nat.eqb_spec q (q + 1)); [lia|]. rewrite nth_set by lia. now rewrite Nat.eqb_refl.
      - replace (8 * q + r) with (8 * (q + 1) + (r - 8)) by lia. rewrite bit_at by lia.
        rewrite nth_set by (rewrite set_nth_length; lia). now rewrite Nat.eqb_refl. }
    assert (OLD : forall r, r < 16 -> bit_of data (8 * q + r) = N.testbit (b0 + 256 * b1) (N.of_nat r)).
    { intros r Hr. rewrite (word_bit b0 b1 r D0 D1 Hr). destruct (Nat.ltb_spec r 8).
      - now rewrite bit_at.
      - replace (8 * q + r) with (8 * (q + 1) + (r - 8)) by lia. now rewrite bit_at by lia. }
    split.
    + intros j Hj. rewrite E, <- Nat.add_assoc, BIT, R2 by lia.
      destruct (Nat.leb_spec s (s + j)); [|lia]. destruct (Nat.ltb_spec (s + j) (s + nb)); [|lia]. cbn [andb].
      do 2 f_equal. lia.
    + intros k Hk. destruct (Nat.lt_ge_cases k (8 * q)) as [KL|KL]; [|destruct (Nat.lt_ge_cases k (8 * q + 16)) as [KR|KR]].
      * destruct (divmod8 k) as [K1 K2]. rewrite K1, !bit_at by assumption.
        rewrite !nth_set by (rewrite ?set_nth_length; lia).
        destruct (Nat.eqb_spec (k / 8) (q + 1)); [lia|]. destruct (Nat.eqb_spec (k / 8) q); [lia|reflexivity].
      * replace k with (8 * q + (k - 8 * q)) by lia. rewrite BIT, OLD, R2 by lia.
        destruct (Nat.leb_spec s (k - 8 * q)); [|reflexivity]. destruct (Nat.ltb_spec (k - 8 * q) (s + nb)); [|reflexivity].
        exfalso. apply (Hk (k - 8 * q - s)); lia.
      * destruct (divmod8 k) as [K1 K2]. rewrite K1, !bit_at by assumption.
        rewrite !nth_set by (rewrite ?set_nth_length; lia).
        destruct (Nat.eqb_spec (k / 8) (q + 1)); [lia|]. destruct (Nat.eqb_spec (k / 8) q); [lia|reflexivity].
Qed.
Lemma dense_unpack_spec nb data i : 1 <= nb <= 8 -> dok data -> (nb * i + nb - 1) / 8 < length data ->
  exists r, dense_unpack nb data i = Some r /\ reads (fun j => nb * i + j) nb r data.
Proof.
  intros B D L. destruct (dense_facts nb i B) as (E & S8 & C). unfold dense_unpack.
  set (q := nb * i / 8) in *. set (s := nb * i - 8 * q) in *.
  apply Nat.ltb_lt in L. rewrite L. apply Nat.ltb_lt in L. cbn [negb].
  destruct C as [[C1 C2]|[C1 C2]]; rewrite C1 in *.
  - rewrite Nat.eqb_refl. rewrite (nth_error_nth' _ 0%N) by assumption.
    destruct (unpack_u8_spec nb (nth q data 0%N) s B C2) as (r & -> & R). eexists. split; [reflexivity|].
    intros k. rewrite R. destruct (Nat.ltb_spec k nb); [|reflexivity]. cbn [andb].
    rewrite E, <- Nat.add_assoc, bit_at by lia. reflexivity.
  - destruct (Nat.eqb_spec q (q + 1)); [lia|]. rewrite !(nth_error_nth' _ 0%N) by lia.
    pose proof (dok_nth data q D) as D0. pose proof (dok_nth data (q + 1) D) as D1.
    destruct (unpack_u16_spec nb (nth q data 0 + 256 * nth (q + 1) data 0)%N s B S8 C2) as (r & -> & R).
    eexists. split; [reflexivity|]. intros k. rewrite R. destruct (Nat.ltb_spec k nb); [|reflexivity]. cbn [andb].
    rewrite word_bit by (assumption || lia). rewrite E, <- Nat.add_assoc. destruct (Nat.ltb_spec (s + k) 8).
    + now rewrite bit_at.
    + replace (8 * q + (s + k)) with (8 * (q + 1) + (s + k - 8)) by lia. now rewrite bit_at by lia.
Qed.

(** ** Bit transposition *)
Definition tpos (i j : nat) : nat := 8 * (32 * (i / 64) + 8 * j + (i mod 64) / 8) + i mod 8.
Lemma tbyte v e bit k : bit < 8 -> k < 8 ->
  N.testbit (N.lor (N.land v (N.lxor (N.shiftl 1 (N.of_nat bit) mod 2 ^ 8) 255))
              (N.shiftl (N.land e 1) (N.of_nat bit) mod 2 ^ 8)) (N.of_nat k) =
  if k =? bit then N.testbit e 0 else N.testbit v (N.of_nat k).
Proof.
  intros Hb Hk. change 255%N with (N.ones 8). change 1%N with (N.ones 1).
  rewrite N.lor_spec, N.land_spec, N.lxor_spec, !mod_bit, !shiftl_bit, N.land_spec, !ones_bit.
  destruct (N.ltb_spec (N.of_nat k) 8); [|lia]. cbn [andb].
  destruct (Nat.eqb_spec k bit) as [->|Dk].
  - rewrite N.leb_refl, N.sub_diag. cbn [N.ltb N.compare andb xorb]. rewrite andb_false_r, andb_true_r. reflexivity.
  - destruct (N.leb_spec (N.of_nat bit) (N.of_nat k)).
    + destruct (N.ltb_spec (N.of_nat k - N.of_nat bit) 1); [lia|]. cbn [andb xorb].
      rewrite andb_true_r, andb_false_r, orb_false_r. reflexivity.
    + cbn [andb xorb]. rewrite andb_true_r, orb_false_r. reflexivity.
Qed.
Lemma tbyte_ok v e bit : (v < 256)%N ->
  (N.lor (N.land v (N.lxor (N.shiftl 1 (N.of_nat bit) mod 2 ^ 8) 255))
              (N.shiftl (N.land e 1) (N.of_nat bit) mod 2 ^ 8) < 256)%N.
Proof.
  intros H. change 256%N with (2 ^ 8)%N. apply bits_small. intros k Hk.
  rewrite N.lor_spec, N.land_spec, mod_bit. rewrite (small_bits v 8 H k Hk). destruct (N.ltb_spec k 8); [lia|]. reflexivity.
Qed.
Lemma tpack_loop bs bit e : bit < 8 -> forall n p0 data, dok data -> bs + 8 * (p0 + n) <= length data + 7 -> (0 < n -> bs + 8 * (p0 + n - 1) < length data) ->
  exists data', transpose_pack_loop (seq p0 n) bs bit e data = Some data' /\
  length data' = length data /\ dok data' /\
  (forall j, p0 <= j < p0 + n -> bit_of data' (8 * (bs + 8 * j) + bit) = N.testbit e (N.of_nat j)) /\
  (forall k, (forall j, p0 <= j < p0 + n -> k <> 8 * (bs + 8 * j) + bit) -> bit_of data' k = bit_of data k).
Proof.
  intros Hb. induction n as [|n IH]; intros p0 data D L0 L; cbn [seq transpose_pack_loop].
  - exists data. repeat split; auto. intros j Hj. lia.
  - rewrite (nth_error_nth' _ 0%N) by lia.
    set (b := bs + 8 * p0). set (v := nth b data 0%N).
    set (v' := N.lor (N.land v (N.lxor (N.shiftl 1 (N.of_nat bit) mod 2 ^ 8) 255))
              (N.shiftl (N.land (N.shiftr e (N.of_nat p0)) 1) (N.of_nat bit) mod 2 ^ 8)).
    assert (V' : (v' < 256)%N) by (apply tbyte_ok; now apply dok_nth).
    destruct (IH (S p0) (set_nth b v' data)) as (data' & E & LN & D' & W & O).
    { now apply set_nth_forall. } { rewrite set_nth_length. lia. } { rewrite set_nth_length. intros. lia. }
    exists data'. split; [exact E|]. split; [now rewrite LN, set_nth_length|]. split; [assumption|].
    assert (SETB : forall k, bit_of (set_nth b v' data) k = if k =? 8 * b + bit then N.testbit e (N.of_nat p0) else bit_of data k).
    { intros k. destruct (divmod8 k) as [K1 K2]. rewrite K1 at 1 3. rewrite !bit_at by assumption.
      rewrite nth_set by (unfold b; lia). destruct (Nat.eqb_spec (k / 8) b) as [Q|Q].
      - unfold v'. rewrite tbyte by assumption. destruct (Nat.eqb_spec (k mod 8) bit) as [R|R].
        + destruct (Nat.eqb_spec k (8 * b + bit)); [|lia]. now rewrite N.shiftr_spec', N.add_0_l.
        + destruct (Nat.eqb_spec k (8 * b + bit)); [lia|]. unfold v. now rewrite Q.
      - destruct (Nat.eqb_spec k (8 * b + bit)); [|reflexivity]. exfalso. apply Q. lia. }
    split.
    + intros j Hj. destruct (Nat.eq_dec j p0) as [->|Dj].
      * rewrite O by (intros j' Hj'; lia). rewrite SETB. fold b. now rewrite Nat.eqb_refl.
      * apply W. lia.
    + intros k Hk. rewrite O by (intros j Hj; apply Hk; lia). rewrite SETB.
      destruct (Nat.eqb_spec k (8 * b + bit)) as [Q|Q]; [|reflexivity]. exfalso. apply (Hk p0); [lia|exact Q].
Qed.
Lemma tunpack_loop bs bit data : bit < 8 -> forall n p0 out, p0 + n <= 8 -> (0 < n -> bs + 8 * (p0 + n - 1) < length data) ->
  exists r, transpose_unpack_loop (seq p0 n) bs bit out data = Some r /\
  forall k, N.testbit r (N.of_nat k) =
    N.testbit out (N.of_nat k) || ((p0 <=? k) && (k <? p0 + n) && bit_of data (8 * (bs + 8 * k) + bit)).
Proof.
  intros Hb. induction n as [|n IH]; intros p0 out P L; cbn [seq transpose_unpack_loop].
  - exists out. split; [reflexivity|]. intros k. destruct (Nat.leb_spec p0 k); destruct (Nat.ltb_spec k (p0 + 0)); try lia;
      cbn [andb]; now rewrite orb_false_r.
  - rewrite (nth_error_nth' _ 0%N) by lia.
    edestruct (IH (S p0)) as (r & E & R); [lia|lia|]. exists r. split; [exact E|]. intros k. rewrite R.
    change 1%N with (N.ones 1). rewrite N.lor_spec, mod_bit, shiftl_bit, N.land_spec, N.shiftr_spec', ones_bit.
    rewrite <- orb_assoc. f_equal. destruct (Nat.eq_dec k p0) as [->|Dk].
    + destruct (N.ltb_spec (N.of_nat p0) 8); [|lia]. rewrite N.leb_refl, N.sub_diag, N.add_0_l.
      destruct (Nat.leb_spec (S p0) p0); [lia|]. destruct (Nat.leb_spec p0 p0); [|lia].
      destruct (Nat.ltb_spec p0 (p0 + S n)); [|lia]. rewrite bit_at by assumption. cbn [N.ltb N.compare andb].
      now rewrite andb_true_r, orb_false_r.
    + destruct (N.leb_spec (N.of_nat p0) (N.of_nat k)).
      * destruct (N.ltb_spec (N.of_nat k - N.of_nat p0) 1); [lia|]. rewrite andb_false_r. cbn [andb]. rewrite andb_false_r. cbn [orb].
        destruct (Nat.leb_spec (S p0) k); destruct (Nat.leb_spec p0 k); lia.
      * cbn [andb]. rewrite andb_false_r. cbn [orb].
        destruct (Nat.leb_spec (S p0) k); destruct (Nat.leb_spec p0 k); try lia; reflexivity.
Qed.

(** ** Either layout *)
Lemma block_bound i count : i < count -> i / 64 < div_round_up count 64.
Proof.
  intros H. unfold div_round_up. pose proof (Nat.div_mod_eq count 64). pose proof (Nat.mod_upper_bound count 64 ltac:(lia)).
  pose proof (Nat.div_mod_eq i 64). pose proof (Nat.mod_upper_bound i 64 ltac:(lia)).
  destruct (Nat.eqb_spec (count mod 64) 0); lia.
Qed.
Lemma dense_bound nb i count : 1 <= nb -> i < count -> (nb * i + nb - 1) / 8 < div_round_up (nb * count) 8.
Proof.
  intros B H. unfold div_round_up. pose proof (Nat.div_mod_eq (nb * count) 8). pose proof (Nat.mod_upper_bound (nb * count) 8 ltac:(lia)).
  pose proof (Nat.div_mod_eq (nb * i + nb - 1) 8).
  assert (nb * i + nb <= nb * count) by nia.
  destruct (Nat.eqb_spec ((nb * count) mod 8) 0); lia.
Qed.
Lemma sub_byte i : (i mod 64) / 8 < 8.
Proof. apply Nat.div_lt_upper_bound; [lia|]. pose proof (Nat.mod_upper_bound i 64 ltac:(lia)). lia. Qed.
Definition wf (c : conf) (s : bitslice) : Prop :=
  dok (bs_data s) /\ length (bs_data s) = bytes_for (c_perm c) (c_bits c) (bs_len s).
Lemma pack_spec c s i v : conf_ok c -> wf c s -> i < bs_len s -> (v < 2 ^ N.of_nat (c_bits c))%N ->
  exists data', pack (c_perm c) (c_bits c) (bs_data s) i v = Some data' /\
    writes (place c i) (c_bits c) v (bs_data s) data'.
Proof.
  intros (B & _ & CT) (D & L) Hi HV. unfold pack, place. unfold bytes_for in L. destruct (c_perm c).
  - apply dense_pack_spec; auto. rewrite L. apply dense_bound; lia.
  - specialize (CT eq_refl). rewrite CT in *. unfold transpose_pack.
    pose proof (block_bound i _ Hi). pose proof (sub_byte i). pose proof (Nat.mod_upper_bound i 8 ltac:(lia)).
    set (bs := 32 * (i / 64) + (i mod 64) / 8) in *.
    destruct (tpack_loop bs (i mod 8) v ltac:(lia) 4 0 (bs_data s) D) as (data' & E & LN & D' & W & O); [lia|lia|].
    exists data'. split; [exact E|]. split; [exact LN|]. split; [exact D'|]. split.
    + intros j Hj. rewrite <- (W j) by lia. f_equal. lia.
    + intros k Hk. apply O. intros j Hj. specialize (Hk j ltac:(lia)). lia.
Qed.
Lemma unpack_spec c s i : conf_ok c -> wf c s -> i < bs_len s ->
  exists r, unpack (c_perm c) (c_bits c) (bs_data s) i = Some r /\
    reads (place c i) (c_bits c) r (bs_data s).
Proof.
  intros (B & _ & CT) (D & L) Hi. unfold unpack, place. unfold bytes_for in L. destruct (c_perm c).
  - apply dense_unpack_spec; auto. rewrite L. apply dense_bound; lia.
  - specialize (CT eq_refl). rewrite CT in *. unfold transpose_unpack.
    pose proof (block_bound i _ Hi). pose proof (sub_byte i). pose proof (Nat.mod_upper_bound i 8 ltac:(lia)).
    set (bs := 32 * (i / 64) + (i mod 64) / 8) in *.
    destruct (tunpack_loop bs (i mod 8) (bs_data s) ltac:(lia) 4 0 0%N) as (r & E & R); [lia|lia|].
    exists r. split; [exact E|]. intros k. rewrite R, N.bits_0. cbn [orb Nat.leb andb Nat.add].
    f_equal. f_equal. lia.
Qed.
Lemma tparts i : i = 64 * (i / 64) + 8 * (i mod 64 / 8) + i mod 8.
Proof.
  pose proof (Nat.div_mod_eq i 64). pose proof (Nat.div_mod_eq (i mod 64) 8).
  assert (i mod 64 mod 8 = i mod 8); [|lia].
  rewrite H at 2. rewrite Nat.add_comm. replace (64 * (i / 64)) with (8 * (i / 64) * 8) by lia. now rewrite Nat.mod_add by lia.
Qed.
Lemma place_inj c i j i' j' : conf_ok c -> j < c_bits c -> j' < c_bits c -> place c i j = place c i' j' -> i = i' /\ j = j'.
Proof.
  intros (B & _ & CT) J J'. unfold place. destruct (c_perm c).
  - intros E. assert (i = i') by nia. split; [assumption|]. subst. lia.
  - specialize (CT eq_refl). rewrite CT in *. intros E.
    pose proof (sub_byte i). pose proof (sub_byte i').
    pose proof (Nat.mod_upper_bound i 8 ltac:(lia)). pose proof (Nat.mod_upper_bound i' 8 ltac:(lia)).
    pose proof (tparts i). pose proof (tparts i'). lia.
Qed.
Lemma number_bit f n k : N.testbit (number f n) (N.of_nat k) = (k <? n) && f k.
Proof.
  assert (LT : forall n, (number f n < 2 ^ N.of_nat n)%N).
  { clear. induction n as [|n IH]; cbn [number]; [lia|]. rewrite Nat2N.inj_succ, N.pow_succ_r'. destruct (f n); lia. }
  revert k. induction n as [|n IH]; intros k; cbn [number]; [apply N.bits_0|].
  destruct (Nat.lt_trichotomy k n) as [L|[->|L]].
  - destruct (Nat.ltb_spec k (S n)); [|lia]. specialize (IH k). destruct (Nat.ltb_spec k n); [|lia]. rewrite <- IH.
    destruct (f n); [|now rewrite N.add_0_r].
    rewrite <- (N.mod_pow2_bits_low _ (N.of_nat n)) by lia. rewrite <- (N.mul_1_l (2 ^ N.of_nat n)) at 1.
    rewrite N.mod_add by (apply N.pow_nonzero; lia). rewrite N.mod_pow2_bits_low by lia. reflexivity.
  - destruct (Nat.ltb_spec n (S n)); [|lia]. cbn [andb]. specialize (LT n).
    replace (N.testbit (number f n + (if f n then 2 ^ N.of_nat n else 0)) (N.of_nat n))
      with (N.testbit (number f n + (if f n then 2 ^ N.of_nat n else 0)) (0 + N.of_nat n)) by (now rewrite N.add_0_l).
    rewrite <- N.div_pow2_bits. destruct (f n).
    + rewrite <- (N.mul_1_l (2 ^ N.of_nat n)) at 1. rewrite N.div_add by (apply N.pow_nonzero; lia).
      rewrite N.div_small by assumption. reflexivity.
    + rewrite N.add_0_r, N.div_small by assumption. reflexivity.
  - destruct (Nat.ltb_spec k (S n)); [lia|]. cbn [andb]. apply (small_bits _ (N.of_nat (S n))); [|lia].
    specialize (LT (S n)). cbn [number] in LT. exact LT.
Qed.
Lemma number_lt f n : (number f n < 2 ^ N.of_nat n)%N.
Proof.
  induction n as [|n IH]; cbn [number]; [lia|]. rewrite Nat2N.inj_succ, N.pow_succ_r'. destruct (f n); lia.
Qed.
Lemma number_ext f g n : (forall j, j < n -> f j = g j) -> number f n = number g n.
Proof. intros H. induction n as [|n IH]; cbn [number]; [reflexivity|]. rewrite IH, H by auto. reflexivity. Qed.
Lemma number_testbit v n : (v < 2 ^ N.of_nat n)%N -> number (fun j => N.testbit v (N.of_nat j)) n = v.
Proof.
  intros H. apply N.bits_inj. intros k. rewrite <- (N2Nat.id k), number_bit.
  destruct (Nat.ltb_spec (N.to_nat k) n); [reflexivity|]. cbn [andb]. symmetry. apply (small_bits _ _ H). lia.
Qed.
Lemma reads_number pos nb r data : reads pos nb r data -> r = number (fun j => bit_of data (pos j)) nb.
Proof. intros H. apply N.bits_inj. intros k. rewrite <- (N2Nat.id k), number_bit. apply H. Qed.

(** ** The refinement *)
Lemma encode_spec c v : conf_ok c ->
  match encode (c_repr c) (c_bits c) v with
  | Some e => storable c v = true /\ (e < 2 ^ N.of_nat (c_bits c))%N /\
      v = match c_repr c with Unsigned => Z.of_N e | Binary => if (Z.of_N e =? 0)%Z then -1 else 1 end%Z
  | None => storable c v = false
  end.
Proof.
  intros (B & CB & _). unfold encode, storable. destruct (c_repr c).
  - assert (P : (2 ^ Z.of_nat (c_bits c) <= 256)%Z).
    { change 256%Z with (2 ^ 8)%Z. apply Z.pow_le_mono_r; lia. }
    assert (Q : Z.of_N (2 ^ N.of_nat (c_bits c)) = (2 ^ Z.of_nat (c_bits c))%Z) by (rewrite N2Z.inj_pow; f_equal; lia).
    destruct (Z.leb_spec 0 v); cbn [andb]; [|reflexivity].
    destruct (Z.leb_spec v (2 ^ Z.of_nat (c_bits c) - 1)).
    + rewrite Z.mod_small by lia. split; [lia|]. split; lia.
    + lia.
  - rewrite (CB eq_refl). destruct (Z.eqb_spec v (-1)) as [->|]; [cbn; repeat split; lia|].
    destruct (Z.eqb_spec v 1) as [->|]; [cbn; repeat split; lia|]. reflexivity.
Qed.
Lemma decode_spec c data i : conf_ok c ->
  decode (c_repr c) (c_bits c) (number (fun j => bit_of data (place c i j)) (c_bits c)) = Some (element c data i).
Proof.
  intros (B & CB & _). unfold decode, element. pose proof (number_lt (fun j => bit_of data (place c i j)) (c_bits c)) as L.
  set (r := number _ _) in *. destruct (c_repr c).
  - assert (Q : Z.of_N (2 ^ N.of_nat (c_bits c)) = (2 ^ Z.of_nat (c_bits c))%Z) by (rewrite N2Z.inj_pow; f_equal; lia).
    destruct (Z.leb_spec (Z.of_N r) (2 ^ Z.of_nat (c_bits c) - 1)); [reflexivity|lia].
  - rewrite (CB eq_refl) in L. change (2 ^ N.of_nat 1)%N with 2%N in L. f_equal.
    destruct (Z.eqb_spec (Z.of_N r) 0); lia.
Qed.
Lemma elements_length c s : length (elements c s) = bs_len s.
Proof. unfold elements. now rewrite map_length, seq_length. Qed.
Lemma elements_nth c s i : nth_error (elements c s) i = if i <? bs_len s then Some (element c (bs_data s) i) else None.
Proof.
  unfold elements. destruct (Nat.ltb_spec i (bs_len s)).
  - apply map_nth_error. rewrite (nth_error_nth' _ 0) by (rewrite seq_length; lia). now rewrite seq_nth.
  - apply nth_error_None. rewrite map_length, seq_length. lia.
Qed.
Lemma writes_elements c data data' n i v : conf_ok c -> i < n ->
  writes (place c i) (c_bits c) v data data' -> (v < 2 ^ N.of_nat (c_bits c))%N ->
  elements c (mkbs data' n) =
  set_nth i (match c_repr c with Unsigned => Z.of_N v | Binary => if (Z.of_N v =? 0)%Z then -1 else 1 end%Z) (elements c (mkbs data n)).
Proof.
  intros C Hi (LN & D & W & O) HV. apply nth_error_ext. intros j.
  rewrite nth_error_set_nth, !elements_nth, elements_length. cbn [bs_len bs_data].
  destruct (Nat.ltb_spec j n) as [Hj|Hj].
  - destruct (Nat.eqb_spec j i) as [->|Dj].
    + unfold element. rewrite (number_ext _ (fun j => N.testbit v (N.of_nat j))) by exact W.
      now rewrite number_testbit.
    + f_equal. unfold element.
      rewrite (number_ext (fun j0 => bit_of data' (place c j j0)) (fun j0 => bit_of data (place c j j0))); [reflexivity|].
      intros b Hb. apply O. intros b' Hb' E. apply Dj. eapply (place_inj c j b i b'); eauto.
  - destruct (Nat.eqb_spec j i); [lia|reflexivity].
Qed.
Lemma op_refines c s o : conf_ok c -> wf c s ->
  let (s', r) := bs_op c s o in
  wf c s' /\ bs_len s' = bs_len s /\ list_op c (elements c s) o = (elements c s', r) /\
  (forall k, (forall i j, i < bs_len s -> j < c_bits c -> k <> place c i j) -> bit_of (bs_data s') k = bit_of (bs_data s) k).
Proof.
  intros C WF. destruct o as [i|i v]; cbn [bs_op list_op].
  - rewrite elements_nth. destruct (Nat.leb_spec (bs_len s) i).
    + destruct (Nat.ltb_spec i (bs_len s)); [lia|]. auto.
    + destruct (Nat.ltb_spec i (bs_len s)); [|lia].
      destruct (unpack_spec c s i C WF) as (r & -> & R); [assumption|]. rewrite (reads_number _ _ _ _ R), decode_spec by assumption. auto.
  - rewrite elements_length. destruct (Nat.leb_spec (bs_len s) i); [auto|].
    pose proof (encode_spec c v C) as E. destruct (encode (c_repr c) (c_bits c) v) as [e|]; [|rewrite E; auto].
    destruct E as (-> & E2 & E3). destruct (pack_spec c s i e C WF) as (data' & -> & W); [assumption|assumption|].
    destruct WF as [D L]. split; [|split; [reflexivity|split]].
    + split; [apply W|]. cbn [bs_data bs_len]. rewrite <- L. apply W.
    + destruct s as [data n]. cbn [bs_data bs_len] in *. rewrite (writes_elements c data data' n i e); auto. now rewrite <- E3.
    + intros k Hk. apply W. intros j Hj. now apply Hk.
Qed.
Lemma run_refines c ops : conf_ok c -> forall s, wf c s ->
  let (s', rs) := bs_run c s ops in
  wf c s' /\ bs_len s' = bs_len s /\ list_run c (elements c s) ops = (elements c s', rs) /\
  (forall k, (forall i j, i < bs_len s -> j < c_bits c -> k <> place c i j) -> bit_of (bs_data s') k = bit_of (bs_data s) k).
Proof.
  intros C. induction ops as [|o ops IH]; intros s WF; cbn [bs_run list_run]; [auto|].
  pose proof (op_refines c s o C WF) as H. destruct (bs_op c s o) as [s1 r]. destruct H as (W1 & L1 & E1 & O1).
  specialize (IH s1 W1). destruct (bs_run c s1 ops) as [s2 rs]. destruct IH as (W2 & L2 & E2 & O2).
  rewrite E1, E2, L2, L1. split; [exact W2|]. split; [reflexivity|]. split; [reflexivity|]. intros k Hk. rewrite O2, O1; auto. now rewrite L1.
Qed.
Lemma bit_zero n k : bit_of (repeat 0%N n) k = false.
Proof.
  unfold bit_of. replace (nth (k / 8) (repeat 0%N n) 0%N) with 0%N; [apply N.bits_0|].
  destruct (Nat.lt_ge_cases (k / 8) n); [now rewrite nth_repeat|]. rewrite nth_overflow by (rewrite repeat_length; lia). reflexivity.
Qed.
Lemma boxed_wf c n : wf c (bs_boxed c n).
Proof.
  split; cbn [bs_boxed bs_data bs_len]; [|now rewrite repeat_length].
  apply Forall_forall. intros x Hx. apply repeat_spec in Hx. subst. unfold byte_ok. lia.
Qed.
Lemma number_false n : number (fun _ => false) n = 0%N.
Proof. induction n as [|n IH]; cbn [number]; [reflexivity|]. now rewrite IH. Qed.
Lemma boxed_elements c n : elements c (bs_boxed c n) =
  repeat (match c_repr c with Unsigned => 0 | Binary => -1 end)%Z n.
Proof.
  unfold elements. cbn [bs_boxed bs_len bs_data]. generalize (bytes_for (c_perm c) (c_bits c) n) as m. intros m.
  assert (E : forall i, element c (repeat 0%N m) i = (match c_repr c with Unsigned => 0 | Binary => -1 end)%Z).
  { intros i. unfold element. rewrite (number_ext _ (fun _ => false)) by (intros; apply bit_zero). rewrite number_false. reflexivity. }
  rewrite (map_ext _ (fun _ => match c_repr c with Unsigned => 0 | Binary => -1 end)%Z) by exact E. clear E.
  generalize (match c_repr c with Unsigned => 0 | Binary => -1 end)%Z as z. intros z.
  generalize 0 as k0. induction n as [|n IH]; intros k; cbn [seq map repeat]; [reflexivity|]. now rewrite IH.
Qed.
Lemma new_spec c data n : match bs_new c data n with
  | Some s => s = mkbs data n /\ length data = bytes_for (c_perm c) (c_bits c) n
  | None => length data <> bytes_for (c_perm c) (c_bits c) n end.
Proof. unfold bs_new. destruct (Nat.eqb_spec (length data) (bytes_for (c_perm c) (c_bits c) n)); cbn [negb]; auto. Qed.
(** Enough room: every bit of every element lies in the data. *)
Lemma place_bound c n i j : conf_ok c -> i < n -> j < c_bits c -> place c i j < 8 * bytes_for (c_perm c) (c_bits c) n.
Proof.
  intros (B & _ & CT) Hi Hj. unfold place, bytes_for. destruct (c_perm c).
  - pose proof (dense_bound (c_bits c) i n ltac:(lia) Hi). pose proof (Nat.div_mod_eq (c_bits c * i + c_bits c - 1) 8).
    pose proof (Nat.mod_upper_bound (c_bits c * i + c_bits c - 1) 8 ltac:(lia)). lia.
  - specialize (CT eq_refl). rewrite CT in *. pose proof (block_bound i n Hi). pose proof (sub_byte i).
    pose proof (Nat.mod_upper_bound i 8 ltac:(lia)). lia.
Qed.
Lemma dense8_bytes s : wf (mkconf 8 Unsigned Dense) s -> bs_as_bytes s = Some (map Z.to_N (elements (mkconf 8 Unsigned Dense) s)).
Proof.
  intros [D L]. cbn [c_perm c_bits bytes_for] in L. unfold bs_as_bytes.
  assert (E : length (bs_data s) = bs_len s).
  { rewrite L. unfold div_round_up. rewrite Nat.mul_comm, Nat.mod_mul, Nat.div_mul by lia. reflexivity. }
  rewrite E, Nat.leb_refl, <- E, firstn_all. f_equal. apply nth_error_ext. intros i.
  rewrite nth_error_map, elements_nth. rewrite <- E. destruct (Nat.ltb_spec i (length (bs_data s))) as [H|H].
  - cbn [option_map]. rewrite (nth_error_nth' _ 0%N) by assumption. f_equal. unfold element. cbn [c_repr c_bits].
    rewrite N2Z.id. rewrite (number_ext _ (fun j => N.testbit (nth i (bs_data s) 0%N) (N.of_nat j))).
    + symmetry. apply number_testbit. apply (dok_nth (bs_data s) i D).
    + intros j Hj. unfold place. cbn [c_perm c_bits]. now apply bit_at.
  - now apply nth_error_None.
Qed.
