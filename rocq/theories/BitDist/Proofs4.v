(** The one-bit, eight-bit and transposed kernels. *)
From Coq Require Import List NArith ZArith PeanoNat Bool Lia Setoid.
From Verif.Lib Require Import Base Lists.
From Verif.Bits Require Import Model Spec Proofs.
From Verif.Simd Require Import Model Proofs3.
From Verif.Simd Require Spec.
From Verif.BitDist Require Import Model Spec Proofs Proofs2.
Import ListNotations.

(** ** Bits *)
Definition bz (b : bool) : Z := if b then 1 else 0.
Lemma code1 w k : code 1 w k = bz (N.testbit w (N.of_nat k)).
Proof. unfold code. cbn [number]. rewrite Nat.mul_1_l, Nat.add_0_r. now destruct (N.testbit w (N.of_nat k)). Qed.
Lemma count_sum n w : count_ones n w = sumn (fun k => bz (N.testbit w (N.of_nat k))) (seq 0 n).
Proof. reflexivity. Qed.
Lemma ones_mask r : (N.shiftl 1 (N.of_nat r) - 1)%N = N.ones (N.of_nat r).
Proof. unfold N.ones. now rewrite N.sub_1_r. Qed.
Lemma mask_bits w r k : N.testbit (N.land w (N.shiftl 1 (N.of_nat r) - 1)) (N.of_nat k) = N.testbit w (N.of_nat k) && (k <? r).
Proof.
  rewrite N.land_spec, ones_mask, ones_bit. f_equal. destruct (N.ltb_spec (N.of_nat k) (N.of_nat r)), (Nat.ltb_spec k r); reflexivity || lia.
Qed.
Lemma bit_op_sum l2 n u v : bit_op l2 n u v = sumn (fun k => term l2 (code 1 u k) (code 1 v k)) (seq 0 n).
Proof.
  unfold bit_op. rewrite count_sum. apply sumn_ext. intros k _. rewrite !code1. destruct l2; [rewrite N.lxor_spec|rewrite N.land_spec];
  destruct (N.testbit u (N.of_nat k)), (N.testbit v (N.of_nat k)); reflexivity.
Qed.
Lemma bit_op_codes l2 a b n : length a = n -> length b = n -> Forall byte_ok a -> Forall byte_ok b ->
  bit_op l2 (8 * n) (word a) (word b) = ztotal (term l2) (codes 1 a) (codes 1 b).
Proof.
  intros LA LB FA FB. rewrite bit_op_sum, !codes_word by (try assumption; unfold divides8; auto). rewrite LA, LB, ztotal_map.
  change (8 / 1) with 8. now rewrite (Nat.mul_comm n 8).
Qed.
Lemma sumn_cut f r n : r <= n -> (forall k, r <= k -> f k = 0%Z) -> sumn f (seq 0 n) = sumn f (seq 0 r).
Proof.
  intros H Z. replace n with (r + (n - r)) by lia. rewrite seq_app, sumn_app. rewrite (sumn_ext f (fun _ => 0%Z) (seq (0 + r) (n - r))).
  - rewrite sumn_zero. ring.
  - intros k K. apply in_seq in K. apply Z. lia.
Qed.
Lemma div1 : divides8 1. Proof. now left. Qed.
Lemma conf1 : conf_ok (unsigned 1).
Proof. unfold conf_ok. cbn [unsigned c_bits c_repr c_perm]. repeat split; try lia; discriminate. Qed.
(** The bits from a byte to the end. *)
Lemma tail_bits s off : valid (unsigned 1) s -> 8 * off <= bs_len s ->
  off <= length (bs_data s) /\ length (bs_data s) - off <= (bs_len s - 8 * off + 7) / 8 /\ bs_len s - 8 * off <= 8 * (length (bs_data s) - off) /\
  skipn (8 * off) (elements (unsigned 1) s) = map (code 1 (word (skipn off (bs_data s)))) (seq 0 (bs_len s - 8 * off)).
Proof.
  intros V H. destruct (valid_room 1 s div1 V) as [R1 R2]. change (8 / 1) with 8 in *.
  repeat split; [lia| |lia|].
  - apply Nat.div_le_lower_bound; lia.
  - rewrite elements_codes by (try assumption; apply div1). rewrite skipn_firstn_comm.
    replace (8 * off) with (off * (8 / 1)) at 2 by (change (8 / 1) with 8; lia). rewrite codes_skipn.
    rewrite codes_word by (try apply div1; apply Forall_skipn'; apply V). rewrite skipn_length. change (8 / 1) with 8.
    rewrite firstn_map. f_equal. rewrite <- (firstn_all (seq 0 (bs_len s - 8 * off))), seq_length.
    replace ((length (bs_data s) - off) * 8) with ((bs_len s - 8 * off) + ((length (bs_data s) - off) * 8 - (bs_len s - 8 * off))) by lia.
    rewrite seq_app, firstn_app, seq_length, Nat.sub_diag. cbn [firstn]. rewrite app_nil_r. reflexivity.
Qed.
Lemma tail_split {A} n (l : list A) : skipn n l = firstn (length l - n) (skipn n l).
Proof. rewrite firstn_all2; [reflexivity|]. rewrite skipn_length. lia. Qed.

Lemma map_seq_shift {A} (f : nat -> A) a n : map f (seq a n) = map (fun k => f (a + k)) (seq 0 n).
Proof.
  rewrite <- (Nat.add_0_r a) at 1. generalize 0. induction n as [|n IH]; intros b; cbn [seq map]; [reflexivity|].
  f_equal. rewrite <- IH. now rewrite Nat.add_succ_r.
Qed.

(** ** bitvector_op *)
Lemma read_ok data off n : off + n <= length data -> read data off n = Some (word (firstn n (skipn off data))).
Proof. intros H. unfold read. now rewrite load_full. Qed.
Section OneBit.
  Context (l2 : bool) (x y : bitslice) (vx : valid (unsigned 1) x) (vy : valid (unsigned 1) y) (E : bs_len x = bs_len y).
  Let X := elements (unsigned 1) x.
  Let Y := elements (unsigned 1) y.
  Let P := prefix (term l2) X Y.
  Context (B : (ztotal (term l2) X Y < 2 ^ 32)%Z).
  Lemma P_len : P (bs_len x) = ztotal (term l2) X Y.
  Proof. unfold P. rewrite <- (prefix_all (term l2) X Y) by (unfold X, Y; rewrite !elements_length; exact E). unfold X at 3. now rewrite elements_length. Qed.
  Lemma P_bound n : n <= bs_len x -> (0 <= P n < 2 ^ 32)%Z.
  Proof. intros H. pose proof (pre_le Dense 1 1 x y E l2 n (bs_len x)) as Q. fold (unsigned 1) in Q. fold X Y in Q. fold P in Q. rewrite P_len in Q. lia. Qed.
  Lemma P_window off n : 8 * (off + n) <= bs_len x ->
    off + n <= length (bs_data x) /\ off + n <= length (bs_data y) /\
    P (8 * (off + n)) = (P (8 * off) + bit_op l2 (8 * n) (word (firstn n (skipn off (bs_data x)))) (word (firstn n (skipn off (bs_data y)))))%Z.
  Proof.
    intros H. destruct (window 1 x off n div1 vx) as [W1 W2]; [change (8 / 1) with 8; lia|].
    destruct (window 1 y off n div1 vy) as [W3 W4]; [change (8 / 1) with 8; lia|]. change (8 / 1) with 8 in *.
    repeat split; try assumption.
    rewrite bit_op_codes; [|rewrite firstn_length, skipn_length; lia|rewrite firstn_length, skipn_length; lia
      |apply bytes_window; apply vx|apply bytes_window; apply vy].
    rewrite <- W2, <- W4. fold X Y. unfold P. replace (8 * (off + n)) with (8 * off + n * 8) by lia.
    rewrite prefix_step; [|unfold X, Y; rewrite !elements_length; exact E|unfold X; rewrite elements_length; lia].
    now rewrite (Nat.mul_comm off 8).
  Qed.
  Lemma bv_loop_ok n from count : 8 * (n * (from + count)) <= bs_len x ->
    bv_loop l2 n x y from (from + count) (P (8 * (n * from))) = Some (P (8 * (n * (from + count)))).
  Proof.
    unfold bv_loop. replace (from + count - from) with count by lia. induction count as [|count IH]; intros H.
    - cbn [seq fold_left]. now rewrite Nat.add_0_r.
    - rewrite seq_S, fold_left_app, IH by lia. cbn [fold_left bind].
      destruct (P_window (n * (from + count)) n) as (A1 & A2 & A3); [lia|].
      rewrite !read_ok by assumption. cbn [bind].
      replace (n * (from + S count)) with (n * (from + count) + n) in H |- * by lia.
      unfold add_u32. rewrite <- A3. pose proof (P_bound _ H) as PB. apply proj2, Z.ltb_lt in PB. now rewrite PB.
  Qed.
  Lemma bitvector_ok : bitvector l2 x y = Some (ztotal (term l2) X Y).
  Proof.
    unfold bitvector. cbv zeta. set (len := bs_len x) in *.
    pose proof (Nat.div_mod_eq len 64) as D64. pose proof (Nat.mod_upper_bound len 64) as M64.
    pose proof (Nat.div_mod_eq len 8) as D8. pose proof (Nat.mod_upper_bound len 8) as M8.
    pose proof (bv_loop_ok 8 0 (len / 64)) as L1. cbn [Nat.add] in L1. rewrite !Nat.mul_0_r in L1. change (P 0) with 0%Z in L1.
    rewrite L1 by (fold len; lia). cbn [bind].
    pose proof (bv_loop_ok 1 (8 * (len / 64)) (len / 8 - 8 * (len / 64))) as L2.
    assert (8 * (len / 64) <= len / 8) as LE by (apply Nat.div_le_lower_bound; lia).
    replace (8 * (len / 64) + (len / 8 - 8 * (len / 64))) with (len / 8) in L2 by lia. rewrite !Nat.mul_1_l in L2.
    rewrite L2 by (fold len; lia). cbn [bind]. rewrite Nat.max_r by assumption.
    destruct (Nat.eqb_spec (len / 8 * 8) len) as [EQ|NE].
    - rewrite (Nat.mul_comm 8), EQ. now rewrite <- P_len.
    - set (i := len / 8) in *.
      destruct (tail_bits x i vx) as (X1 & X2 & X3 & X4); [fold len; lia|].
      destruct (tail_bits y i vy) as (Y1 & Y2 & Y3 & Y4); [rewrite <- E; lia|]. rewrite <- E in Y2, Y3, Y4. fold len in X2, X3, X4.
      assert ((len - 8 * i + 7) / 8 < 2) by (apply Nat.div_lt_upper_bound; lia).
      assert (length (bs_data x) = i + 1) as LX by lia. assert (length (bs_data y) = i + 1) as LY by lia.
      rewrite !read_ok by lia. cbn [bind].
      rewrite (tail_split i (bs_data x)), LX in X4. rewrite (tail_split i (bs_data y)), LY in Y4.
      replace (i + 1 - i) with 1 in X4, Y4 by lia.
      set (wx := word (firstn 1 (skipn i (bs_data x)))) in *. set (wy := word (firstn 1 (skipn i (bs_data y)))) in *.
      rewrite bit_op_sum.
      rewrite (sumn_cut _ (len - 8 * i)); [|lia|].
      2: { intros k K. rewrite !code1, !mask_bits. destruct (Nat.ltb_spec k (len - 8 * i)); [lia|]. rewrite !andb_false_r. now destruct l2. }
      rewrite (sumn_ext _ (fun k => term l2 (code 1 wx k) (code 1 wy k))).
      2: { intros k K. apply in_seq in K. rewrite !code1, !mask_bits. destruct (Nat.ltb_spec k (len - 8 * i)); [|lia]. now rewrite !andb_true_r. }
      rewrite <- ztotal_map, <- X4, <- Y4. fold X Y.
      assert (ztotal (term l2) X Y = P (8 * i) + ztotal (term l2) (skipn (8 * i) X) (skipn (8 * i) Y))%Z as FIN.
      { rewrite <- P_len. fold len. replace len with (8 * i + (len - 8 * i)) at 1 by lia. unfold P.
        rewrite prefix_step; [|unfold X, Y; rewrite !elements_length; exact E|unfold X; rewrite elements_length; fold len; lia].
        rewrite !firstn_all2 by (rewrite skipn_length; unfold X, Y; rewrite elements_length, <- ?E; fold len; lia). reflexivity. }
      unfold add_u32. rewrite <- FIN. apply Z.ltb_lt in B. now rewrite B.
  Qed.
End OneBit.

(** ** Transposed *)
Lemma word_testbit l : Forall byte_ok l -> forall k, k < 8 * length l -> N.testbit (word l) (N.of_nat k) = N.testbit (nth (k / 8) l 0%N) (N.of_nat (k mod 8)).
Proof.
  induction 1 as [|b l Hb F IH]; intros k K; [cbn in K; lia|]. change (word (b :: l)) with (b + 256 * word l)%N. cbn [length] in K.
  destruct (Nat.lt_ge_cases k 8) as [L|L].
  - rewrite low_bit by (try assumption; lia). rewrite Nat.div_small, Nat.mod_small by assumption. reflexivity.
  - replace (N.of_nat k) with (8 + N.of_nat (k - 8))%N by lia. rewrite high_bit by assumption. rewrite IH by lia.
    replace k with ((k - 8) + 1 * 8) at 3 4 by lia. rewrite Nat.div_add, Nat.mod_add by lia.
    rewrite Nat.add_1_r. reflexivity.
Qed.
Lemma nth_window {A} (d : A) n off l k : k < n -> nth k (firstn n (skipn off l)) d = nth (off + k) l d.
Proof.
  intros H. destruct (nth_error l (off + k)) eqn:Q.
  - rewrite (nth_error_nth l (off + k) d Q). apply nth_error_nth. rewrite nth_error_firstn' by assumption. now rewrite nth_error_skipn'.
  - rewrite (nth_overflow l) by (now apply nth_error_None). apply nth_overflow. rewrite firstn_length, skipn_length. apply nth_error_None in Q. lia.
Qed.
Lemma conf_t : conf_ok transposed4.
Proof. unfold conf_ok. cbn [transposed4 c_bits c_repr c_perm]. repeat split; try lia; discriminate. Qed.
Section Transposed.
  Context (x y : bitslice) (vx : valid transposed4 x) (vy : valid (unsigned 1) y) (E : bs_len x = bs_len y).
  Let X := elements transposed4 x.
  Let Y := elements (unsigned 1) y.
  Let P := prefix Z.mul X Y.
  Context (B : (ztotal Z.mul X Y < 2 ^ 31)%Z).
  Let el (i : nat) : Z := element transposed4 (bs_data x) i.
  Let plane (i p : nat) : N := word (firstn 8 (skipn (8 * (4 * i + p)) (bs_data x))).
  Lemma x_room i : 64 * i < bs_len x -> 32 * (i + 1) <= length (bs_data x).
  Proof.
    intros H. destruct vx as [_ ->]. cbn [transposed4 c_perm c_bits bytes_for].
    pose proof (block_bound (64 * i) (bs_len x) H) as Q. replace (64 * i / 64) with i in Q by (now rewrite Nat.mul_comm, Nat.div_mul). lia.
  Qed.
  Lemma plane_bit i p k : 64 * i < bs_len x -> p < 4 -> k < 64 ->
    N.testbit (plane i p) (N.of_nat k) = bit_of (bs_data x) (place transposed4 (64 * i + k) p).
  Proof.
    intros I HP K. pose proof (x_room i I) as R. unfold plane.
    rewrite word_testbit; [|apply bytes_window; apply vx|rewrite firstn_length, skipn_length; lia].
    assert (k / 8 < 8) by (apply Nat.div_lt_upper_bound; lia). rewrite nth_window by assumption.
    cbn [place transposed4 c_perm]. replace ((64 * i + k) / 64) with i by (rewrite Nat.mul_comm, Nat.div_add_l, Nat.div_small by lia; lia).
    replace ((64 * i + k) mod 64) with k by (rewrite Nat.add_comm, Nat.mul_comm, Nat.mod_add, Nat.mod_small by lia; lia).
    replace ((64 * i + k) mod 8) with (k mod 8) by (replace (64 * i + k) with (k + (8 * i) * 8) by lia; now rewrite Nat.mod_add by lia).
    rewrite bit_at by (apply Nat.mod_upper_bound; lia). do 2 f_equal. lia.
  Qed.
  Lemma el_planes i k : 64 * i < bs_len x -> k < 64 ->
    el (64 * i + k) = zsum (map (fun p => bz (N.testbit (plane i p) (N.of_nat k)) * 2 ^ Z.of_nat p)%Z (seq 0 4)).
  Proof.
    intros I K. unfold el, element. change (c_repr transposed4) with Unsigned. change (c_bits transposed4) with 4. cbv iota. cbn [number seq map]. rewrite !zsum_cons. change (zsum []) with 0%Z.
    rewrite !plane_bit by lia.
    set (b0 := bit_of _ (place _ _ 0)). set (b1 := bit_of _ (place _ _ 1)). set (b2 := bit_of _ (place _ _ 2)). set (b3 := bit_of _ (place _ _ 3)).
    destruct b0, b1, b2, b3; reflexivity.
  Qed.
  Definition psum (i : nat) (bits : N) : Z := sumn (fun k => bz (N.testbit bits (N.of_nat k)) * el (64 * i + k))%Z (seq 0 64).
  Lemma el_nonneg i : (0 <= el i)%Z.
  Proof. apply element_nonneg. Qed.
  Lemma bz_bound b : (0 <= bz b <= 1)%Z. Proof. destruct b; cbn; lia. Qed.
  Lemma sumn_nonneg f l : (forall k, 0 <= f k)%Z -> (0 <= sumn f l)%Z.
  Proof. intros H. unfold sumn. induction l as [|a l IH]; cbn [map]; [cbn; lia|]. rewrite zsum_cons. specialize (H a). lia. Qed.
  Lemma planes_ok i bits s : 64 * i < bs_len x -> (0 <= s)%Z -> (s + psum i bits < 2 ^ 32)%Z -> planes x i bits s = Some (s + psum i bits)%Z.
  Proof.
    intros I S0 H. pose proof (x_room i I) as R. unfold planes. cbn [seq fold_left bind].
    assert (forall p, p < 4 -> read (bs_data x) (8 * (4 * i + p)) 8 = Some (plane i p)) as RD by (intros; apply read_ok; lia).
    set (t := fun p => (count_ones 64 (N.land bits (plane i p)) * 2 ^ Z.of_nat p)%Z).
    assert (psum i bits = t 0%nat + t 1%nat + t 2%nat + t 3%nat)%Z as EQ.
    { unfold psum, t. rewrite !count_sum. rewrite !(Z.mul_comm (sumn _ _)), <- !sumn_mul, <- !sumn_add. apply sumn_ext. intros k K. apply in_seq in K.
      rewrite el_planes by lia. cbn [map seq]. rewrite !zsum_cons. change (zsum []) with 0%Z. rewrite !N.land_spec.
      destruct (N.testbit bits (N.of_nat k)); cbn [andb bz]; ring. }
    assert (forall p, 0 <= t p)%Z as TP.
    { intros p. unfold t. rewrite count_sum. apply Z.mul_nonneg_nonneg; [|apply Z.pow_nonneg; lia]. apply sumn_nonneg. intros k. apply bz_bound. }
    pose proof (TP 0). pose proof (TP 1). pose proof (TP 2). pose proof (TP 3). rewrite EQ in H.
    rewrite !RD by lia. cbn [bind]. unfold add_u32. fold (t 0) (t 1) (t 2) (t 3).
    destruct (Z.ltb_spec (s + t 0%nat) (2 ^ 32)); [|lia]. cbn [bind].
    destruct (Z.ltb_spec (s + t 0%nat + t 1%nat) (2 ^ 32)); [|lia]. cbn [bind].
    destruct (Z.ltb_spec (s + t 0%nat + t 1%nat + t 2%nat) (2 ^ 32)); [|lia]. cbn [bind].
    destruct (Z.ltb_spec (s + t 0%nat + t 1%nat + t 2%nat + t 3%nat) (2 ^ 32)); [|lia]. f_equal. rewrite EQ. ring.
  Qed.
  Lemma x_window i n : 64 * i + n <= bs_len x -> firstn n (skipn (64 * i) X) = map (fun k => el (64 * i + k)) (seq 0 n).
  Proof.
    intros H. unfold X, elements. rewrite skipn_map', firstn_map.
    replace (bs_len x) with (64 * i + (n + (bs_len x - 64 * i - n))) by lia. rewrite !seq_app, !Nat.add_0_l.
    rewrite skipn_app, seq_length, Nat.sub_diag, skipn_all2 by (rewrite seq_length; lia). cbn [skipn app].
    rewrite firstn_app, seq_length, Nat.sub_diag, firstn_all2 by (rewrite seq_length; lia). cbn [firstn]. rewrite app_nil_r.
    fold el. apply map_seq_shift.
  Qed.
  Lemma Pt_len : P (bs_len x) = ztotal Z.mul X Y.
  Proof. unfold P. rewrite <- (prefix_all Z.mul X Y) by (unfold X, Y; rewrite !elements_length; exact E). unfold X at 3. now rewrite elements_length. Qed.
  Lemma Pt_bound n : n <= bs_len x -> (0 <= P n < 2 ^ 32)%Z.
  Proof.
    intros H. pose proof (pre_le BitTranspose 4 1 x y E false n (bs_len x)) as Q.
    change (prefix (term false)) with (prefix Z.mul) in Q. fold transposed4 in Q. fold X Y in Q. fold P in Q. rewrite Pt_len in Q. lia.
  Qed.
  Lemma transposed_ok : transposed_ip x y = Some (ztotal Z.mul X Y).
  Proof.
    unfold transposed_ip. cbv zeta. set (len := bs_len x) in *.
    pose proof (Nat.div_mod_eq len 64) as D64. pose proof (Nat.mod_upper_bound len 64) as M64.
    assert (forall n, n <= len / 64 -> fold_left (fun s i => do s <- s; do bits <- read (bs_data y) (8 * i) 8; planes x i bits s) (seq 0 n) (Some 0%Z) = Some (P (64 * n))) as LOOP.
    { induction n as [|n IH]; intros H; [reflexivity|]. rewrite seq_S, fold_left_app, IH by lia. cbn [fold_left bind Nat.add].
      destruct (window 1 y (8 * n) 8 div1 vy) as [W1 W2]; [rewrite <- E; change (8 / 1) with 8; fold len; lia|]. change (8 / 1) with 8 in W2. change (8 * 8) with 64 in W2. replace (8 * n * 8) with (64 * n) in W2 by lia.
      rewrite read_ok by assumption. cbn [bind]. set (wy := word (firstn 8 (skipn (8 * n) (bs_data y)))).
      assert (P (64 * n) + psum n wy = P (64 * S n))%Z as EQ.
      { replace (64 * S n) with (64 * n + 64) by lia. unfold P at 2.
        rewrite prefix_step; [|unfold X, Y; rewrite !elements_length; exact E|unfold X; rewrite elements_length; fold len; lia].
        fold P. f_equal. rewrite x_window by (fold len; lia).
        fold Y in W2. rewrite W2.
        rewrite codes_word by (try apply div1; apply bytes_window; apply vy).
        replace (length (firstn 8 (skipn (8 * n) (bs_data y)))) with 8 by (rewrite firstn_length, skipn_length; lia).
        change (8 * (8 / 1)) with 64. rewrite ztotal_map. unfold psum. apply sumn_ext. intros k K. fold wy. rewrite code1. ring. }
      assert (0 <= P (64 * n) < 2 ^ 32)%Z by (apply Pt_bound; fold len; lia).
      assert (0 <= P (64 * S n) < 2 ^ 32)%Z by (apply Pt_bound; fold len; lia).
      rewrite planes_ok; [rewrite EQ; reflexivity|fold len; lia|lia|lia]. }
    rewrite LOOP by lia. cbn [bind]. set (i := len / 64) in *.
    destruct (Nat.eqb_spec (64 * i) len) as [EQ|NE]; [rewrite EQ; now rewrite <- Pt_len|].
    destruct (tail_bits y (8 * i) vy) as (Y1 & Y2 & Y3 & Y4); [rewrite <- E; fold len; lia|]. rewrite <- E in Y2, Y3, Y4. fold len in Y2, Y3, Y4.
    replace (i * 8) with (8 * i) by lia. destruct (Nat.ltb_spec (length (bs_data y)) (8 * i)); [lia|].
    assert ((len - 8 * (8 * i) + 7) / 8 < 9) by (apply Nat.div_lt_upper_bound; lia).
    rewrite Nat.min_l by lia. rewrite load_full by lia. cbn [bind]. rewrite <- tail_split.
    set (wy := word (skipn (8 * i) (bs_data y))) in *. set (m := N.land wy _).
    assert (P (64 * i) + psum i m = ztotal Z.mul X Y)%Z as EQ.
    { rewrite <- Pt_len. fold len. replace len with (64 * i + (len - 64 * i)) at 1 by lia. unfold P at 2.
      rewrite prefix_step; [|unfold X, Y; rewrite !elements_length; exact E|unfold X; rewrite elements_length; fold len; lia].
      fold P. f_equal. rewrite x_window by (fold len; lia).
      replace (firstn (len - 64 * i) (skipn (64 * i) Y)) with (skipn (64 * i) Y).
      2: { symmetry. apply firstn_all2. rewrite skipn_length. unfold Y. rewrite elements_length, <- E. fold len. lia. }
      fold Y in Y4. replace (8 * (8 * i)) with (64 * i) in Y4 by lia. rewrite Y4. rewrite ztotal_map. unfold psum. rewrite (sumn_cut _ (len - 64 * i)); [|lia|].
      - apply sumn_ext. intros k K. apply in_seq in K. unfold m. rewrite mask_bits, code1. destruct (Nat.ltb_spec k (len - 64 * i)); [|lia]. rewrite andb_true_r. ring.
      - intros k K. unfold m. rewrite mask_bits. destruct (Nat.ltb_spec k (len - 64 * i)); [lia|]. rewrite andb_false_r. reflexivity. }
    assert (0 <= P (64 * i) < 2 ^ 32)%Z by (apply Pt_bound; fold len; lia). rewrite planes_ok; [now rewrite EQ|fold len; lia|lia|lia].
  Qed.
End Transposed.

(** ** Eight bits against eight bits *)
Lemma byte_dist_ok l2 a x y : valid (unsigned 8) x -> valid (unsigned 8) y -> bs_len x = bs_len y ->
  (ztotal (term l2) (elements (unsigned 8) x) (elements (unsigned 8) y) < 2 ^ 31)%Z ->
  byte_dist l2 a x y = Some (as_u32 (lossy (ztotal (term l2) (elements (unsigned 8) x) (elements (unsigned 8) y)))).
Proof.
  intros vx vy E B. assert (divides8 8) as D8 by (unfold divides8; auto).
  assert (forall s, valid (unsigned 8) s -> elements (unsigned 8) s = map Z.of_N (bs_data s)) as EL.
  { intros s V. destruct (valid_room 8 s D8 V) as [R1 R2]. change (8 / 8) with 1 in *. rewrite elements_codes by (try assumption; change (8 / 8) with 1; lia).
    rewrite codes8 by apply V. apply firstn_all2. rewrite map_length. lia. }
  rewrite !EL in * by assumption. unfold byte_dist, int_distance. rewrite int_total_ok.
  - cbn [bind]. do 2 f_equal.
    assert (ztotal (Simd.Spec.zterm (if l2 then L2 else IP)) (map Z.of_N (bs_data x)) (map Z.of_N (bs_data y)) = ztotal (term l2) (map Z.of_N (bs_data x)) (map Z.of_N (bs_data y))) as ->.
    { destruct l2; reflexivity. }
    rewrite wr_id; [reflexivity|].
    assert (0 <= ztotal (term l2) (map Z.of_N (bs_data x)) (map Z.of_N (bs_data y)))%Z.
    { apply ztotal_nonneg. intros u v U V. apply in_map_iff in U as (? & <- & _). apply in_map_iff in V as (? & <- & _). apply term_nonneg; apply N2Z.is_nonneg. }
    unfold rng. destruct (sgnd a U8); lia.
  - rewrite !map_length. destruct vx as [_ ->]. destruct vy as [_ ->]. cbn [unsigned c_perm c_bits]. now rewrite E.
  - apply Forall_map. eapply Forall_impl; [|apply vx]. intros b Hb. unfold byte_ok in Hb. cbn. lia.
  - apply Forall_map. eapply Forall_impl; [|apply vy]. intros b Hb. unfold byte_ok in Hb. cbn. lia.
Qed.
