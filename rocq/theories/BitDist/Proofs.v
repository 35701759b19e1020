(** Words, loads and elements. *)
From Coq Require Import List NArith ZArith PeanoNat Bool Lia Setoid.
From Verif.Lib Require Import Base Lists.
From Verif.Bits Require Import Model Spec Proofs.
From Verif.Simd Require Import Model.
From Verif.Simd Require Spec.
From Verif.Simd Require Import Proofs3.
From Verif.BitDist Require Import Model Spec.
Import ListNotations.
Notation ztotal := Simd.Spec.ztotal.

(** ** Sums over positions *)
Definition sumn (f : nat -> Z) (l : list nat) : Z := zsum (map f l).
Lemma zsum_cons a l : zsum (a :: l) = (a + zsum l)%Z.
Proof. reflexivity. Qed.
Lemma sumn_app f a b : sumn f (a ++ b) = (sumn f a + sumn f b)%Z.
Proof. unfold sumn. rewrite map_app. apply zsum_app. Qed.
Lemma sumn_ext f g l : (forall k, In k l -> f k = g k) -> sumn f l = sumn g l.
Proof. intros H. unfold sumn. f_equal. now apply map_ext_in. Qed.
Lemma sumn_add f g l : sumn (fun k => f k + g k)%Z l = (sumn f l + sumn g l)%Z.
Proof. unfold sumn. induction l as [|a l IH]; cbn [map]; [reflexivity|]. rewrite !zsum_cons, IH. ring. Qed.
Lemma sumn_mul c f l : sumn (fun k => c * f k)%Z l = (c * sumn f l)%Z.
Proof. unfold sumn. induction l as [|a l IH]; cbn [map]; [cbn; ring|]. rewrite !zsum_cons, IH. ring. Qed.
Lemma sumn_zero l : sumn (fun _ => 0%Z) l = 0%Z.
Proof. unfold sumn. induction l as [|a l IH]; cbn [map]; [reflexivity|]. rewrite zsum_cons, IH. reflexivity. Qed.
Lemma sumn_shift f a n : sumn f (seq a n) = sumn (fun k => f (a + k)) (seq 0 n).
Proof.
  unfold sumn. f_equal. rewrite <- (Nat.add_0_r a) at 1. generalize 0. induction n as [|n IH]; intros k; cbn [seq map]; [reflexivity|].
  f_equal. rewrite <- IH. now rewrite Nat.add_succ_r.
Qed.
Lemma ztotal_map g (a b : nat -> Z) l : ztotal g (map a l) (map b l) = sumn (fun k => g (a k) (b k)) l.
Proof. unfold sumn. induction l as [|k l IH]; cbn [map Simd.Spec.ztotal]; [reflexivity|]. now rewrite zsum_cons, IH. Qed.
Lemma ztotal_app f a c b d : length a = length c -> ztotal f (a ++ b) (c ++ d) = (ztotal f a c + ztotal f b d)%Z.
Proof. intros H. rewrite !ztotal_tot. now apply zt_app. Qed.
Lemma ztotal_ext_in f g : forall x y, (forall a b, In a x -> In b y -> f a b = g a b) -> ztotal f x y = ztotal g x y.
Proof.
  induction x as [|a x IH]; intros [|b y] H; cbn [Simd.Spec.ztotal]; try reflexivity.
  rewrite H by (now left). f_equal. apply IH. intros; apply H; now right.
Qed.
Lemma ztotal_zeros f n m : f 0%Z 0%Z = 0%Z -> ztotal f (repeat 0%Z n) (repeat 0%Z m) = 0%Z.
Proof.
  intros H. revert m. induction n as [|n IH]; intros [|m]; cbn [repeat Simd.Spec.ztotal]; try reflexivity.
  now rewrite H, IH.
Qed.
Lemma ztotal_nonneg f : forall x y, (forall a b, In a x -> In b y -> 0 <= f a b)%Z -> (0 <= ztotal f x y)%Z.
Proof.
  induction x as [|a x IH]; intros [|b y] H; cbn [Simd.Spec.ztotal]; try lia.
  pose proof (H a b (or_introl eq_refl) (or_introl eq_refl)).
  assert (0 <= ztotal f x y)%Z by (apply IH; intros; apply H; now right). lia.
Qed.

(** ** Words and codes *)
Definition code (nb : nat) (w : N) (k : nat) : Z := Z.of_N (number (fun t => N.testbit w (N.of_nat (nb * k + t))) nb).
Definition codes (nb : nat) (data : list N) : list Z := flat_map (fun b => map (code nb b) (seq 0 (8 / nb))) data.
Definition divides8 (nb : nat) : Prop := nb = 1 \/ nb = 2 \/ nb = 4 \/ nb = 8.
Lemma divides8_eq nb : divides8 nb -> nb * (8 / nb) = 8 /\ 0 < 8 / nb /\ 1 <= nb <= 8.
Proof. intros [->|[->|[->| ->]]]; cbn; lia. Qed.
Lemma code_ext nb v w k : (forall t, t < nb -> N.testbit v (N.of_nat (nb * k + t)) = N.testbit w (N.of_nat (nb * k + t))) -> code nb v k = code nb w k.
Proof. intros H. unfold code. f_equal. now apply number_ext. Qed.
Lemma low_bit b acc k : (b < 256)%N -> (k < 8)%N -> N.testbit (b + 256 * acc) k = N.testbit b k.
Proof.
  intros B K. change 256%N with (2 ^ 8)%N in *. rewrite N.mul_comm, <- N.shiftl_mul_pow2.
  rewrite <- (N.mod_small b (2 ^ 8)) at 2 by assumption.
  rewrite <- (N.mod_add b acc (2 ^ 8)) by discriminate. rewrite <- N.shiftl_mul_pow2.
  rewrite mod_bit. destruct (N.ltb_spec k 8); [reflexivity|lia].
Qed.
Lemma high_bit b acc k : (b < 256)%N -> N.testbit (b + 256 * acc) (8 + k) = N.testbit acc k.
Proof.
  intros B. rewrite (N.add_comm 8 k), <- N.shiftr_spec by apply N.le_0_l. f_equal. rewrite N.shiftr_div_pow2.
  change (2 ^ 8)%N with 256%N. symmetry. apply (N.div_unique _ _ _ b); [assumption|]. ring.
Qed.
Lemma code_low nb b acc k : divides8 nb -> byte_ok b -> k < 8 / nb -> code nb (b + 256 * acc) k = code nb b k.
Proof.
  intros D B K. destruct (divides8_eq nb D) as (E & _). apply code_ext. intros t T. apply low_bit; [assumption|].
  assert (nb * k + t < 8) by nia. lia.
Qed.
Lemma code_high nb b acc k : divides8 nb -> byte_ok b -> code nb (b + 256 * acc) (8 / nb + k) = code nb acc k.
Proof.
  intros D B. destruct (divides8_eq nb D) as (E & _). unfold code. f_equal. apply number_ext. intros t T.
  replace (N.of_nat (nb * (8 / nb + k) + t)) with (8 + N.of_nat (nb * k + t))%N by nia. now apply high_bit.
Qed.
Lemma codes_word nb l : divides8 nb -> Forall byte_ok l -> codes nb l = map (code nb (word l)) (seq 0 (length l * (8 / nb))).
Proof.
  intros D. induction 1 as [|b l B F IH]; [reflexivity|].
  change (codes nb (b :: l)) with (map (code nb b) (seq 0 (8 / nb)) ++ codes nb l).
  change (word (b :: l)) with (b + 256 * word l)%N. cbn [length Nat.mul]. rewrite seq_app, map_app. f_equal.
  - apply map_ext_in. intros k H. apply in_seq in H. symmetry. apply code_low; [assumption|assumption|lia].
  - rewrite IH. cbn [Nat.add]. generalize (length l * (8 / nb)). intros n.
    assert (forall a, map (code nb (word l)) (seq a n) = map (code nb (b + 256 * word l)) (seq (8 / nb + a) n)) as Q.
    { induction n as [|n IHn]; intros a; cbn [seq map]; [reflexivity|]. rewrite code_high by assumption. f_equal.
      rewrite IHn. now rewrite Nat.add_succ_r. }
    rewrite Q. now rewrite Nat.add_0_r.
Qed.
Lemma codes_length nb l : length (codes nb l) = length l * (8 / nb).
Proof.
  unfold codes. induction l as [|b l IH]; [reflexivity|]. cbn [flat_map length Nat.mul]. rewrite app_length, IH, map_length, seq_length. reflexivity.
Qed.
Lemma codes_app nb a b : codes nb (a ++ b) = codes nb a ++ codes nb b.
Proof. apply flat_map_app. Qed.
Lemma codes_skipn nb n l : skipn (n * (8 / nb)) (codes nb l) = codes nb (skipn n l).
Proof.
  revert l. induction n as [|n IH]; intros [|b l]; cbn [Nat.mul skipn]; try reflexivity; [apply skipn_nil|].
  change (codes nb (b :: l)) with (map (code nb b) (seq 0 (8 / nb)) ++ codes nb l).
  rewrite skipn_app, map_length, seq_length, skipn_all2 by (rewrite map_length, seq_length; apply Nat.le_add_r).
  rewrite (Nat.add_comm (8 / nb)), Nat.add_sub. cbn [app]. apply IH.
Qed.
Lemma codes_firstn nb n l : firstn (n * (8 / nb)) (codes nb l) = codes nb (firstn n l).
Proof.
  revert l. induction n as [|n IH]; intros [|b l]; cbn [Nat.mul firstn]; try reflexivity; [apply firstn_nil|].
  change (codes nb (b :: l)) with (map (code nb b) (seq 0 (8 / nb)) ++ codes nb l).
  change (codes nb (b :: firstn n l)) with (map (code nb b) (seq 0 (8 / nb)) ++ codes nb (firstn n l)).
  rewrite firstn_app, map_length, seq_length, firstn_all2 by (rewrite map_length, seq_length; apply Nat.le_add_r).
  f_equal. rewrite (Nat.add_comm (8 / nb)), Nat.add_sub. apply IH.
Qed.
Lemma code_zero nb k : code nb 0 k = 0%Z.
Proof. unfold code. rewrite (number_ext _ (fun _ => false)) by (intros; apply N.bits_0). now rewrite number_false. Qed.
Lemma codes_zeros nb n : codes nb (repeat 0%N n) = repeat 0%Z (n * (8 / nb)).
Proof.
  induction n as [|n IH]; [reflexivity|]. cbn [repeat Nat.mul].
  change (codes nb (0%N :: repeat 0%N n)) with (map (code nb 0) (seq 0 (8 / nb)) ++ codes nb (repeat 0%N n)).
  rewrite IH, repeat_app. f_equal. generalize (8 / nb). intros m. generalize 0. induction m as [|m IHm]; intros a; cbn [seq map repeat]; [reflexivity|].
  now rewrite code_zero, IHm.
Qed.
Lemma code_bound nb w k : (0 <= code nb w k < 2 ^ Z.of_nat nb)%Z.
Proof.
  unfold code. pose proof (number_lt (fun t => N.testbit w (N.of_nat (nb * k + t))) nb) as H.
  apply N2Z.inj_lt in H. rewrite N2Z.inj_pow, nat_N_Z in H. split; [apply N2Z.is_nonneg|exact H].
Qed.
Lemma codes_bound nb l v : In v (codes nb l) -> (0 <= v < 2 ^ Z.of_nat nb)%Z.
Proof. intros H. apply in_flat_map in H as (b & _ & H). apply in_map_iff in H as (k & <- & _). apply code_bound. Qed.
Lemma code8 b : byte_ok b -> code 8 b 0 = Z.of_N b.
Proof. intros B. unfold code. f_equal. apply (number_testbit b 8). exact B. Qed.
Lemma codes8 l : Forall byte_ok l -> codes 8 l = map Z.of_N l.
Proof.
  induction 1 as [|b l B F IH]; [reflexivity|]. change (codes 8 (b :: l)) with (code 8 b 0 :: codes 8 l).
  cbn [map]. now rewrite code8, IH.
Qed.

(** ** Elements *)
Lemma element_code nb data q r : divides8 nb -> r < 8 / nb -> element (unsigned nb) data (8 / nb * q + r) = code nb (nth q data 0%N) r.
Proof.
  intros D R. destruct (divides8_eq nb D) as (E & _). unfold element, code. cbn [unsigned c_repr c_bits]. f_equal. apply number_ext.
  intros t T. cbn [place unsigned c_perm c_bits].
  replace (nb * (8 / nb * q + r) + t) with (8 * q + (nb * r + t)) by nia. apply bit_at. nia.
Qed.
Lemma elements_codes nb s : divides8 nb -> bs_len s <= length (bs_data s) * (8 / nb) ->
  elements (unsigned nb) s = firstn (bs_len s) (codes nb (bs_data s)).
Proof.
  intros D. destruct (divides8_eq nb D) as (E & P & _). intros L. apply nth_error_ext. intros i.
  rewrite elements_nth. destruct (Nat.ltb_spec i (bs_len s)) as [I|I].
  - rewrite nth_error_firstn' by assumption.
    assert (forall data, i < length data * (8 / nb) -> forall q r, i = 8 / nb * q + r -> r < 8 / nb -> nth_error (codes nb data) i = Some (code nb (nth q data 0%N) r)) as Q.
    { clear - P. intros data Hi q r -> R. replace (8 / nb * q + r) with (q * (8 / nb) + r) by lia.
      rewrite <- nth_error_skipn', codes_skipn.
      assert (q < length data) as Hq by nia. rewrite <- (Nat.add_0_r q) at 2.
      destruct (skipn q data) as [|b l] eqn:EQ.
      { apply (f_equal (@length N)) in EQ. rewrite skipn_length in EQ. cbn in EQ. lia. }
      assert (nth (q + 0) data 0%N = b) as ->.
      { pose proof (nth_error_skipn' q data 0) as H. rewrite EQ in H. cbn in H. symmetry in H. now apply nth_error_nth. }
      change (codes nb (b :: l)) with (map (code nb b) (seq 0 (8 / nb)) ++ codes nb l).
      rewrite nth_error_app1 by (rewrite map_length, seq_length; lia).
      rewrite (map_nth_error _ _ _ (d := r)); [reflexivity|].
      rewrite (nth_error_nth' _ 0) by (rewrite seq_length; lia). rewrite seq_nth by lia. reflexivity. }
    assert (i < length (bs_data s) * (8 / nb)) as Hi by lia.
    pose proof (Nat.div_mod_eq i (8 / nb)) as DM. pose proof (Nat.mod_upper_bound i (8 / nb)) as MB.
    rewrite (Q _ Hi (i / (8 / nb)) (i mod (8 / nb))) by lia.
    f_equal. rewrite DM at 1. apply element_code; [assumption|lia].
  - symmetry. apply nth_error_None. rewrite firstn_length. lia.
Qed.
Lemma valid_room nb s : divides8 nb -> valid (unsigned nb) s -> bs_len s <= length (bs_data s) * (8 / nb) /\ 8 * length (bs_data s) < nb * bs_len s + 8.
Proof.
  intros D [_ L]. destruct (divides8_eq nb D) as (E & P & _). rewrite L. cbn [unsigned c_perm c_bits bytes_for].
  unfold div_round_up. set (m := nb * bs_len s) in *.
  pose proof (Nat.div_mod_eq m 8) as DM. pose proof (Nat.mod_upper_bound m 8).
  destruct (Nat.eqb_spec (m mod 8) 0); split; try lia; subst m; nia.
Qed.
(** A window of whole bytes. *)
Lemma window nb s off n : divides8 nb -> valid (unsigned nb) s -> (off + n) * (8 / nb) <= bs_len s ->
  off + n <= length (bs_data s) /\
  firstn (n * (8 / nb)) (skipn (off * (8 / nb)) (elements (unsigned nb) s)) = codes nb (firstn n (skipn off (bs_data s))).
Proof.
  intros D V H. destruct (valid_room nb s D V) as [R1 R2]. destruct (divides8_eq nb D) as (E & P & _). split; [nia|].
  rewrite elements_codes by assumption. rewrite skipn_firstn_comm, firstn_firstn.
  rewrite Nat.min_l by lia. rewrite codes_skipn. apply codes_firstn.
Qed.
Lemma getz_ok p nb s i : conf_ok (mkconf nb Unsigned p) -> valid (mkconf nb Unsigned p) s -> i < bs_len s ->
  getz p nb s i = Some (element (mkconf nb Unsigned p) (bs_data s) i).
Proof.
  intros C V I. destruct (unpack_spec (mkconf nb Unsigned p) s i C V I) as (r & E & R). unfold getz. cbn [c_perm c_bits] in E. rewrite E.
  f_equal. unfold element. cbn [c_repr c_bits]. f_equal. exact (reads_number _ _ _ _ R).
Qed.

(** ** Prefix sums *)
Definition prefix (f : Z -> Z -> Z) (x y : list Z) (n : nat) : Z := ztotal f (firstn n x) (firstn n y).
Lemma prefix_step f x y n k : length x = length y -> n + k <= length x ->
  prefix f x y (n + k) = (prefix f x y n + ztotal f (firstn k (skipn n x)) (firstn k (skipn n y)))%Z.
Proof.
  intros E H. unfold prefix. rewrite <- (firstn_skipn n (firstn (n + k) x)), <- (firstn_skipn n (firstn (n + k) y)).
  rewrite !firstn_firstn, !Nat.min_l by lia. rewrite !skipn_firstn_comm. replace (n + k - n) with k by lia.
  apply ztotal_app. rewrite !firstn_length. lia.
Qed.
Lemma prefix_all f x y : length x = length y -> prefix f x y (length x) = ztotal f x y.
Proof. intros E. unfold prefix. rewrite firstn_all. now rewrite E, firstn_all. Qed.
Lemma prefix_le f x y n m : length x = length y -> (forall a b, In a x -> In b y -> (0 <= f a b)%Z) -> n <= m <= length x ->
  (0 <= prefix f x y n <= prefix f x y m)%Z.
Proof.
  intros E P H. assert (forall n, 0 <= prefix f x y n)%Z as Q.
  { intros k. apply ztotal_nonneg. intros a b Ha Hb. apply P; eapply in_firstn; eassumption. }
  split; [apply Q|]. replace m with (n + (m - n)) by lia. rewrite prefix_step by lia.
  assert (0 <= ztotal f (firstn (m - n) (skipn n x)) (firstn (m - n) (skipn n y)))%Z.
  { apply ztotal_nonneg. intros a b Ha Hb. apply P; eapply in_skipn, in_firstn; eassumption. }
  lia.
Qed.
