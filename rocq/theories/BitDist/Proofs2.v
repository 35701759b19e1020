(** Scalar loops and the shift-and-mask kernels. *)
From Coq Require Import List NArith ZArith PeanoNat Bool Lia Setoid.
From Verif.Lib Require Import Base Lists.
From Verif.Bits Require Import Model Spec Proofs.
From Verif.Simd Require Import Model Proofs3.
From Verif.BitDist Require Import Model Spec Proofs.
Import ListNotations.

(** ** Loads *)
Lemma load_ok data off n total : off + n <= length data -> n <= total ->
  load data off n total = Some (firstn n (skipn off data) ++ repeat 0%N (total - n)).
Proof.
  intros H T. unfold load, pad. rewrite Nat.min_l by assumption. destruct (Nat.leb_spec (off + n) (length data)); [|lia].
  assert (length (firstn n (skipn off data)) = n) as L by (rewrite firstn_length, skipn_length; lia).
  rewrite firstn_all2 by lia. now rewrite L.
Qed.
Lemma load_full data off n : off + n <= length data -> load data off n n = Some (firstn n (skipn off data)).
Proof. intros H. rewrite load_ok by lia. rewrite Nat.sub_diag. cbn [repeat]. now rewrite app_nil_r. Qed.
Lemma bytes_window data off n : Forall byte_ok data -> Forall byte_ok (firstn n (skipn off data)).
Proof. intros H. now apply Forall_firstn', Forall_skipn'. Qed.
Lemma zeros_ok n : Forall byte_ok (repeat 0%N n).
Proof. induction n; constructor; auto. reflexivity. Qed.
Lemma codes_padded nx ny f a b n : f 0%Z 0%Z = 0%Z -> length (codes nx a) = length (codes ny b) ->
  ztotal f (codes nx (a ++ repeat 0%N n)) (codes ny (b ++ repeat 0%N n)) = ztotal f (codes nx a) (codes ny b).
Proof.
  intros F L. rewrite !codes_app, ztotal_app by assumption. rewrite !codes_zeros, ztotal_zeros by assumption. lia.
Qed.

(** ** Scalar loops *)
Lemma term_nonneg l2 a b : (0 <= a -> 0 <= b -> 0 <= term l2 a b)%Z.
Proof. intros A B. destruct l2; unfold term; [apply Z.square_nonneg|nia]. Qed.
Lemma element_nonneg nb p data i : (0 <= element (mkconf nb Unsigned p) data i)%Z.
Proof. unfold element. cbn [c_repr]. apply N2Z.is_nonneg. Qed.
Lemma elements_nonneg nb p s v : In v (elements (mkconf nb Unsigned p) s) -> (0 <= v)%Z.
Proof. intros H. apply in_map_iff in H as (i & <- & _). apply element_nonneg. Qed.
Lemma one_element c s i : i < bs_len s -> firstn 1 (skipn i (elements c s)) = [element c (bs_data s) i].
Proof.
  intros H. pose proof (elements_nth c s i) as E. destruct (Nat.ltb_spec i (bs_len s)); [|lia].
  rewrite <- (Nat.add_0_r i) in E at 1. rewrite <- nth_error_skipn' in E. destruct (skipn i (elements c s)); [discriminate|].
  cbn in E |- *. congruence.
Qed.

Section Pair.
  Context (px : perm) (nx ny : nat) (x y : bitslice).
  Context (cx : conf_ok (mkconf nx Unsigned px)) (cy : conf_ok (unsigned ny)) (vx : valid (mkconf nx Unsigned px) x) (vy : valid (unsigned ny) y).
  Context (E : bs_len x = bs_len y).
  Let X := elements (mkconf nx Unsigned px) x.
  Let Y := elements (unsigned ny) y.
  Lemma XL : length X = bs_len x. Proof. apply elements_length. Qed.
  Lemma XY : length X = length Y. Proof. unfold X, Y. rewrite !elements_length. exact E. Qed.
  Lemma terms_pos l2 a b : In a X -> In b Y -> (0 <= term l2 a b)%Z.
  Proof. intros A B. apply term_nonneg; eapply elements_nonneg; eassumption. Qed.
  Lemma pre_le l2 n m : n <= m <= bs_len x -> (0 <= prefix (term l2) X Y n <= prefix (term l2) X Y m)%Z.
  Proof. intros H. apply prefix_le; [apply XY|apply terms_pos|]. now rewrite XL. Qed.
  Lemma prefix1 f i : i < bs_len x ->
    prefix f X Y (S i) = (prefix f X Y i + f (element (mkconf nx Unsigned px) (bs_data x) i) (element (unsigned ny) (bs_data y) i))%Z.
  Proof.
    intros H. rewrite <- Nat.add_1_r. rewrite prefix_step; [|apply XY|rewrite XL; lia]. unfold X, Y.
    rewrite !one_element by lia. cbn [Simd.Spec.ztotal]. ring.
  Qed.
  Lemma scalar_fold l2 (B : Z) from count s :
    from + count <= bs_len x -> (s + prefix (term l2) X Y (from + count) - prefix (term l2) X Y from < B)%Z ->
    fold_left (fun s j =>
        do s <- s;
        do ix <- getz px nx x j;
        do iy <- getz Dense ny y j;
        if (s + term l2 ix iy <? B)%Z then Some (s + term l2 ix iy)%Z else None) (seq from count) (Some s)
    = Some (s + prefix (term l2) X Y (from + count) - prefix (term l2) X Y from)%Z.
  Proof.
    induction count as [|count IH]; intros H HB.
    - cbn [seq fold_left]. f_equal. rewrite Nat.add_0_r. ring.
    - rewrite seq_S, fold_left_app, IH.
      + cbn [fold_left bind]. rewrite !getz_ok by (try assumption; lia). cbn [bind].
        rewrite <- plus_n_Sm in HB |- *. rewrite prefix1 in HB |- * by lia. unfold unsigned in *.
        match goal with |- context [(?a <? B)%Z] => destruct (Z.ltb_spec a B) as [Q|Q] end; [f_equal; ring|lia].
      + lia.
      + pose proof (pre_le l2 (from + count) (from + S count)). lia.
  Qed.
End Pair.

Lemma scalar_from_ok l2 nx ny x y from :
  conf_ok (unsigned nx) -> conf_ok (unsigned ny) -> valid (unsigned nx) x -> valid (unsigned ny) y -> bs_len x = bs_len y ->
  from <= bs_len x ->
  let X := elements (unsigned nx) x in let Y := elements (unsigned ny) y in
  (ztotal (term l2) X Y - prefix (term l2) X Y from < 2 ^ 31)%Z ->
  scalar_loop_from l2 nx ny x y from (bs_len x - from) = Some (ztotal (term l2) X Y - prefix (term l2) X Y from)%Z.
Proof.
  intros cx cy vx vy E F X Y H. unfold scalar_loop_from, scalar_step.
  assert (prefix (term l2) X Y (bs_len x) = ztotal (term l2) X Y) as PA.
  { rewrite <- (prefix_all (term l2) X Y) by (unfold X, Y; rewrite !elements_length; exact E). unfold X at 3. now rewrite elements_length. }
  pose proof (scalar_fold Dense nx ny x y cx cy vx vy E l2 (if l2 then 2 ^ 31 else 2 ^ 32) from (bs_len x - from) 0) as Q.
  fold X Y in Q. fold (unsigned nx) in Q. fold X in Q. replace (from + (bs_len x - from)) with (bs_len x) in Q by lia. rewrite PA in Q.
  destruct l2; (etransitivity; [|etransitivity; [apply Q; [lia|lia]|f_equal; ring]]); reflexivity.
Qed.

(** ** One u32 lane *)
Lemma part_bit r p v t : N.testbit (part r p v) (N.of_nat t) = (t <? r) && N.testbit v (N.of_nat (r * p + t)).
Proof.
  unfold part. rewrite mod_bit, <- N.shiftr_div_pow2, N.shiftr_spec by apply N.le_0_l.
  replace (N.of_nat t + N.of_nat (r * p))%N with (N.of_nat (r * p + t)) by lia. f_equal.
  destruct (Nat.ltb_spec t r), (N.ltb_spec (N.of_nat t) (N.of_nat r)); reflexivity || lia.
Qed.
Definition mask_ok (c : smc) : bool :=
  forallb (fun p => forallb (fun t => Bool.eqb (N.testbit (m_mask c) (N.of_nat (32 / m_subs c * p + t))) (t <? m_bits c)) (seq 0 (32 / m_subs c)))
    (seq 0 (m_subs c)) && (m_bits c <=? 32 / m_subs c).
Definition place_of (c : smc) (s p : nat) : nat := (s + 32 / m_subs c * p) / m_bits c.
Definition places_ok (c : smc) : bool :=
  forallb (fun '(s, _) => forallb (fun p => m_bits c * place_of c s p =? s + 32 / m_subs c * p) (seq 0 (m_subs c))) (m_shifts c).
Lemma sub_code c s p w : mask_ok c = true -> p < m_subs c -> m_bits c * place_of c s p = s + 32 / m_subs c * p ->
  Z.of_N (sub c s p w) = code (m_bits c) w (place_of c s p).
Proof.
  intros M P K. unfold code. f_equal. apply N.bits_inj. intros t'. rewrite <- (N2Nat.id t'). set (t := N.to_nat t').
  unfold sub. rewrite part_bit, N.land_spec, N.shiftr_spec by apply N.le_0_l. rewrite number_bit.
  unfold mask_ok in M. apply andb_prop in M as [M R]. apply Nat.leb_le in R. rewrite forallb_forall in M.
  specialize (M p). rewrite forallb_forall in M.
  destruct (Nat.ltb_spec t (32 / m_subs c)) as [T|T].
  - specialize (M (proj2 (in_seq _ _ _) (conj (Nat.le_0_l _) P)) t (proj2 (in_seq _ _ _) (conj (Nat.le_0_l _) T))).
    apply eqb_prop in M. rewrite M. rewrite K.
    replace (N.of_nat (32 / m_subs c * p + t) + N.of_nat s)%N with (N.of_nat (s + 32 / m_subs c * p + t)) by lia.
    cbn [andb]. apply andb_comm.
  - destruct (Nat.ltb_spec t (m_bits c)); [lia|]. reflexivity.
Qed.
Lemma signed_small bits v : 1 <= bits -> (Z.of_N v < 2 ^ Z.of_nat (bits - 1))%Z -> signed bits v = Z.of_N v.
Proof.
  intros B H. unfold signed. destruct (N.ltb_spec v (2 ^ N.of_nat (bits - 1))) as [L|L]; [reflexivity|].
  apply N2Z.inj_le in L. rewrite N2Z.inj_pow, nat_N_Z in L. change (Z.of_N 2) with 2%Z in L. lia.
Qed.
Lemma wrap16_id z : (- 2 ^ 15 <= z < 2 ^ 15)%Z -> wrap_i16 z = z.
Proof. intros H. unfold wrap_i16. rewrite Z.mod_small; lia. Qed.
Lemma sub_term_ok c l2 a b : (0 <= Z.of_N a < 16)%Z -> (0 <= Z.of_N b < 16)%Z -> sub_term c l2 a b = term l2 (Z.of_N a) (Z.of_N b).
Proof.
  intros A B. unfold sub_term, term. rewrite !(signed_small 16) by (cbn; lia). rewrite (signed_small 8) by (cbn; lia).
  destruct l2; [rewrite wrap16_id by lia; reflexivity|now destruct (m_subs c =? 2)].
Qed.
Definition lane_sum (c : smc) (l2 : bool) (s : nat) (wx wy : N) : Z :=
  zsum (map (fun p => sub_term c l2 (sub c s p wx) (sub c s p wy)) (seq 0 (m_subs c))).
Definition word_sum (c : smc) (l2 : bool) (wx wy : N) : Z := zsum (map (fun '(s, _) => lane_sum c l2 s wx wy) (m_shifts c)).
Definition places (c : smc) : list nat := flat_map (fun '(s, _) => map (place_of c s) (seq 0 (m_subs c))) (m_shifts c).
Lemma word_places c l2 wx wy : mask_ok c = true -> places_ok c = true -> m_bits c <= 4 ->
  word_sum c l2 wx wy = sumn (fun k => term l2 (code (m_bits c) wx k) (code (m_bits c) wy k)) (places c).
Proof.
  intros M P B. unfold word_sum, places, places_ok in *. rewrite forallb_forall in P.
  induction (m_shifts c) as [|[s k] l IH]; [reflexivity|]. cbn [map flat_map]. rewrite zsum_cons, sumn_app, IH by (intros; apply P; now right).
  f_equal. unfold lane_sum, sumn. rewrite map_map. f_equal. apply map_ext_in. intros p HP.
  specialize (P (s, k) (or_introl eq_refl)). cbn beta iota in P. rewrite forallb_forall in P. specialize (P p HP). apply Nat.eqb_eq in P.
  apply in_seq in HP.
  assert (forall w, Z.of_N (sub c s p w) = code (m_bits c) w (place_of c s p)) as Q by (intros; apply sub_code; [assumption|lia|assumption]).
  assert (2 ^ Z.of_nat (m_bits c) <= 2 ^ 4)%Z as LE by (apply Z.pow_le_mono_r; lia).
  pose proof (code_bound (m_bits c) wx (place_of c s p)). pose proof (code_bound (m_bits c) wy (place_of c s p)).
  rewrite sub_term_ok by (rewrite Q; lia). now rewrite !Q.
Qed.
Definition smc_ok (c : smc) : Prop :=
  mask_ok c = true /\ places_ok c = true /\ (m_bits c = 2 \/ m_bits c = 4) /\
  (forall g, sumn g (places c) = sumn g (seq 0 (32 / m_bits c))) /\
  (m_lanes c = 8 \/ m_lanes c = 16) /\ (m_accs c = 2 \/ m_accs c = 4) /\
  Forall (fun '(_, k) => k < m_accs c) (m_shifts c) /\ (m_bytes c = true -> 8 / m_bits c - 1 <= m_cap c).
Lemma smcs_ok c : In c [v3_4; v3_2; v4_4_l2; v4_4_ip; v4_2_ip] -> smc_ok c.
Proof.
  intros H. repeat (destruct H as [<-|H]); [..|contradiction].
  all: unfold smc_ok; cbn [m_bits m_lanes m_accs m_shifts m_bytes m_cap v3_4 v3_2 v4_4_l2 v4_4_ip v4_2_ip].
  all: split; [vm_compute; reflexivity|]; split; [vm_compute; reflexivity|]; split; [auto|]; split;
    [|split; [auto|split; [auto|split; [repeat constructor|cbn; lia]]]].
  all: intros g; match goal with |- sumn g (places ?c) = sumn g (seq 0 ?n) =>
      let a := eval vm_compute in (places c) in change (places c) with a;
      let b := eval vm_compute in (seq 0 n) in change (seq 0 n) with b end;
      unfold sumn; cbn [map]; rewrite !zsum_cons; ring.
Qed.
