(** Levels, sums over lattice points and the list of critical values. *)
From Coq Require Import QArith Qabs Lqa Permutation.
From Verif.Lib Require Import Base Lists.
From Verif.Spherical Require Import Model Model2 Spec2.
Local Open Scope nat_scope.

Lemma qn_S n : (qn (S n) == qn n + 1)%Q.
Proof. unfold qn. rewrite Nat2Z.inj_succ, <- Z.add_1_r, inject_Z_plus. reflexivity. Qed.
Lemma qn_double n : (qn (2 * n) == 2 * qn n)%Q.
Proof. unfold qn. rewrite Nat2Z.inj_mul, inject_Z_mult. reflexivity. Qed.
Lemma qn_le a b : a <= b -> (qn a <= qn b)%Q.
Proof. intros H. unfold qn. rewrite <- Zle_Qle. lia. Qed.
Lemma qn_lt a b : a < b -> (qn a + 1 <= qn b)%Q.
Proof. intros H. rewrite <- qn_S. now apply qn_le. Qed.
Lemma qn_pos a : (0 <= qn a)%Q.
Proof. apply (qn_le 0). lia. Qed.
Lemma qn_inj a b : (qn a == qn b)%Q -> a = b.
Proof. unfold qn. rewrite inject_Z_injective. lia. Qed.

(** Counting a prefix. *)
Lemma count_prefix (P : nat -> bool) : (forall k j, j <= k -> P k = true -> P j = true) -> forall m, length (filter P (seq 1 m)) <= m /\ forall k, 1 <= k <= m -> (k <= length (filter P (seq 1 m)) <-> P k = true).
Proof.
  intros D. induction m as [|m [IL IH]]; [cbn; split; [lia|lia]|]. rewrite seq_S, filter_app, app_length. cbn [filter]. change (1 + m) with (S m).
  destruct (P (S m)) eqn:E; cbn [length].
  - assert (A : length (filter P (seq 1 m)) = m). { destruct m as [|m]; [reflexivity|]. assert (X : S m <= length (filter P (seq 1 (S m)))) by (apply IH; [lia|apply (D (S (S m))); [lia|exact E]]). lia. }
    rewrite A. split; [lia|]. intros k K. split; [intros _; now apply (D (S m)); [lia|]|lia].
  - split; [lia|]. intros k K. destruct (Nat.eq_dec k (S m)) as [->|N]; [split; [lia|congruence]|]. rewrite <- IH by lia. split; lia.
Qed.
Lemma level_spec stop s a k : 1 <= k < stop -> (k < level stop s a <-> (qn k + eps <= s * a)%Q).
Proof.
  intros K. unfold level. pose proof (count_prefix (fun k => Qle_bool (qn k + eps) (s * a))) as H. destruct H with (m := stop - 1) as [_ H'].
  - intros i j L E. apply Qle_bool_iff in E. apply Qle_bool_iff. apply qn_le in L. lra.
  - rewrite <- Qle_bool_iff, <- H' by lia. lia.
Qed.
Lemma filter_short {A} (P : A -> bool) l : length (filter P l) <= length l.
Proof. induction l as [|x l IH]; cbn; [lia|]. destruct (P x); cbn; lia. Qed.
Lemma level_range stop s a : 1 <= stop -> 1 <= level stop s a <= stop.
Proof. intros H. unfold level. pose proof (filter_short (fun k => Qle_bool (qn k + eps) (s * a)) (seq 1 (stop - 1))) as L. rewrite seq_length in L. lia. Qed.
Lemma level_zero stop s a : (a == 0)%Q -> level stop s a = 1.
Proof.
  intros Z. destruct (Nat.le_gt_cases stop 1) as [L|L]; [unfold level; replace (stop - 1) with 0 by lia; reflexivity|].
  pose proof (level_range stop s a ltac:(lia)) as R1. destruct (Nat.eq_dec (level stop s a) 1) as [E|E]; [exact E|]. exfalso.
  assert (H : 1 < level stop s a) by lia. apply level_spec in H; [|lia]. assert (E0 : (s * a == 0)%Q) by (rewrite Z; ring). pose proof (qn_pos 1). unfold eps in H. lra.
Qed.

(** Raising one level. *)
Lemma dot_set v : forall p r x k, nth_error v p = Some x -> nth_error r p = Some k -> (dot v (set_nth p (S k) r) == dot v r + Qabs x)%Q.
Proof.
  induction v as [|y v IH]; intros p r x k; [destruct p; discriminate|]. destruct r as [|j r]; [destruct p; discriminate|]. destruct p as [|p]; cbn [nth_error set_nth dot].
  - intros [= ->] [= ->]. rewrite qn_S. ring.
  - intros V K. rewrite (IH p r x k V K). ring.
Qed.
Lemma norm2_set r : forall p k, nth_error r p = Some k -> (norm2 (set_nth p (S k) r) == norm2 r + 2 * qn k)%Q.
Proof.
  induction r as [|j r IH]; intros p k; [destruct p; discriminate|]. destruct p as [|p]; cbn [nth_error set_nth norm2].
  - intros [= ->]. rewrite qn_S. ring.
  - intros K. rewrite (IH p k K). ring.
Qed.
Lemma sq_nonneg (x : Q) : (0 <= x * x)%Q.
Proof. destruct (Qlt_le_dec x 0); nra. Qed.
Lemma norm2_pos r : r <> [] -> (forall k, In k r -> 1 <= k) -> (0 < norm2 r)%Q.
Proof.
  assert (G : forall r, (forall k, In k r -> 1 <= k) -> (0 <= norm2 r)%Q).
  { clear. induction r as [|k r IH]; intros H; cbn [norm2]; [lra|]. assert (0 <= norm2 r)%Q by (apply IH; intros; apply H; now right). pose proof (sq_nonneg (qn k - (1 # 2))). lra. }
  destruct r as [|k r]; [congruence|]. intros _ H. cbn [norm2]. assert (0 <= norm2 r)%Q by (apply G; intros; apply H; now right).
  assert (K : (1 <= qn k)%Q) by (apply (qn_le 1); apply H; now left). nra.
Qed.
Lemma dot_pos v : forall r, length r = length v -> (forall k, In k r -> 1 <= k) -> (0 <= dot v r)%Q.
Proof.
  induction v as [|x v IH]; intros [|k r] L H; cbn [dot]; try lra. assert (0 <= dot v r)%Q by (apply IH; [cbn in L; lia|intros; apply H; now right]).
  assert (K : (1 <= qn k)%Q) by (apply (qn_le 1); apply H; now left). pose proof (Qabs_nonneg x). nra.
Qed.
Lemma dot_init v : (dot v (repeat 1%nat (length v)) == (1 # 2) * qsum (map Qabs v))%Q.
Proof. induction v as [|x v IH]; cbn [dot repeat length map qsum]; [lra|]. rewrite IH. change (qn 1) with 1%Q. ring. Qed.
Lemma norm2_init n : (norm2 (repeat 1%nat n) == (1 # 4) * qn n)%Q.
Proof. induction n as [|n IH]; cbn [repeat norm2]; [reflexivity|]. rewrite IH, (qn_S n). change (qn 1) with 1%Q. ring. Qed.

(** The pairs that are on the heap, for given levels. *)
Definition crit_of (stop : nat) (x : Q) (k : nat) : crit := if k <? stop then critical k (Qabs x) else Max.
Fixpoint pairs (stop i : nat) (v : list Q) (r : list nat) : list (crit * nat) :=
  match v, r with x :: v, k :: r => (crit_of stop x k, i) :: pairs stop (S i) v r | _, _ => [] end.
Lemma pairs_in stop v : forall r i c p, In (c, p) (pairs stop i v r) <-> exists q x k, p = i + q /\ nth_error v q = Some x /\ nth_error r q = Some k /\ c = crit_of stop x k.
Proof.
  induction v as [|x v IH]; intros r i c p; [cbn; split; [intros []|intros (q & x & k & _ & H & _); destruct q; discriminate]|].
  destruct r as [|k r]; [cbn; split; [intros []|intros (q & y & k & _ & _ & H & _); destruct q; discriminate]|]. cbn [pairs In]. rewrite IH. split.
  - intros [[= <- <-]|(q & y & j & -> & A & B & C)]; [exists 0, x, k; repeat split; lia|exists (S q), y, j; repeat split; try assumption; lia].
  - intros (q & y & j & -> & A & B & C). destruct q as [|q]; [left; cbn in A, B; injection A as ->; injection B as ->; rewrite C; f_equal; lia|right; exists q, y, j; repeat split; try assumption; lia].
Qed.
Lemma pairs_set stop v : forall r i p x k j, nth_error v p = Some x -> nth_error r p = Some k ->
  exists l1 l2, pairs stop i v r = l1 ++ (crit_of stop x k, i + p) :: l2 /\ pairs stop i v (set_nth p j r) = l1 ++ (crit_of stop x j, i + p) :: l2.
Proof.
  induction v as [|y v IH]; intros r i p x k j; [destruct p; discriminate|]. destruct r as [|m r]; [destruct p; discriminate|]. destruct p as [|p]; cbn [nth_error set_nth pairs].
  - intros [= ->] [= ->]. exists [], (pairs stop (S i) v r). rewrite Nat.add_0_r. split; reflexivity.
  - intros V K. destruct (IH r (S i) p x k j V K) as (l1 & l2 & A & B). exists ((crit_of stop y m, i) :: l1), l2. rewrite A, B. replace (i + S p) with (S i + p) by lia. split; reflexivity.
Qed.
Lemma firsts_pairs stop v : 1 < stop -> forall i, firsts i v = pairs stop i v (repeat 1 (length v)).
Proof. intros H. induction v as [|x v IH]; intros i; cbn [firsts pairs repeat length]; [reflexivity|]. rewrite IH. unfold crit_of. now destruct (Nat.ltb_spec 1 stop); [|lia]. Qed.

(** The order of critical values. *)
Lemma crit_total a b : crit_leb a b = true \/ crit_leb b a = true.
Proof. destruct a as [x| |], b as [y| |]; cbn; try tauto. rewrite !Qle_bool_iff. destruct (Qlt_le_dec x y); [left; now apply Qlt_le_weak|now right]. Qed.
Lemma crit_trans a b c : crit_leb a b = true -> crit_leb b c = true -> crit_leb a c = true.
Proof. destruct a as [x| |], b as [y| |], c as [z| |]; cbn; try congruence; try tauto. rewrite !Qle_bool_iff. apply Qle_trans. Qed.
Lemma pair_total a b : pair_leb a b = true \/ pair_leb b a = true.
Proof. apply crit_total. Qed.
Lemma pair_trans a b c : pair_leb a b = true -> pair_leb b c = true -> pair_leb a c = true.
Proof. unfold pair_leb. intros H1 H2. now apply (crit_trans _ (fst b)). Qed.

(** Comparing quotients of squares. *)
Lemma div_le I N b : (0 < N)%Q -> (I * I / N <= b <-> I * I <= b * N)%Q.
Proof.
  intros HN. split; intros H.
  - assert (E : (I * I == I * I / N * N)%Q) by (field; lra). rewrite E. apply Qmult_le_compat_r; [exact H|lra].
  - apply Qle_shift_div_r; assumption.
Qed.
Lemma div_ge I N b : (0 < N)%Q -> (b <= I * I / N <-> b * N <= I * I)%Q.
Proof.
  intros HN. split; intros H.
  - assert (E : (I * I == I * I / N * N)%Q) by (field; lra). rewrite E. apply Qmult_le_compat_r; [exact H|lra].
  - apply Qle_shift_div_l; assumption.
Qed.
Lemma crit_fin stop x k : 1 <= k < stop -> ~ (x == 0)%Q -> crit_of stop x k = Fin ((qn k + eps) / Qabs x) /\ (0 < Qabs x)%Q.
Proof.
  intros K X. unfold crit_of, critical. destruct (Nat.ltb_spec k stop); [|lia].
  assert (P : (0 < Qabs x)%Q). { pose proof (Qabs_nonneg x). destruct (Qeq_dec (Qabs x) 0) as [E|E]; [|lra]. exfalso. apply X. destruct (Qlt_le_dec x 0); [rewrite Qabs_neg in E; lra|rewrite Qabs_pos in E; lra]. }
  destruct (Qeq_bool (Qabs x) 0) eqn:E; [apply Qeq_bool_iff in E; lra|]. split; [reflexivity|exact P].
Qed.
