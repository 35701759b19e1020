(** Slices, loops and the block-transposed matrix. *)
From Coq Require Import List PeanoNat Bool Lia Arith.
From Verif.Lib Require Import Lists.
From Verif.Simd Require Import Model Proofs2.
From Verif.Pq Require Import Model.
Import ListNotations.

Lemma slice_eq {A} a b (l : list A) : a <= b -> b <= length l -> slice a b l = Some (firstn (b - a) (skipn a l)).
Proof. intros H G. unfold slice. apply Nat.leb_le in H, G. now rewrite H, G. Qed.
Lemma slice_inv {A} a b (l s : list A) : slice a b l = Some s -> a <= b /\ b <= length l /\ s = firstn (b - a) (skipn a l).
Proof.
  unfold slice. destruct (Nat.leb_spec a b), (Nat.leb_spec b (length l)); cbn [andb]; try discriminate. intros [= <-]. auto.
Qed.
Lemma nth_error_lt' {A} (l : list A) n a : nth_error l n = Some a -> n < length l.
Proof. intros H. apply nth_error_Some. congruence. Qed.
Lemma nth_seq a n i : i < n -> nth_error (seq a n) i = Some (a + i).
Proof. intros H. rewrite (nth_error_nth' _ 0) by now rewrite seq_length. now rewrite seq_nth. Qed.
Lemma nth_map_seq {A} (g : nat -> A) n i : i < n -> nth_error (map g (seq 0 n)) i = Some (g i).
Proof. intros H. rewrite nth_error_map, nth_seq by assumption. reflexivity. Qed.
Lemma list_map_seq {A} (g : nat -> A) n l : length l = n -> (forall i, i < n -> nth_error l i = Some (g i)) -> l = map g (seq 0 n).
Proof.
  intros HL H. apply nth_error_ext. intros i. destruct (Nat.lt_ge_cases i n) as [L|G].
  - now rewrite nth_map_seq, H by assumption.
  - rewrite (proj2 (nth_error_None l i)) by lia. symmetry. apply nth_error_None. now rewrite map_length, seq_length.
Qed.
Lemma slice_map {A} a n (l : list A) g : a + n <= length l -> (forall i, i < n -> nth_error l (a + i) = Some (g i)) ->
  slice a (a + n) l = Some (map g (seq 0 n)).
Proof.
  intros HL H. rewrite slice_eq by lia. f_equal. replace (a + n - a) with n by lia. apply list_map_seq.
  - rewrite firstn_length, skipn_length. lia.
  - intros i Hi. rewrite nth_error_firstn' by assumption. rewrite nth_error_skipn'. now apply H.
Qed.
Lemma each_map {A B} (f : A -> option B) g l : (forall a, In a l -> f a = Some (g a)) -> each f l = Some (map g l).
Proof.
  induction l as [|a l IH]; intros H; cbn [each map]; [reflexivity|]. rewrite (H a) by now left. cbn [bind].
  rewrite IH by (intros; apply H; now right). reflexivity.
Qed.
Lemma each_seq {A} (f : nat -> option A) g n : (forall i, i < n -> f i = Some (g i)) -> each f (seq 0 n) = Some (map g (seq 0 n)).
Proof. intros H. apply each_map. intros i I. apply in_seq in I. apply H. lia. Qed.
Lemma each_ext {A B} (f g : A -> option B) l : (forall a, In a l -> f a = g a) -> each f l = each g l.
Proof.
  induction l as [|a l IH]; intros H; cbn [each]; [reflexivity|]. rewrite (H a) by now left.
  rewrite IH by (intros; apply H; now right). reflexivity.
Qed.
Lemma each_nth {A B} (f : A -> option B) l r : each f l = Some r -> length r = length l /\
  forall i a, nth_error l i = Some a -> exists b, f a = Some b /\ nth_error r i = Some b.
Proof.
  revert r. induction l as [|a l IH]; intros r E; cbn [each] in E.
  - injection E as <-. split; [reflexivity|]. intros [|i] a; discriminate.
  - destruct (f a) as [b|] eqn:Ef; [|discriminate]. cbn [bind] in E. destruct (each f l) as [r'|]; [|discriminate].
    injection E as <-. destruct (IH r' eq_refl) as [L H]. split; [cbn; now rewrite L|].
    intros [|i] a' E; cbn [nth_error] in *; [injection E as <-; eauto|now apply H].
Qed.
Lemma concat_length {A} (f : nat -> list A) n m : (forall i, i < n -> length (f i) = m) -> length (concat (map f (seq 0 n))) = n * m.
Proof.
  induction n as [|n IH]; intros H; [reflexivity|]. rewrite seq_S, map_app, concat_app, app_length, IH by (intros; apply H; lia).
  cbn [map concat Nat.add]. rewrite app_nil_r, H by lia. lia.
Qed.
Lemma concat_nth {A} (f : nat -> list A) n m i j : (forall i, i < n -> length (f i) = m) -> i < n -> j < m ->
  nth_error (concat (map f (seq 0 n))) (i * m + j) = nth_error (f i) j.
Proof.
  intros H. induction n as [|n IH]; intros Hi Hj; [lia|]. rewrite seq_S, map_app, concat_app. cbn [map concat Nat.add]. rewrite app_nil_r.
  assert (LN : length (concat (map f (seq 0 n))) = n * m) by (apply concat_length; intros; apply H; lia).
  destruct (Nat.eq_dec i n) as [->|N].
  - rewrite nth_error_app2 by lia. f_equal. lia.
  - rewrite nth_error_app1 by nia. apply IH; [intros; apply H|..]; lia.
Qed.
Lemma for_range_S {X} n (f : nat -> X -> option X) st : for_range (S n) f st = bind (for_range n f st) (f n).
Proof. unfold for_range. rewrite seq_S, fold_left_app. reflexivity. Qed.
Lemma for_range_run {X} n (f : nat -> X -> option X) (g : nat -> X) :
  (forall i, i < n -> f i (g i) = Some (g (S i))) -> for_range n f (g 0) = Some (g n).
Proof.
  intros H. induction n as [|n IH]; [reflexivity|]. rewrite for_range_S, IH by (intros; apply H; lia). apply H. lia.
Qed.
Lemma for_range_ext {X} n (f g : nat -> X -> option X) st : (forall i s, i < n -> f i s = g i s) -> for_range n f st = for_range n g st.
Proof.
  intros H. induction n as [|n IH]; [reflexivity|]. rewrite !for_range_S, IH by (intros; apply H; lia).
  destruct (for_range n g st); [apply H; lia|reflexivity].
Qed.
Lemma enumerate_nth_ {A} (l : list A) : forall k i, nth_error (enumerate_ k l) i = option_map (fun a => (k + i, a)) (nth_error l i).
Proof.
  induction l as [|a l IH]; intros k [|i]; cbn [enumerate_ nth_error option_map]; try reflexivity.
  - do 2 f_equal. lia.
  - rewrite IH. now rewrite <- Nat.add_succ_comm.
Qed.
Lemma enumerate_nth {A} (l : list A) i : nth_error (enumerate l) i = option_map (fun a => (i, a)) (nth_error l i).
Proof. apply enumerate_nth_. Qed.
Lemma enumerate_length {A} (l : list A) : length (enumerate l) = length l.
Proof.
  unfold enumerate. generalize 0 at 1 as k. induction l as [|a l IH]; intros k; cbn; [reflexivity|now rewrite IH].
Qed.

(** Registers of eight lanes. *)
Definition lanes {A} (f : nat -> A) : list A := map f (seq 0 8).
Lemma map2_lanes {A B C} (h : A -> B -> C) f g : map2 h (lanes f) (lanes g) = lanes (fun i => h (f i) (g i)).
Proof. reflexivity. Qed.
Lemma map3_lanes {A B C D} (h : A -> B -> C -> D) f g k : map3 h (lanes f) (lanes g) (lanes k) = lanes (fun i => h (f i) (g i) (k i)).
Proof. reflexivity. Qed.
Lemma lanes_ext {A} (f g : nat -> A) : (forall i, i < 8 -> f i = g i) -> lanes f = lanes g.
Proof. intros H. apply map_ext_in. intros i I. apply in_seq in I. apply H. lia. Qed.

(** ** Strided views and the block-transposed matrix *)

Definition s_ok {A} (v : strided A) : Prop :=
  s_cols v <= s_stride v /\ length (s_data v) = linear_length (s_rows v) (s_cols v) (s_stride v).
Lemma shrink_ok {A} (data : list A) n c s v : shrink_from data n c s = Some v -> s_ok v.
Proof.
  unfold shrink_from. destruct (Nat.leb_spec c s); cbn [negb]; [|discriminate].
  destruct (Nat.leb_spec (linear_length n c s) (length data)); [|discriminate]. intros [= <-]. split; cbn [s_cols s_stride s_data s_rows]; [assumption|].
  rewrite firstn_length. lia.
Qed.
Lemma s_row_in {A} (v : strided A) i : s_ok v -> i < s_rows v ->
  s_row v i = Some (firstn (s_cols v) (skipn (i * s_stride v) (s_data v))) /\ i * s_stride v + s_cols v <= length (s_data v).
Proof.
  intros [H1 H2] Hi. assert (B : i * s_stride v + s_cols v <= length (s_data v)) by (rewrite H2; unfold linear_length; nia).
  split; [|assumption]. unfold s_row. rewrite slice_eq by lia. do 2 f_equal. lia.
Qed.
Lemma s_get_in {A} (v : strided A) i j : s_ok v -> i < s_rows v -> j < s_cols v ->
  exists a, s_get v i j = Some a /\ nth_error (s_data v) (i * s_stride v + j) = Some a.
Proof.
  intros H Hi Hj. destruct (s_row_in v i H Hi) as [E B]. unfold s_get. rewrite E. cbn [bind].
  rewrite nth_error_firstn' by assumption. rewrite nth_error_skipn'.
  destruct (nth_error (s_data v) (i * s_stride v + j)) as [a|] eqn:N; [eauto|]. apply nth_error_None in N. lia.
Qed.

Lemma div_ceil_bound a b : 0 < b -> a <= div_ceil a b * b < a + b.
Proof.
  intros H. unfold div_ceil. pose proof (Nat.div_mod (a + b - 1) b ltac:(lia)). pose proof (Nat.mod_upper_bound (a + b - 1) b ltac:(lia)). nia.
Qed.
Lemma div_lt_ceil a b i : 0 < b -> i < a -> i / b < div_ceil a b.
Proof.
  intros H Hi. pose proof (div_ceil_bound a b H). apply Nat.div_lt_upper_bound; [lia|]. nia.
Qed.

Lemma mixed_lt a b n m : a < n -> b < m -> a * m + b < n * m.
Proof. nia. Qed.
Section Bt.
  Context {A : Type} (default : A) (group pack : nat) (v : strided A) (Hg : 0 < group) (Hp : 0 < pack) (Hv : s_ok v).
  Definition cell (row col : nat) : A :=
    if (row <? s_rows v) && (col <? s_cols v) then match s_get v row col with Some a => a | None => default end else default.
  Definition cells : list A :=
    concat (map (fun b => concat (map (fun c => concat (map (fun r =>
      map (fun p => cell (b * group + r) (c * pack + p)) (seq 0 pack)) (seq 0 group)))
      (seq 0 (div_ceil (s_cols v) pack)))) (seq 0 (div_ceil (s_rows v) group))).
  Lemma bt_from_eq : bt_from default group pack v = Some cells.
  Proof.
    unfold bt_from, cells. cbv zeta. unfold padded_ncols. rewrite Nat.div_mul by lia.
    erewrite each_seq; [cbn [bind]; reflexivity|]. intros b Hb. cbv beta.
    erewrite each_seq; [cbn [bind]; reflexivity|]. intros c Hc. cbv beta.
    erewrite each_seq; [cbn [bind]; reflexivity|]. intros r Hr. cbv beta. unfold cell.
    destruct (Nat.ltb_spec (b * group + r) (s_rows v)) as [L|G]; cbn [andb].
    - apply each_seq. intros p Hpp. destruct (Nat.ltb_spec (c * pack + p) (s_cols v)) as [L'|G']; [|reflexivity].
      destruct (s_get_in v _ _ Hv L L') as (a & -> & _). reflexivity.
    - f_equal. clear. induction pack as [|n IH]; [reflexivity|]. cbn [repeat seq map]. f_equal. rewrite IH, <- seq_shift, map_map. reflexivity.
  Qed.
  Lemma cells_length : length cells = bt_capacity group pack (s_rows v) (s_cols v).
  Proof.
    unfold cells, bt_capacity, padded_ncols.
    erewrite concat_length; [|intros; apply concat_length; intros; apply concat_length; intros; rewrite map_length; apply seq_length].
    nia.
  Qed.
  Lemma cells_nth b c r p : b < div_ceil (s_rows v) group -> c < div_ceil (s_cols v) pack -> r < group -> p < pack ->
    nth_error cells (b * group * padded_ncols pack (s_cols v) + c * group * pack + r * pack + p) = Some (cell (b * group + r) (c * pack + p)).
  Proof.
    intros Hb Hc Hr Hpp. unfold cells, padded_ncols.
    replace (b * group * (div_ceil (s_cols v) pack * pack) + c * group * pack + r * pack + p)
      with (b * (div_ceil (s_cols v) pack * (group * pack)) + (c * (group * pack) + (r * pack + p))) by ring.
    rewrite concat_nth; [|intros; apply concat_length; intros; apply concat_length; intros; rewrite map_length; apply seq_length|assumption|repeat apply mixed_lt; assumption].
    rewrite concat_nth; [|intros; apply concat_length; intros; rewrite map_length; apply seq_length|assumption|repeat apply mixed_lt; assumption].
    rewrite concat_nth; [|intros; rewrite map_length; apply seq_length|assumption|assumption].
    now rewrite nth_map_seq.
  Qed.
  Lemma linear_nth row col : row < s_rows v -> col < s_cols v ->
    nth_error cells (linear_index group pack row col (s_cols v)) = s_get v row col.
  Proof.
    intros Hr Hc. unfold linear_index. cbv zeta.
    pose proof (Nat.mod_upper_bound row group ltac:(lia)). pose proof (Nat.mod_upper_bound col pack ltac:(lia)).
    rewrite cells_nth by (try apply div_lt_ceil; lia).
    replace (row / group * group + row mod group) with row by (pose proof (Nat.div_mod row group ltac:(lia)); lia).
    replace (col / pack * pack + col mod pack) with col by (pose proof (Nat.div_mod col pack ltac:(lia)); lia).
    unfold cell. apply Nat.ltb_lt in Hr, Hc. rewrite Hr, Hc. cbn [andb]. apply Nat.ltb_lt in Hr, Hc.
    destruct (s_get_in v _ _ Hv Hr Hc) as (a & -> & _). reflexivity.
  Qed.
  (** Every position of the allocation is (block, column group, row, column) for one choice. *)
  Lemma decompose k : k < bt_capacity group pack (s_rows v) (s_cols v) ->
    exists b c r p, b < div_ceil (s_rows v) group /\ c < div_ceil (s_cols v) pack /\ r < group /\ p < pack /\
      k = b * group * padded_ncols pack (s_cols v) + c * group * pack + r * pack + p.
  Proof.
    unfold bt_capacity, padded_ncols. set (CG := div_ceil (s_cols v) pack). set (NB := div_ceil (s_rows v) group). intros Hk.
    set (m := group * pack). set (w := CG * m).
    assert (Hm : 0 < m) by (unfold m; nia).
    assert (Hk' : k < NB * w) by (unfold w, m; nia).
    assert (Hw : 0 < w) by nia.
    exists (k / w), (k mod w / m), (k mod w mod m / pack), (k mod w mod m mod pack).
    pose proof (Nat.div_mod k w ltac:(lia)) as E1. pose proof (Nat.mod_upper_bound k w ltac:(lia)) as B1.
    pose proof (Nat.div_mod (k mod w) m ltac:(lia)) as E2. pose proof (Nat.mod_upper_bound (k mod w) m ltac:(lia)) as B2.
    pose proof (Nat.div_mod (k mod w mod m) pack ltac:(lia)) as E3. pose proof (Nat.mod_upper_bound (k mod w mod m) pack ltac:(lia)) as B3.
    split; [apply Nat.div_lt_upper_bound; [lia|nia]|]. split; [apply Nat.div_lt_upper_bound; [lia|unfold w in B1; nia]|].
    split; [apply Nat.div_lt_upper_bound; [lia|unfold m in B2; nia]|]. split; [exact B3|].
    unfold w, m in *. lia.
  Qed.
End Bt.
Lemma mixed_inj w a b a' b' : b < w -> b' < w -> a * w + b = a' * w + b' -> a = a' /\ b = b'.
Proof. intros H H' E. assert (a = a') by nia. subst. lia. Qed.
Lemma linear_index_inj group pack ncols r c r' c' : 0 < group -> 0 < pack -> c < ncols -> c' < ncols ->
  linear_index group pack r c ncols = linear_index group pack r' c' ncols -> r = r' /\ c = c'.
Proof.
  intros Hg Hp Hc Hc' E. unfold linear_index in E. cbv zeta in E. unfold padded_ncols in E.
  pose proof (div_lt_ceil ncols pack c Hp Hc) as C. pose proof (div_lt_ceil ncols pack c' Hp Hc') as C'.
  pose proof (Nat.mod_upper_bound r group ltac:(lia)) as R1. pose proof (Nat.mod_upper_bound r' group ltac:(lia)) as R2.
  pose proof (Nat.mod_upper_bound c pack ltac:(lia)) as P1. pose proof (Nat.mod_upper_bound c' pack ltac:(lia)) as P2.
  pose proof (Nat.div_mod r group ltac:(lia)) as D1. pose proof (Nat.div_mod r' group ltac:(lia)) as D2.
  pose proof (Nat.div_mod c pack ltac:(lia)) as D3. pose proof (Nat.div_mod c' pack ltac:(lia)) as D4.
  set (CG := div_ceil ncols pack) in *.
  destruct (mixed_inj pack ((r / group * CG + c / pack) * group + r mod group) (c mod pack) ((r' / group * CG + c' / pack) * group + r' mod group) (c' mod pack)) as [E1 E2];
    [assumption..|lia|].
  destruct (mixed_inj group _ _ _ _ R1 R2 E1) as [E3 E4]. destruct (mixed_inj CG _ _ _ _ C C' E3) as [E5 E6].
  split; congruence.
Qed.
