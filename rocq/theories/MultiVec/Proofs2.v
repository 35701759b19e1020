(** The rows the kernel reads are the vectors, and the kernels agree. *)
From Coq Require Import List PeanoNat Bool Lia.
From Verif.Lib Require Import Base Lists.
From Verif.Simd Require Import Model.
From Verif.Pq Require Import Model Proofs.
From Verif.MultiVec Require Import Model Spec Proofs.
Import ListNotations.

Lemma nth_combine {X Y} (q : list X) : forall (d : list Y) c x y, nth_error q c = Some x -> nth_error d c = Some y -> nth_error (List.combine q d) c = Some (x, y).
Proof. induction q as [|x' q IH]; intros [|y' d] [|c] x y; cbn; try discriminate; [congruence|apply IH]. Qed.
Lemma fold_ext {X Y} (f g : X -> Y -> X) l : (forall x y, In y l -> f x y = g x y) -> forall x, fold_left f l x = fold_left g l x.
Proof. induction l as [|y l IH]; intros H x; cbn; [reflexivity|]. rewrite (H x y) by now left. apply IH. intros. apply H. now right. Qed.
Lemma in_panel' A k n p c l : p < n -> c < k -> l < A -> p * (A * k) + (A * c + l) < n * (A * k).
Proof. intros. assert (A * c + l < A * k) by nia. nia. Qed.

Section Rows.
  Context {T F : Type} (o : mops T F).
  Lemma inner_seq q d k (f g : nat -> F) : length q = k -> length d = k ->
    (forall c, c < k -> option_map (cvt o) (nth_error q c) = Some (f c)) -> (forall c, c < k -> option_map (cvt o) (nth_error d c) = Some (g c)) ->
    inner o q d = fold_left (fun s c => madd o (f c) (g c) s) (seq 0 k) (mzero o).
  Proof.
    intros LQ LD HF HG. unfold inner.
    assert (E : map (fun p => (cvt o (fst p), cvt o (snd p))) (List.combine q d) = map (fun c => (f c, g c)) (seq 0 k)).
    { apply list_map_seq. { rewrite map_length, combine_length. lia. } intros c C. rewrite nth_error_map. specialize (HF c C). specialize (HG c C).
      destruct (nth_error q c) as [x|] eqn:X; [|discriminate]. destruct (nth_error d c) as [y|] eqn:Y; [|discriminate]. rewrite (nth_combine q d c x y X Y). cbn in *. congruence. }
    transitivity (fold_left (fun s p => madd o (fst p) (snd p) s) (map (fun p => (cvt o (fst p), cvt o (snd p))) (List.combine q d)) (mzero o)).
    - clear. generalize (mzero o). induction (List.combine q d) as [|p l IH]; intros z; cbn; [reflexivity|]. apply IH.
    - rewrite E. clear. generalize (mzero o). induction (seq 0 k) as [|p l IH]; intros z; cbn; [reflexivity|]. apply IH.
  Qed.
  Lemma row_len (m : matrix T) i : whole m -> i < m_rows m -> length (firstn (m_cols m) (skipn (i * m_cols m) (m_data m))) = m_cols m.
  Proof. unfold whole. intros H I. rewrite firstn_length, skipn_length, H. nia. Qed.
  Lemma row_at (m : matrix T) i c : c < m_cols m -> nth_error (firstn (m_cols m) (skipn (i * m_cols m) (m_data m))) c = nth_error (m_data m) (i * m_cols m + c).
  Proof. intros C. now rewrite nth_error_firstn', nth_error_skipn'. Qed.
  Lemma rows_vectors (m : matrix T) : whole m -> rows_of m = Some (vectors m).
  Proof.
    intros H. unfold rows_of, vectors. apply each_seq. intros i I. unfold m_row. rewrite (proj2 (Nat.ltb_lt _ _) I). unfold whole in H. rewrite slice_eq by nia. do 2 f_equal. lia.
  Qed.
  Lemma dense_ok (m : matrix T) : whole m -> s_ok (dense m).
  Proof. unfold whole, s_ok, dense, linear_length. cbn. intros H. split; [lia|]. rewrite H. destruct (m_rows m); nia. Qed.

  Context (A B : nat) (HA : 0 < A) (HB : 1 <= B <= 4).
  Context (query doc : matrix T) (HQ : whole query) (HD : whole doc) (HC : m_cols query = m_cols doc) (HO : orderly o).
  Notation k := (m_cols query).
  Notation cs := (cells (tdef o) A 1 (dense query)).
  Notation NB := (div_ceil (m_rows query) A).

  Lemma padded1 n : padded_ncols 1 n = n.
  Proof. unfold padded_ncols, div_ceil. rewrite Nat.add_sub, Nat.div_1_r. lia. Qed.
  Lemma cs_len : length cs = NB * (A * k).
  Proof. rewrite cells_length by (assumption || lia || now apply dense_ok). unfold bt_capacity. cbn [dense s_rows s_cols]. rewrite padded1. ring. Qed.
  Lemma cs_at i c : i < m_rows query -> c < k -> nth_error cs (i / A * (A * k) + (A * c + i mod A)) = nth_error (m_data query) (i * k + c).
  Proof.
    intros I C. pose proof (Nat.div_mod i A ltac:(lia)) as DM. pose proof (Nat.mod_upper_bound i A ltac:(lia)) as MB.
    pose proof (cells_nth (tdef o) A 1 (dense query)) as N. cbn [dense s_rows s_cols] in N. rewrite padded1 in N.
    assert (DC : div_ceil k 1 = k) by (unfold div_ceil; rewrite Nat.add_sub, Nat.div_1_r; reflexivity).
    assert (X : nth_error cs (i / A * A * k + c * A * 1 + i mod A * 1 + 0) = Some (cell (tdef o) (dense query) (i / A * A + i mod A) (c * 1 + 0))).
    { apply N; rewrite ?DC; try lia. now apply div_lt_ceil. }
    replace (i / A * (A * k) + (A * c + i mod A)) with (i / A * A * k + c * A * 1 + i mod A * 1 + 0) by ring. rewrite X.
    replace (i / A * A + i mod A) with i by lia. replace (c * 1 + 0) with c by lia. unfold cell. cbn [dense s_rows s_cols].
    rewrite (proj2 (Nat.ltb_lt _ _) I), (proj2 (Nat.ltb_lt _ _) C). cbn [andb].
    destruct (s_get_in (dense query) i c (dense_ok query HQ) I C) as (x & -> & Y). cbn [dense s_data s_stride] in Y. now rewrite Y.
  Qed.
  Lemma D_inner i j : i < m_rows query -> j < m_rows doc -> D o A k cs (m_data doc) i j = inner o (firstn k (skipn (i * k) (m_data query))) (firstn (m_cols doc) (skipn (j * m_cols doc) (m_data doc))).
  Proof.
    intros I J. symmetry. unfold D. apply inner_seq.
    - now apply row_len.
    - rewrite HC. now apply row_len.
    - intros c C. rewrite row_at by exact C. rewrite <- cs_at by assumption. unfold ea. rewrite <- nth_error_map. apply nth_error_nth'. rewrite map_length, cs_len.
      apply in_panel'; try assumption; [now apply div_lt_ceil|apply Nat.mod_upper_bound; lia].
    - intros c C. rewrite row_at by lia. unfold eb. rewrite HC, <- nth_error_map. apply nth_error_nth'. rewrite map_length. unfold whole in HD. rewrite HD. nia.
  Qed.
  Lemma acc_best i : i < m_rows query -> acc o A k cs (m_data doc) i (m_rows doc) = best o (firstn k (skipn (i * k) (m_data query))) (vectors doc).
  Proof.
    intros I. unfold acc, best, vectors. rewrite map_map. f_equal. apply map_ext_in. intros j J. apply in_seq in J. apply D_inner; [exact I|lia].
  Qed.
  Lemma zero_rows z n : orderly o -> z = lowest o \/ z = mzero o -> 0 < n -> fold_left (mmax o) (repeat (mzero o) n) z = mzero o.
  Proof. intros (_ & O1 & O2). revert z. induction n as [|n IH]; intros z Z N; [lia|]. cbn. assert (E : mmax o z (mzero o) = mzero o) by (destruct Z as [-> | ->]; assumption). rewrite E. destruct n; [reflexivity|]. apply IH; [now right|lia]. Qed.
  Lemma prepared_ok bytes l2 l1 scores : length scores = m_rows query -> 0 < m_rows doc ->
    compute_prepared o A B bytes l2 l1 query doc scores = Some (Some (map (fun q => mneg o (best o q (vectors doc))) (vectors query))).
  Proof.
    intros LS MD. unfold compute_prepared. rewrite bt_from_eq by (assumption || lia || now apply dense_ok). cbn [bind]. rewrite LS, Nat.eqb_refl. cbn [negb].
    rewrite (proj2 (Nat.eqb_neq (m_rows doc) 0)) by lia. unfold max_ip_kernel. cbv zeta. rewrite repeat_length, Nat.eqb_refl, HC, Nat.eqb_refl. cbn [negb orb]. rewrite <- HC.
    pose proof (div_ceil_bound (m_rows query) A HA) as CB.
    assert (X : exists r, tiled_reduce o A B bytes l2 l1 cs (NB * A) (m_data doc) (m_rows doc) k (repeat (lowest o) (NB * A)) = Some r /\ length r = NB * A /\
      forall i, i < m_rows query -> nth_error r i = Some (best o (firstn k (skipn (i * k) (m_data query))) (vectors doc))).
    { destruct (Nat.eq_dec k 0) as [K|K].
      - unfold tiled_reduce. cbv zeta. rewrite Nat.mod_mul by lia. cbn [Nat.eqb negb]. rewrite K. cbn [Nat.eqb]. rewrite (proj2 (Nat.ltb_lt 0 (m_rows doc)) MD), repeat_length, Nat.leb_refl.
        eexists. split; [reflexivity|]. rewrite skipn_all2 by (rewrite repeat_length; lia). rewrite app_nil_r. split; [apply repeat_length|]. intros i I. rewrite nth_error_repeat by lia. f_equal.
        unfold best, vectors. rewrite <- HC, K. cbn [firstn]. rewrite map_map. unfold inner. cbn [List.combine fold_left].
        assert (R : map (fun _ : nat => mzero o) (seq 0 (m_rows doc)) = repeat (mzero o) (m_rows doc)) by (clear; generalize 0; induction (m_rows doc); intros; cbn; [|rewrite IHn]; reflexivity).
        rewrite R. symmetry. apply zero_rows; auto.
      - destruct (tiled_ok o A B k NB (m_rows doc) cs (m_data doc) HA HB ltac:(lia) cs_len) with (bytes := bytes) (l2 := l2) (l1 := l1) as (r & E & L & P).
        + unfold whole in HD. now rewrite HD, HC.
        + apply HO.
        + exists r. split; [exact E|]. split; [exact L|]. intros i I. rewrite P by lia. f_equal. now apply acc_best. }
    destruct X as (r & E & L & P). rewrite E. cbn [bind]. rewrite slice_eq by lia. cbn [bind]. do 2 f_equal. rewrite Nat.sub_0_r. cbn [skipn].
    unfold vectors at 2. rewrite map_map, <- (map_map (fun i => best o (firstn k (skipn (i * k) (m_data query))) (vectors doc)) (mneg o)). f_equal.
    apply list_map_seq; [rewrite firstn_length; lia|]. intros i I. rewrite nth_error_firstn' by exact I. now apply P.
  Qed.
End Rows.

Section Reference.
  Context {T F : Type} (o : mops T F) (ip : list T -> list T -> F).
  Context (dual : forall a b, mneg o (mmax o a b) = mmin o (mneg o a) (mneg o b)) (ends : mneg o (lowest o) = highest o).
  Lemma min_best q ds : (forall d, In d ds -> ip q d = mneg o (inner o q d)) -> fold_left (fun m d => mmin o m (ip q d)) ds (highest o) = mneg o (best o q ds).
  Proof.
    unfold best. rewrite <- ends. generalize (lowest o) as z. induction ds as [|d ds IH]; intros z H; cbn; [reflexivity|]. rewrite (H d) by now left. rewrite <- dual. apply IH. intros. apply H. now right.
  Qed.
End Reference.
