(** The basic table: pieces, codes and inflated vectors; distances of codes. *)
From Coq Require Import List PeanoNat Bool Lia Arith Ring Ring_theory.
From Verif.Lib Require Import Lists.
From Verif.Simd Require Import Model Spec Proofs Proofs2 Proofs5.
From Verif.Simd Require Props.
From Verif.Pq Require Import Model Spec Proofs Proofs2 Proofs4 Proofs5 Proofs6.
Require Verif.Work.Model.
Import ListNotations.

Lemma each_none {A B} (f : A -> option B) l a : In a l -> f a = None -> each f l = None.
Proof.
  induction l as [|b l IH]; intros I N; [destruct I|]. cbn [each]. destruct I as [->|I]; [now rewrite N|]. destruct (f b); cbn [bind]; [|reflexivity].
  rewrite IH; auto.
Qed.
Lemma sub_row {A} (m : matrix A) j a b : length (m_data m) = m_rows m * m_cols m -> j < m_rows m -> a <= b -> b <= m_cols m ->
  slice (m_cols m * j + a) (m_cols m * j + b) (m_data m) = Some (firstn (b - a) (skipn a (row m j))).
Proof.
  intros HL HJ H1 H2. rewrite slice_eq by nia. f_equal. replace (m_cols m * j + b - (m_cols m * j + a)) with (b - a) by lia. unfold row.
  apply nth_error_ext. intros k. destruct (Nat.lt_ge_cases k (b - a)) as [K|K].
  - rewrite !nth_error_firstn' by lia. rewrite !nth_error_skipn'. rewrite nth_error_firstn' by lia. rewrite nth_error_skipn'. f_equal. lia.
  - rewrite !(proj2 (nth_error_None _ _)); [reflexivity|rewrite firstn_length; lia..].
Qed.

Section Offsets.
  Context (offsets : list nat) (dim : nat) (Ho : Work.Model.offsets_new offsets = Some dim).
  Notation n := (length offsets - 1).
  Lemma pieces_prefix {A} (v : list A) : length v = dim -> forall k, k <= n ->
    concat (map (fun i => piece offsets i v) (seq 0 k)) = firstn (nth k offsets 0) v.
  Proof.
    intros HV. induction k as [|k IH]; intros K; [now rewrite (off_0 offsets dim Ho)|].
    rewrite seq_S, map_app, concat_app, IH by lia. cbn [map concat Nat.add]. rewrite app_nil_r. unfold piece.
    pose proof (off_lt offsets dim Ho k ltac:(lia)) as L. rewrite <- (firstn_skipn (nth k offsets 0) (firstn (nth (S k) offsets 0) v)) at 1.
    f_equal; [now rewrite firstn_firstn, Nat.min_l by lia|]. now rewrite skipn_firstn_comm.
  Qed.
  Lemma pieces_all {A} (v : list A) : length v = dim -> concat (map (fun i => piece offsets i v) (seq 0 n)) = v.
  Proof. intros HV. rewrite pieces_prefix by lia. rewrite (off_last offsets dim Ho). apply firstn_all2. lia. Qed.
  (** Pieces put together. *)
  Lemma built_length {A} (p : nat -> list A) k : k <= n -> (forall i, i < n -> length (p i) = nth (S i) offsets 0 - nth i offsets 0) ->
    length (concat (map p (seq 0 k))) = nth k offsets 0.
  Proof.
    intros K HP. induction k as [|k IH]; [now rewrite (off_0 offsets dim Ho)|].
    rewrite seq_S, map_app, concat_app, app_length, IH by lia. cbn [map concat Nat.add]. rewrite app_nil_r, HP by lia.
    pose proof (off_lt offsets dim Ho k ltac:(lia)). lia.
  Qed.
  Lemma built_piece {A} (p : nat -> list A) i : i < n -> (forall i, i < n -> length (p i) = nth (S i) offsets 0 - nth i offsets 0) ->
    piece offsets i (concat (map p (seq 0 n))) = p i.
  Proof.
    intros I HP. unfold piece. replace (seq 0 n) with (seq 0 i ++ i :: seq (S i) (n - S i)).
    2:{ change (i :: seq (S i) (n - S i)) with (seq i (S (n - S i))). rewrite <- seq_app. f_equal. lia. }
    rewrite map_app, concat_app. cbn [map concat]. rewrite <- (built_length p i ltac:(lia) HP) at 2.
    rewrite skipn_app, skipn_all2, Nat.sub_diag by lia. cbn [skipn app]. rewrite <- HP by assumption.
    rewrite firstn_app, Nat.sub_diag, firstn_all. cbn [firstn]. apply app_nil_r.
  Qed.
End Offsets.

Section Basic.
  Context {F : Type} (x : xops F) (pivots : matrix F) (offsets : list nat) (dim : nat).
  Context (Ho : Work.Model.offsets_new offsets = Some dim) (Hm : length (m_data pivots) = m_rows pivots * m_cols pivots) (Hd : m_cols pivots = dim).
  Notation n := (length offsets - 1).
  Notation t := (mkB pivots offsets dim).
  Notation o := (fo x).
  Lemma bounds i : i < n -> nth_error offsets i = Some (nth i offsets 0) /\ nth_error offsets (i + 1) = Some (nth (S i) offsets 0) /\
    nth i offsets 0 < nth (S i) offsets 0 /\ nth (S i) offsets 0 <= dim.
  Proof.
    intros I. rewrite Nat.add_1_r. pose proof (off_len offsets dim Ho). split; [apply off_nth; lia|]. split; [apply off_nth; lia|].
    split; [apply (off_lt offsets dim Ho); lia|apply (off_le offsets dim Ho); lia].
  Qed.
  Lemma pivot_slice_ok code i c : i < n -> nth_error code i = Some c -> c < m_rows pivots -> pivot_slice t code i = Some (piece offsets i (row pivots c)).
  Proof.
    intros I N C. destruct (bounds i I) as (B1 & B2 & B3 & B4). unfold pivot_slice. cbn [b_offsets b_pivots]. rewrite B1, B2, N. cbn [bind].
    apply sub_row; [exact Hm|assumption|lia|lia].
  Qed.
  Lemma pivot_slice_bad code i : i < n -> (forall c, nth_error code i = Some c -> m_rows pivots <= c) -> pivot_slice t code i = None.
  Proof.
    intros I N. destruct (bounds i I) as (B1 & B2 & B3 & B4). unfold pivot_slice. cbn [b_offsets b_pivots]. rewrite B1, B2. cbn [bind].
    destruct (nth_error code i) as [c|]; cbn [bind]; [|reflexivity]. specialize (N c eq_refl). unfold slice.
    destruct (Nat.leb_spec (m_cols pivots * c + nth (S i) offsets 0) (length (m_data pivots))) as [L|]; [|now rewrite andb_false_r].
    exfalso. rewrite Hm in L. assert (m_rows pivots * m_cols pivots <= m_cols pivots * c) by nia. lia.
  Qed.
  Lemma query_slice_ok q i : i < n -> length q = dim -> query_slice t q i = Some (piece offsets i q).
  Proof.
    intros I HQ. destruct (bounds i I) as (B1 & B2 & B3 & B4). unfold query_slice. cbn [b_offsets]. rewrite B1, B2. cbn [bind].
    now destruct (piece_slice offsets dim Ho q i I HQ) as [-> _].
  Qed.
  Lemma piece_len {A} (v : list A) i : i < n -> length v = dim -> length (piece offsets i v) = nth (S i) offsets 0 - nth i offsets 0.
  Proof. intros I HV. now destruct (piece_slice offsets dim Ho v i I HV). Qed.
  Lemma row_len c : c < m_rows pivots -> length (row pivots c) = dim.
  Proof. intros C. rewrite row_length; assumption. Qed.
  (** The vector of a valid code. *)
  Definition vec (code : list nat) : list F := concat (map (fun i => piece offsets i (row pivots (nth i code 0))) (seq 0 n)).
  Lemma code_nth code i : valid_code pivots offsets code -> i < n -> nth_error code i = Some (nth i code 0) /\ nth i code 0 < m_rows pivots.
  Proof.
    intros [L V] I. assert (N : nth_error code i = Some (nth i code 0)) by (apply nth_error_nth'; lia). split; [exact N|]. now apply (V i).
  Qed.
  Lemma vec_piece_len code i : valid_code pivots offsets code -> i < n -> length (piece offsets i (row pivots (nth i code 0))) = nth (S i) offsets 0 - nth i offsets 0.
  Proof. intros V I. apply piece_len; [assumption|]. apply row_len. now apply (code_nth code i V). Qed.
  Lemma vec_decodes code : valid_code pivots offsets code -> decodes pivots offsets dim code (vec code).
  Proof.
    intros V. split; [|split; [apply V|]].
    - unfold vec. rewrite (built_length offsets dim Ho); [apply (off_last offsets dim Ho)|lia|]. intros; now apply vec_piece_len.
    - intros i I. exists (nth i code 0). destruct (code_nth code i V I) as [N C]. split; [exact N|]. split; [exact C|].
      unfold vec. rewrite (built_piece offsets dim Ho (fun i => piece offsets i (row pivots (nth i code 0)))); [reflexivity|assumption|].
      intros; now apply vec_piece_len.
  Qed.
  Lemma decodes_valid code v : decodes pivots offsets dim code v -> valid_code pivots offsets code /\ v = vec code.
  Proof.
    intros (L & LC & D). assert (V : valid_code pivots offsets code).
    { split; [exact LC|]. intros i c N. assert (I : i < n) by (rewrite <- LC; eapply nth_error_lt'; eassumption). destruct (D i I) as (c' & N' & C & _). congruence. }
    split; [exact V|]. rewrite <- (pieces_all offsets dim Ho v L). unfold vec. f_equal. apply map_ext_in. intros i I. apply in_seq in I.
    destruct (D i ltac:(lia)) as (c & N & _ & ->). do 2 f_equal. apply nth_error_nth with (d := 0) in N. congruence.
  Qed.
  Definition parts_of (u v : list F) : list (list F * list F) := map (fun i => (piece offsets i u, piece offsets i v)) (seq 0 n).
  Lemma parts_equal u v : length u = dim -> length v = dim -> Forall (fun p : list F * list F => length (fst p) = length (snd p)) (parts_of u v).
  Proof.
    intros HU HV. apply Forall_forall. intros p P. apply in_map_iff in P as (i & <- & I). apply in_seq in I. cbn [fst snd]. now rewrite !piece_len by lia.
  Qed.
  Lemma parts_fst u v : length u = dim -> concat (map fst (parts_of u v)) = u.
  Proof. intros HU. unfold parts_of. rewrite map_map. cbn [fst]. now apply (pieces_all offsets dim Ho). Qed.
  Lemma parts_snd u v : length v = dim -> concat (map snd (parts_of u v)) = v.
  Proof. intros HU. unfold parts_of. rewrite map_map. cbn [snd]. now apply (pieces_all offsets dim Ho). Qed.
  Lemma vec_piece code i : valid_code pivots offsets code -> i < n -> piece offsets i (vec code) = piece offsets i (row pivots (nth i code 0)).
  Proof.
    intros V I. destruct (vec_decodes code V) as (_ & _ & D). destruct (D i I) as (c & N & _ & ->). do 2 f_equal.
    apply nth_error_nth with (d := 0) in N. congruence.
  Qed.
  Lemma direct_parts_ok q code : length q = dim -> valid_code pivots offsets code -> direct_parts t q code = Some (parts_of q (vec code)).
  Proof.
    intros HQ V. unfold direct_parts, b_nchunks. cbn [b_offsets]. apply each_seq. intros i I. rewrite query_slice_ok by assumption. cbn [bind].
    destruct (code_nth code i V I) as [N C]. rewrite (pivot_slice_ok code i _ I N C). cbn [bind]. now rewrite vec_piece.
  Qed.
  Lemma self_parts_ok l r : valid_code pivots offsets l -> valid_code pivots offsets r -> self_parts t l r = Some (parts_of (vec l) (vec r)).
  Proof.
    intros V V'. unfold self_parts, b_nchunks. cbn [b_offsets]. rewrite (proj2 (Nat.eqb_eq _ _) (proj1 V)), (proj2 (Nat.eqb_eq _ _) (proj1 V')). cbn [negb].
    apply each_seq. intros i I. destruct (code_nth l i V I) as [N C], (code_nth r i V' I) as [N' C'].
    rewrite (pivot_slice_ok l i _ I N C), (pivot_slice_ok r i _ I N' C'). cbn [bind]. now rewrite !vec_piece.
  Qed.
  (** A code of the right length that is not valid has a byte that names no pivot. *)
  Lemma invalid_code code : length code = n -> ~ valid_code pivots offsets code -> exists i, i < n /\ pivot_slice t code i = None.
  Proof.
    intros L NV. destruct (Forall_Exists_dec (fun c => c < m_rows pivots) (fun c => lt_dec c (m_rows pivots)) code) as [A|E].
    - exfalso. apply NV. split; [exact L|]. intros i c N. rewrite Forall_forall in A. apply A. eapply nth_error_In; eassumption.
    - apply Exists_exists in E as (c & I & B). apply In_nth_error in I as (i & N). assert (i < n) by (rewrite <- L; eapply nth_error_lt'; eassumption).
      exists i. split; [assumption|]. apply pivot_slice_bad; [assumption|]. intros c' N'. assert (c' = c) by congruence. lia.
  Qed.
  Lemma direct_parts_bad q code : length code = n -> ~ valid_code pivots offsets code -> direct_parts t q code = None.
  Proof.
    intros L NV. destruct (invalid_code code L NV) as (i & I & N). unfold direct_parts, b_nchunks. cbn [b_offsets].
    apply (each_none _ _ i); [apply in_seq; lia|]. rewrite N. destruct (query_slice t q i); reflexivity.
  Qed.
  Lemma self_parts_bad l r : ~ (valid_code pivots offsets l /\ valid_code pivots offsets r) -> self_parts t l r = None.
  Proof.
    intros NV. unfold self_parts, b_nchunks. cbn [b_offsets].
    destruct (Nat.eqb_spec (length l) n) as [L1|]; cbn [negb]; [|reflexivity]. destruct (Nat.eqb_spec (length r) n) as [L2|]; cbn [negb]; [|reflexivity].
    assert (VD : forall c, length c = n -> {valid_code pivots offsets c} + {~ valid_code pivots offsets c}).
    { intros c L. destruct (Forall_dec (fun c => c < m_rows pivots) (fun c => lt_dec c (m_rows pivots)) c) as [A|A].
      - left. split; [exact L|]. intros i b N. rewrite Forall_forall in A. apply A. eapply nth_error_In; eassumption.
      - right. intros [_ V]. apply A. apply Forall_forall. intros b I. apply In_nth_error in I as (i & N). eapply V; eassumption. }
    destruct (VD l L1) as [V1|N1].
    - destruct (VD r L2) as [V2|N2]; [tauto|]. destruct (invalid_code r L2 N2) as (i & I & N).
      apply (each_none _ _ i); [apply in_seq; lia|]. rewrite N. now destruct (pivot_slice t l i).
    - destruct (invalid_code l L1 N1) as (i & I & N). apply (each_none _ _ i); [apply in_seq; lia|]. now rewrite N.
  Qed.

  (** ** Inflation *)
  Lemma inflate_ok code : valid_code pivots offsets code -> inflate x t code = Some (vec code).
  Proof.
    intros V. unfold inflate, b_nchunks. cbn [b_offsets b_dim]. rewrite (proj2 (Nat.eqb_eq _ _) (proj1 V)). cbn [negb]. rewrite (proj1 V).
    set (p := fun i => piece offsets i (row pivots (nth i code 0))).
    assert (PL : forall i, i < n -> length (p i) = nth (S i) offsets 0 - nth i offsets 0) by (intros; now apply vec_piece_len).
    assert (Q : forall k, k <= n -> fold_left (fun out i => do out <- out; do start <- nth_error offsets i; do stop <- nth_error offsets (i + 1);
        do dst <- slice start stop out; do p <- pivot_slice t code i; Some (firstn start out ++ p ++ skipn stop out)) (seq 0 k) (Some (repeat (zero (fo x)) dim)) =
      Some (concat (map p (seq 0 k)) ++ repeat (zero (fo x)) (dim - nth k offsets 0))).
    { induction k as [|k IH]; intros K.
      - rewrite (off_0 offsets dim Ho), Nat.sub_0_r. reflexivity.
      - rewrite seq_S, fold_left_app, IH by lia. cbn [Nat.add fold_left bind]. destruct (bounds k ltac:(lia)) as (B1 & B2 & B3 & B4).
        pose proof (built_length offsets dim Ho p k ltac:(lia) PL) as BL.
        rewrite B1, B2. cbn [bind]. rewrite slice_eq by (try lia; rewrite app_length, BL, repeat_length; lia). cbn [bind].
        destruct (code_nth code k V ltac:(lia)) as [N C]. rewrite (pivot_slice_ok code k _ ltac:(lia) N C). cbn [bind]. f_equal. fold (p k).
        rewrite firstn_app, BL, Nat.sub_diag, firstn_all2 by lia. cbn [firstn]. rewrite app_nil_r.
        rewrite skipn_app, BL, skipn_all2 by lia. cbn [app].
        rewrite map_app, concat_app. cbn [map concat]. rewrite app_nil_r, <- app_assoc. do 2 f_equal.
        replace (dim - nth k offsets 0) with (nth (S k) offsets 0 - nth k offsets 0 + (dim - nth (S k) offsets 0)) by lia.
        rewrite repeat_app, skipn_app, skipn_all2, repeat_length by (rewrite repeat_length; lia). cbn [app].
        now replace (nth (S k) offsets 0 - nth k offsets 0 - (nth (S k) offsets 0 - nth k offsets 0)) with 0 by lia. }
    rewrite Q by lia. rewrite (off_last offsets dim Ho), Nat.sub_diag. cbn [repeat]. now rewrite app_nil_r.
  Qed.
  Lemma inflate_bad code : ~ valid_code pivots offsets code -> inflate x t code = None.
  Proof.
    intros NV. unfold inflate, b_nchunks. cbn [b_offsets b_dim]. destruct (Nat.eqb_spec (length code) n) as [L|]; cbn [negb]; [|reflexivity].
    destruct (invalid_code code L NV) as (i & I & N). rewrite L.
    set (step := fun out i => _).
    assert (Q : forall k s, i < k -> fold_left step (seq 0 k) s = None).
    { induction k as [|k IH]; intros s K; [lia|]. rewrite seq_S, fold_left_app. cbn [Nat.add fold_left]. destruct (Nat.eq_dec i k) as [<-|NE].
      - unfold step at 1. destruct (fold_left step (seq 0 i) s); cbn [bind]; [|reflexivity]. destruct (bounds i I) as (B1 & B2 & _). rewrite B1, B2. cbn [bind].
        rewrite N. now destruct (slice _ _ l).
      - rewrite IH by lia. reflexivity. }
    now apply Q.
  Qed.

  (** ** Distances in exact arithmetic *)
  Context (a : arch) (ex : exact o).
  Let rt := ex_ring o ex.
  Add Ring FR2 : rt.
  Lemma resume_cos_ok c parts : 0 < c_width c -> Forall (fun p : list F * list F => length (fst p) = length (snd p)) parts -> forall acc, cw (c_width c) acc ->
    exists r, resume_cos x c acc parts = Some r /\ cw (c_width c) r /\
      csum o r = t_op (add o) (csum o acc) (true_ip o (concat (map fst parts)) (concat (map fst parts)),
        true_ip o (concat (map snd parts)) (concat (map snd parts)), true_ip o (concat (map fst parts)) (concat (map snd parts))).
  Proof.
    intros W H. induction H as [|[u v] parts HL HP IH]; intros acc HA; cbn [resume_cos map concat fst snd].
    - exists acc. split; [reflexivity|]. split; [assumption|]. unfold true_ip. cbn [total]. now rewrite (t_zero_r o ex).
    - cbn [fst snd] in HL. destruct (cos_schema_ok o ex (fun e : F => e) (fun e : F => e) (zero o) (zero o) eq_refl eq_refl c u v W HL) as (r & -> & R1 & R2). cbn [bind].
      destruct (cos_combine_ok o ex _ acc r HA R1) as [C1 C2]. destruct (IH _ C1) as (r' & E & D1 & D2). exists r'. split; [exact E|]. split; [exact D1|].
      rewrite D2, C2, R2, (t_assoc o ex). f_equal. rewrite (ttot_parts o (fun e : F => e) (fun e : F => e)) by assumption. cbn [t_op].
      unfold true_ip. rewrite !(Proofs6.total_app o ex) by (reflexivity || assumption).
      assert (T1 : forall u v : list F, length u = length v -> total o (fun a _ : F => mul o a a) u v = total o (mul o) u u).
      { induction u0 as [|b u0 IH0]; intros [|d v0] L; try discriminate; cbn [total]; [reflexivity|]. now rewrite IH0 by (injection L; auto). }
      assert (T2 : forall u v : list F, length u = length v -> total o (fun _ b : F => mul o b b) u v = total o (mul o) v v).
      { induction u0 as [|b u0 IH0]; intros [|d v0] L; try discriminate; cbn [total]; [reflexivity|]. now rewrite IH0 by (injection L; auto). }
      rewrite T1, T2 by assumption. reflexivity.
  Qed.
  Lemma distance_exact m parts : Forall (fun p : list F * list F => length (fst p) = length (snd p)) parts ->
    distance_of x a m parts = Some (true_distance o m (concat (map fst parts)) (concat (map snd parts))).
  Proof.
    intros H. assert (RES : forall k, resumable_distance o (fun e => e) (fun e => e) (zero o) (zero o) k a F32 parts =
      Some (total o (term o (fun e => e) (fun e => e) k) (concat (map fst parts)) (concat (map snd parts)))) by
      (intros k; exact (proj1 (Props.C91_resumable o (fun e => e) (fun e => e) (zero o) (zero o) ex eq_refl eq_refl k a F32 parts H))).
    assert (COS : resumable_cosine x a parts = Some (true_cosine o (concat (map fst parts)) (concat (map snd parts)))).
    { unfold resumable_cosine. cbv zeta. destruct (cos_width a F32) as [w W].
      destruct (resume_cos_ok (cos_cfg a F32) parts) with (acc := (repeat (zero o) (c_width (cos_cfg a F32)), repeat (zero o) (c_width (cos_cfg a F32)), repeat (zero o) (c_width (cos_cfg a F32))))
        as (r & -> & R1 & R2); [rewrite W; apply Nat.neq_0_lt_0, Nat.pow_nonzero; lia|assumption|cbn [cw]; now rewrite repeat_length|].
      cbn [bind]. cbn [csum] in R2. rewrite (lsum_zero o ex), (t_zero_l o ex) in R2. destruct r as [[nx ny] xy]. cbn [csum] in R2. cbn [cw] in R1. destruct R1 as (W1 & W2 & W3).
      cbn [cos_parts]. rewrite !(sum_tree_ok o ex _ w) by congruence. injection R2 as -> -> ->. reflexivity. }
    destruct m; cbn [distance_of true_distance].
    - apply RES.
    - rewrite RES. reflexivity.
    - now rewrite COS.
    - now rewrite COS.
  Qed.
End Basic.
