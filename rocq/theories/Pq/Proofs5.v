(** Compression with the transposed table, one vector at a time and batched. *)
From Coq Require Import List PeanoNat Bool Lia Arith.
From Verif.Lib Require Import Lists.
From Verif.Simd Require Import Model Proofs2.
From Verif.Pq Require Import Model Spec Proofs Proofs2 Proofs3 Proofs4.
Require Verif.Work.Model Verif.Work.Spec Verif.Work.Proofs.
Import ListNotations.

(** ** Filling the output *)
Definition byte (r : option nat) : nat := match r with Some v => v mod 256 | None => 0 end.
Lemma fill_ok (f : nat -> option (result cerr nat)) (g : nat -> option nat) (e : nat -> cerr) :
  forall to s, (forall i, i < length to -> f (s + i) = Some (match g (s + i) with Some v => Ok v | None => Err (e (s + i)) end)) ->
  ((forall i, i < length to -> g (s + i) <> None) /\ fill f s to = Some (Ok tt, map (fun i => byte (g (s + i))) (seq 0 (length to)))) \/
  (exists i, i < length to /\ g (s + i) = None /\ (forall i', i' < i -> g (s + i') <> None) /\
     fill f s to = Some (Err (e (s + i)), map (fun i => byte (g (s + i))) (seq 0 i) ++ skipn i to)).
Proof.
  induction to as [|b to IH]; intros s H.
  - left. split; [cbn; lia|reflexivity].
  - cbn [fill]. pose proof (H 0 ltac:(cbn; lia)) as H0. rewrite Nat.add_0_r in H0. rewrite H0. cbn [bind].
    destruct (g s) as [v|] eqn:G.
    + destruct (IH (S s)) as [[A B]|(i & I & N & M & B)].
      * intros i I. rewrite Nat.add_succ_comm. apply H. cbn; lia.
      * left. split.
        { intros [|i] I; [rewrite Nat.add_0_r; congruence|]. rewrite <- Nat.add_succ_comm. apply A. cbn in I; lia. }
        rewrite B. cbn [bind fst snd length seq map]. rewrite Nat.add_0_r, G. cbn [byte]. do 3 f_equal.
        rewrite <- seq_shift, map_map. apply map_ext. intros i. now rewrite Nat.add_succ_comm.
      * right. exists (S i). cbn [length]. split; [lia|]. rewrite <- Nat.add_succ_comm. split; [assumption|]. split.
        { intros [|i'] I'; [rewrite Nat.add_0_r; congruence|]. rewrite <- Nat.add_succ_comm. apply M. lia. }
        rewrite B. cbn [bind fst snd seq map app]. rewrite Nat.add_0_r, G. cbn [byte]. do 3 f_equal. cbn [skipn]. f_equal.
        rewrite <- seq_shift, map_map. apply map_ext. intros k. now rewrite Nat.add_succ_comm.
    + right. exists 0. rewrite Nat.add_0_r. cbn [length seq map app skipn]. split; [lia|]. split; [assumption|]. split; [lia|reflexivity].
Qed.

Section Table.
  Context {F : Type} (x : xops F) (ord : ordered x) (pivots : matrix F) (offsets : list nat) (dim : nat).
  Context (Ho : Work.Model.offsets_new offsets = Some dim) (Hm : length (m_data pivots) = m_rows pivots * m_cols pivots) (Hd : m_cols pivots = dim).
  Context (t : ttable (F := F)) (Ht : holds x pivots offsets t).
  Lemma chunk_at_i i : i < length offsets - 1 -> exists c y norm, nth_error (t_pivots t) i = Some c /\ c_cols c <= t_largest t /\ chunk_holds x pivots offsets i c y norm.
  Proof.
    intros Hi. destruct Ht as (_ & _ & _ & L & H). destruct (nth_error (t_pivots t) i) as [c|] eqn:E.
    - destruct (H i c E) as (B & y & norm & CH). eauto 6.
    - apply nth_error_None in E. lia.
  Qed.
  (** The result of the kernel for a piece. *)
  Definition code (from : list F) (i : nat) : option nat :=
    match nth_error (t_pivots t) i with
    | Some c => match find_closest x c (piece offsets i from) with Some r => r | None => None end
    | None => None
    end.
  Lemma code_ok from i c : length from = dim -> i < length offsets - 1 -> nth_error (t_pivots t) i = Some c ->
    find_closest x c (piece offsets i from) = Some (code from i) /\ chosen x pivots offsets from i (code from i).
  Proof.
    intros HF Hi E. destruct (chunk_at_i i Hi) as (c' & y & norm & E' & _ & CH). rewrite E in E'. injection E' as <-.
    destruct CH as (A1 & A2 & A3 & A4 & A5 & A6 & A7 & A8 & A9).
    destruct (piece_slice offsets dim Ho from i Hi HF) as [_ PL].
    assert (HQ : length (piece offsets i from) = c_cols c) by congruence.
    destruct (closest_spec x ord c y norm A3 A4 A5 A6 A7 _ HQ) as (r & R1 & R2).
    unfold code. rewrite E, R1. split; [reflexivity|]. exists norm. rewrite A1 in *. split; [exact A9|]. cbv zeta.
    assert (PX : forall j, j < m_rows pivots -> prx x c y norm (piece offsets i from) j = proxy (fo x) (norm j) (piece offsets i from) (piece offsets i (row pivots j))).
    { intros j J. unfold prx, yrow. now rewrite A8. }
    destruct r as [v|].
    - destruct R2 as (B1 & B2 & B3 & B4). rewrite PX in B2, B3 by assumption. split; [assumption|]. split; [assumption|]. split; [assumption|].
      intros j J. rewrite <- !PX by assumption. now apply B4.
    - destruct R2 as [B|(v & B1 & B2 & B3 & B4)].
      + left. intros j J. rewrite <- PX by assumption. now apply B.
      + right. exists v. rewrite PX in B2, B3 by assumption. split; [assumption|]. split; [assumption|]. split; [assumption|].
        intros j J. rewrite <- !PX by assumption. now apply B4.
  Qed.
  Lemma nchunks_eq : t_nchunks t = length offsets - 1.
  Proof. destruct Ht as (E & _). unfold t_nchunks. now rewrite E. Qed.
  Lemma compress_eq from to : m_rows pivots <= 256 -> length from = dim -> length to = length offsets - 1 ->
    ((forall i, i < length to -> code from i <> None) /\ t_compress x t from to = Some (Ok tt, map (fun i => byte (code from i)) (seq 0 (length to)))) \/
    (exists i, i < length to /\ code from i = None /\ (forall i', i' < i -> code from i' <> None) /\
       t_compress x t from to = Some (Err (InfinityOrNaN i 0), map (fun i => byte (code from i)) (seq 0 i) ++ skipn i to)).
  Proof.
    intros HR HF HT. pose proof Ht as (T1 & T2 & T3 & T4 & T5). unfold t_compress. rewrite T1, T2, T3, nchunks_eq.
    destruct (Nat.ltb_spec 256 (m_rows pivots)); [lia|]. rewrite (proj2 (Nat.eqb_eq (length from) _)) by congruence.
    rewrite (proj2 (Nat.eqb_eq (length to) _)) by assumption. cbn [negb].
    refine (fill_ok _ (code from) (fun i => InfinityOrNaN i 0) to 0 _). intros i I. cbn [Nat.add].
    destruct (chunk_at_i i ltac:(lia)) as (c & y & norm & E & _). rewrite E. cbn [bind]. rewrite (off_at offsets) by lia. cbn [bind fst snd].
    destruct (piece_slice offsets dim Ho from i ltac:(lia) HF) as [-> _]. cbn [bind].
    destruct (code_ok from i c HF ltac:(lia) E) as [-> _]. reflexivity.
  Qed.

  (** ** All distances *)
  Lemma process_eq k query partials : length query = dim -> m_cols partials = m_rows pivots -> m_rows partials = length offsets - 1 ->
    length (m_data partials) = m_rows partials * m_cols partials ->
    t_process x t k query partials = Some (concat (map (fun i => map (fun j => along (fo x) k (piece offsets i query) (piece offsets i (row pivots j)))
      (seq 0 (m_rows pivots))) (seq 0 (length offsets - 1)))).
  Proof.
    intros HQ HC HR HD. pose proof Ht as (T1 & T2 & T3 & T4 & T5). unfold t_process. rewrite T1, T2, T3, nchunks_eq.
    rewrite (proj2 (Nat.eqb_eq (length query) _)) by congruence. rewrite (proj2 (Nat.eqb_eq (m_cols partials) _)) by congruence.
    rewrite (proj2 (Nat.eqb_eq (m_rows partials) _)) by congruence. cbn [negb].
    rewrite (each_map _ (fun p => map (fun j => along (fo x) k (piece offsets (fst p) query) (piece offsets (fst p) (row pivots j))) (seq 0 (m_rows pivots)))).
    - cbn [bind]. do 2 f_equal.
      assert (E : map fst (enumerate (t_pivots t)) = seq 0 (length offsets - 1)).
      { rewrite <- T4. rewrite <- (map_id (seq 0 _)). apply list_map_seq; [now rewrite map_length, enumerate_length|].
        intros i I. rewrite nth_error_map, enumerate_nth. destruct (nth_error (t_pivots t) i) eqn:N; [reflexivity|apply nth_error_None in N; lia]. }
      rewrite <- E, map_map. reflexivity.
    - intros [i c] I. apply In_nth_error in I as (n & N). rewrite enumerate_nth in N. destruct (nth_error (t_pivots t) n) as [c'|] eqn:E; [|discriminate].
      injection N as -> ->. cbn [fst]. assert (Hi : i < length offsets - 1) by (rewrite <- T4; eapply nth_error_lt'; eassumption).
      rewrite (off_at offsets) by assumption. cbn [bind fst snd]. destruct (piece_slice offsets dim Ho query i Hi HQ) as [-> PL]. cbn [bind].
      destruct (chunk_at_i i Hi) as (c' & y & norm & E' & _ & CH). rewrite E in E'. injection E' as <-.
      destruct CH as (A1 & A2 & A3 & A4 & A5 & A6 & A7 & A8 & A9).
      unfold m_row. destruct (Nat.ltb_spec i (m_rows partials)); [|lia]. rewrite slice_eq by nia. cbn [bind].
      rewrite (process_spec x c y norm A3 A4 A5 A6 A7); [|congruence|rewrite firstn_length, skipn_length; nia].
      f_equal. rewrite A1. apply map_ext_in. intros j J. apply in_seq in J. unfold yrow. now rewrite A8 by lia.
  Qed.
End Table.

(** ** Batches *)
Lemma batches {A} (h : nat -> A) n : concat (map (fun b => map h (seq (4 * b) (Nat.min n (4 * b + 4) - 4 * b))) (seq 0 (div_ceil n 4))) = map h (seq 0 n).
Proof.
  assert (Q : forall k, concat (map (fun b => map h (seq (4 * b) (Nat.min n (4 * b + 4) - 4 * b))) (seq 0 k)) = map h (seq 0 (Nat.min n (4 * k)))).
  { induction k as [|k IH]; [now rewrite Nat.min_r by lia|]. rewrite seq_S, map_app, concat_app, IH. cbn [map concat Nat.add]. rewrite app_nil_r, <- map_app. f_equal.
    destruct (Nat.le_ge_cases n (4 * k)) as [L|G].
    - replace (Nat.min n (4 * k + 4) - 4 * k) with 0 by lia. cbn [seq]. rewrite app_nil_r. f_equal. lia.
    - replace (Nat.min n (4 * k)) with (4 * k) by lia. replace (Nat.min n (4 * S k)) with (4 * k + (Nat.min n (4 * k + 4) - 4 * k)) by lia.
      now rewrite seq_app. }
  rewrite Q. f_equal. f_equal. pose proof (div_ceil_bound n 4 ltac:(lia)). lia.
Qed.
Lemma write_nth pos v l p : pos < length l -> nth_error (write pos v l) p = (if p =? pos then Some v else nth_error l p).
Proof.
  intros H. unfold write. destruct (Nat.eqb_spec p pos) as [->|N].
  - rewrite nth_error_app2; rewrite firstn_length, Nat.min_l by lia; [|lia]. now rewrite Nat.sub_diag.
  - destruct (Nat.lt_ge_cases p pos) as [L|G].
    + rewrite nth_error_app1 by (rewrite firstn_length; lia). now rewrite nth_error_firstn'.
    + rewrite nth_error_app2; rewrite firstn_length, Nat.min_l by lia; [|lia]. replace (p - pos) with (S (p - pos - 1)) by lia. cbn [nth_error].
      rewrite nth_error_skipn'. f_equal. lia.
Qed.
Lemma write_length pos v l : pos < length l -> length (write pos v l) = length l.
Proof. intros H. unfold write. rewrite app_length, firstn_length. cbn [length]. rewrite skipn_length. lia. Qed.
(** Delivering results: the bytes written are those before the first failure. *)
Lemma deliver_ok ncols (g : nat -> nat -> option nat) (pos : list (nat * nat)) :
  (forall r i, In (r, i) pos -> i < ncols) -> forall to,
  (forall r i, In (r, i) pos -> r * ncols + i < length to) ->
  exists done res to', deliver ncols (map (fun p => (fst p, snd p, g (fst p) (snd p))) pos) to = (res, to') /\
    length to' = length to /\
    (forall r i, In (r, i) done -> g r i <> None /\ nth_error to' (r * ncols + i) = Some (byte (g r i))) /\
    (forall p, (forall r i, In (r, i) done -> p <> r * ncols + i) -> nth_error to' p = nth_error to p) /\
    ((res = Ok tt /\ done = pos) \/
     (exists r i rest, pos = done ++ (r, i) :: rest /\ g r i = None /\ res = Err (InfinityOrNaN i r))).
Proof.
  induction pos as [|[r i] pos IH]; intros HI to HL.
  - exists [], (Ok tt), to. cbn. repeat split; try tauto.
  - cbn [map deliver fst snd]. destruct (g r i) as [v|] eqn:G.
    + assert (P0 : r * ncols + i < length to) by (apply HL; now left).
      destruct (IH (fun r i H => HI r i (or_intror H)) (write (r * ncols + i) (v mod 256) to)) as (done & res & to' & E & L & D & O & R).
      { intros r' i' I. rewrite write_length by assumption. apply HL. now right. }
      exists ((r, i) :: done), res, to'. split; [exact E|]. split; [rewrite L; now apply write_length|].
      assert (INC : forall r' i', In (r', i') done -> In (r', i') pos).
      { intros r' i' I. destruct R as [[_ <-]|(? & ? & ? & -> & _)]; [assumption|]. apply in_or_app; now left. }
      split; [|split].
      * intros r' i' [[= <- <-]|I]; [|now apply D]. split; [congruence|].
        destruct (in_dec (fun a b : nat * nat => ltac:(decide equality; apply Nat.eq_dec)) (r, i) done) as [I|NI]; [now apply D|].
        rewrite O; [rewrite write_nth, Nat.eqb_refl by assumption; now rewrite G|].
        intros r' i' I Ep. apply NI.
        assert (i < ncols) by (apply (HI r); now left). assert (i' < ncols) by (apply (HI r'); right; now apply INC).
        destruct (mixed_inj ncols r i r' i') as [-> ->]; auto.
      * intros p H. rewrite O by (intros; apply H; now right). rewrite write_nth by assumption.
        destruct (Nat.eqb_spec p (r * ncols + i)) as [->|]; [|reflexivity]. elim (H r i); [now left|reflexivity].
      * destruct R as [[-> ->]|(r' & i' & rest & -> & G' & ->)]; [now left|right]. exists r', i', rest. auto.
    + exists [], (Err (InfinityOrNaN i r)), to. split; [reflexivity|]. split; [reflexivity|]. split; [intros ? ? []|]. split; [reflexivity|].
      right. exists r, i, pos. auto.
Qed.
Definition order (nrows nchunks : nat) : list (nat * nat) := concat (map (fun i => map (fun r => (r, i)) (seq 0 nrows)) (seq 0 nchunks)).
Lemma order_in nrows nchunks r i : In (r, i) (order nrows nchunks) <-> r < nrows /\ i < nchunks.
Proof.
  unfold order. rewrite in_concat. split.
  - intros (l & L & I). apply in_map_iff in L as (i' & <- & I'). apply in_map_iff in I as (r' & [= <- <-] & R'). apply in_seq in I', R'. lia.
  - intros [R I]. exists (map (fun r => (r, i)) (seq 0 nrows)). split; [apply in_map_iff; exists i; split; [reflexivity|apply in_seq; lia]|].
    apply in_map_iff. exists r. split; [reflexivity|apply in_seq; lia].
Qed.
(** What comes before (r, i): every row of an earlier chunk, and the earlier rows of this one. *)
Lemma order_before nrows nchunks r i done rest : order nrows nchunks = done ++ (r, i) :: rest ->
  forall r' i', r' < nrows -> (i' < i \/ i' = i /\ r' < r) -> In (r', i') done.
Proof.
  intros E.
  assert (N : forall r i, r < nrows -> i < nchunks -> nth_error (order nrows nchunks) (i * nrows + r) = Some (r, i)).
  { intros r0 i0 R I. unfold order. rewrite (concat_nth _ nchunks nrows); [|intros; rewrite map_length; apply seq_length|assumption|assumption]. now rewrite nth_map_seq. }
  assert (RI : r < nrows /\ i < nchunks) by (apply order_in; rewrite E; apply in_or_app; right; now left).
  assert (P : length done = i * nrows + r).
  { assert (NTH : nth_error (order nrows nchunks) (length done) = Some (r, i)) by (rewrite E, nth_error_app2, Nat.sub_diag by lia; reflexivity).
    assert (LD : length done < nchunks * nrows).
    { rewrite <- (concat_length (fun i => map (fun r => (r, i)) (seq 0 nrows)) nchunks nrows) by (intros; rewrite map_length; apply seq_length).
      fold (order nrows nchunks). apply nth_error_Some. congruence. }
    pose proof (Nat.div_mod (length done) nrows ltac:(lia)) as DM. pose proof (Nat.mod_upper_bound (length done) nrows ltac:(lia)) as MB.
    assert (length done / nrows < nchunks) by (apply Nat.div_lt_upper_bound; lia).
    specialize (N (length done mod nrows) (length done / nrows) MB H).
    replace (length done / nrows * nrows + length done mod nrows) with (length done) in N by lia. rewrite N in NTH. injection NTH as <- <-. lia. }
  intros r' i' R' B. assert (i' < nchunks) by lia. assert (LT : i' * nrows + r' < length done) by nia.
  specialize (N r' i' R' H). rewrite E, nth_error_app1 in N by assumption. eapply nth_error_In; eassumption.
Qed.

Section Batch.
  Context {F : Type} (x : xops F) (ord : ordered x) (pivots : matrix F) (offsets : list nat) (dim : nat).
  Context (Ho : Work.Model.offsets_new offsets = Some dim) (Hm : length (m_data pivots) = m_rows pivots * m_cols pivots) (Hd : m_cols pivots = dim).
  Context (t : ttable (F := F)) (Ht : holds x pivots offsets t).
  Context (H2 : forall v, mul (fo x) (two x) v = add (fo x) v v).
  Context {T : Type} (into : T -> F) (data : matrix T).
  Context (Hdata : length (m_data data) = m_rows data * m_cols data) (Hdim : m_cols data = dim).
  Definition from_row (r : nat) : list F := map into (row data r).
  Context (HC : forall r i, r < m_rows data -> i < length offsets - 1 -> comparable x pivots offsets (from_row r) i).

  Lemma from_row_length r : r < m_rows data -> length (from_row r) = dim.
  Proof. intros R. unfold from_row. rewrite map_length, row_length; assumption. Qed.
  Lemma piece_map {A B} (f : A -> B) i v : piece offsets i (map f v) = map f (piece offsets i v).
  Proof. unfold piece. now rewrite skipn_map', firstn_map. Qed.
  Lemma pack_ok r i : r < m_rows data -> i < length offsets - 1 ->
    (do s <- slice (r * m_cols data + nth i offsets 0) (r * m_cols data + nth i offsets 0 + (nth (S i) offsets 0 - nth i offsets 0)) (m_data data);
     Some (map into s)) = Some (piece offsets i (from_row r)).
  Proof.
    intros R I. pose proof (off_lt offsets dim Ho i ltac:(lia)). pose proof (off_le offsets dim Ho (S i) ltac:(lia)).
    rewrite slice_eq by nia. cbn [bind]. f_equal. unfold from_row. rewrite piece_map. f_equal. unfold piece, row.
    set (a := nth i offsets 0) in *. set (b := nth (S i) offsets 0) in *. apply nth_error_ext. intros k.
    destruct (Nat.lt_ge_cases k (b - a)) as [K|K].
    - rewrite !nth_error_firstn' by lia. rewrite !nth_error_skipn'. rewrite nth_error_firstn' by lia. rewrite nth_error_skipn'. f_equal. lia.
    - rewrite !(proj2 (nth_error_None _ _)); [reflexivity|rewrite firstn_length; lia..].
  Qed.
  Lemma batch_row_code r i c : r < m_rows data -> i < length offsets - 1 -> nth_error (t_pivots t) i = Some c ->
    batch_row x c (piece offsets i (from_row r)) = Some (code x offsets t (from_row r) i).
  Proof.
    intros R I E. destruct (code_ok x ord pivots offsets dim Ho Hm Hd t Ht (from_row r) i c (from_row_length r R) I E) as [<- _].
    destruct (chunk_at_i x pivots offsets dim Hm Hd t Ht i I) as (c' & y & norm & E' & _ & CH). rewrite E in E'. injection E' as <-.
    destruct CH as (A1 & A2 & A3 & A4 & A5 & A6 & A7 & A8 & A9).
    destruct (piece_slice offsets dim Ho (from_row r) i I (from_row_length r R)) as [_ PL].
    apply (batch_spec x ord c y norm A3 A4 A5 A6 A7); [congruence|assumption|].
    intros j J. destruct (HC r i R I) as (norm' & N1 & N2). assert (J' : j < m_rows pivots) by lia.
    assert (NE : norm' j = norm j) by (specialize (N1 j J'); rewrite A9 in N1 by assumption; congruence).
    specialize (N2 j J'). cbv zeta in N2. rewrite NE in N2. unfold prx, yrow. rewrite A8 by assumption. exact N2.
  Qed.
  Lemma batch_calls_eq : batch_calls x into t data =
    Some (map (fun p => (fst p, snd p, code x offsets t (from_row (fst p)) (snd p))) (order (m_rows data) (length offsets - 1))).
  Proof.
    pose proof Ht as (T1 & T2 & T3 & T4 & T5). unfold batch_calls. rewrite T1, T2. rewrite (proj2 (Nat.eqb_eq (m_cols data) _)) by congruence. cbn [negb].
    rewrite (each_map _ (fun p : nat * chunk => map (fun r => (r, fst p, code x offsets t (from_row r) (fst p))) (seq 0 (m_rows data)))).
    - cbn [bind]. f_equal. unfold order. rewrite concat_map, map_map. f_equal.
      assert (E : map fst (enumerate (t_pivots t)) = seq 0 (length offsets - 1)).
      { rewrite <- T4. rewrite <- (map_id (seq 0 _)). apply list_map_seq; [now rewrite map_length, enumerate_length|].
        intros i I. rewrite nth_error_map, enumerate_nth. destruct (nth_error (t_pivots t) i) eqn:N; [reflexivity|apply nth_error_None in N; lia]. }
      rewrite <- E, map_map. apply map_ext. intros [i c]. rewrite map_map. reflexivity.
    - intros [i c] I. apply In_nth_error in I as (n & N). rewrite enumerate_nth in N. destruct (nth_error (t_pivots t) n) as [c'|] eqn:E; [|discriminate].
      injection N as -> ->. cbn [fst]. assert (Hi : i < length offsets - 1) by (rewrite <- T4; eapply nth_error_lt'; eassumption).
      rewrite (off_at offsets) by assumption. cbn [bind]. pose proof (off_lt offsets dim Ho i ltac:(lia)) as L1.
      destruct (Nat.eqb_spec (nth (S i) offsets 0 - nth i offsets 0) 0); [lia|].
      destruct (chunk_at_i x pivots offsets dim Hm Hd t Ht i Hi) as (c' & y & norm & E' & LG & CH). rewrite E in E'. injection E' as <-.
      assert (CC : c_cols c = nth (S i) offsets 0 - nth i offsets 0) by apply CH.
      destruct (Nat.leb_spec (4 * (nth (S i) offsets 0 - nth i offsets 0)) (t_largest t * 4)); [|lia]. cbn [negb].
      rewrite (each_map _ (fun b => map (fun r => (r, i, code x offsets t (from_row r) i)) (seq (4 * b) (Nat.min (m_rows data) (4 * b + 4) - 4 * b)))).
      { cbn [bind]. now rewrite batches. }
      intros b B. apply in_seq in B. set (k := Nat.min (m_rows data) (4 * b + 4) - 4 * b).
      destruct (Nat.eqb_spec k 4) as [K|K].
      + rewrite (each_map _ (fun r => piece offsets i (from_row r))) by (intros r R; apply in_seq in R; apply pack_ok; lia). cbn [bind].
        unfold find_closest_batch. rewrite map_length, seq_length, K. cbn [Nat.eqb negb].
        assert (EM : forall l, (forall r, In r l -> r < m_rows data) -> each (batch_row x c) (map (fun r => piece offsets i (from_row r)) l) = Some (map (fun r => code x offsets t (from_row r) i) l)).
        { induction l as [|r l IH]; intros HR; cbn [map each]; [reflexivity|].
          rewrite (batch_row_code r i c) by (try assumption; apply HR; now left). cbn [bind]. rewrite IH by (intros; apply HR; now right). reflexivity. }
        rewrite EM by (intros r R; apply in_seq in R; lia). cbn [bind]. reflexivity.
      + apply each_map. intros r R. apply in_seq in R. rewrite pack_ok by lia. cbn [bind].
        destruct (code_ok x ord pivots offsets dim Ho Hm Hd t Ht (from_row r) i c (from_row_length r ltac:(lia)) Hi E) as [-> _]. reflexivity.
  Qed.
  Lemma batch_eq to : m_rows pivots <= 256 -> m_cols to = length offsets - 1 -> m_rows to = m_rows data -> length (m_data to) = m_rows to * m_cols to ->
    exists res to', t_compress_batch x into t data to = Some (res, to') /\ length to' = length (m_data to) /\
    ((res = Ok tt /\ forall r i, r < m_rows data -> i < length offsets - 1 -> code x offsets t (from_row r) i <> None /\
        nth_error to' (r * m_cols to + i) = Some (byte (code x offsets t (from_row r) i))) \/
     (exists r i, r < m_rows data /\ i < length offsets - 1 /\ res = Err (InfinityOrNaN i r) /\ code x offsets t (from_row r) i = None /\
        forall r' i', r' < m_rows data -> (i' < i \/ i' = i /\ r' < r) -> code x offsets t (from_row r') i' <> None)).
  Proof.
    intros HR HC' HRR HL. pose proof Ht as (T1 & T2 & T3 & T4 & T5). unfold t_compress_batch.
    rewrite T2, T3, (nchunks_eq x pivots offsets t Ht). destruct (Nat.ltb_spec 256 (m_rows pivots)); [lia|].
    rewrite (proj2 (Nat.eqb_eq (m_cols data) _)) by congruence. rewrite (proj2 (Nat.eqb_eq (m_cols to) _)) by congruence.
    rewrite (proj2 (Nat.eqb_eq (m_rows data) _)) by congruence. cbn [negb]. rewrite batch_calls_eq. cbn [bind].
    destruct (deliver_ok (m_cols to) (fun r i => code x offsets t (from_row r) i) (order (m_rows data) (length offsets - 1))) with (to := m_data to)
      as (done & res & to' & E & L & D & O & R).
    { intros r i I. apply order_in in I. lia. }
    { intros r i I. apply order_in in I as [R I]. rewrite HL, HRR. apply mixed_lt; lia. }
    exists res, to'. split; [now rewrite E|]. split; [assumption|]. destruct R as [[-> ->]|(r & i & rest & P & G & ->)].
    - left. split; [reflexivity|]. intros r i R I. apply D. now apply order_in.
    - right. exists r, i. assert (RI : r < m_rows data /\ i < length offsets - 1) by (apply order_in; rewrite P; apply in_or_app; right; now left).
      split; [tauto|]. split; [tauto|]. split; [reflexivity|]. split; [assumption|]. intros r' i' R' B'.
      apply D. eapply order_before; eassumption.
  Qed.
End Batch.
