(** The basic table: totality in any arithmetic, compression, tables of distances and lookups. *)
From Coq Require Import List PeanoNat Bool Lia Arith Ring Ring_theory.
From Verif.Lib Require Import Lists.
From Verif.Simd Require Import Model Spec Proofs Proofs2 Proofs5.
From Verif.Simd Require Props.
From Verif.Pq Require Import Model Spec Proofs Proofs2 Proofs4 Proofs5 Proofs6 Proofs7.
Require Verif.Work.Model.
Import ListNotations.

Section Total.
  Context {F : Type} (x : xops F) (a : arch).
  Notation o := (fo x).
  Lemma l2_total u v : length u = length v -> exists d, l2 x a u v = Some d.
  Proof. intros H. exact (proj1 (proj1 (Props.C90_total o (fun e => e) (fun e => e) (zero o) (zero o) L2 a F32 u v) H)). Qed.
  Lemma ip_total u v : length u = length v -> exists d, ip x a u v = Some d.
  Proof.
    intros H. destruct (proj1 (proj1 (Props.C90_total o (fun e => e) (fun e => e) (zero o) (zero o) IP a F32 u v) H)) as [d E].
    unfold ip. rewrite E. cbn [bind]. eauto.
  Qed.
  Lemma resume_total k c parts : 0 < c_width c -> Forall (fun p : list F * list F => length (fst p) = length (snd p)) parts -> forall acc,
    exists r, resume o (fun e => e) (fun e => e) (zero o) (zero o) k c acc parts = Some r.
  Proof.
    intros W H. induction H as [|[u v] parts HL _ IH]; intros acc; cbn [resume]; [eauto|]. unfold resumable. cbn [fst snd] in HL.
    destruct (schema_good o (fun e => e) (fun e => e) (zero o) (zero o) k (fun _ => True) (fun _ _ => True) I (fun _ _ _ _ => I) (fun _ _ _ _ _ _ => I) I c u v W HL)
      as (r & -> & _); [now apply Forall2_true|]. cbn [bind]. apply IH.
  Qed.
  Lemma resume_cos_total c parts : 0 < c_width c -> Forall (fun p : list F * list F => length (fst p) = length (snd p)) parts -> forall acc,
    exists r, resume_cos x c acc parts = Some r.
  Proof.
    intros W H. induction H as [|[u v] parts HL _ IH]; intros acc; cbn [resume_cos]; [eauto|]. cbn [fst snd] in HL.
    edestruct (simd_acc_ok tt tt _ (fun _ _ => tt) (fun _ _ => tt) _ unit_ring (cos_schema o (fun e => e) (fun e => e) (zero o) (zero o) c) (fun _ _ => tt)
      (fun _ _ => True) (fun _ _ => True)) as (r & -> & _); auto; [now apply Forall2_true|]. cbn [bind]. apply IH.
  Qed.
  Lemma distance_total m parts : Forall (fun p : list F * list F => length (fst p) = length (snd p)) parts -> exists d, distance_of x a m parts = Some d.
  Proof.
    intros H.
    assert (RES : forall k, exists d, resumable_distance o (fun e => e) (fun e => e) (zero o) (zero o) k a F32 parts = Some d).
    { intros k. unfold resumable_distance. destruct (kind_width k a F32) as [w W].
      destruct (resume_total k (kind_cfg k a F32) parts) with (acc := repeat (zero o) (c_width (kind_cfg k a F32))) as (r & ->);
        [rewrite W; apply Nat.neq_0_lt_0, Nat.pow_nonzero; lia|assumption|]. cbn [bind]. eauto. }
    assert (COS : exists d, resumable_cosine x a parts = Some d).
    { unfold resumable_cosine. cbv zeta. destruct (cos_width a F32) as [w W]. set (z := (repeat _ _, _, _)).
      destruct (resume_cos_total (cos_cfg a F32) parts) with (acc := z) as (r & ->); [rewrite W; apply Nat.neq_0_lt_0, Nat.pow_nonzero; lia|assumption|].
      cbn [bind]. destruct (cos_parts o r) as [[? ?] ?]. eauto. }
    destruct m; cbn [distance_of].
    - apply RES.
    - destruct (RES IP) as [d ->]. cbn [bind]. eauto.
    - destruct COS as [d ->]. cbn [bind]. eauto.
    - destruct COS as [d ->]. cbn [bind]. eauto.
  Qed.
End Total.

Lemma set_at_nth {F} pos (v : F) l : pos < length l -> exists l', set_at pos v l = Some l' /\ length l' = length l /\
  nth_error l' pos = Some v /\ forall k, k <> pos -> nth_error l' k = nth_error l k.
Proof.
  intros H. unfold set_at. rewrite (proj2 (Nat.ltb_lt _ _) H). eexists. split; [reflexivity|].
  assert (LF : length (firstn pos l) = pos) by (rewrite firstn_length; lia). split; [|split].
  - rewrite app_length, LF. cbn [length]. rewrite skipn_length. lia.
  - rewrite nth_error_app2, LF, Nat.sub_diag by lia. reflexivity.
  - intros k NE. destruct (Nat.lt_ge_cases k pos).
    + rewrite nth_error_app1, nth_error_firstn' by lia. reflexivity.
    + rewrite nth_error_app2, LF by lia. replace (k - pos) with (S (k - S pos)) by lia. cbn [nth_error]. rewrite nth_error_skipn'. f_equal. lia.
Qed.

Section Tables.
  Context {F : Type} (x : xops F) (pivots : matrix F) (offsets : list nat) (dim : nat).
  Context (Ho : Work.Model.offsets_new offsets = Some dim) (Hm : length (m_data pivots) = m_rows pivots * m_cols pivots) (Hd : m_cols pivots = dim).
  Notation n := (length offsets - 1).
  Notation t := (mkB pivots offsets dim).
  Notation o := (fo x).
  Notation py i c := (piece offsets i (row pivots c)).

  (** ** A block of distances per piece *)
  Definition blocks (d : nat -> nat -> F) : list F := concat (map (fun i => map (d i) (seq 0 (m_rows pivots))) (seq 0 n)).
  Lemma blocks_gen (d : nat -> nat -> F) s k : length (concat (map (fun i => map (d i) (seq 0 (m_rows pivots))) (seq s k))) = k * m_rows pivots.
  Proof. revert s. induction k as [|k IH]; intros s; [reflexivity|]. cbn [seq map concat]. rewrite app_length, IH, map_length, seq_length. lia. Qed.
  Lemma blocks_length d : length (blocks d) = n * m_rows pivots.
  Proof. apply blocks_gen. Qed.
  Lemma blocks_nth_gen (d : nat -> nat -> F) s k i c : i < k -> c < m_rows pivots ->
    nth_error (concat (map (fun i => map (d i) (seq 0 (m_rows pivots))) (seq s k))) (i * m_rows pivots + c) = Some (d (s + i) c).
  Proof.
    revert s i. induction k as [|k IH]; intros s i I C; [lia|]. cbn [seq map concat]. destruct i as [|i].
    - cbn [Nat.mul Nat.add]. rewrite nth_error_app1 by (rewrite map_length, seq_length; lia).
      rewrite nth_error_map, nth_seq by assumption. cbn. now rewrite Nat.add_0_r.
    - rewrite nth_error_app2 by (rewrite map_length, seq_length; lia). rewrite map_length, seq_length.
      replace (S i * m_rows pivots + c - m_rows pivots) with (i * m_rows pivots + c) by lia. rewrite IH by lia. f_equal. f_equal. lia.
  Qed.
  Lemma blocks_nth d i c : i < n -> c < m_rows pivots -> nth_error (blocks d) (i * m_rows pivots + c) = Some (d i c).
  Proof. intros. unfold blocks. now rewrite blocks_nth_gen. Qed.
  Lemma populate_ok dist d query scratch : length query = dim -> n * m_rows pivots <= length scratch ->
    (forall i c, i < n -> c < m_rows pivots -> dist (piece offsets i query) (py i c) = Some (d i c)) ->
    populate dist t query scratch = Some (Some (blocks d ++ skipn (n * m_rows pivots) scratch)).
  Proof.
    intros HQ HS HD. unfold populate, b_nchunks, b_ncenters. cbn [b_offsets b_pivots].
    rewrite (proj2 (Nat.ltb_ge _ _) HS).
    set (rows := m_rows pivots) in *.
    pose (Inv := fun c k (s : list F) => length s = length scratch /\
      (forall i' c', i' < n -> c' < rows -> c' < c \/ c' = c /\ i' < k -> nth_error s (i' * rows + c') = Some (d i' c')) /\
      (forall pos, n * rows <= pos -> nth_error s pos = nth_error scratch pos)).
    match goal with |- context [for_range rows ?f scratch] => destruct (for_range_inv (fun c s => Inv c 0 s) rows f scratch) as (s & E & S1 & S2 & S3) end.
    - split; [reflexivity|]. split; [intros; lia|reflexivity].
    - intros c s C IS.
      match goal with |- context [for_range n ?f s] => destruct (for_range_inv (fun k s => Inv c k s) n f s) as (s' & E & I1 & I2 & I3) end.
      + exact IS.
      + intros i s' I (I1 & I2 & I3). rewrite (query_slice_ok pivots offsets dim Ho Hm Hd query i I HQ). cbn [bind].
        destruct (bounds pivots offsets dim Ho Hm Hd i I) as (B1 & B2 & B3 & B4). rewrite B1, B2. cbn [bind].
        rewrite (sub_row pivots c) by (lia || assumption). cbn [bind].
        change (firstn (nth (S i) offsets 0 - nth i offsets 0) (skipn (nth i offsets 0) (row pivots c))) with (py i c).
        rewrite HD by assumption. cbn [bind]. destruct (set_at_nth (i * rows + c) (d i c) s') as (s'' & E' & L' & N1 & N2); [nia|].
        exists s''. split; [exact E'|]. split; [lia|]. split.
        * intros i' c' I' C' H. destruct (Nat.eq_dec (i' * rows + c') (i * rows + c)) as [EQ|NE].
          -- assert (i' = i) by nia. assert (c' = c) by nia. subst i' c'. exact N1.
          -- rewrite N2 by assumption. apply I2; [assumption|assumption|]. destruct H as [H|[-> H]]; [now left|]. right. split; [reflexivity|].
             assert (i' <> i) by (intros ->; lia). lia.
        * intros pos P. rewrite N2 by nia. now apply I3.
      + exists s'. split; [exact E|]. split; [exact I1|]. split; [|exact I3]. intros i' c' I' C' H. apply I2; [assumption|assumption|]. lia.
    - rewrite E. cbn [bind]. do 2 f_equal. apply nth_error_ext. intros k. destruct (Nat.lt_ge_cases k (n * rows)) as [K|K].
      + rewrite nth_error_app1 by now rewrite blocks_length.
        assert (R0 : rows <> 0) by nia. pose proof (Nat.div_mod k rows R0) as DM. pose proof (Nat.mod_upper_bound k rows R0) as MB.
        set (i := k / rows) in *. set (c := k mod rows) in *. assert (i < n) by nia. replace k with (i * rows + c) by lia.
        rewrite (S2 i c) by (assumption || lia). symmetry. now apply blocks_nth.
      + rewrite nth_error_app2; rewrite blocks_length; fold rows; [|assumption]. rewrite S3 by assumption. rewrite nth_error_skipn'. f_equal. lia.
  Qed.
  (** ** Lookups *)
  Definition walk (d : nat -> nat -> F) (s : nat) (code : list nat) (acc : F) : F :=
    fold_left (fun acc p => add o acc (d (fst p) (snd p))) (List.combine (seq s (length code)) code) acc.
  Lemma lookup_ok d : 0 < m_rows pivots -> forall code s acc, (forall i c, nth_error code i = Some c -> c < m_rows pivots) ->
    lookup_from x code (concat (map (fun i => map (d i) (seq 0 (m_rows pivots))) (seq s (length code)))) (m_rows pivots) acc = Some (walk d s code acc).
  Proof.
    intros P. induction code as [|c code IH]; intros s acc H; [reflexivity|]. cbn [length seq map concat].
    assert (HL : length (map (d s) (seq 0 (m_rows pivots))) = m_rows pivots) by now rewrite map_length, seq_length.
    assert (G : exists a0 r, map (d s) (seq 0 (m_rows pivots)) = a0 :: r).
    { destruct (map (d s) (seq 0 (m_rows pivots))) as [|a0 r]; [cbn in HL; lia|eauto]. }
    destruct G as (a0 & r & G). rewrite G in *. cbn [app lookup_from].
    change (a0 :: r ++ ?l) with ((a0 :: r) ++ l). rewrite <- HL at 1. rewrite firstn_app, Nat.sub_diag, firstn_all. cbn [firstn]. rewrite app_nil_r.
    rewrite <- G. rewrite nth_error_map, nth_seq by now apply (H 0). cbn [option_map bind Nat.add].
    rewrite G. replace (skipn (m_rows pivots)) with (@skipn F (length (a0 :: r))) by now rewrite HL.
    rewrite skipn_app, skipn_all, Nat.sub_diag. cbn [skipn app]. rewrite IH by (intros i' c' N; apply (H (S i') c' N)). reflexivity.
  Qed.
  Lemma lookup_bad : forall code dists acc, (exists i c, nth_error code i = Some c /\ m_rows pivots <= c) -> length code * m_rows pivots <= length dists -> 0 < m_rows pivots ->
    lookup_from x code dists (m_rows pivots) acc = None.
  Proof.
    induction code as [|c code IH]; intros dists acc (i & c' & N & B) L P; [now destruct i|]. cbn [lookup_from].
    destruct dists as [|a0 r]; [cbn in L; lia|]. destruct i as [|i].
    - injection N as <-. rewrite (proj2 (nth_error_None _ _)); [reflexivity|]. rewrite firstn_length. lia.
    - destruct (nth_error (firstn (m_rows pivots) (a0 :: r)) c); cbn [bind]; [|reflexivity]. apply IH; [eauto| |assumption].
      cbn [length] in L. rewrite skipn_length. cbn [length]. lia.
  Qed.

  (** ** Compression *)
  Context (a : arch).
  Notation dis from i j := (l2 x a (piece offsets i from) (py i j)).
  Context (ord : ordered x) (infi : is_infin x (inf x) = true).
  Lemma pick_total from i : i < n -> length from = dim ->
    exists d, forall j, j < m_rows pivots -> dis from i j = Some (d j).
  Proof.
    intros I HF. exists (fun j => match dis from i j with Some v => v | None => zero o end). intros j J.
    destruct (l2_total x a (piece offsets i from) (py i j)) as [d ->]; [|reflexivity].
    rewrite !(piece_len offsets dim Ho) by (assumption || now apply (row_len pivots dim Hm Hd)). reflexivity.
  Qed.
  Lemma pick_ok from i : i < n -> length from = dim -> exists r, picked x pivots offsets a from i r /\
    (do r <- Work.Model.offsets_at offsets i;
      do q <- slice (fst r) (snd r) from;
      do m <- for_range (m_rows pivots) (fun index m =>
        do row <- m_row pivots index;
        do p <- slice (fst r) (snd r) row;
        do d <- l2 x a q p;
        Some (if lt o d (fst m) then (d, Some index) else m)) (inf x, None);
      Some (if is_infin x (fst m) then Err (InfinityOrNaN i 0)
            else Ok (match snd m with Some v => v | None => 255 end))) =
    Some (match r with Some v => Ok v | None => Err (InfinityOrNaN i 0) end).
  Proof.
    intros I HF. destruct (pick_total from i I HF) as [d HD]. rewrite (off_at offsets) by lia. cbn [bind fst snd].
    destruct (piece_slice offsets dim Ho from i I HF) as [-> _]. cbn [bind].
    match goal with |- context [for_range (m_rows pivots) ?f ?st] => destruct (for_range_inv (fun k (m : F * option nat) =>
      (m = (inf x, None) /\ forall j, j < k -> lt o (d j) (inf x) = false) \/
      (exists v, v < k /\ m = (d v, Some v) /\ lt o (d v) (inf x) = true /\ (forall j, j < k -> lt o (d j) (d v) = false) /\
         forall j, j < v -> number x (d j) -> lt o (d v) (d j) = true)) (m_rows pivots) f st) as (m & -> & Q) end.
    - left. split; [reflexivity|lia].
    - intros k m K Q. unfold m_row. rewrite (proj2 (Nat.ltb_lt _ _) K).
      assert (RW : slice (k * m_cols pivots) (k * m_cols pivots + m_cols pivots) (m_data pivots) = Some (row pivots k)).
      { rewrite slice_eq by (try lia; rewrite Hm; nia). unfold row. do 2 f_equal. lia. }
      rewrite RW. cbn [bind]. destruct (piece_slice offsets dim Ho (row pivots k) i I) as [-> _]; [now apply (row_len pivots dim Hm Hd)|]. cbn [bind].
      rewrite HD by assumption. cbn [bind]. eexists. split; [reflexivity|].
      destruct Q as [[-> Q]|(v & V & -> & V1 & V2 & V3)]; cbn [fst].
      + destruct (lt o (d k) (inf x)) eqn:L.
        * right. exists k. split; [lia|]. split; [reflexivity|]. split; [exact L|]. split.
          -- intros j J. destruct (Nat.eq_dec j k) as [->|NE]; [apply (o_irr x ord)|].
             destruct (lt o (d j) (d k)) eqn:LJ; [|reflexivity]. exfalso.
             specialize (Q j ltac:(lia)). rewrite (o_trans x ord _ _ _ LJ L) in Q. discriminate.
          -- intros j J N. destruct (N _ _ L) as [N1|N1]; [exact N1|]. rewrite Q in N1 by assumption. discriminate.
        * left. split; [reflexivity|]. intros j J. destruct (Nat.eq_dec j k) as [->|NE]; [exact L|]. apply Q. lia.
      + right. destruct (lt o (d k) (d v)) eqn:L.
        * exists k. split; [lia|]. split; [reflexivity|]. split; [exact (o_trans x ord _ _ _ L V1)|]. split.
          -- intros j J. destruct (Nat.eq_dec j k) as [->|NE]; [apply (o_irr x ord)|].
             destruct (lt o (d j) (d k)) eqn:LJ; [|reflexivity]. specialize (V2 j ltac:(lia)). rewrite (o_trans x ord _ _ _ LJ L) in V2. discriminate.
          -- intros j J N. destruct (N _ _ L) as [N1|N1]; [exact N1|]. rewrite V2 in N1 by assumption. discriminate.
        * exists v. split; [lia|]. split; [reflexivity|]. split; [exact V1|]. split; [|exact V3].
          intros j J. destruct (Nat.eq_dec j k) as [->|NE]; [exact L|]. apply V2. lia.
    - cbn [bind]. destruct Q as [[-> Q]|(v & V & -> & V1 & V2 & V3)]; cbn [fst snd].
      + exists None. split; [exists d; split; [exact HD|now left]|]. now rewrite infi.
      + destruct (is_infin x (d v)) eqn:FI.
        * exists None. split; [|reflexivity]. exists d. split; [exact HD|]. right. exists v. auto.
        * exists (Some v). split; [|reflexivity]. exists d. split; [exact HD|]. auto.
  Qed.
End Tables.
