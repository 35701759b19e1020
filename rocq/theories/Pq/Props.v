(** C98 to C101: the block-transposed layout and the transposed pivot table. *)
From Coq Require Import List ZArith PeanoNat Bool Lia.
From Flocq Require Import IEEE754.BinarySingleNaN.
From Verif.Lib Require Import Lists.
From Verif.Simd Require Import Model Spec Proofs2 Ieee.
From Verif.Simd Require Props.
From Verif.Pq Require Import Model Spec Proofs Proofs2 Proofs3 Proofs4 Proofs5 Proofs6 Ieee.
Require Verif.Work.Model.
Import ListNotations.

(** ** C98: the block-transposed matrix *)
Theorem C98_layout : forall {A} (default : A) group pack data nrows ncols stride v, 0 < group -> 0 < pack ->
  shrink_from data nrows ncols stride = Some v ->
  exists cells, bt_from default group pack v = Some cells /\ length cells = bt_capacity group pack nrows ncols /\
  (forall r c, r < nrows -> c < ncols ->
     bt_get group pack nrows ncols cells r c = nth_error data (r * stride + c) /\ nth_error data (r * stride + c) <> None /\
     nth_error cells (linear_index group pack r c ncols) = nth_error data (r * stride + c)) /\
  (forall r c, nrows <= r \/ ncols <= c -> bt_get group pack nrows ncols cells r c = None) /\
  (forall k, k < bt_capacity group pack nrows ncols ->
     (exists r c, r < nrows /\ c < ncols /\ k = linear_index group pack r c ncols) \/ nth_error cells k = Some default).
Proof.
  intros A default group pack data nrows ncols stride v Hg Hp E. pose proof (shrink_ok _ _ _ _ _ E) as Hv.
  unfold shrink_from in E. destruct (Nat.leb_spec ncols stride); cbn [negb] in E; [|discriminate].
  destruct (Nat.leb_spec (linear_length nrows ncols stride) (length data)) as [LL|]; [|discriminate]. injection E as <-.
  set (v := mkS _ nrows ncols stride) in *. exists (cells default group pack v). split; [now apply bt_from_eq|]. split; [now apply cells_length|].
  assert (G : forall r c, r < nrows -> c < ncols -> s_get v r c = nth_error data (r * stride + c) /\ nth_error data (r * stride + c) <> None).
  { intros r c R C. destruct (s_get_in v r c Hv R C) as (a & -> & N). cbn [v s_data s_stride] in N.
    rewrite nth_error_firstn' in N by (unfold linear_length; nia). rewrite N. split; congruence. }
  split; [|split].
  - intros r c R C. destruct (G r c R C) as [G1 G2]. unfold bt_get. rewrite (proj2 (Nat.ltb_lt r nrows) R), (proj2 (Nat.ltb_lt c ncols) C). cbn [andb].
    pose proof (linear_nth default group pack v Hg Hp Hv r c R C) as L. cbn [v s_cols] in L. rewrite L. auto.
  - intros r c [R|C]; unfold bt_get; [now rewrite (proj2 (Nat.ltb_ge r nrows) R)|rewrite (proj2 (Nat.ltb_ge c ncols) C)]. now rewrite andb_false_r.
  - intros k K. destruct (decompose group pack v Hg Hp k K) as (b & c & r & p & B & C & R & P & ->).
    pose proof (cells_nth default group pack v b c r p B C R P) as N. unfold cell in N. rewrite N.
    destruct (Nat.ltb_spec (b * group + r) (s_rows v)) as [L1|]; cbn [andb]; [|now right].
    destruct (Nat.ltb_spec (c * pack + p) (s_cols v)) as [L2|]; [|now right]. left. exists (b * group + r), (c * pack + p).
    split; [assumption|]. split; [assumption|]. unfold linear_index. cbv zeta.
    rewrite (Nat.add_comm (b * group)), Nat.div_add, Nat.mod_add, Nat.div_small, Nat.mod_small by lia.
    rewrite (Nat.add_comm (c * pack)), Nat.div_add, Nat.mod_add, Nat.div_small, Nat.mod_small by lia. reflexivity.
Qed.
Print Assumptions C98_layout.
(** Different elements are kept apart, inside the allocation. *)
Theorem C98_injective : forall group pack nrows ncols r c r' c', 0 < group -> 0 < pack ->
  r < nrows -> c < ncols -> r' < nrows -> c' < ncols ->
  linear_index group pack r c ncols < bt_capacity group pack nrows ncols /\
  (linear_index group pack r c ncols = linear_index group pack r' c' ncols -> r = r' /\ c = c').
Proof.
  intros group pack nrows ncols r c r' c' Hg Hp R C R' C'. split.
  - assert (E : shrink_from (repeat 0 (linear_length nrows ncols ncols)) nrows ncols ncols = Some (mkS (firstn (linear_length nrows ncols ncols) (repeat 0 (linear_length nrows ncols ncols))) nrows ncols ncols)).
    { unfold shrink_from. rewrite Nat.leb_refl, repeat_length, Nat.leb_refl. reflexivity. }
    destruct (C98_layout 0 group pack _ _ _ _ _ Hg Hp E) as (cells & _ & L & G & _). destruct (G r c R C) as (_ & G2 & G3).
    rewrite <- L. apply nth_error_Some. congruence.
  - now apply linear_index_inj.
Qed.
Print Assumptions C98_injective.
(** Five rows of three, blocks of four rows, two columns together. *)
Example C98_example :
  option_map (fun v => bt_from 0 4 2 v) (shrink_from [11;12;13;0;21;22;23;0;31;32;33;0;41;42;43;0;51;52;53] 5 3 4) =
    Some (Some [11;12;21;22;31;32;41;42; 13;0;23;0;33;0;43;0; 51;52;0;0;0;0;0;0; 53;0;0;0;0;0;0;0]).
Proof. reflexivity. Qed.

(** ** C99: compression by the transposed table *)
Lemma empty_table {F} (x : xops F) (pivots : matrix F) offsets dim : Work.Model.offsets_new offsets = Some dim ->
  length (m_data pivots) = m_rows pivots * m_cols pivots -> m_cols pivots = dim -> m_rows pivots = 0 -> from_parts x pivots offsets dim = Some (Err (PivotError 0)).
Proof. intros. now apply from_parts_empty. Qed.
(** A table exists whenever the dimensions match and there is a pivot. *)
Theorem C99_construction : forall {F} (x : xops F) pivots offsets dim, Work.Model.offsets_new offsets = Some dim ->
  length (m_data pivots) = m_rows pivots * m_cols pivots ->
  (m_cols pivots <> dim -> from_parts x pivots offsets dim = Some (Err DimMismatch)) /\
  (m_cols pivots = dim -> m_rows pivots = 0 -> from_parts x pivots offsets dim = Some (Err (PivotError 0))) /\
  (m_cols pivots = dim -> 0 < m_rows pivots -> exists t, from_parts x pivots offsets dim = Some (Ok t)).
Proof.
  intros F x pivots offsets dim Ho Hm. split; [|split].
  - intros N. unfold from_parts. apply Nat.eqb_neq in N. now rewrite N.
  - intros Hd Z. eapply empty_table; eassumption.
  - intros Hd P. destruct (from_parts_ok x pivots offsets dim Ho Hm Hd P) as (t & E & _). eauto.
Qed.
Print Assumptions C99_construction.
(** In any arithmetic with an order like that of f32: every code is a pivot whose proxy distance is
    minimal, or the call fails at the first piece that has none; the bytes from there on are left. *)
Theorem C99_minimal : forall {F} (x : xops F) pivots offsets dim t, ordered x ->
  Work.Model.offsets_new offsets = Some dim -> length (m_data pivots) = m_rows pivots * m_cols pivots ->
  from_parts x pivots offsets dim = Some (Ok t) -> forall from to,
  let nchunks := length offsets - 1 in
  (256 < m_rows pivots -> t_compress x t from to = Some (Err CannotCompressToByte, to)) /\
  (m_rows pivots <= 256 -> length from <> dim -> t_compress x t from to = Some (Err InvalidInputDim, to)) /\
  (m_rows pivots <= 256 -> length from = dim -> length to <> nchunks -> t_compress x t from to = Some (Err InvalidOutputDim, to)) /\
  (m_rows pivots <= 256 -> length from = dim -> length to = nchunks ->
     exists codes, length codes = nchunks /\
     ((t_compress x t from to = Some (Ok tt, codes) /\ forall i, i < nchunks -> exists v, nth_error codes i = Some v /\ chosen x pivots offsets from i (Some v)) \/
      (exists i, i < nchunks /\ t_compress x t from to = Some (Err (InfinityOrNaN i 0), codes) /\ chosen x pivots offsets from i None /\
         (forall i', i' < i -> exists v, nth_error codes i' = Some v /\ chosen x pivots offsets from i' (Some v)) /\
         (forall i', i <= i' -> nth_error codes i' = nth_error to i')))).
Proof.
  intros F x pivots offsets dim t ord Ho Hm FP from to nchunks.
  destruct (C99_construction x pivots offsets dim Ho Hm) as (K1 & K2 & K3).
  assert (Hd : m_cols pivots = dim) by (destruct (Nat.eq_dec (m_cols pivots) dim) as [|N]; [assumption|rewrite (K1 N) in FP; discriminate]).
  assert (Hr : 0 < m_rows pivots) by (destruct (Nat.eq_dec (m_rows pivots) 0) as [N|]; [rewrite (K2 Hd N) in FP; discriminate|lia]).
  destruct (from_parts_ok x pivots offsets dim Ho Hm Hd Hr) as (t' & E & Ht). rewrite FP in E. injection E as <-. clear K1 K2 K3.
  pose proof Ht as (T1 & T2 & T3 & T4 & T5). pose proof (nchunks_eq x pivots offsets t Ht) as NC.
  unfold t_compress at 1 2 3. rewrite T2, T3, NC. fold nchunks. split; [|split; [|split]].
  - intros L. apply Nat.ltb_lt in L. now rewrite L.
  - intros L N. apply Nat.ltb_ge in L. rewrite L. rewrite Hd. apply Nat.eqb_neq in N. now rewrite N.
  - intros L N N'. apply Nat.ltb_ge in L. rewrite L. rewrite Hd. apply Nat.eqb_eq in N. rewrite N. apply Nat.eqb_neq in N'. now rewrite N'.
  - intros L N N'. assert (CH : forall i, i < nchunks -> chosen x pivots offsets from i (code x offsets t from i)).
    { intros i I. destruct (chunk_at_i x pivots offsets dim Hm Hd t Ht i I) as (c & y & norm & E & _).
      now apply (code_ok x ord pivots offsets dim Ho Hm Hd t Ht from i c). }
    assert (CB : forall i, i < nchunks -> code x offsets t from i <> None -> chosen x pivots offsets from i (Some (byte (code x offsets t from i)))).
    { intros i I NN. specialize (CH i I). destruct (code x offsets t from i) as [v|]; [|congruence]. cbn [byte].
      rewrite Nat.mod_small; [assumption|]. destruct CH as (norm & _ & B & _). lia. }
    destruct (compress_eq x ord pivots offsets dim Ho Hm Hd t Ht from to L N N') as [[A B]|(i & I & C0 & M & B)].
    + exists (map (fun i => byte (code x offsets t from i)) (seq 0 (length to))). split; [now rewrite map_length, seq_length|]. left. split; [exact B|].
      intros i I. exists (byte (code x offsets t from i)). split; [apply (nth_map_seq (fun i => byte (code x offsets t from i))); lia|]. apply CB; [assumption|]. apply A. lia.
    + exists (map (fun i => byte (code x offsets t from i)) (seq 0 i) ++ skipn i to). split; [rewrite app_length, map_length, seq_length, skipn_length; lia|].
      right. exists i. split; [lia|]. split; [exact B|]. split; [rewrite <- C0; apply CH; lia|]. split.
      * intros i' I'. exists (byte (code x offsets t from i')). split; [|apply CB; [lia|now apply M]].
        rewrite nth_error_app1 by (rewrite map_length, seq_length; lia). now apply (nth_map_seq (fun i => byte (code x offsets t from i))).
      * intros i' I'. rewrite nth_error_app2; rewrite map_length, seq_length; [|lia]. rewrite nth_error_skipn'. f_equal. lia.
Qed.
Print Assumptions C99_minimal.

Lemma row_map {A B} (f : A -> B) data n m j : row (mkM (map f data) n m) j = map f (row (mkM data n m) j).
Proof. unfold row. cbn [m_data m_cols]. now rewrite skipn_map', firstn_map. Qed.
Lemma piece_length {A} offsets dim (v : list A) i : Work.Model.offsets_new offsets = Some dim -> length v = dim -> i < length offsets - 1 ->
  length (piece offsets i v) = nth (S i) offsets 0 - nth i offsets 0.
Proof. intros Ho HL Hi. now destruct (piece_slice offsets dim Ho v i Hi HL). Qed.
(** Without rounding: compression always succeeds and every code is a nearest pivot. *)
Theorem C99_nearest : forall {T F} (e : fops T) (x : xops F) (h : T -> F) data nrows dim offsets t, ordered x -> embeds e x h ->
  Work.Model.offsets_new offsets = Some dim -> length data = nrows * dim -> nrows <= 256 ->
  from_parts x (mkM (map h data) nrows dim) offsets dim = Some (Ok t) ->
  forall from to, length from = dim -> length to = length offsets - 1 ->
  exists codes, t_compress x t (map h from) to = Some (Ok tt, codes) /\ length codes = length offsets - 1 /\
  forall i, i < length offsets - 1 -> exists v, nth_error codes i = Some v /\ v < nrows /\
    forall j, j < nrows -> lt e (true_l2 e (piece offsets i from) (piece offsets i (row (mkM data nrows dim) j)))
                                (true_l2 e (piece offsets i from) (piece offsets i (row (mkM data nrows dim) v))) = false.
Proof.
  intros T F e x h data nrows dim offsets t ord em Ho HL HR FP from to HF HT.
  set (pm := mkM (map h data) nrows dim) in *.
  assert (Hm : length (m_data pm) = m_rows pm * m_cols pm) by (cbn [pm m_data m_rows m_cols]; now rewrite map_length).
  destruct (C99_minimal x pm offsets dim t ord Ho Hm FP (map h from) to) as (_ & _ & _ & K).
  destruct (K HR ltac:(now rewrite map_length) HT) as (codes & LC & R). clear K.
  assert (Hr : 0 < nrows).
  { destruct (Nat.eq_dec nrows 0) as [N|]; [|lia]. rewrite (empty_table x pm offsets dim Ho Hm eq_refl N) in FP. discriminate. }
  assert (PC : forall i j, piece offsets i (row pm j) = map h (piece offsets i (row (mkM data nrows dim) j))) by (intros; unfold pm; now rewrite row_map, piece_map).
  destruct R as [[E G]|(i & I & _ & CN & _)].
  - exists codes. split; [exact E|]. split; [exact LC|]. intros i I. destruct (G i I) as (v & N & norm & NM & B1 & B2 & B3 & B4).
    exists v. split; [exact N|]. split; [exact B1|]. intros j J. specialize (B4 j J).
    assert (NE : forall j, j < nrows -> norm j = h (sq e (piece offsets i (row (mkM data nrows dim) j)))).
    { intros j' J'. specialize (NM j' J'). rewrite PC, (norm_embedded e x h em) in NM. congruence. }
    assert (LP : forall j, j < nrows -> length (piece offsets i from) = length (piece offsets i (row (mkM data nrows dim) j))).
    { intros j' J'. rewrite !(piece_length offsets dim) by (assumption || now rewrite row_length). reflexivity. }
    rewrite !PC, piece_map, !NE, (proxy_order e x h em) in B4 by auto. exact B4.
  - exfalso. destruct CN as (norm & NM & [C|(v & V & C & _)]).
    + specialize (C 0 Hr). specialize (NM 0 Hr). rewrite PC, (norm_embedded e x h em) in NM. injection NM as NM.
      rewrite PC, piece_map, <- NM, (proxy_embedded e x h em), (e_big _ _ _ em) in C. discriminate.
    + specialize (NM v V). rewrite PC, (norm_embedded e x h em) in NM. injection NM as NM.
      rewrite PC, piece_map, <- NM, (proxy_embedded e x h em), (e_fin _ _ _ em) in C. discriminate.
Qed.
Print Assumptions C99_nearest.

(** The integers with infinities and NaN are such an arithmetic. *)
Inductive ext := Fin (v : Z) | PInf | NInf | NaN.
Definition e_opp (a : ext) : ext := match a with Fin v => Fin (- v) | PInf => NInf | NInf => PInf | NaN => NaN end.
Definition e_plus (a b : ext) : ext :=
  match a, b with
  | Fin u, Fin v => Fin (u + v)
  | NaN, _ | _, NaN => NaN
  | PInf, NInf | NInf, PInf => NaN
  | PInf, _ | _, PInf => PInf
  | NInf, _ | _, NInf => NInf
  end.
Definition e_sign (v : Z) (pos : ext) : ext := match v with Z0 => NaN | Zpos _ => pos | Zneg _ => e_opp pos end.
Definition e_times (a b : ext) : ext :=
  match a, b with
  | Fin u, Fin v => Fin (u * v)
  | NaN, _ | _, NaN => NaN
  | Fin u, i | i, Fin u => e_sign u i
  | PInf, PInf | NInf, NInf => PInf
  | _, _ => NInf
  end.
Definition e_less (a b : ext) : bool :=
  match a, b with
  | Fin u, Fin v => (u <? v)%Z
  | NaN, _ | _, NaN => false
  | NInf, NInf | PInf, _ => false
  | NInf, _ => true
  | Fin _, PInf => true
  | Fin _, NInf => false
  end.
Definition ext_ops : fops ext :=
  mkF (Fin 0) (Fin 1) (Fin 1) e_plus (fun a b => e_plus a (e_opp b)) e_times e_opp (fun _ _ => NaN) (fun a b c => e_plus (e_times a b) c)
      (fun a => a) (fun a => a) (fun a _ => a) (fun a _ => a) e_less.
Definition ext_x : xops ext :=
  mkX ext_ops PInf NInf PInf (Fin 2) (fun a => match a with Fin _ => true | _ => false end) (fun a => match a with PInf | NInf => true | _ => false end).
Example ext_ordered : ordered ext_x.
Proof.
  split; cbn [fo ext_x ext_ops lt inf ninf zero add sub].
  - intros [v| | |]; cbn; try reflexivity. apply Z.ltb_irrefl.
  - intros [u| | |] [v| | |] [w| | |]; cbn; try reflexivity; try discriminate. intros H1 H2. apply Z.ltb_lt in H1, H2. apply Z.ltb_lt. lia.
  - intros [u| | |] [v| | |] [w| | |] [z| | |]; cbn; intros H1 H2; try discriminate; try (now left); try (now right);
      apply Z.ltb_lt in H2; destruct (Z.ltb_spec u v); [now left|right; apply Z.ltb_lt; lia|now left|right; apply Z.ltb_lt; lia].
  - now intros [v| | |].
  - intros [u| | |] [v| | |]; cbn; congruence.
  - reflexivity.
Qed.
Example ext_embeds : embeds Props.z_ops ext_x Fin.
Proof.
  split; try reflexivity.
  - apply Props.z_exact.
  - intros a b c. cbn. destruct (Z.ltb_spec a b); [apply Z.ltb_lt|apply Z.ltb_ge]; lia.
  - intros [v| | |]; try reflexivity. change (Fin (2 * v) = Fin (v + v)). f_equal. lia.
Qed.
(** Two pieces, three pivots. *)
Definition some_table : option (ttable (F := ext)) :=
  match from_parts ext_x (mkM (map Fin [0;0;5; 10;10;0; 3;4;1]%Z) 3 3) [0; 2; 3] 3 with Some (Ok t) => Some t | _ => None end.
Example C99_example :
  (exists t, from_parts ext_x (mkM (map Fin [0;0;5; 10;10;0; 3;4;1]%Z) 3 3) [0; 2; 3] 3 = Some (Ok t)) /\
  (do t <- some_table; t_compress ext_x t (map Fin [8; 6; 4]%Z) [7; 7]) = Some (Ok tt, [1; 0]) /\
  (do t <- some_table; t_compress ext_x t (map Fin [2; 6; 2]%Z) [7; 7]) = Some (Ok tt, [2; 2]) /\
  (do t <- some_table; t_compress ext_x t [Fin 2; Fin 6; NaN] [7; 7]) = Some (Err (InfinityOrNaN 1 0), [2; 7]).
Proof. vm_compute. repeat split. eexists. reflexivity. Qed.

(** The documentation says ties are resolved to the lowest index (pivots.rs 244): pivots 1 and 8 are
    both the query, and the code is 8. *)
Definition tie_pivots : matrix ext := mkM (map Fin [9;5;9;9;9;9;9;9;5]%Z) 9 1.
Theorem C99_lowest_index_refuted : exists t, from_parts ext_x tie_pivots [0; 1] 1 = Some (Ok t) /\
  row tie_pivots 1 = [Fin 5] /\ t_compress ext_x t [Fin 5] [0] = Some (Ok tt, [8]).
Proof. eexists. split; [reflexivity|]. split; reflexivity. Qed.
Print Assumptions C99_lowest_index_refuted.
(** With the arithmetic of f32, a vector that is itself a pivot can be given another pivot's code,
    and one that is the only pivot can be refused as "infinity or NaN" although its distance is 0. *)
Definition fl (m e : Z) : f32 := Props.f_of m e.
Theorem C99_nearest_refuted_f32 : exists t, from_parts f32_x (mkM [fl 4096 0; fl 4097 0] 2 1) [0; 1] 1 = Some (Ok t) /\
  t_compress f32_x t [fl 4097 0] [9] = Some (Ok tt, [0]).
Proof. eexists. split; [reflexivity|]. vm_compute. reflexivity. Qed.
Print Assumptions C99_nearest_refuted_f32.
Theorem C99_finite_refuted_f32 : exists t, from_parts f32_x (mkM [fl 1 70] 1 1) [0; 1] 1 = Some (Ok t) /\
  t_compress f32_x t [fl 1 70] [9] = Some (Err (InfinityOrNaN 0 0), [9]) /\
  B2SF (along f32_ops KL2 [fl 1 70] [fl 1 70]) = B2SF (zero f32_ops).
Proof. eexists. split; [reflexivity|]. split; vm_compute; reflexivity. Qed.
Print Assumptions C99_finite_refuted_f32.

(** ** C100: compressing many rows at once *)
Lemma table_of {F} (x : xops F) pivots offsets dim t : Work.Model.offsets_new offsets = Some dim -> length (m_data pivots) = m_rows pivots * m_cols pivots ->
  from_parts x pivots offsets dim = Some (Ok t) -> m_cols pivots = dim /\ 0 < m_rows pivots /\ holds x pivots offsets t.
Proof.
  intros Ho Hm FP. destruct (C99_construction x pivots offsets dim Ho Hm) as (K1 & K2 & K3).
  assert (Hd : m_cols pivots = dim) by (destruct (Nat.eq_dec (m_cols pivots) dim) as [|N]; [assumption|rewrite (K1 N) in FP; discriminate]).
  assert (Hr : 0 < m_rows pivots) by (destruct (Nat.eq_dec (m_rows pivots) 0) as [N|]; [rewrite (K2 Hd N) in FP; discriminate|lia]).
  destruct (from_parts_ok x pivots offsets dim Ho Hm Hd Hr) as (t' & E & Ht). rewrite FP in E. injection E as <-. auto.
Qed.
(** If no proxy is NaN or [f32::MAX], a batch gives every row what the row alone would get; it fails
    iff some row alone fails, and names the first failing piece and the first row failing on it. *)
Theorem C100_batch : forall {T F} (x : xops F) pivots offsets dim t (into : T -> F) data to, ordered x ->
  (forall v, mul (fo x) (two x) v = add (fo x) v v) ->
  Work.Model.offsets_new offsets = Some dim -> length (m_data pivots) = m_rows pivots * m_cols pivots ->
  from_parts x pivots offsets dim = Some (Ok t) -> m_rows pivots <= 256 ->
  let nchunks := length offsets - 1 in
  m_cols data = dim -> length (m_data data) = m_rows data * dim ->
  m_rows to = m_rows data -> m_cols to = nchunks -> length (m_data to) = m_rows to * m_cols to ->
  let single r buf := t_compress x t (map into (row data r)) buf in
  (forall r i, r < m_rows data -> i < nchunks -> comparable x pivots offsets (map into (row data r)) i) ->
  exists res out, t_compress_batch x into t data to = Some (res, out) /\ length out = length (m_data to) /\
  ((res = Ok tt /\ forall r buf, r < m_rows data -> length buf = nchunks ->
      single r buf = Some (Ok tt, firstn nchunks (skipn (r * nchunks) out))) \/
   (exists r i, r < m_rows data /\ i < nchunks /\ res = Err (InfinityOrNaN i r) /\
      forall buf, length buf = nchunks -> (exists b, single r buf = Some (Err (InfinityOrNaN i 0), b)) /\
      forall r' i' b', r' < m_rows data -> single r' buf = Some (Err (InfinityOrNaN i' 0), b') -> i < i' \/ i = i' /\ r <= r')).
Proof.
  intros T F x pivots offsets dim t into data to ord H2 Ho Hm FP HR nchunks Dc Dl Tr Tc Tl single HC.
  destruct (table_of x pivots offsets dim t Ho Hm FP) as (Hd & Hr & Ht).
  assert (Dl' : length (m_data data) = m_rows data * m_cols data) by now rewrite Dc.
  destruct (batch_eq x ord pivots offsets dim Ho Hm Hd t Ht H2 into data Dl' Dc HC to HR Tc Tr Tl) as (res & out & E & L & R).
  exists res, out. split; [exact E|]. split; [exact L|].
  assert (FL : forall r, r < m_rows data -> length (map into (row data r)) = dim) by (intros r R'; rewrite map_length, row_length; assumption).
  destruct R as [[-> A]|(r & i & R' & I & -> & C & B)].
  - left. split; [reflexivity|]. intros r buf R' HB. unfold single.
    destruct (compress_eq x ord pivots offsets dim Ho Hm Hd t Ht (map into (row data r)) buf HR (FL r R') HB) as [[_ ->]|(i & I & N & _)].
    + do 2 f_equal. rewrite HB. symmetry. apply list_map_seq; [rewrite firstn_length, skipn_length; rewrite L, Tl, Tr, Tc; nia|].
      intros i I. rewrite nth_error_firstn' by exact I. rewrite nth_error_skipn', <- Tc. now apply A.
    + exfalso. destruct (A r i R' ltac:(lia)) as [A' _]. now apply A'.
  - right. exists r, i. split; [exact R'|]. split; [exact I|]. split; [reflexivity|]. intros buf HB. unfold single. split.
    + destruct (compress_eq x ord pivots offsets dim Ho Hm Hd t Ht (map into (row data r)) buf HR (FL r R') HB) as [[N _]|(i' & I' & N & M & E')].
      * exfalso. apply (N i); [lia|exact C].
      * assert (i' = i) as ->; [|eexists; exact E'].
        destruct (Nat.lt_trichotomy i' i) as [Q|[Q|Q]]; [|exact Q|].
        { exfalso. apply (B r i' R'); [now left|exact N]. }
        { exfalso. apply (M i Q). exact C. }
    + intros r' i' b' R2 S'.
      destruct (compress_eq x ord pivots offsets dim Ho Hm Hd t Ht (map into (row data r')) buf HR (FL r' R2) HB) as [[_ E']|(i2 & I2 & N2 & _ & E')];
        rewrite E' in S'; [discriminate|]. injection S' as <- _.
      destruct (Nat.lt_trichotomy i i2) as [Q|[Q|Q]]; [now left|right|].
      * split; [exact Q|]. destruct (Nat.le_gt_cases r r'); [assumption|]. exfalso. apply (B r' i2 R2); [right; lia|exact N2].
      * exfalso. apply (B r' i2 R2); [now left|exact N2].
Qed.
Print Assumptions C100_batch.
(** The other results. *)
Theorem C100_errors : forall {T F} (x : xops F) pivots offsets dim t (into : T -> F) data to,
  Work.Model.offsets_new offsets = Some dim -> length (m_data pivots) = m_rows pivots * m_cols pivots ->
  from_parts x pivots offsets dim = Some (Ok t) ->
  (256 < m_rows pivots -> t_compress_batch x into t data to = Some (Err CannotCompressToByte, m_data to)) /\
  (m_rows pivots <= 256 -> m_cols data <> dim -> t_compress_batch x into t data to = Some (Err InvalidInputDim, m_data to)) /\
  (m_rows pivots <= 256 -> m_cols data = dim -> m_cols to <> length offsets - 1 ->
     t_compress_batch x into t data to = Some (Err InvalidOutputDim, m_data to)) /\
  (m_rows pivots <= 256 -> m_cols data = dim -> m_cols to = length offsets - 1 -> m_rows data <> m_rows to ->
     t_compress_batch x into t data to = Some (Err UnequalRows, m_data to)).
Proof.
  intros T F x pivots offsets dim t into data to Ho Hm FP. destruct (table_of x pivots offsets dim t Ho Hm FP) as (Hd & Hr & Ht).
  pose proof Ht as (T1 & T2 & T3 & T4 & T5). pose proof (nchunks_eq x pivots offsets t Ht) as NC.
  unfold t_compress_batch. rewrite T2, T3, NC, Hd. split; [|split; [|split]].
  - intros L. apply Nat.ltb_lt in L. now rewrite L.
  - intros L N. apply Nat.ltb_ge in L. rewrite L. apply Nat.eqb_neq in N. now rewrite N.
  - intros L N N'. apply Nat.ltb_ge in L. rewrite L. apply Nat.eqb_eq in N. rewrite N. apply Nat.eqb_neq in N'. now rewrite N'.
  - intros L N N' N2. apply Nat.ltb_ge in L. rewrite L. apply Nat.eqb_eq in N, N'. rewrite N, N'. apply Nat.eqb_neq in N2. now rewrite N2.
Qed.
Print Assumptions C100_errors.
(** Without rounding nothing is NaN: the batch always agrees. *)
Theorem C100_exact : forall {T F} (e : fops T) (x : xops F) (h : T -> F) data nrows dim offsets t, ordered x -> embeds e x h ->
  Work.Model.offsets_new offsets = Some dim -> length data = nrows * dim -> nrows <= 256 ->
  from_parts x (mkM (map h data) nrows dim) offsets dim = Some (Ok t) ->
  forall rows n to, length rows = n * dim -> length to = n * (length offsets - 1) ->
  exists out, t_compress_batch x h t (mkM rows n dim) (mkM to n (length offsets - 1)) = Some (Ok tt, out) /\ length out = length to /\
  forall r i, r < n -> i < length offsets - 1 -> exists v, nth_error out (r * (length offsets - 1) + i) = Some v /\ v < nrows /\
    let q := piece offsets i (row (mkM rows n dim) r) in
    let y j := piece offsets i (row (mkM data nrows dim) j) in
    forall j, j < nrows -> lt e (true_l2 e q (y j)) (true_l2 e q (y v)) = false.
Proof.
  intros T F e x h data nrows dim offsets t ord em Ho HL HR FP rows n to LR LT.
  set (pm := mkM (map h data) nrows dim) in *.
  assert (Hm : length (m_data pm) = m_rows pm * m_cols pm) by (cbn [pm m_data m_rows m_cols]; now rewrite map_length).
  assert (PC : forall i j, piece offsets i (row pm j) = map h (piece offsets i (row (mkM data nrows dim) j))) by (intros; unfold pm; now rewrite row_map, piece_map).
  destruct (C100_batch x pm offsets dim t h (mkM rows n dim) (mkM to n (length offsets - 1)) ord (e_two _ _ _ em) Ho Hm FP HR eq_refl LR eq_refl eq_refl LT)
    as (res & out & E & L & R).
  { intros r i R I. exists (fun j => h (sq e (piece offsets i (row (mkM data nrows dim) j)))). split.
    - intros j J. rewrite PC. apply (norm_embedded e x h em).
    - intros j J. cbv zeta. rewrite PC, piece_map, (proxy_embedded e x h em). split; [now apply (number_h e x h em)|]. intros _. apply (e_big _ _ _ em). }
  assert (SG : forall r, r < n -> exists codes, t_compress x t (map h (row (mkM rows n dim) r)) (repeat 0 (length offsets - 1)) = Some (Ok tt, codes) /\
    forall i, i < length offsets - 1 -> exists v, nth_error codes i = Some v /\ v < nrows /\
      forall j, j < nrows -> lt e (true_l2 e (piece offsets i (row (mkM rows n dim) r)) (piece offsets i (row (mkM data nrows dim) j)))
                                (true_l2 e (piece offsets i (row (mkM rows n dim) r)) (piece offsets i (row (mkM data nrows dim) v))) = false).
  { intros r R'. destruct (C99_nearest e x h data nrows dim offsets t ord em Ho HL HR FP (row (mkM rows n dim) r) (repeat 0 (length offsets - 1))) as (codes & A & B & C).
    - rewrite row_length; [reflexivity|exact LR|exact R'].
    - apply repeat_length.
    - exists codes. auto. }
  destruct R as [[-> A]|(r & i & R' & I & -> & B)].
  - exists out. split; [exact E|]. split; [exact L|]. intros r i R' I. destruct (SG r R') as (codes & C1 & C2).
    rewrite (A r (repeat 0 (length offsets - 1)) R' (repeat_length _ _)) in C1. injection C1 as C1. destruct (C2 i I) as (v & V & V1 & V2). exists v.
    split; [|split; [exact V1|cbv zeta; exact V2]]. rewrite <- C1, nth_error_firstn', nth_error_skipn' in V by exact I. exact V.
  - exfalso. destruct (SG r R') as (codes & C1 & _). destruct (B (repeat 0 (length offsets - 1)) (repeat_length _ _)) as [[b B1] _]. rewrite C1 in B1. discriminate.
Qed.
Print Assumptions C100_exact.
(** Five rows: a batch of four and one more. *)
Example C100_example :
  (do t <- some_table; t_compress_batch ext_x Fin t (mkM [8;6;4; 2;6;2; 0;0;0; 9;9;9; 3;4;5]%Z 5 3) (mkM (repeat 7 10) 5 2)) =
    Some (Ok tt, [1;0; 2;2; 0;1; 1;0; 2;0]) /\
  (do t <- some_table; t_compress_batch ext_x (fun v => v) t (mkM (map Fin [8;6;4; 2;6]%Z ++ NaN :: map Fin [0;0;0; 9;9]%Z ++ NaN :: map Fin [3;4;5]%Z) 5 3) (mkM (repeat 7 10) 5 2)) =
    Some (Err (InfinityOrNaN 1 1), [1;0; 2;7; 0;7; 1;7; 2;7]).
Proof. split; vm_compute; reflexivity. Qed.
(** The f32 laws the theorem asks for. *)
Example C100_f32 : ordered f32_x /\ (forall v, mul (fo f32_x) (two f32_x) v = add (fo f32_x) v v) /\
  (forall v, number f32_x v <-> is_nan v = false).
Proof. split; [exact f32_ordered|]. split; [exact f32_two|exact f32_number]. Qed.

(** "With the same semantics as [find_closest]" (pivots.rs 344) fails on f32.  A NaN proxy in the
    first half of a block hides the pivot eight places later from the batch, but not from the
    single call. *)
Definition hide_pivots : matrix f32 := mkM (fl 1 70 :: repeat (fl 0 0) 7 ++ [fl 1 0]) 9 1.
Theorem C100_same_refuted_nan : exists t, from_parts f32_x hide_pivots [0; 1] 1 = Some (Ok t) /\
  t_compress f32_x t [fl 1 70] [9] = Some (Ok tt, [8]) /\
  t_compress_batch f32_x (fun v => v) t (mkM (repeat (fl 1 70) 4) 4 1) (mkM (repeat 9 4) 4 1) = Some (Ok tt, [1; 1; 1; 1]).
Proof. eexists. split; [reflexivity|]. split; vm_compute; reflexivity. Qed.
Print Assumptions C100_same_refuted_nan.
(** A proxy equal to [f32::MAX]: the single call fails and the batch succeeds. *)
Definition max_pivots : matrix f32 := mkM [fl 16777215 40; fl 1 52] 1 2.
Theorem C100_same_refuted_max : exists t, from_parts f32_x max_pivots [0; 2] 2 = Some (Ok t) /\
  option_map B2SF (square_norm f32_x (m_data max_pivots)) = Some (B2SF (fbig f32_x)) /\
  t_compress f32_x t (repeat (fl 0 0) 2) [9] = Some (Err (InfinityOrNaN 0 0), [9]) /\
  t_compress_batch f32_x (fun v => v) t (mkM (repeat (fl 0 0) 8) 4 2) (mkM (repeat 9 4) 4 1) = Some (Ok tt, [0; 0; 0; 0]).
Proof. eexists. split; [reflexivity|]. repeat split; vm_compute; reflexivity. Qed.
Print Assumptions C100_same_refuted_max.

(** ** C101: the distances from a query to all pivots *)
Theorem C101_process : forall {F} (x : xops F) pivots offsets dim t k query partials,
  Work.Model.offsets_new offsets = Some dim -> length (m_data pivots) = m_rows pivots * m_cols pivots ->
  from_parts x pivots offsets dim = Some (Ok t) -> length (m_data partials) = m_rows partials * m_cols partials ->
  let nchunks := length offsets - 1 in
  (length query <> dim \/ m_cols partials <> m_rows pivots \/ m_rows partials <> nchunks -> t_process x t k query partials = None) /\
  (length query = dim -> m_cols partials = m_rows pivots -> m_rows partials = nchunks ->
     exists out, t_process x t k query partials = Some out /\ length out = nchunks * m_rows pivots /\
     forall i j, i < nchunks -> j < m_rows pivots ->
       nth_error out (i * m_rows pivots + j) = Some (along (fo x) k (piece offsets i query) (piece offsets i (row pivots j)))).
Proof.
  intros F x pivots offsets dim t k query partials Ho Hm FP Hp nchunks.
  destruct (table_of x pivots offsets dim t Ho Hm FP) as (Hd & Hr & Ht). split.
  - pose proof Ht as (T1 & T2 & T3 & T4 & T5). pose proof (nchunks_eq x pivots offsets t Ht) as NC. unfold t_process. rewrite T2, T3, NC, Hd. fold nchunks.
    intros H. destruct (Nat.eqb_spec (length query) dim); cbn [negb]; [|reflexivity]. destruct (Nat.eqb_spec (m_cols partials) (m_rows pivots)); cbn [negb]; [|reflexivity].
    destruct (Nat.eqb_spec (m_rows partials) nchunks); cbn [negb]; [|reflexivity]. tauto.
  - intros H1 H2 H3. eexists. split; [now apply (process_eq x pivots offsets dim Ho Hm Hd t Ht)|].
    split; [apply concat_length; intros; rewrite map_length; apply seq_length|].
    intros i j I J. rewrite (concat_nth _ (length offsets - 1) (m_rows pivots)); [|intros; rewrite map_length; apply seq_length|assumption|assumption].
    now apply (nth_map_seq (fun j => along (fo x) k (piece offsets i query) (piece offsets i (row pivots j)))).
Qed.
Print Assumptions C101_process.
(** Without rounding these are the squared distance, the negated and the plain inner product. *)
Theorem C101_exact : forall {T F} (e : fops T) (x : xops F) (h : T -> F) k q y, embeds e x h ->
  along (fo x) k (map h q) (map h y) =
    h (match k with KL2 => true_l2 e q y | KIP => neg e (true_ip e q y) | KMath => true_ip e q y end).
Proof. intros T F e x h k q y em. rewrite (along_h e x h em). f_equal. apply (along_exact e (e_exact _ _ _ em)). Qed.
Print Assumptions C101_exact.
Example C101_example :
  (do t <- some_table; t_process ext_x t KL2 (map Fin [1; 2; 3]%Z) (mkM (repeat NaN 6) 2 3)) = Some (map Fin [5; 145; 8; 4; 9; 4]%Z) /\
  (do t <- some_table; t_process ext_x t KIP (map Fin [1; 2; 3]%Z) (mkM (repeat NaN 6) 2 3)) = Some (map Fin [0; -30; -11; -15; 0; -3]%Z).
Proof. split; vm_compute; reflexivity. Qed.
