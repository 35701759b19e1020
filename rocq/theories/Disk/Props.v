(** Property theorems about the disk index (C38-C41, C48). *)
From Coq Require Import List NArith Bool Lia ZifyNat ZifyN ZifyBool.
From Verif.Lib Require Import Base Lists Bytes.
From Verif.Disk Require Import Model Spec Proofs ProofsLayout ProofsRead.
Import ListNotations.

(** ** C39: the header survives serialization *)

Theorem C39_header_round_trip h rest : header_ok h -> header_try_from (header_to_bytes h ++ rest) = Some h.
Proof. exact (header_round h rest). Qed.
Print Assumptions C39_header_round_trip.

Definition sample_header : gheader :=
  mkgheader (mkgmeta 25 128 7 332 12 1 7 16384 4) 4096 (mkversion 1 0).
Example sample_header_ok : header_ok sample_header /\ length (header_to_bytes sample_header) = 96.
Proof. split; [repeat constructor|reflexivity]. Qed.

(** A byte string is accepted exactly when it has at least 96 bytes, and each field is the
    little-endian integer at its documented offset. *)
Lemma c39_accept v :
  (length v < 96 -> header_try_from v = None) /\
  (96 <= length v -> exists h, header_try_from v = Some h /\
     map (fun p => le_dec (firstn (snd p) (skipn (fst p) v)))
       [(0, 8); (8, 8); (16, 8); (24, 8); (32, 8); (40, 8); (48, 8); (64, 8); (72, 8); (80, 8); (88, 4); (92, 4)]
     = [m_num_pts (h_meta h); m_dims (h_meta h); m_medoid (h_meta h); m_node_len (h_meta h);
        m_nodes_per_block (h_meta h); m_frozen_num (h_meta h); m_frozen_loc (h_meta h);
        m_file_size (h_meta h); m_assoc_len (h_meta h); h_block_size h;
        v_major (h_version h); v_minor (h_version h)]).
Proof.
  split; intros H.
  - unfold header_try_from. destruct (Nat.ltb_spec (length v) header_size); auto.
    unfold header_size, meta_size in *. lia.
  - eexists; split; [apply header_fields; exact H|]. reflexivity.
Qed.
Theorem C39_accepts_exactly_long_enough_input v :
  (length v < 96 -> header_try_from v = None) /\
  (96 <= length v -> exists h, header_try_from v = Some h /\
     map (fun p => le_dec (firstn (snd p) (skipn (fst p) v)))
       [(0, 8); (8, 8); (16, 8); (24, 8); (32, 8); (40, 8); (48, 8); (64, 8); (72, 8); (80, 8); (88, 4); (92, 4)]
     = [m_num_pts (h_meta h); m_dims (h_meta h); m_medoid (h_meta h); m_node_len (h_meta h);
        m_nodes_per_block (h_meta h); m_frozen_num (h_meta h); m_frozen_loc (h_meta h);
        m_file_size (h_meta h); m_assoc_len (h_meta h); h_block_size h;
        v_major (h_version h); v_minor (h_version h)]).
Proof. exact (c39_accept v). Qed.
Print Assumptions C39_accepts_exactly_long_enough_input.

(** The maximum degree is recovered from the node length, for every supported version. *)
Theorem C39_max_degree_recovered dbg M tsz h d :
  (v_major (h_version h) <= 1)%N -> v_minor (h_version h) = 0%N ->
  (tsz * m_dims (h_meta h) <= M)%N ->
  m_node_len (h_meta h) = ((d + 1) * 4 + tsz * m_dims (h_meta h) + m_assoc_len (h_meta h))%N ->
  max_degree dbg M tsz h = Degree d.
Proof. exact (max_degree_exact dbg M tsz h d). Qed.
Print Assumptions C39_max_degree_recovered.
Example c39_degree_sample : max_degree true (2 ^ 64 - 1) 1 sample_header = Degree 49.
Proof. reflexivity. Qed.

(** Finding: the vector length is an unchecked product.  A header claiming 2^62 dimensions
    of a four-byte type is not reported as inconsistent: a release build answers with a
    degree, a debug build panics. *)
Definition bogus_header : gheader :=
  mkgheader (mkgmeta 1 (2 ^ 62) 0 8 1 0 0 8192 0) 4096 (mkversion 1 0).
Lemma c39_wrap : ~ (forall dbg h, header_ok h ->
  (m_node_len (h_meta h) < 4 * m_dims (h_meta h))%N -> max_degree dbg (2 ^ 64 - 1) 4 h = DegOverflow).
Proof.
  intros H. assert (HX : max_degree false (2 ^ 64 - 1) 4 bogus_header = DegOverflow).
  { apply H; [repeat constructor|reflexivity]. }
  vm_compute in HX. discriminate.
Qed.
Theorem C39_max_degree_overflow_refuted : ~ (forall dbg h, header_ok h ->
  (m_node_len (h_meta h) < 4 * m_dims (h_meta h))%N -> max_degree dbg (2 ^ 64 - 1) 4 h = DegOverflow).
Proof. exact c39_wrap. Qed.
Print Assumptions C39_max_degree_overflow_refuted.

(** Versions are ordered by major, then minor number. *)
Theorem C39_version_order a b :
  match version_cmp a b with
  | Eq => a = b
  | Lt => (v_major a < v_major b \/ v_major a = v_major b /\ v_minor a < v_minor b)%N
  | Gt => (v_major b < v_major a \/ v_major a = v_major b /\ v_minor b < v_minor a)%N
  end.
Proof. exact (version_cmp_spec a b). Qed.
Print Assumptions C39_version_order.

(** ** C40: the buffered reader reads the file *)
Lemma c40 cache f : exists r, cr_new cache f = Some r /\ forall ns, cr_reads ns r = plain_reads 0 ns f.
Proof.
  destruct (cr_new_at cache f) as (r & E & HA). exists r. split; auto.
  intros ns. apply cr_reads_plain; auto.
Qed.
Theorem C40_reads_the_file_in_order cache f :
  exists r, cr_new cache f = Some r /\ forall ns, cr_reads ns r = plain_reads 0 ns f.
Proof. exact (c40 cache f). Qed.
Print Assumptions C40_reads_the_file_in_order.
Example c40_sample :
  option_map (cr_reads [2; 3; 9; 0; 4; 1]) (cr_new 4 [1; 2; 3; 4; 5; 6; 7; 8; 9; 10]%N)
  = Some [Some [1; 2]%N; Some [3; 4; 5]%N; None; Some []; Some [6; 7; 8; 9]%N; Some [10]%N].
Proof. reflexivity. Qed.

(** ** C41: the buffered writer writes the file *)

(** Without I/O errors every call succeeds; after a flush (or drop) the file is what an
    unbuffered writer would have produced, and the reported size is the number of bytes
    written.  At any earlier point (a crash), if there was no [reset], the file is a prefix
    of the bytes written. *)
Lemma c41 cs ops : 0 < cs -> exists w0 w1 w2,
  cw_new cs = Some w0 /\
  cw_run no_faults ops w0 = (map (fun _ => true) ops, w1) /\
  cw_flush no_faults w1 = (true, w2) /\
  cw_file w2 = fst (plain_run (map fop_of ops)) /\
  cw_fsize w2 = length (written (map fop_of ops)) /\
  (existsb is_rewind (map fop_of ops) = false ->
     cw_file w2 = written (map fop_of ops) /\
     exists rest, written (map fop_of ops) = cw_file w1 ++ rest /\ length rest <= cs).
Proof.
  intros HC. destruct (cw_new_at cs HC) as (w0 & E0 & HA0 & HF0 & HE0 & HO0).
  destruct (cw_run_at ops _ _ HA0) as (w1 & E1 & HA1 & HS1 & HW1).
  destruct (cw_op_at WFlush _ _ HA1) as (w2 & E2 & HA2 & HS2 & HO2 & HN2).
  exists w0, w1, w2. cbn [cw_op] in E2. split; auto. split; auto. split; auto.
  specialize (HO2 eq_refl). cbn [fop_of plain_op] in HA2.
  destruct HA2 as [_ _ _ B4 _ B6].
  assert (HF : cw_file w2 = fst (plain_run (map fop_of ops))).
  { unfold plain_run. rewrite B6, HO2. cbn [firstn]. rewrite put_nil; auto. }
  split; auto. split.
  { cbn [fop_of written length] in HS2. lia. }
  intros HR. assert (HPl : plain_run (map fop_of ops) = (written (map fop_of ops), length (written (map fop_of ops)))).
  { unfold plain_run. rewrite plain_no_rewind by auto. reflexivity. }
  split; [rewrite HF, HPl; auto|].
  assert (HP1 : cw_wpos w1 = length (cw_file w1)).
  { apply HW1; auto. destruct HA0 as [_ _ _ _ C5 _]. cbn in C5. rewrite HE0. cbn. lia. }
  destruct HA1 as [D1 D2 D3 D4 D5 D6]. unfold plain_run in HPl. rewrite HPl in D6. cbn in D6.
  rewrite HP1, put_end in D6. exists (firstn (cw_off w1) (cw_cache w1)). split; auto.
  rewrite firstn_length.
  assert (HCS : cw_csize w1 = cs).
  { clear - E0 E1. unfold cw_new in E0. destruct (cs =? 0); [discriminate|]. injection E0 as <-.
    assert (HG : forall o w r w', cw_op no_faults o w = (r, w') -> cw_csize w' = cw_csize w).
    { intros o w r w'. destruct o; cbn; unfold cw_write, cw_flush, cw_reset, cw_flush_cache, write_all, no_faults.
      - destruct (length b <=? cw_csize w - cw_off w); intros [= <- <-]; reflexivity.
      - destruct (0 <? cw_off w); intros [= <- <-]; reflexivity.
      - intros [= <- <-]; reflexivity. }
    assert (HR : forall ops w rs w', cw_run no_faults ops w = (rs, w') -> cw_csize w' = cw_csize w).
    { clear - HG. induction ops as [|o ops IH]; cbn; intros w rs w'.
      - intros [= <- <-]; auto.
      - destruct (cw_op no_faults o w) as [r w1] eqn:E. destruct (cw_run no_faults ops w1) as [rs' w2] eqn:E2.
        intros [= <- <-]. rewrite (IH _ _ _ E2). eapply HG; eauto. }
    apply HR in E1. exact E1. }
  lia.
Qed.
Theorem C41_writes_the_file cs ops : 0 < cs -> exists w0 w1 w2,
  cw_new cs = Some w0 /\
  cw_run no_faults ops w0 = (map (fun _ => true) ops, w1) /\
  cw_flush no_faults w1 = (true, w2) /\
  cw_file w2 = fst (plain_run (map fop_of ops)) /\
  cw_fsize w2 = length (written (map fop_of ops)) /\
  (existsb is_rewind (map fop_of ops) = false ->
     cw_file w2 = written (map fop_of ops) /\
     exists rest, written (map fop_of ops) = cw_file w1 ++ rest /\ length rest <= cs).
Proof. exact (c41 cs ops). Qed.
Print Assumptions C41_writes_the_file.
Example c41_sample :
  let ops := [WWrite [1; 2; 3]; WWrite [4; 5]; WFlush; WWrite [6]; WReset; WWrite [9; 9]]%N in
  option_map (fun w => let (_, w1) := cw_run no_faults ops w in
     let (_, w2) := cw_flush no_faults w1 in (cw_file w1, cw_file w2, cw_fsize w2)) (cw_new 4)
  = Some ([1; 2; 3; 4; 5; 6]%N, [9; 9; 3; 4; 5; 6]%N, 8).
Proof. reflexivity. Qed.

(** Finding: after a failed write the cached bytes can be written a second time, so the file
    is no longer a prefix of what was written even though the failing call wrote nothing of
    its own. *)
Lemma c41_fault : ~ (forall flt cs w0 b1 b2, cw_new cs = Some w0 ->
  let (_, w1) := cw_run flt [WWrite b1; WWrite b2] w0 in
  let (_, w2) := cw_flush flt w1 in   (* what dropping the writer does *)
  exists rest, b1 ++ b2 = cw_file w2 ++ rest).
Proof.
  intros H. specialize (H (fun i => if i =? 1 then Some 0 else None) 2 _ [1; 2]%N [3; 4; 5; 6]%N eq_refl).
  cbn in H. destruct H as (rest & H). discriminate.
Qed.
Theorem C41_no_duplicate_after_error_refuted : ~ (forall flt cs w0 b1 b2, cw_new cs = Some w0 ->
  let (_, w1) := cw_run flt [WWrite b1; WWrite b2] w0 in
  let (_, w2) := cw_flush flt w1 in
  exists rest, b1 ++ b2 = cw_file w2 ++ rest).
Proof. exact c41_fault. Qed.
Print Assumptions C41_no_duplicate_after_error_refuted.

(** ** C38: what the layout writer writes is what the vertex provider reads *)

(** The three input files of an index. *)
Definition data_file (c : content) : bytes := bin_file (c_dims c) (c_vecs c).
Definition assoc_file (c : content) : option bytes :=
  match c_assoc c with None => None | Some (k, rows) => Some (bin_file k rows) end.
Definition mem_file (c : content) : bytes :=
  graph_file (c_gsize c) (c_max_degree c) (c_medoid c) (c_frozen c) (c_adj c).

Lemma c38 dbg tsz asz rblk wblk c bs :
  content_ok dbg tsz asz c -> 0 < wblk -> 104 <= bs -> u64_ok (N.of_nat (node_bytes_len tsz asz c)) ->
  exists f, create_disk_layout dbg tsz asz rblk wblk bs (data_file c) (assoc_file c) (mem_file c) = Some f /\
  length f mod bs = 0 /\
  forall sector, 104 <= sector <= length f -> u64_ok (N.of_nat (length f)) ->
  exists h, get_header sector f = Some h /\
    m_num_pts (h_meta h) = N.of_nat (length (c_vecs c)) /\ m_dims (h_meta h) = c_dims c /\
    m_medoid (h_meta h) = c_medoid c /\ m_frozen_num (h_meta h) = c_frozen c /\
    m_file_size (h_meta h) = N.of_nat (length f) /\ h_block_size h = N.of_nat bs /\
    (forall dbg M, (N.of_nat tsz * c_dims c <= M)%N -> max_degree dbg M (N.of_nat tsz) h = Degree (c_max_degree c)) /\
    forall max ops, good_use (length (c_vecs c)) [] [] ops ->
    exists vp, vp_run f ops (vp_new sector tsz max h) = Some vp /\
    forall v, if existsb (N.eqb v) (processed [] ops)
      then vp_vector v vp = vector_of c v /\ vp_neighbors v vp = neighbors_of c v /\ vp_data v vp = assoc_of c v
           /\ vector_of c v <> None
      else vp_vector v vp = None /\ vp_neighbors v vp = None /\ vp_data v vp = None.
Proof.
  intros OK HW HB HN.
  exists (F tsz asz c bs). split; [apply create_layout; auto; unfold meta_size; lia|].
  pose proof (F_length dbg tsz asz c OK bs HB) as HL.
  split. { rewrite HL. apply Nat.mod_mul. lia. }
  intros sector [HS1 HS2] H64. exists (final_header tsz asz c bs).
  split. { rewrite (get_header_ok dbg); auto. - destruct (Nat.leb_spec sector (length (F tsz asz c bs))); auto; lia.
           - rewrite <- HL. auto. }
  repeat (split; [try reflexivity|]).
  - cbn. rewrite HL. reflexivity.
  - intros d M HM. apply max_degree_exact; try reflexivity; auto; cbn; try lia.
    unfold node_bytes_len. rewrite !Nat2N.inj_add, !Nat2N.inj_mul, !Nat2N.inj_add, !N2Nat.id. cbn. lia.
  - intros max ops HG.
    destruct (vp_run_ok dbg tsz asz c OK bs HB ops [] [] (vp_new sector tsz max (final_header tsz asz c bs))) as (vp & batch & E & HK); auto.
    { apply vp_new_ok; auto. }
    exists vp. split; auto. intros v. eapply vp_get_ok; eauto.
Qed.
Theorem C38_layout_round_trip dbg tsz asz rblk wblk c bs :
  content_ok dbg tsz asz c -> 0 < wblk -> 104 <= bs -> u64_ok (N.of_nat (node_bytes_len tsz asz c)) ->
  exists f, create_disk_layout dbg tsz asz rblk wblk bs (data_file c) (assoc_file c) (mem_file c) = Some f /\
  length f mod bs = 0 /\
  forall sector, 104 <= sector <= length f -> u64_ok (N.of_nat (length f)) ->
  exists h, get_header sector f = Some h /\
    m_num_pts (h_meta h) = N.of_nat (length (c_vecs c)) /\ m_dims (h_meta h) = c_dims c /\
    m_medoid (h_meta h) = c_medoid c /\ m_frozen_num (h_meta h) = c_frozen c /\
    m_file_size (h_meta h) = N.of_nat (length f) /\ h_block_size h = N.of_nat bs /\
    (forall dbg M, (N.of_nat tsz * c_dims c <= M)%N -> max_degree dbg M (N.of_nat tsz) h = Degree (c_max_degree c)) /\
    forall max ops, good_use (length (c_vecs c)) [] [] ops ->
    exists vp, vp_run f ops (vp_new sector tsz max h) = Some vp /\
    forall v, if existsb (N.eqb v) (processed [] ops)
      then vp_vector v vp = vector_of c v /\ vp_neighbors v vp = neighbors_of c v /\ vp_data v vp = assoc_of c v
           /\ vector_of c v <> None
      else vp_vector v vp = None /\ vp_neighbors v vp = None /\ vp_data v vp = None.
Proof. exact (c38 dbg tsz asz rblk wblk c bs). Qed.
Print Assumptions C38_layout_round_trip.

(** A small index: three nodes with associated data. *)
Definition small : content :=
  mkcontent 2 [[1; 2]; [3; 4]; [5; 6]]%N [[1; 2]; [0]; [0; 1]]%N 2 1 0 44 (Some (1%N, [[7]; [8]; [9]]%N)).
Example small_ok : content_ok true 1 1 small.
Proof. split; cbn; repeat constructor; discriminate. Qed.
Example small_use : good_use 3 [] [] [CLoad [2; 0]%N; CProcess 0 1; CProcess 2 0; CLoad [1]%N; CProcess 1 0].
Proof.
  cbn. repeat split; auto.
  - repeat constructor.
  - intros [E|[]]. discriminate.
Qed.

(** Finding: the writer accepts blocks of 80 to 103 bytes, but writes 104 bytes of header,
    over the first node. *)
Definition many : content :=
  mkcontent 40 (repeat (repeat 5%N 40) 60) (repeat [0%N] 60) 1 0 0 504 None.
Lemma many_ok : content_ok true 1 0 many.
Proof.
  constructor; unfold many; cbn [c_vecs c_dims c_adj c_max_degree c_medoid c_frozen c_gsize c_assoc];
    try exact I; try reflexivity.
  - apply Forall_forall. intros x Hx. apply repeat_spec in Hx. subst. reflexivity.
  - apply Forall_forall. intros x Hx. apply repeat_spec in Hx. subst.
    split; [discriminate|]. split; [repeat constructor|discriminate].
Qed.
Definition first_vector (f : bytes) (tsz : nat) : option bytes :=
  do h <- get_header (N.to_nat 4096) f;
  do vp <- vp_run f [CLoad [0%N]; CProcess 0 0] (vp_new (N.to_nat 4096) tsz 1 h);
  vp_vector 0 vp.
Lemma c38_small_block : ~ (forall dbg tsz asz rblk wblk c bs f,
  content_ok dbg tsz asz c -> 0 < wblk -> u64_ok (N.of_nat (node_bytes_len tsz asz c)) ->
  create_disk_layout dbg tsz asz rblk wblk bs (data_file c) (assoc_file c) (mem_file c) = Some f ->
  u64_ok (N.of_nat (length f)) -> N.to_nat 4096 <= length f ->
  0 < length (c_vecs c) -> first_vector f tsz = vector_of c 0).
Proof.
  intros H.
  destruct (create_disk_layout true 1 0 1000 1000 80 (data_file many) (assoc_file many) (mem_file many)) as [f|] eqn:E.
  2:{ vm_compute in E. discriminate. }
  assert (HF : length f = N.to_nat 4880) by (vm_compute in E; injection E as <-; vm_compute; reflexivity).
  assert (HX : first_vector f 1 = vector_of many 0).
  { apply (H true 1 0 1000 1000 many 80 f many_ok); auto.
    - lia.
    - vm_compute. reflexivity.
    - rewrite HF. vm_compute. reflexivity.
    - rewrite HF. clear. lia.
    - cbn. lia. }
  vm_compute in E. injection E as <-. vm_compute in HX. discriminate.
Qed.
Theorem C38_small_block_refuted : ~ (forall dbg tsz asz rblk wblk c bs f,
  content_ok dbg tsz asz c -> 0 < wblk -> u64_ok (N.of_nat (node_bytes_len tsz asz c)) ->
  create_disk_layout dbg tsz asz rblk wblk bs (data_file c) (assoc_file c) (mem_file c) = Some f ->
  u64_ok (N.of_nat (length f)) -> N.to_nat 4096 <= length f ->
  0 < length (c_vecs c) -> first_vector f tsz = vector_of c 0).
Proof. exact c38_small_block. Qed.
Print Assumptions C38_small_block_refuted.

(** Finding: the header of an index smaller than one 4096-byte sector (possible with small
    blocks) cannot be read back through a reader that refuses to read past the end. *)
Lemma c38_small_file : ~ (forall dbg tsz asz rblk wblk c bs f,
  content_ok dbg tsz asz c -> 0 < wblk -> 104 <= bs ->
  create_disk_layout dbg tsz asz rblk wblk bs (data_file c) (assoc_file c) (mem_file c) = Some f ->
  get_header (N.to_nat 4096) f <> None).
Proof.
  intros H. destruct (create_disk_layout true 1 1 1000 1000 512 (data_file small) (assoc_file small) (mem_file small)) as [f|] eqn:E.
  2:{ vm_compute in E. discriminate. }
  apply (H true 1 1 1000 1000 small 512 f small_ok); auto.
  - lia.
  - lia.
  - vm_compute in E. injection E as <-. vm_compute. reflexivity.
Qed.
Theorem C38_small_file_refuted : ~ (forall dbg tsz asz rblk wblk c bs f,
  content_ok dbg tsz asz c -> 0 < wblk -> 104 <= bs ->
  create_disk_layout dbg tsz asz rblk wblk bs (data_file c) (assoc_file c) (mem_file c) = Some f ->
  get_header (N.to_nat 4096) f <> None).
Proof. exact c38_small_file. Qed.
Print Assumptions C38_small_file_refuted.

(** Finding: a vertex processed twice in one batch shifts the neighbour lists and the
    associated data of the vertices processed after it. *)
Lemma c38_duplicate : ~ (forall tsz asz c bs f h vp ids,
  content_ok true tsz asz c -> 104 <= bs -> Forall (fun v => N.to_nat v < length (c_vecs c)) ids ->
  create_disk_layout true tsz asz 1000 1000 bs (data_file c) (assoc_file c) (mem_file c) = Some f ->
  get_header bs f = Some h ->
  vp_run f (CLoad ids :: map (fun p => CProcess (fst p) (snd p)) (combine ids (seq 0 (length ids))))
    (vp_new bs tsz 1 h) = Some vp ->
  forall v, In v ids -> vp_neighbors v vp = neighbors_of c v).
Proof.
  intros H.
  destruct (create_disk_layout true 1 1 1000 1000 104 (data_file small) (assoc_file small) (mem_file small)) as [f|] eqn:E.
  2:{ vm_compute in E. discriminate. }
  vm_compute in E. injection E as EF.
  destruct (get_header 104 f) as [h|] eqn:EH.
  2:{ rewrite <- EF in EH. vm_compute in EH. discriminate. }
  destruct (vp_run f [CLoad [0; 0; 1]%N; CProcess 0 0; CProcess 0 1; CProcess 1 2] (vp_new 104 1 1 h)) as [vp|] eqn:EV.
  2:{ rewrite <- EF in EH, EV. vm_compute in EH. injection EH as <-. vm_compute in EV. discriminate. }
  assert (HX : vp_neighbors 1 vp = neighbors_of small 1).
  { apply (H 1 1 small 104 f h vp [0; 0; 1]%N small_ok); auto.
    - repeat constructor.
    - vm_compute. f_equal. exact EF.
    - cbn. auto. }
  rewrite <- EF in EH, EV. vm_compute in EH. injection EH as <-. vm_compute in EV. injection EV as <-.
  vm_compute in HX. discriminate.
Qed.
Theorem C38_duplicate_vertex_refuted : ~ (forall tsz asz c bs f h vp ids,
  content_ok true tsz asz c -> 104 <= bs -> Forall (fun v => N.to_nat v < length (c_vecs c)) ids ->
  create_disk_layout true tsz asz 1000 1000 bs (data_file c) (assoc_file c) (mem_file c) = Some f ->
  get_header bs f = Some h ->
  vp_run f (CLoad ids :: map (fun p => CProcess (fst p) (snd p)) (combine ids (seq 0 (length ids))))
    (vp_new bs tsz 1 h) = Some vp ->
  forall v, In v ids -> vp_neighbors v vp = neighbors_of c v).
Proof. exact c38_duplicate. Qed.
Print Assumptions C38_duplicate_vertex_refuted.

(** ** C48: the node cache *)

(** Distinct nodes are accepted up to the capacity and returned as inserted; nothing else is
    in the cache. *)
Lemma c48 {V L D} (vdef : V) cap (es : list (N * (V * L * D))) : NoDup (map fst es) ->
  match nc_inserts es (nc_new vdef cap) with
  | None => cap < length es
  | Some c => length es <= cap /\
    (forall v vec l d, In (v, (vec, l, d)) es -> nc_vector v c = Some vec /\ nc_list v c = Some l /\ nc_datum v c = Some d) /\
    (forall v, ~ In v (map fst es) -> nc_vector v c = None /\ nc_list v c = None /\ nc_datum v c = None)
  end.
Proof.
  assert (HG : forall es done (c : ncache V L D), nc_holds done c -> nc_cap c = cap -> NoDup (map fst (rev es ++ done)) ->
     match nc_inserts es c with
     | None => cap < length es + length done
     | Some c' => nc_holds (rev es ++ done) c' /\ nc_cap c' = cap
     end).
  { clear es. induction es as [|[v [[vec l] d]] es IH]; intros done c HH HC HN; cbn [nc_inserts rev].
    - auto.
    - cbn [rev] in HN. rewrite <- app_assoc in HN. cbn [app] in HN.
      assert (HNI : ~ In v (map fst done)).
      { rewrite map_app in HN. cbn in HN. apply NoDup_remove_2 in HN. rewrite in_app_iff in HN. tauto. }
      pose proof (nc_insert_holds done c v vec l d HH HNI) as HI.
      destruct (Nat.ltb_spec (length done) (nc_cap c)).
      + destruct HI as (c' & -> & HH' & HC'). cbn [bind].
        specialize (IH _ c' HH' ltac:(congruence) HN).
        destruct (nc_inserts es c'); [rewrite <- app_assoc; exact IH|]. cbn in IH |- *. lia.
      + rewrite HI. cbn. lia. }
  intros HN. specialize (HG es [] (nc_new vdef cap) (nc_new_holds vdef cap) eq_refl).
  rewrite app_nil_r in HG. rewrite map_rev in HG. specialize (HG (NoDup_rev HN)).
  destruct (nc_inserts es (nc_new vdef cap)) as [c|].
  - destruct HG as [HH HC]. split.
    { pose proof (nh_cap _ _ HH) as HL. rewrite rev_length in HL. congruence. }
    split.
    + intros v vec l d HI. eapply nc_get_holds; eauto. apply -> in_rev. exact HI.
    + intros v HI. assert (HF : nc_find v c = None).
      { apply nc_find_None. rewrite (nh_keys _ _ HH), map_rev. intros HX. apply in_rev in HX. auto. }
      unfold nc_vector, nc_list, nc_datum. rewrite HF. auto.
  - cbn in HG. lia.
Qed.
Theorem C48_cache_returns_inserted_nodes {V L D} (vdef : V) cap (es : list (N * (V * L * D))) :
  NoDup (map fst es) ->
  match nc_inserts es (nc_new vdef cap) with
  | None => cap < length es
  | Some c => length es <= cap /\
    (forall v vec l d, In (v, (vec, l, d)) es -> nc_vector v c = Some vec /\ nc_list v c = Some l /\ nc_datum v c = Some d) /\
    (forall v, ~ In v (map fst es) -> nc_vector v c = None /\ nc_list v c = None /\ nc_datum v c = None)
  end.
Proof. exact (c48 vdef cap es). Qed.
Print Assumptions C48_cache_returns_inserted_nodes.
Example c48_sample :
  option_map (fun c => (nc_list 4 c, nc_list 9 c, nc_list 5 c))
    (nc_inserts [(4, (true, [1], tt)); (9, (false, [2; 3], tt))]%N (nc_new true 2))
  = Some (Some [1%N], Some [2; 3]%N, None).
Proof. reflexivity. Qed.

(** Finding: inserting a node again is documented as an update, but only its vector is
    updated; the old neighbour list stays and the next node inserted gets a wrong one. *)
Lemma c48_update : ~ (forall (a b : list N) c, nc_inserts [(1%N, (true, a, tt)); (1%N, (true, b, tt))] (nc_new true 2) = Some c ->
  nc_list 1 c = Some b).
Proof. intros H. specialize (H [1%N] [2%N] _ eq_refl). cbn in H. discriminate. Qed.
Theorem C48_update_refuted : ~ (forall (a b : list N) c,
  nc_inserts [(1%N, (true, a, tt)); (1%N, (true, b, tt))] (nc_new true 2) = Some c -> nc_list 1 c = Some b).
Proof. exact c48_update. Qed.
Print Assumptions C48_update_refuted.
Lemma c48_after : ~ (forall (a b d : list N) c,
  nc_inserts [(1%N, (true, a, tt)); (1%N, (true, b, tt)); (2%N, (true, d, tt))] (nc_new true 2) = Some c ->
  nc_list 2 c = Some d).
Proof. intros H. specialize (H [1%N] [2%N] [3%N] _ eq_refl). cbn in H. discriminate. Qed.
Theorem C48_insert_after_update_refuted : ~ (forall (a b d : list N) c,
  nc_inserts [(1%N, (true, a, tt)); (1%N, (true, b, tt)); (2%N, (true, d, tt))] (nc_new true 2) = Some c ->
  nc_list 2 c = Some d).
Proof. exact c48_after. Qed.
Print Assumptions C48_insert_after_update_refuted.
