(** Model of the disk index: header, buffered reader and writer, layout writer, sector
    reader, vertex provider and node cache.  Sizes are [nat], decoded integers are [N]; a
    panic and an error are both [None] unless said otherwise. *)
From Coq Require Import List NArith Bool.
From Verif.Lib Require Import Base Lists Bytes.
Import ListNotations.

Definition bind {A B} (x : option A) (f : A -> option B) : option B :=
  match x with Some a => f a | None => None end.
Notation "'do' p <- e ; r" := (bind e (fun p => r)) (at level 200, p pattern, e at level 100, r at level 200).
Definition guard (b : bool) : option unit := if b then Some tt else None.

(** * Header *)

(** [GraphMetadata]; diskann-disk/src/data_model/graph_metadata.rs 14-42. *)
Record gmeta := mkgmeta {
  m_num_pts : N; m_dims : N; m_medoid : N; m_node_len : N; m_nodes_per_block : N;
  m_frozen_num : N; m_frozen_loc : N; m_file_size : N; m_assoc_len : N }.
(** [GraphMetadata::to_bytes]; graph_metadata.rs 78-96. *)
Definition meta_to_bytes (m : gmeta) : bytes :=
  le_enc 8 (m_num_pts m) ++ le_enc 8 (m_dims m) ++ le_enc 8 (m_medoid m) ++ le_enc 8 (m_node_len m)
  ++ le_enc 8 (m_nodes_per_block m) ++ le_enc 8 (m_frozen_num m) ++ le_enc 8 (m_frozen_loc m)
  ++ le_enc 8 0 ++ le_enc 8 (m_file_size m) ++ le_enc 8 (m_assoc_len m).
(** [GraphMetadata::get_size]; graph_metadata.rs 100-102. *)
Definition meta_size : nat := 8 * 10.
(** [GraphMetadata::try_from]; graph_metadata.rs 112-145.  [usize] is 64 bits. *)
Definition meta_try_from (v : bytes) : option gmeta :=
  if length v <? meta_size then None else
  do (num_pts, v) <- take_le 8 v; do (dims, v) <- take_le 8 v; do (medoid, v) <- take_le 8 v;
  do (node_len, v) <- take_le 8 v; do (npb, v) <- take_le 8 v; do (fnum, v) <- take_le 8 v;
  do (floc, v) <- take_le 8 v; do (_, v) <- take_le 8 v; do (fsz, v) <- take_le 8 v;
  do (al, v) <- take_le 8 v;
  Some (mkgmeta num_pts dims medoid node_len npb fnum floc fsz al).

(** [GraphLayoutVersion]; graph_layout_version.rs 13-17, [to_bytes] 38-43, [try_from] 72-85. *)
Record version := mkversion { v_major : N; v_minor : N }.
Definition version_to_bytes (v : version) : bytes := le_enc 4 (v_major v) ++ le_enc 4 (v_minor v).
Definition version_try_from (b : bytes) : option version :=
  if length b <? 8 then None else
  do (ma, b) <- take_le 4 b; do (mi, b) <- take_le 4 b; Some (mkversion ma mi).
(** [Ord::cmp]; graph_layout_version.rs 53-58. *)
Definition version_cmp (a b : version) : comparison :=
  match N.compare (v_major a) (v_major b) with
  | Eq => N.compare (v_minor a) (v_minor b)
  | c => c
  end.

(** [GraphHeader]; graph_header.rs 15-24, [to_bytes] 61-68, [get_size] 72-76,
    [try_from] 127-146. *)
Record gheader := mkgheader { h_meta : gmeta; h_block_size : N; h_version : version }.
Definition header_to_bytes (h : gheader) : bytes :=
  meta_to_bytes (h_meta h) ++ le_enc 8 (h_block_size h) ++ version_to_bytes (h_version h).
Definition header_size : nat := meta_size + 8 + 8.
Definition header_try_from (v : bytes) : option gheader :=
  if length v <? header_size then None else
  do m <- meta_try_from (firstn meta_size v);
  do (bs, _) <- take_le 8 (skipn meta_size v);
  do ver <- version_try_from (skipn (meta_size + 8) v);
  Some (mkgheader m bs ver).

(** [GraphHeader::max_degree::<DataType>]; graph_header.rs 94-118.  [tsz] is the size of the
    element type and [M] is [usize::MAX]; the product is unchecked, so it panics in debug
    builds and wraps in release builds when it exceeds [M]. *)
Inductive degree_result := Degree (d : N) | DegOverflow | DegUnsupported | DegPanic.
Definition version_eqb (a b : version) : bool :=
  (v_major a =? v_major b)%N && (v_minor a =? v_minor b)%N.
Definition max_degree (dbg : bool) (M tsz : N) (h : gheader) : degree_result :=
  if version_eqb (h_version h) (mkversion 0 0) || version_eqb (h_version h) (mkversion 1 0) then
    let prod := (tsz * m_dims (h_meta h))%N in
    if dbg && (M <? prod)%N then DegPanic else
    let vl := (prod mod (M + 1))%N in
    let nl := m_node_len (h_meta h) in
    if (nl <? vl)%N then DegOverflow else
    let l1 := (nl - vl)%N in
    if (l1 <? m_assoc_len (h_meta h))%N then DegOverflow else
    let l2 := ((l1 - m_assoc_len (h_meta h)) / 4)%N in
    if (l2 <? 1)%N then DegOverflow else Degree (l2 - 1)
  else DegUnsupported.

(** * Buffered reader: storage/cached_reader.rs *)

Record creader := mkcr {
  cr_file : bytes;      (* the underlying file *)
  cr_rpos : nat;        (* [reader.stream_position()] *)
  cr_csize : nat;       (* [cache_size] *)
  cr_cache : bytes;     (* [cache_buf] *)
  cr_off : nat;         (* [cur_off] *)
  cr_size : nat }.      (* [size] *)
(** [read_exact] of [n] bytes on the underlying reader. *)
Definition read_exact (pos n : nat) (f : bytes) : option bytes :=
  if pos + n <=? length f then Some (slice pos n f) else None.
(** [CachedReader::new]; cached_reader.rs 38-62. *)
Definition cr_new (cache : nat) (f : bytes) : option creader :=
  let size := length f in
  let cs := Nat.min cache size in
  do buf <- read_exact 0 cs f;
  Some (mkcr f cs cs buf 0 size).
(** [CachedReader::read]; cached_reader.rs 68-108.  Returns the bytes read, or [None] with
    the reader as it was left. *)
Definition cr_read (n : nat) (r : creader) : option bytes * creader :=
  if n <=? cr_csize r - cr_off r then
    (Some (slice (cr_off r) n (cr_cache r)),
     mkcr (cr_file r) (cr_rpos r) (cr_csize r) (cr_cache r) (cr_off r + n) (cr_size r))
  else
    let cached := cr_csize r - cr_off r in
    if cr_size r - cr_rpos r <? n - cached then (None, r) else
    match read_exact (cr_rpos r) (n - cached) (cr_file r) with
    | None => (None, r)
    | Some rest =>
      let out := skipn (cr_off r) (cr_cache r) ++ rest in
      let rpos := cr_rpos r + (n - cached) in
      let left := cr_size r - rpos in
      if cr_csize r <=? left then
        match read_exact rpos (cr_csize r) (cr_file r) with
        | None => (None, mkcr (cr_file r) rpos (cr_csize r) (cr_cache r) (cr_csize r) (cr_size r))
        | Some buf => (Some out, mkcr (cr_file r) (rpos + cr_csize r) (cr_csize r) buf 0 (cr_size r))
        end
      else (Some out, mkcr (cr_file r) rpos (cr_csize r) (cr_cache r) (cr_csize r) (cr_size r))
    end.
(** [CachedReader::read_u32]; cached_reader.rs 110-114. *)
Definition cr_read_u32 (r : creader) : option N * creader :=
  let (b, r') := cr_read 4 r in (option_map le_dec b, r').

(** A client's reads in order, whatever they return. *)
Fixpoint cr_reads (ns : list nat) (r : creader) : list (option bytes) :=
  match ns with [] => [] | n :: ns' => let (b, r') := cr_read n r in b :: cr_reads ns' r' end.

(** * Buffered writer: storage/cached_writer.rs *)

(** [cw_calls] counts calls of [write_all] on the underlying writer, so that a fault
    schedule [nat -> option nat] can say which calls fail: [flt i = Some k] makes call [i]
    write (at most) [k] bytes and then return an error. *)
Record cwriter := mkcw {
  cw_file : bytes; cw_wpos : nat; cw_calls : nat;
  cw_csize : nat; cw_cache : bytes; cw_off : nat; cw_fsize : nat }.
Definition faults := nat -> option nat.
Definition no_faults : faults := fun _ => None.
(** [Write::write_all] on the underlying writer. *)
Definition write_all (flt : faults) (b : bytes) (w : cwriter) : bool * cwriter :=
  match flt (cw_calls w) with
  | None => (true, mkcw (put (cw_wpos w) b (cw_file w)) (cw_wpos w + length b) (S (cw_calls w))
                     (cw_csize w) (cw_cache w) (cw_off w) (cw_fsize w))
  | Some k => let b := firstn k b in
              (false, mkcw (put (cw_wpos w) b (cw_file w)) (cw_wpos w + length b) (S (cw_calls w))
                     (cw_csize w) (cw_cache w) (cw_off w) (cw_fsize w))
  end.
Definition cw_with (w : cwriter) (cache : bytes) (off fsize : nat) : cwriter :=
  mkcw (cw_file w) (cw_wpos w) (cw_calls w) (cw_csize w) cache off fsize.
(** [CachedWriter::new]; cached_writer.rs 35-48, on a fresh empty file. *)
Definition cw_new (cs : nat) : option cwriter :=
  if cs =? 0 then None else Some (mkcw [] 0 0 cs (repeat 0%N cs) 0 0).
(** [flush_cache]; cached_writer.rs 95-102. *)
Definition cw_flush_cache (flt : faults) (w : cwriter) : bool * cwriter :=
  let (ok, w1) := write_all flt (firstn (cw_off w) (cw_cache w)) w in
  if ok then (true, cw_with w1 (repeat 0%N (cw_csize w1)) 0 (cw_fsize w1 + cw_off w1))
  else (false, w1).
(** [flush]; cached_writer.rs 50-59 (the inner [flush] of the writer does not fail here);
    it is also what [Drop] runs, 104-113. *)
Definition cw_flush (flt : faults) (w : cwriter) : bool * cwriter :=
  if 0 <? cw_off w then cw_flush_cache flt w else (true, w).
(** [write]; cached_writer.rs 66-87. *)
Definition cw_write (flt : faults) (b : bytes) (w : cwriter) : bool * cwriter :=
  if length b <=? cw_csize w - cw_off w then
    (true, cw_with w (put (cw_off w) b (cw_cache w)) (cw_off w + length b) (cw_fsize w))
  else
    let (ok, w1) := write_all flt (firstn (cw_off w) (cw_cache w)) w in
    if ok then
      let w1 := cw_with w1 (cw_cache w1) (cw_off w1) (cw_fsize w1 + cw_off w1) in
      let (ok, w2) := write_all flt b w1 in
      if ok then (true, cw_with w2 (repeat 0%N (cw_csize w2)) 0 (cw_fsize w2 + length b))
      else (false, w2)
    else (false, w1).
(** [reset]; cached_writer.rs 89-93. *)
Definition cw_reset (flt : faults) (w : cwriter) : bool * cwriter :=
  let (ok, w1) := cw_flush_cache flt w in
  if ok then (true, mkcw (cw_file w1) 0 (cw_calls w1) (cw_csize w1) (cw_cache w1) (cw_off w1) (cw_fsize w1))
  else (false, w1).

Inductive wop := WWrite (b : bytes) | WFlush | WReset.
Definition cw_op (flt : faults) (o : wop) (w : cwriter) : bool * cwriter :=
  match o with
  | WWrite b => cw_write flt b w
  | WFlush => cw_flush flt w
  | WReset => cw_reset flt w
  end.
(** A client's calls in order, whatever they return; the results are collected. *)
Fixpoint cw_run (flt : faults) (ops : list wop) (w : cwriter) : list bool * cwriter :=
  match ops with
  | [] => ([], w)
  | o :: ops' => let (r, w1) := cw_op flt o w in
                 let (rs, w2) := cw_run flt ops' w1 in (r :: rs, w2)
  end.

(** * Layout writer: storage/disk_index_writer.rs *)

(** [DiskIndexWriterState]; disk_index_writer.rs 29-53.  [lw_mem] is the unread rest of the
    in-memory index file (read through a plain reader). *)
Record lwstate := mklw {
  lw_data : creader; lw_assoc : option creader; lw_mem : bytes;
  lw_dims : N; lw_num_pts : N; lw_max_degree : N; lw_medoid : N; lw_frozen : N;
  lw_node_len : nat; lw_assoc_len : nat }.

Section LayoutWriter.
Variable dbg : bool.      (* debug assertions enabled *)
Variables tsz asz : nat.  (* [size_of::<VectorDataType>()], [size_of::<AssociatedDataType>()] *)
Variables rblk wblk : nat. (* [READ_WRITE_BLOCK_SIZE], twice: 64 MiB in the code *)

(** [DiskIndexWriter::new]; disk_index_writer.rs 96-116: the only check on the block size. *)
Definition writer_new (block_size : nat) : bool := negb (block_size <? meta_size).

(** [open_dataset_reader] 245-266, [open_associated_data_reader] 207-243,
    [open_vamana_reader] 168-205 and the node length 419-423. *)
Definition open_readers (data : bytes) (assoc : option bytes) (mem : bytes) : option lwstate :=
  do dr <- cr_new rblk data;
  let (num_pts, dr) := cr_read_u32 dr in do num_pts <- num_pts;
  let (dims, dr) := cr_read_u32 dr in do dims <- dims;
  do (ar, alen) <-
    match assoc with
    | None => Some (None, 0)
    | Some af =>
      do ar <- cr_new rblk af;
      let (n, ar) := cr_read_u32 ar in do n <- n;
      let (len, ar) := cr_read_u32 ar in do len <- len;
      do _ <- guard (num_pts =? n)%N; Some (Some ar, N.to_nat len)
    end;
  do (_, mem) <- take_le 8 mem;
  do (md, mem) <- take_le 4 mem;
  do (medoid, mem) <- take_le 4 mem;
  do (frozen, mem) <- take_le 8 mem;
  let node_len := (N.to_nat md + 1) * 4 + N.to_nat dims * tsz + alen * asz in
  Some (mklw dr ar mem dims num_pts md medoid frozen node_len alen).

(** [read_neighbors]; disk_index_writer.rs 268-319, into a buffer of [blen] bytes; slice
    bounds checks are the [guard]s. *)
Definition read_neighbors (blen : nat) (st : lwstate) : option (bytes * lwstate) :=
  let buf := repeat 0%N blen in
  let vlen := N.to_nat (lw_dims st) * tsz in
  let (coords, dr) := cr_read vlen (lw_data st) in do coords <- coords;
  do _ <- guard (vlen <=? blen);
  let buf := put 0 coords buf in
  do (num, mem) <- take_le 4 (lw_mem st);
  do _ <- guard (negb dbg || ((0 <? num) && (num <=? lw_max_degree st))%N);
  do _ <- guard (vlen + 4 <=? blen);
  let buf := put vlen (le_enc 4 num) buf in
  do _ <- guard (vlen + 4 + N.to_nat num * 4 <=? blen);
  do (nbrs, mem) <- take (N.to_nat num * 4) mem;
  let buf := put (vlen + 4) nbrs buf in
  match lw_assoc st with
  | None => Some (buf, mklw dr None mem (lw_dims st) (lw_num_pts st) (lw_max_degree st)
                        (lw_medoid st) (lw_frozen st) (lw_node_len st) (lw_assoc_len st))
  | Some ar =>
    do _ <- guard (lw_node_len st <=? blen);
    let (ad, ar) := cr_read (lw_assoc_len st * asz) ar in do ad <- ad;
    let buf := put (lw_node_len st - lw_assoc_len st * asz) ad buf in
    Some (buf, mklw dr (Some ar) mem (lw_dims st) (lw_num_pts st) (lw_max_degree st)
                 (lw_medoid st) (lw_frozen st) (lw_node_len st) (lw_assoc_len st))
  end.

(** The loop over the nodes of one block; disk_index_writer.rs 470-484.  [k] nodes are still
    to be considered, the next is number [j] of the block. *)
Fixpoint block_nodes (k j : nat) (cur : N) (blk : bytes) (st : lwstate) : option (N * bytes * lwstate) :=
  match k with
  | O => Some (cur, blk, st)
  | S k' =>
    if (lw_num_pts st <=? cur)%N then Some (cur, blk, st) else
    do (nb, st) <- read_neighbors (lw_node_len st) st;
    block_nodes k' (S j) (cur + 1)%N (put (j * lw_node_len st) nb blk) st
  end.
(** The loop over the blocks; disk_index_writer.rs 464-488. *)
Fixpoint blocks (bs npb k : nat) (cur : N) (st : lwstate) (w : cwriter) : option (lwstate * cwriter) :=
  match k with
  | O => Some (st, w)
  | S k' =>
    do (cur, blk, st) <- block_nodes npb 0 cur (repeat 0%N bs) st;
    let (ok, w) := cw_write no_faults blk w in
    do _ <- guard ok;
    blocks bs npb k' cur st w
  end.
(** The loop over nodes that span several blocks; disk_index_writer.rs 495-504. *)
Fixpoint multi_nodes (mlen k : nat) (st : lwstate) (w : cwriter) : option (lwstate * cwriter) :=
  match k with
  | O => Some (st, w)
  | S k' =>
    do (nb, st) <- read_neighbors mlen st;
    let (ok, w) := cw_write no_faults nb w in
    do _ <- guard ok;
    multi_nodes mlen k' st w
  end.

Definition div_ceil (a b : nat) : nat := (a + b - 1) / b.
(** [write_header]; disk_index_writer.rs 321-367, and [save_bytes],
    diskann-providers/src/utils/storage_utils.rs 59-72. *)
Definition header_of (bs npb : nat) (fsize : N) (st : lwstate) : gheader :=
  mkgheader
    (mkgmeta (lw_num_pts st) (lw_dims st) (lw_medoid st) (N.of_nat (lw_node_len st)) (N.of_nat npb)
       (lw_frozen st) (if (lw_frozen st =? 1)%N then lw_medoid st else 0%N) fsize
       (N.of_nat (lw_assoc_len st * asz)))
    (N.of_nat bs) (mkversion 1 0).
Definition header_block (h : gheader) : bytes :=
  le_enc 4 (N.of_nat (length (header_to_bytes h))) ++ le_enc 4 1 ++ header_to_bytes h.

(** [create_disk_layout]; disk_index_writer.rs 404-528.  The product and sum sizes are not
    truncated to 64 bits. *)
Definition create_disk_layout (bs : nat) (data : bytes) (assoc : option bytes) (mem : bytes) : option bytes :=
  do _ <- guard (writer_new bs);
  do st <- open_readers data assoc mem;
  let nl := lw_node_len st in
  let npb := bs / nl in
  let n := N.to_nat (lw_num_pts st) in
  let num_blocks := if 0 <? npb then div_ceil n npb else n * div_ceil nl bs in
  do w <- cw_new wblk;
  let (ok, w) := cw_write no_faults (repeat 0%N bs) w in
  do _ <- guard ok;
  do (st, w) <-
    (if 0 <? npb then blocks bs npb num_blocks 0%N st w
     else multi_nodes (div_ceil nl bs * bs) n st w);
  let (ok, w) := cw_flush no_faults w in
  do _ <- guard ok;
  let fsize := N.of_nat ((num_blocks + 1) * bs) in
  Some (put 0 (header_block (header_of bs npb fsize st)) (cw_file w)).
End LayoutWriter.

(** * Sector reader and vertex provider *)

(** [get_header]; search/provider/disk_vertex_provider_factory.rs 54-76, over a reader that
    fails when asked for bytes past the end (aligned_file_reader/reader/storage_provider.rs
    38-48).  [sector] is [DEFAULT_DISK_SECTOR_LEN] = 4096; the header fits in one sector. *)
Definition get_header (sector : nat) (f : bytes) : option gheader :=
  do buf <- read_exact 0 (div_ceil header_size sector * sector) f;
  header_try_from (skipn 8 buf).

(** [DiskVertexProvider] with its [DiskSectorGraph]; disk_vertex_provider.rs 29-68,
    disk_sector_graph.rs 22-52.  [sectors_data] and [vector_buf] are lists of per-node
    slots; element bytes are not interpreted. *)
Record vprov := mkvp {
  vp_vlen : nat; vp_bs : nat; vp_npb : nat; vp_spn : nat; vp_nlen : nat; vp_alen : nat;
  vp_max : nat;
  vp_sectors : list bytes;
  vp_vecs : list bytes;
  vp_adj : list (list N);
  vp_ad : list bytes;
  vp_loaded : list (N * (nat * nat)) }.

(** [DiskVertexProvider::new] 205-229 and [DiskSectorGraph::new], disk_sector_graph.rs 56-90. *)
Definition vp_new (sector tsz max : nat) (h : gheader) : vprov :=
  let bs0 := N.to_nat (h_block_size h) in
  let bs := if version_eqb (h_version h) (mkversion 0 0) || (bs0 =? 0) then sector else bs0 in
  let npb := N.to_nat (m_nodes_per_block (h_meta h)) in
  let nl := N.to_nat (m_node_len (h_meta h)) in
  let spn := if 0 <? npb then 1 else div_ceil nl bs in
  let vlen := N.to_nat (m_dims (h_meta h)) * tsz in
  mkvp vlen bs npb spn nl (N.to_nat (m_assoc_len (h_meta h))) max
    (repeat (repeat 0%N (spn * bs)) max) (repeat (repeat 0%N vlen) max) [] [] [].

(** [node_sector_index]; disk_sector_graph.rs 186-192. *)
Definition node_sector_index (vp : vprov) (v : N) : nat :=
  1 + if vp_npb vp =? 0 then N.to_nat v * vp_spn vp else N.to_nat v / vp_npb vp.
(** [get_node_offset]; disk_sector_graph.rs 174-182. *)
Definition node_offset (vp : vprov) (v : N) : nat :=
  if vp_npb vp =? 0 then 0 else N.to_nat v mod vp_npb vp * vp_nlen vp.

Fixpoint read_sectors (bs len : nat) (f : bytes) (l : list nat) : option (list bytes) :=
  match l with
  | [] => Some []
  | s :: l' => do b <- read_exact (s * bs) len f; do r <- read_sectors bs len f l'; Some (b :: r)
  end.
(** [load_vertices] 113-118, [fetch_nodes] 245-256, [reconfigure] 231-242,
    [clear_before_next_read] 259-264 and [read_graph], disk_sector_graph.rs 113-154. *)
Definition vp_load (f : bytes) (ids : list N) (vp : vprov) : option vprov :=
  let '(max, secs, vecs) :=
    if vp_max vp <? length ids then
      (length ids, repeat (repeat 0%N (vp_spn vp * vp_bs vp)) (length ids),
       repeat (repeat 0%N (vp_vlen vp)) (length ids))
    else (vp_max vp, vp_sectors vp, vp_vecs vp) in
  do _ <- guard (negb (vp_spn vp * vp_bs vp =? 0));
  do new <- read_sectors (vp_bs vp) (vp_spn vp * vp_bs vp) f (map (node_sector_index vp) ids);
  Some (mkvp (vp_vlen vp) (vp_bs vp) (vp_npb vp) (vp_spn vp) (vp_nlen vp) (vp_alen vp) max
          (new ++ skipn (length new) secs) vecs [] [] []).

(** [must_cast_slice] from bytes to little-endian [u32]s. *)
Fixpoint dec_u32s (n : nat) (b : bytes) : list N :=
  match n with O => [] | S n' => le_dec (firstn 4 b) :: dec_u32s n' (skipn 4 b) end.

(** [process_loaded_node]; disk_vertex_provider.rs 120-184, with [node_disk_buf],
    disk_sector_graph.rs 158-170.  Associated data are kept as bytes ([bincode] is not
    modelled). *)
Definition vp_process (v : N) (idx : nat) (vp : vprov) : option vprov :=
  do sec <- nth_error (vp_sectors vp) idx;
  let off := node_offset vp v in
  do node <- read_exact off (vp_nlen vp) sec;
  do vec <- read_exact 0 (vp_vlen vp) node;
  do _ <- guard (idx <? length (vp_vecs vp));
  let rest := skipn (vp_vlen vp) node in
  do num <- read_exact 0 4 rest;
  let num := N.to_nat (le_dec num) in
  do nb <- read_exact 4 (num * 4) rest;
  let data_end := vp_nlen vp - vp_vlen vp in
  do _ <- guard (vp_alen vp <=? data_end);
  do ad <- read_exact (data_end - vp_alen vp) (vp_alen vp) rest;
  let vec_idx := length (vp_loaded vp) in
  Some (mkvp (vp_vlen vp) (vp_bs vp) (vp_npb vp) (vp_spn vp) (vp_nlen vp) (vp_alen vp) (vp_max vp)
          (vp_sectors vp) (set_nth idx vec (vp_vecs vp))
          (vp_adj vp ++ [dec_u32s num nb]) (vp_ad vp ++ [ad])
          ((v, (vec_idx, idx)) :: filter (fun e => negb (fst e =? v)%N) (vp_loaded vp))).

Definition vp_find (v : N) (vp : vprov) : option (nat * nat) :=
  option_map snd (find (fun e => (fst e =? v)%N) (vp_loaded vp)).
(** [get_vector] 75-87, [get_adjacency_list] 89-99, [get_associated_data] 101-111. *)
Definition vp_vector (v : N) (vp : vprov) : option bytes :=
  do (_, idx) <- vp_find v vp; nth_error (vp_vecs vp) idx.
Definition vp_neighbors (v : N) (vp : vprov) : option (list N) :=
  do (i, _) <- vp_find v vp; nth_error (vp_adj vp) i.
Definition vp_data (v : N) (vp : vprov) : option bytes :=
  do (i, _) <- vp_find v vp; nth_error (vp_ad vp) i.

(** A history of provider calls over the file [f]; the first failing call ends it. *)
Inductive vcall := CLoad (ids : list N) | CProcess (v : N) (idx : nat).
Definition vp_op (f : bytes) (o : vcall) (vp : vprov) : option vprov :=
  match o with CLoad ids => vp_load f ids vp | CProcess v idx => vp_process v idx vp end.
Fixpoint vp_run (f : bytes) (ops : list vcall) (vp : vprov) : option vprov :=
  match ops with [] => Some vp | o :: ops' => do vp <- vp_op f o vp; vp_run f ops' vp end.

(** * Node cache: data_model/cache.rs *)

(** [Cache]; cache.rs 13-31.  [nc_vecs] holds one slot per node. *)
Record ncache (V L D : Type) := mknc {
  nc_map : list (N * nat); nc_vecs : list V; nc_lists : list L; nc_data : list D; nc_cap : nat }.
Arguments mknc {V L D}. Arguments nc_map {V L D}. Arguments nc_vecs {V L D}.
Arguments nc_lists {V L D}. Arguments nc_data {V L D}. Arguments nc_cap {V L D}.
Section NodeCache.
Context {V L D : Type}.
Variable vdef : V.
(** [Cache::new]; cache.rs 38-47. *)
Definition nc_new (cap : nat) : ncache V L D := mknc [] (repeat vdef cap) [] [] cap.
Definition nc_find (v : N) (c : ncache V L D) : option nat :=
  option_map snd (find (fun e => (fst e =? v)%N) (nc_map c)).
(** [insert] 88-119 (the dimension check is left out: the vector type has one dimension) and
    [copy_to_cache] 132-143. *)
Definition nc_insert (v : N) (vec : V) (l : L) (d : D) (c : ncache V L D) : option (ncache V L D) :=
  match nc_find v c with
  | Some i => Some (mknc (nc_map c) (set_nth i vec (nc_vecs c)) (nc_lists c ++ [l]) (nc_data c ++ [d]) (nc_cap c))
  | None =>
    if nc_cap c <=? length (nc_map c) then None else
    let i := length (nc_map c) in
    Some (mknc ((v, i) :: nc_map c) (set_nth i vec (nc_vecs c)) (nc_lists c ++ [l]) (nc_data c ++ [d]) (nc_cap c))
  end.
(** [get_vector] 55-61, [get_adjacency_list] 64-73, [get_associated_data] 76-85. *)
Definition nc_vector (v : N) (c : ncache V L D) : option V := do i <- nc_find v c; nth_error (nc_vecs c) i.
Definition nc_list (v : N) (c : ncache V L D) : option L := do i <- nc_find v c; nth_error (nc_lists c) i.
Definition nc_datum (v : N) (c : ncache V L D) : option D := do i <- nc_find v c; nth_error (nc_data c) i.
(** Insertions in order; the first one refused ends the run. *)
Fixpoint nc_inserts (l : list (N * (V * L * D))) (c : ncache V L D) : option (ncache V L D) :=
  match l with
  | [] => Some c
  | (v, (vec, ls, d)) :: l' => do c <- nc_insert v vec ls d c; nc_inserts l' c
  end.
End NodeCache.
