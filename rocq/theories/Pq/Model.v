(** Model of product quantization: the block-transposed matrix
    (diskann-quantization/src/multi_vector/block_transposed.rs), the pivot tables
    (diskann-quantization/src/product/tables/) and the distances computed from them
    (diskann-providers/src/model/pq/, diskann-disk/src/search/pq/).

    [None] is a panic or an access outside an allocation.  The f32 operations are an argument. *)
From Coq Require Import List PeanoNat Bool.
From Verif.Simd Require Import Model.
Require Verif.Work.Model.
Import ListNotations.

(** The operations of [Simd.Model.fops] and the special values used here. *)
Record xops (F : Type) := mkX {
  fo : fops F;
  inf : F; ninf : F;              (* f32::INFINITY, f32::NEG_INFINITY *)
  fbig : F;                       (* f32::MAX *)
  two : F;
  is_fin : F -> bool;             (* f32::is_finite *)
  is_infin : F -> bool            (* f32::is_infinite *)
}.
Arguments mkX {F}. Arguments fo {F}. Arguments inf {F}. Arguments ninf {F}. Arguments fbig {F}.
Arguments two {F}. Arguments is_fin {F}. Arguments is_infin {F}.

(** [&l[a..b]]. *)
Definition slice {A} (a b : nat) (l : list A) : option (list A) :=
  if (a <=? b) && (b <=? length l) then Some (firstn (b - a) (skipn a l)) else None.
(** Run [f] on every element of a list, in order; the first panic ends it. *)
Fixpoint each {A B} (f : A -> option B) (l : list A) : option (list B) :=
  match l with
  | [] => Some []
  | a :: l => do b <- f a; do r <- each f l; Some (b :: r)
  end.
Fixpoint enumerate_ {A} (i : nat) (l : list A) : list (nat * A) :=
  match l with [] => [] | a :: l => (i, a) :: enumerate_ (S i) l end.
Definition enumerate {A} (l : list A) : list (nat * A) := enumerate_ 0 l.

(** A dense row-major matrix (diskann-utils/src/views.rs 173-219). *)
Record matrix (A : Type) := mkM { m_data : list A; m_rows : nat; m_cols : nat }.
Arguments mkM {A}. Arguments m_data {A}. Arguments m_rows {A}. Arguments m_cols {A}.
(** [MatrixBase::try_from]; views.rs 212-219. *)
Definition matrix_try {A} (data : list A) (nrows ncols : nat) : option (matrix A) :=
  if length data =? nrows * ncols then Some (mkM data nrows ncols) else None.
(** [row]; views.rs 292-. *)
Definition m_row {A} (m : matrix A) (i : nat) : option (list A) :=
  if i <? m_rows m then slice (i * m_cols m) (i * m_cols m + m_cols m) (m_data m) else None.

(** A strided view (diskann-utils/src/strided.rs 88-148); [linear_length] 51-53; [try_shrink_from]
    123-148, where both the assertion and the error end in a panic for the caller here. *)
Record strided (A : Type) := mkS { s_data : list A; s_rows : nat; s_cols : nat; s_stride : nat }.
Arguments mkS {A}. Arguments s_data {A}. Arguments s_rows {A}. Arguments s_cols {A}. Arguments s_stride {A}.
Definition linear_length (nrows ncols stride : nat) : nat := (Nat.max nrows 1 - 1) * stride + Nat.min nrows 1 * ncols.
Definition shrink_from {A} (data : list A) (nrows ncols stride : nat) : option (strided A) :=
  if negb (ncols <=? stride) then None else
  if linear_length nrows ncols stride <=? length data
  then Some (mkS (firstn (linear_length nrows ncols stride) data) nrows ncols stride) else None.
Definition s_row {A} (v : strided A) (i : nat) : option (list A) :=
  slice (i * s_stride v) (i * s_stride v + s_cols v) (s_data v).
Definition s_get {A} (v : strided A) (i j : nat) : option A := do r <- s_row v i; nth_error r j.

(** ** The block-transposed matrix (block_transposed.rs) *)

(** [padded_ncols], 97-99; [compute_capacity], 111-113; [linear_index], 131-140. *)
Definition div_ceil (a b : nat) : nat := (a + b - 1) / b.
Definition padded_ncols (pack ncols : nat) : nat := div_ceil ncols pack * pack.
Definition bt_capacity (group pack nrows ncols : nat) : nat := div_ceil nrows group * group * padded_ncols pack ncols.
Definition linear_index (group pack row col ncols : nat) : nat :=
  let pncols := padded_ncols pack ncols in
  let block := row / group in
  let row_in_block := row mod group in
  block * group * pncols + col / pack * group * pack + row_in_block * pack + col mod pack.
(** [from_strided]; 1156-1204.  The allocation is written in physical order, so it is given here as
    the list of its elements; a skipped position keeps the default value. *)
Definition bt_from {A} (default : A) (group pack : nat) (v : strided A) : option (list A) :=
  let nrows := s_rows v in
  let ncols := s_cols v in
  do bs <- each (fun block =>
    do cs <- each (fun cg =>
      do rs <- each (fun rib =>
        let row := block * group + rib in
        if row <? nrows then
          each (fun p => let col := cg * pack + p in if col <? ncols then s_get v row col else Some default) (seq 0 pack)
        else Some (repeat default pack)) (seq 0 group);
      Some (concat rs)) (seq 0 (padded_ncols pack ncols / pack));
    Some (concat cs)) (seq 0 (div_ceil nrows group));
  Some (concat bs).
(** [index]; 1222-1230. *)
Definition bt_get {A} (group pack nrows ncols : nat) (data : list A) (row col : nat) : option A :=
  if (row <? nrows) && (col <? ncols) then nth_error data (linear_index group pack row col ncols) else None.

(** ** Chunk (tables/transposed/pivots.rs) *)

Section Pq.
  Context {F : Type} (x : xops F).
  Notation o := (fo x).
  Notation z0 := (zero o).

  (** [f32s], the registers of 8 lanes, are lists. *)
  Definition splat (v : F) : list F := repeat v 8.
  Definition load8 (l : list F) (off : nat) : option (list F) := slice off (off + 8) l.
  (** [load_simd_first]: lanes beyond [n] are zero. *)
  Definition load8_first (l : list F) (off n : nat) : option (list F) :=
    do v <- slice off (off + n) l; Some (pad z0 8 v).
  Definition vfma : list F -> list F -> list F -> list F := map3 (fma o).
  Definition vadd : list F -> list F -> list F := map2 (add o).
  Definition vsub : list F -> list F -> list F := map2 (sub o).
  Definition vmul : list F -> list F -> list F := map2 (mul o).
  (** [Mask::keep_first(n).select(a, b)]. *)
  Definition keep_first (n : nat) (a b : list F) : list F := firstn n a ++ skipn n b.

  (** [square_norm]; diskann-quantization/src/algorithms/kmeans/common.rs 9-66. *)
  Definition square_norm (v : list F) : option F :=
    let len := length v in
    let n32 := len / 32 in
    do s <- for_range n32 (fun i '(s0, s1, s2, s3) =>
      do v0 <- load8 v (32 * i); do v1 <- load8 v (32 * i + 8);
      do v2 <- load8 v (32 * i + 16); do v3 <- load8 v (32 * i + 24);
      Some (vfma v0 v0 s0, vfma v1 v1 s1, vfma v2 v2 s2, vfma v3 v3 s3)) (splat z0, splat z0, splat z0, splat z0);
    let '(s0, s1, s2, s3) := s in
    let s := if n32 =? 0 then splat z0 else vadd (vadd s0 s1) (vadd s2 s3) in
    let n8 := (len - 32 * n32) / 8 in
    do s <- for_range n8 (fun i s => do w <- load8 v (32 * n32 + 8 * i); Some (vfma w w s)) s;
    let i := 32 * n32 + 8 * n8 in
    let remainder := len - i in
    do s <- (if negb (remainder =? 0) then do w <- load8_first v i remainder; Some (vfma w w s) else Some s);
    Some (sum_tree (add o) z0 s).

  (** [Chunk]; 147-152.  [groupsize] 16 with packing 1, [batchsize] 4, 157-165. *)
  Record chunk := mkC { c_data : list F; c_rows : nat; c_cols : nat; c_norms : list F }.
  (** [Chunk::new]; 224-236.  The error for an empty view is [Some None]. *)
  Definition chunk_new (v : strided F) : option (option chunk) :=
    if (s_cols v =? 0) || (s_rows v =? 0) then Some None else
    do norms <- each (fun i => do r <- s_row v i; square_norm r) (seq 0 (s_rows v));
    do data <- bt_from z0 16 1 v;
    Some (Some (mkC data (s_rows v) (s_cols v) norms)).
  Definition full_blocks (c : chunk) : nat := c_rows c / 16.
  Definition num_blocks (c : chunk) : nat := div_ceil (c_rows c) 16.
  Definition remainder (c : chunk) : nat := c_rows c mod 16.

  (** [ComputeKernel]: [SquaredL2], [InnerProduct], [InnerProductMathematical]; 905-971. *)
  Inductive kernel := KL2 | KIP | KMath.
  Definition kstep (k : kernel) (q : F) (y acc : list F) : list F :=
    match k with
    | KL2 => let d := vsub y (splat q) in vfma d d acc
    | KIP => vfma (splat (neg o q)) y acc
    | KMath => vfma (splat q) y acc
    end.
  (** [compute_in_block]; 785-819. *)
  Definition compute_in_block (c : chunk) (k : kernel) (q : list F) (block : nat) : option (list F * list F) :=
    if negb (length q =? c_cols c) then None else
    if negb (block <? num_blocks c) then None else
    let base := 16 * c_cols c * block in
    fold_left (fun acc (p : nat * F) =>
      let '(i, qi) := p in
      do a <- acc;
      do a0 <- load8 (c_data c) (base + 16 * i);
      do a1 <- load8 (c_data c) (base + (16 * i + 8));
      Some (kstep k qi a0 (fst a), kstep k qi a1 (snd a))) (enumerate q) (Some (splat z0, splat z0)).
  (** [compute_in_remainder]; 827-841, for [KMath]. *)
  Definition compute_in_remainder (c : chunk) (q : list F) : option (list F * list F) :=
    do d <- compute_in_block c KMath q (full_blocks c);
    let r := remainder c in
    let padding := splat (ninf x) in
    Some (if r <? 8 then (keep_first (r mod 8) (fst d) padding, padding)
          else (fst d, keep_first (r mod 8) (snd d) padding)).
  (** [load_norms], 714-732; [load_remainder_norms], 738-783. *)
  Definition load_norms (c : chunk) (block : nat) : option (list F * list F) :=
    do a <- load8 (c_norms c) (16 * block); do b <- load8 (c_norms c) (16 * block + 8); Some (a, b).
  Definition load_remainder_norms (c : chunk) : option (list F * list F) :=
    let r := remainder c in
    let first := r mod 8 in
    let ptr := 16 * full_blocks c in
    if r <? 8 then do a <- load8_first (c_norms c) ptr first; Some (a, splat z0)
    else do a <- load8 (c_norms c) ptr; do b <- load8_first (c_norms c) (ptr + 8) first; Some (a, b).

  (** The tracked minima: one distance and one index per lane.  An index is a [u32] in the code, and
      [u32::MAX], here [None], stands for "no index": the model assumes fewer than 2^32 - 1 centers.

      [update_tracking], 863-903: [d1 < d0] takes the new entry. *)
  Definition track := list (F * option nat).
  Definition update_tracking (t0 t1 : track) : track :=
    map2 (fun a b : F * option nat => if lt o (fst b) (fst a) then b else a) t0 t1.
  Definition with_index (base : nat) (d : list F) : track :=
    List.combine d (map (fun i => Some (base + i)) (seq 0 8)).
  Definition track0 : track := repeat (inf x, None) 8.
  (** The reduction over lanes; 322-341, 682-701.  [start] is [f32::MAX] in [find_closest] and
      [f32::INFINITY] in the batched version. *)
  Definition finish (start : F) (t : track) : option nat :=
    let '(d, i) := fold_left (fun (m e : F * option nat) => if lt o (fst e) (fst m) then e else m) t (start, None) in
    if is_fin x d then i else None.
  (** [find_closest]; 243-342.  The result [None] is [CompressionResult::err()]. *)
  Definition find_closest (c : chunk) (q : list F) : option (option nat) :=
    if negb (length q =? c_cols c) then None else
    do t <- for_range (full_blocks c) (fun block t =>
      do d <- compute_in_block c KMath q block;
      do n <- load_norms c block;
      let d0 := vsub (fst n) (vadd (fst d) (fst d)) in
      let d1 := vsub (snd n) (vadd (snd d) (snd d)) in
      let t := update_tracking t (with_index (16 * block) d0) in
      Some (update_tracking t (with_index (16 * block + 8) d1))) track0;
    do t <- (if negb (remainder c =? 0) then
      do d <- compute_in_remainder c q;
      do n <- load_remainder_norms c;
      let d0 := vsub (fst n) (vadd (fst d) (fst d)) in
      let d1 := vsub (snd n) (vadd (snd d) (snd d)) in
      let t := update_tracking t (with_index (16 * full_blocks c) d0) in
      Some (update_tracking t (with_index (16 * full_blocks c + 8) d1)) else Some t);
    Some (finish (fbig x) t).
  (** [find_closest_batch]; 344-709: four rows are processed at once with separate accumulators and
      tracking; here one row of the four. *)
  Definition batch_row (c : chunk) (q : list F) : option (option nat) :=
    let dim := c_cols c in
    if negb (length q =? dim) then None else
    let step block j (a : list F * list F) : option (list F * list F) :=
      do qj <- nth_error q j;
      let index := 16 * (block * dim + j) in
      do b0 <- load8 (c_data c) index;
      do b1 <- load8 (c_data c) (index + 8);
      Some (vfma (splat qj) b0 (fst a), vfma (splat qj) b1 (snd a)) in
    do t <- for_range (num_blocks c) (fun i t =>
      let unrolled := dim / 2 in
      do d <- for_range unrolled (fun j a => do a <- step i (2 * j) a; step i (2 * j + 1) a) (splat z0, splat z0);
      do d <- (if negb (2 * unrolled =? dim) then step i (2 * unrolled) d else Some d);
      do dn <- (if negb (remainder c =? 0) && (i + 1 =? num_blocks c) then
        let infinity := splat (ninf x) in
        let lo := Nat.min (remainder c) 8 in
        let hi := remainder c - lo in
        do n <- load_remainder_norms c;
        Some (keep_first lo (fst d) infinity, keep_first hi (snd d) infinity, n)
        else do n <- load_norms c i; Some (d, n));
      let '(d, n) := dn in
      let d0 := vsub (fst n) (vmul (splat (two x)) (fst d)) in
      let d1 := vsub (snd n) (vmul (splat (two x)) (snd d)) in
      Some (update_tracking t (update_tracking (with_index (16 * i) d0) (with_index (16 * i + 8) d1)))) track0;
    Some (finish (inf x) t).
  Definition find_closest_batch (c : chunk) (rows : list (list F)) : option (list (option nat)) :=
    if negb (length rows =? 4) then None else each (batch_row c) rows.

  (** [process_into]; 1002-1055.  [store8] writes the first [n] lanes at [off]. *)
  Definition store8 (off n : nat) (v l : list F) : option (list F) :=
    if off + n <=? length l then Some (firstn off l ++ firstn n v ++ skipn (off + n) l) else None.
  Definition process_chunk (c : chunk) (k : kernel) (from into : list F) : option (list F) :=
    if negb (length from =? c_cols c) then None else
    if negb (length into =? c_rows c) then None else
    for_range (num_blocks c) (fun block into =>
      do d <- compute_in_block c k from block;
      if negb (remainder c =? 0) && (block =? full_blocks c) then
        let keep_lo := Nat.min (remainder c) 8 in
        let keep_hi := remainder c - keep_lo in
        do into <- store8 (16 * full_blocks c) keep_lo (fst d) into;
        if negb (keep_hi =? 0) then store8 (16 * full_blocks c + 8) keep_hi (snd d) into else Some into
      else
        do into <- store8 (16 * block) 8 (fst d) into;
        store8 (16 * block + 8) 8 (snd d) into) into.

  (** ** TransposedTable (tables/transposed/table.rs) *)

  Record ttable := mkT { t_pivots : list chunk; t_offsets : list nat; t_dim : nat; t_largest : nat; t_ncenters : nat }.
  Inductive terr := DimMismatch | PivotError (problem : nat) | PivotsEmpty.
  Inductive result (E A : Type) := Ok (a : A) | Err (e : E).
  Arguments Ok {E A}. Arguments Err {E A}.
  (** [from_parts]; 73-117.  [offsets] has been accepted by [ChunkOffsets::new] with dimension
      [dim]. *)
  Definition from_parts (pivots : matrix F) (offsets : list nat) (dim : nat) : option (result terr ttable) :=
    if negb (m_cols pivots =? dim) then Some (Err DimMismatch) else
    let fix go (is : list nat) : option (result terr (list chunk * nat)) :=
      match is with
      | [] => Some (Ok ([], 0))
      | i :: is =>
        do r <- Work.Model.offsets_at offsets i;
        let '(start, stop) := r in
        do data <- slice start (length (m_data pivots)) (m_data pivots);
        do v <- shrink_from data (m_rows pivots) (stop - start) dim;
        do c <- chunk_new v;
        match c with
        | None => Some (Err (PivotError i))
        | Some c =>
          do rest <- go is;
          Some (match rest with Ok (cs, largest) => Ok (c :: cs, Nat.max (stop - start) largest) | Err e => Err e end)
        end
      end in
    do r <- go (seq 0 (length offsets - 1));
    Some (match r with Ok (cs, largest) => Ok (mkT cs offsets dim largest (m_rows pivots)) | Err e => Err e end).
  Definition t_nchunks (t : ttable) : nat := length (t_offsets t) - 1.

  Inductive cerr := CannotCompressToByte | InvalidInputDim | InvalidOutputDim | UnequalRows
                  | InfinityOrNaN (chunk row : nat).
  (** Fill a buffer chunk by chunk; an error leaves the rest as it was. *)
  Fixpoint fill (f : nat -> option (result cerr nat)) (i : nat) (to : list nat) : option (result cerr unit * list nat) :=
    match to with
    | [] => Some (Ok tt, [])
    | b :: to =>
      do r <- f i;
      match r with
      | Err e => Some (Err e, b :: to)
      | Ok v => do rest <- fill f (S i) to; Some (fst rest, (v mod 256) :: snd rest)
      end
    end.
  (** [compress_into] of one vector; 382-402.  Returns the output buffer with the result. *)
  Definition t_compress (t : ttable) (from : list F) (to : list nat) : option (result cerr unit * list nat) :=
    if 256 <? t_ncenters t then Some (Err CannotCompressToByte, to) else
    if negb (length from =? t_dim t) then Some (Err InvalidInputDim, to) else
    if negb (length to =? t_nchunks t) then Some (Err InvalidOutputDim, to) else
    fill (fun i =>
      do c <- nth_error (t_pivots t) i;
      do r <- Work.Model.offsets_at (t_offsets t) i;
      do q <- slice (fst r) (snd r) from;
      do v <- find_closest c q;
      Some (match v with Some v => Ok v | None => Err (InfinityOrNaN i 0) end)) 0 to.

  (** [compress_batch]; 155-266: the calls of the delegate, in order: (row, chunk, result).  In the
      code each call is made as soon as its result is known; the kernels have no effects. *)
  Definition batch_calls {T} (into : T -> F) (t : ttable) (data : matrix T) : option (list (nat * nat * option nat)) :=
    if negb (m_cols data =? t_dim t) then None else
    let nrows := m_rows data in
    let ncols := m_cols data in
    do per_chunk <- each (fun p : nat * chunk =>
      let '(i, c) := p in
      do r <- Work.Model.offsets_at (t_offsets t) i;
      let '(start, stop) := r in
      let d := stop - start in
      if d =? 0 then Some [] else
      if negb (4 * d <=? t_largest t * 4) then None else
      let pack row :=
        let linear_start := row * ncols + start in
        do s <- slice linear_start (linear_start + d) (m_data data); Some (map into s) in
      do batches <- each (fun b =>
        let row_start := 4 * b in
        let row_end := Nat.min nrows (row_start + 4) in
        let rows := seq row_start (row_end - row_start) in
        if row_end - row_start =? 4 then
          do qs <- each pack rows;
          do rs <- find_closest_batch c qs;
          Some (List.combine (List.combine rows (repeat i 4)) rs)
        else
          each (fun row => do q <- pack row; do v <- find_closest c q; Some (row, i, v)) rows)
        (seq 0 (div_ceil nrows 4));
      Some (concat batches)) (enumerate (t_pivots t));
    Some (concat per_chunk).
  Definition write (pos v : nat) (l : list nat) : list nat := firstn pos l ++ v :: skipn (S pos) l.
  (** The batched [compress_into]; 465-515. *)
  Fixpoint deliver (ncols : nat) (calls : list (nat * nat * option nat)) (to : list nat) : result cerr unit * list nat :=
    match calls with
    | [] => (Ok tt, to)
    | (row, i, None) :: _ => (Err (InfinityOrNaN i row), to)
    | (row, i, Some v) :: calls => deliver ncols calls (write (row * ncols + i) (v mod 256) to)
    end.
  Definition t_compress_batch {T} (into : T -> F) (t : ttable) (from : matrix T) (to : matrix nat)
    : option (result cerr unit * list nat) :=
    if 256 <? t_ncenters t then Some (Err CannotCompressToByte, m_data to) else
    if negb (m_cols from =? t_dim t) then Some (Err InvalidInputDim, m_data to) else
    if negb (m_cols to =? t_nchunks t) then Some (Err InvalidOutputDim, m_data to) else
    if negb (m_rows from =? m_rows to) then Some (Err UnequalRows, m_data to) else
    do calls <- batch_calls into t from;
    Some (deliver (m_cols to) calls (m_data to)).

  (** [process_into]; 285-313.  The rows of the output. *)
  Definition t_process (t : ttable) (k : kernel) (query : list F) (partials : matrix F) : option (list F) :=
    if negb (length query =? t_dim t) then None else
    if negb (m_cols partials =? t_ncenters t) then None else
    if negb (m_rows partials =? t_nchunks t) then None else
    do rows <- each (fun p : nat * chunk =>
      let '(i, c) := p in
      do r <- Work.Model.offsets_at (t_offsets t) i;
      do q <- slice (fst r) (snd r) query;
      do out <- m_row partials i;
      process_chunk c k q out) (enumerate (t_pivots t));
    Some (concat rows).

  (** ** BasicTable (tables/basic.rs) *)

  Context (a : arch).
  (** [SquaredL2], [InnerProduct] of diskann-vector on f32 slices; the latter is negated
      (implementations.rs 292-314). *)
  Definition l2 (u v : list F) : option F := f_distance o (fun e => e) (fun e => e) z0 z0 L2 a F32 u v.
  Definition ip (u v : list F) : option F :=
    do d <- f_distance o (fun e => e) (fun e => e) z0 z0 IP a F32 u v; Some (neg o d).

  Record btable := mkB { b_pivots : matrix F; b_offsets : list nat; b_dim : nat }.
  (** [new]; 65-83.  The dimensions of the offsets are given as [dim]. *)
  Definition basic_new (pivots : matrix F) (offsets : list nat) (dim : nat) : result terr btable :=
    if negb (m_cols pivots =? dim) then Err DimMismatch else
    if m_rows pivots =? 0 then Err PivotsEmpty else Ok (mkB pivots offsets dim).
  Definition b_ncenters (t : btable) : nat := m_rows (b_pivots t).
  Definition b_nchunks (t : btable) : nat := length (b_offsets t) - 1.
  (** [compress_into]; 161-205.  [usize::MAX as u8] is 255. *)
  Definition b_compress (t : btable) (from : list F) (to : list nat) : option (result cerr unit * list nat) :=
    if 256 <? b_ncenters t then Some (Err CannotCompressToByte, to) else
    if negb (length from =? b_dim t) then Some (Err InvalidInputDim, to) else
    if negb (length to =? b_nchunks t) then Some (Err InvalidOutputDim, to) else
    fill (fun i =>
      do r <- Work.Model.offsets_at (b_offsets t) i;
      do q <- slice (fst r) (snd r) from;
      do m <- for_range (b_ncenters t) (fun index m =>
        do row <- m_row (b_pivots t) index;
        do p <- slice (fst r) (snd r) row;
        do d <- l2 q p;
        Some (if lt o d (fst m) then (d, Some index) else m)) (inf x, None);
      Some (if is_infin x (fst m) then Err (InfinityOrNaN i 0)
            else Ok (match snd m with Some v => v | None => 255 end))) 0 to.

  (** ** FixedChunkPQTable (diskann-providers/src/model/pq/fixed_chunk_pq_table.rs)

      The table is a [btable]. *)

  (** [direct_distance_impl], 35-60, with the slices of query and pivots it feeds to the resumable
      kernel; [self_distance], 285-325, when both sides are codes. *)
  Definition pivot_slice (t : btable) (code : list nat) (i : nat) : option (list F) :=
    do start <- nth_error (b_offsets t) i;
    do stop <- nth_error (b_offsets t) (i + 1);
    do c <- nth_error code i;
    slice (m_cols (b_pivots t) * c + start) (m_cols (b_pivots t) * c + stop) (m_data (b_pivots t)).
  Definition query_slice (t : btable) (query : list F) (i : nat) : option (list F) :=
    do start <- nth_error (b_offsets t) i;
    do stop <- nth_error (b_offsets t) (i + 1);
    slice start stop query.
  Definition direct_parts (t : btable) (query : list F) (code : list nat) : option (list (list F * list F)) :=
    each (fun i => do q <- query_slice t query i; do p <- pivot_slice t code i; Some (q, p)) (seq 0 (b_nchunks t)).
  Definition self_parts (t : btable) (left right : list nat) : option (list (list F * list F)) :=
    if negb (length left =? b_nchunks t) then None else
    if negb (length right =? b_nchunks t) then None else
    each (fun i => do p <- pivot_slice t left i; do r <- pivot_slice t right i; Some (p, r)) (seq 0 (b_nchunks t)).
  (** [ResumableCosine], diskann-vector/src/distance/simd.rs 3163-3195. *)
  Fixpoint resume_cos (c : cfg) (acc : cacc) (parts : list (list F * list F)) : option cacc :=
    match parts with
    | [] => Some acc
    | (u, v) :: parts =>
      do s <- simd_acc (cos_schema o (fun e => e) (fun e => e) z0 z0 c) u v;
      resume_cos c (cos_combine o acc s) parts
    end.
  Definition resumable_cosine (parts : list (list F * list F)) : option F :=
    let c := cos_cfg a F32 in
    let z := repeat z0 (c_width c) in
    do acc <- resume_cos c (z, z, z) parts;
    let '(nx, ny, xy) := cos_parts o acc in Some (cos_final o nx ny xy).
  Inductive metric := ML2 | MIP | MCos | MCosNorm.
  (** [l2_distance], [cosine_distance], [inner_product], [cosine_normalized_distance] and the [qq_]
      versions, 223-283, 333-372, chosen by [VTable::new], dynamic.rs 116-140. *)
  Definition distance_of (m : metric) (parts : list (list F * list F)) : option F :=
    let res k := resumable_distance o (fun e => e) (fun e => e) z0 z0 k a F32 parts in
    match m with
    | ML2 => res L2
    | MIP => do d <- res IP; Some (neg o d)
    | MCos | MCosNorm => do d <- resumable_cosine parts; Some (sub o (one o) d)
    end.
  Definition distance_fn (m : metric) (t : btable) (query : list F) (code : list nat) : option F :=
    do p <- direct_parts t query code; distance_of m p.
  Definition distance_fn_qq (m : metric) (t : btable) (left right : list nat) : option F :=
    do p <- self_parts t left right; distance_of m p.
  (** [DistanceComputer]; dynamic.rs 178-215. *)
  Definition dc_full (m : metric) (t : btable) (query : list F) (code : list nat) : option F :=
    if negb (length query =? b_dim t) then None else
    if negb (length code =? b_nchunks t) then None else distance_fn m t query code.
  Definition dc_codes (m : metric) (t : btable) (left right : list nat) : option F :=
    if negb (length left =? b_nchunks t) then None else
    if negb (length right =? b_nchunks t) then None else distance_fn_qq m t left right.
  (** [inflate_vector]; 377-400. *)
  Definition inflate (t : btable) (code : list nat) : option (list F) :=
    if negb (length code =? b_nchunks t) then None else
    fold_left (fun out i =>
      do out <- out;
      do start <- nth_error (b_offsets t) i;
      do stop <- nth_error (b_offsets t) (i + 1);
      do dst <- slice start stop out;
      do p <- pivot_slice t code i;
      Some (firstn start out ++ p ++ skipn stop out)) (seq 0 (length code)) (Some (repeat z0 (b_dim t))).

  (** [populate_chunk_distances_impl]; 152-192: [None] inside is the error for a short buffer. *)
  Definition set_at (pos : nat) (v : F) (l : list F) : option (list F) :=
    if pos <? length l then Some (firstn pos l ++ v :: skipn (S pos) l) else None.
  Definition populate (dist : list F -> list F -> option F) (t : btable) (query scratch : list F) : option (option (list F)) :=
    let centers := b_ncenters t in
    if length scratch <? b_nchunks t * centers then Some None else
    do r <- for_range centers (fun c s =>
      for_range (b_nchunks t) (fun i s =>
        do q <- query_slice t query i;
        do start <- nth_error (b_offsets t) i;
        do stop <- nth_error (b_offsets t) (i + 1);
        do p <- slice (m_cols (b_pivots t) * c + start) (m_cols (b_pivots t) * c + stop) (m_data (b_pivots t));
        do d <- dist q p;
        set_at (i * centers + c) d s) s) scratch;
    Some (Some r).
  (** [pq_dist_lookup_single]; 82-98: [chunks(num_centers)] zipped with the code. *)
  Fixpoint lookup_from (code : list nat) (dists : list F) (n : nat) (acc : F) : option F :=
    match code, dists with
    | c :: code, _ :: _ => do d <- nth_error (firstn n dists) c; lookup_from code (skipn n dists) n (add o acc d)
    | _, _ => Some acc
    end.
  Definition lookup_single (code : list nat) (dists : list F) (n : nat) : option F :=
    if n =? 0 then None else lookup_from code dists n z0.
  (** [QueryComputer]; dynamic.rs 64-100 with l2.rs 45-105, innerproduct.rs, cosine.rs.  [None] inside
      is the error for a query of the wrong length.  The buffer comes from a pool and holds anything
      ([garbage]). *)
  Inductive computer := QTable (table : list F) | QCos (query : list F).
  Definition query_computer (m : metric) (t : btable) (garbage : list F) (query : list F) : option (option computer) :=
    if negb (length query =? b_dim t) then Some None else
    match m with
    | MCos => Some (Some (QCos query))
    | MIP => do r <- populate ip t query (firstn (b_nchunks t * b_ncenters t) garbage);
             Some (option_map QTable r)
    | ML2 | MCosNorm => do r <- populate l2 t query (firstn (b_nchunks t * b_ncenters t) garbage);
             Some (option_map QTable r)
    end.
  Definition query_eval (c : computer) (t : btable) (code : list nat) : option F :=
    if negb (length code =? b_nchunks t) then None else
    match c with
    | QTable table => lookup_single code table (b_ncenters t)
    | QCos query => distance_fn MCos t query code
    end.

  (** [pq_dist_lookup], 484-560, with [add_distance_for_a_tile], 587-613; [NUM_PQ_CENTROIDS] is 256.
      [None] inside is an error. *)
  Definition tile (coords : matrix nat) (dists : matrix F) (tile_idx cur : nat) (out : list F) : option (list F) :=
    each (fun p : nat * F =>
      let '(point, d) := p in
      for_range cur (fun offset d =>
        let i := tile_idx * 16 + offset in
        do c <- nth_error (m_data coords) (point * m_cols coords + i);
        do row <- slice (i * m_cols dists) (i * m_cols dists + m_cols dists) (m_data dists);
        do v <- nth_error row c;
        Some (add o d v)) d) (enumerate out).
  Definition pq_dist_lookup (coords : list nat) (n_pts nchunks : nat) (pq_dists dists_out : list F)
    : option (option (list F)) :=
    match matrix_try coords n_pts nchunks with
    | None => Some None
    | Some coords =>
      do s <- slice 0 (256 * nchunks) pq_dists;
      match matrix_try s nchunks 256 with
      | None => Some None
      | Some dists =>
        if length dists_out <? n_pts then Some None else
        let out := repeat z0 n_pts in
        let full_tiles := m_rows dists / 16 in
        do out <- for_range full_tiles (fun t out => tile coords dists t 16 out) out;
        let rem := m_rows dists - 16 * full_tiles in
        do out <- (if negb (rem =? 0) then tile coords dists full_tiles rem out else Some out);
        Some (Some (out ++ skipn n_pts dists_out))
      end
    end.
  (** [aggregate_coords]; 617-645.  [chunks_mut(0)] panics. *)
  Definition aggregate (ids : list nat) (all : list nat) (nchunks : nat) (scratch : list nat) : option (option (list nat)) :=
    if length scratch <? length ids * nchunks then Some None else
    if nchunks =? 0 then None else
    do rows <- each (fun id => slice (id * nchunks) (id * nchunks + nchunks) all) ids;
    Some (Some (concat rows ++ skipn (length ids * nchunks) scratch)).
  (** [compute_pq_distance]; 651-671.  Returns the two scratch buffers. *)
  Definition compute_pq_distance (ids : list nat) (nchunks : nat) (table : list F) (pq_data : list nat)
      (coord_scratch : list nat) (dist_scratch : list F) : option (option (list nat * list F)) :=
    do cs <- aggregate ids pq_data nchunks coord_scratch;
    match cs with
    | None => Some None
    | Some cs =>
      do s <- slice 0 (length ids * nchunks) cs;
      do r <- pq_dist_lookup s (length ids) nchunks table dist_scratch;
      Some (option_map (fun r => (cs, r)) r)
    end.
  (** [quantizer_preprocess], diskann-disk/src/search/pq/quantizer_preprocess.rs 17-63: fills the
      table in the scratch, whose length is [ncenters * nchunks] (pq_scratch.rs 40-63,
      disk_provider.rs 708-713), then computes the distances of [ids].  The metric is L2 unless it is
      the inner product. *)
  Definition disk_table (t : ttable) (m : metric) (query scratch : list F) : option (list F) :=
    let n := t_ncenters t * t_nchunks t in
    do dst <- slice 0 n scratch;
    do out <- t_process t (match m with MIP => KIP | _ => KL2 end) query (mkM dst (t_nchunks t) (t_ncenters t));
    Some (out ++ skipn n scratch).
  Definition disk_preprocess (t : ttable) (m : metric) (query : list F) (ids pq_data : list nat)
      (table_scratch : list F) (coord_scratch : list nat) (dist_scratch : list F)
    : option (option (list F * (list nat * list F))) :=
    do table <- disk_table t m query table_scratch;
    do r <- compute_pq_distance ids (t_nchunks t) table pq_data coord_scratch dist_scratch;
    Some (option_map (fun r => (table, r)) r).

  (** ** Two versions of a table (distance/multi.rs) *)

  (** [MultiTable]; 87-150.  Versions are natural numbers. *)
  Inductive multi := One (t : btable) (version : nat) | Two (new old : btable) (new_version old_version : nat).
  Definition multi_two (new old : btable) (nv ov : nat) : option multi := if nv =? ov then None else Some (Two new old nv ov).
  (** Full precision and code; 226-256.  The inner [None] is the answer [None]. *)
  Definition md_full (m : metric) (mt : multi) (query : list F) (code : list nat) (v : nat) : option (option F) :=
    let some r := do d <- r; Some (Some d) in
    match mt with
    | One t version => if negb (version =? v) then Some None else some (distance_fn m t query code)
    | Two new old nv ov =>
      if ov =? v then some (distance_fn m old query code)
      else if nv =? v then some (distance_fn m new query code) else Some None
    end.
  (** Two codes; 280-345. *)
  Definition md_codes (m : metric) (mt : multi) (l : list nat) (lv : nat) (r : list nat) (rv : nat) : option (option F) :=
    let some r := do d <- r; Some (Some d) in
    match mt with
    | One t version => if negb (lv =? version) || negb (rv =? version) then Some None else some (distance_fn_qq m t l r)
    | Two new old nv ov =>
      if lv =? ov then
        if rv =? ov then some (distance_fn_qq m old l r)
        else if rv =? nv then do full <- inflate old l; some (distance_fn m new full r)
        else Some None
      else if lv =? nv then
        if rv =? ov then do full <- inflate old r; some (distance_fn m new full l)
        else if rv =? nv then some (distance_fn_qq m new l r)
        else Some None
      else Some None
    end.
End Pq.
Arguments Ok {E A}. Arguments Err {E A}.
