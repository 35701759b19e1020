(** Model of the sharded build of large disk indexes: assigning every vector to its closest
    shards (diskann-disk/src/utils/partition.rs, math_util.rs), copying the vectors of a shard
    (diskann-disk/src/build/builder/core.rs and diskann-providers/src/utils/sampling.rs) and
    merging the graphs of the shards (core.rs).

    Files are byte strings; the buffered reader and writer are those of [Disk].  Building the
    graph of a shard is not part of this model: the merge takes the files it left. *)
From Coq Require Import List NArith ZArith Bool.
From Verif.Lib Require Import Base Lists Bytes.
From Verif.Disk Require Import Model.
From Verif.GraphFile Require Import Model.
Import ListNotations.

(** * The closest centers of a vector; math_util.rs *)

Section centers.
Context {D : Type}.
(** [<] on distances and [f32::MAX]. *)
Context (lt : D -> D -> bool) (dmax : D).
(** The order in which a [BinaryHeap] of (center, distance) pairs, pushed in the given order,
    is emptied by [pop]. *)
Context (heap : list (nat * D) -> list (nat * D)).

(** The loop for [k == 1]; math_util.rs 205-220. *)
Fixpoint argmin (ds : list D) (j best : nat) (min : D) : nat :=
  match ds with
  | [] => best
  | d :: ds' => if lt d min then argmin ds' (S j) j d else argmin ds' (S j) best min
  end.
(** [compute_closest_centers_in_block] and [compute_closest_centers] for one vector, given its
    distances to all centers (the row of [dist_matrix]); math_util.rs 138-246, 257-404.  [k] is
    not 0, and by the check the heap does not run empty. *)
Definition closest (k : nat) (ds : list D) : option (list nat) :=
  if length ds <? k then None
  else if k =? 1 then Some [argmin ds 0 0 dmax]
  else Some (firstn k (map fst (heap (combine (seq 0 (length ds)) ds)))).
End centers.

(** [estimate_initial_partition_count], after the division and the conversion to usize;
    partition.rs 218-224. *)
Definition initial_parts (c : N) : N :=
  let c := N.max 3 c in if (c mod 2 =? 0)%N then (c + 1)%N else c.

(** The loop of [find_partition_size]; partition.rs 105-190.  [over p] says whether, with [p]
    parts, the largest estimate exceeds the budget; [fuel] bounds the number of rounds. *)
Fixpoint find_parts (fuel : nat) (over : N -> bool) (p : N) : option N :=
  match fuel with
  | O => None
  | S fuel' => if over p then find_parts fuel' over (p + 2)%N else Some p
  end.

(** * Writing through the buffered writer *)

(** The file left by a [CachedWriter] with a cache of [cs] bytes, after the calls [ops] and
    [drop]. *)
Definition saved (cs : nat) (ops : list wop) : bytes :=
  match cw_new cs with
  | None => []
  | Some w => cw_file (snd (cw_flush no_faults (snd (cw_run no_faults ops w))))
  end.

(** * Assigning vectors to shards *)

(** Add a call to the calls made on the writer of a shard; [None]: the index is out of range. *)
Fixpoint add_op (s : nat) (o : wop) (ws : list (list wop)) : option (list (list wop)) :=
  match ws, s with
  | [], _ => None
  | w :: ws', O => Some ((w ++ [o]) :: ws')
  | w :: ws', S s' => option_map (cons w) (add_op s' o ws')
  end.
Fixpoint add_count (s : nat) (cs : list N) : list N :=
  match cs, s with
  | [], _ => []
  | c :: cs', O => (c + 1)%N :: cs'
  | c :: cs', S s' => c :: add_count s' cs'
  end.
(** The loop over the [k_base] closest shards of a vector; partition.rs 340-345. *)
Fixpoint assign_point (id : N) (shards : list nat) (ws : list (list wop)) (cs : list N) : option (list (list wop) * list N) :=
  match shards with
  | [] => Some (ws, cs)
  | s :: shards' =>
    match add_op s (WWrite (le_enc 4 id)) ws with
    | None => None
    | Some ws => assign_point id shards' ws (add_count s cs)
    end
  end.
Section assign.
(** [near id v]: the closest shards of vector [id] with the bytes [v]; [None] is an error. *)
Context (near : nat -> bytes -> option (list nat)).
(** The loop over the vectors of a block; partition.rs 312-347.  All vectors of a block are
    converted and their shards computed before the first of them is assigned. *)
Fixpoint near_block (id : nat) (vs : list bytes) : option (list (list nat)) :=
  match vs with
  | [] => Some []
  | v :: vs' => do s <- near id v; do rest <- near_block (S id) vs'; Some (s :: rest)
  end.
Fixpoint assign_block (id : nat) (ss : list (list nat)) (ws : list (list wop)) (cs : list N) : option (list (list wop) * list N) :=
  match ss with
  | [] => Some (ws, cs)
  | s :: ss' => do (ws, cs) <- assign_point (N.of_nat id) s ws cs; assign_block (S id) ss' ws cs
  end.
(** The loop over the blocks; partition.rs 302-347.  [(block + 1) * block_size] is computed in
    u32: beyond, debug builds panic there and release builds panic when slicing. *)
Fixpoint assign_blocks (fuel : nat) (block bs n : N) (width : nat) (r : creader) (ws : list (list wop)) (cs : list N)
  : lres (list (list wop) * list N) :=
  match fuel with
  | O => LOk (ws, cs)
  | S fuel' =>
    let start := (block * bs)%N in
    if (2 ^ 32 <=? (block + 1) * bs)%N then LPanic else
    let stop := N.min ((block + 1) * bs) n in
    let cur := N.to_nat (stop - start) in
    match cr_read (cur * width) r with
    | (None, _) => LErr
    | (Some b, r) =>
      match near_block (N.to_nat start) (rows cur width b) with
      | None => LErr
      | Some ss =>
        match assign_block (N.to_nat start) ss ws cs with
        | None => LPanic
        | Some (ws, cs) => assign_blocks fuel' (block + 1)%N bs n width r ws cs
        end
      end
    end
  end.
(** The last loop; partition.rs 350-359.  [shard_counts] are i32 and are cast to u32, which
    gives the count modulo 2^32 (in debug builds they panic at 2^31). *)
Definition close_shards (ws : list (list wop)) (cs : list N) : list (list wop) :=
  map (fun p => fst p ++ [WReset; WWrite (le_enc 4 (snd p)); WFlush]) (combine ws cs).
(** [shard_data_into_clusters_only_ids]; partition.rs 236-367: the calls made on the writer of
    every shard.  [rcs] is the cache size of the reader, [tsz] the size of an element. *)
Definition shard_data (rcs : nat) (tsz : nat) (dim : N) (parts : nat) (data : bytes) : lres (list (list wop)) :=
  match cr_new rcs data with
  | None => LErr
  | Some r =>
    match cr_read_u32 r with
    | (None, _) => LErr
    | (Some n, r) =>
      match cr_read_u32 r with
      | (None, _) => LErr
      | (Some d, r) =>
        if negb (d =? dim mod 2 ^ 32)%N then LErr else
        let ws := repeat [WWrite (le_enc 4 0); WWrite (le_enc 4 1)] parts in
        let bs := if (n <=? 10000)%N then n else 10000%N in
        if (bs =? 0)%N then LPanic else
        let blocks := ((n + bs - 1) / bs)%N in
        try (ws, cs) <- assign_blocks (N.to_nat blocks) 0 bs n (N.to_nat dim * tsz) r ws (repeat 0%N parts);
        LOk (close_shards ws cs)
      end
    end
  end.
End assign.

(** * Reading some vectors of a file; sampling.rs *)

(** [SampleVectorReader], whether direct or buffered; sampling.rs 35-45.  [vr_pos] is the
    position of the underlying reader. *)
Record vreader := mkvr { vr_file : bytes; vr_pos : nat; vr_npts : N; vr_dim : N; vr_cur : N }.
(** [new]; sampling.rs 116-160. *)
Definition vr_new (tsz : nat) (f : bytes) : option vreader :=
  do (n, d, _) <- read_metadata f;
  do _ <- guard (N.of_nat (length f) =? 8 + n * d * N.of_nat tsz)%N;
  Some (mkvr f 8 n d 0).
Section read_vectors.
Context {St : Type}.
(** The closure: its new state, and whether it succeeded. *)
Context (process : St -> bytes -> St * bool).
(** [read_vectors]; sampling.rs 169-205.  The last component is false after an error. *)
Fixpoint read_vectors (tsz : nat) (ids : list N) (r : vreader) (st : St) : vreader * St * bool :=
  match ids with
  | [] => (r, st, true)
  | idx :: ids' =>
    if (vr_npts r <=? idx)%N then (r, st, false) else
    let len := N.to_nat (vr_dim r) * tsz in
    let off := ((Z.of_N idx - Z.of_N (vr_cur r)) * Z.of_nat len)%Z in
    let pos := (Z.of_nat (vr_pos r) + off)%Z in
    if (pos <? 0)%Z then (r, st, false) else
    let pos := Z.to_nat pos in
    match read_exact pos len (vr_file r) with
    | None => (mkvr (vr_file r) pos (vr_npts r) (vr_dim r) (vr_cur r), st, false)
    | Some b =>
      let (st, ok) := process st b in
      if ok then read_vectors tsz ids' (mkvr (vr_file r) (pos + len) (vr_npts r) (vr_dim r) (idx + 1)%N) st
      else (mkvr (vr_file r) (pos + len) (vr_npts r) (vr_dim r) (vr_cur r), st, false)
    end
  end.
End read_vectors.

(** A client's calls in order, whatever they return; each starts from the state [st]. *)
Fixpoint read_calls {St} (process : St -> bytes -> St * bool) (tsz : nat) (calls : list (list N)) (r : vreader) (st : St) : list (St * bool) :=
  match calls with
  | [] => []
  | ids :: calls' => let '(r', st', ok) := read_vectors process tsz ids r st in (st', ok) :: read_calls process tsz calls' r' st
  end.

(** [read_idmap], core.rs 468-471, and the ids of [retrieve_shard_data_from_ids], 155-159: all
    elements of the matrix. *)
Definition read_idmap (M : N) (f : bytes) : option (list N) :=
  do (n, d, rs) <- read_bin M 4 f;
  Some (dec_u32s (N.to_nat (n * d)) (concat rs)).

(** [retrieve_shard_data_from_ids]; core.rs 145-197: the calls made on the writer of the data of
    the shard. *)
Definition shard_vectors (M : N) (tsz : nat) (data ids_file : bytes) : option (list wop) :=
  do ids <- read_idmap M ids_file;
  do r <- vr_new tsz data;
  let '(_, (ops, n), ok) := read_vectors (fun st b => ((fst st ++ [WWrite b], (snd st + 1)%N), true)) tsz ids r
      ([WWrite (le_enc 4 0); WWrite (le_enc 4 (vr_dim r))], 0%N) in
  if ok then Some (ops ++ [WFlush; WReset; WWrite (le_enc 4 n)]) else None.

(** * Merging the graphs of the shards; core.rs 233-466 *)

(** [sort_unstable_by] on (node, shard); equal elements cannot be told apart. *)
Definition pair_leb (a b : N * nat) : bool :=
  ((fst a <? fst b) || ((fst a =? fst b) && (N.of_nat (snd a) <=? N.of_nat (snd b))))%N.
Fixpoint insert_pair (a : N * nat) (l : list (N * nat)) : list (N * nat) :=
  match l with
  | [] => [a]
  | b :: l' => if pair_leb a b then a :: l else b :: insert_pair a l'
  end.
Definition sort_pairs (l : list (N * nat)) : list (N * nat) := fold_right insert_pair [] l.

(** node -> shards, core.rs 262-272. *)
Definition node_shard (maps : list (list N)) : list (N * nat) :=
  sort_pairs (concat (map (fun p => map (fun v => (v, fst p)) (snd p)) (combine (seq 0 (length maps)) maps))).

Fixpoint open_readers (rcs : nat) (fs : list bytes) : option (list creader) :=
  match fs with
  | [] => Some []
  | f :: fs' => do r <- cr_new rcs f; do rs <- open_readers rcs fs'; Some (r :: rs)
  end.
(** The expected file size and the degree of every shard, 305-311. *)
Fixpoint skip_widths (rs : list creader) : option (list creader) :=
  match rs with
  | [] => Some []
  | r :: rs' =>
    match cr_read 8 r with
    | (None, _) => None
    | (Some _, r) =>
      match cr_read_u32 r with
      | (None, _) => None
      | (Some _, r) => do rs <- skip_widths rs'; Some (r :: rs)
      end
    end
  end.
(** The renamed medoids, 323-340: only the one of the last shard is written.  The assertion
    about frozen points is made in debug builds only and left out. *)
Fixpoint read_medoids (maps : list (list N)) (rs : list creader) : lres (list creader * list wop) :=
  match maps, rs with
  | ids :: maps', r :: rs' =>
    match cr_read_u32 r with
    | (None, _) => LErr
    | (Some m, r) =>
      match cr_read 8 r with
      | (None, _) => LErr
      | (Some _, r) =>
        match nth_error ids (N.to_nat m) with
        | None => LPanic
        | Some v =>
          try (rs, ops) <- read_medoids maps' rs';
          LOk (r :: rs, match maps' with [] => [WWrite (le_enc 4 v)] | _ => ops end)
        end
      end
    end
  | _, _ => LOk ([], [])
  end.

(** Renaming the neighbors of a node and collecting the new ones, 393-400.  [seen] is
    [nbr_set]. *)
Definition set_seen (x : N) (b : bool) (seen : N -> bool) : N -> bool := fun y => if (y =? x)%N then b else seen y.
Fixpoint rename (ids : list N) (nodes : N) (nbrs : list N) (seen : N -> bool) (final : list N) : option ((N -> bool) * list N) :=
  match nbrs with
  | [] => Some (seen, final)
  | nbr :: nbrs' =>
    do x <- nth_error ids (N.to_nat nbr);
    do _ <- guard (x <? nodes)%N;
    if seen x then rename ids nodes nbrs' seen final
    else rename ids nodes nbrs' (set_seen x true seen) (final ++ [x])
  end.

Section merge.
Context {Rng : Type}.
(** [shuffle]; it changes the state of the generator. *)
Context (shuffle : Rng -> list N -> Rng * list N).

(** Writing the neighbors of a node, 355-369 and 405-420. *)
Definition emit (maxd : N) (rng : Rng) (final : list N) (ops : list wop) (size : N) : Rng * list N * list wop * N :=
  let (rng, final) := shuffle rng final in
  let n := N.min (N.of_nat (length final)) maxd in
  (rng, final,
   ops ++ [WWrite (le_enc 4 n); WWrite (concat (map (le_enc 4) (firstn (N.to_nat n) final)))],
   (size + (4 + n * 4))%N).

Fixpoint set_reader (s : nat) (r : creader) (rs : list creader) : list creader :=
  match rs, s with
  | [], _ => []
  | _ :: rs', O => r :: rs'
  | r' :: rs', S s' => r' :: set_reader s' r rs'
  end.

Record mstate := mkms { ms_cur : N; ms_seen : N -> bool; ms_final : list N; ms_rng : Rng;
  ms_readers : list creader; ms_ops : list wop; ms_size : N }.

(** One round of the loop over [node_shard], 352-402. *)
Definition merge_step (maps : list (list N)) (nodes maxd : N) (p : N * nat) (m : mstate) : lres mstate :=
  let (node, shard) := p in
  let m :=
    if (ms_cur m <? node)%N then
      let '(rng, final, ops, size) := emit maxd (ms_rng m) (ms_final m) (ms_ops m) (ms_size m) in
      mkms node (fold_left (fun seen x => set_seen x false seen) final (ms_seen m)) [] rng (ms_readers m) ops size
    else m in
  match nth_error (ms_readers m) shard, nth_error maps shard with
  | Some r, Some ids =>
    match cr_read_u32 r with
    | (None, _) => LErr
    | (Some num, r) =>
      if (num =? 0)%N then
        LOk (mkms (ms_cur m) (ms_seen m) (ms_final m) (ms_rng m) (set_reader shard r (ms_readers m)) (ms_ops m) (ms_size m))
      else
        match cr_read (N.to_nat num * 4) r with
        | (None, _) => LErr
        | (Some b, r) =>
          match rename ids nodes (dec_u32s (N.to_nat num) b) (ms_seen m) (ms_final m) with
          | None => LPanic
          | Some (seen, final) =>
            LOk (mkms (ms_cur m) seen final (ms_rng m) (set_reader shard r (ms_readers m)) (ms_ops m) (ms_size m))
          end
        end
    end
  | _, _ => LPanic
  end.
Fixpoint merge_loop (maps : list (list N)) (nodes maxd : N) (ps : list (N * nat)) (m : mstate) : lres mstate :=
  match ps with
  | [] => LOk m
  | p :: ps' => try m <- merge_step maps nodes maxd p m; merge_loop maps nodes maxd ps' m
  end.

Fixpoint read_idmaps (M : N) (fs : list bytes) : option (list (list N)) :=
  match fs with
  | [] => Some []
  | f :: fs' => do m <- read_idmap M f; do ms <- read_idmaps M fs'; Some (m :: ms)
  end.

(** [merge_shards]: the calls made on the writer of the merged graph.  [rcs] is the cache size
    of the readers. *)
Definition merge_shards (rcs : nat) (M : N) (rng : Rng) (map_files graph_files : list bytes) (maxd : N) : lres (list wop) :=
  try maps <- lopt (read_idmaps M map_files);
  let top := fold_right N.max 0%N (concat maps) in
  if (2 ^ 32 <=? top + 1)%N then LPanic else
  let nodes := (top + 1)%N in
  try rs <- lopt (open_readers rcs graph_files);
  try rs <- lopt (skip_widths rs);
  try (rs, med) <- read_medoids maps rs;
  let ops := [WWrite (le_enc 8 24); WWrite (le_enc 4 maxd)] ++ med ++ [WWrite (le_enc 8 0)] in
  try m <- merge_loop maps nodes maxd (node_shard maps) (mkms 0 (fun _ => false) [] rng rs ops 24);
  let '(_, _, ops, size) := emit maxd (ms_rng m) (ms_final m) (ms_ops m) (ms_size m) in
  LOk (ops ++ [WReset; WWrite (le_enc 8 size)]).
End merge.
