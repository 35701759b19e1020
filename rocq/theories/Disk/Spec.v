(** Specification side of the disk properties (C38-C41, C48).  Nothing here depends on how the
    model works; only the type of provider calls is shared with it. *)
From Coq Require Import List NArith Bool.
From Verif.Lib Require Import Base Lists Bytes.
From Verif.Disk Require Import Model.
Import ListNotations.

(** ** A plain file read front to back: read number [i] asks for [n_i] bytes.  A read past
    the end fails and does not move the position. *)
Fixpoint plain_reads (pos : nat) (ns : list nat) (f : bytes) : list (option bytes) :=
  match ns with
  | [] => []
  | n :: ns' => if pos + n <=? length f
                then Some (firstn n (skipn pos f)) :: plain_reads (pos + n) ns' f
                else None :: plain_reads pos ns' f
  end.

(** ** An unbuffered file with a cursor: content and position. *)
Inductive fop := FWrite (b : bytes) | FFlush | FRewind.
Definition plain_op (o : fop) (s : bytes * nat) : bytes * nat :=
  match o with
  | FWrite b => (firstn (snd s) (fst s) ++ b ++ skipn (snd s + length b) (fst s), snd s + length b)
  | FFlush => s
  | FRewind => (fst s, 0)
  end.
Definition plain_run (ops : list fop) : bytes * nat := fold_left (fun s o => plain_op o s) ops ([], 0).
Fixpoint written (ops : list fop) : bytes :=
  match ops with
  | [] => []
  | FWrite b :: ops' => b ++ written ops'
  | _ :: ops' => written ops'
  end.
Definition is_rewind (o : fop) : bool := match o with FRewind => true | _ => false end.

(** ** What a disk index is built from. *)

(** A [.bin] file: number of rows, row width, rows. *)
Definition bin_file (width : N) (rows : list bytes) : bytes :=
  le_enc 4 (N.of_nat (length rows)) ++ le_enc 4 width ++ concat rows.
(** One adjacency list of a graph file: length, then ids. *)
Definition list_bytes (l : list N) : bytes :=
  le_enc 4 (N.of_nat (length l)) ++ concat (map (le_enc 4) l).
(** A graph file: size, maximum degree, start point, number of frozen points, lists. *)
Definition graph_file (size md medoid frozen : N) (adj : list (list N)) : bytes :=
  le_enc 8 size ++ le_enc 4 md ++ le_enc 4 medoid ++ le_enc 8 frozen ++ concat (map list_bytes adj).

(** The content of an index: vectors, neighbour lists and, optionally, associated data. *)
Record content := mkcontent {
  c_dims : N;                (* elements per vector *)
  c_vecs : list bytes;
  c_adj : list (list N);
  c_max_degree : N; c_medoid : N; c_frozen : N; c_gsize : N;
  c_assoc : option (N * list bytes) }.  (* elements per node, rows *)
Definition assoc_width (asz : nat) (c : content) : nat :=
  match c_assoc c with Some (k, _) => N.to_nat k * asz | None => 0 end.
(** Bytes per node on disk. *)
Definition node_bytes_len (tsz asz : nat) (c : content) : nat :=
  (N.to_nat (c_max_degree c) + 1) * 4 + N.to_nat (c_dims c) * tsz + assoc_width asz c.

(** The input files are well formed and agree with each other; [dbg]: every node has a
    neighbour (checked by debug builds only). *)
Record content_ok (dbg : bool) (tsz asz : nat) (c : content) : Prop := {
  co_pts : u32_ok (N.of_nat (length (c_vecs c)));
  co_dims : u32_ok (c_dims c);
  co_vecs : Forall (fun v => length v = N.to_nat (c_dims c) * tsz) (c_vecs c);
  co_adj_n : length (c_adj c) = length (c_vecs c);
  co_adj : Forall (fun l => (N.of_nat (length l) <= c_max_degree c)%N /\ Forall u32_ok l
                            /\ (dbg = true -> l <> [])) (c_adj c);
  co_md : u32_ok (c_max_degree c);
  co_medoid : u32_ok (c_medoid c);
  co_frozen : u64_ok (c_frozen c);
  co_gsize : u64_ok (c_gsize c);
  co_assoc : match c_assoc c with
             | None => True
             | Some (k, rows) => u32_ok k /\ length rows = length (c_vecs c)
                                 /\ Forall (fun r => length r = N.to_nat k * asz) rows
             end }.

(** The data of node [v]. *)
Definition vector_of (c : content) (v : N) : option bytes := nth_error (c_vecs c) (N.to_nat v).
Definition neighbors_of (c : content) (v : N) : option (list N) := nth_error (c_adj c) (N.to_nat v).
Definition assoc_of (c : content) (v : N) : option bytes :=
  match c_assoc c with
  | None => Some []
  | Some (_, rows) => nth_error rows (N.to_nat v)
  end.

(** ** Using a vertex provider: load a batch, then process its entries in any order (as
    reads complete), each vertex at most once per batch. *)
(** [batch]: the ids of the current batch; [done]: those processed. *)
Fixpoint good_use (n : nat) (batch done : list N) (ops : list vcall) : Prop :=
  match ops with
  | [] => True
  | CLoad ids :: ops' => Forall (fun v => N.to_nat v < n) ids /\ good_use n ids [] ops'
  | CProcess v idx :: ops' => nth_error batch idx = Some v /\ ~ In v done /\ good_use n batch (v :: done) ops'
  end.
(** The vertices processed since the last load. *)
Fixpoint processed (done : list N) (ops : list vcall) : list N :=
  match ops with
  | [] => done
  | CLoad _ :: ops' => processed [] ops'
  | CProcess v _ :: ops' => processed (v :: done) ops'
  end.
