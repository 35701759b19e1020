(** Model of the in-memory tables of diskann-providers (src/model/graph/provider/async_):
    the delete table (table_delete_provider.rs), the aligned vector store (common.rs) and the
    neighbor provider with its disk adaptor (simple_neighbor_provider.rs).

    [None] as a result stands for a panic. *)
From Coq Require Import List NArith PeanoNat Bool.
From Verif.Lib Require Import Base Lists.
From Verif.Adjacency Require Import Model.
Import ListNotations.

(** * Delete table *)

(** [TableDeleteProviderAsync]; table_delete_provider.rs 12-15.  The [u32] words as [N]. *)
Record dtab := mkdt { dt_words : list N; dt_max : nat }.

(** [new]; 30-37. *)
Definition dt_new (max : nat) : dtab := mkdt (repeat 0%N ((max + 31) / 32)) max.
(** [1 << bit]; 44, 52, 60. *)
Definition dt_mask (id : nat) : N := N.shiftl 1 (N.of_nat (id mod 32)).
(** [is_deleted]; 40-46. *)
Definition dt_is_deleted (t : dtab) (id : nat) : option bool :=
  if id <? dt_max t then
    match nth_error (dt_words t) (id / 32) with
    | Some w => Some (negb (N.land w (dt_mask id) =? 0)%N)
    | None => None
    end
  else None.
(** [delete]; 48-54: one [fetch_or]. *)
Definition dt_delete (t : dtab) (id : nat) : option dtab :=
  if id <? dt_max t then
    match nth_error (dt_words t) (id / 32) with
    | Some w => Some (mkdt (set_nth (id / 32) (N.lor w (dt_mask id)) (dt_words t)) (dt_max t))
    | None => None
    end
  else None.
(** [undelete]; 56-62: one [fetch_and] with the complemented mask. *)
Definition dt_undelete (t : dtab) (id : nat) : option dtab :=
  if id <? dt_max t then
    match nth_error (dt_words t) (id / 32) with
    | Some w => Some (mkdt (set_nth (id / 32) (N.land w (N.lxor (dt_mask id) 4294967295)) (dt_words t)) (dt_max t))
    | None => None
    end
  else None.

(** Calls, and the atomic steps each consists of.  [clear], 64-68, is a loop of [undelete]s. *)
Inductive dcall := CDelete (id : nat) | CUndelete (id : nat) | CQuery (id : nat) | CClear.
Inductive dstep := SDelete (id : nat) | SUndelete (id : nat) | SQuery (id : nat).
Definition steps_of (max : nat) (c : dcall) : list dstep :=
  match c with
  | CDelete i => [SDelete i] | CUndelete i => [SUndelete i] | CQuery i => [SQuery i]
  | CClear => map SUndelete (seq 0 max)
  end.
(** Outcome of an atomic step. *)
Inductive dout := Done | Answer (b : bool) | Panic.
Definition do_step (t : dtab) (s : dstep) : dtab * dout :=
  match s with
  | SDelete i => match dt_delete t i with Some t' => (t', Done) | None => (t, Panic) end
  | SUndelete i => match dt_undelete t i with Some t' => (t', Done) | None => (t, Panic) end
  | SQuery i => match dt_is_deleted t i with Some b => (t, Answer b) | None => (t, Panic) end
  end.

(** Threads running calls on a shared table.  A thread is the call in progress with the
    steps left, and the calls to come.  Every schedule of threads is a run; each step emits
    one event.  The words are single atomics, and each is modelled as sequentially
    consistent. *)
Definition dthread : Type := option (dcall * list dstep) * list dcall.
Inductive devent :=
  | EStart (th : nat) (c : dcall) | EStep (th : nat) (s : dstep) (o : dout) | EEnd (th : nat) (c : dcall).
Definition dt_sched (t : dtab) (ths : list dthread) (k : nat) : dtab * list dthread * list devent :=
  match nth_error ths k with
  | Some (None, c :: rest) => (t, set_nth k (Some (c, steps_of (dt_max t) c), rest) ths, [EStart k c])
  | Some (Some (c, s :: ss), rest) =>
    let (t', o) := do_step t s in (t', set_nth k (Some (c, ss), rest) ths, [EStep k s o])
  | Some (Some (c, []), rest) => (t, set_nth k (None, rest) ths, [EEnd k c])
  | _ => (t, ths, [])
  end.
Fixpoint dt_run (t : dtab) (ths : list dthread) (sched : list nat) : list devent :=
  match sched with
  | [] => []
  | k :: sched => let '(t, ths, ev) := dt_sched t ths k in ev ++ dt_run t ths sched
  end.
Definition dt_history (max : nat) (progs : list (list dcall)) (sched : list nat) : list devent :=
  dt_run (dt_new max) (map (fun p => (None, p)) progs) sched.

(** * Aligned vector store *)

(** [AlignedMemoryVectorStore]; common.rs 90-96, without its elements.  [av_count] is the
    length of the allocation in elements. *)
Record avs := mkavs { av_count : N; av_max : N; av_start : N; av_dim : N; av_pad : N }.
(** [pointer::align_offset(64)] for an element size dividing 64: the number of elements to
    skip, or [usize::MAX] ([umax]) if the address is not a multiple of the element size. *)
Definition align_offset (umax addr esz : N) : N :=
  if (addr mod 64 =? 0)%N then 0
  else if (addr mod esz =? 0)%N then ((64 - addr mod 64) / esz)%N else umax.
(** [padded_vector_dim]; common.rs 107-117. *)
Definition padded_dim (esz dim : N) : N :=
  let extra := (esz * dim mod 64)%N in
  if (extra =? 0)%N then dim else (dim + (64 - extra) / esz)%N.
(** [with_capacity]; common.rs 104-138.  [addr] is the address of the allocation.  A
    zero-sized element panics ([64 % 0]); overflow of [usize] is not modelled. *)
Definition with_capacity (umax addr esz maxv dim : N) : option avs :=
  if (esz =? 0)%N then None else
  if negb (64 mod esz =? 0)%N then None else
  let p := padded_dim esz dim in
  let extra := (esz * dim mod 64)%N in
  if negb (extra =? 0)%N && negb ((64 - extra) mod esz =? 0)%N then None else
  if negb (p * esz mod 64 =? 0)%N then None else
  Some (mkavs (maxv * p + (64 / esz - 1)) maxv (align_offset umax addr esz) dim p).
(** [get_slice], [get_mut_slice]; common.rs 158-191: first element and number of elements of
    the slice handed out; no bound is checked besides [index]. *)
Definition av_slice (s : avs) (index : N) : option (N * N) :=
  if (index <? av_max s)%N then Some (index * av_pad s + av_start s, av_dim s)%N else None.

(** * Neighbor provider *)

(** [SimpleNeighborProviderAsync]; simple_neighbor_provider.rs 19-27: one word list with a
    row of [dim] words per point, [pad] words apart.  Words are taken as unbounded numbers.
    The per-point locks are modelled by taking each call as one step. *)
Record nprov := mknp { np_mem : list nat; np_size : nat; np_start : nat; np_dim : nat; np_pad : nat; np_extra : nat }.

(** [new]; 30-49.  [width] stands for [(max_degree as f32 * graph_slack_factor) as usize] and
    [addr] for the address of the allocation, in words. *)
Definition np_new (addr max_points starts width : nat) : nprov :=
  let dim := width + 1 in
  let pad := if dim mod 16 =? 0 then dim else dim + (16 - dim mod 16) in
  let size := max_points + starts in
  mknp (repeat 0 (size * pad + 15)) size (if addr mod 16 =? 0 then 0 else 16 - addr mod 16) dim pad starts.
(** Offset of a row; common.rs 158-191. *)
Definition np_row (p : nprov) (id : nat) : nat := id * np_pad p + np_start p.
(** Replacing the words of memory from [off] on. *)
Definition mem_put (off : nat) (l mem : list nat) : list nat :=
  firstn off mem ++ l ++ skipn (off + length l) mem.
Definition np_with (p : nprov) (mem : list nat) : nprov :=
  mknp mem (np_size p) (np_start p) (np_dim p) (np_pad p) (np_extra p).

(** The words of a row: the slice [get_slice] / [get_mut_slice] of the aligned store hands out. *)
Definition np_words (p : nprov) (id : nat) : list nat :=
  firstn (np_dim p) (skipn (np_row p id) (np_mem p)).
(** Storing the words of a row back. *)
Definition np_store (p : nprov) (id : nat) (raw : list nat) : nprov :=
  np_with p (mem_put (np_row p id) raw (np_mem p)).

(** [get_slice] and [get_neighbors_sync]; 57-64, 88-104.  The length word indexes the row. *)
Definition np_get (p : nprov) (id : nat) : option (list nat) :=
  if id <? np_size p then
    let s := np_words p id in
    match nth_error s (np_dim p - 1) with
    | Some len => if len <=? length s then Some (firstn len s) else None
    | None => None
    end
  else None.
(** [set_neighbors_sync]; 66-86. *)
Definition np_set (p : nprov) (id : nat) (l : list nat) : option nprov :=
  if negb (length l <? np_dim p) then None else
  if id <? np_size p then
    let raw := l ++ skipn (length l) (np_words p id) in
    Some (np_store p id (set_nth (np_dim p - 1) (length l) raw))
  else None.
(** The loop of [append_vector_sync]; 117-134. *)
Fixpoint append_loop (dim : nat) (raw : list nat) (new_len : nat) (new : list nat) : option (list nat * nat) :=
  match new with
  | [] => Some (raw, new_len)
  | x :: new' =>
    match contains_simd Idu32 (firstn new_len raw) x with
    | None => None
    | Some true => append_loop dim raw new_len new'
    | Some false =>
      if new_len <? dim - 1 then append_loop dim (set_nth new_len x raw) (new_len + 1) new'
      else Some (raw, new_len)
    end
  end.
(** [append_vector_sync]; 106-140. *)
Definition np_append (p : nprov) (id : nat) (new : list nat) : option nprov :=
  if id <? np_size p then
    let raw := np_words p id in
    match nth_error raw (np_dim p - 1) with
    | None => None
    | Some len =>
      if length raw <? len then None else
      match append_loop (np_dim p) raw len new with
      | None => None
      | Some (raw, new_len) => Some (np_store p id (set_nth (np_dim p - 1) new_len raw))
      end
    end
  else None.

Inductive nop := NSet (id : nat) (l : list nat) | NAppend (id : nat) (l : list nat) | NGet (id : nat).
Inductive nout := NDone | NList (l : list nat) | NPanic.
Definition np_op (p : nprov) (o : nop) : nprov * nout :=
  match o with
  | NSet id l => match np_set p id l with Some p' => (p', NDone) | None => (p, NPanic) end
  | NAppend id l => match np_append p id l with Some p' => (p', NDone) | None => (p, NPanic) end
  | NGet id => match np_get p id with Some l => (p, NList l) | None => (p, NPanic) end
  end.
Fixpoint np_run (p : nprov) (ops : list nop) : nprov * list nout :=
  match ops with
  | [] => (p, [])
  | o :: ops => let (p, r) := np_op p o in let (p, rs) := np_run p ops in (p, r :: rs)
  end.

(** [DiskAdaptor]: [get_adjacency_list] and [total]; 325-345.  What [save_graph] asks for when
    the graph is exported for the disk index. *)
Definition da_get (p : nprov) (inmem actual : nat) (id : nat) : option (list nat) :=
  match np_get p id with
  | Some l => Some (map (fun x => if x =? inmem then actual else x) l)
  | None => None
  end.
Definition da_lists (p : nprov) (inmem actual : nat) : list (option (list nat)) :=
  map (da_get p inmem actual) (seq 0 (np_size p - np_extra p)).

(** [StartPoints::new], [range]; common.rs 30-46.  [frozen as u32] truncates. *)
Definition start_points (valid frozen : N) : option (N * N) :=
  let e := (valid + frozen mod 2 ^ 32)%N in
  if (e <? 2 ^ 32)%N then Some (valid, e) else None.
