(** Model of work splitting: diskann/src/utils/async_tools.rs ([around], [DynamicBalancer],
    [arc_chunks], [partition], [PartitionIter]) and of the chunk offsets of
    diskann-quantization/src/views.rs.

    [M] is [usize::MAX]: arithmetic that would exceed it is an overflow ([None]), a panic in
    builds with overflow checks. *)
From Verif.Lib Require Import Base Lists.

Definition ck (M x : nat) : option nat := if x <=? M then Some x else None.

Notation "'let?' x ':=' e 'in' f" := (match e with Some x => f | None => None end)
  (at level 200, x name, e at level 100, f at level 200).

(** async_tools.rs:351-364 [partition_impl].  [k * ntasks <= nitems] cannot overflow. *)
Definition partition_impl (M nitems ntasks task : nat) : option (nat * nat) :=
  let k := nitems / ntasks in
  let m := nitems - k * ntasks in
  if m <=? task then
    let? k1 := ck M (k + 1) in
    let? a := ck M (m * k1) in
    let? b := ck M ((task - m) * k) in
    let? start := ck M (a + b) in
    let? stop := ck M (start + k) in
    Some (start, stop)
  else
    let? k1 := ck M (k + 1) in
    let? start := ck M (task * k1) in
    let? s := ck M (start + k) in
    let? stop := ck M (s + 1) in
    Some (start, stop).

(** async_tools.rs:289-302 [partition]: [inl] for [Err]. *)
Definition partition (M nitems ntasks task : nat) : option (unit + (nat * nat)) :=
  if ntasks <=? task then Some (inl tt)
  else let? r := partition_impl M nitems ntasks task in Some (inr r).

(** async_tools.rs:317-344 [PartitionIter]: everything it yields from [current] on; [n] is
    the reported number of remaining items. *)
Fixpoint partition_iter (M nitems ntasks n current : nat) : option (list (nat * nat)) :=
  if ntasks <=? current then Some []
  else
    match n with
    | 0 => None
    | S n' =>
        let? r := partition_impl M nitems ntasks current in
        let? rest := partition_iter M nitems ntasks n' (S current) in
        Some (r :: rest)
    end.

(** async_tools.rs:220-232 [arc_chunks] with [ArcChunk::new] (253-256) and [get_chunk]
    (264-266): the chunks as lists. *)
Definition arc_chunk {A} (M : nat) (data : list A) (size chunk : nat) : option (list A) :=
  let? start := ck M (size * chunk) in
  let? e := ck M (start + size) in
  let stop := Nat.min e (length data) in
  if stop <=? length data then
    if start <=? stop then Some (firstn (stop - start) (skipn start data)) else None
  else None.
Fixpoint opt_map {A B} (f : A -> option B) (l : list A) : option (list B) :=
  match l with
  | [] => Some []
  | x :: l' => let? y := f x in let? ys := opt_map f l' in Some (y :: ys)
  end.
Definition div_ceil (a b : nat) : nat := if a mod b =? 0 then a / b else a / b + 1.
Definition arc_chunks {A} (M : nat) (data : list A) (size : nat) : option (list (list A)) :=
  opt_map (arc_chunk M data size) (seq 0 (div_ceil (length data) size)).

(** async_tools.rs:65-100 [Around::new]: skip, position, remaining. *)
Definition around_new (max i len : nat) : nat * nat * nat :=
  if max =? 0 then (0, 0, 0)
  else
    let len := Nat.min len (max - 1) in
    let half := div_ceil len 2 in
    let i := Nat.min i (max - 1) in
    let position := if half <=? i then i - half else max - (half - i) in
    (i, position, len).

(** async_tools.rs:103-112 [inc]: the new position. *)
Definition around_inc (max pos : nat) : nat := if pos + 1 =? max then 0 else pos + 1.

(** async_tools.rs:118-133 [next], repeated until exhaustion: the positions yielded. *)
Fixpoint around_run (max skip pos remaining : nat) : list nat :=
  match remaining with
  | 0 => []
  | S r =>
      let p1 := around_inc max pos in
      if pos =? skip then p1 :: around_run max skip (around_inc max p1) r
      else pos :: around_run max skip p1 r
  end.
Definition around (max i len : nat) : list nat :=
  let '(skip, pos, rem) := around_new max i len in around_run max skip pos rem.

(** ** [DynamicBalancer] (async_tools.rs:155-195)

    Workers are numbered; a worker is idle or has done the [fetch_add] of a call of [next]
    and got [i]. *)
Inductive bphase := BIdle | BGot (i : nat).
Record bst := mkB { b_cur : nat; b_ag : list bphase }.
Definition b_init (workers : nat) : bst := mkB 0 (repeat BIdle workers).

(** What a finished call of [next] returned, if a call finished. *)
Definition bevent : Type := option (nat * option nat).     (* worker, item *)

(** One atomic step of worker [a].  [None]: the process aborts (or [a] does not exist). *)
Definition b_step (M n : nat) (s : bst) (a : nat) : option (bst * bevent) :=
  match nth_error (b_ag s) a with
  | None => None
  | Some BIdle =>                                                  (* 177 *)
      Some (mkB ((b_cur s + 1) mod (M + 1)) (set_nth a (BGot (b_cur s)) (b_ag s)), None)
  | Some (BGot i) =>
      if i <? n then                                               (* 183-184 *)
        Some (mkB (b_cur s) (set_nth a BIdle (b_ag s)), Some (a, Some i))
      else if i =? M then None                                     (* 187-189 *)
      else                                                         (* 191-192 *)
        Some (mkB ((b_cur s + M) mod (M + 1)) (set_nth a BIdle (b_ag s)), Some (a, None))
  end.

(** A schedule: which worker moves next.  Collects the events in order. *)
Fixpoint b_run (M n : nat) (s : bst) (sched : list nat) : option (bst * list (nat * option nat)) :=
  match sched with
  | [] => Some (s, [])
  | a :: sched' =>
      match b_step M n s a with
      | None => None
      | Some (s', ev) =>
          match b_run M n s' sched' with
          | None => None
          | Some (s'', evs) => Some (s'', match ev with Some e => e :: evs | None => evs end)
          end
      end
  end.

(** ** Chunk offsets (views.rs) *)

(** views.rs:290-301 [fill_chunk_offsets]: the entries written by iterations [c ..]. *)
Fixpoint fill_from (dim n c todo offset : nat) : list nat :=
  match todo with
  | 0 => []
  | S t =>
      let o := offset + dim / n + (if c <? dim mod n then 1 else 0) in
      o :: fill_from dim n (S c) t o
  end.
Definition fill_chunk_offsets (dim n : nat) : list nat := 0 :: fill_from dim n 0 n 0.

(** views.rs:233-243 [partition]; 254-275 [partition_into] for a scratch of length [n + 1]. *)
Definition offsets_partition (dim n : nat) : option (list nat) :=
  if dim <? n then None else Some (fill_chunk_offsets dim n).

(** views.rs:86-145 [new]: the dimension, if the offsets are accepted. *)
Fixpoint check_from (prev : nat) (l : list nat) : option nat :=
  match l with
  | [] => Some prev
  | x :: l' => if x =? 0 then None else if x <=? prev then None else check_from x l'
  end.
Definition offsets_new (l : list nat) : option nat :=
  match l with
  | [] | [_] => None
  | start :: x :: l' =>
      if negb (start =? 0) then None
      else if x =? 0 then None else check_from x l'
  end.

(** views.rs:185-193 [at]; 333-350 [ChunkView::new]; 372-374 [index]. *)
Definition offsets_at (l : list nat) (i : nat) : option (nat * nat) :=
  if i <? length l - 1 then
    match nth_error l i, nth_error l (i + 1) with
    | Some a, Some b => Some (a, b)
    | _, _ => None
    end
  else None.
Definition chunk_at {A} (data : list A) (l : list nat) (i : nat) : option (list A) :=
  match offsets_at l i with
  | Some (a, b) =>
      if (a <=? b) && (b <=? length data) then Some (firstn (b - a) (skipn a data)) else None
  | None => None
  end.
