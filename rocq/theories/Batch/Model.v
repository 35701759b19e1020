(** Model of running searches in parallel and of collecting their results:
    diskann-benchmark-core/src/search/api.rs, search/ids.rs and internal/buffer.rs. *)
From Coq Require Import List PeanoNat Bool.
From Verif.Work Require Model.
Import ListNotations.

(** What one search does with its output buffer: calls whose answers decide what comes next, and at the
    end an output or an error. [Push] is answered with whether the buffer is full. Distances are left
    out: the buffer drops them. *)
Inductive prog (I O E : Type) : Type :=
| Done (o : O)
| Abort (e : E)
| Push (x : I) (next : bool -> prog I O E)
| Extend (xs : list I) (next : nat -> prog I O E)
| SizeHint (next : option nat -> prog I O E)
| CurrentLen (next : nat -> prog I O E).
Arguments Done {I O E}. Arguments Abort {I O E}. Arguments Push {I O E}. Arguments Extend {I O E}. Arguments SizeHint {I O E}. Arguments CurrentLen {I O E}.

Section Batch.
  Context {I O E : Type} (default : I).

  (** buffer.rs 24-27: [Inner]. *)
  Inductive buffer := Slice (slice : list I) (written : nat) | Vector (v : list I).
  (** buffer.rs 44-49. *)
  Definition current_len (b : buffer) : nat := match b with Slice _ w => w | Vector v => length v end.
  (** buffer.rs 53-58; [None] for a slice is the underflow panic. *)
  Definition size_hint (b : buffer) : option (option nat) :=
    match b with Slice s w => if w <=? length s then Some (Some (length s - w)) else None | Vector _ => Some None end.
  Fixpoint write_at (s : list I) (i : nat) (x : I) : option (list I) :=
    match s, i with [], _ => None | _ :: s, 0 => Some (x :: s) | y :: s, S i => match write_at s i x with Some s => Some (y :: s) | None => None end end.
  (** buffer.rs 64-83. *)
  Definition push (b : buffer) (x : I) : buffer * bool :=
    match b with
    | Slice s w => match write_at s w x with Some s' => (Slice s' (w + 1), w + 1 =? length s') | None => (b, true) end
    | Vector v => (Vector (v ++ [x]), false)
    end.
  (** [zip(left.iter_mut(), itr)]: the cells written over, and how many. *)
  Fixpoint overwrite (cells xs : list I) : list I * nat :=
    match cells, xs with
    | _ :: cells, x :: xs => let (l, n) := overwrite cells xs in (x :: l, S n)
    | _, _ => (cells, 0)
    end.
  (** buffer.rs 85-107. *)
  Definition extend (b : buffer) (xs : list I) : buffer * nat :=
    match b with
    | Slice s w => if w <=? length s then let (l, n) := overwrite (skipn w s) xs in (Slice (firstn w s ++ l) (w + n), n) else (b, 0)
    | Vector v => (Vector (v ++ xs), length (v ++ xs) - length v)
    end.
  (** Run one search on a buffer; the outer [None] is a panic. *)
  Fixpoint run (p : prog I O E) (b : buffer) : option (buffer * (E + O)) :=
    match p with
    | Done o => Some (b, inr o)
    | Abort e => Some (b, inl e)
    | Push x k => let (b, f) := push b x in run (k f) b
    | Extend xs k => let (b, n) := extend b xs in run (k n) b
    | SizeHint k => match size_hint b with Some h => run (k h) b | None => None end
    | CurrentLen k => run (k (current_len b)) b
    end.

  (** ids.rs 36-40: [Bounded]: a matrix (its rows and the number of its columns) and lengths. *)
  Record bounded := mkB { ids : list (list I); ncols : nat; lengths : list nat }.
  (** ids.rs 53-60: [Bounded::new]. *)
  Definition bounded_new (m : list (list I)) (nc : nat) (ls : list nat) : option bounded :=
    if length m =? length ls then Some (mkB m nc ls) else None.
  (** ids.rs 72-79 and 86-93: [row.get(..len)], the whole row when it is shorter. *)
  Definition valid (row : list I) (len : nat) : list I := if len <=? length row then firstn len row else row.
  Definition bounded_iter (b : bounded) : list (list I) := map (fun p => valid (fst p) (snd p)) (combine (ids b) (lengths b)).
  (** ids.rs 104-116. *)
  Inductive inner := Fixed (b : bounded) | Dynamic (rows : list (list I)).
  (** [Rows::nrows] and [Rows::row], ids.rs 82-98 and recall.rs for vectors of vectors. *)
  Definition nrows (r : inner) : nat := match r with Fixed b => length (lengths b) | Dynamic rows => length rows end.
  Definition row (r : inner) (i : nat) : option (list I) :=
    match r with
    | Fixed b => match nth_error (lengths b) i, nth_error (ids b) i with Some len, Some row => Some (valid row len) | _, _ => None end
    | Dynamic rows => nth_error rows i
    end.

  (** ids.rs 125-141: [IdAggregator]. *)
  Inductive aggregator := Empty | AllFixed (matrices : list bounded) (len num_ids : nat) | Mixed (parts : list inner).
  (** ids.rs 153-217. *)
  Definition agg_push (a : aggregator) (x : inner) : aggregator :=
    match a, x with
    | Empty, Fixed b => AllFixed [b] (length (ids b)) (ncols b)
    | Empty, Dynamic rows => Mixed [Dynamic rows]
    | AllFixed ms len num, Fixed b =>
        if ncols b =? num then AllFixed (ms ++ [b]) (len + length (lengths b)) num else Mixed (map Fixed ms ++ [Fixed b])
    | AllFixed ms _ _, Dynamic rows => Mixed (map Fixed ms ++ [Dynamic rows])
    | Mixed parts, x => Mixed (parts ++ [x])
    end.
  (** ids.rs 235-244: copy the rows, one after the other; [clone_from_slice] and [row_mut] panic when
      lengths differ or there is no such row. *)
  Fixpoint copy_rows (dst : list (list I)) (out : nat) (rows : list (list I)) : option (list (list I) * nat) :=
    match rows with
    | [] => Some (dst, out)
    | r :: rows =>
        match nth_error dst out with
        | Some d => if length d =? length r then copy_rows (firstn out dst ++ r :: skipn (S out) dst) (S out) rows else None
        | None => None
        end
    end.
  Fixpoint copy_all (dst : list (list I)) (out : nat) (ls : list nat) (ms : list bounded) : option (list (list I) * list nat) :=
    match ms with
    | [] => Some (dst, ls)
    | b :: ms => match copy_rows dst out (ids b) with Some (dst, out) => copy_all dst out (ls ++ lengths b) ms | None => None end
    end.
  (** ids.rs 221-266. *)
  Definition finish (a : aggregator) : option inner :=
    match a with
    | Empty => Some (Dynamic [])
    | AllFixed ms len num =>
        match copy_all (repeat (repeat default num) len) 0 [] ms with
        | Some (dst, ls) => match bounded_new dst num ls with Some b => Some (Fixed b) | None => None end
        | None => None
        end
    | Mixed parts => Some (Dynamic (concat (map (fun p => match p with Fixed b => bounded_iter b | Dynamic rows => rows end) parts)))
    end.

  (** api.rs: what one task returns, without the latencies. *)
  Record part := mkP { p_ids : inner; p_out : list O }.
  Context (search : nat -> prog I O E).
  (** [search_batch_fixed]: each search writes into its own row; [?] stops at the first error. *)
  Fixpoint fixed_loop (num : nat) (range : list nat) : option (E + (list (list I) * list nat * list O)) :=
    match range with
    | [] => Some (inr ([], [], []))
    | q :: range =>
        match run (search q) (Slice (repeat default num) 0) with
        | None => None
        | Some (_, inl e) => Some (inl e)
        | Some (b, inr o) =>
            match b, fixed_loop num range with
            | _, None => None
            | _, Some (inl e) => Some (inl e)
            | Slice s w, Some (inr (rs, ls, os)) => Some (inr (s :: rs, w :: ls, o :: os))
            | Vector _, Some (inr _) => None
            end
        end
    end.
  Definition search_batch_fixed (num : nat) (range : list nat) : option (E + part) :=
    match fixed_loop num range with
    | None => None
    | Some (inl e) => Some (inl e)
    | Some (inr (rs, ls, os)) => match bounded_new rs num ls with Some b => Some (inr (mkP (Fixed b) os)) | None => None end
    end.
  (** [search_batch_dynamic]. *)
  Fixpoint dynamic_loop (range : list nat) : option (E + (list (list I) * list O)) :=
    match range with
    | [] => Some (inr ([], []))
    | q :: range =>
        match run (search q) (Vector []) with
        | None => None
        | Some (_, inl e) => Some (inl e)
        | Some (b, inr o) =>
            match b, dynamic_loop range with
            | _, None => None
            | _, Some (inl e) => Some (inl e)
            | Vector v, Some (inr (rs, os)) => Some (inr (v :: rs, o :: os))
            | Slice _ _, Some (inr _) => None
            end
        end
    end.
  Definition search_batch (count : option nat) (range : list nat) : option (E + part) :=
    match count with
    | Some num => search_batch_fixed num range
    | None => match dynamic_loop range with None => None | Some (inl e) => Some (inl e) | Some (inr (rs, os)) => Some (inr (mkP (Dynamic rs) os)) end
    end.
  (** [search_inner]: tasks are awaited in order, the first that failed ends it. A panic in a task is an
      error of [h.await]; here it is a panic. *)
  Fixpoint await (tasks : list (option (E + part))) : option (E + list part) :=
    match tasks with
    | [] => Some (inr [])
    | None :: _ => None
    | Some (inl e) :: _ => Some (inl e)
    | Some (inr p) :: tasks => match await tasks with None => None | Some (inl e) => Some (inl e) | Some (inr ps) => Some (inr (p :: ps)) end
    end.
  (** [search] with [Collector::collect]. *)
  Definition search_all (M : nat) (count : option nat) (nq ntasks : nat) : option (E + (inner * list O)) :=
    match Work.Model.partition_iter M nq ntasks ntasks 0 with
    | None => None
    | Some ranges =>
        match await (map (fun r => search_batch count (seq (fst r) (snd r - fst r))) ranges) with
        | None => None
        | Some (inl e) => Some (inl e)
        | Some (inr ps) =>
            match finish (fold_left (fun a p => agg_push a (p_ids p)) ps Empty) with
            | Some r => Some (inr (r, concat (map p_out ps)))
            | None => None
            end
        end
    end.
End Batch.
