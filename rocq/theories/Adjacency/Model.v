(** Model of diskann/src/graph/adjacencylist.rs, diskann/src/graph/internal/backedge.rs,
    diskann/src/graph/internal/sorted_neighbors.rs, [aggregate_backedges] of
    diskann/src/graph/index.rs and the membership test of diskann-vector/src/contains.

    Ids ([u32]/[u64]) are [nat]: the code only copies and compares them.  [None] is a panic
    or an out-of-bounds (undefined behaviour) access. *)
From Verif.Lib Require Import Base Lists F32.
From Verif.Queue Require Export Model.
From Coq Require Export Sorting.Sorted.

(** ** diskann-vector/src/contains *)

(** x86_64.rs:88-98, 100-109, 189-208: one wide load of [w] lanes from the pointer to the
    start of the slice, a lane-wise compare and a test of the mask.  Reading past the end
    of the slice is an error. *)
Definition compare_lanes (w : nat) (chunk : list nat) (t : nat) : option bool :=
  if w <=? length chunk then Some (existsb (Nat.eqb t) (firstn w chunk)) else None.

(** x86_64.rs:76-85, 66-74 (u32) and 158-186 (u64): two compares of half the width, the
    second one at [chunk.add(w)], short-circuiting. *)
Definition compare_twice (f : list nat -> nat -> option bool) (w : nat)
    (chunk : list nat) (t : nat) : option bool :=
  match f chunk t with
  | Some true => Some true
  | Some false => f (skipn w chunk) t
  | None => None
  end.

(** x86_64.rs:88-98 [compare_8_items_u32], 76-85 [compare_16_items_u32], 66-74
    [compare_32_items_u32]. *)
Definition compare_8_u32 := compare_lanes 8.
Definition compare_16_u32 := compare_twice compare_8_u32 8.
Definition compare_32_u32 := compare_twice compare_16_u32 16.
(** x86_64.rs:188-199 [compare_4_items_u64], 178-186, 168-176, 158-166. *)
Definition compare_4_u64 := compare_lanes 4.
Definition compare_8_u64 := compare_twice compare_4_u64 4.
Definition compare_16_u64 := compare_twice compare_8_u64 8.
Definition compare_32_u64 := compare_twice compare_16_u64 16.

(** x86_64.rs:16-24: [while remaining.len() >= 32]; [fuel] bounds the iterations and is
    always the length of the slice.  Result: found, or the remaining slice. *)
Fixpoint contains_loop (f : list nat -> nat -> option bool) (fuel : nat)
    (remaining : list nat) (t : nat) : option (bool * list nat) :=
  if 32 <=? length remaining then
    match fuel with
    | 0 => None
    | S fuel' =>
        match f remaining t with
        | None => None
        | Some true => Some (true, remaining)
        | Some false => contains_loop f fuel' (skipn 32 remaining) t
        end
    end
  else Some (false, remaining).

(** x86_64.rs:27-34 and the following blocks: one conditional block of width [w]. *)
Definition contains_block (f : list nat -> nat -> option bool) (w : nat) (t : nat)
    (s : option (bool * list nat)) : option (bool * list nat) :=
  match s with
  | Some (false, remaining) =>
      if w <=? length remaining then
        match f remaining t with
        | None => None
        | Some true => Some (true, remaining)
        | Some false => Some (false, skipn w remaining)
        end
      else Some (false, remaining)
  | _ => s
  end.

(** x86_64.rs:57-64: the scalar tail. *)
Definition contains_rest (t : nat) (s : option (bool * list nat)) : option bool :=
  match s with
  | Some (true, _) => Some true
  | Some (false, remaining) => Some (existsb (fun v => v =? t) remaining)
  | None => None
  end.

(** x86_64.rs:10-64 [contains_simd_u32]. *)
Definition contains_simd_u32 (v : list nat) (t : nat) : option bool :=
  contains_rest t
    (contains_block (compare_lanes 4) 4 t
      (contains_block compare_8_u32 8 t
        (contains_block compare_16_u32 16 t
          (contains_loop compare_32_u32 (length v) v t)))).

(** x86_64.rs:112-157 [contains_simd_u64]. *)
Definition contains_simd_u64 (v : list nat) (t : nat) : option bool :=
  contains_rest t
    (contains_block (compare_lanes 2) 2 t
      (contains_block compare_4_u64 4 t
        (contains_block compare_8_u64 8 t
          (contains_block compare_16_u64 16 t
            (contains_loop compare_32_u64 (length v) v t))))).

(** contains/mod.rs:6-35 [ContainsSimd]: the implementation is chosen by id type (and by
    target: the fallback, fallback.rs:6-12, is [slice::contains]). *)
Inductive idkind := Idu32 | Idu64 | IdFallback.
Definition contains_simd (k : idkind) (v : list nat) (t : nat) : option bool :=
  match k with
  | Idu32 => contains_simd_u32 v t
  | Idu64 => contains_simd_u64 v t
  | IdFallback => Some (existsb (Nat.eqb t) v)
  end.

(** ** adjacencylist.rs *)

(** 16-18 [AdjacencyList { edges }]: the list of edges.  Capacity is not modelled. *)
Definition adj := list nat.

(** 110-115 [contains]. *)
Definition adj_contains (k : idkind) (a : adj) (i : nat) : option bool := contains_simd k a i.

(** 82-92 [push]. *)
Definition adj_push (k : idkind) (a : adj) (i : nat) : option (adj * bool) :=
  match adj_contains k a i with
  | Some false => Some (a ++ [i], true)
  | Some true => Some (a, false)
  | None => None
  end.

(** 102-107 [extend_from_slice]: [filter(push).count()]. *)
Fixpoint adj_extend (k : idkind) (a : adj) (is : list nat) : option (adj * nat) :=
  match is with
  | [] => Some (a, 0)
  | i :: is' =>
      match adj_push k a i with
      | None => None
      | Some (a', b) =>
          match adj_extend k a' is' with
          | None => None
          | Some (a'', n) => Some (a'', if b then S n else n)
          end
      end
  end.

(** 44-49 [last]. *)
Definition adj_last (a : adj) (count : nat) : option (list nat) :=
  if count <=? length a then Some (skipn (length a - count) a) else None.

(** 52-57 [retain]: a stateful predicate, given the number of the call and the element. *)
Fixpoint retain_from (f : nat -> nat -> bool) (n : nat) (a : adj) : adj :=
  match a with
  | [] => []
  | x :: a' => if f n x then x :: retain_from f (S n) a' else retain_from f (S n) a'
  end.
Definition adj_retain (f : nat -> nat -> bool) (a : adj) : adj := retain_from f 0 a.

(** 66-68 [truncate]. *)
Definition adj_truncate (a : adj) (len : nat) : adj := firstn len a.

(** 118-123 [sort]: [slice::sort_unstable] on a totally ordered type, whose result is
    determined (equal ids are indistinguishable); modelled by insertion sort. *)
Fixpoint insert_sorted (x : nat) (l : list nat) : list nat :=
  match l with
  | [] => [x]
  | y :: l' => if x <=? y then x :: l else y :: insert_sorted x l'
  end.
Fixpoint sort_unstable (l : list nat) : list nat :=
  match l with
  | [] => []
  | x :: l' => insert_sorted x (sort_unstable l')
  end.

(** [Vec::dedup]: removes consecutive repeated elements. *)
Fixpoint dedup_from (x : nat) (l : list nat) : list nat :=
  match l with
  | [] => []
  | y :: l' => if y =? x then dedup_from x l' else y :: dedup_from y l'
  end.
Definition dedup (l : list nat) : list nat :=
  match l with [] => [] | x :: l' => x :: dedup_from x l' end.

(** 181-190 [from_iter_untrusted]. *)
Definition adj_from_untrusted (is : list nat) : adj := dedup (sort_unstable is).

(** 229-235 [all_unique]. *)
Definition all_unique (k : idkind) (a : adj) : option bool :=
  match adj_extend k [] a with
  | Some (_, n) => Some (n =? length a)
  | None => None
  end.

(** 237-250 [debug_check_uniqueness]: panics in debug builds only. *)
Definition debug_check (debug : bool) (k : idkind) (a : adj) : option adj :=
  if debug then
    match all_unique k a with
    | Some true => Some a
    | _ => None
    end
  else Some a.

(** 200-207 [overwrite_trusted]. *)
Definition adj_overwrite_trusted (debug : bool) (k : idkind) (is : list nat) : option adj :=
  debug_check debug k is.

(** 215-222 [remap_trusted]: a stateful closure, given the number of the call. *)
Fixpoint remap_from (f : nat -> nat -> nat) (n : nat) (a : adj) : adj :=
  match a with
  | [] => []
  | x :: a' => f n x :: remap_from f (S n) a'
  end.
Definition adj_remap_trusted (debug : bool) (k : idkind) (f : nat -> nat -> nat) (a : adj)
  : option adj := debug_check debug k (remap_from f 0 a).

(** 162-168 [resize]: [Vec::resize(capacity, I::default())]. *)
Definition adj_resize (a : adj) (capacity : nat) : adj :=
  firstn capacity a ++ repeat 0 (capacity - length a).

(** 373 [DerefMut]: a write through the guard, bounds checked by the slice. *)
Definition guard_write (a : adj) (w : nat * nat) : option adj :=
  if fst w <? length a then Some (set_nth (fst w) (snd w) a) else None.
Fixpoint guard_writes (a : adj) (ws : list (nat * nat)) : option adj :=
  match ws with
  | [] => Some a
  | w :: ws' => match guard_write a w with Some a' => guard_writes a' ws' | None => None end
  end.

(** 350-354 [ResizeGuard::finish]. *)
Definition guard_finish (debug : bool) (k : idkind) (a : adj) (at_most : nat) : option adj :=
  debug_check debug k (adj_truncate a at_most).

(** 381-383 [Drop for ResizeGuard]: the guard was not finished. *)
Definition guard_drop (a : adj) : adj := [].

(** The public mutators; histories start from [AdjacencyList::new()] (24-26). *)
Inductive aop :=
| APush (i : nat)
| AExtend (is : list nat)
| ARetain (f : nat -> nat -> bool)
| AClear                                             (* 60-62 *)
| ATruncate (len : nat)
| ASort
| AFromUntrusted (is : list nat)                     (* replaces the list *)
| AFromUnique (is : list nat)                        (* 129-136 [from_iter_unique] *)
| AFromOne (i : nat)                                 (* 286-290 *)
| AOverwriteTrusted (is : list nat)
| ARemapTrusted (f : nat -> nat -> nat)
| AResizeFinish (cap : nat) (ws : list (nat * nat)) (at_most : nat)
| AResizeDrop (cap : nat) (ws : list (nat * nat)).

Definition a_step (debug : bool) (k : idkind) (a : adj) (op : aop) : option adj :=
  match op with
  | APush i => match adj_push k a i with Some (a', _) => Some a' | None => None end
  | AExtend is => match adj_extend k a is with Some (a', _) => Some a' | None => None end
  | ARetain f => Some (adj_retain f a)
  | AClear => Some []
  | ATruncate len => Some (adj_truncate a len)
  | ASort => Some (sort_unstable a)
  | AFromUntrusted is => Some (adj_from_untrusted is)
  | AFromUnique is => Some is
  | AFromOne i => Some [i]
  | AOverwriteTrusted is => adj_overwrite_trusted debug k is
  | ARemapTrusted f => adj_remap_trusted debug k f a
  | AResizeFinish cap ws n =>
      match guard_writes (adj_resize a cap) ws with
      | Some a' => guard_finish debug k a' n
      | None => None
      end
  | AResizeDrop cap ws =>
      match guard_writes (adj_resize a cap) ws with
      | Some a' => Some (guard_drop a')
      | None => None
      end
  end.

Fixpoint a_run (debug : bool) (k : idkind) (a : adj) (ops : list aop) : option adj :=
  match ops with
  | [] => Some a
  | op :: ops' =>
      match a_step debug k a op with
      | Some a' => a_run debug k a' ops'
      | None => None
      end
  end.

(** ** backedge.rs *)

(** 33-40 [Inner]. *)
Inductive backedge :=
| BNone
| BOne (v : nat)
| BTwo (v0 v1 : nat)
| BThree (v0 v1 v2 : nat)
| BFour (v0 v1 v2 v3 : nat)
| BMany (a : adj).

(** 46-50 [new]. *)
Definition b_new (v : nat) : backedge := BOne v.

(** 86-140 [push].  The spill into the heap list goes through
    [with_capacity(5)], [resize(5)], five writes and [finish(5)]. *)
Definition b_push (debug : bool) (k : idkind) (b : backedge) (x : nat)
  : option (backedge * bool) :=
  match b with
  | BNone => Some (BOne x, true)
  | BOne v => if negb (v =? x) then Some (BTwo v x, true) else Some (BOne v, false)
  | BTwo v0 v1 =>
      if negb (v0 =? x) && negb (v1 =? x) then Some (BThree v0 v1 x, true)
      else Some (BTwo v0 v1, false)
  | BThree v0 v1 v2 =>
      if negb (v0 =? x) && negb (v1 =? x) && negb (v2 =? x) then Some (BFour v0 v1 v2 x, true)
      else Some (BThree v0 v1 v2, false)
  | BFour v0 v1 v2 v3 =>
      if negb (v0 =? x) && negb (v1 =? x) && negb (v2 =? x) && negb (v3 =? x) then
        match guard_writes (adj_resize [] 5) [(0, v0); (1, v1); (2, v2); (3, v3); (4, x)] with
        | Some a => match guard_finish debug k a 5 with
                    | Some a' => Some (BMany a', true)
                    | None => None
                    end
        | None => None
        end
      else Some (BFour v0 v1 v2 v3, false)
  | BMany a =>
      match adj_push k a x with
      | Some (a', ins) => Some (BMany a', ins)
      | None => None
      end
  end.

(** backedge.rs:152-164 [Deref]: the buffer as a slice. *)
Definition b_slice (b : backedge) : list nat :=
  match b with
  | BNone => []
  | BOne v => [v]
  | BTwo v0 v1 => [v0; v1]
  | BThree v0 v1 v2 => [v0; v1; v2]
  | BFour v0 v1 v2 v3 => [v0; v1; v2; v3]
  | BMany a => a
  end.

Fixpoint b_pushes (debug : bool) (k : idkind) (b : backedge) (xs : list nat)
  : option (backedge * list bool) :=
  match xs with
  | [] => Some (b, [])
  | x :: xs' =>
      match b_push debug k b x with
      | None => None
      | Some (b', r) =>
          match b_pushes debug k b' xs' with
          | None => None
          | Some (b'', rs) => Some (b'', r :: rs)
          end
      end
  end.

(** index.rs:123-143 [aggregate_backedges].  The hash map is a partial function. *)
Definition bmap := nat -> option backedge.
Definition agg_edge (debug : bool) (k : idkind) (source : nat) (m : option bmap) (target : nat)
  : option bmap :=
  match m with
  | None => None
  | Some m =>
      match m target with
      | Some buf => match b_push debug k buf source with
                    | Some (buf', _) => Some (upd m target (Some buf'))
                    | None => None
                    end
      | None => Some (upd m target (Some (b_new source)))
      end
  end.
Definition aggregate_backedges (debug : bool) (k : idkind) (lists : list (nat * adj))
  : option bmap :=
  fold_left (fun m pe => fold_left (agg_edge debug k (fst pe)) (snd pe) m)
    lists (Some (fun _ => None)).

(** ** sorted_neighbors.rs *)

(** neighbor/mod.rs:150-154 [ord::fast_distance]. *)
Definition fast_distance (x y : nbr) : comparison := f32_partial_cmp_or_eq (n_dist x) (n_dist y).

(** 26-44 [SortedNeighbors::new].  [select] and [sort] stand for
    [slice::select_nth_unstable_by] (which returns the part before the pivot, the pivot
    and the part after it) and [slice::sort_unstable_by] with [fast_distance]; the std
    contract they satisfy is in [Spec.v].  Calling [select] is an error if the index is
    out of range. *)
Definition sorted_new (select : list nbr -> nat -> list nbr * nbr * list nbr)
    (sort : list nbr -> list nbr) (neighbors : list nbr) (max : nat) : option (list nbr) :=
  match Nat.min max (length neighbors) with
  | 0 => Some (firstn max neighbors)
  | S position =>
      if position <? length neighbors then
        let '(prefix, pivot, suffix) := select neighbors position in
        Some (firstn max (sort prefix ++ pivot :: suffix))
      else None
  end.
