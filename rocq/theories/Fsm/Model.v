(** Model of the free space map of diskann-garnet (src/fsm.rs): which internal ids are in use.

    The store of Garnet is a map from block number to bytes that survives a crash; each of its
    operations (exists, read, write, read-modify-write) is atomic and may fail without effect.
    Everything else is memory.  Threads interleave at every access to the store, to an atomic,
    to the queue (a lock-free bounded FIFO, crossbeam ArrayQueue) and at every lock acquisition;
    a read lock held for one access is that access.  Orderings are sequentially consistent. *)
From Verif.Lib Require Import Base Lists.
From Coq Require Export NArith Lia ZifyBool ZifyN ZifyNat.
Local Open Scope N_scope.

Definition block_ids : N := 65536.                  (* BLOCK_SIZE_IDS; fsm.rs 30 *)
Definition block_bytes : N := 8192.                 (* BLOCK_SIZE_BYTES; 31 *)
Definition fast_size : N := 1024.                   (* FAST_SIZE; 32 *)
Definition two32 : N := 4294967296.
Definition two64 : N := 18446744073709551616.
Definition u32_max : N := 4294967295.

(** * Blocks *)
Definition block := list N.
Definition store := N -> option block.
Definition put (s : store) (k : N) (b : block) : store := fun x => if x =? k then Some b else s x.
Definition zeros : block := repeat 0 (N.to_nat block_bytes).      (* vec![0u8; BLOCK_SIZE_BYTES] *)
(** indexes_for_id; 379-386 *)
Definition block_of (id : N) : N := id / block_ids.
Definition byte_of (id : N) : N := id mod block_ids / 8.
Definition bit_of (id : N) : N := id mod block_ids mod 8.
(** bit_used, update_status; 536-548 *)
Definition bit_used (byte bidx : N) : bool := N.land (N.shiftr byte (7 - bidx)) 1 =? 1.
Definition update_status (u : bool) (byte bidx : N) : bool * N :=
  let mask := N.shiftl 1 (7 - bidx) in
  let value := N.shiftl (if u then 1 else 0) (7 - bidx) in
  let changed := (u && (N.land byte mask =? 0)) || (negb u && negb (N.land byte mask =? 0)) in
  (changed, N.lor (N.ldiff byte mask) value).
(** The read-modify-write of mark_id_unchecked, 227-237: an absent block reads as zeros
    (garnet.rs 482-485).  [None]: an index out of bounds. *)
Definition rmw (s : store) (id : N) (u : bool) : option (bool * store) :=
  let b := match s (block_of id) with Some b => b | None => zeros end in
  let i := N.to_nat (byte_of id) in
  match nth_error b i with
  | None => None
  | Some x => let '(changed, y) := update_status u x (bit_of id) in
              Some (changed, put s (block_of id) (set_nth i y b))
  end.
(** What the store says about an id; is_free 280-295 *)
Definition used (s : store) (id : N) : bool :=
  match s (block_of id) with
  | None => false
  | Some b => match nth_error b (N.to_nat (byte_of id)) with Some x => bit_used x (bit_of id) | None => false end
  end.
(** The inner loops of refill_fast_free_list, 421-448: the free ids of a block copy below
    [next], the next id and whether the whole scan stops.  Pushing them happens afterwards; the
    loops read nothing shared in between. *)
Fixpoint scan_bits (n : nat) (bidx : N) (byte id next : N) : list N * N * bool :=
  match n with
  | O => ([], id, false)
  | S n =>
    if next <=? id then ([], id, true) else
    let '(l, id', stop) := scan_bits n (bidx + 1) byte (id + 1) next in
    (if bit_used byte bidx then l else id :: l, id', stop)
  end.
Fixpoint scan_block (b : block) (id next : N) : list N * N * bool :=
  match b with
  | [] => ([], id, false)
  | byte :: b =>
    if next <=? id then ([], id, true) else
    if byte =? 255 then scan_block b (id + 8) next else
    match scan_bits 8 0 byte id next with
    | (l, id', true) => (l, id', true)
    | (l, id', false) => let '(l2, id2, stop) := scan_block b id' next in (l ++ l2, id2, stop)
    end
  end.
(** visit_used, 486-520, over a store that does not fail: the ids passed to [f] *)
Fixpoint visit_bits (n : nat) (bidx : N) (byte id : N) : list N :=
  match n with
  | O => []
  | S n => (if bit_used byte bidx then [id] else []) ++ visit_bits n (bidx + 1) byte (id + 1)
  end.
Fixpoint visit_block (b : block) (id : N) : list N :=
  match b with
  | [] => []
  | byte :: b => (if byte =? 0 then [] else visit_bits 8 0 byte id) ++ visit_block b (id + 8)
  end.
Fixpoint visit_blocks (s : store) (n : nat) (b : N) : list N :=
  match n with
  | O => []
  | S n => match s b with None => [] | Some bs => visit_block bs (b * block_ids) ++ visit_blocks s n (b + 1) end
  end.

(** * Shared memory *)
Record sh := mksh {
  st : store;              (* survives a crash *)
  next : N;                (* id_minter.next_id *)
  maxb : option N;         (* id_minter.max_block, None for u32::MAX *)
  freel : list N;          (* fast_free_list *)
  hasf : bool;             (* has_free_ids *)
  total : N;               (* total_used *)
  reuse : bool;            (* reuse_enabled *)
  quant : bool;            (* barrier.quantization_enabled *)
  backfill : N;            (* barrier.max_id_for_backfill *)
  mint : option nat;       (* the thread holding id_minter for writing *)
  refill : option nat;     (* the thread holding refill_lock *)
  fresh : option N         (* not in the code: the id being minted, until it is marked *)
}.
Definition set_st h x := mksh x (next h) (maxb h) (freel h) (hasf h) (total h) (reuse h) (quant h) (backfill h) (mint h) (refill h) (fresh h).
Definition set_freel h x := mksh (st h) (next h) (maxb h) x (hasf h) (total h) (reuse h) (quant h) (backfill h) (mint h) (refill h) (fresh h).
Definition set_hasf h x := mksh (st h) (next h) (maxb h) (freel h) x (total h) (reuse h) (quant h) (backfill h) (mint h) (refill h) (fresh h).
Definition set_total h x := mksh (st h) (next h) (maxb h) (freel h) (hasf h) x (reuse h) (quant h) (backfill h) (mint h) (refill h) (fresh h).
Definition set_refill h x := mksh (st h) (next h) (maxb h) (freel h) (hasf h) (total h) (reuse h) (quant h) (backfill h) (mint h) x (fresh h).
Definition set_minter h n m f := mksh (st h) n (maxb h) (freel h) (hasf h) (total h) (reuse h) (quant h) (backfill h) m (refill h) f.
Definition add_total (h : sh) : sh := set_total h ((total h + 1) mod two64).
Definition sub_total (h : sh) : sh := set_total h ((total h + (two64 - 1)) mod two64).

(** * Threads.  [q] is what the guard says about quantization: the read lock on the barrier is
    held from the start of next_id until the guard is dropped. *)
Inductive pc :=
| Idle
| NReuse (q : bool) | NHas (q : bool) | NPop (q : bool) | NPop2 (q : bool)
| NCheck (q : bool) (id : N) | NRmw (q : bool) (id : N) | NAdd (q : bool) (id : N)
| RLock (q : bool) | RCheck (q : bool) | RSnap (q : bool)
| RBlock (q : bool) (b id nid mb : N) (found : bool)
| RPush (q : bool) (cands : list N) (stop : bool) (b id nid mb : N) (found : bool)
| RPush2 (q : bool) (x : N) (cands : list N) (stop : bool) (b id nid mb : N)
| REnd (q : bool) (found : bool) | RStore (q : bool)
| NMint (q : bool) | MExpand (q : bool) (id : N) | MRmw (q : bool) (id : N) | MAdd (q : bool) (id : N)
| NDone (q : bool) (id : N)                       (* next_id returned Ok(guard) *)
| FCheck (id : N) | FRmw (id : N) | FSub (id : N) | FPush (id : N) | FFlag (id : N).
(** Observable history: an id is handed out ([q]: to be quantized), an id is freed. *)
Inductive event := Alloc (id : N) (q : bool) | Free (id : N).

(** One step of thread [t].  [ok]: the operation on the store, if any, succeeds.  [None]: the
    thread waits (or is idle).  An error return is [Idle]; the guard is dropped with it. *)
Definition tstep (t : nat) (ok : bool) (p : pc) (h : sh) : option (pc * sh * list event) :=
  let err h := Some (Idle, h, []) in
  match p with
  | Idle => None
  (* next_id, 301-361 *)
  | NReuse q => Some (if reuse h then NHas q else NMint q, h, [])
  | NHas q => Some (if hasf h then NPop q else NMint q, h, [])
  | NPop q => match freel h with
              | [] => Some (RLock q, h, [])
              | id :: l => Some (NCheck q id, set_freel h l, [])
              end
  | NPop2 q => match freel h with                                         (* 333-335 *)
               | [] => Some (NMint q, h, [])
               | id :: l => Some (NCheck q id, set_freel h l, [])
               end
  (* mark_used = mark_id(true), 257-266 *)
  | NCheck q id => match mint h with
                   | Some _ => None
                   | None => if next h <=? id then err h else Some (NRmw q id, h, [])
                   end
  | NRmw q id => if negb ok then err h else
                 match rmw (st h) id true with
                 | None => None
                 | Some (true, s) => Some (NAdd q id, set_st h s, [Alloc id q])
                 | Some (false, s) => Some (NPop q, set_st h s, [])
                 end
  | NAdd q id => Some (NDone q id, add_total h, [])
  (* refill_fast_free_list, 394-456 *)
  | RLock q => match refill h with Some _ => None | None => Some (RCheck q, set_refill h (Some t), []) end
  | RCheck q => match freel h with [] => Some (RSnap q, h, []) | _ => Some (NPop2 q, set_refill h None, []) end
  | RSnap q => match mint h with
               | Some _ => None
               | None => match maxb h with
                         | Some mb => Some (RBlock q 0 0 (next h) mb false, h, [])
                         | None => Some (RBlock q 0 0 (next h) u32_max false, h, [])
                         end
               end
  | RBlock q b id nid mb found =>
    if mb <? b then Some (REnd q found, h, []) else
    if nid <=? id then Some (REnd q found, h, []) else
    match (if ok then st h b else None) with
    | None => Some (Idle, set_refill h None, [])
    | Some bs => let '(l, id', stop) := scan_block bs id nid in Some (RPush q l stop b id' nid mb found, h, [])
    end
  | RPush q cands stop b id nid mb found =>
    match cands with
    | [] => Some (if stop then REnd q found else RBlock q (b + 1) id nid mb found, h, [])
    | x :: l => Some (RPush2 q x l stop b id nid mb, set_hasf h true, [])
    end
  | RPush2 q x l stop b id nid mb =>
    if N.of_nat (length (freel h)) <? fast_size
    then Some (RPush q l stop b id nid mb true, set_freel h (freel h ++ [x]), [])
    else Some (REnd q true, h, [])
  | REnd q found => if found then Some (NPop2 q, set_refill h None, []) else Some (RStore q, h, [])
  | RStore q => Some (NMint q, set_refill (set_hasf h false) None, [])
  (* minting, 353-358 *)
  | NMint q => match mint h with
               | Some _ => None
               | None => Some (MExpand q (next h), set_minter h ((next h + 1) mod two32) (Some t) (Some (next h)), [])
               end
  (* expand_to, 459-483 *)
  | MExpand q id =>
    let wr b := if ok
                then Some (MRmw q id, mksh (put (st h) (block_of id) zeros) (next h) (Some b) (freel h) (hasf h) (total h) (reuse h) (quant h) (backfill h) (mint h) (refill h) (fresh h), [])
                else err (set_minter h (next h) None None) in
    match maxb h with
    | None => wr 0
    | Some mb => if block_of id =? mb + 1 then wr (mb + 1)
                 else if mb + 1 <? block_of id then err (set_minter h (next h) None None)
                 else Some (MRmw q id, h, [])
    end
  | MRmw q id => if negb ok then err (set_minter h (next h) None None) else
                 match rmw (st h) id true with
                 | None => None
                 | Some (changed, s) => Some (if changed then MAdd q id else NDone q id,
                     (if changed then set_minter (set_st h s) (next h) (mint h) None else set_minter (set_st h s) (next h) None None), [Alloc id q])
                 end
  | MAdd q id => Some (NDone q id, set_minter (add_total h) (next h) None None, [])
  | NDone q id => Some (Idle, h, [])                                       (* the guard is dropped *)
  (* mark_free = mark_id(false), 213-266 *)
  | FCheck id => match mint h with
                 | Some _ => None
                 | None => if next h <=? id then err h else Some (FRmw id, h, [])
                 end
  | FRmw id => if negb ok then err h else
               match rmw (st h) id false with
               | None => None
               | Some (true, s) => Some (FSub id, set_st h s, [Free id])
               | Some (false, s) => Some (Idle, set_st h s, [])
               end
  | FSub id => Some (FPush id, sub_total h, [])
  | FPush id => Some (FFlag id, if N.of_nat (length (freel h)) <? fast_size then set_freel h (freel h ++ [id]) else h, [])
  | FFlag id => Some (Idle, set_hasf h true, [])
  end.
Definition guard_held (p : pc) : bool :=
  match p with Idle | FCheck _ | FRmw _ | FSub _ | FPush _ | FFlag _ => false | _ => true end.

(** * Loading, 160-208.  The state of the scan: last used id (-1: none), count, free list. *)
Record ld := mkld { l_last : Z; l_total : N; l_free : list N }.
Definition load_bit (byte bidx id : N) (x : ld) : ld :=
  if bit_used byte bidx then mkld (Z.max (l_last x) (Z.of_N id)) (l_total x + 1) (l_free x)
  else if (Z.of_N id <? l_last x)%Z
       then mkld (l_last x) (l_total x) (if N.of_nat (length (l_free x)) <? fast_size then l_free x ++ [id] else l_free x)
       else x.
Fixpoint load_bits (n : nat) (byte id : N) (x : ld) : N * ld :=           (* bits n-1 .. 0 *)
  match n with
  | O => (id, x)
  | S n => load_bits n byte (id - 1) (load_bit byte (N.of_nat n) id x)     (* saturating_sub *)
  end.
Fixpoint load_bytes (rev_b : block) (id : N) (x : ld) : ld :=
  match rev_b with [] => x | byte :: b => let '(id, x) := load_bits 8 byte id x in load_bytes b id x end.
Fixpoint load_blocks (rd : N -> bool) (s : store) (n : nat) (x : ld) : ld :=   (* blocks n-1 .. 0 *)
  match n with
  | O => x
  | S n => let b := N.of_nat n in
           match (if rd b then s b else None) with
           | None => x                                                     (* break *)
           | Some bs => load_blocks rd s n (load_bytes (rev bs) (b * block_ids + block_ids - 1) x)
           end
  end.
(** How many consecutive blocks exist.  At most [2^16] can: ids are u32. *)
Fixpoint count_blocks (fuel : nat) (s : store) (b : N) : nat :=
  match fuel with O => 0 | S fuel => match s b with None => 0 | Some _ => S (count_blocks fuel s (b + 1)) end end.
Definition blocks_in (s : store) : nat := count_blocks (N.to_nat block_ids) s 0.
(** new, 110-157.  [rd]: which block reads succeed; [w]: whether the write of the first block
    does.  [None]: an error. *)
Definition fsm_new (rd : N -> bool) (w : bool) (s : store) (quantization_enabled reuse_enabled : bool) : option sh :=
  match s 0 with
  | Some _ =>
    let n := blocks_in s in
    let x := load_blocks rd s n (mkld (-1) 0 []) in
    Some (mksh s (Z.to_N (l_last x + 1) mod two32) (Some (N.of_nat n - 1)) (l_free x)
      (match l_free x with [] => false | _ => true end) (l_total x) reuse_enabled quantization_enabled u32_max None None None)
  | None =>
    if w then Some (mksh (put s 0 zeros) 0 (Some 0) [] false 0 reuse_enabled quantization_enabled u32_max None None None) else None
  end.

(** * The system: threads, and what the environment may do *)
Record sys := mksys { shm : sh; pcs : list pc; hist : list event (* newest first *) }.
Inductive act :=
| Step (t : nat) (ok : bool)
| CallNext (t : nat)
| CallFree (t : nat) (id : N)
| EnableQuantization                (* 523-531, when no guard is held *)
| EnableReuse                       (* 534-536 *)
| Restart (rd : N -> bool) (w quantization_enabled reuse_enabled : bool) (threads : nat).
Definition act_step (a : act) (y : sys) : option sys :=
  match a with
  | Step t ok =>
    match nth_error (pcs y) t with
    | None => None
    | Some p => match tstep t ok p (shm y) with
                | None => None
                | Some (p, h, es) => Some (mksys h (set_nth t p (pcs y)) (es ++ hist y))
                end
    end
  | CallNext t =>                                                           (* 302: barrier.read() *)
    match nth_error (pcs y) t with
    | Some Idle => Some (mksys (shm y) (set_nth t (NReuse (quant (shm y))) (pcs y)) (hist y))
    | _ => None
    end
  | CallFree t id =>
    match nth_error (pcs y) t with
    | Some Idle => Some (mksys (shm y) (set_nth t (FCheck id) (pcs y)) (hist y))
    | _ => None
    end
  | EnableQuantization =>
    if existsb guard_held (pcs y) then None else
    match mint (shm y) with
    | Some _ => None
    | None => let h := shm y in
      Some (mksys (mksh (st h) (next h) (maxb h) (freel h) (hasf h) (total h) (reuse h) true (next h - 1) (mint h) (refill h) (fresh h)) (pcs y) (hist y))
    end
  | EnableReuse => let h := shm y in
    Some (mksys (mksh (st h) (next h) (maxb h) (freel h) (hasf h) (total h) true (quant h) (backfill h) (mint h) (refill h) (fresh h)) (pcs y) (hist y))
  | Restart rd w q r n =>
    match fsm_new rd w (st (shm y)) q r with
    | None => None
    | Some h => Some (mksys h (repeat Idle n) (hist y))
    end
  end.
(** The map created on an empty store. *)
Definition sys_new (q r : bool) (n : nat) : sys :=
  mksys (mksh (put (fun _ => None) 0 zeros) 0 (Some 0) [] false 0 r q u32_max None None None) (repeat Idle n) [].
Fixpoint run (acts : list act) (y : sys) : option sys :=
  match acts with [] => Some y | a :: acts => match act_step a y with None => None | Some y => run acts y end end.

(** * The backfill work of one task, provider.rs 612-637: the half-open range of ids it
    quantizes.  [None]: the task reports failure. *)
Definition div_ceil (a b : N) : N := a / b + (if a mod b =? 0 then 0 else 1).
Definition backfill_range (max_id task_idx task_count : N) : option (N * N) :=
  if u32_max <=? max_id then None else
  let tc := N.min task_count (max_id + 1) in
  if tc <=? task_idx then None else
  let work := div_ceil (max_id + 1) tc in
  Some (work * task_idx mod two32, N.min (work * (task_idx + 1)) (max_id + 1) mod two32).
