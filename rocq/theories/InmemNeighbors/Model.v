(** Model of diskann-inmem/src/neighbors.rs (adjacency lists in one allocation behind sharded
    read/write locks) and of [append_vector] of provider.rs.

    Sequentially consistent interleaving semantics with unboundedly many clients; every access
    to a word of the buffer and every lock operation is one step.  The buffer (buffer.rs) is a
    list of 32-bit words: row [i] starts at word [i * (max_length + 1)] and its first word is
    the length.  An access outside the allocation is an explicit error ([NUB]).  A client holds
    at most one lock, as the module documentation demands; a client blocked on a lock has no
    step.  Allocation failures are not modelled. *)
From Verif.Lib Require Import Base Lists.

Definition two32 : N := 4294967296.
Definition lock_granularity : nat := 16.                                  (* 48 *)
Definition lock_index (i : nat) : nat := i / lock_granularity.            (* 50-52 *)

Inductive npc :=
| NIdle
(* get; 122-161 *)
| RWait (i : nat) | RLen (i : nat) | RCopy (i len k : nat) (acc : list N)
(* set; 208-227 *)
| WWait (i : nat) (l : list N)
(* lock; 166-200 *)
| LWait (i : nat) | NHeld (i : nat)
(* write_unchecked, append: words [1 + off ..] get [l], [k] of them done; 313-366 *)
| WCopy (i off : nat) (l : list N) (k : nat) (app : bool)
| WDone (i : nat) (l : list N) (app : bool)
| NBad.
Inductive nevent :=
| NGet (c i : nat) (r : list N) | NGetErr (c i : nat)
| NSet (c i : nat) (l : list N) | NSetErr (c i : nat) (l : list N)
| NLockErr (c i : nat)
| NLen (c i n : nat)
| NAppend (c i : nat) (l : list N) | NAppendErr (c i : nat) (l : list N)
| NUB (c : nat).

(** 58-61; [n_wr], [n_rd]: owner and readers of each [RwLock]. *)
Record nbrs := mkn {
  n_entries : nat; n_max : nat;
  n_mem : list N;
  n_wr : nat -> option nat; n_rd : nat -> list nat;
  n_cl : nat -> npc; n_log : list nevent
}.
Definition base (m : nbrs) (i : nat) : nat := i * (n_max m + 1).         (* buffer.rs 90-104 *)
Definition n_cl' (m : nbrs) c p := mkn (n_entries m) (n_max m) (n_mem m) (n_wr m) (n_rd m) (upd (n_cl m) c p) (n_log m).
Definition n_emit (m : nbrs) ev := mkn (n_entries m) (n_max m) (n_mem m) (n_wr m) (n_rd m) (n_cl m) (n_log m ++ [ev]).
Definition n_wr' (m : nbrs) g w := mkn (n_entries m) (n_max m) (n_mem m) (upd (n_wr m) g w) (n_rd m) (n_cl m) (n_log m).
Definition n_rd' (m : nbrs) g r := mkn (n_entries m) (n_max m) (n_mem m) (n_wr m) (upd (n_rd m) g r) (n_cl m) (n_log m).
Definition n_mem' (m : nbrs) w := mkn (n_entries m) (n_max m) w (n_wr m) (n_rd m) (n_cl m) (n_log m).

(** [new]; 73-103: zeroed memory. *)
Definition n_new (entries max : nat) : nbrs :=
  mkn entries max (repeat 0%N (entries * (max + 1))) (fun _ => None) (fun _ => []) (fun _ => NIdle) [].
(** The stored length, clamped; 144-146 and [Lock::len] 301-307. *)
Definition read_len (m : nbrs) (i : nat) : option nat :=
  match nth_error (n_mem m) (base m i) with
  | Some w => Some (Nat.min (N.to_nat w) (n_max m))
  | None => None
  end.
Definition store_word (m : nbrs) (a : nat) (w : N) : option (list N) :=
  if a <? length (n_mem m) then Some (set_nth a w (n_mem m)) else None.
Definition bad (m : nbrs) (c : nat) : nbrs := n_emit (n_cl' m c NBad) (NUB c).
Definition remove_reader (c : nat) (l : list nat) : list nat := filter (fun x => negb (x =? c)) l.

Inductive nact := CGet (i : nat) | CSet (i : nat) (l : list N) | CLock (i : nat)
| CLen | CAppend (l : list N) | CAppendMost (l : list N) | CUnlock | NGo.

(** [Lock::append]; 314-347. *)
Definition append (c i : nat) (l : list N) (m : nbrs) : nbrs :=
  match read_len m i with
  | None => bad m c
  | Some len =>
    if n_max m <? len + length l
    then n_emit (n_cl' (n_wr' m (lock_index i) None) c NIdle) (NAppendErr c i l)
    else n_cl' m c (WCopy i len l 0 true)
  end.
Definition nstep (c : nat) (a : nact) (m : nbrs) : option nbrs :=
  match n_cl m c, a with
  | NIdle, CGet i => Some (if n_entries m <=? i then n_emit m (NGetErr c i) else n_cl' m c (RWait i))
  | RWait i, NGo =>
    match n_wr m (lock_index i) with
    | Some _ => None
    | None => Some (n_cl' (n_rd' m (lock_index i) (c :: n_rd m (lock_index i))) c (RLen i))
    end
  | RLen i, NGo =>
    match read_len m i with Some len => Some (n_cl' m c (RCopy i len 0 [])) | None => Some (bad m c) end
  | RCopy i len k acc, NGo =>
    if k =? len
    then Some (n_emit (n_cl' (n_rd' m (lock_index i) (remove_reader c (n_rd m (lock_index i)))) c NIdle) (NGet c i acc))
    else match nth_error (n_mem m) (base m i + 1 + k) with
         | Some w => Some (n_cl' m c (RCopy i len (k + 1) (acc ++ [w])))
         | None => Some (bad m c)
         end
  | NIdle, CSet i l =>
    Some (if (n_entries m <=? i) || (n_max m <? length l) then n_emit m (NSetErr c i l) else n_cl' m c (WWait i l))
  | WWait i l, NGo =>
    match n_wr m (lock_index i), n_rd m (lock_index i) with
    | None, [] => Some (n_cl' (n_wr' m (lock_index i) (Some c)) c (WCopy i 0 l 0 false))
    | _, _ => None
    end
  | NIdle, CLock i => Some (if n_entries m <=? i then n_emit m (NLockErr c i) else n_cl' m c (LWait i))
  | LWait i, NGo =>
    match n_wr m (lock_index i), n_rd m (lock_index i) with
    | None, [] => Some (n_cl' (n_wr' m (lock_index i) (Some c)) c (NHeld i))
    | _, _ => None
    end
  | NHeld i, CLen => match read_len m i with Some len => Some (n_emit m (NLen c i len)) | None => Some (bad m c) end
  | NHeld i, CAppend l => Some (append c i l m)
  | NHeld i, CAppendMost l =>                                    (* provider.rs 803-816 *)
    match read_len m i with
    | None => Some (bad m c)
    | Some len => Some (append c i (if n_max m <? len + length l then firstn (n_max m - len) l else l) m)
    end
  | NHeld i, CUnlock => Some (n_cl' (n_wr' m (lock_index i) None) c NIdle)
  | WCopy i off l k app, NGo =>
    match nth_error l k with
    | Some w => match store_word m (base m i + 1 + off + k) w with
                | Some mem => Some (n_cl' (n_mem' m mem) c (WCopy i off l (k + 1) app))
                | None => Some (bad m c)
                end
    | None => match store_word m (base m i) (N.of_nat (off + length l) mod two32)%N with
              | Some mem => Some (n_cl' (n_mem' m mem) c (WDone i l app))
              | None => Some (bad m c)
              end
    end
  | WDone i l app, NGo =>
    Some (n_emit (n_cl' (n_wr' m (lock_index i) None) c NIdle) (if app then NAppend c i l else NSet c i l))
  | _, _ => None
  end.
Fixpoint nrun (sched : list (nat * nact)) (m : nbrs) : option nbrs :=
  match sched with
  | [] => Some m
  | (c, a) :: sched => match nstep c a m with Some m => nrun sched m | None => None end
  end.
