(** Model of diskann-inmem/src/store.rs, tag.rs and freelist.rs, on top of the epoch registry
    of [Verif.Epoch.Model] (epoch.rs).

    Sequentially consistent interleaving semantics.  A client is one handle of client code: it
    is idle, inside a call, or holds the [Reader] or [Slot] the call returned; a thread holding
    several handles is several clients.  Client [o] uses registry agent [o].  Every access to
    shared memory is one [step]; a step that calls into the registry is one registry step.
    Simplifications: 64-bit target; indices are [nat] (the store holds at most [u32::MAX]
    slots, checked by [store_new]); [ArrayQueue] operations are atomic; the graph stored
    alongside is not part of this model. *)
From Verif.Lib Require Import Base.
From Verif.Epoch Require Import Model.

(** ** tag.rs *)
(** 83-110. *)
Definition AVAILABLE : N := 0.
Definition OWNED : N := 1.
Definition RETIRING : N := 2.
Definition PUBLISHED : N := 254.
Definition FROZEN : N := 255.
(** [is_reserved]; 117-119. *)
Definition is_reserved (t : N) : bool := (t <=? RETIRING)%N || (t =? FROZEN)%N.
(** [can_read]; 123-127. *)
Definition can_read (t : N) : bool := (PUBLISHED <=? t)%N.

(** ** freelist.rs *)
Definition two32 : N := 4294967296.
(** 75-90. *)
Record freelist := mkfl { fl_rec : list nat; fl_cap : nat; fl_max : nat; fl_next : nat; fl_scan : N }.
(** [new]; 98-105. *)
Definition fl_new (max cap : nat) : freelist := mkfl [] cap max 0 0.
(** [ArrayQueue::pop] on [recycled]. *)
Definition fl_pop (f : freelist) : freelist * option nat :=
  match fl_rec f with
  | [] => (f, None)
  | i :: l => (mkfl l (fl_cap f) (fl_max f) (fl_next f) (fl_scan f), Some i)
  end.
(** [push]; 168-174. *)
Definition fl_push (f : freelist) (i : nat) : freelist :=
  if (i <? fl_max f) && (length (fl_rec f) <? fl_cap f)
  then mkfl (fl_rec f ++ [i]) (fl_cap f) (fl_max f) (fl_next f) (fl_scan f) else f.
(** [scan]; 142-161.  [start + SCAN_SIZE] overflowing u32 gives [max], as [min] does. *)
Definition scan_size : nat := 256.
Definition num_buckets (max : nat) : nat := (max + (scan_size - 1)) / scan_size.
Definition fl_scan_chunk (f : freelist) : freelist * (nat * nat) :=
  if fl_max f =? 0 then (f, (0, 0)) else
  let bucket := N.to_nat (fl_scan f mod N.of_nat (num_buckets (fl_max f))) in
  let start := bucket * scan_size in
  (mkfl (fl_rec f) (fl_cap f) (fl_max f) (fl_next f) ((fl_scan f + 1) mod two32)%N,
   (start, Nat.min (start + scan_size) (fl_max f))).
(** The successful [compare_exchange] of [pop]; 117-121. *)
Definition fl_mint (f : freelist) : freelist :=
  mkfl (fl_rec f) (fl_cap f) (fl_max f) (fl_next f + 1) (fl_scan f).

(** ** store.rs *)
Notation bytes := (list N).
Definition retry_limit : nat := 20.

Inductive retire_error := OutOfBounds | SlotIsReserved (t : N) | GuardUnavailable | CouldNotClaimSlot.

(** Program counters. *)
Inductive back := BAttempt (k : nat) | BScan (k rem : nat).   (* who called [slot] *)
Inductive pc :=
| CIdle
(* reader; 324-331 *)
| RGuard                                     (* inside registry.guard() *)
| RHeld (got : list (nat * bytes))           (* a Reader and the slices it has handed out,
                                                with their contents at that time (ghost) *)
(* acquire; 337-354; [k] = attempts left after this one *)
| APop (k : nat)                             (* recycled.pop() *)
| AMint (k : nat)                            (* next.load() *)
| AMintCas (k next : nat)
| ATry (b : back) (i : nat)                  (* slot/try_acquire: load; 466-484 *)
| ATryCas (b : back) (i : nat)               (* 486-501 *)
(* scan_acquire; 415-464; [rem] = remaining, [ch] = chunks_since_freelist_check *)
| AScan (k rem ch : nat)
| AScanAt (k rem ch : nat) (acq : option nat) (i stop : nat)
| AScanTry (k rem ch i stop : nat)
| AScanCas (k rem ch i stop : nat)
| AScanPush (k rem ch j i stop : nat)
| AScanPop (k rem : nat)
(* try_drain; 277-317; [b] = the attempt of [acquire] it was called from *)
| DCall (b : option nat)
| DAdv (b : option nat)                      (* inside registry.try_advance() *)
| DPop (b : option nat) (items : nat)
| DMir (b : option nat) (items i : nat)      (* load mirror, assert *)
| DMirSet (b : option nat) (items i : nat)
| DTag (b : option nat) (items i : nat)
| DTagSet (b : option nat) (items i : nat)
| DPush (b : option nat) (items i : nat)
| DDone (b : option nat) (items : nat)       (* drop of the Drain *)
| CPanic
(* the Slot; 748-800 *)
| WHeld (i : nat)
| WPub (i : nat)                             (* publish: mirror stored *)
| WDrop (i : nat)                            (* drop: mirror stored *)
(* retire; 372-402 *)
| TCall (i : nat) (cur : N)
| TGuard (i : nat) (cur : N)                 (* inside registry.guard() *)
| TCas (i : nat) (cur : N)
| TMir (i : nat)                             (* tag swapped, mirror next *)
| TRet (i : nat)                             (* guard.retire next *)
| TRel (i : nat)                             (* drop of the guard, then Ok *)
| TFail (i : nat).                           (* drop of the guard, then Err *)

(** Observable events. *)
Inductive sevent :=
| SReader (o : nat) | SReaderUnavailable (o : nat) | SReaderDrop (o : nat)
| SRead (o i : nat) (r : option bytes)
| SAcquired (o i : nat) | SNoSlot (o : nat)
| SWrite (o i : nat) (w : bytes)
| SPublish (o i : nat) (w : bytes)           (* publish takes effect for readers *)
| SPublished (o i : nat)                     (* publish returned *)
| SSlotDrop (o i : nat)
| SRetire (o i : nat) (r : option retire_error)   (* retire returned; None = Ok *)
| SDrained (o : nat) (r : option nat)        (* try_drain returned *)
| SPanic (o : nat).

Record store := mkst {
  s_n : nat;                   (* buffer.len() *)
  s_unf : nat;                 (* unfrozen *)
  s_tag : nat -> N;            (* tags *)
  s_mir : nat -> N;            (* the inline tags *)
  s_data : nat -> bytes;
  s_fl : freelist;
  s_reg : reg;
  s_cl : nat -> pc;
  s_log : list sevent
}.
Definition set_cl (σ : store) (o : nat) (p : pc) : store :=
  mkst (s_n σ) (s_unf σ) (s_tag σ) (s_mir σ) (s_data σ) (s_fl σ) (s_reg σ) (upd (s_cl σ) o p) (s_log σ).
Definition set_tag (σ : store) (i : nat) (t : N) : store :=
  mkst (s_n σ) (s_unf σ) (upd (s_tag σ) i t) (s_mir σ) (s_data σ) (s_fl σ) (s_reg σ) (s_cl σ) (s_log σ).
Definition set_mir (σ : store) (i : nat) (t : N) : store :=
  mkst (s_n σ) (s_unf σ) (s_tag σ) (upd (s_mir σ) i t) (s_data σ) (s_fl σ) (s_reg σ) (s_cl σ) (s_log σ).
Definition set_data (σ : store) (i : nat) (w : bytes) : store :=
  mkst (s_n σ) (s_unf σ) (s_tag σ) (s_mir σ) (upd (s_data σ) i w) (s_fl σ) (s_reg σ) (s_cl σ) (s_log σ).
Definition set_fl (σ : store) (f : freelist) : store :=
  mkst (s_n σ) (s_unf σ) (s_tag σ) (s_mir σ) (s_data σ) f (s_reg σ) (s_cl σ) (s_log σ).
Definition set_reg (σ : store) (r : reg) : store :=
  mkst (s_n σ) (s_unf σ) (s_tag σ) (s_mir σ) (s_data σ) (s_fl σ) r (s_cl σ) (s_log σ).
Definition semit (σ : store) (e : sevent) : store :=
  mkst (s_n σ) (s_unf σ) (s_tag σ) (s_mir σ) (s_data σ) (s_fl σ) (s_reg σ) (s_cl σ) (s_log σ ++ [e]).

(** The frozen points written by [new]; 231-250: [slot], [copy_from_slice], [freeze]. *)
Fixpoint freeze_rows (i : nat) (rows : list bytes) (σ : store) : store :=
  match rows with
  | [] => σ
  | row :: rows => freeze_rows (S i) rows (set_tag (set_mir (set_data σ i row) i FROZEN) i FROZEN)
  end.
(** [new]; 171-257: [rows] is [init] (all rows of length [ncols]).  Allocation failures and
    [max_neighbors] are not modelled.  [guards] and [cap] are non-zero types. *)
Definition store_new (entries bytes_per : nat) (guards cap : nat) (ncols : nat) (rows : list bytes) : option store :=
  if negb (ncols =? bytes_per) then None else
  if length rows =? 0 then None else
  if negb (N.of_nat entries <? two32)%N then None else
  if negb (N.of_nat (length rows) <? two32)%N then None else
  if negb (N.of_nat (entries + length rows) <? two32)%N then None else
  Some (freeze_rows entries rows
    (mkst (entries + length rows) entries (fun _ => AVAILABLE) (fun _ => AVAILABLE)
       (fun _ => repeat 0%N bytes_per) (fl_new entries cap) (reg_init guards) (fun _ => CIdle) [])).

(** What the client asks. *)
Inductive sact :=
| CallReader | CallRead (i : nat) | DropReader
| CallAcquire | CallWrite (w : bytes) | CallPublish | DropSlot
| CallRetire (i : nat) | CallDrain
| Go.

(** The end of one attempt of [acquire]. *)
Definition attempt_end (σ : store) (o k : nat) : store :=
  match k with
  | O => semit (set_cl σ o CIdle) (SNoSlot o)
  | S k => set_cl σ o (APop k)
  end.
Definition try_failed (σ : store) (o : nat) (b : back) : store :=
  match b with BAttempt k => attempt_end σ o k | BScan k rem => set_cl σ o (AScan k rem 0) end.
Definition drain_end (σ : store) (o : nat) (b : option nat) (r : option nat) : store :=
  match b with
  | None => semit (set_cl σ o CIdle) (SDrained o r)
  | Some k => attempt_end σ o k
  end.
Definition panic (σ : store) (o : nat) : store := semit (set_cl σ o CPanic) (SPanic o).
(** [self.unfrozen.div_ceil(RETRY_LIMIT)]; 418. *)
Definition scan_budget (unf : nat) : nat := (unf + (retry_limit - 1)) / retry_limit.
(** The registry step of client [o]. *)
Definition rstep (o : nat) (c : act) (σ : store) : option store :=
  match step o c (s_reg σ) with Some r => Some (set_reg σ r) | None => None end.

Definition go (o : nat) (σ : store) : option store :=
  match s_cl σ o with
  | RGuard =>
    match rstep o ActGo σ with
    | Some σ => match r_ag (s_reg σ) o with
                | GHeld _ _ => Some (semit (set_cl σ o (RHeld [])) (SReader o))
                | AIdle => Some (semit (set_cl σ o CIdle) (SReaderUnavailable o))
                | _ => Some σ
                end
    | None => None
    end
  | APop k =>
    let (f, r) := fl_pop (s_fl σ) in
    match r with
    | Some i => Some (set_cl (set_fl σ f) o (ATry (BAttempt k) i))
    | None => Some (set_cl σ o (AMint k))
    end
  | AMint k =>
    let next := fl_next (s_fl σ) in
    if next <? fl_max (s_fl σ) then Some (set_cl σ o (AMintCas k next))
    else Some (set_cl σ o (AScan k (scan_budget (s_unf σ)) 0))
  | AMintCas k next =>
    if fl_next (s_fl σ) =? next then Some (set_cl (set_fl σ (fl_mint (s_fl σ))) o (ATry (BAttempt k) next))
    else let next := fl_next (s_fl σ) in
      if next <? fl_max (s_fl σ) then Some (set_cl σ o (AMintCas k next))
      else Some (set_cl σ o (AScan k (scan_budget (s_unf σ)) 0))
  | ATry b i =>
    if negb (i <? s_n σ) then Some (try_failed σ o b) else
    if (s_tag σ i =? AVAILABLE)%N then Some (set_cl σ o (ATryCas b i)) else Some (try_failed σ o b)
  | ATryCas b i =>
    if (s_tag σ i =? AVAILABLE)%N then Some (semit (set_cl (set_tag σ i OWNED) o (WHeld i)) (SAcquired o i))
    else Some (try_failed σ o b)
  | AScan k rem ch =>
    if rem =? 0 then Some (set_cl σ o (DCall (Some k))) else
    let (f, c) := fl_scan_chunk (s_fl σ) in
    Some (set_cl (set_fl σ f) o (AScanAt k (rem - (snd c - fst c)) ch None (fst c) (snd c)))
  | AScanAt k rem ch acq i stop =>
    if stop <=? i then
      match acq with
      | Some j => Some (semit (set_cl σ o (WHeld j)) (SAcquired o j))
      | None => if ch + 1 =? 4 then Some (set_cl σ o (AScanPop k rem)) else Some (set_cl σ o (AScan k rem (ch + 1)))
      end
    else if negb (i <? s_n σ) then Some (panic σ o) else
    if (s_tag σ i =? AVAILABLE)%N then
      match acq with
      | None => Some (set_cl σ o (AScanTry k rem ch i stop))
      | Some j => Some (set_cl σ o (AScanPush k rem ch j i stop))
      end
    else Some (set_cl σ o (AScanAt k rem ch acq (i + 1) stop))
  | AScanTry k rem ch i stop =>
    if (s_tag σ i =? AVAILABLE)%N then Some (set_cl σ o (AScanCas k rem ch i stop))
    else Some (set_cl σ o (AScanAt k rem ch None (i + 1) stop))
  | AScanCas k rem ch i stop =>
    if (s_tag σ i =? AVAILABLE)%N then Some (set_cl (set_tag σ i OWNED) o (AScanAt k rem ch (Some i) (i + 1) stop))
    else Some (set_cl σ o (AScanAt k rem ch None (i + 1) stop))
  | AScanPush k rem ch j i stop =>
    Some (set_cl (set_fl σ (fl_push (s_fl σ) i)) o (AScanAt k rem ch (Some j) (i + 1) stop))
  | AScanPop k rem =>
    let (f, r) := fl_pop (s_fl σ) in
    match r with
    | Some i => Some (set_cl (set_fl σ f) o (ATry (BScan k rem) i))
    | None => Some (set_cl σ o (AScan k rem 0))
    end
  | DCall b =>
    match rstep o ActAdvance σ with
    | Some σ => match r_ag (s_reg σ) o with
                | AIdle => Some (drain_end σ o b None)
                | _ => Some (set_cl σ o (DAdv b))
                end
    | None => None
    end
  | DAdv b =>
    match rstep o ActGo σ with
    | Some σ => match r_ag (s_reg σ) o with
                | AIdle => Some (drain_end σ o b None)
                | VDrain q => Some (set_cl σ o (DPop b (drain_len (s_reg σ) q)))
                | APanic => Some (panic σ o)
                | _ => Some σ
                end
    | None => None
    end
  | DPop b items =>
    match r_ag (s_reg σ) o with
    | VDrain q =>
      match rstep o ActPop σ with
      | Some σ' =>
        match r_q (s_reg σ) q with
        | [] => Some (set_cl σ' o (DDone b items))
        | it :: _ => let i := N.to_nat (it_id it) in
          if negb (i <? s_n σ) then Some (panic σ' o) else Some (set_cl σ' o (DMir b items i))
        end
      | None => None
      end
    | _ => None
    end
  | DMir b items i =>
    if (s_mir σ i =? RETIRING)%N then Some (set_cl σ o (DMirSet b items i)) else Some (panic σ o)
  | DMirSet b items i => Some (set_cl (set_mir σ i AVAILABLE) o (DTag b items i))
  | DTag b items i =>
    if (s_tag σ i =? RETIRING)%N then Some (set_cl σ o (DTagSet b items i)) else Some (panic σ o)
  | DTagSet b items i => Some (set_cl (set_tag σ i AVAILABLE) o (DPush b items i))
  | DPush b items i => Some (set_cl (set_fl σ (fl_push (s_fl σ) i)) o (DPop b items))
  | DDone b items =>
    match rstep o ActDropDrain σ with
    | Some σ => Some (drain_end σ o b (Some items))
    | None => None
    end
  | WPub i => Some (semit (set_cl (set_tag σ i PUBLISHED) o CIdle) (SPublished o i))
  | WDrop i => Some (semit (set_cl (set_tag σ i AVAILABLE) o CIdle) (SSlotDrop o i))
  | TCall i cur =>
    match rstep o ActGuard σ with Some σ => Some (set_cl σ o (TGuard i cur)) | None => None end
  | TGuard i cur =>
    match rstep o ActGo σ with
    | Some σ => match r_ag (s_reg σ) o with
                | GHeld _ _ => Some (set_cl σ o (TCas i cur))
                | AIdle => Some (semit (set_cl σ o CIdle) (SRetire o i (Some GuardUnavailable)))
                | _ => Some σ
                end
    | None => None
    end
  | TCas i cur =>
    if (s_tag σ i =? cur)%N then Some (set_cl (set_tag σ i RETIRING) o (TMir i)) else Some (set_cl σ o (TFail i))
  | TMir i => Some (set_cl (set_mir σ i RETIRING) o (TRet i))
  | TRet i =>
    match rstep o (ActRetire (N.of_nat i mod two32)) σ with Some σ => Some (set_cl σ o (TRel i)) | None => None end
  | TRel i =>
    match rstep o ActDropGuard σ with
    | Some σ => Some (semit (set_cl σ o CIdle) (SRetire o i None)) | None => None end
  | TFail i =>
    match rstep o ActDropGuard σ with
    | Some σ => Some (semit (set_cl σ o CIdle) (SRetire o i (Some CouldNotClaimSlot))) | None => None end
  | _ => None
  end.

(** One step of client [o]; [None] = not possible. *)
Definition sstep (o : nat) (c : sact) (σ : store) : option store :=
  match s_cl σ o, c with
  | _, Go => go o σ
  | CIdle, CallReader =>                                    (* 324-331 *)
    match rstep o ActGuard σ with Some σ => Some (set_cl σ o RGuard) | None => None end
  | RHeld got, CallRead i =>                                (* 640-647, 693-722 *)
    if negb (i <? s_n σ) then Some (semit σ (SRead o i None)) else
    if can_read (s_mir σ i) then
      Some (semit (set_cl σ o (RHeld ((i, s_data σ i) :: got))) (SRead o i (Some (s_data σ i))))
    else Some (semit σ (SRead o i None))
  | RHeld _, DropReader =>
    match rstep o ActDropGuard σ with
    | Some σ => Some (semit (set_cl σ o CIdle) (SReaderDrop o)) | None => None end
  | CIdle, CallAcquire => Some (set_cl σ o (APop (retry_limit - 1)))       (* 337-338 *)
  | WHeld i, CallWrite w =>                                 (* 757-760; one or many writes *)
    if length w =? length (s_data σ i) then Some (semit (set_data σ i w) (SWrite o i w)) else None
  | WHeld i, CallPublish =>                                 (* 777-783 *)
    Some (semit (set_cl (set_mir σ i PUBLISHED) o (WPub i)) (SPublish o i (s_data σ i)))
  | WHeld i, DropSlot =>                                    (* 786-791 *)
    Some (set_cl (set_mir σ i AVAILABLE) o (WDrop i))
  | CIdle, CallRetire i =>                                  (* 373-379 *)
    if negb (i <? s_n σ) then Some (semit σ (SRetire o i (Some OutOfBounds))) else
    if is_reserved (s_tag σ i) then Some (semit σ (SRetire o i (Some (SlotIsReserved (s_tag σ i)))))
    else Some (set_cl σ o (TCall i (s_tag σ i)))
  | CIdle, CallDrain => Some (set_cl σ o (DCall None))
  | _, _ => None
  end.
Fixpoint srun (sched : list (nat * sact)) (σ : store) : option store :=
  match sched with
  | [] => Some σ
  | (o, c) :: rest => match sstep o c σ with Some σ => srun rest σ | None => None end
  end.
