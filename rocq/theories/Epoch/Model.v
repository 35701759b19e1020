(** Model of diskann-inmem/src/epoch.rs: the epoch-based reclamation registry.

    Sequentially consistent interleaving semantics.  An [agent] is one handle used by
    client code: it is idle, executing a call of [guard] or [try_advance], or holding the
    [Guard]/[Drain] the call returned.  A thread holding several guards at once is several
    agents.  Every atomic access of the Rust code is one [step] of one agent; fences are
    no-ops in this semantics. *)
From Verif.Lib Require Import Base.
Local Open Scope N_scope.

(** usize / u64 arithmetic of a 64-bit target. *)
Definition two64 : N := 18446744073709551616.
Definition u64_max : N := two64 - 1.

(** epoch.rs:109-111 [queue]. *)
Definition queue (epoch : N) : nat := N.to_nat (epoch mod 4).

(** epoch.rs:113-115 [last_queue]: [queue(epoch.wrapping_sub(2))]. *)
Definition last_queue (epoch : N) : nat := queue ((epoch + (two64 - 2)) mod two64).

(** A retired id.  The code stores only [it_id] (a u32); [it_stamp] (position of the
    retirement in the event log) and [it_epoch] (epoch of the guard it was retired
    through) are ghost data that no transition inspects. *)
Record item := mkItem { it_id : N; it_stamp : nat; it_epoch : N }.

(** Program counters.  [G...] = inside [guard_inner], [V...] = inside
    [try_advance_inner]. *)
Inductive agent : Type :=
| AIdle
| GHint (e : N)                      (* epoch.rs:170, about to bump the hint *)
| GProbe (e h : N) (i : nat)         (* epoch.rs:177, about to load slot number i *)
| GCas (e h : N) (i s : nat)         (* epoch.rs:178-180, about to CAS slot s *)
| GRecheck (s : nat) (e : N) (reset : bool)   (* epoch.rs:194, about to reload epoch *)
| GStore (s : nat) (e : N)           (* epoch.rs:203-205 *)
| GHeld (s : nat) (e : N)            (* the returned Guard *)
| VRead                              (* epoch.rs:258, drain lock held *)
| VScan (cur min : N) (i : nat)      (* epoch.rs:261-266 *)
| VInc (cur : N)                     (* epoch.rs:322 *)
| VDrain (q : nat)                   (* the returned Drain *)
| APanic.                            (* epoch.rs:308-312 *)

(** Observable events. *)
Inductive event : Type :=
| EGuard (a : nat)                   (* guard() returned Ok *)
| EUnavailable (a : nat)             (* guard() returned Err(Unavailable) *)
| EDrop (a : nat)                    (* a Guard was dropped *)
| ERetire (a : nat) (i : N)          (* Guard::retire(i) *)
| EDrain (a : nat)                   (* try_advance() returned Some(Drain) *)
| ENone (a : nat)                    (* try_advance() returned None *)
| EPop (a : nat) (i : N) (k : nat)   (* Drain::pop returned Some(i); k is the ghost
                                        log position of the retirement handed out *)
| EPopNone (a : nat)                 (* Drain::pop returned None *)
| EDropDrain (a : nat)               (* a Drain was dropped *)
| EPanic (a : nat).

(** epoch.rs:60-106 [Registry]; [r_log] is a ghost event log (oldest first). *)
Record reg := mkReg {
  r_n      : nat;               (* guards.len() *)
  r_guards : nat -> N;          (* guards[s], 0 = available *)
  r_hint   : N;
  r_epoch  : N;
  r_lock   : option nat;        (* owner of the drain mutex *)
  r_q      : nat -> list item;  (* retiring[0..4], FIFO, head = next pop *)
  r_ag     : nat -> agent;
  r_log    : list event
}.

(** epoch.rs:136-146 [with_capacity]; [n] is a NonZeroUsize. *)
Definition reg_init (n : nat) : reg :=
  mkReg n (fun _ => 0) 0 1 None (fun _ => []) (fun _ => AIdle) [].

(** What the client asks agent [a] to do.  [ActGo] continues a call in progress. *)
Inductive act : Type :=
| ActGuard | ActAdvance | ActGo
| ActRetire (i : N) | ActDropGuard
| ActPop | ActDropDrain.

Definition set_ag (σ : reg) (a : nat) (s : agent) : reg :=
  mkReg (r_n σ) (r_guards σ) (r_hint σ) (r_epoch σ) (r_lock σ) (r_q σ)
        (upd (r_ag σ) a s) (r_log σ).
Definition set_guard (σ : reg) (s : nat) (v : N) : reg :=
  mkReg (r_n σ) (upd (r_guards σ) s v) (r_hint σ) (r_epoch σ) (r_lock σ) (r_q σ)
        (r_ag σ) (r_log σ).
Definition set_hint (σ : reg) (h : N) : reg :=
  mkReg (r_n σ) (r_guards σ) h (r_epoch σ) (r_lock σ) (r_q σ) (r_ag σ) (r_log σ).
Definition set_epoch (σ : reg) (e : N) : reg :=
  mkReg (r_n σ) (r_guards σ) (r_hint σ) e (r_lock σ) (r_q σ) (r_ag σ) (r_log σ).
Definition set_lock (σ : reg) (l : option nat) : reg :=
  mkReg (r_n σ) (r_guards σ) (r_hint σ) (r_epoch σ) l (r_q σ) (r_ag σ) (r_log σ).
Definition set_q (σ : reg) (q : nat) (l : list item) : reg :=
  mkReg (r_n σ) (r_guards σ) (r_hint σ) (r_epoch σ) (r_lock σ) (upd (r_q σ) q l)
        (r_ag σ) (r_log σ).
Definition emit (σ : reg) (ev : event) : reg :=
  mkReg (r_n σ) (r_guards σ) (r_hint σ) (r_epoch σ) (r_lock σ) (r_q σ) (r_ag σ)
        (r_log σ ++ [ev]).

(** The slot probed in iteration [i]: epoch.rs:174 [hint.wrapping_add(i) % nguards]. *)
Definition probe_slot (n : nat) (h : N) (i : nat) : nat :=
  N.to_nat (((h + N.of_nat i) mod two64) mod N.of_nat n).

(** epoch.rs:164-219 [guard_inner], continued from its program counter. *)
Definition guard_go (a : nat) (σ : reg) (pc : agent) : option reg :=
  match pc with
  | GHint e =>                                         (* :170 *)
      Some (set_ag (set_hint σ ((r_hint σ + 1) mod two64)) a (GProbe e (r_hint σ) 0))
  | GProbe e h i =>                                    (* :173-178 *)
      if Nat.ltb i (r_n σ) then
        let s := probe_slot (r_n σ) h i in
        if r_guards σ s =? 0 then Some (set_ag σ a (GCas e h i s))
        else Some (set_ag σ a (GProbe e h (S i)))
      else Some (emit (set_ag σ a AIdle) (EUnavailable a))   (* :218 *)
  | GCas e h i s =>                                    (* :179-181 *)
      if r_guards σ s =? 0
      then Some (set_ag (set_guard σ s e) a (GRecheck s e false))
      else Some (set_ag σ a (GProbe e h (S i)))
  | GRecheck s e reset =>                              (* :194-201 *)
      if r_epoch σ =? e then
        if reset then Some (set_ag σ a (GStore s e))
        else Some (emit (set_ag σ a (GHeld s e)) (EGuard a))
      else Some (set_ag σ a (GRecheck s (r_epoch σ) true))
  | GStore s e =>                                      (* :203-214 *)
      Some (emit (set_ag (set_guard σ s e) a (GHeld s e)) (EGuard a))
  | _ => None
  end.

(** epoch.rs:221-334 [can_advance] and [try_advance_inner] after the lock was taken. *)
Definition advance_go (a : nat) (σ : reg) (pc : agent) : option reg :=
  match pc with
  | VRead => Some (set_ag σ a (VScan (r_epoch σ) (r_epoch σ) 0))   (* :258-259 *)
  | VScan cur mn i =>
      if Nat.ltb i (r_n σ) then                                    (* :261-266 *)
        let g := r_guards σ i in
        let mn' := if g =? 0 then mn else N.min mn g in
        Some (set_ag σ a (VScan cur mn' (S i)))
      else if mn =? u64_max then                                   (* :308-312 *)
        Some (emit (set_lock (set_ag σ a APanic) None) (EPanic a))
      else if mn =? cur then Some (set_ag σ a (VInc cur))          (* :316 *)
      else Some (emit (set_lock (set_ag σ a AIdle) None) (ENone a))  (* :331-333 *)
  | VInc cur =>                                                    (* :322-330 *)
      Some (emit (set_ag (set_epoch σ ((r_epoch σ + 1) mod two64)) a
                         (VDrain (last_queue cur))) (EDrain a))
  | _ => None
  end.

(** One atomic step of agent [a]; [None] = not enabled. *)
Definition step (a : nat) (c : act) (σ : reg) : option reg :=
  match r_ag σ a, c with
  | AIdle, ActGuard => Some (set_ag σ a (GHint (r_epoch σ)))        (* :169 *)
  | AIdle, ActAdvance =>                                           (* :303 try_lock *)
      match r_lock σ with
      | None => Some (set_ag (set_lock σ (Some a)) a VRead)
      | Some _ => Some (emit σ (ENone a))
      end
  | GHeld s e, ActRetire i =>                                      (* :362-372 *)
      Some (emit (set_q σ (queue e)
                   (r_q σ (queue e) ++ [mkItem i (length (r_log σ)) e]))
                 (ERetire a i))
  | GHeld s e, ActDropGuard =>                                     (* :376-378 *)
      Some (emit (set_ag (set_guard σ s 0) a AIdle) (EDrop a))
  | VDrain q, ActPop =>                                            (* :393-396 *)
      match r_q σ q with
      | [] => Some (emit σ (EPopNone a))
      | it :: rest => Some (emit (set_q σ q rest) (EPop a (it_id it) (it_stamp it)))
      end
  | VDrain q, ActDropDrain =>
      Some (emit (set_lock (set_ag σ a AIdle) None) (EDropDrain a))
  | pc, ActGo =>
      match guard_go a σ pc with
      | Some σ' => Some σ'
      | None => advance_go a σ pc
      end
  | _, _ => None
  end.

(** Executions: any interleaving. *)
Fixpoint run (sched : list (nat * act)) (σ : reg) : option reg :=
  match sched with
  | [] => Some σ
  | (a, c) :: rest =>
      match step a c σ with Some σ' => run rest σ' | None => None end
  end.

Definition reachable (n : nat) (σ : reg) : Prop :=
  exists sched, run sched (reg_init n) = Some σ.

(** epoch.rs:399-401 [Drain::len]. *)
Definition drain_len (σ : reg) (q : nat) : nat := length (r_q σ q).
