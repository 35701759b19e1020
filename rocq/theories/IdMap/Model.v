(** Model of diskann-inmem/src/ids.rs: the map between external and internal ids.

    Sequentially consistent interleaving semantics with unboundedly many clients.  Every lock
    operation and every write to a map is a step.  External ids are natural numbers (the code
    takes any type with equality and a hash).  [sh] gives the [DashMap] shard of an external
    id and is arbitrary; backward shard [i / 1024] has its own lock.  A client blocked on a
    lock has no step. *)
From Verif.Lib Require Import Base.

(** 16. *)
Definition shard_size : nat := 1024.
(** [shard]; 153-159. *)
Definition bshard (i : nat) : nat := i / shard_size.

Inductive insert_error := OutOfBounds | ExternalExists | InternalExists.      (* 172-180 *)

(** Program counters. *)
Inductive ipc :=
| IIdle
(* insert; 59-89 *)
| IFwd (e i : nat)            (* forward.entry(external) *)
| IBwd (e i : nat)            (* forward vacant and locked; backward[outer].write() *)
| ISet (e i : nat)            (* both locked, backward written; forward.insert next *)
| IUnl (r : nat)              (* only backward shard [r] is still locked *)
(* occupied_entry; 129-151 *)
| OFwd (e : nat)
| OBwd (e i : nat)            (* forward occupied and locked; backward[outer].write() *)
| OHeld (e i : nat)           (* an Entry; 187-197 *)
| ODel (e i : nat)            (* delete: forward removed and unlocked; 207-210 *)
| IPanic.
Inductive ievent :=
| EInserted (c e i : nat) | EInsertErr (c e i : nat) (r : insert_error)
| EOccupied (c e i : nat) | EVacant (c e : nat) | EDeleted (c e i : nat) | EDropped (c e i : nat)
| EPanic (c : nat).

(** 19-31; [m_fl] and [m_bl] are the owners of the write locks. *)
Record idmap := mkim {
  m_cap : nat;
  m_fwd : nat -> option nat;
  m_bwd : nat -> option nat;
  m_fl : nat -> option nat;
  m_bl : nat -> option nat;
  m_cl : nat -> ipc;
  m_log : list ievent
}.
Definition im_fwd (m : idmap) e v := mkim (m_cap m) (upd (m_fwd m) e v) (m_bwd m) (m_fl m) (m_bl m) (m_cl m) (m_log m).
Definition im_bwd (m : idmap) i v := mkim (m_cap m) (m_fwd m) (upd (m_bwd m) i v) (m_fl m) (m_bl m) (m_cl m) (m_log m).
Definition im_fl (m : idmap) s v := mkim (m_cap m) (m_fwd m) (m_bwd m) (upd (m_fl m) s v) (m_bl m) (m_cl m) (m_log m).
Definition im_bl (m : idmap) s v := mkim (m_cap m) (m_fwd m) (m_bwd m) (m_fl m) (upd (m_bl m) s v) (m_cl m) (m_log m).
Definition im_cl (m : idmap) c v := mkim (m_cap m) (m_fwd m) (m_bwd m) (m_fl m) (m_bl m) (upd (m_cl m) c v) (m_log m).
Definition im_emit (m : idmap) ev := mkim (m_cap m) (m_fwd m) (m_bwd m) (m_fl m) (m_bl m) (m_cl m) (m_log m ++ [ev]).

(** [new]; 37-50. *)
Definition im_new (cap : nat) : idmap :=
  mkim cap (fun _ => None) (fun _ => None) (fun _ => None) (fun _ => None) (fun _ => IIdle) [].

Inductive iact := CInsert (e i : nat) | COccupied (e : nat) | CDelete | CDrop | IGo.

Definition istep (sh : nat -> nat) (c : nat) (a : iact) (m : idmap) : option idmap :=
  match m_cl m c, a with
  | IIdle, CInsert e i =>                                                       (* 63-65 *)
    if m_cap m <=? i then Some (im_emit m (EInsertErr c e i OutOfBounds)) else Some (im_cl m c (IFwd e i))
  | IFwd e i, IGo =>                                                            (* 74-77 *)
    match m_fl m (sh e) with
    | Some _ => None
    | None => match m_fwd m e with
              | Some _ => Some (im_emit (im_cl m c IIdle) (EInsertErr c e i ExternalExists))
              | None => Some (im_cl (im_fl m (sh e) (Some c)) c (IBwd e i))
              end
    end
  | IBwd e i, IGo =>                                                            (* 79-84 *)
    match m_bl m (bshard i) with
    | Some _ => None
    | None => match m_bwd m i with
              | Some _ => Some (im_emit (im_cl (im_fl m (sh e) None) c IIdle) (EInsertErr c e i InternalExists))
              | None => Some (im_cl (im_bwd (im_bl m (bshard i) (Some c)) i (Some e)) c (ISet e i))
              end
    end
  | ISet e i, IGo =>                                                            (* 85 *)
    Some (im_emit (im_cl (im_fl (im_fwd m e (Some i)) (sh e) None) c (IUnl (bshard i))) (EInserted c e i))
  | IUnl s, IGo => Some (im_cl (im_bl m s None) c IIdle)
  | IIdle, COccupied e => Some (im_cl m c (OFwd e))
  | OFwd e, IGo =>                                                              (* 133-136 *)
    match m_fl m (sh e) with
    | Some _ => None
    | None => match m_fwd m e with
              | None => Some (im_emit (im_cl m c IIdle) (EVacant c e))
              | Some i => Some (im_cl (im_fl m (sh e) (Some c)) c (OBwd e i))
              end
    end
  | OBwd e i, IGo =>                                                            (* 137-149 *)
    match m_bl m (bshard i) with
    | Some _ => None
    | None => match m_bwd m i with
              | None => Some (im_emit (im_cl m c IPanic) (EPanic c))
              | Some _ => Some (im_emit (im_cl (im_bl m (bshard i) (Some c)) c (OHeld e i)) (EOccupied c e i))
              end
    end
  | OHeld e i, CDelete =>                                                       (* 208 *)
    Some (im_emit (im_cl (im_fl (im_fwd m e None) (sh e) None) c (ODel e i)) (EDeleted c e i))
  | ODel e i, IGo =>                                                            (* 209, drop of the guard *)
    Some (im_cl (im_bl (im_bwd m i None) (bshard i) None) c IIdle)
  | OHeld e i, CDrop =>                                                         (* drop of the Entry *)
    Some (im_emit (im_cl (im_fl m (sh e) None) c (IUnl (bshard i))) (EDropped c e i))
  | _, _ => None
  end.
Fixpoint irun (sh : nat -> nat) (sched : list (nat * iact)) (m : idmap) : option idmap :=
  match sched with
  | [] => Some m
  | (c, a) :: sched => match istep sh c a m with Some m => irun sh sched m | None => None end
  end.
(** [to_internal], [contains_external]; 91-106.  [None]: blocked. *)
Definition to_internal (sh : nat -> nat) (m : idmap) (e : nat) : option (option nat) :=
  match m_fl m (sh e) with Some _ => None | None => Some (m_fwd m e) end.
(** [to_external]; 109-119. *)
Definition to_external (m : idmap) (i : nat) : option (option nat) :=
  if m_cap m <=? i then Some None else
  match m_bl m (bshard i) with Some _ => None | None => Some (m_bwd m i) end.
