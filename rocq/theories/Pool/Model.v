(** Model of the object pool, diskann-utils/src/object_pool.rs.

    Objects carry an identity (their creation number) besides their value.  The lock is
    modelled by making each critical section one step; [create] and [modify] run outside it,
    so that a call to [get] is two steps.  A poisoned lock is recovered (198-216), hence
    panics inside [create] or [modify] appear as failing calls. *)
From Coq Require Import List PeanoNat Bool.
From Verif.Lib Require Import Base Lists.
Import ListNotations.

Section Pool.
Context {V A : Type}.
(** [AsPooled::create], [AsPooled::modify] (or their [try_] versions when they succeed). *)
Variable create : A -> V.
Variable modify : V -> A -> V.

Definition obj : Type := nat * V.
(** A call to [get], then the handle it returned. *)
Inductive hstate :=
  | Fetched (o : option obj) (a : A)     (* lock released, before create / modify *)
  | Held (o : obj)                       (* a live PooledRef or PooledArc *)
  | Dropping (o : obj)                   (* pool full: lock released, before the object's drop *)
  | Gone.
Record pool := mkpool { p_queue : list obj; p_cap : option nat; p_handles : list hstate;
                        p_next : nat; p_dead : list nat }.

(** [new]; 43-54 (and [try_new], 62-78, when it succeeds). *)
Definition pool_new (a : A) (initial : nat) (cap : option nat) : pool :=
  mkpool (map (fun i => (i, create a)) (seq 0 initial)) cap [] initial [].

Inductive pstep :=
  | PGet (a : A)                (* a new call: its first half *)
  | PReady (h : nat) (ok : bool)  (* its second half; [ok = false]: failure or panic *)
  | PWrite (h : nat) (v : V)    (* the holder changes the object *)
  | PDrop (h : nat)             (* the handle is dropped *)
  | PDestroy (h : nat).
Definition p_set (s : pool) (q : list obj) (h : nat) (x : hstate) (next : nat) (dead : list nat) : pool :=
  mkpool q (p_cap s) (set_nth h x (p_handles s)) next dead.
Definition p_step (s : pool) (e : pstep) : option pool :=
  match e with
  | PGet a =>
    (* 173, 189: pop_front *)
    match p_queue s with
    | o :: q => Some (mkpool q (p_cap s) (p_handles s ++ [Fetched (Some o) a]) (p_next s) (p_dead s))
    | [] => Some (mkpool [] (p_cap s) (p_handles s ++ [Fetched None a]) (p_next s) (p_dead s))
    end
  | PReady h ok =>
    (* 174-179, 190-195 *)
    match nth_error (p_handles s) h with
    | Some (Fetched (Some (i, v)) a) =>
      Some (if ok then p_set s (p_queue s) h (Held (i, modify v a)) (p_next s) (p_dead s)
            else p_set s (p_queue s) h Gone (p_next s) (i :: p_dead s))
    | Some (Fetched None a) =>
      Some (if ok then p_set s (p_queue s) h (Held (p_next s, create a)) (S (p_next s)) (p_dead s)
            else p_set s (p_queue s) h Gone (p_next s) (p_dead s))
    | _ => None
    end
  | PWrite h v =>
    match nth_error (p_handles s) h with
    | Some (Held (i, _)) => Some (p_set s (p_queue s) h (Held (i, v)) (p_next s) (p_dead s))
    | _ => None
    end
  | PDrop h =>
    (* 306-320, 347-361; without a capacity the bound is usize::MAX, never reached *)
    match nth_error (p_handles s) h with
    | Some (Held o) =>
      if match p_cap s with Some c => length (p_queue s) <? c | None => true end
      then Some (p_set s (p_queue s ++ [o]) h Gone (p_next s) (p_dead s))
      else Some (p_set s (p_queue s) h (Dropping o) (p_next s) (p_dead s))
    | _ => None
    end
  | PDestroy h =>
    match nth_error (p_handles s) h with
    | Some (Dropping o) => Some (p_set s (p_queue s) h Gone (p_next s) (fst o :: p_dead s))
    | _ => None
    end
  end.
(** Every sequence of enabled steps is a schedule. *)
Fixpoint p_run (s : pool) (es : list pstep) : option pool :=
  match es with
  | [] => Some s
  | e :: es => match p_step s e with Some s' => p_run s' es | None => None end
  end.
End Pool.
Arguments obj : clear implicits. Arguments hstate : clear implicits.
Arguments pool : clear implicits. Arguments pstep : clear implicits.

(** [AsPooled<Undef> for Vec<T>]; 284-295: [vec![default; len]] and [resize]. *)
Definition undef_create {T} (d : T) (len : nat) : list T := repeat d len.
Definition undef_modify {T} (d : T) (v : list T) (len : nat) : list T :=
  firstn len v ++ repeat d (len - length v).
