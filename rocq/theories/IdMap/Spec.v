(** The id map, abstractly: a partial injection from external to internal ids. *)
From Verif.Lib Require Import Base.
From Verif.IdMap Require Import Model.

Definition ireachable (sh : nat -> nat) (cap : nat) (m : idmap) : Prop := exists sched, irun sh sched (im_new cap) = Some m.

(** The mapping after a history of successful insertions and deletions. *)
Definition apply (f : nat -> option nat) (ev : ievent) : nat -> option nat :=
  match ev with
  | EInserted _ e i => upd f e (Some i)
  | EDeleted _ e _ => upd f e None
  | _ => f
  end.
Definition mapping (log : list ievent) : nat -> option nat := fold_left apply log (fun _ => None).
Definition injective (f : nat -> option nat) : Prop := forall e e' i, f e = Some i -> f e' = Some i -> e = e'.

(** What each call may answer, given the mapping at that moment. *)
Definition answer_ok (cap : nat) (f : nat -> option nat) (ev : ievent) : Prop :=
  match ev with
  | EInserted _ e i => i < cap /\ f e = None /\ forall e', f e' <> Some i
  | EInsertErr _ _ i OutOfBounds => cap <= i
  | EInsertErr _ e i ExternalExists => i < cap /\ f e <> None
  | EInsertErr _ e i InternalExists => i < cap /\ f e = None /\ exists e', f e' = Some i
  | EOccupied _ e i | EDeleted _ e i | EDropped _ e i => f e = Some i
  | EVacant _ e => f e = None
  | EPanic _ => False
  end.
