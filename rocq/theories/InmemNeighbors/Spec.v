(** The graph, abstractly: one list per id. *)
From Verif.Lib Require Import Base.
From Verif.InmemNeighbors Require Import Model.

Definition nreachable (entries max : nat) (m : nbrs) : Prop :=
  (N.of_nat max < two32)%N /\ exists sched, nrun sched (n_new entries max) = Some m.

(** The lists after a history: only a successful [set] or [append] of an id changes its list. *)
Definition napply (f : nat -> list N) (ev : nevent) : nat -> list N :=
  match ev with
  | NSet _ i l => upd f i l
  | NAppend _ i l => upd f i (f i ++ l)
  | _ => f
  end.
Definition lists (log : list nevent) : nat -> list N := fold_left napply log (fun _ => []).

(** What each call may answer. *)
Definition nanswer (entries max : nat) (f : nat -> list N) (ev : nevent) : Prop :=
  match ev with
  | NGet _ i r => i < entries /\ r = f i
  | NGetErr _ i | NLockErr _ i => entries <= i
  | NSet _ i l => i < entries /\ length l <= max
  | NSetErr _ i l => entries <= i \/ max < length l
  | NLen _ i n => i < entries /\ n = length (f i)
  | NAppend _ i l => i < entries /\ length (f i) + length l <= max
  | NAppendErr _ i l => i < entries /\ max < length (f i) + length l
  | NUB _ => False
  end.
