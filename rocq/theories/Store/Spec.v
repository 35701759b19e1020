(** What the in-memory store promises, in terms of handles and events. *)
From Verif.Lib Require Import Base.
From Verif.Epoch Require Import Model.
From Verif.Store Require Import Model.

(** Every state some interleaving of calls leads to, from a new store. *)
Definition sreachable (entries bytes_per guards cap ncols : nat) (rows : list bytes) (σ : store) : Prop :=
  exists σ0 sched, store_new entries bytes_per guards cap ncols rows = Some σ0 /\ 0 < guards /\ 0 < cap /\
    srun sched σ0 = Some σ.

(** Client [o] has (mutable) access to the contents of slot [i] through a [Slot]; a call of
    [acquire] that has claimed its slot and not yet returned counts. *)
Definition has_slot (σ : store) (o i : nat) : Prop :=
  match s_cl σ o with
  | WHeld j | AScanAt _ _ _ (Some j) _ _ | AScanPush _ _ _ j _ _ => i = j
  | _ => False
  end.
(** Client [o] holds a [Reader] that has handed out slice [i], which then contained [v]. *)
Definition has_slice (σ : store) (o i : nat) (v : bytes) : Prop :=
  match s_cl σ o with RHeld got => In (i, v) got | _ => False end.

(** The contents given to the last publication of [i]. *)
Fixpoint last_published (log : list sevent) (i : nat) (v : option bytes) : option bytes :=
  match log with
  | [] => v
  | SPublish _ j w :: log => last_published log i (if j =? i then Some w else v)
  | _ :: log => last_published log i v
  end.
(** Whether, after [log], slot [i] is published (the call returned) and not retired since. *)
Fixpoint live (log : list sevent) (i : nat) (b : bool) : bool :=
  match log with
  | [] => b
  | SPublished _ j :: log => live log i (if j =? i then true else b)
  | SRetire _ j None :: log => live log i (if j =? i then false else b)
  | _ :: log => live log i b
  end.
(** No call is in progress and no handle is held. *)
Definition squiescent (σ : store) : Prop := forall o, s_cl σ o = CIdle.

(** Slot [i] is neither published nor owned by a writer: free, or retired and not reclaimed yet. *)
Definition free (σ : store) (i : nat) : Prop := live (s_log σ) i false = false /\ forall o, ~ has_slot σ o i.
(** No call is in progress and no reader is held (writers may hold slots). *)
Definition no_reader_no_call (σ : store) : Prop :=
  forall o, match s_cl σ o with CIdle | WHeld _ => True | _ => False end.

(** Between two calls: idle, or holding a reader or a slot. *)
Definition at_rest (p : pc) : Prop := match p with CIdle | RHeld _ | WHeld _ => True | _ => False end.
(** Histories whose calls do not overlap (handles may). *)
Inductive ssequential (entries bytes_per guards cap ncols : nat) (rows : list bytes) : store -> Prop :=
| seq_new σ : store_new entries bytes_per guards cap ncols rows = Some σ -> 0 < guards -> 0 < cap ->
    ssequential entries bytes_per guards cap ncols rows σ
| seq_step σ o c σ' : ssequential entries bytes_per guards cap ncols rows σ ->
    (forall x, x <> o -> at_rest (s_cl σ x)) -> sstep o c σ = Some σ' ->
    ssequential entries bytes_per guards cap ncols rows σ'.
