(** What the free space map promises, in terms of the ids handed out and freed. *)
From Verif.Lib Require Import Base Lists.
From Verif.Fsm Require Import Model.
Local Open Scope N_scope.

(** The latest thing that happened to an id (the history is newest first): handed out and not
    freed since, with the answer of should_quantize, or not in use. *)
Fixpoint holder (h : list event) (id : N) : option bool :=
  match h with
  | [] => None
  | Alloc j q :: h => if j =? id then Some q else holder h id
  | Free j :: h => if j =? id then None else holder h id
  end.
Definition in_use (h : list event) (id : N) : Prop := holder h id <> None.
(** No id is handed out while it is in use; only an id in use is ever freed. *)
Fixpoint exclusive (h : list event) : Prop :=
  match h with
  | [] => True
  | Alloc j _ :: h => ~ in_use h j /\ exclusive h
  | Free j :: h => in_use h j /\ exclusive h
  end.
(** [P] holds in every state a run goes through. *)
Fixpoint always (P : sys -> Prop) (acts : list act) (y : sys) : Prop :=
  P y /\ match acts with [] => True | a :: acts => match act_step a y with None => True | Some y => always P acts y end end.
(** The id space is not exhausted: the last id, [2^32 - 1], has not been minted. *)
Definition room (y : sys) : Prop := next (shm y) < u32_max.
(** Blocks can be read at every restart. *)
Definition readable (acts : list act) : Prop :=
  forall rd w q r n, In (Restart rd w q r n) acts -> forall b, rd b = true.
Definition quiet (y : sys) : Prop := forall p, In p (pcs y) -> p = Idle.
(** Ids [l] are exactly the ids in use. *)
Definition lists_used (l : list N) (h : list event) : Prop := NoDup l /\ forall id, In id l <-> in_use h id.
(** is_free, fsm.rs 270-309, on a store that does not fail; [None]: an error *)
Definition is_free (h : sh) (id : N) : option bool :=
  if next h <=? id then None else
  match maxb h with
  | None => None
  | Some mb => if mb <? block_of id then None else
    match st h (block_of id) with
    | None => None
    | Some b => match nth_error b (N.to_nat (byte_of id)) with Some x => Some (negb (bit_used x (bit_of id))) | None => None end
    end
  end.
(** visit_used, 486-520, on a store that does not fail and a visitor that goes on *)
Definition visit_used (h : sh) : list N :=
  match maxb h with None => [] | Some mb => visit_blocks (st h) (N.to_nat (mb + 1)) 0 end.

(** One caller, a store that never fails, and reuse of freed ids enabled. *)
Definition one_caller (acts : list act) : Prop :=
  forall a, In a acts ->
    match a with
    | Step t ok => ok = true
    | Restart rd w q r n => (forall b, rd b = true) /\ r = true /\ n = 1%nat
    | _ => True
    end.
(** An id never handed out before is handed out only when every smaller id is in use. *)
Fixpoint frugal (h : list event) : Prop :=
  match h with
  | [] => True
  | Alloc id _ :: h => ((forall q, ~ In (Alloc id q) h) -> forall j, j < id -> in_use h j) /\ frugal h
  | Free _ :: h => frugal h
  end.
