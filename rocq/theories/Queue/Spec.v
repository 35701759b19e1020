(** Specification vocabulary for the priority queue. *)
From Verif.Lib Require Import Base F32.
From Verif.Queue Require Import Model.
Require Export Coq.Sorting.Sorted.

(** Everything handed to [insert], in order. *)
Fixpoint inserted (ops : list qop) : list nbr :=
  match ops with
  | [] => []
  | QInsert x :: l => x :: inserted l
  | _ :: l => inserted l
  end.

(** The candidates that have a distance at all. *)
Definition valid (xs : list nbr) : list nbr := filter (fun x => negb (is_nan (n_dist x))) xs.

(** Closer or equally close. *)
Definition closer (x y : nbr) : Prop := f32_le (n_dist x) (n_dist y) = true.

(** Only insertions and expansions. *)
Definition plain_op (o : qop) : Prop :=
  match o with QInsert _ | QNext => True | _ => False end.

(** No operation sets the size limit to zero. *)
Definition positive_op (o : qop) : Prop :=
  match o with QReconfigure l => 0 < l | _ => True end.

(** Reachable queues. *)
Definition q_reachable (q : pq) : Prop :=
  exists l auto ops outs, 0 < l /\ Forall positive_op ops /\
    q_run (if auto : bool then pq_new_auto l else pq_new l) ops = Some (q, outs).

(** The entry at index [i] can be expanded: inside the search window and not visited. *)
Definition open_at (q : pq) (i : nat) : Prop :=
  i < Nat.min (q_L q) (q_size q) /\ get_visited q i = Some false.
