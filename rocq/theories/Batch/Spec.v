(** Searching one query after the other, and parts put end to end. *)
From Coq Require Import List PeanoNat.
From Verif.Batch Require Import Model.
Import ListNotations.

(** A search alone with a list that holds at most [cap] ids: the list and the result at the end. *)
Fixpoint alone {I O E : Type} (cap : option nat) (p : prog I O E) (l : list I) : list I * (E + O) :=
  let room := match cap with Some c => Some (c - length l) | None => None end in
  match p with
  | Done o => (l, inr o)
  | Abort e => (l, inl e)
  | Push x k => match room with
                | Some 0 => alone cap (k true) l
                | Some 1 => alone cap (k true) (l ++ [x])
                | _ => alone cap (k false) (l ++ [x])
                end
  | Extend xs k => let taken := match room with Some r => firstn r xs | None => xs end in alone cap (k (length taken)) (l ++ taken)
  | SizeHint k => alone cap (k room) l
  | CurrentLen k => alone cap (k (length l)) l
  end.
(** The queries [0], ..., [n - 1], one after the other: the first error, or all lists and outputs. *)
Fixpoint one_by_one {I O E : Type} (cap : option nat) (search : nat -> prog I O E) (queries : list nat) : E + (list (list I) * list O) :=
  match queries with
  | [] => inr ([], [])
  | q :: queries =>
      match alone cap (search q) [] with
      | (_, inl e) => inl e
      | (l, inr o) => match one_by_one cap search queries with inl e => inl e | inr (ls, os) => inr (l :: ls, o :: os) end
      end
  end.
(** What can be read from results: the number of rows and each row. *)
Definition reads {I : Type} (r : inner (I := I)) (rows : list (list I)) : Prop := nrows r = length rows /\ forall i, row r i = nth_error rows i.
(** A matrix has rows of one length, and a length for each row. *)
Definition formed {I : Type} (r : inner (I := I)) : Prop :=
  match r with Fixed b => length (ids b) = length (lengths b) /\ Forall (fun r => length r = ncols b) (ids b) | Dynamic _ => True end.
