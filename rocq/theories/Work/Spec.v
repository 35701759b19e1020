(** Specification of work splitting. *)
From Verif.Lib Require Import Base Lists.

(** [rs] are consecutive ranges from [a] to [b]. *)
Inductive consecutive : nat -> nat -> list (nat * nat) -> Prop :=
| cons_nil a : consecutive a a []
| cons_cons a b c rs : a <= b -> consecutive b c rs -> consecutive a c ((a, b) :: rs).

(** The positions from [i - half] to [i + (len - half)] of a circular buffer of size [max],
    without [i]. *)
Definition window (max i len half : nat) : list nat :=
  map (fun o => (i + max - half + o) mod max) (seq 0 half) ++
  map (fun o => (i + 1 + o) mod max) (seq 0 (len - half)).

(** The items returned by the finished calls. *)
Definition items {W} (evs : list (W * option nat)) : list nat :=
  flat_map (fun e => match snd e with Some i => [i] | None => [] end) evs.

(** Strictly increasing from 0, at least two entries. *)
Definition proper_offsets (l : list nat) : Prop :=
  2 <= length l /\ nth_error l 0 = Some 0 /\
  forall i a b, nth_error l i = Some a -> nth_error l (S i) = Some b -> a < b.
