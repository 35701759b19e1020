(** What ground truth is. *)
From Verif.Lib Require Import Base F32.
From Verif.Queue Require Import Model.
Require Import Coq.Sorting.Sorted.
Local Open Scope nat_scope.

(** The points of a dataset that a filter lets pass, numbered from 0, with their distances to a query. *)
Definition points {V} (dist : V -> V -> f32) (allow : nat -> bool) (query : V) (data : list V) : list nbr :=
  map (fun p => mkNbr (fst p) (dist (snd p) query)) (filter (fun p => allow (fst p)) (combine (seq 0 (length data)) data)).
(** The filter of a query. *)
Definition filter_of (bitmaps : option (list (nat -> bool))) (qi : nat) (i : nat) : bool :=
  match bitmaps with None => true | Some bs => match nth_error bs qi with Some b => b i | None => false end end.
Definition closer (x y : nbr) : Prop := f32_le (n_dist x) (n_dist y) = true.
Definition number (x : nbr) : bool := negb (is_nan (n_dist x)).
(** The [k] closest of [xs] (all if there are fewer), closest first. *)
Definition nearest (k : nat) (xs best : list nbr) : Prop :=
  StronglySorted closer best /\ length best = Nat.min k (length xs) /\
  exists others, Permutation xs (best ++ others) /\ forall x y, In x best -> In y others -> closer x y.
(** Numbers that fit into 32 bits. *)
Definition small (n : nat) : Prop := (N.of_nat n < 2 ^ 32)%N.
(** A filter for every query. *)
Definition filtered {V} (bitmaps : option (list (nat -> bool))) (queries : list V) : Prop :=
  match bitmaps with None => True | Some bs => length queries <= length bs end.
