(** Specification vocabulary for diversity-aware search. *)
From Verif.Lib Require Import Base Lists F32.
From Verif.Queue Require Export Spec.
From Verif.Search Require Export Spec.
From Verif.Diverse Require Import Model.

Section spec.
Variable attr : nat -> option nat.

(** The candidates a diverse search can use: those with a distance and an attribute value. *)
Definition usable (xs : list nbr) : list nbr :=
  filter (fun x => negb (is_nan (n_dist x)) &&
                   match attr (n_id x) with Some _ => true | None => false end) xs.

(** [x] and [y] have the same attribute value. *)
Definition alike (x y : nbr) : bool :=
  match attr (n_id x), attr (n_id y) with
  | Some a, Some b => a =? b
  | _, _ => false
  end.

(** From a list of candidates ordered by distance, keep the [cap] closest of every
    attribute value: a candidate is dropped if [cap] earlier ones are like it. *)
Fixpoint closest_of_each (cap : nat) (earlier xs : list nbr) : list nbr :=
  match xs with
  | [] => []
  | x :: xs' =>
      if length (filter (alike x) earlier) <? cap
      then x :: closest_of_each cap (x :: earlier) xs'
      else closest_of_each cap (x :: earlier) xs'
  end.

(** At most [cap] members of [xs] have the same attribute value. *)
Definition at_most_each (cap : nat) (xs : list nbr) : Prop :=
  forall x, length (filter (alike x) xs) <= cap.

(** No two candidates are at the same distance. *)
Definition no_ties (xs : list nbr) : Prop :=
  NoDup (map (fun x => f32_key (n_dist x)) xs).

(** Everything handed to [insert], in order. *)
Fixpoint d_inserted (ops : list dop) : list nbr :=
  match ops with
  | [] => []
  | DInsert x :: l => x :: d_inserted l
  | DNext :: l => d_inserted l
  end.

(** [ranked] lists exactly the members of [xs], closest first. *)
Definition ranking (xs ranked : list nbr) : Prop :=
  Permutation ranked xs /\ StronglySorted closer ranked.
End spec.
