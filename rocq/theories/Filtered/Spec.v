(** Specification vocabulary for filtered search. *)
From Verif.Lib Require Import Base Lists F32 F64.
From Verif.Queue Require Export Spec.
From Verif.Search Require Export Spec.
From Verif.Filtered Require Import Model.

(** [slice::sort_unstable_by] with [fast_distance]: a permutation, in order of distance if all
    distances are numbers; it may only panic if one is not. *)
Definition sorts (sort : list nbr -> option (list nbr)) : Prop :=
  forall xs, match sort xs with
             | Some ys => Permutation ys xs /\
                 (Forall (fun x => is_nan (n_dist x) = false) xs -> StronglySorted closer ys)
             | None => exists x, In x xs /\ is_nan (n_dist x) = true
             end.

(** The [l] closest of [xs], closest first. *)
Definition closest (l : nat) (xs res : list nbr) : Prop :=
  StronglySorted closer res /\ length res = Nat.min l (length xs) /\
  exists others, Permutation xs (res ++ others) /\
    forall x y, In x res -> In y others -> closer x y.

(** [scanned] is exactly the nodes with a distance among the start points and the stored
    neighbours of the nodes [rec], each with its distance. *)
Definition scan_of (graph : nat -> option (list nat)) (dist : nat -> option f32)
    (starts : list nat) (rec scanned : list nbr) : Prop :=
  NoDup (map n_id scanned) /\ Forall (scored dist) scanned /\
  forall i, In i (map n_id scanned) <->
    dist i <> None /\ (In i starts \/ exists x, In x rec /\ edge graph (n_id x) i).

(** All distances are numbers. *)
Definition numeric (dist : nat -> option f32) : Prop :=
  forall i d, dist i = Some d -> is_nan d = false.

(** [sort_unstable_by] with [fast_distance_total]: by distance, then by id. *)
Definition before (x y : nbr) : Prop :=
  nearer (n_dist x) (n_dist y) \/ (~ nearer (n_dist y) (n_dist x) /\ n_id x <= n_id y).
Definition sorts_total (sort : list nbr -> list nbr) : Prop :=
  forall xs, Permutation (sort xs) xs /\
    (Forall (fun x => is_nan (n_dist x) = false) xs -> StronglySorted before (sort xs)).
