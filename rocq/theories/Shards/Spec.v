(** Specification side of the sharded build (C79-C81). *)
From Coq Require Import List NArith Bool Permutation Sorting.
From Verif.Lib Require Import Base Lists Bytes.
From Verif.Disk Require Import Model Spec.
Import ListNotations.

(** ** Closest centers *)

(** [lt] orders the distances [ds] totally (no NaN among them). *)
Definition total_on {D} (lt : D -> D -> bool) (ds : list D) : Prop :=
  forall x y z, In x ds -> In y ds -> In z ds -> lt x y = false -> lt y z = false -> lt x z = false.
(** What holds of [<] on floats, NaN included. *)
Definition strict {D} (lt : D -> D -> bool) : Prop :=
  (forall x, lt x x = false) /\ (forall x y z, lt x y = true -> lt y z = true -> lt x z = true).
(** What is assumed of a binary heap: nothing is lost, and if the distances are ordered totally
    they come out in order. *)
Definition any_heap {D} (lt : D -> D -> bool) (heap : list (nat * D) -> list (nat * D)) : Prop :=
  forall l, Permutation (heap l) l /\
    (total_on lt (map snd l) -> StronglySorted (fun a b => lt (snd b) (snd a) = false) (heap l)).

(** ** Files of ids *)
Definition ids_file (ids : list N) : bytes := bin_file 1 (map (le_enc 4) ids).

(** ** Graphs of shards *)

(** A shard: the ids of its vectors and its graph over positions. *)
Record shard := mkshard { sh_ids : list N; sh_lists : list (list N); sh_start : N; sh_size : N; sh_degree : N }.
Definition shard_file (s : shard) : bytes := graph_file (sh_size s) (sh_degree s) (sh_start s) 0 (sh_lists s).
Record shard_ok (s : shard) : Prop := {
  so_sorted : StronglySorted N.lt (sh_ids s);
  so_ids : Forall u32_ok (sh_ids s);
  so_length : length (sh_lists s) = length (sh_ids s);
  so_lists : Forall (fun l => u32_ok (N.of_nat (length l)) /\ Forall (fun i => (i < N.of_nat (length (sh_ids s)))%N) l) (sh_lists s);
  so_start : (sh_start s < N.of_nat (length (sh_ids s)))%N }.
(** [v -> w] is an edge of the graph of the shard, in terms of ids. *)
Definition shard_edge (s : shard) (v w : N) : Prop :=
  exists j l i, nth_error (sh_ids s) j = Some v /\ nth_error (sh_lists s) j = Some l /\
    In i l /\ nth_error (sh_ids s) (N.to_nat i) = Some w.
Definition some_edge (ss : list shard) (v w : N) : Prop := exists s, In s ss /\ shard_edge s v w.

(** The lists of a merged graph: for every node, [maxd] of its neighbors in the shards, or all
    of them if they are not more. *)
Definition merged (ss : list shard) (maxd : N) (lists : list (list N)) : Prop :=
  forall v l, nth_error lists v = Some l ->
    NoDup l /\ (forall w, In w l -> some_edge ss (N.of_nat v) w) /\
    exists all, NoDup all /\ (forall w, In w all <-> some_edge ss (N.of_nat v) w) /\
      length l = Nat.min (N.to_nat maxd) (length all).
(** Every id below [n] is in some shard, and no other. *)
Definition covers (ss : list shard) (n : nat) : Prop :=
  forall v, (exists s, In s ss /\ In v (sh_ids s)) <-> (v < N.of_nat n)%N.

(** Nodes reachable from a node of a graph. *)
Inductive reaches (edge : N -> N -> Prop) (a : N) : N -> Prop :=
| reaches_self : reaches edge a a
| reaches_step b c : reaches edge a b -> edge b c -> reaches edge a c.

(** ** Reading chosen vectors *)

(** Give the vectors with the ids [ids] to a function in this order, until it fails or an id
    does not exist. *)
Fixpoint process_ids {St} (process : St -> bytes -> St * bool) (vecs : list bytes) (ids : list N) (st : St) : St * bool :=
  match ids with
  | [] => (st, true)
  | i :: ids' =>
    match nth_error vecs (N.to_nat i) with
    | None => (st, false)
    | Some v => let (st, ok) := process st v in if ok then process_ids process vecs ids' st else (st, false)
    end
  end.

(** ** Shards of a dataset *)

(** The ids of the vectors assigned to shard [s], if vector [i] is assigned to [sel i]. *)
Definition members (sel : nat -> list nat) (n s : nat) : list N :=
  map N.of_nat (filter (fun i => existsb (Nat.eqb s) (sel i)) (seq 0 n)).
(** Edges of a graph given by lists. *)
Definition list_edge (lists : list (list N)) (v w : N) : Prop := exists l, nth_error lists (N.to_nat v) = Some l /\ In w l.
