(** Specification vocabulary for graph search. *)
From Verif.Lib Require Import Base Lists F32.
From Verif.Search Require Import Model.
From Verif.Queue Require Export Spec.

(** [v] is in the stored adjacency list of [u]. *)
Definition edge (graph : nat -> option (list nat)) (u v : nat) : Prop :=
  exists ns, graph u = Some ns /\ In v ns.

(** Reachable from the start points along stored edges. *)
Inductive reach (graph : nat -> option (list nat)) (starts : list nat) : nat -> Prop :=
| reach_start s : In s starts -> reach graph starts s
| reach_edge u v : reach graph starts u -> edge graph u v -> reach graph starts v.

(** A finite index: some finite set contains the start points and is closed under edges. *)
Definition finite_index (graph : nat -> option (list nat)) (starts univ : list nat) : Prop :=
  incl starts univ /\ forall u v, In u univ -> edge graph u v -> In v univ.

(** [x] carries the true distance of its id. *)
Definition scored (dist : nat -> option f32) (x : nbr) : Prop := dist (n_id x) = Some (n_dist x).

(** Strictly closer to the query. *)
Definition nearer (d d' : f32) : Prop := f32_lt d d' = true.

(** Reachable from [from] through nodes at distance at most [limit]. *)
Inductive linked (graph : nat -> option (list nat)) (dist : nat -> option f32) (limit : f32)
    (from : list nat) : nat -> Prop :=
| linked_start s : In s from -> linked graph dist limit from s
| linked_edge u v d : linked graph dist limit from u -> edge graph u v -> dist v = Some d ->
    f32_le d limit = true -> linked graph dist limit from v.
