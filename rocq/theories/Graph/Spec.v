(** Specification vocabulary for the graph operations. *)
From Verif.Lib Require Import Base Lists F32.
From Verif.Adjacency Require Import Spec.
From Verif.Prune Require Import Spec.
From Verif.Graph Require Import Model.

(** Every stored list is within the degree, without repetition; and no node lists itself. *)
Definition bounded_distinct (max : nat) (g : graph) : Prop :=
  forall v, NoDup (g v) /\ length (g v) <= max.
Definition no_self_loops (g : graph) : Prop := forall v, ~ In v (g v).

(** What the configuration guarantees (config/mod.rs 258-335), that alpha is a number below
    the largest float, and the contracts of the standard library's sorting functions. *)
Definition cfg_ok {V} (P : gpar V) : Prop :=
  sane_alpha (c_alpha (p_prune P)) /\ 1 <= degree P <= p_max_degree P /\
  (N.of_nat (p_max_occ P) <= 65535)%N /\
  select_contract (p_select P) /\ sort_contract (p_sort P).

(** A search reports every node at most once (C25). *)
Definition search_ok {V} (env : nat -> @attempt V) : Prop :=
  forall n vis, a_visited (env n) = Some vis -> NoDup (map n_id vis).

(** Whenever vectors are fetched, none is missing. *)
Definition sees {V} (fills : nat -> fview V) : Prop :=
  forall i view v, fills i = Some view -> view v <> None.

(** What the environment of an operation guarantees: searches report distinct nodes; the ids
    of a batch are distinct and (if members of a batch consider each other) were not in the
    graph before; hash tables are iterated in some order; tasks work on different nodes. *)
Definition op_ok {V} (P : gpar V) (o : @gop V) : Prop :=
  match o with
  | OInsert id env fills => search_ok env
  | OMultiInsert ids e =>
      (forall pos, search_ok (mi_att e pos)) /\
      (p_intra P (length ids) <> 0 -> NoDup ids /\
         forall pos n vis i, a_visited (mi_att e pos n) = Some vis ->
           In i ids -> ~ In i (map n_id vis)) /\
      NoDup (concat (mi_tasks e))
  | ODelete p num m e => forall es, Permutation es (d_iter e es)
  | OMultiDelete chunks num m =>
      Forall (fun c => forall ms, NoDup (concat (b_tasks (snd c) ms))) chunks
  | OConsolidate v e => forall l, Permutation l (cv_order e l)
  | ODropDeleted _ _ _ _ | OPruneRange _ _ | ODropList _ => True
  end.

(** No vector is missing when the back edges of an operation are pruned. *)
Definition op_sees {V} (o : @gop V) : Prop :=
  match o with
  | OInsert _ _ fills => sees fills
  | OMultiInsert _ e => forall t, sees (mi_fills e t)
  | ODelete _ _ _ e => sees (d_fills e)
  | _ => True
  end.

(** Every operation a schedule starts satisfies [Q]. *)
Definition starts {V} (Q : @gop V -> Prop) (sched : list (@act V)) : Prop :=
  forall o, In (Start o) sched -> Q o.

(** A schedule in which an operation starts only when all earlier ones have returned. *)
Definition idle (w : world) : bool :=
  match results (w_run w) with Some _ => true | None => false end.
Fixpoint one_at_a_time {V} (P : gpar V) (pv : prov) (sched : list act) (w : world) : Prop :=
  match sched with
  | [] => True
  | a :: sched =>
    (match a with Start _ => idle w = true | Go _ _ _ => True end) /\
    match wstep P pv a w with Some w => one_at_a_time P pv sched w | None => True end
  end.

(** A provider that appends everything when nothing is repeated and it fits. *)
Definition appends_exactly (pv : prov) : Prop :=
  forall l new, NoDup (l ++ new) -> length (l ++ new) <= pv_cap pv -> pv_app pv l new = l ++ new.
(** A provider that invents nothing. *)
Definition appends_only (pv : prov) : Prop :=
  forall l new x, In x (pv_app pv l new) -> In x l \/ In x new.

(** [o], run alone on [g] from start to finish, returns without error and leaves [g']. *)
Definition finishes {V} (P : gpar V) (pv : prov) (o : @gop V) (g g' : graph) : Prop :=
  exists sched r, (forall a, In a sched -> exists i path bad, a = Go i path bad) /\
    wrun P pv (Start o :: sched) (mkW g []) = Some (mkW g' [Ret (Some r)]).

(** The nodes an in-place delete of [p] examines for references to [p]: the results of the
    search; the neighbours of [p] that are not deleted; or those and their neighbours. *)
Definition examined {V} (e : @denv V) (m : method) (p : nat) (g : graph) (q : nat) : Prop :=
  match m with
  | VisitedAndTopK _ => exists ids, d_post e = Some ids /\ In q ids
  | OneHop => In q (g p) /\ d_status1 e q = false
  | TwoHopAndOneHop => d_status2 e q = false /\
      exists n, In n (g p) /\ d_status1 e n = false /\ (q = n \/ In q (g n))
  end.
(** An in-neighbour it processes: examined, refers to [p], and its vector can be retrieved. *)
Definition processed {V} (e : @denv V) (m : method) (p : nat) (g : graph) (q : nat) : Prop :=
  examined e m p g q /\ In p (g q) /\ exists view v, d_view e = Some view /\ view q = Some v.

(** What consolidation of [v] may link to: neighbours that are not deleted, and the
    neighbours of deleted neighbours that are not deleted; never [v]. *)
Definition consolidated {V} (e : @cenv V) (v : nat) (g : graph) (x : nat) : Prop :=
  x <> v /\
  ((In x (g v) /\ cv_status e 0 x = false) \/
   exists i d, nth_error (filter (cv_status e 0) (g v)) i = Some d /\
     In x (g d) /\ cv_status e (S i) x = false).
