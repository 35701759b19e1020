(** Specification vocabulary for searching a disk index. *)
From Verif.Lib Require Import Base Lists F32.
From Verif.Filtered Require Export Spec.
From Verif.Output Require Export Spec.
From Verif.DiskSearch Require Import Model.

Section stored.
Context {V A : Type} (nodes : nat -> option (node V A)).

(** The stored graph, and the PQ distances of the stored points. *)
Definition graph_of (i : nat) : option (list nat) := option_map nd_adj (nodes i).
Definition pq_of (pq : nat -> f32) (i : nat) : option f32 :=
  match nodes i with Some _ => Some (pq i) | None => None end.
(** The full precision distances. *)
Definition full_of (full : V -> f32) (i : nat) : option f32 :=
  option_map (fun nd => full (nd_vec nd)) (nodes i).

(** A well formed index of [npts] points: neighbour lists stay inside the index and fit the
    PQ scratch. *)
Record disk_index (npts maxv medoid : nat) : Prop := {
  di_points : forall i, i < npts <-> nodes i <> None;
  di_edges : forall i nd j, nodes i = Some nd -> In j (nd_adj nd) -> j < npts;
  di_degree : forall i nd, nodes i = Some nd -> length (nd_adj nd) <= maxv;
  di_scratch : 0 < maxv;
  di_medoid : medoid < npts
}.

(** What a provider holds for [ids] is what is stored. *)
Definition holds {St} (P : vprov St V A) (s : St) (ids : list nat) : Prop :=
  forall i nd, In i ids -> nodes i = Some nd ->
    v_vector P s i = Some (nd_vec nd) /\ v_adj P s i = Some (nd_adj nd) /\
    v_data P s i = Some (nd_data nd).

(** A provider in one of the states [inv] serves the stored index: a batch of distinct stored
    vertices is either loaded as stored, or an error (a failed read) is reported. *)
Record serves {St} (P : vprov St V A) (inv : St -> Prop) : Prop := {
  sv_load : forall s ids, inv s -> NoDup ids -> (forall i, In i ids -> nodes i <> None) ->
    match ensure_vertex_loaded P s ids with
    | SOk s' => inv s' /\ holds P s' ids
    | SErr => True
    | SPanic | SFuel => False
    end;
  sv_clear : forall s, inv s -> inv (v_clear P s)
}.
(** Reads do not fail. *)
Definition reliable {St} (P : vprov St V A) (inv : St -> Prop) : Prop :=
  forall s ids, inv s -> NoDup ids -> (forall i, In i ids -> nodes i <> None) ->
    ensure_vertex_loaded P s ids <> SErr.

(** The result for a stored point: its id and data, with its full precision distance. *)
Definition items (full : V -> f32) (ids : list nat) : list (item (nat * A)) :=
  flat_map (fun i => match nodes i with
                     | Some nd => [((i, nd_data nd), full (nd_vec nd))]
                     | None => []
                     end) ids.
End stored.

(** [sort_unstable_by] with [fast_distance] on items. *)
Definition item_closer {I} (x y : item I) : Prop := f32_le (snd x) (snd y) = true.
Definition sorts_items {I} (sort : list (item I) -> option (list (item I))) : Prop :=
  forall xs, match sort xs with
             | Some ys => Permutation ys xs /\
                 (Forall (fun x => is_nan (snd x) = false) xs -> StronglySorted item_closer ys)
             | None => exists x, In x xs /\ is_nan (snd x) = true
             end.

(** ** What a search is asked for, and what it finds *)

(** The points a mode may return. *)
Definition allowed {V} (m : @mode V) (i : nat) : bool :=
  match m with
  | FlatScan f | GraphSearch f | DiverseGraph f _ => passes f i
  | InlineFilter ok _ => ok i
  end.
Definition ranks {V} (m : @mode V) : Prop :=
  match m with DiverseGraph _ _ => False | _ => True end.
Definition walks {V} (m : @mode V) : Prop :=
  match m with FlatScan _ => False | _ => True end.

(** The points a filter lets pass, with their PQ distances. *)
Definition flat_points (pq : nat -> f32) (npts : nat) (f : option (nat -> bool)) : list nbr :=
  map (fun i => mkNbr i (pq i)) (filter (passes f) (seq 0 npts)).

Section found.
Context {V A : Type} (nodes : nat -> option (node V A)).
Variable full : V -> f32.
Variable pq : nat -> f32.
Variable npts limit medoid : nat.

(** A walk through the graph that took up the nodes [rec], read the first [limit] of them, and
    computed the PQ distances of [scanned]. *)
Record traversed (rec scanned : list nbr) (t : dstats) : Prop := {
  tr_once : NoDup (map n_id rec);
  tr_seen : incl rec scanned;
  tr_reach : forall x, In x scanned -> reach (graph_of nodes) [medoid] (n_id x);
  tr_scan : scan_of (graph_of nodes) (pq_of nodes pq) [medoid] (firstn limit rec) scanned;
  tr_hops : t_hops t = length rec;
  tr_ios : t_ios t = length (firstn limit rec)
}.

(** The candidates of a search with list size [l]. *)
Definition chosen (l : nat) (m : @mode V) (cands : list nbr) (t : dstats) : Prop :=
  match m with
  | FlatScan f =>
      closest l (valid (flat_points pq npts f)) cands /\
      t_cmps t = length (flat_points pq npts f) /\ t_hops t = 0 /\ t_ios t = 0
  | GraphSearch _ | DiverseGraph _ _ =>
      exists rec scanned, traversed rec scanned t /\ closest (l + 1) (valid scanned) cands /\
        t_cmps t = length scanned
  | InlineFilter ok _ =>
      exists rec scanned, traversed rec scanned t /\ incl cands (filter (accepted ok) scanned) /\
        NoDup (map n_id cands) /\
        (numeric (pq_of nodes pq) -> closest l (filter (accepted ok) scanned) cands) /\
        t_cmps t + 1 = length scanned
  end.

(** The results for the candidates, best first. *)
Definition presented (m : @mode V) (cands : list nbr) (xs : list (item (nat * A))) : Prop :=
  let ids := filter (allowed m) (map n_id cands) in
  match m with
  | DiverseGraph _ select =>
      (ids = [] /\ xs = []) \/
      exists idx, select (flat_map (fun i => match nodes i with
                                             | Some nd => [(nd_vec nd, full (nd_vec nd))]
                                             | None => []
                                             end) ids) = Some idx /\
        map (nth_error (items nodes full ids)) idx = map Some xs
  | _ => Permutation xs (items nodes full ids) /\
      (numeric (full_of nodes full) -> StronglySorted item_closer xs)
  end.

(** What the same search finds in memory. *)
Definition in_memory (sort : list nbr -> option (list nbr)) (fuel l w : nat) (m : @mode V)
    (cands : list nbr) (t : dstats) : Prop :=
  match m with
  | FlatScan _ => True
  | GraphSearch _ | DiverseGraph _ _ => exists st rec,
      knn (graph_of nodes) (pq_of nodes pq) fuel l w (fun _ => false) [medoid] = SOk (cands, st, rec) /\
      t_cmps t = s_cmps st /\ t_hops t = s_hops st
  | InlineFilter ok ad => exists st rec,
      inline_search (graph_of nodes) (pq_of nodes pq) ok sort fuel l w (fun _ => false) ad [medoid]
        = SOk (cands, st, rec) /\
      t_cmps t = s_cmps st /\ t_hops t = s_hops st
  end.

(** Distances are numbers, the adaptive step does not panic and the diversity selection
    returns positions of its input. *)
Definition tame (m : @mode V) : Prop :=
  match m with
  | FlatScan _ | GraphSearch _ => numeric (full_of nodes full)
  | InlineFilter _ ad => numeric (full_of nodes full) /\ numeric (pq_of nodes pq) /\
      match ad with Some (_, g) => forall v c, g v c <> None | None => True end
  | DiverseGraph _ select => forall vs, exists idx, select vs = Some idx /\
      Forall (fun i => i < length vs) idx
  end.
End found.

(** A well formed index, enough fuel, and sorting that sorts. *)
Record ready {V A} (nodes : nat -> option (node V A)) (npts maxv medoid : nat)
    (sort : list nbr -> option (list nbr))
    (sort_items : list (item (nat * A)) -> option (list (item (nat * A)))) (fuel : nat) : Prop := {
  rd_index : disk_index nodes npts maxv medoid;
  rd_sort : sorts sort;
  rd_items : sorts_items sort_items;
  rd_fuel : npts <= fuel
}.
(** Arguments a search accepts. *)
Definition query_ok (k l : nat) (bw : option nat) : Prop := k <= l /\ 0 < l /\ bw <> Some 0.
Definition beam_of (bw : option nat) : nat := match bw with Some b => b | None => 1 end.

(** What a search finds: the candidates, the statistics, and the results best first. *)
Definition found {V A} (nodes : nat -> option (node V A)) full pq npts limit medoid k l (m : @mode V)
    (cands : list nbr) (t : dstats) (xs : list (item (nat * A))) : Prop :=
  chosen nodes pq npts limit medoid l m cands t /\ presented nodes full m cands xs /\
  t_count t = Nat.min k (length xs).

(** A result with its vector. *)
Definition carries {V A} (nodes : nat -> option (node V A)) (x : item (nat * A))
    (r : nat * A * f32 * V) : Prop :=
  fst r = x /\ option_map nd_vec (nodes (fst (fst x))) = Some (snd r).
