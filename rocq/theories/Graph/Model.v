(** Model of the operations of diskann/src/graph/index.rs that write adjacency lists: insert,
    multi-insert, in-place delete, batched in-place delete, consolidation, dropping of deleted
    neighbours, pruning of a range; and of the provider calls they make (diskann/src/provider.rs
    366-404).

    An operation is a program over the provider: one read, one write or one append of an
    adjacency list is one atomic step (each provider holds a lock per list), and tasks spawned
    by an operation run in parallel.  Any number of operations overlap; the scheduler may make
    any provider call fail.  Everything an operation learns from elsewhere (the nodes its search
    visited, which vectors could be retrieved, the status of ids, the iteration order of hash
    tables, how work is split over tasks) is part of the operation's environment, an argument
    the theorems quantify over.  Contents of vectors, id translation, locks and memory are not
    modelled here. *)
From Verif.Lib Require Import Base Lists F32.
From Verif.Adjacency Require Export Model.
From Verif.Prune Require Export Model.
Require Verif.Work.Model.

(** ** Programs *)

(** A hash map from ids to lists of ids, in some iteration order. *)
Definition amap := list (nat * list nat).

(** [Ret None]: an error was returned.  [Crash]: a panic, or a prune that does not end.
    [Par]: spawn the tasks, wait for all of them, go on with their results ([None] for a task
    that failed or panicked). *)
Inductive prog :=
| Ret (r : option amap)
| Crash
| Get (v : nat) (k : list nat -> prog)
| SetN (v : nat) (l : list nat) (k : prog)
| App (v : nat) (l : list nat) (k : prog)
| Par (ps : list prog) (k : list (option amap) -> prog).

Definition done : prog := Ret (Some []).
Definition fail : prog := Ret None.

(** A graph, and what a provider makes of [append_vector]: the old list and the ids to append
    give the new list.  A list longer than [pv_cap] is not written. *)
Definition graph := nat -> list nat.
Record prov := mkProv { pv_cap : nat; pv_app : list nat -> list nat -> list nat }.

(** diskann-providers simple_neighbor_provider.rs 106-138, diskann-bftree neighbors.rs 248-271,
    diskann-garnet provider.rs 907-944: ids that are present are skipped, what does not fit is
    discarded. *)
Fixpoint app_unique (cap : nat) (l new : list nat) : list nat :=
  match new with
  | [] => l
  | x :: new =>
    if existsb (Nat.eqb x) l then app_unique cap l new
    else if length l <? cap then app_unique cap (l ++ [x]) new
    else l
  end.
(** diskann-inmem provider.rs 795-820: cut off to what fits, nothing skipped. *)
Definition app_plain (cap : nat) (l new : list nat) : list nat := l ++ firstn (cap - length l) new.
Definition prov_unique (cap : nat) : prov := mkProv cap (app_unique cap).
Definition prov_plain (cap : nat) : prov := mkProv cap (app_plain cap).

(** Results of finished tasks. *)
Definition result (p : prog) : option (option amap) :=
  match p with Ret r => Some r | Crash => Some None | _ => None end.
Fixpoint results (ps : list prog) : option (list (option amap)) :=
  match ps with
  | [] => Some []
  | p :: ps =>
    match result p, results ps with Some r, Some rs => Some (r :: rs) | _, _ => None end
  end.

(** One step of a program; [path] names the task that moves, [bad] makes the provider call
    fail.  Every failed provider call makes its caller return the error. *)
Fixpoint pstep (pv : prov) (path : list nat) (bad : bool) (p : prog) (g : graph)
  : option (prog * graph) :=
  match path, p with
  | [], Get v k => Some (if bad then fail else k (g v), g)
  | [], SetN v l k =>
    Some (if bad || (pv_cap pv <? length l) then (fail, g) else (k, upd g v l))
  | [], App v l k => Some (if bad then (fail, g) else (k, upd g v (pv_app pv (g v) l)))
  | [], Par ps k => match results ps with Some rs => Some (k rs, g) | None => None end
  | i :: path, Par ps k =>
    match nth_error ps i with
    | Some q =>
      match pstep pv path bad q g with
      | Some (q, g) => Some (Par (set_nth i q ps) k, g)
      | None => None
      end
    | None => None
    end
  | _, _ => None
  end.

(** ** Configuration (graph/config/mod.rs 180-215) and fixed environment *)

(** config/experimental.rs 25-36. *)
Record retry := mkRetry { rt_max : nat; rt_short : nat; rt_saturate : bool }.

Record gpar (V : Type) := mkPar {
  p_ar : farith; p_dist : V -> V -> f32;
  p_debug : bool; p_kind : idkind; p_fuel : nat;
  p_select : list nbr -> nat -> list nbr * nbr * list nbr;
  p_sort : list nbr -> list nbr;
  p_prune : prune_cfg;
  p_max_degree : nat; p_max_occ : nat; p_backedges : nat;
  p_retry : option retry; p_intra : nat -> nat
}.
Arguments mkPar {V}.
Arguments p_ar {V}. Arguments p_dist {V}. Arguments p_debug {V}. Arguments p_kind {V}.
Arguments p_fuel {V}. Arguments p_select {V}. Arguments p_sort {V}. Arguments p_prune {V}.
Arguments p_max_degree {V}. Arguments p_max_occ {V}. Arguments p_backedges {V}.
Arguments p_retry {V}. Arguments p_intra {V}.
Definition degree {V} (P : gpar V) : nat := c_degree (p_prune P).

(** [PruneAccessor::fill]: the vectors that could be retrieved, or an error. *)
Definition fview (V : Type) := option (nat -> option V).

Definition memb (l : list nat) (x : nat) : bool := existsb (Nat.eqb x) l.

Inductive res (A : Type) := ROk (a : A) | RMissing | RErr | RPanic.
Arguments ROk {A}. Arguments RMissing {A}. Arguments RErr {A}. Arguments RPanic {A}.

Section ops.
Context {V : Type}.
Variable P : gpar V.

(** [get_neighbors] into an [AdjacencyList] ([overwrite_trusted]). *)
Definition get_adj (v : nat) (k : list nat -> prog) : prog :=
  Get v (fun l => match adj_overwrite_trusted (p_debug P) (p_kind P) l with
                  | Some a => k a
                  | None => Crash
                  end).

(** ** Pruning *)

(** [SortedNeighbors::new], then [occlude_list] (2565-2650) with [|id| id == location]. *)
Definition sorted (pool : list nbr) : option (list nbr) :=
  sorted_new (p_select P) (p_sort P) pool (p_max_occ P).
Definition occlude (view : nat -> option V) (loc : nat) (sp : list nbr) (old : list nat) (force : bool)
  : res (list nat) :=
  match occlude_list (p_ar P) (p_dist P) (p_debug P) (p_kind P) (p_fuel P) (p_prune P) force view
          (fun id => id =? loc) sp old with
  | Done l => ROk l
  | _ => RPanic
  end.

(** [robust_prune]; 2349-2380: an empty pool leaves the output list as it was. *)
Definition robust_prune_pool (fv : fview V) (loc : nat) (pool : list nbr) (old : list nat) (force : bool)
  : res (list nat) :=
  match sorted pool with
  | None => RPanic
  | Some [] => ROk old
  | Some sp => match fv with None => RErr | Some view => occlude view loc sp old force end
  end.

(** The candidates of [robust_prune_list] with their distances; 2427-2440. *)
Fixpoint dists (view : nat -> option V) (v : V) (ids : list nat) : list nbr :=
  match ids with
  | [] => []
  | i :: ids =>
    match view i with
    | Some w => mkNbr i (p_dist P v w) :: dists view v ids
    | None => dists view v ids
    end
  end.

(** [robust_prune_list]; 2397-2454.  [old] is the content of the scratch list: an empty input
    list leaves it as it was. *)
Definition robust_prune_list (fv : fview V) (loc : nat) (l old : list nat) (force : bool)
  : res (list nat) :=
  match l with
  | [] => ROk old
  | _ =>
    match fv with
    | None => RErr
    | Some view =>
      match view loc with
      | None => RMissing
      | Some v =>
        match sorted (dists view v (filter (fun i => negb (i =? loc)) l)) with
        | None => RPanic
        | Some sp => occlude view loc sp old force
        end
      end
    end
  end.

(** [robust_prune_with]; 2476-2532. *)
Definition robust_prune_with (fv : fview V) (id : nat) (extras : list nat) (visited : list nbr)
    (old : list nat) (force : bool) : res (list nat) :=
  match fv with
  | None => RErr
  | Some view =>
    let pool :=
      match extras with
      | [] => Some visited
      | _ => match view id with Some v => Some (visited ++ dists view v extras) | None => None end
      end in
    match pool with
    | None => RMissing
    | Some pool =>
      match sorted pool with
      | None => RPanic
      | Some sp => occlude view id sp old force
      end
    end
  end.

(** ** Adding edges *)

(** [add_edge_and_prune]; 2264-2341.  [scratch] is [scratch.neighbors]; the continuation gets
    its new content. *)
Definition add_edge_and_prune (fv : fview V) (targets : list nat) (source : nat)
    (scratch : list nat) (remove : option (list nat)) (k : list nat -> prog) : prog :=
  get_adj source (fun l0 =>
    let l1 := match remove with
              | Some s => adj_retain (fun _ i => negb (memb s i)) l0
              | None => l0
              end in
    let did_remove := match remove with Some s => existsb (memb s) l0 | None => false end in
    match adj_extend (p_kind P) l1 targets with
    | None => Crash
    | Some (l2, n) =>
      if (n =? 0) && negb did_remove then k scratch
      else if length l2 <=? p_max_degree P then
        if did_remove then SetN source l2 (k scratch)
        else match adj_last l2 n with
             | Some edges => App source edges (k scratch)
             | None => k scratch
             end
      else match robust_prune_list fv source l2 scratch false with
           | ROk l => SetN source l (k l)
           | RMissing => SetN source scratch (k scratch)       (* [allow_transient] *)
           | RErr => fail
           | RPanic => Crash
           end
    end).

(** A loop of [add_edge_and_prune] sharing one scratch; [fills] is indexed by the iteration. *)
Fixpoint add_edges (fills : nat -> fview V) (i : nat) (work : amap) (scratch : list nat)
    (remove : option (list nat)) (k : prog) : prog :=
  match work with
  | [] => k
  | (source, targets) :: work =>
    add_edge_and_prune (fills i) targets source scratch remove
      (fun scratch => add_edges fills (S i) work scratch remove k)
  end.

(** ** Insert *)

(** What one search finds, and what can be retrieved for the prune after it. *)
Record attempt := mkAtt { a_visited : option (list nbr); a_fill : fview V }.

Definition should_saturate (n : nat) : bool :=
  match p_retry P with Some r => rt_saturate r && (n =? rt_max r - 1) | None => false end.
Definition should_retry (n found : nat) : bool :=
  match p_retry P with
  | Some r => negb (n =? rt_max r - 1) && (found <? rt_short r)
  | None => false
  end.
Definition num_attempts : nat := match p_retry P with Some r => rt_max r | None => 1 end.

(** The loop of [insert] (266-308) and of [search_and_prune] (383-428). *)
Fixpoint attempts (prune : fview V -> list nbr -> list nat -> bool -> res (list nat))
    (env : nat -> attempt) (fuel n : nat) (old : list nat) : res (list nat) :=
  match fuel with
  | 0 => ROk old
  | S fuel =>
    match a_visited (env n) with
    | None => RErr
    | Some visited =>
      match prune (a_fill (env n)) visited old (should_saturate n) with
      | ROk l => if should_retry n (length l) then attempts prune env fuel (S n) l else ROk l
      | e => e
      end
    end
  end.

(** [insert]; 226-341, from the moment the element has its internal id. *)
Definition insert (id : nat) (env : nat -> attempt) (fills : nat -> fview V) : prog :=
  match attempts (fun fv visited old force => robust_prune_pool fv id visited old force)
          env num_attempts 0 [] with
  | ROk l =>
    SetN id l
      (add_edges fills 0 (map (fun s => (s, [id])) (firstn (p_backedges P) l)) [] None done)
  | RPanic => Crash
  | _ => fail
  end.

(** ** Multi-insert *)

(** [ids]: the internal ids of the batch.  [mi_found]: positions whose search and prune
    succeeded, in the order the tasks returned them; [mi_boot]: likewise for the bootstrap;
    [mi_tasks]: the sources of back edges as split over the tasks. *)
Record menv := mkMenv {
  mi_att : nat -> nat -> attempt; mi_found : list nat;
  mi_boot_fill : nat -> fview V; mi_boot : list nat;
  mi_tasks : list (list nat); mi_fills : nat -> nat -> fview V
}.

(** [search_and_prune]; 349-434. *)
Definition search_and_prune (ids : list nat) (e : menv) (pos : nat) : res (list nat) :=
  match nth_error ids pos with
  | None => RErr
  | Some id =>
    let extras :=
      map (fun j => nth j ids 0) (Verif.Work.Model.around (length ids) pos (p_intra P (length ids))) in
    attempts (fun fv visited old force => robust_prune_with fv id extras visited old force)
      (mi_att e pos) num_attempts 0 []
  end.

Fixpoint pending (ids : list nat) (f : nat -> res (list nat)) (ps : list nat) : amap :=
  match ps with
  | [] => []
  | p :: ps =>
    match nth_error ids p, f p with
    | Some id, ROk l => (id, l) :: pending ids f ps
    | _, _ => pending ids f ps
    end
  end.

(** [multi_insert_bootstrap_leaf]; 597-647. *)
Definition bootstrap_leaf (e : menv) (edges : amap) (n : nat) : res (list nat) :=
  match nth_error edges n with
  | None => RErr
  | Some (source, l) =>
    let cands := adj_from_untrusted
                   (l ++ filter (fun s => negb (s =? source)) (map fst edges)) in
    robust_prune_list (mi_boot_fill e n) source cands [] true
  end.

Fixpoint set_all (es : amap) (k : prog) : prog :=
  match es with [] => k | (v, l) :: es => SetN v l (set_all es k) end.

Definition backedge_work (m : bmap) (keys : list nat) : amap :=
  flat_map (fun s => match m s with Some b => [(s, sort_unstable (b_slice b))] | None => [] end) keys.

(** The number of keys of the aggregated back edges. *)
Definition num_targets (edges : amap) : nat := length (nodup Nat.eq_dec (flat_map snd edges)).

(** [multi_insert]; 815-1030. *)
Definition multi_insert (ids : list nat) (e : menv) : prog :=
  let edges0 := pending ids (search_and_prune ids e) (mi_found e) in
  let n := length ids in
  let boot := (Nat.max (p_intra P n) 1 <? n) && ((num_targets edges0 + 7) / 8 <=? n) in
  let edges := if boot then pending (map fst edges0) (bootstrap_leaf e edges0) (mi_boot e)
               else edges0 in
  match aggregate_backedges (p_debug P) (p_kind P) edges with
  | None => Crash
  | Some m =>
    set_all edges
      (Par (map (fun t => add_edges (mi_fills e t) 0 (backedge_work m (nth t (mi_tasks e) [])) [] None done)
                (seq 0 (length (mi_tasks e))))
           (fun _ => done))
  end.

(** ** In-place delete *)

Inductive method := VisitedAndTopK (k : nat) | TwoHopAndOneHop | OneHop.

(** [d_ok]: translation, [get_delete_element] and [delete] succeed.  [d_status1..3]: which ids
    are reported deleted (or fail) at the three places they are asked for.  [d_post]: the ids
    left by [post_process], or an error.  [d_order]: iteration order of a hash set.  [d_iter]:
    iteration order of the edge map. *)
Record denv := mkDenv {
  d_ok : bool; d_status1 : nat -> bool; d_status2 : nat -> bool; d_status3 : nat -> bool;
  d_post : option (list nat); d_order : list nat -> list nat;
  d_view : fview V; d_iter : amap -> amap; d_fills : nat -> fview V
}.

(** Insertion into a hash set kept as a list without repetitions. *)
Definition hs_add (s : list nat) (x : nat) : list nat := if memb s x then s else s ++ [x].
Definition hs_add_all (s xs : list nat) : list nat := fold_left hs_add xs s.

(** [on_neighbors] / [get_undeleted_neighbors]; 1072-1138: present and deleted neighbours. *)
Definition on_neighbors (status : nat -> bool) (v : nat) (k : list nat -> list nat -> prog) : prog :=
  get_adj v (fun l => k (filter (fun i => negb (status i)) l) (filter status l)).

(** [return_refs_to_deleted_vertex]; 1141-1167. *)
Fixpoint refs_to (p : nat) (cands acc : list nat) (k : list nat -> prog) : prog :=
  match cands with
  | [] => k acc
  | c :: cands =>
    get_adj c (fun l =>
      match adj_contains (p_kind P) l p with
      | Some true => refs_to p cands (acc ++ [c]) k
      | Some false => refs_to p cands acc k
      | None => Crash
      end)
  end.

(** 1270-1277: the two-hop neighbourhood. *)
Fixpoint two_hop (one acc : list nat) (k : list nat -> prog) : prog :=
  match one with
  | [] => k acc
  | n :: one => get_adj n (fun l => two_hop one (hs_add_all (hs_add acc n) l) k)
  end.

(** The three ways to find candidates; 1172-1341.  The continuation gets the replacement
    candidates and the in-neighbours. *)
Definition find_candidates (m : method) (p : nat) (e : denv) (k : list nat -> list nat -> prog) : prog :=
  match m with
  | VisitedAndTopK n =>
    match d_post e with
    | None => fail
    | Some ids => refs_to p ids [] (fun ins => k (firstn n ids) ins)
    end
  | TwoHopAndOneHop =>
    on_neighbors (d_status1 e) p (fun one _ =>
      two_hop one [] (fun two =>
        refs_to p (filter (fun i => negb (d_status2 e i)) (d_order e two)) [] (fun ins => k one ins)))
  | OneHop => on_neighbors (d_status1 e) p (fun one _ => refs_to p one [] (fun ins => k one ins))
  end.

(** 1671-1692, 1699-1723: the replacement candidates closest to [n]. *)
Definition best (view : nat -> option V) (num : nat) (cands : list nat) (n : nat) (v : V) : list nat :=
  map n_id (firstn num (p_sort P (dists view v (filter (fun o => negb (o =? n)) cands)))).

Fixpoint am_insert (m : amap) (k : nat) (l : list nat) : amap :=
  match m with
  | [] => [(k, l)]
  | (k', l') :: m => if k' =? k then (k, l) :: m else (k', l') :: am_insert m k l
  end.
Fixpoint am_push (m : amap) (k x : nat) : amap :=
  match m with
  | [] => [(k, [x])]
  | (k', l) :: m => if k' =? k then (k', l ++ [x]) :: m else (k', l) :: am_push m k x
  end.
Fixpoint am_get (m : amap) (k : nat) : option (list nat) :=
  match m with
  | [] => None
  | (k', l) :: m => if k' =? k then Some l else am_get m k
  end.

Definition edges_in (view : nat -> option V) (num : nat) (cands ins : list nat) : amap :=
  fold_left (fun m n => match view n with
                        | Some v => am_insert m n (best view num cands n v)
                        | None => m
                        end) ins [].
Definition edges_out (view : nat -> option V) (num : nat) (cands : list nat) (m : amap) (out : list nat) : amap :=
  fold_left (fun m n => match view n with
                        | Some v => fold_left (fun m o => am_push m o n) (best view num cands n v) m
                        | None => m
                        end) out m.

(** [inplace_delete_inner]; 1585-1749. *)
Definition delete_inner (p num : nat) (m : method) (e : denv) (k : amap -> prog) : prog :=
  if d_ok e then
    find_candidates m p e (fun cands ins =>
      on_neighbors (d_status3 e) p (fun out _ =>
        match d_view e with
        | None => fail
        | Some view => k (edges_out view num cands (edges_in view num cands ins) out)
        end))
  else fail.

(** [inplace_delete]; 1523-1580. *)
Definition inplace_delete (p num : nat) (m : method) (e : denv) : prog :=
  delete_inner p num m e (fun edges =>
    add_edges (d_fills e) 0 (d_iter e edges) [] (Some [p]) (SetN p [] done)).

(** [multi_inplace_delete]; 1343-1515, one chunk.  [b_tasks]: the sources to modify as handed
    out to the tasks. *)
Record benv := mkBenv {
  b_del : nat -> denv; b_tasks : list (option amap) -> list (list nat);
  b_fills : nat -> nat -> fview V; b_order : list nat -> list nat
}.
Definition batch_targets (ms : list (option amap)) (s : nat) : list nat :=
  flat_map (fun m => match m with
                     | Some m => match am_get m s with Some l => l | None => [] end
                     | None => []
                     end) ms.
(** 1447-1487: a new scratch for every source. *)
Fixpoint batch_worker (fills : nat -> fview V) (ms : list (option amap)) (del : list nat) (i : nat)
    (sources : list nat) : prog :=
  match sources with
  | [] => done
  | s :: sources =>
    add_edge_and_prune (fills i) (batch_targets ms s) s [] (Some del)
      (fun _ => batch_worker fills ms del (S i) sources)
  end.
Definition drop_all (ps : list nat) (k : prog) : prog := fold_right (fun p k => SetN p [] k) k ps.

Definition delete_chunk (ps : list nat) (num : nat) (m : method) (e : benv) (k : prog) : prog :=
  Par (map (fun ip => delete_inner (snd ip) num m (b_del e (fst ip)) (fun edges => Ret (Some edges)))
           (combine (seq 0 (length ps)) ps))
    (fun ms =>
       let tasks := b_tasks e ms in
       Par (map (fun t => batch_worker (b_fills e t) ms ps 0 (nth t tasks [])) (seq 0 (length tasks)))
         (fun _ => drop_all (b_order e ps) k)).
Fixpoint multi_inplace_delete (chunks : list (list nat * benv)) (num : nat) (m : method) : prog :=
  match chunks with
  | [] => done
  | (ps, e) :: chunks => delete_chunk ps num m e (multi_inplace_delete chunks num m)
  end.

(** ** Background maintenance *)

(** [drop_deleted_neighbors]; 1756-1816.  [gone]: the status of the node itself. *)
Fixpoint orphans (del acc : list nat) (k : list nat -> prog) : prog :=
  match del with
  | [] => k acc
  | d :: del => get_adj d (fun l => orphans del (match l with [] => acc | _ => acc ++ [d] end) k)
  end.
Definition drop_deleted (v : nat) (only_orphans gone : bool) (status : nat -> bool) : prog :=
  if gone then done
  else
    on_neighbors status v (fun pool del =>
      let finish pool :=
        match del with
        | [] => if length pool <=? degree P then done else SetN v pool done
        | _ => SetN v pool done
        end in
      if only_orphans then orphans del pool finish else finish pool).

(** [consolidate_vector]; 1819-1931.  [status] is indexed by the call of [on_neighbors]. *)
Record cenv := mkCenv {
  cv_gone : bool; cv_status : nat -> nat -> bool; cv_order : list nat -> list nat; cv_fill : fview V
}.
Fixpoint gather (e : cenv) (i : nat) (del pool : list nat) (k : list nat -> prog) : prog :=
  match del with
  | [] => k pool
  | d :: del =>
    on_neighbors (cv_status e i) d (fun l _ => gather e (S i) del (hs_add_all pool l) k)
  end.
Definition consolidate (v : nat) (e : cenv) : prog :=
  if cv_gone e then done
  else
    on_neighbors (cv_status e 0) v (fun pool del =>
      if (length del =? 0) && (length pool <=? degree P) then done
      else
        gather e 1 del pool (fun pool =>
          let l := cv_order e (filter (fun i => negb (i =? v)) pool) in
          if length l <? degree P then SetN v l done
          else match robust_prune_list (cv_fill e) v l [] false with
               | ROk l => SetN v l done
               | RMissing => done
               | RErr => fail
               | RPanic => Crash
               end)).

(** [prune_range]; 2656-2701. *)
Fixpoint prune_range (fills : nat -> fview V) (i : nat) (ids : list nat) (scratch : list nat) : prog :=
  match ids with
  | [] => done
  | id :: ids =>
    get_adj id (fun l =>
      if length l <=? degree P then prune_range fills (S i) ids scratch
      else match robust_prune_list (fills i) id l scratch false with
           | ROk l => SetN id l (prune_range fills (S i) ids l)
           | RPanic => Crash
           | _ => fail
           end)
  end.

(** ** Operations and schedules *)

Inductive gop :=
| OInsert (id : nat) (env : nat -> attempt) (fills : nat -> fview V)
| OMultiInsert (ids : list nat) (e : menv)
| ODelete (p num : nat) (m : method) (e : denv)
| OMultiDelete (chunks : list (list nat * benv)) (num : nat) (m : method)
| ODropDeleted (v : nat) (only_orphans gone : bool) (status : nat -> bool)
| OConsolidate (v : nat) (e : cenv)
| OPruneRange (ids : list nat) (fills : nat -> fview V)
| ODropList (v : nat).                                            (* [drop_adj_list]; 1060-1068 *)

Definition op_prog (o : gop) : prog :=
  match o with
  | OInsert id env fills => insert id env fills
  | OMultiInsert ids e => multi_insert ids e
  | ODelete p num m e => inplace_delete p num m e
  | OMultiDelete chunks num m => multi_inplace_delete chunks num m
  | ODropDeleted v oo gone status => drop_deleted v oo gone status
  | OConsolidate v e => consolidate v e
  | OPruneRange ids fills => prune_range fills 0 ids []
  | ODropList v => SetN v [] done
  end.

Record world := mkW { w_graph : graph; w_run : list prog }.
Inductive act := Start (o : gop) | Go (i : nat) (path : list nat) (bad : bool).

Definition wstep (pv : prov) (a : act) (w : world) : option world :=
  match a with
  | Start o => Some (mkW (w_graph w) (w_run w ++ [op_prog o]))
  | Go i path bad =>
    match nth_error (w_run w) i with
    | Some p =>
      match pstep pv path bad p (w_graph w) with
      | Some (p, g) => Some (mkW g (set_nth i p (w_run w)))
      | None => None
      end
    | None => None
    end
  end.
Fixpoint wrun (pv : prov) (sched : list act) (w : world) : option world :=
  match sched with
  | [] => Some w
  | a :: sched => match wstep pv a w with Some w => wrun pv sched w | None => None end
  end.
End ops.
