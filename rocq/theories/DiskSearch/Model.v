(** Model of searching a disk index: diskann-disk/src/search/provider/disk_provider.rs, and of
    the vertex provider with a cache, cached_disk_vertex_provider.rs.

    The plain vertex provider is modelled in [Disk]; here it is any provider with the
    interface of the trait [VertexProvider].  Full precision distances to the query are a
    function [full] of the stored vector, PQ distances a function [pq] of the id for the
    [npts] compressed vectors.  Timers are left out.  Ids are [nat], hash maps are lists, the
    counters (u32) do not overflow, futures are run to completion. *)
From Verif.Lib Require Import Base Lists F32.
From Verif.Filtered Require Export Model.
From Verif.Output Require Export Model.
Local Open Scope nat_scope.

(** ** Vertex providers *)

(** What is stored for a vertex. *)
Record node (V A : Type) := mkNode { nd_vec : V; nd_adj : list nat; nd_data : A }.
Arguments mkNode {V A}. Arguments nd_vec {V A}. Arguments nd_adj {V A}. Arguments nd_data {V A}.

(** diskann-disk/src/search/traits/vertex_provider.rs [VertexProvider]; in the getters [None]
    is an error. *)
Record vprov (St V A : Type) := mkVprov {
  v_load : St -> list nat -> sres St;
  v_process : St -> nat -> nat -> sres St;
  v_vector : St -> nat -> option V;
  v_adj : St -> nat -> option (list nat);
  v_data : St -> nat -> option A;
  v_clear : St -> St
}.
Arguments mkVprov {St V A}. Arguments v_load {St V A}. Arguments v_process {St V A}.
Arguments v_vector {St V A}. Arguments v_adj {St V A}. Arguments v_data {St V A}.
Arguments v_clear {St V A}.

(** disk_provider.rs:1485-1494 [ensure_vertex_loaded]. *)
Fixpoint process_all {St V A} (P : vprov St V A) (s : St) (ids : list nat) (idx : nat) : sres St :=
  match ids with
  | [] => SOk s
  | i :: ids' =>
      match v_process P s i idx with
      | SOk s' => process_all P s' ids' (S idx)
      | SErr => SErr
      | SPanic => SPanic
      | SFuel => SFuel
      end
  end.
Definition ensure_vertex_loaded {St V A} (P : vprov St V A) (s : St) (ids : list nat) : sres St :=
  match v_load P s ids with
  | SOk s' => process_all P s' ids 0
  | SErr => SErr
  | SPanic => SPanic
  | SFuel => SFuel
  end.

(** cached_disk_vertex_provider.rs:24-41 [CachedDiskVertexProvider].  [cache] is the shared
    node cache (data_model/cache.rs, modelled in [Disk], C48). *)
Record cst (St : Type) := mkCst { c_under : St; c_map : list (nat * nat); c_count : nat }.
Arguments mkCst {St}. Arguments c_under {St}. Arguments c_map {St}. Arguments c_count {St}.

Section cached.
Context {St V A : Type} (P : vprov St V A) (cache : nat -> option (node V A)).

(** 141-156 [filter_cached_nodes], from position [idx] with [n] uncached ids so far. *)
Fixpoint filter_cached (idx n : nat) (ids : list nat) : list (nat * nat) * list nat :=
  match ids with
  | [] => ([], [])
  | i :: ids' =>
      match cache i with
      | Some _ => filter_cached (S idx) n ids'
      | None => let (m, u) := filter_cached (S idx) (S n) ids' in ((idx, n) :: m, i :: u)
      end
  end.
Definition find_nat {B} (k : nat) (m : list (nat * B)) : option B :=
  option_map snd (find (fun e => fst e =? k) m).

(** 79-90 [load_vertices]. *)
Definition cached_load (s : cst St) (ids : list nat) : sres (cst St) :=
  let (m, u) := filter_cached 0 0 ids in
  match u with
  | [] => SOk (mkCst (c_under s) m (c_count s + length ids))
  | _ =>
      match v_load P (c_under s) u with
      | SOk s' => SOk (mkCst s' m (c_count s + length ids))
      | SErr => SErr
      | SPanic => SPanic
      | SFuel => SFuel
      end
  end.

(** 92-102 [process_loaded_node]; a missing index panics. *)
Definition cached_process (s : cst St) (i idx : nat) : sres (cst St) :=
  match cache i with
  | Some _ => SOk s
  | None =>
      match find_nat idx (c_map s) with
      | None => SPanic
      | Some idx' =>
          match v_process P (c_under s) i idx' with
          | SOk s' => SOk (mkCst s' (c_map s) (c_count s))
          | SErr => SErr
          | SPanic => SPanic
          | SFuel => SFuel
          end
      end
  end.

(** 49-77 the getters, 108-112 [clear]. *)
Definition cached_vprov : vprov (cst St) V A :=
  mkVprov cached_load cached_process
    (fun s i => match cache i with Some nd => Some (nd_vec nd) | None => v_vector P (c_under s) i end)
    (fun s i => match cache i with Some nd => Some (nd_adj nd) | None => v_adj P (c_under s) i end)
    (fun s i => match cache i with Some nd => Some (nd_data nd) | None => v_data P (c_under s) i end)
    (fun s => mkCst (v_clear P (c_under s)) [] 0).
End cached.

(** ** The accessor *)

(** disk_provider.rs:325-326 [DistanceCacheEntry]; 675-683 [DiskSearchScratch] and 735-744
    [DiskAccessor] with the io counter of [IOTracker] (246-275). *)
Record dacc (St V A : Type) := mkAcc {
  d_vp : St; d_cache : list (nat * (f32 * A * option V)); d_io : nat }.
Arguments mkAcc {St V A}. Arguments d_vp {St V A}. Arguments d_cache {St V A}. Arguments d_io {St V A}.

Section disk.
Context {St V A : Type} (P : vprov St V A).
Variable full : V -> f32.
Variable pq : nat -> f32.
Variable npts maxv limit medoid : nat.
Variable keepv : bool.                       (* cache_indexed_vectors *)

(** 752-776 [pq_distances]: the scratch holds [maxv] vectors (an error otherwise,
    fixed_chunk_pq_table.rs:617-632), an id without a compressed vector panics. *)
Definition pq_distances (ids : list nat) : sres (list nbr) :=
  if maxv <? length ids then SErr
  else if forallb (fun i => i <? npts) ids then SOk (map (fun i => mkNbr i (pq i)) ids)
  else SPanic.

(** 911-924: the distance cache is filled. *)
Fixpoint cache_all (s : St) (c : list (nat * (f32 * A * option V))) (ids : list nat)
  : option (list (nat * (f32 * A * option V))) :=
  match ids with
  | [] => Some c
  | i :: ids' =>
      match v_vector P s i, v_data P s i with
      | Some v, Some a => cache_all s ((i, (full v, a, if keepv then Some v else None)) :: c) ids'
      | _, _ => None
      end
  end.

(** 901-926 [ensure_loaded]. *)
Definition ensure_loaded (acc : dacc St V A) (ids : list nat) : sres (dacc St V A) :=
  match ids with
  | [] => SOk acc
  | _ =>
      match ensure_vertex_loaded P (d_vp acc) ids with
      | SOk s =>
          match cache_all s (d_cache acc) ids with
          | Some c => SOk (mkAcc s c (d_io acc + length ids))
          | None => SErr
          end
      | SErr => SErr
      | SPanic => SPanic
      | SFuel => SFuel
      end
  end.

(** 824-831: the neighbours the predicate [NotInMut] lets pass. *)
Fixpoint fresh (visited ns : list nat) : list nat * list nat :=
  match ns with
  | [] => (visited, [])
  | n :: ns' =>
      if seen n visited then fresh visited ns'
      else let (v', o) := fresh (n :: visited) ns' in (v', n :: o)
  end.

(** 821-834. *)
Fixpoint expand_loaded (s : St) (visited ids : list nat) : sres (list nat * list nbr) :=
  match ids with
  | [] => SOk (visited, [])
  | i :: ids' =>
      match v_adj P s i with
      | None => SErr
      | Some ns =>
          let (v1, o) := fresh visited ns in
          match pq_distances o with
          | SOk out =>
              match expand_loaded s v1 ids' with
              | SOk (v2, out2) => SOk (v2, out ++ out2)
              | e => e
              end
          | SErr => SErr
          | SPanic => SPanic
          | SFuel => SFuel
          end
      end
  end.

(** 803-840 [expand_beam]; the subtraction underflows if more was read than allowed. *)
Definition d_expand (acc : dacc St V A) (visited ids : list nat)
  : sres (dacc St V A * list nat * list nbr) :=
  if limit <? d_io acc then SPanic
  else
    let load_ids := firstn (limit - d_io acc) ids in
    match ensure_loaded acc load_ids with
    | SOk acc' =>
        match expand_loaded (d_vp acc') visited load_ids with
        | SOk (vis, out) => SOk (acc', vis, out)
        | SErr => SErr
        | SPanic => SPanic
        | SFuel => SFuel
        end
    | SErr => SErr
    | SPanic => SPanic
    | SFuel => SFuel
    end.

(** 842-844 [terminate_early]. *)
Definition d_stop (acc : dacc St V A) : bool := limit <? d_io acc.

(** ** Graph search (index.rs [search_internal], see [Search]) with this accessor *)

(** index.rs:1947-1957 with 795-801 [start_point_distances]. *)
Definition d_init (st : sst) : sres sst :=
  match pq_distances [medoid] with
  | SOk xs =>
      match insert_all (s_best st) xs with
      | None => SPanic
      | Some q => SOk (mkSst q [medoid] (s_cmps st + length xs) (s_hops st))
      end
  | SErr => SErr
  | SPanic => SPanic
  | SFuel => SFuel
  end.

(** index.rs:1972-1991: a round after the beam was collected. *)
Definition d_step (acc : dacc St V A) (q1 : Queue.Model.pq) (beam : list nbr) (st : sst)
  : sres (dacc St V A * sst * list nbr) :=
  match d_expand acc (s_vis st) (map n_id beam) with
  | SOk (acc', vis, ns) =>
      match insert_all q1 ns with
      | None => SPanic
      | Some q2 =>
          SOk (acc', mkSst q2 vis (s_cmps st + length ns) (s_hops st + length beam), ns)
      end
  | SErr => SErr
  | SPanic => SPanic
  | SFuel => SFuel
  end.

(** index.rs:1959-1992. *)
Fixpoint d_loop (fuel bw : nat) (acc : dacc St V A) (st : sst)
  : sres (dacc St V A * sst * list nbr) :=
  if has_notvisited (s_best st) && negb (d_stop acc) then
    match fuel with
    | 0 => SFuel
    | S fuel' =>
        match take_beam bw (s_best st) with
        | None => SPanic
        | Some (q1, beam) =>
            match d_step acc q1 beam st with
            | SOk (acc', st', _) =>
                match d_loop fuel' bw acc' st' with
                | SOk (a, s, rec) => SOk (a, s, beam ++ rec)
                | e => e
                end
            | SErr => SErr
            | SPanic => SPanic
            | SFuel => SFuel
            end
        end
    end
  else SOk (acc, st, []).

(** knn_search.rs:160-183: the candidates, with one start point. *)
Definition d_knn (fuel l bw : nat) (acc : dacc St V A)
  : sres (list nbr * dacc St V A * sst * list nbr) :=
  match d_init (scratch_new (l + 1)) with
  | SOk st0 =>
      match d_loop fuel bw acc st0 with
      | SOk (acc', st, rec) =>
          match pq_iter (s_best st) with
          | Some res => SOk (res, acc', st, rec)
          | None => SPanic
          end
      | SErr => SErr
      | SPanic => SPanic
      | SFuel => SFuel
      end
  | SErr => SErr
  | SPanic => SPanic
  | SFuel => SFuel
  end.

(** ** Inline filtered search (inline_filter_search.rs, see [Filtered]) with this accessor *)
Section inline.
Variable ok : nat -> bool.
Variable sort : list nbr -> option (list nbr).

(** inline_filter_search.rs:185-197. *)
Definition d_inline_init (st : sst) : sres ist :=
  match pq_distances [medoid] with
  | SOk xs =>
      match insert_all (s_best st) xs with
      | None => SPanic
      | Some q => SOk (mkIst (mkSst q [medoid] (s_cmps st) (s_hops st))
                             (filter (accepted ok) xs) 0 0 false)
      end
  | SErr => SErr
  | SPanic => SPanic
  | SFuel => SFuel
  end.

(** inline_filter_search.rs:206-272. *)
Fixpoint d_inline_loop (fuel bw : nat) (ad : adaptive) (l : nat) (acc : dacc St V A) (s : ist)
  : sres (dacc St V A * ist * list nbr) :=
  if d_stop acc then SOk (acc, s, [])
  else
    let st := i_st s in
    match take_beam bw (s_best st) with
    | None => SPanic
    | Some (q1, []) => SOk (acc, mkIst (mkSst q1 (s_vis st) (s_cmps st) (s_hops st))
                                       (i_matched s) (i_sv s) (i_sm s) (i_adj s), [])
    | Some (q1, beam) =>
        match fuel with
        | 0 => SFuel
        | S fuel' =>
            match d_step acc q1 beam st with
            | SOk (acc', st', ns) =>
                let s1 := mkIst st' (i_matched s ++ filter (accepted ok) ns) (i_sv s + length ns)
                            (i_sm s + length (filter (accepted ok) ns)) (i_adj s) in
                match adapt_l ad l s1 with
                | None => SPanic
                | Some s2 =>
                    match d_inline_loop fuel' bw ad l acc' s2 with
                    | SOk (a, s3, rec) => SOk (a, s3, beam ++ rec)
                    | e => e
                    end
                end
            | SErr => SErr
            | SPanic => SPanic
            | SFuel => SFuel
            end
        end
    end.

(** inline_filter_search.rs:110-153, 166-281: at most [l] matches, sorted. *)
Definition d_inline (fuel l bw : nat) (ad : adaptive) (acc : dacc St V A)
  : sres (list nbr * dacc St V A * sst * list nbr) :=
  match d_inline_init (scratch_new (l + 1)) with
  | SOk s0 =>
      match d_inline_loop fuel bw ad l acc s0 with
      | SOk (acc', s, rec) =>
          match sort (i_matched s) with
          | None => SPanic
          | Some m => SOk (firstn l m, acc', i_st s, rec)
          end
      | SErr => SErr
      | SPanic => SPanic
      | SFuel => SFuel
      end
  | SErr => SErr
  | SPanic => SPanic
  | SFuel => SFuel
  end.
End inline.

(** ** Flat scan *)

(** 1138-1148: the scan in batches. *)
Fixpoint flat_batches (fuel : nat) (q : Queue.Model.pq) (ids : list nat) (cmps : nat)
  : sres (Queue.Model.pq * nat) :=
  match ids with
  | [] => SOk (q, cmps)
  | _ =>
      match fuel with
      | 0 => SFuel
      | S fuel' =>
          let b := firstn maxv ids in
          match pq_distances b with
          | SOk xs =>
              match insert_all q xs with
              | None => SPanic
              | Some q' => flat_batches fuel' q' (skipn maxv ids) (cmps + length b)
              end
          | SErr => SErr
          | SPanic => SPanic
          | SFuel => SFuel
          end
      end
  end.

(** A predicate that may be absent. *)
Definition passes (f : option (nat -> bool)) (i : nat) : bool :=
  match f with Some g => g i | None => true end.

(** 1097-1151 [flat_search] up to the post processing. *)
Definition d_flat (l : nat) (f : option (nat -> bool)) : sres (list nbr * nat) :=
  if maxv =? 0 then SErr
  else
    match flat_batches npts (pq_new l) (filter (passes f) (seq 0 npts)) 0 with
    | SOk (q, cmps) =>
        match pq_iter q with
        | None => SPanic
        | Some best => SOk (best, cmps)
        end
    | SErr => SErr
    | SPanic => SPanic
    | SFuel => SFuel
    end.

(** ** Post processing *)

(** 474-484: split the candidates by the distance cache. *)
Fixpoint split_cached (c : list (nat * (f32 * A * option V))) (ids : list nat)
  : list (item (nat * A)) * list nat :=
  match ids with
  | [] => ([], [])
  | i :: ids' =>
      let (r, u) := split_cached c ids' in
      match find_nat i c with
      | Some (d, a, _) => (((i, a), d) :: r, u)
      | None => (r, i :: u)
      end
  end.

(** 498-505. *)
Fixpoint read_uncached (s : St) (ids : list nat) : option (list (item (nat * A))) :=
  match ids with
  | [] => Some []
  | i :: ids' =>
      match v_vector P s i, v_data P s i, read_uncached s ids' with
      | Some v, Some a, Some r => Some (((i, a), full v) :: r)
      | _, _, _ => None
      end
  end.

(** 422-444: the loop of [extend_output] that also returns the vectors.  [distance_cache]
    entries are removed as they are used. *)
Fixpoint extend_vectors (s : St) (c : list (nat * (f32 * A * option V)))
    (xs : list (item (nat * A))) (b : sout A V) (count : nat) : sres (sout A V * nat) :=
  match xs with
  | [] => SOk (b, count)
  | ((i, a), d) :: xs' =>
      if match b_hint (sout_buf A V) b with Some 0 => true | _ => false end then SOk (b, count)
      else
        match match find_nat i c with
              | Some (_, _, Some v) => Some v
              | _ => v_vector P s i
              end with
        | None => SErr
        | Some v =>
            match b_push (sout_buf A V) b ((i, a, Some v), d) with
            | None => SPanic
            | Some (b', true) => SOk (b', S count)
            | Some (b', false) =>
                extend_vectors s (filter (fun e => negb (fst e =? i)) c) xs' b' (S count)
            end
        end
  end.

(** 400-445 [extend_output]. *)
Definition extend_output (acc : dacc St V A) (xs : list (item (nat * A))) (b : sout A V)
  : sres (sout A V * nat) :=
  if keepv then extend_vectors (d_vp acc) (d_cache acc) xs b 0
  else lift (b_extend (sout_buf A V) b (map (fun x => ((fst x, None), snd x)) xs)).

(** 457-511 [RerankAndFilter]; [sort] is [sort_unstable_by]. *)
Definition rerank_and_filter (f : option (nat -> bool))
    (sort : list (item (nat * A)) -> option (list (item (nat * A))))
    (acc : dacc St V A) (cands : list nbr) (b : sout A V) : sres (sout A V * nat) :=
  let (r, u) := split_cached (d_cache acc) (filter (passes f) (map n_id cands)) in
  let loaded :=
    match u with
    | [] => SOk (acc, r)
    | _ =>
        match ensure_vertex_loaded P (d_vp acc) u with
        | SOk s =>
            match read_uncached s u with
            | Some r' => SOk (mkAcc s (d_cache acc) (d_io acc), r ++ r')
            | None => SErr
            end
        | SErr => SErr
        | SPanic => SPanic
        | SFuel => SFuel
        end
    end in
  match loaded with
  | SOk (acc', reranked) =>
      match sort reranked with
      | None => SPanic
      | Some xs => extend_output acc' xs b
      end
  | SErr => SErr
  | SPanic => SPanic
  | SFuel => SFuel
  end.

(** 557-571. *)
Fixpoint read_all (s : St) (ids : list nat) : option (list (V * item (nat * A))) :=
  match ids with
  | [] => Some []
  | i :: ids' =>
      match v_vector P s i, v_data P s i, read_all s ids' with
      | Some v, Some a, Some r => Some ((v, ((i, a), full v)) :: r)
      | _, _, _ => None
      end
  end.
Fixpoint pick_items {B} (xs : list B) (idx : list nat) : option (list B) :=
  match idx with
  | [] => Some []
  | i :: idx' =>
      match nth_error xs i, pick_items xs idx' with
      | Some x, Some r => Some (x :: r)
      | _, _ => None
      end
  end.

(** 524-591 [DeterminantDiversityAndFilter]; [select] is what [determinant_diversity] returns
    for the vectors and distances ([None]: an error). *)
Definition diversity_and_filter (f : option (nat -> bool)) (select : list (V * f32) -> option (list nat))
    (acc : dacc St V A) (cands : list nbr) (b : sout A V) : sres (sout A V * nat) :=
  match filter (passes f) (map n_id cands) with
  | [] => SOk (b, 0)
  | ids =>
      match ensure_vertex_loaded P (d_vp acc) ids with
      | SOk s =>
          match read_all s ids with
          | None => SErr
          | Some xs =>
              match select (map (fun x => (fst x, snd (snd x))) xs) with
              | None => SErr
              | Some idx =>
                  match pick_items (map snd xs) idx with
                  | None => SPanic
                  | Some r => extend_output (mkAcc s (d_cache acc) (d_io acc)) r b
                  end
              end
          end
      | SErr => SErr
      | SPanic => SPanic
      | SFuel => SFuel
      end
  end.

(** ** The search *)

(** search_mode.rs:36-58 [SearchMode]. *)
Inductive mode :=
| FlatScan (f : option (nat -> bool))
| GraphSearch (f : option (nat -> bool))
| InlineFilter (ok : nat -> bool) (ad : adaptive)
| DiverseGraph (f : option (nat -> bool)) (select : list (V * f32) -> option (list nat)).

(** 984-988 [SearchResultStats], as far as modelled. *)
Record dstats := mkStats { t_cmps : nat; t_hops : nat; t_count : nat; t_ios : nat }.

(** knn_search.rs:82-95 [Knn::new]. *)
Definition knn_new (l : nat) (bw : option nat) : option (nat * nat) :=
  if l =? 0 then None
  else match bw with
       | Some 0 => None
       | Some b => Some (l, b)
       | None => Some (l, 1)
       end.

Section search.
Variable sort : list nbr -> option (list nbr).
Variable sort_items : list (item (nat * A)) -> option (list (item (nat * A))).
Variable fuel : nat.

Definition finish (cmps hops : nat) (acc : dacc St V A) (r : sres (sout A V * nat))
  : sres (sout A V * dstats) :=
  match r with
  | SOk (b, n) => SOk (b, mkStats cmps hops n (d_io acc))
  | SErr => SErr
  | SPanic => SPanic
  | SFuel => SFuel
  end.

(** 1342-1474 [search_internal_impl], with a scratch from the pool (717-725, 861-885) whose
    provider is in state [s], into slices of length [k]. *)
Definition search_impl (k l : nat) (bw : option nat) (m : mode) (adef : A) (s : St)
  : sres (sout A V * dstats) :=
  if l <? k then SErr
  else
    match sout_new (repeat 0 k) (repeat f32_zero k) (repeat adef k)
                   (if keepv then Some (repeat None k) else None) with
    | SOk b =>
        let acc := mkAcc (v_clear P s) [] 0 in
        match m with
        | FlatScan f =>
            match d_flat l f with
            | SOk (best, cmps) =>
                finish cmps 0 acc (rerank_and_filter None sort_items acc best b)
            | SErr => SErr
            | SPanic => SPanic
            | SFuel => SFuel
            end
        | GraphSearch f =>
            match knn_new l bw with
            | None => SErr
            | Some (l', w) =>
                match d_knn fuel l' w acc with
                | SOk (res, acc', st, _) =>
                    finish (s_cmps st) (s_hops st) acc' (rerank_and_filter f sort_items acc' res b)
                | SErr => SErr
                | SPanic => SPanic
                | SFuel => SFuel
                end
            end
        | InlineFilter ok ad =>
            match knn_new l bw with
            | None => SErr
            | Some (l', w) =>
                match d_inline ok sort fuel l' w ad acc with
                | SOk (res, acc', st, _) =>
                    finish (s_cmps st) (s_hops st) acc' (rerank_and_filter None sort_items acc' res b)
                | SErr => SErr
                | SPanic => SPanic
                | SFuel => SFuel
                end
            end
        | DiverseGraph f select =>
            match knn_new l bw with
            | None => SErr
            | Some (l', w) =>
                match d_knn fuel l' w acc with
                | SOk (res, acc', st, _) =>
                    finish (s_cmps st) (s_hops st) acc' (diversity_and_filter f select acc' res b)
                | SErr => SErr
                | SPanic => SPanic
                | SFuel => SFuel
                end
            end
        end
    | SErr => SErr
    | SPanic => SPanic
    | SFuel => SFuel
    end.
End search.
End disk.

(** 1240-1250: the arrays become items (id, data, distance). *)
Fixpoint zip_items {A} (ids : list nat) (ds : list f32) (das : list A) : list (nat * A * f32) :=
  match ids, ds, das with
  | i :: ids', d :: ds', a :: das' => (i, a, d) :: zip_items ids' ds' das'
  | _, _, _ => []
  end.

(** 1203-1255 [search]. *)
Definition d_search {St V A} (P : vprov St V A) full pq npts maxv limit medoid sort sort_items fuel
    (k l : nat) (bw : option nat) (m : mode) (adef : A) (s : St)
  : sres (list (nat * A * f32) * dstats) :=
  match search_impl P full pq npts maxv limit medoid false sort sort_items fuel k l bw m adef s with
  | SOk (b, t) => SOk (zip_items (a_ids (o_out b)) (a_dists (o_out b)) (a_data (o_out b)), t)
  | SErr => SErr
  | SPanic => SPanic
  | SFuel => SFuel
  end.

Fixpoint with_vectors {A V} (xs : list (nat * A * f32)) (vs : list (option V))
  : option (list (nat * A * f32 * V)) :=
  match xs, vs with
  | x :: xs', v :: vs' =>
      match v, with_vectors xs' vs' with
      | Some v, Some r => Some ((x, v) :: r)
      | _, _ => None
      end
  | _, _ => Some []
  end.

(** 1258-1312 [search_with_indexed_vectors]: only the reported number of results. *)
Definition d_search_vectors {St V A} (P : vprov St V A) full pq npts maxv limit medoid sort sort_items fuel
    (k l : nat) (bw : option nat) (m : mode) (adef : A) (s : St)
  : sres (list (nat * A * f32 * V) * dstats) :=
  match search_impl P full pq npts maxv limit medoid true sort sort_items fuel k l bw m adef s with
  | SOk (b, t) =>
      match with_vectors
              (firstn (t_count t) (zip_items (a_ids (o_out b)) (a_dists (o_out b)) (a_data (o_out b))))
              (match o_vecs b with Some v => v | None => [] end) with
      | Some r => SOk (r, t)
      | None => SErr
      end
  | SErr => SErr
  | SPanic => SPanic
  | SFuel => SFuel
  end.
