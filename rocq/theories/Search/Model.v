(** Model of graph search: diskann/src/graph/index.rs [search_internal],
    [paged_search_with_init_ids], [count_reachable_nodes];
    diskann/src/graph/search/knn_search.rs, range_search.rs, paged.rs.

    The accessor of a search is given by the stored graph ([graph i = None]: reading the
    adjacency list of [i] fails, which aborts the search) and the distance of each id to
    the query ([dist i = None]: the vector could not be read, the id is skipped, as
    glue.rs:159-162 allows).  [expand_beam] is the pseudo code of glue.rs:193-208.  Ids are
    [nat], sets are lists.  The counters [cmps] and [hops] (u32) do not overflow. *)
From Verif.Lib Require Import Base Lists F32.
From Verif.Queue Require Export Model.

(** Result of a search: a value, an error of the provider, a panic, or more rounds than
    [fuel]. *)
Inductive sres (A : Type) := SOk (a : A) | SErr | SPanic | SFuel.
Arguments SOk {A} a.
Arguments SErr {A}.
Arguments SPanic {A}.
Arguments SFuel {A}.

Section search.
Variable graph : nat -> option (list nat).
Variable dist : nat -> option f32.

(** [HashSet::contains]. *)
Definition seen (i : nat) (visited : list nat) : bool := existsb (Nat.eqb i) visited.

(** glue.rs:202-207 with the predicate [NotInMut] (glue.rs:557-600): an id is forwarded if
    it can be inserted into the visited set. *)
Fixpoint visit_all (visited ns : list nat) : list nat * list nbr :=
  match ns with
  | [] => (visited, [])
  | n :: ns' =>
      if seen n visited then visit_all visited ns'
      else
        let (visited', out) := visit_all (n :: visited) ns' in
        (visited', match dist n with Some d => mkNbr n d :: out | None => out end)
  end.

(** glue.rs:193-208 [expand_beam]; the result lists what [on_neighbors] received. *)
Fixpoint expand_beam (visited ids : list nat) : option (list nat * list nbr) :=
  match ids with
  | [] => Some (visited, [])
  | i :: ids' =>
      match graph i with
      | None => None
      | Some ns =>
          let (v1, out1) := visit_all visited ns in
          match expand_beam v1 ids' with
          | None => None
          | Some (v2, out2) => Some (v2, out1 ++ out2)
          end
      end
  end.

(** search/scratch.rs:32-74 [SearchScratch]: the fields used here. *)
Record sst := mkSst { s_best : pq; s_vis : list nat; s_cmps : nat; s_hops : nat }.

Fixpoint insert_all (q : pq) (xs : list nbr) : option pq :=
  match xs with
  | [] => Some q
  | x :: xs' => match pq_insert q x with Some q' => insert_all q' xs' | None => None end
  end.

(** index.rs:1947-1957: the start points.  The order of the three effects per point does
    not matter. *)
Fixpoint start_dists (starts : list nat) : option (list nbr) :=
  match starts with
  | [] => Some []
  | i :: starts' =>
      match dist i, start_dists starts' with
      | Some d, Some l => Some (mkNbr i d :: l)
      | _, _ => None
      end
  end.
Definition search_init (starts : list nat) (st : sst) : sres sst :=
  match s_vis st with
  | [] =>
      match start_dists starts with
      | None => SErr
      | Some xs =>
          match insert_all (s_best st) xs with
          | None => SPanic
          | Some q => SOk (mkSst q (rev starts) (s_cmps st + length xs) (s_hops st))
          end
      end
  | _ => SOk st
  end.

(** index.rs:1963-1970: collect the beam; the taken nodes are what is recorded. *)
Fixpoint take_beam (n : nat) (q : pq) : option (pq * list nbr) :=
  match n with
  | 0 => Some (q, [])
  | S n' =>
      match closest_notvisited q with
      | None => None
      | Some (q', None) => Some (q', [])
      | Some (q', Some x) =>
          match take_beam n' q' with
          | None => None
          | Some (q'', xs) => Some (q'', x :: xs)
          end
      end
  end.

(** index.rs:1960-1991: one round.  Returns the new state and the recorded nodes. *)
Definition search_round (bw : nat) (st : sst) : sres (sst * list nbr) :=
  match take_beam bw (s_best st) with
  | None => SPanic
  | Some (q1, beam) =>
      match expand_beam (s_vis st) (map n_id beam) with
      | None => SErr
      | Some (vis, ns) =>
          match insert_all q1 ns with
          | None => SPanic
          | Some q2 =>
              SOk (mkSst q2 vis (s_cmps st + length ns) (s_hops st + length beam), beam)
          end
      end
  end.

(** index.rs:1959-1992: the loop; [stop n] is what [terminate_early] answers before round
    [n]. *)
Fixpoint search_loop (fuel : nat) (bw : nat) (stop : nat -> bool) (n : nat) (st : sst)
  : sres (sst * list nbr) :=
  if has_notvisited (s_best st) && negb (stop n) then
    match fuel with
    | 0 => SFuel
    | S fuel' =>
        match search_round bw st with
        | SOk (st', beam) =>
            match search_loop fuel' bw stop (S n) st' with
            | SOk (st'', rec) => SOk (st'', beam ++ rec)
            | r => r
            end
        | SErr => SErr
        | SPanic => SPanic
        | SFuel => SFuel
        end
    end
  else SOk (st, []).

(** index.rs:1933-2000 [search_internal]. *)
Definition search_internal (fuel bw : nat) (stop : nat -> bool) (starts : list nat) (st : sst)
  : sres (sst * list nbr) :=
  match search_init starts st with
  | SOk st' => search_loop fuel bw stop 0 st'
  | SErr => SErr
  | SPanic => SPanic
  | SFuel => SFuel
  end.

(** search/scratch.rs:111-134 [new], 149-159 [clear], 207-216 [modify]: a new scratch, or
    one from the pool. *)
Definition scratch_new (l : nat) : sst := mkSst (pq_new l) [] 0 0.
Definition scratch_reuse (st : sst) (l : nat) : sst :=
  let q := pq_clear (s_best st) in
  mkSst (if q_auto q then pq_new l else pq_reconfigure q l) [] 0 0.

(** knn_search.rs:160-183: the search and the candidates handed to the post processor. *)
Definition knn (fuel l bw : nat) (stop : nat -> bool) (starts : list nat)
  : sres (list nbr * sst * list nbr) :=
  match search_internal fuel bw stop starts (scratch_new (l + length starts)) with
  | SOk (st, rec) =>
      match pq_iter (s_best st) with
      | Some res => SOk (res, st, rec)
      | None => SPanic
      end
  | SErr => SErr
  | SPanic => SPanic
  | SFuel => SFuel
  end.

(** glue.rs:746-771 [FilterStartPoints] followed by glue.rs:679-692 [CopyIds] into a buffer
    with room for [k] results. *)
Definition post_process (starts : list nat) (k : nat) (res : list nbr) : list nbr :=
  firstn k (filter (fun x => negb (seen (n_id x) starts)) res).

(** ** Range search (range_search.rs) *)

(** 48-66 [Range].  [r_limit] is [radius * range_slack], [r_enough] is
    [((starting_l as f32) * initial_slack) as usize]. *)
Record range := mkRange { r_max : option nat; r_l : nat; r_bw : nat; r_radius : f32;
                          r_inner : option f32; r_enough : nat; r_limit : f32 }.

(** 88-135 [validate_and_create], without the conditions on the slack factors. *)
Definition range_valid (p : range) : bool :=
  (0 <? r_bw p) && (0 <? r_l p) &&
  match r_max p with Some m => r_l p <=? m | None => true end &&
  match r_inner p with Some i => negb (f32_gt i (r_radius p)) | None => true end.

(** [in_range.len() < max_returned.unwrap_or(usize::MAX)]. *)
Definition room (p : range) (n : nat) : bool :=
  match r_max p with Some m => n <? m | None => true end.

(** 455-464: absorb the neighbours. *)
Fixpoint absorb (p : range) (in_range : list nbr) (frontier : list nat) (ns : list nbr)
  : list nbr * list nat :=
  match ns with
  | [] => (in_range, frontier)
  | x :: ns' =>
      if f32_le (n_dist x) (r_limit p) && room p (length in_range)
      then absorb p (in_range ++ [x]) (frontier ++ [n_id x]) ns'
      else absorb p in_range frontier ns'
  end.

(** 431-467: the frontier loop. *)
Fixpoint range_loop (fuel : nat) (p : range) (vis : list nat) (in_range : list nbr)
    (frontier : list nat) (cmps hops : nat) : sres (list nbr * nat * nat) :=
  match frontier with
  | [] => SOk (in_range, cmps, hops)
  | _ :: _ =>
      if room p (length in_range) then
        match fuel with
        | 0 => SFuel
        | S fuel' =>
            let beam := firstn (r_bw p) frontier in
            match expand_beam vis beam with
            | None => SErr
            | Some (vis', ns) =>
                let (in_range', frontier') := absorb p in_range (skipn (r_bw p) frontier) ns in
                range_loop fuel' p vis' in_range' frontier'
                  (cmps + length ns) (hops + length beam)
            end
        end
      else SOk (in_range, cmps, hops)
  end.

(** 319-325: the final filter. *)
Definition range_accept (p : range) (d : f32) : bool :=
  match r_inner p with
  | Some ir => if f32_le d ir then false else f32_le d (r_radius p)
  | None => f32_le d (r_radius p)
  end.

Record range_out := mkRo { ro_results : list nbr; ro_first : list nbr; ro_internal : list nbr;
                           ro_cmps : nat; ro_hops : nat; ro_second : bool }.

(** 260-345 [Search for Range]; the post processor is [CopyIds] into an unbounded
    buffer.  [ro_first] and [ro_internal] are [scratch.in_range] after the first and the
    second phase. *)
Definition range_search (fuel fuel2 : nat) (p : range) (stop : nat -> bool) (starts : list nat)
  : sres range_out :=
  match knn fuel (r_l p) (r_bw p) stop starts with
  | SOk (best, st, _) =>
      let first := filter (fun x => f32_le (n_dist x) (r_radius p)) (firstn (r_l p) best) in
      if (r_enough p <=? length first) && room p (length first) then
        match range_loop fuel2 p (map n_id first) first (map n_id first) (s_cmps st) (s_hops st) with
        | SOk (all, _, hops) =>
            SOk (mkRo (filter (fun x => range_accept p (n_dist x)) all) first all
                      (s_cmps st) (s_hops st + hops) true)
        | SErr => SErr
        | SPanic => SPanic
        | SFuel => SFuel
        end
      else SOk (mkRo (filter (fun x => range_accept p (n_dist x)) first) first first
                     (s_cmps st) (s_hops st) false)
  | SErr => SErr
  | SPanic => SPanic
  | SFuel => SFuel
  end.

(** ** Paged search (index.rs:2116-2155, paged.rs) *)

(** paged.rs:26-38 [PagedSearch]. *)
Record paged := mkPaged { p_st : sst; p_computed : list nbr; p_next : nat; p_l : nat }.

(** index.rs:2116-2155 [paged_search_with_init_ids]. *)
Definition paged_new (l : nat) (starts : list nat) (init : option (list nat)) : sres paged :=
  let ids := match init with Some i => i | None => starts end in
  match expand_beam (rev ids) ids with
  | None => SErr
  | Some (vis, ns) =>
      match insert_all (pq_new_auto (l + length starts)) ns with
      | None => SPanic
      | Some q => SOk (mkPaged (mkSst q vis 0 0) (repeat (mkNbr 0 f32_zero) l) l l)
      end
  end.

(** paged.rs:120-150 [filter_search_candidates]; the debug assertion is left out. *)
Fixpoint filter_candidates (starts : list nat) (page : nat) (total : nat) (cands : list nbr)
    (best : list nbr) : list nbr * nat :=
  match best with
  | [] => (cands, total)
  | n :: best' =>
      if seen (n_id n) starts then filter_candidates starts page (S total) cands best'
      else
        let cands' := cands ++ [n] in
        if page <=? length cands' then (cands', S total)
        else filter_candidates starts page (S total) cands' best'
  end.

(** paged.rs:55-117 [next_page].  [SErr] for an invalid [k]. *)
Definition next_page (fuel : nat) (stop : nat -> bool) (starts : list nat) (k : nat) (p : paged)
  : sres (paged * list nbr) :=
  if p_l p <? k then SErr
  else if k =? 0 then SErr
  else
    let available := length (p_computed p) - p_next p in
    let from_cache := Nat.min k available in
    let cached := firstn from_cache (skipn (p_next p) (p_computed p)) in
    let next1 := if 0 <? from_cache then p_next p + from_cache else p_next p in
    if (0 <? from_cache) && (length cached =? k)
    then SOk (mkPaged (p_st p) (p_computed p) next1 (p_l p), cached)
    else
      match search_internal fuel 1 stop starts (p_st p) with
      | SErr => SErr
      | SPanic => SPanic
      | SFuel => SFuel
      | SOk (st, _) =>
          match pq_iter (s_best st) with
          | None => SPanic
          | Some best =>
              let (cands, total) := filter_candidates starts k 0 [] best in
              let q := pq_drain_best (s_best st) total in
              let leftover := Nat.min (k - length cached) (length cands) in
              SOk (mkPaged (mkSst q (s_vis st) (s_cmps st) (s_hops st)) cands leftover (p_l p),
                   cached ++ firstn leftover cands)
          end
      end.

(** A client asking for pages of the sizes [ks]; stops at the first failure. *)
Fixpoint pages (fuel : nat) (stop : nat -> bool) (starts : list nat) (ks : list nat) (p : paged)
  : sres (paged * list (list nbr)) :=
  match ks with
  | [] => SOk (p, [])
  | k :: ks' =>
      match next_page fuel stop starts k p with
      | SOk (p', page) =>
          match pages fuel stop starts ks' p' with
          | SOk (p'', rest) => SOk (p'', page :: rest)
          | r => r
          end
      | SErr => SErr
      | SPanic => SPanic
      | SFuel => SFuel
      end
  end.

(** ** Reachability count (index.rs:2161-2189) *)

Fixpoint bfs (fuel : nat) (expanded queue : list nat) : sres nat :=
  match queue with
  | [] => SOk (length expanded)
  | i :: queue' =>
      match fuel with
      | 0 => SFuel
      | S fuel' =>
          if seen i expanded then bfs fuel' expanded queue'
          else
            match graph i with
            | None => SErr
            | Some ns => bfs fuel' (i :: expanded) (queue' ++ ns)
            end
      end
  end.
Definition count_reachable_nodes (fuel : nat) (starts : list nat) : sres nat :=
  bfs fuel [] starts.
End search.
