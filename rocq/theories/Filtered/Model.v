(** Model of filtered graph search: diskann/src/graph/search/inline_filter_search.rs,
    multihop_filter_search.rs and filtered_range_search.rs.

    The accessor is the one of [Search] (stored graph, distances) with the filter [acc].
    [expand_beam_filtered] tells the decision with every id it forwards; it forwards what
    [expand_beam] would (glue.rs:433-449).  [sort_unstable_by] with [fast_distance] is the
    argument [sort], which may panic ([None]) if the order is not total; its contract is in
    [Spec.v].  Ids are [nat], sets are lists, the counters do not overflow. *)
From Verif.Lib Require Import Base Lists F32 F64.
From Verif.Search Require Export Model.

Section filtered.
Variable graph : nat -> option (list nat).
Variable dist : nat -> option f32.
Variable acc : nat -> bool.
Variable sort : list nbr -> option (list nbr).

(** [Decision::is_accept] of a neighbour. *)
Definition accepted (x : nbr) : bool := acc (n_id x).

(** ** Inline filtered search *)

(** 166-207: the scratch, the matches, the samples and whether L was adjusted. *)
Record ist := mkIst { i_st : sst; i_matched : list nbr; i_sv : nat; i_sm : nat; i_adj : bool }.

(** 185-197: the start points.  They are not counted in [cmps]. *)
Definition inline_init (starts : list nat) (st : sst) : sres ist :=
  match start_dists dist starts with
  | None => SErr
  | Some xs =>
      match insert_all (s_best st) xs with
      | None => SPanic
      | Some q => SOk (mkIst (mkSst q (rev starts) (s_cmps st) (s_hops st))
                             (filter accepted xs) 0 0 false)
      end
  end.

(** Adaptive L: the sample count, and new L for the numbers of visited and matched samples
    ([None]: panic). *)
Definition adaptive : Type := option (nat * (nat -> nat -> option nat)).

(** 256-271: adapt L once. *)
Definition adapt_l (ad : adaptive) (l : nat) (s : ist) : option ist :=
  match ad with
  | Some (count, f) =>
      if negb (i_adj s) && (count <=? i_sv s) then
        match f (i_sv s) (i_sm s) with
        | None => None
        | Some nl =>
            let st := i_st s in
            Some (mkIst (if l <? nl
                         then mkSst (pq_reconfigure (s_best st) nl) (s_vis st) (s_cmps st) (s_hops st)
                         else st)
                        (i_matched s) (i_sv s) (i_sm s) true)
        end
      else Some s
  | None => Some s
  end.

(** 206-272: the loop; [stop n] is what [terminate_early] answers before round [n].  The
    second result lists the expanded nodes. *)
Fixpoint inline_loop (fuel bw : nat) (stop : nat -> bool) (ad : adaptive) (l n : nat) (s : ist)
  : sres (ist * list nbr) :=
  if stop n then SOk (s, [])
  else
    let st := i_st s in
    match take_beam bw (s_best st) with
    | None => SPanic
    | Some (q1, []) => SOk (mkIst (mkSst q1 (s_vis st) (s_cmps st) (s_hops st))
                                  (i_matched s) (i_sv s) (i_sm s) (i_adj s), [])
    | Some (q1, beam) =>
        match fuel with
        | 0 => SFuel
        | S fuel' =>
            match expand_beam graph dist (s_vis st) (map n_id beam) with
            | None => SErr
            | Some (vis, ns) =>
                match insert_all q1 ns with
                | None => SPanic
                | Some q2 =>
                    let s1 := mkIst (mkSst q2 vis (s_cmps st + length ns) (s_hops st + length beam))
                                (i_matched s ++ filter accepted ns) (i_sv s + length ns)
                                (i_sm s + length (filter accepted ns)) (i_adj s) in
                    match adapt_l ad l s1 with
                    | None => SPanic
                    | Some s2 =>
                        match inline_loop fuel' bw stop ad l (S n) s2 with
                        | SOk (s3, rec) => SOk (s3, beam ++ rec)
                        | r => r
                        end
                    end
                end
            end
        end
    end.

(** 166-281 [inline_filter_search_internal]: the matches, sorted, the final state and the
    expanded nodes. *)
Definition inline_internal (fuel l bw : nat) (stop : nat -> bool) (ad : adaptive) (starts : list nat)
  : sres (list nbr * sst * list nbr) :=
  match inline_init starts (scratch_new (l + length starts)) with
  | SOk s0 =>
      match inline_loop fuel bw stop ad l 0 s0 with
      | SOk (s, rec) =>
          match sort (i_matched s) with
          | None => SPanic
          | Some m => SOk (m, i_st s, rec)
          end
      | SErr => SErr
      | SPanic => SPanic
      | SFuel => SFuel
      end
  | SErr => SErr
  | SPanic => SPanic
  | SFuel => SFuel
  end.

(** 110-153 [search]: what is handed to the post processor. *)
Definition inline_search (fuel l bw : nat) (stop : nat -> bool) (ad : adaptive) (starts : list nat)
  : sres (list nbr * sst * list nbr) :=
  match inline_internal fuel l bw stop ad starts with
  | SOk (m, st, rec) => SOk (firstn l m, st, rec)
  | SErr => SErr
  | SPanic => SPanic
  | SFuel => SFuel
  end.

(** ** Multi-hop filtered search *)

(** glue.rs:451-471 [expand_beam_accept_only]: ids are classified first, only accepted ones
    are marked as visited and forwarded. *)
Fixpoint visit_accepted (visited ns : list nat) : list nat * list nbr :=
  match ns with
  | [] => (visited, [])
  | n :: ns' =>
      if seen n visited || negb (acc n) then visit_accepted visited ns'
      else
        let (visited', out) := visit_accepted (n :: visited) ns' in
        (visited', match dist n with Some d => mkNbr n d :: out | None => out end)
  end.
Fixpoint expand_accepted (visited ids : list nat) : option (list nat * list nbr) :=
  match ids with
  | [] => Some (visited, [])
  | i :: ids' =>
      match graph i with
      | None => None
      | Some ns =>
          let (v1, out1) := visit_accepted visited ns in
          match expand_accepted v1 ids' with
          | None => None
          | Some (v2, out2) => Some (v2, out1 ++ out2)
          end
      end
  end.

(** 166-237: one round.  [degree] is [max_degree_with_slack].  Also returns the expanded
    nodes: the beam, and the rejected neighbours expanded for a second hop. *)
Definition multihop_round (degree bw : nat) (st : sst) : sres (sst * list nbr * list nbr) :=
  match take_beam bw (s_best st) with
  | None => SPanic
  | Some (q1, beam) =>
      match expand_beam graph dist (s_vis st) (map n_id beam) with
      | None => SErr
      | Some (vis, ns) =>
          match insert_all q1 (filter accepted ns) with
          | None => SPanic
          | Some q2 =>
              match sort (filter (fun x => negb (accepted x)) ns) with
              | None => SPanic
              | Some rejected =>
                  let hop := firstn (degree / 2) rejected in
                  match expand_accepted vis (map n_id hop) with
                  | None => SErr
                  | Some (vis2, ns2) =>
                      match insert_all q2 ns2 with
                      | None => SPanic
                      | Some q3 =>
                          SOk (mkSst q3 vis2 (s_cmps st + length ns + length ns2)
                                 (s_hops st + length beam + length hop), beam, hop)
                      end
                  end
              end
          end
      end
  end.

(** 165-238: the loop. *)
Fixpoint multihop_loop (fuel degree bw : nat) (stop : nat -> bool) (n : nat) (st : sst)
  : sres (sst * list nbr * list nbr) :=
  if has_notvisited (s_best st) && negb (stop n) then
    match fuel with
    | 0 => SFuel
    | S fuel' =>
        match multihop_round degree bw st with
        | SOk (st1, beam, hop) =>
            match multihop_loop fuel' degree bw stop (S n) st1 with
            | SOk (st2, beams, hops) => SOk (st2, beam ++ beams, hop ++ hops)
            | r => r
            end
        | SErr => SErr
        | SPanic => SPanic
        | SFuel => SFuel
        end
    end
  else SOk (st, [], []).

(** 66-110 [search], 138-158: the start points are used as entry points whether accepted or
    not; those rejected are taken out of the candidates at the end. *)
Definition multihop_search (fuel degree l bw : nat) (stop : nat -> bool) (starts : list nat)
  : sres (list nbr * sst * (list nbr * list nbr)) :=
  match start_dists dist starts with
  | None => SErr
  | Some xs =>
      match insert_all (pq_new (l + length starts)) xs with
      | None => SPanic
      | Some q =>
          match multihop_loop fuel degree bw stop 0 (mkSst q (rev starts) 0 0) with
          | SOk (st, beams, hops) =>
              match pq_iter (s_best st) with
              | None => SPanic
              | Some best =>
                  let rejected := filter (fun i => negb (acc i)) starts in
                  SOk (firstn l (filter (fun x => negb (seen (n_id x) rejected)) best), st, (beams, hops))
              end
          | SErr => SErr
          | SPanic => SPanic
          | SFuel => SFuel
          end
      end
  end.

(** ** Filtered range search.  [range], [room] and [range_valid] are those of [Search]. *)

(** [Vec::dedup_by] on ids: adjacent entries with one id are merged into the first. *)
Fixpoint dedup_ids (xs : list nbr) : list nbr :=
  match xs with
  | [] => []
  | x :: xs' =>
      match dedup_ids xs' with
      | [] => [x]
      | y :: ys => if n_id x =? n_id y then x :: ys else x :: y :: ys
      end
  end.

(** 300-316: absorb the neighbours. *)
Fixpoint f_absorb (p : range) (matched : list nbr) (frontier : list nat) (ns : list nbr)
  : list nbr * list nat :=
  match ns with
  | [] => (matched, frontier)
  | x :: ns' =>
      if f32_le (n_dist x) (r_limit p) then
        f_absorb p (if f32_le (n_dist x) (r_radius p) && accepted x && room p (length matched)
                    then matched ++ [x] else matched)
                 (frontier ++ [n_id x]) ns'
      else f_absorb p matched frontier ns'
  end.

(** 275-319: the frontier loop. *)
Fixpoint f_range_loop (fuel : nat) (p : range) (vis : list nat) (matched : list nbr)
    (frontier : list nat) : sres (list nbr) :=
  match frontier with
  | [] => SOk matched
  | _ :: _ =>
      if room p (length matched) then
        match fuel with
        | 0 => SFuel
        | S fuel' =>
            match expand_beam graph dist vis (firstn (r_bw p) frontier) with
            | None => SErr
            | Some (vis', ns) =>
                let (matched', frontier') := f_absorb p matched (skipn (r_bw p) frontier) ns in
                f_range_loop fuel' p vis' matched' frontier'
            end
        end
      else SOk matched
  end.

Record f_range_out := mkFro { fo_results : list nbr; fo_seeds : list nbr; fo_matched : list nbr;
                              fo_second : bool }.

(** 219-231: the inner radius. *)
Definition outside_inner (p : range) (x : nbr) : bool :=
  match r_inner p with Some ir => negb (f32_le (n_dist x) ir) | None => true end.

(** 111-248 [Search for FilteredRange]; the post processor is [CopyIds] into an unbounded
    buffer.  [sort_total] is [sort_unstable_by] with [fast_distance_total].  [fo_seeds] is
    what the second phase starts from, [fo_matched] the matches before truncation. *)
Definition filtered_range (sort_total : list nbr -> list nbr) (fuel fuel2 : nat) (p : range)
    (stop : nat -> bool) (starts : list nat) : sres f_range_out :=
  match inline_internal fuel (r_l p) (r_bw p) stop None starts with
  | SOk (matched, st, _) =>
      match pq_iter (s_best st) with
      | None => SPanic
      | Some best =>
          let within x := f32_le (n_dist x) (r_radius p) in
          let seeds := dedup_ids (sort_total (filter within (firstn (r_l p) best ++ matched))) in
          let found := filter within matched in
          let finish all second :=
            SOk (mkFro (filter (outside_inner p)
                          (match r_max p with Some m => firstn m all | None => all end))
                       seeds all second) in
          if (r_enough p <=? length seeds) && room p (length found) then
            match f_range_loop fuel2 p (map n_id seeds) found (map n_id seeds) with
            | SOk all => finish all true
            | SErr => SErr
            | SPanic => SPanic
            | SFuel => SFuel
            end
          else finish found false
      end
  | SErr => SErr
  | SPanic => SPanic
  | SFuel => SFuel
  end.
End filtered.

(** ** Adaptive L *)

(** 45-57 [AdaptiveL::new] (true: accepted). *)
Definition adaptive_ok (count : nat) (scale : f64) : bool :=
  negb (f64_lt scale f64_one) && negb (count =? 0).

Definition f64_half : f64 := 4602678819172646912%N.       (* 0.5 *)
Definition f64_tenth : f64 := 4591870180066957722%N.      (* 0.1 *)
Definition f64_two : f64 := 4611686018427387904%N.        (* 2.0 *)

(** [f64::clamp]: panics unless [min <= max]. *)
Definition f64_clamp (x lo hi : f64) : option f64 :=
  if f64_le lo hi then
    let x := if f64_lt x lo then lo else x in
    Some (if f64_lt hi x then hi else x)
  else None.

(** 294-316 [compute_adaptive_l].  The float operations are arguments: [ratio m v] is
    [m as f64 / v as f64], [grow s] is [2.0.powf(-s.log10())], and [times b m] is
    [(b as f64 * m) as usize]. *)
Definition compute_adaptive_l (ratio : nat -> nat -> f64) (grow : f64 -> f64)
    (times : nat -> f64 -> nat) (base visited matched : nat) (scale : f64) : option nat :=
  if (matched =? 0) || (visited =? 0) then Some (times base scale)
  else
    let s := ratio matched visited in
    let m := if f64_le f64_half s then f64_one
             else if f64_le f64_tenth s then f64_two
             else grow s in
    match f64_clamp m f64_one scale with
    | None => None
    | Some m' => Some (times base m')
    end.
