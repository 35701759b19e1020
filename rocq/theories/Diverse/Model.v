(** Model of diversity-aware search: diskann/src/neighbor/diverse_priority_queue.rs
    [DiverseNeighborQueue], diskann/src/graph/search/diverse_search.rs [Diverse] and the
    graph search loop (diskann/src/graph/index.rs [search_internal]) over that queue.

    Ids and attribute values are [nat].  [attr i] is what [AttributeValueProvider::get]
    answers for the id [i]; it does not change during a search.  The global queue stores
    pairs of an id and its attribute value; the model stores the id, the value is [attr] of
    it.  The hash map of local queues is an association list.  [None] is a panic.  The
    product [diverse_results_k * l_value] does not overflow. *)
From Verif.Lib Require Import Base Lists F32.
From Verif.Queue Require Export Model.
From Verif.Search Require Export Model.

Section diverse.
Variable attr : nat -> option nat.

(** diverse_priority_queue.rs:66-83 [DiverseNeighborQueue]. *)
Record dq := mkDq { d_glob : pq; d_loc : list (nat * pq); d_l : nat; d_k : nat }.

(** diverse_priority_queue.rs:92-106 [new]: list size [l], [total] results of which at most
    [k] may have the same attribute value ([total] is not zero). *)
Definition dq_new (l total k : nat) : dq := mkDq (pq_new l) [] (k * l / total) k.

(** queue.rs:396-398 [is_full]. *)
Definition is_full (q : pq) : bool := negb (q_auto q) && (q_size q =? q_cap q).

(** [HashMap::get], [HashMap::entry]. *)
Fixpoint loc_get (m : list (nat * pq)) (a : nat) : option pq :=
  match m with
  | [] => None
  | (b, q) :: m' => if b =? a then Some q else loc_get m' a
  end.
Fixpoint loc_set (m : list (nat * pq)) (a : nat) (q : pq) : list (nat * pq) :=
  match m with
  | [] => [(a, q)]
  | (b, p) :: m' => if b =? a then (b, q) :: m' else (b, p) :: loc_set m' a q
  end.

(** diverse_priority_queue.rs:150-221 [insert]. *)
Definition dq_insert (d : dq) (x : nbr) : option dq :=
  match attr (n_id x) with
  | None => Some d                                             (* 157-159 *)
  | Some a =>
      let loc := match loc_get (d_loc d) a with                 (* 162-165 *)
                 | Some q => q
                 | None => pq_new (d_l d)
                 end in
      let glob := d_glob d in
      if negb (is_full loc) && negb (is_full glob) then         (* 176-179 *)
        match pq_insert loc x, pq_insert glob x with
        | Some loc', Some glob' =>
            Some (mkDq glob' (loc_set (d_loc d) a loc') (d_l d) (d_k d))
        | _, _ => None
        end
      else if is_full loc then                                  (* 180-199 *)
        match d_l d with
        | 0 => None                                             (* diverse_results_l - 1 *)
        | S m =>
            match pq_get loc m with
            | None => None
            | Some worst =>
                if f32_lt (n_dist x) (n_dist worst) then
                  match pq_remove glob worst with
                  | None => None
                  | Some (glob1, _) =>
                      match pq_insert loc x, pq_insert glob1 x with
                      | Some loc', Some glob' =>
                          Some (mkDq glob' (loc_set (d_loc d) a loc') (d_l d) (d_k d))
                      | _, _ => None
                      end
                  end
                else Some (mkDq glob (loc_set (d_loc d) a loc) (d_l d) (d_k d))
            end
        end
      else                                                      (* 200-220 *)
        match q_L glob with
        | 0 => None                                             (* l_size - 1 *)
        | S m =>
            match pq_get glob m with
            | None => None
            | Some worst =>
                if f32_lt (n_dist x) (n_dist worst) then
                  match pq_insert loc x, pq_insert glob x with
                  | Some loc', Some glob' =>
                      let locs := loc_set (d_loc d) a loc' in
                      match attr (n_id worst) with              (* 205: stored with the id *)
                      | None => None
                      | Some b =>
                          match loc_get locs b with             (* 212-218 *)
                          | None => Some (mkDq glob' locs (d_l d) (d_k d))
                          | Some other =>
                              match pq_remove other worst with
                              | None => None
                              | Some (other', _) =>
                                  Some (mkDq glob' (loc_set locs b other') (d_l d) (d_k d))
                              end
                          end
                      end
                  | _, _ => None
                  end
                else Some (mkDq glob (loc_set (d_loc d) a loc) (d_l d) (d_k d))
            end
        end
  end.

(** diverse_priority_queue.rs:231-237 [closest_notvisited]. *)
Definition dq_next (d : dq) : option (dq * option nbr) :=
  match closest_notvisited (d_glob d) with
  | None => None
  | Some (g, r) => Some (mkDq g (d_loc d) (d_l d) (d_k d), r)
  end.

(** diverse_priority_queue.rs:239-241 [has_notvisited_node]. *)
Definition dq_has_notvisited (d : dq) : bool := has_notvisited (d_glob d).

(** diverse_priority_queue.rs:118-131: the ids to remove, and the truncated local queues. *)
Fixpoint overfull (k : nat) (locs : list (nat * pq)) : option (list nat * list (nat * pq)) :=
  match locs with
  | [] => Some ([], [])
  | (b, q) :: locs' =>
      match overfull k locs' with
      | None => None
      | Some (ids, m) =>
          if k <? q_size q then
            match pq_iter q with
            | None => None
            | Some xs => Some (map n_id (skipn k xs) ++ ids, (b, pq_truncate q k) :: m)
            end
          else Some (ids, (b, q) :: m)
      end
  end.

(** diverse_priority_queue.rs:114-139 [post_process]. *)
Definition dq_post_process (d : dq) : option dq :=
  match overfull (d_k d) (d_loc d) with
  | None => None
  | Some (removed, locs) =>
      Some (mkDq (match removed with
                  | [] => d_glob d
                  | _ => pq_retain (d_glob d) (fun x => negb (seen (n_id x) removed))
                  end) locs (d_l d) (d_k d))
  end.

(** diverse_priority_queue.rs:262-265 [iter]: the global entries. *)
Definition dq_iter (d : dq) : option (list nbr) := pq_iter (d_glob d).

(** ** Client operations *)
Inductive dop := DInsert (x : nbr) | DNext.

Definition dq_step (d : dq) (o : dop) : option (dq * option nbr) :=
  match o with
  | DInsert x => option_map (fun d' => (d', None)) (dq_insert d x)
  | DNext => dq_next d
  end.

Fixpoint dq_run (d : dq) (ops : list dop) : option (dq * list nbr) :=
  match ops with
  | [] => Some (d, [])
  | o :: ops' =>
      match dq_step d o with
      | None => None
      | Some (d', out) =>
          match dq_run d' ops' with
          | None => None
          | Some (d'', outs) => Some (d'', match out with Some x => x :: outs | None => outs end)
          end
      end
  end.

(** The results after a history: [post_process], then [iter]. *)
Definition dq_results (d : dq) : option (list nbr) :=
  match dq_post_process d with
  | None => None
  | Some d' => dq_iter d'
  end.

(** ** Graph search over the queue *)
Variable graph : nat -> option (list nat).
Variable dist : nat -> option f32.

(** search/scratch.rs:32-74 [SearchScratch]: the fields used here. *)
Record dst := mkDst { ds_best : dq; ds_vis : list nat; ds_cmps : nat; ds_hops : nat }.

Fixpoint d_insert_all (d : dq) (xs : list nbr) : option dq :=
  match xs with
  | [] => Some d
  | x :: xs' => match dq_insert d x with Some d' => d_insert_all d' xs' | None => None end
  end.

(** index.rs:1947-1957: the start points; the visited set of a new scratch is empty. *)
Definition d_init (starts : list nat) (d : dq) : sres dst :=
  match start_dists dist starts with
  | None => SErr
  | Some xs =>
      match d_insert_all d xs with
      | None => SPanic
      | Some d' => SOk (mkDst d' (rev starts) (length xs) 0)
      end
  end.

(** index.rs:1963-1970: collect the beam. *)
Fixpoint d_take_beam (n : nat) (d : dq) : option (dq * list nbr) :=
  match n with
  | 0 => Some (d, [])
  | S n' =>
      match dq_next d with
      | None => None
      | Some (d', None) => Some (d', [])
      | Some (d', Some x) =>
          match d_take_beam n' d' with
          | None => None
          | Some (d'', xs) => Some (d'', x :: xs)
          end
      end
  end.

(** index.rs:1960-1991: one round. *)
Definition d_round (bw : nat) (st : dst) : sres (dst * list nbr) :=
  match d_take_beam bw (ds_best st) with
  | None => SPanic
  | Some (d1, beam) =>
      match expand_beam graph dist (ds_vis st) (map n_id beam) with
      | None => SErr
      | Some (vis, ns) =>
          match d_insert_all d1 ns with
          | None => SPanic
          | Some d2 =>
              SOk (mkDst d2 vis (ds_cmps st + length ns) (ds_hops st + length beam), beam)
          end
      end
  end.

(** index.rs:1959-1992: the loop ([NoopSearchRecord] never stops it); the second result
    lists the expanded nodes. *)
Fixpoint d_loop (fuel bw : nat) (st : dst) : sres (dst * list nbr) :=
  if dq_has_notvisited (ds_best st) then
    match fuel with
    | 0 => SFuel
    | S fuel' =>
        match d_round bw st with
        | SOk (st', beam) =>
            match d_loop fuel' bw st' with
            | SOk (st'', rec) => SOk (st'', beam ++ rec)
            | r => r
            end
        | SErr => SErr
        | SPanic => SPanic
        | SFuel => SFuel
        end
    end
  else SOk (st, []).

(** diverse_search.rs:75-94 [DiverseSearchParams::new] (true: accepted). *)
Definition diverse_params_ok (k total : nat) : bool := negb (k =? 0) && negb (total =? 0).
(** diverse_search.rs:115-131 [Diverse::new]; [l] comes from [Knn] and is not zero. *)
Definition diverse_ok (l total : nat) : bool := negb (l <? total).

(** diverse_search.rs:192-231 [search]: the candidates handed to the post processor, the
    final state and the expanded nodes. *)
Definition diverse_search (fuel l total k bw : nat) (starts : list nat)
  : sres (list nbr * dst * list nbr) :=
  match d_init starts (dq_new l total k) with
  | SOk st0 =>
      match d_loop fuel bw st0 with
      | SOk (st, rec) =>
          match dq_results (ds_best st) with
          | None => SPanic
          | Some res => SOk (firstn l res, st, rec)
          end
      | SErr => SErr
      | SPanic => SPanic
      | SFuel => SFuel
      end
  | SErr => SErr
  | SPanic => SPanic
  | SFuel => SFuel
  end.
End diverse.
