(** Model of diskann/src/neighbor/queue.rs: [NeighborPriorityQueue].

    Vectors are lists; [None] stands for a panic (arithmetic underflow, failed assertion,
    out-of-range Vec::insert) or an out-of-bounds unchecked access.  Ids are [nat]
    (I : NeighborPriorityQueueIdType); allocation and reserve are not modelled except for
    their effect on the logical capacity.  The debug-only uniqueness assertion
    (queue.rs:400-412) is not part of the model. *)
From Verif.Lib Require Import Base F32.
Local Open Scope nat_scope.

(** neighbor/mod.rs:67-71 [Neighbor]. *)
Record nbr := mkNbr { n_id : nat; n_dist : f32 }.

(** queue.rs:66-90 [NeighborPriorityQueue]. *)
Record pq := mkPq {
  q_size : nat;
  q_cap : nat;
  q_cur : nat;
  q_idv : list (nat * bool);
  q_dist : list f32;
  q_auto : bool;
  q_L : nat
}.

(** queue.rs:96-106 [new]. *)
Definition pq_new (l : nat) : pq := mkPq 0 l 0 [] [] false l.
(** queue.rs:109-119 [auto_resizable_with_search_param_l]. *)
Definition pq_new_auto (l : nat) : pq := mkPq 0 l 0 [] [] true l.

(** Index of the first true lane of a comparison mask ([SIMDMask::first]). *)
Fixpoint first_lane (m : list bool) : option nat :=
  match m with
  | [] => None
  | b :: m' => if b then Some 0 else option_map S (first_lane m')
  end.

(** [f32s::load_simd] of 8 lanes at [index]; [None] lanes outside of the buffer cannot
    occur for the calls made, [load8] returns whatever is left. *)
Definition load8 (ds : list f32) (index : nat) : list f32 := firstn 8 (skipn index ds).

(** [f32s::load_simd_first]: the first [k] lanes from memory, the others are zero. *)
Definition load8_first (ds : list f32) (index k : nat) : list f32 :=
  let l := firstn (Nat.min 8 k) (skipn index ds) in l ++ repeat f32_zero (8 - length l).

Definition ge_first (v : list f32) (target : f32) : option nat :=
  first_lane (map (fun x => f32_ge x target) v).

(** queue.rs:236-254: the 16-wide loop.  [fuel] bounds the number of iterations; the
    model starts it with [size] which is more than enough (size/16 are executed). *)
Fixpoint lb_loop (fuel : nat) (ds : list f32) (size : nat) (t : f32) (index : nat)
  : nat + nat :=                 (* inl i: return i; inr i: fell through with index i *)
  if index + 16 <=? size then
    match fuel with
    | 0 => inr index
    | S fuel' =>
        match ge_first (load8 ds index) t, ge_first (load8 ds (index + 8)) t with
        | Some o, _ => inl (index + o)
        | None, Some o => inl (index + 8 + o)
        | None, None => lb_loop fuel' ds size t (index + 16)
        end
    end
  else inr index.

(** queue.rs:257-279: the remaining items. *)
Definition lb_tail (ds : list f32) (size : nat) (t : f32) (index : nat) : nat :=
  let rest (index : nat) :=
    if index <? size then
      match ge_first (load8_first ds index (size - index)) t with
      | Some o => index + o
      | None => size
      end
    else size in
  if index + 8 <=? size then
    match ge_first (load8 ds index) t with
    | Some o => index + o
    | None => rest (index + 8)
    end
  else rest index.

(** queue.rs:229-280 [get_lower_bound]. *)
Definition lower_bound (q : pq) (t : f32) : nat :=
  match lb_loop (q_size q) (q_dist q) (q_size q) t 0 with
  | inl i => i
  | inr i => lb_tail (q_dist q) (q_size q) t i
  end.

(** [Vec::insert]: panics if the index is greater than the length. *)
Definition vec_insert {A} (i : nat) (x : A) (l : list A) : option (list A) :=
  if i <=? length l then Some (firstn i l ++ x :: skipn i l) else None.

(** [Vec::remove]. *)
Definition vec_remove {A} (i : nat) (l : list A) : option (list A) :=
  if i <? length l then Some (firstn i l ++ skipn (S i) l) else None.

(** queue.rs:283-288 [get_unchecked]. *)
Definition get_unchecked (q : pq) (i : nat) : option nbr :=
  match nth_error (q_idv q) i, nth_error (q_dist q) i with
  | Some (id, _), Some d => Some (mkNbr id d)
  | _, _ => None
  end.

(** queue.rs:291-294 [get]. *)
Definition pq_get (q : pq) (i : nat) : option nbr :=
  if i <? q_size q then get_unchecked q i else None.

(** queue.rs:362-366 [reserve]. *)
Definition reserve (q : pq) (k : nat) : pq :=
  mkPq (q_size q) (q_cap q + k) (q_cur q) (q_idv q) (q_dist q) (q_auto q) (q_L q).

(** queue.rs:147-170: the part of [insert] after the capacity checks. *)
Definition insert_at (q : pq) (x : nbr) : option pq :=
  let idx := if 0 <? q_size q then lower_bound q (n_dist x) else 0 in
  let q1 :=
    if q_size q =? q_cap q then
      mkPq (q_size q - 1) (q_cap q) (q_cur q) (firstn (q_size q - 1) (q_idv q))
           (firstn (q_size q - 1) (q_dist q)) (q_auto q) (q_L q)
    else q in
  if (q_size q =? q_cap q) && (q_size q =? 0) then None   (* size - 1 underflows *)
  else
  match vec_insert idx (n_id x, false) (q_idv q1), vec_insert idx (n_dist x) (q_dist q1) with
  | Some idv, Some ds =>
      Some (mkPq (S (q_size q1)) (q_cap q1)
                 (if idx <? q_cur q1 then idx else q_cur q1) idv ds (q_auto q1) (q_L q1))
  | _, _ => None
  end.

(** queue.rs:130-171 [insert]. *)
Definition pq_insert (q : pq) (x : nbr) : option pq :=
  if is_nan (n_dist x) then Some q
  else if q_auto q then
    insert_at (if q_size q =? q_cap q
               then reserve q (Nat.max 1 (Nat.div2 (q_cap q))) else q) x
  else if q_size q =? q_cap q then
    match q_size q with
    | 0 => None                                     (* :142 size - 1 underflows *)
    | S k =>
        match get_unchecked q k with
        | None => None
        | Some last => if f32_lt (n_dist last) (n_dist x) then Some q else insert_at q x
        end
    end
  else insert_at q x.

(** queue.rs:174-180 [drain_best]. *)
Definition pq_drain_best (q : pq) (count : nat) : pq :=
  let c := Nat.min count (q_size q) in
  mkPq (q_size q - c) (q_cap q) 0 (skipn c (q_idv q)) (skipn c (q_dist q)) (q_auto q) (q_L q).

(** queue.rs:190-193, 555-590 [iter]: the items it yields. *)
Fixpoint iter_from (q : pq) (i n : nat) : option (list nbr) :=
  match n with
  | 0 => Some []
  | S n' =>
      match pq_get q i, iter_from q (S i) n' with
      | Some x, Some r => Some (x :: r)
      | _, _ => None
      end
  end.
Definition pq_iter (q : pq) : option (list nbr) :=
  iter_from q 0 (Nat.min (q_L q) (q_size q)).

(** queue.rs:197-224 [remove]. *)
Definition pq_remove (q : pq) (x : nbr) : option (pq * bool) :=
  if q_size q =? 0 then Some (q, false)
  else
    let index := lower_bound q (n_dist x) in
    if index <? q_size q then
      match get_unchecked q index with
      | None => None
      | Some y =>
          if n_id y =? n_id x then
            match vec_remove index (q_idv q), vec_remove index (q_dist q) with
            | Some idv, Some ds =>
                Some (mkPq (q_size q - 1) (q_cap q)
                        (if (index <? q_cur q) && (0 <? q_cur q) then q_cur q - 1 else q_cur q)
                        idv ds (q_auto q) (q_L q), true)
            | _, _ => None
            end
          else Some (q, false)
      end
    else Some (q, false).

(** queue.rs:316-318 [has_notvisited_node]. *)
Definition has_notvisited (q : pq) : bool := q_cur q <? Nat.min (q_L q) (q_size q).

(** queue.rs:384-388 [get_visited]; [None] = failed assertion. *)
Definition get_visited (q : pq) (i : nat) : option bool :=
  if i <? q_size q then option_map snd (nth_error (q_idv q) i) else None.

(** queue.rs:377-382 [set_visited]. *)
Definition set_visited (q : pq) (i : nat) (flag : bool) : option pq :=
  if (i <? q_size q) && (q_size q <=? q_cap q) then
    match nth_error (q_idv q) i with
    | Some (id, _) =>
        Some (mkPq (q_size q) (q_cap q) (q_cur q)
                (firstn i (q_idv q) ++ (id, flag) :: skipn (S i) (q_idv q))
                (q_dist q) (q_auto q) (q_L q))
    | None => None
    end
  else None.

(** queue.rs:306-310: advance the cursor over visited entries. *)
Fixpoint skip_visited (fuel : nat) (q : pq) (c : nat) : option nat :=
  if c <? q_size q then
    match fuel with
    | 0 => None
    | S fuel' =>
        match get_visited q c with
        | Some true => skip_visited fuel' q (S c)
        | Some false => Some c
        | None => None
        end
    end
  else Some c.

(** queue.rs:297-313 [closest_notvisited]. *)
Definition closest_notvisited (q : pq) : option (pq * option nbr) :=
  if negb (has_notvisited q) then Some (q, None)
  else
    match set_visited q (q_cur q) true with
    | None => None
    | Some q1 =>
        match skip_visited (q_size q1) q1 (S (q_cur q)), get_unchecked q1 (q_cur q) with
        | Some c, Some x =>
            Some (mkPq (q_size q1) (q_cap q1) c (q_idv q1) (q_dist q1) (q_auto q1) (q_L q1),
                  Some x)
        | _, _ => None
        end
    end.

(** queue.rs:339-353 [reconfigure]. *)
Definition pq_reconfigure (q : pq) (l : nat) : pq :=
  if l <? q_size q then
    mkPq l l (Nat.min (q_cur q) l) (firstn l (q_idv q)) (firstn l (q_dist q)) (q_auto q) l
  else mkPq (q_size q) l (q_cur q) (q_idv q) (q_dist q) (q_auto q) l.

(** queue.rs:370-375 [clear]. *)
Definition pq_clear (q : pq) : pq := mkPq 0 (q_cap q) 0 [] [] (q_auto q) (q_L q).

(** queue.rs:466-474 [truncate] (feature experimental_diversity_search). *)
Definition pq_truncate (q : pq) (len : nat) : pq :=
  if len <? q_size q then
    mkPq len (q_cap q) 0 (firstn len (q_idv q)) (firstn len (q_dist q)) (q_auto q) (q_L q)
  else q.

(** queue.rs:427-456 [retain]: in-place compaction, written as a fold over the entries. *)
Fixpoint retain_entries (f : nbr -> bool) (idv : list (nat * bool)) (ds : list f32)
  : list (nat * bool) * list f32 :=
  match idv, ds with
  | (id, _) :: idv', d :: ds' =>
      let (a, b) := retain_entries f idv' ds' in
      if f (mkNbr id d) then ((id, false) :: a, d :: b) else (a, b)
  | _, _ => ([], [])
  end.
Definition pq_retain (q : pq) (f : nbr -> bool) : pq :=
  if q_size q =? 0 then q
  else
    let (a, b) := retain_entries f (q_idv q) (q_dist q) in
    let w := length a in
    if w <? q_size q then mkPq w (q_cap q) 0 a b (q_auto q) (q_L q)
    else mkPq (q_size q) (q_cap q) (q_cur q) a b (q_auto q) (q_L q).

(** Client operations. *)
Inductive qop : Type :=
| QInsert (x : nbr) | QNext | QReconfigure (l : nat) | QClear.

(** One operation; the output is what [closest_notvisited] returned. *)
Definition q_step (q : pq) (o : qop) : option (pq * option nbr) :=
  match o with
  | QInsert x => option_map (fun q' => (q', None)) (pq_insert q x)
  | QNext => closest_notvisited q
  | QReconfigure l => Some (pq_reconfigure q l, None)
  | QClear => Some (pq_clear q, None)
  end.

Fixpoint q_run (q : pq) (ops : list qop) : option (pq * list nbr) :=
  match ops with
  | [] => Some (q, [])
  | o :: ops' =>
      match q_step q o with
      | None => None
      | Some (q', out) =>
          match q_run q' ops' with
          | None => None
          | Some (q'', outs) =>
              Some (q'', match out with Some x => x :: outs | None => outs end)
          end
      end
  end.
