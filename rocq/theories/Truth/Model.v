(** Model of diskann-tools/src/utils/ground_truth.rs and of the readers of its files
    (search_index_utils.rs of the same crate and diskann-benchmark/src/utils/datafiles.rs).

    Vectors and their distance are arguments.  The parallel loop over the queries gives every query
    its own queue, so it is a map.  Bit sets are predicates.  The iterator over the dataset is the list of
    its elements (its [skip] is the subject of C50).  Files are lists of bytes. *)
From Verif.Lib Require Import Base F32 Bytes.
From Verif.Queue Require Import Model.
Local Open Scope nat_scope.

Inductive res (A : Type) := ROk (a : A) | RErr | RPanic.
Arguments ROk {A} a. Arguments RErr {A}. Arguments RPanic {A}.

(** [as u32]. *)
Definition u32 (n : nat) : nat := N.to_nat (N.of_nat n mod pow256 4).
(** [chunks(batch_size)] of itertools; [fuel] is the length. *)
Fixpoint chunks {A} (fuel n : nat) (l : list A) : list (list A) :=
  match l, fuel with
  | [], _ | _, 0 => []
  | _, S fuel => firstn n l :: chunks fuel n (skipn n l)
  end.
(** ground_truth.rs 620 and 310: [batch_size] is a parameter of the model. *)

Section compute.
Context {V A : Type} (dist : V -> V -> f32) (batch_size : nat).

(** 652-660, 330-338, 682-690: [bitmaps[idx_query].contains(idx)]; [None]: out of bounds. *)
Definition allowed (bitmaps : option (list (nat -> bool))) (qi idx : nat) : option bool :=
  match bitmaps with
  | None => Some true
  | Some bs => match nth_error bs qi with Some b => Some (b idx) | None => None end
  end.
(** 649-666: one query, one batch that starts at number [base]. *)
Fixpoint scan (bitmaps : option (list (nat -> bool))) (qi : nat) (query : V) (base : nat) (batch : list V) (q : pq) : option pq :=
  match batch with
  | [] => Some q
  | x :: batch =>
      match allowed bitmaps qi (u32 base) with
      | None => None
      | Some false => scan bitmaps qi query (S base) batch q
      | Some true =>
          match pq_insert q (mkNbr (u32 base) (dist x query)) with
          | None => None
          | Some q => scan bitmaps qi query (S base) batch q
          end
      end
  end.
(** 641-668: all queries, the first of which has number [qi]. *)
Fixpoint scan_all (bitmaps : option (list (nat -> bool))) (qi : nat) (base : nat) (batch : list V) (qs : list (V * pq)) : option (list (V * pq)) :=
  match qs with
  | [] => Some []
  | (query, q) :: qs =>
      match scan bitmaps qi query base batch q, scan_all bitmaps (S qi) base batch qs with
      | Some q, Some qs => Some ((query, q) :: qs)
      | _, _ => None
      end
  end.
(** 629-671: all batches. *)
Fixpoint scan_batches (bitmaps : option (list (nat -> bool))) (base : nat) (batches : list (list V)) (qs : list (V * pq)) : option (nat * list (V * pq)) :=
  match batches with
  | [] => Some (base, qs)
  | b :: batches =>
      match scan_all bitmaps 0 base b qs with
      | None => None
      | Some qs => scan_batches bitmaps (base + length b) batches qs
      end
  end.
(** 673-699: the inserted vectors, one by one. *)
Fixpoint scan_inserts (bitmaps : option (list (nat -> bool))) (base : nat) (ins : list V) (qs : list (V * pq)) : option (list (V * pq)) :=
  match ins with
  | [] => Some qs
  | x :: ins =>
      match scan_all bitmaps 0 base [x] qs with
      | None => None
      | Some qs => scan_inserts bitmaps (S base) ins qs
      end
  end.
(** 587-702 [compute_ground_truth_from_data]. *)
Definition compute (base : list (V * A)) (queries : list V) (recall_at : nat) (inserts : list (V * A)) (skip : nat) (bitmaps : option (list (nat -> bool))) : option (list pq * list A) :=
  let data := skipn skip base in
  match scan_batches bitmaps 0 (chunks (length data) batch_size (map fst data)) (map (fun v => (v, pq_new recall_at)) queries) with
  | None => None
  | Some (n, qs) =>
      match scan_inserts bitmaps n (map fst inserts) qs with
      | None => None
      | Some qs => Some (map snd qs, map snd data)
      end
  end.

(** 326-347: one query, one batch of the range version. *)
Fixpoint rscan (bitmaps : option (list (nat -> bool))) (radius : f32) (qi : nat) (query : V) (base : nat) (batch : list V) (r : list nbr) : option (list nbr) :=
  match batch with
  | [] => Some r
  | x :: batch =>
      match allowed bitmaps qi (u32 base) with
      | None => None
      | Some false => rscan bitmaps radius qi query (S base) batch r
      | Some true => rscan bitmaps radius qi query (S base) batch (if f32_le (dist x query) radius then r ++ [mkNbr (u32 base) (dist x query)] else r)
      end
  end.
Fixpoint rscan_all (bitmaps : option (list (nat -> bool))) (radius : f32) (qi : nat) (base : nat) (batch : list V) (qs : list (V * list nbr)) : option (list (V * list nbr)) :=
  match qs with
  | [] => Some []
  | (query, r) :: qs =>
      match rscan bitmaps radius qi query base batch r, rscan_all bitmaps radius (S qi) base batch qs with
      | Some r, Some qs => Some ((query, r) :: qs)
      | _, _ => None
      end
  end.
Fixpoint rscan_batches (bitmaps : option (list (nat -> bool))) (radius : f32) (base : nat) (batches : list (list V)) (qs : list (V * list nbr)) : option (list (V * list nbr)) :=
  match batches with
  | [] => Some qs
  | b :: batches =>
      match rscan_all bitmaps radius 0 base b qs with
      | None => None
      | Some qs => rscan_batches bitmaps radius (base + length b) batches qs
      end
  end.
(** 282-355 [compute_range_ground_truth_from_data]. *)
Definition compute_range (base : list (V * A)) (queries : list V) (radius : f32) (bitmaps : option (list (nat -> bool))) : option (list (list nbr)) :=
  option_map (map snd) (rscan_batches bitmaps radius 0 (chunks (length base) batch_size (map fst base)) (map (fun v => (v, [])) queries)).
End compute.

(** ** Files *)
(** [cast_slice::<u32, u8>] on a little-endian machine. *)
Definition words (l : list N) : bytes := flat_map (le_enc 4) l.
(** [Metadata::new] (diskann-utils/src/io.rs 128-137) and [write] (178-186). *)
Definition header (a b : nat) : res bytes :=
  if ((N.of_nat a <? pow256 4) && (N.of_nat b <? pow256 4))%N then ROk (words [N.of_nat a; N.of_nat b]) else RErr.
(** 537-542: [closest_notvisited] until it has nothing; [fuel] is the number of entries and one. *)
Fixpoint drain (fuel : nat) (q : pq) : option (list nbr) :=
  match fuel with
  | 0 => Some []
  | S fuel =>
      match closest_notvisited q with
      | None => None
      | Some (q', None) => Some []
      | Some (q', Some x) => option_map (cons x) (drain fuel q')
      end
  end.
Fixpoint drain_all (qs : list pq) : option (list nbr) :=
  match qs with
  | [] => Some []
  | q :: qs => match drain (S (q_size q)) q, drain_all qs with Some a, Some b => Some (a ++ b) | _, _ => None end
  end.
(** 547-556: the associated data of the ids, or the ids.  [clone_from_slice] panics on different lengths,
    so does the index of the associated data. *)
Fixpoint lookup_all {A} (data : list A) (ids : list nat) : option (list A) :=
  match ids with
  | [] => Some []
  | i :: ids => match nth_error data i, lookup_all data ids with Some a, Some l => Some (a :: l) | _, _ => None end
  end.
(** 523-574 [write_ground_truth]. *)
Definition write_gt {A} (serialize : A -> option bytes) (nq k : nat) (qs : list pq) (assoc : option (list A)) : res bytes :=
  match header nq k with
  | ROk h =>
      match drain_all qs with
      | None => RPanic
      | Some l =>
          let dists := if length l =? nq * k then ROk (words (map n_dist l)) else RPanic in
          match assoc with
          | Some data =>
              match lookup_all data (map n_id l) with
              | None => RPanic
              | Some vs =>
                  match fold_right (fun v acc => match serialize v, acc with Some a, Some b => Some (a ++ b) | _, _ => None end) (Some []) vs with
                  | None => RErr
                  | Some b => match dists with ROk d => ROk (h ++ b ++ d) | RErr => RErr | RPanic => RPanic end
                  end
              end
          | None =>
              if negb (length l =? nq * k) then RPanic
              else match dists with ROk d => ROk (h ++ words (map (fun x => N.of_nat (n_id x)) l) ++ d) | RErr => RErr | RPanic => RPanic end
          end
      end
  | RErr => RErr
  | RPanic => RPanic
  end.
(** 474-518 [write_range_search_ground_truth]; the sum of the sizes is a [u32]: an overflow panics
    or, without the check, makes the lengths differ. *)
Definition write_range (nq : nat) (gt : list (list nbr)) : res bytes :=
  let total := length (concat gt) in
  if (pow256 4 <=? N.of_nat total)%N then RPanic
  else
    match header nq total with
    | ROk h => ROk (h ++ words (map (fun l => N.of_nat (length l)) gt) ++ words (map (fun x => N.of_nat (n_id x)) (concat gt)))
    | RErr => RErr
    | RPanic => RPanic
    end.

(** [read_exact] of [n] bytes. *)
Definition take (n : nat) (b : bytes) : res (bytes * bytes) := if n <=? length b then ROk (firstn n b, skipn n b) else RErr.
(** [cast_slice::<u8, u32>] of [n] words. *)
Fixpoint unwords (n : nat) (b : bytes) : list N :=
  match n with 0 => [] | S n => le_dec (firstn 4 b) :: unwords n (skipn 4 b) end.
Notation "'let?' x := a 'in' b" := (match a with ROk x => b | RErr => RErr | RPanic => RPanic end) (at level 61, x pattern, right associativity).
(** [Metadata::read]; io.rs 159-176. *)
Definition read_header (b : bytes) : res (nat * nat * bytes) :=
  let? (h, b) := take 8 b in
  match unwords 2 h with [x; y] => ROk (N.to_nat x, N.to_nat y, b) | _ => RErr end.
(** search_index_utils.rs 297-350 [load_truthset]: ids, distances if any, points, dimension. *)
Definition load_truthset (b : bytes) : res (list N * option (list N) * nat * nat) :=
  let? (npts, dim, rest) := read_header b in
  if length b =? 2 * npts * dim * 4 + 8 then
    let? (i, rest) := take (npts * dim * 4) rest in
    let? (d, rest) := take (npts * dim * 4) rest in
    ROk (unwords (npts * dim) i, Some (unwords (npts * dim) d), npts, dim)
  else if length b =? npts * dim * 4 + 8 then
    let? (i, rest) := take (npts * dim * 4) rest in
    ROk (unwords (npts * dim) i, None, npts, dim)
  else RErr.
(** 380-386: the ids of each query. *)
Fixpoint read_lists (sizes : list N) (b : bytes) : res (list (list N)) :=
  match sizes with
  | [] => ROk []
  | n :: sizes =>
      let? (i, b) := take (N.to_nat n * 4) b in
      let? l := read_lists sizes b in
      ROk (unwords (N.to_nat n) i :: l)
  end.
(** 358-393 [load_range_truthset]; the counts are read one by one. *)
Definition load_range (b : bytes) : res (list (list N)) :=
  let? (npts, _, b) := read_header b in
  let? (c, b) := take (npts * 4) b in
  read_lists (unwords npts c) b.
(** datafiles.rs 98-129 [load_groundtruth]: the rows. *)
Fixpoint rows (n dim : nat) (l : list N) : list (list N) := match n with 0 => [] | S n => firstn dim l :: rows n dim (skipn dim l) end.
Definition load_groundtruth (b : bytes) (k : option nat) : res (list (list N)) :=
  let? (npts, dim, b) := read_header b in
  let? (i, _) := take (npts * dim * 4) b in
  if (match k with Some k => dim <? k | None => false end) then RErr else ROk (rows npts dim (unwords (npts * dim) i)).
(** datafiles.rs 137-166 [load_range_groundtruth]: slices of the ids, which panic if they are too short. *)
Fixpoint cut (sizes : list N) (ids : list N) : res (list (list N)) :=
  match sizes with
  | [] => ROk []
  | n :: sizes =>
      if length ids <? N.to_nat n then RPanic
      else let? l := cut sizes (skipn (N.to_nat n) ids) in ROk (firstn (N.to_nat n) ids :: l)
  end.
Definition load_range_groundtruth (b : bytes) : res (list (list N)) :=
  let? (npts, total, b) := read_header b in
  let? (w, _) := take ((npts + total) * 4) b in
  let l := unwords (npts + total) w in
  cut (firstn npts l) (skipn npts l).
