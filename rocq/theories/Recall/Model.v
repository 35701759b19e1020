(** Model of the recall and the average precision reported by the benchmarks
    (diskann-benchmark-core/src/recall.rs). *)
From Coq Require Import List PeanoNat Bool.
Import ListNotations.

Notation "'do' x <- a ; b" := (match a with Some x => b | None => None end) (at level 200, x pattern, right associativity).

(** [ComputeRecallError]; 31-45. *)
Inductive rerror :=
| RowsMismatch (results groundtruth : nat)
| DistanceRowsMismatch (distances rows : nat)
| RecallKAndN (k n : nat)
| NotEnoughGroundTruth (have k : nat)
| GroundTruthDistanceMismatch (distances groundtruth : nat).
(** [GroundTruthMode]; 122-129. *)
Inductive mode := Fixed | Flexible.
(** [RecallMetrics]; 17-29. *)
Record metrics (D : Type) := mkR { r_k : nat; r_n : nat; r_queries : nat; r_average : D }.
Arguments mkR {D}. Arguments r_k {D}. Arguments r_n {D}. Arguments r_queries {D}. Arguments r_average {D}.

Section Recall.
  (** The ids with their equality; the distances with [==] of f32; the operations on f64: 0.0, the
      start of a sum, the addition and the quotient of two integers. *)
  Context {A F D : Type} (eqb : A -> A -> bool) (deq : F -> F -> bool) (dzero dstart : D) (dadd : D -> D -> D) (ratio : nat -> nat -> D).

  (** [HashSet]: insertion and [extend]; the order of the elements is not used by the code. *)
  Definition mem (a : A) (s : list A) : bool := existsb (eqb a) s.
  Definition insert (s : list A) (a : A) : list A := if mem a s then s else s ++ [a].
  Definition extend (s : list A) (l : list A) : list A := fold_left insert l s.

  (** Rows of any length ([Rows], 66-115), as a list of lists; [row i] beyond the end panics. *)
  Definition row {B} (m : list (list B)) (i : nat) : option (list B) := nth_error m i.
  (** The first row that fails a test, as an error; 166-177 and 190-199. *)
  Fixpoint validate (test : nat -> option (option rerror)) (is : list nat) : option (option rerror) :=
    match is with
    | [] => Some None
    | i :: is => do r <- test i; match r with Some e => Some (Some e) | None => validate test is end
    end.
  (** The loop over the ties; 247-253. *)
  Fixpoint ties (last : F) (l : list (F * A)) (s : list A) : list A :=
    match l with
    | [] => s
    | (d, g) :: l => if deq d last then ties last l (insert s g) else s
    end.
  (** One query; 224-264: nothing for a query without ground truth, or the denominator and the hits. *)
  Definition hits (gt : list A) (dist : option (list F)) (result : list A) (k n : nat) : option (option (nat * nat)) :=
    let this_k := Nat.min (length gt) k in
    if this_k =? 0 then Some None else
    let g := extend [] (firstn this_k gt) in
    do g <- (match dist with
             | None => Some g
             | Some ds => do last <- nth_error ds (this_k - 1); Some (ties last (skipn this_k (combine ds gt)) g)
             end);
    let res := extend [] (firstn n result) in
    Some (Some (this_k, Nat.min (length (filter (fun i => mem i res) g)) this_k)).
  (** [BTreeMap]: the entry of [k] plus [r]; 266.  Keys in increasing order. *)
  Fixpoint bump (k r : nat) (m : list (nat * nat)) : list (nat * nat) :=
    match m with
    | [] => [(k, r)]
    | (k', h) :: m' => if k <? k' then (k, r) :: m else if k =? k' then (k, h + r) :: m' else (k', h) :: bump k r m'
    end.
  (** The loop over the queries; 223-268. *)
  Fixpoint score (query : nat -> option (option (nat * nat))) (is : list nat) (m : list (nat * nat)) (scored : nat)
    : option (list (nat * nat) * nat) :=
    match is with
    | [] => Some (m, scored)
    | i :: is =>
      do q <- query i;
      match q with
      | None => score query is m scored
      | Some (k, r) => score query is (bump k r m) (S scored)
      end
    end.
  (** The sum over the denominators; 283-293. *)
  Definition average_of (m : list (nat * nat)) (scored : nat) : D :=
    if scored =? 0 then dzero else
    fold_left dadd (map (fun e => ratio (snd e) (fst e * scored)) m) dstart.
  (** [knn]; 146-301.  The counts are u64 and u128 in the code. *)
  Definition knn (groundtruth : list (list A)) (distances : option (list (list F))) (results : list (list A)) (k n : nat) (md : mode)
    : option (metrics D + rerror) :=
    if n <? k then Some (inr (RecallKAndN k n)) else
    let nrows := length results in
    if negb (nrows =? length groundtruth) then Some (inr (RowsMismatch nrows (length groundtruth))) else
    do e <- (match md with
             | Flexible => Some None
             | Fixed => validate (fun i => do g <- row groundtruth i;
                          Some (if length g <? k then Some (NotEnoughGroundTruth (length g) k) else None)) (seq 0 nrows)
             end);
    match e with Some e => Some (inr e) | None =>
    do e <- (match distances with
             | None => Some None
             | Some ds =>
               if negb (nrows =? length ds) then Some (Some (DistanceRowsMismatch (length ds) nrows)) else
               validate (fun i => do g <- row groundtruth i; do d <- row ds i;
                 Some (if negb (length g =? length d) then Some (GroundTruthDistanceMismatch (length d) (length g)) else None)) (seq 0 nrows)
             end);
    match e with Some e => Some (inr e) | None =>
    do s <- score (fun i =>
      do r <- row results i; do g <- row groundtruth i;
      match distances with
      | None => hits g None r k n
      | Some ds => do d <- row ds i; hits g (Some d) r k n
      end) (seq 0 nrows) [] 0;
    let '(m, scored) := s in
    Some (inl (mkR k n nrows (average_of m scored)))
    end end.

  (** [average_precision]; 319-359.  The error has the numbers of rows; the result is the number of
      queries and the quotient. *)
  Definition average_precision (results groundtruth : list (list A)) : option (nat * D + nat * nat) :=
    let nrows := length results in
    if negb (nrows =? length groundtruth) then Some (inr (nrows, length groundtruth)) else
    do c <- fold_left (fun acc i =>
      do c <- acc; do r <- row results i; do g <- row groundtruth i;
      let scratch := extend [] r in
      Some (fst c + length (filter (fun i => mem i scratch) g), snd c + length g)) (seq 0 nrows) (Some (0, 0));
    Some (inl (nrows, ratio (fst c) (snd c))).
End Recall.
