(** Model of the recall computed by the tools and reported by the disk benchmark
    (diskann-tools/src/utils/search_index_utils.rs, diskann-benchmark/src/disk_index/search.rs).
    [None] is a panic. *)
From Coq Require Import List PeanoNat Bool.
From Verif.Recall Require Import Model.
Import ListNotations.

Section Tool.
  (** Ids, distances with [==] of f32. *)
  Context {A F : Type} (eqb : A -> A -> bool) (deq : F -> F -> bool).
  (** [&s[n..]]. *)
  Definition from {B} (n : nat) (l : list B) : option (list B) := if n <=? length l then Some (skipn n l) else None.
  (** The insertion of the entries 0 to [n] of a slice into a set; 152-158. *)
  Definition put {B} (n : nat) (l : list B) : option (list B) := if n <=? length l then Some (firstn n l) else None.
  (** The loop over the ties; 145-149.  [fuel] bounds the number of rounds by the dimension. *)
  Fixpoint run_of_ties (fuel : nat) (d : list F) (dim k tb : nat) : option nat :=
    match fuel with
    | 0 => Some tb
    | S fuel =>
        if tb <? dim then
          do a <- nth_error d tb; do b <- nth_error d (k - 1);
          if deq a b then run_of_ties fuel d dim k (S tb) else Some tb
        else Some tb
    end.
  (** One query; 134-167. *)
  Definition tool_query (gt : list A) (gd : option (list F)) (dim_gt : nat) (results : list A) (dim_or k n i : nat) : option nat :=
    do g <- from (dim_gt * i) gt;
    do r <- from (dim_or * i) results;
    do tb <- (match gd with
              | None => Some k
              | Some d => do d <- from (dim_gt * i) d; run_of_ties dim_gt d dim_gt k k
              end);
    do gs <- put tb g;
    do rs <- put n r;
    let res := extend eqb [] rs in
    Some (Nat.min (length (filter (fun v => mem eqb v res) (extend eqb [] gs))) k).
  (** The sum over the queries; 131, 170.  Whole numbers, which f64 adds exactly below 2^53. *)
  Fixpoint total (one : nat -> option nat) (is : list nat) : option nat :=
    match is with [] => Some 0 | i :: is => do a <- one i; do b <- total one is; Some (a + b) end.
  (** [calculate_recall]; 121-174.  [percent t q k] is [t / q * (100.0 / k)]. *)
  Definition calculate_recall {D} (percent : nat -> nat -> nat -> D) (nq : nat) (gt : list A) (gd : option (list F)) (dim_gt : nat) (results : list A) (dim_or k n : nat) : option D :=
    do t <- total (tool_query gt gd dim_gt results dim_or k n) (seq 0 nq); Some (percent t nq k).

  (** [calculate_filtered_search_recall], one query; 241-288: the matches and what they are divided
      by, [inl] without ground truth, [inr false] for distances of another length. *)
  Definition filtered_query (gd : option (list (list F))) (gts results : list (list A)) (k i : nat) : option (unit + option (nat * nat)) :=
    do gt <- nth_error gts i;
    do r <- nth_error results i;
    let cut := Nat.min k (length gt) in
    let res := extend eqb [] r in
    if 0 <? cut then
      do g <- (match gd with
               | None => Some (Some (extend eqb [] (firstn cut gt)))
               | Some gd =>
                   do d <- nth_error gd i;
                   if length d =? length gt then do last <- nth_error d (cut - 1); Some (Some (ties eqb deq last (skipn cut (combine d gt)) (extend eqb [] (firstn cut gt))))
                   else Some None
               end);
      match g with
      | None => Some (inr None)
      | Some g => Some (inr (Some (length (filter (fun v => mem eqb v res) g), Nat.max cut (length res))))
      end
    else Some (inl tt).
  (** The loop; 240-294.  [share c m] is [100.0 * c / m]; the inner [None] is the error. *)
  Fixpoint filtered_sum {D} (dadd : D -> D -> D) (share : nat -> nat -> D) (hundred : D) (one : nat -> option (unit + option (nat * nat))) (is : list nat) (acc : D) : option (option D) :=
    match is with
    | [] => Some (Some acc)
    | i :: is =>
        do q <- one i;
        match q with
        | inl _ => filtered_sum dadd share hundred one is (dadd acc hundred)
        | inr (Some (c, m)) => filtered_sum dadd share hundred one is (dadd acc (share c m))
        | inr None => Some None
        end
    end.
  (** 216-296; the outer [None] is a panic, the inner an error. *)
  Definition calculate_filtered {D} (dzero : D) (dadd : D -> D -> D) (share : nat -> nat -> D) (hundred : D) (over : D -> nat -> D)
      (nq : nat) (gd : option (list (list F))) (gts results : list (list A)) (k : nat) : option (option D) :=
    if k =? 0 then Some None
    else if negb (length gts =? nq) || negb (length results =? nq) then Some None
    else do t <- filtered_sum dadd share hundred (filtered_query gd gts results k) (seq 0 nq) dzero; Some (option_map (fun t => over t nq) t).

  (** The disk benchmark, search.rs 247-305: the ids of one query, padded with [zero]. *)
  Definition padded (zero : A) (recall_at : nat) (found : list A) : list A :=
    let c := Nat.min (length found) recall_at in firstn c found ++ repeat zero (recall_at - c).
  (** 111-125: ground truth of fixed length. *)
  Definition disk_recall {D} (percent : nat -> nat -> nat -> D) (zero : A) (recall_at : nat) (gt : list A) (gd : option (list F)) (dim_gt : nat) (found : list (list A)) : option D :=
    calculate_recall percent (length found) gt gd dim_gt (flat_map (padded zero recall_at) found) recall_at recall_at recall_at.
  (** 92-109: ground truth of variable length, with filters; the padding is cut off again. *)
  Definition disk_filtered {D} (dzero : D) (dadd : D -> D -> D) (share : nat -> nat -> D) (hundred : D) (over : D -> nat -> D) (recall_at : nat) (gts found : list (list A)) : option (option D) :=
    calculate_filtered dzero dadd share hundred over (length found) None gts (map (firstn recall_at) found) recall_at.
End Tool.
