(** Model of the k-means clustering used to train product quantization
    (diskann-quantization/src/algorithms/kmeans/lloyds.rs, plusplus.rs and
    diskann-quantization/src/product/train.rs).

    [None] is a panic or an access outside an allocation.  The f32 operations are an argument, as in
    [Pq.Model], and so are the f64 ones. *)
From Coq Require Import List PeanoNat Bool.
From Verif.Simd Require Import Model.
From Verif.Pq Require Import Model.
Require Verif.Work.Model.
Import ListNotations.

(** The f64 operations. *)
Record dops (F D : Type) := mkD {
  widen : F -> D;                 (* Into<f64> *)
  narrow : D -> F;                (* as f32 *)
  dzero : D;
  dadd : D -> D -> D;
  dover : D -> nat -> D;          (* s / (count as f64) *)
  dlt : D -> D -> bool;
  dge : D -> D -> bool;           (* >= *)
  dfin : D -> bool                (* f64::is_finite *)
}.
Arguments mkD {F D}. Arguments widen {F D}. Arguments narrow {F D}. Arguments dzero {F D}. Arguments dadd {F D}.
Arguments dover {F D}. Arguments dlt {F D}. Arguments dge {F D}. Arguments dfin {F D}.

(** [v[i] = a] for an index known to be in bounds. *)
Fixpoint upd {A} (i : nat) (a : A) (l : list A) : list A :=
  match l, i with
  | [], _ => []
  | _ :: l, 0 => a :: l
  | b :: l, S i => b :: upd i a l
  end.

Section Kmeans.
  Context {F D : Type} (x : xops F) (dd : dops F D).
  Notation o := (fo x).
  Notation z0 := (zero o).

  (** [BlockTransposedRef<'_, f32, 16>]: the physical data, [nrows] and [ncols]. *)
  Record btref := mkB { b_data : list F; b_rows : nat; b_cols : nat }.
  Definition bt_full (b : btref) : nat := b_rows b / 16.
  Definition bt_blocks (b : btref) : nat := div_ceil (b_rows b) 16.
  Definition bt_rest (b : btref) : nat := b_rows b mod 16.
  (** [BlockTransposed::from_strided]. *)
  Definition transpose_of (v : strided F) : option btref :=
    do d <- bt_from z0 16 1 v; Some (mkB d (s_rows v) (s_cols v)).
  (** The norms of the rows of a view, [row_iter().map(square_norm)]. *)
  Definition row_norms (v : strided F) : option (list F) :=
    each (fun i => do r <- s_row v i; square_norm x r) (seq 0 (s_rows v)).
  (** [MatrixView::get_unchecked]. *)
  Definition m_get (m : matrix F) (i j : nat) : option F :=
    if (i <? m_rows m) && (j <? m_cols m) then nth_error (m_data m) (i * m_cols m + j) else None.
  Definition view_of (m : matrix F) : strided F := mkS (m_data m) (m_rows m) (m_cols m) (m_cols m).

  (** ** Lloyd's algorithm (lloyds.rs) *)

  (** [process_block_unroll_2]; 73-112. *)
  Definition block_2 (b : btref) (centers : matrix F) (block row : nat) : option (list F * list F * (list F * list F)) :=
    if negb (block <? bt_blocks b) then None else
    if negb (row + 1 <? m_rows centers) then None else
    let base := 16 * b_cols b * block in
    for_range (b_cols b) (fun dim '(s00, s01, (s10, s11)) =>
      do d0 <- load8 (b_data b) (base + 16 * dim);
      do d1 <- load8 (b_data b) (base + (16 * dim + 8));
      do c0 <- m_get centers row dim;
      do c1 <- m_get centers (row + 1) dim;
      Some (vfma x (splat c0) d0 s00, vfma x (splat c0) d1 s01, (vfma x (splat c1) d0 s10, vfma x (splat c1) d1 s11)))
      (splat z0, splat z0, (splat z0, splat z0)).
  (** [process_block_no_unroll]; 121-147. *)
  Definition block_1 (b : btref) (centers : matrix F) (block row : nat) : option (list F * list F) :=
    if negb (block <? bt_blocks b) then None else
    if negb (row + 1 =? m_rows centers) then None else
    let base := 16 * b_cols b * block in
    for_range (b_cols b) (fun dim '(s00, s01) =>
      do d0 <- load8 (b_data b) (base + 16 * dim);
      do d1 <- load8 (b_data b) (base + (16 * dim + 8));
      do c0 <- m_get centers row dim;
      Some (vfma x (splat c0) d0 s00, vfma x (splat c0) d1 s01)) (splat z0, splat z0).
  (** [n0 - s00 - s00 + d0]; 188-191. *)
  Definition apart (n : F) (s d : list F) : list F := vadd x (vsub x (vsub x (splat n) s) s) d.
  (** A distance for every lane and one center for all of them; [update], 330-339, is
      [Pq.Model.update_tracking]; [u32::MAX] is [None] and the model assumes fewer than 2^32 - 1
      centers. *)
  Definition one_center (r : nat) (d : list F) : track (F := F) := List.combine d (repeat (Some r) 8).
  (** All centers against the block [block] of the dataset; 169-215 and 263-303, where the same text
      is used for a full block and for the last, partial one. *)
  Definition scan (b : btref) (centers : matrix F) (cnorms : list F) (block : nat) (d0 d1 : list F) : option (track (F := F) * track (F := F)) :=
    let nr := m_rows centers in
    let last_pair := if nr mod 2 =? 0 then nr else nr - 1 in
    do t <- for_range (last_pair / 2) (fun p '(t0, t1) =>
      let row := 2 * p in
      do s <- block_2 b centers block row;
      let '(s00, s01, (s10, s11)) := s in
      do n0 <- nth_error cnorms row;
      do n1 <- nth_error cnorms (row + 1);
      Some (update_tracking x (update_tracking x t0 (one_center row (apart n0 s00 d0))) (one_center (row + 1) (apart n1 s10 d0)),
            update_tracking x (update_tracking x t1 (one_center row (apart n0 s01 d1))) (one_center (row + 1) (apart n1 s11 d1))))
      (track0 x, track0 x);
    let '(t0, t1) := t in
    if negb (nr mod 2 =? 0) then
      do s <- block_1 b centers block last_pair;
      let '(s00, s01) := s in
      do n0 <- nth_error cnorms last_pair;
      Some (update_tracking x t0 (one_center last_pair (apart n0 s00 d0)), update_tracking x t1 (one_center last_pair (apart n0 s01 d1)))
    else Some (t0, t1).
  (** [distances_in_place]; 28-327. *)
  Definition distances_in_place (b : btref) (norms : list F) (centers : matrix F) (cnorms : list F) (nearest : list (option nat))
    : option (list (option nat) * F) :=
    if negb (b_rows b =? length norms) then None else
    if negb (m_cols centers =? b_cols b) then None else
    if negb (m_rows centers =? length cnorms) then None else
    if negb (length nearest =? b_rows b) then None else
    do st <- for_range (bt_full b) (fun i '(nearest, residual) =>
      do d0 <- load8 norms (16 * i);
      do d1 <- load8 norms (16 * i + 8);
      do t <- scan b centers cnorms i d0 d1;
      let '(t0, t1) := t in
      do nearest <- store8 (16 * i) 8 (map snd t0) nearest;
      do nearest <- store8 (16 * i + 8) 8 (map snd t1) nearest;
      Some (nearest, vadd x (vadd x residual (map fst t0)) (map fst t1))) (nearest, splat z0);
    let '(nearest, residual) := st in
    do st <- (if negb (bt_rest b =? 0) then
      let i := bt_full b in
      let lo := Nat.min (bt_rest b) 8 in
      let hi := bt_rest b - lo in
      do d0 <- load8_first x norms (16 * i) lo;
      do d1 <- (if hi =? 0 then Some (splat z0) else load8_first x norms (16 * i + 8) hi);
      do t <- scan b centers cnorms i d0 d1;
      let '(t0, t1) := t in
      do nearest <- store8 (16 * i) lo (map snd t0) nearest;
      do nearest <- (if negb (hi =? 0) then store8 (16 * i + 8) hi (map snd t1) nearest else Some nearest);
      let residual := keep_first lo (vadd x residual (map fst t0)) residual in
      let residual := keep_first hi (vadd x residual (map fst t1)) residual in
      Some (nearest, residual) else Some (nearest, residual));
    let '(nearest, residual) := st in
    Some (nearest, sum_tree (add o) z0 residual).

  (** [update_centroids]; 345-370.  The caller has checked that the rows of the data have the length
      of the centers.  The counts are u32 in the code. *)
  Definition count_row (st : option (list nat * list (list D))) (p : list F * option nat) : option (list nat * list (list D)) :=
    do st <- st;
    let '(counts, sums) := st in
    do c <- snd p;
    do n <- nth_error counts c;
    do s <- nth_error sums c;
    Some (upd c (S n) counts, upd c (map2 (fun s r => dadd dd s (widen dd r)) s (fst p)) sums).
  Definition update_centroids (centers : matrix F) (data : strided F) (map_ : list (option nat)) : option (matrix F) :=
    let k := m_rows centers in
    do rows <- each (s_row data) (seq 0 (s_rows data));
    do st <- fold_left count_row (List.combine rows map_) (Some (repeat 0 k, repeat (repeat (dzero dd) (m_cols centers)) k));
    let '(counts, sums) := st in
    Some (mkM (concat (map2 (fun n s => map (fun v => narrow dd (dover dd v (Nat.max n 1))) s) counts sums)) k (m_cols centers)).

  (** [lloyds_inner]; 376-428.  Returns the centers with the assignments and the residual; the norms
      of the centers are computed again after every step but the last. *)
  Definition lloyds_inner (data : strided F) (norms : list F) (transpose : btref) (centers : matrix F) (max_reps : nat)
    : option (list (option nat) * F * matrix F) :=
    let n := s_rows data in
    if negb (n =? length norms) then None else
    if negb (n =? b_rows transpose) then None else
    if negb (s_cols data =? b_cols transpose) then None else
    if negb (s_cols data =? m_cols centers) then None else
    do cnorms <- row_norms (view_of centers);
    do st <- for_range max_reps (fun i '(assignments, residual, centers, cnorms) =>
      do r <- distances_in_place transpose norms centers cnorms assignments;
      let '(assignments, residual) := r in
      do centers <- update_centroids centers data assignments;
      do cnorms <- (if negb (i =? max_reps - 1) then row_norms (view_of centers) else Some cnorms);
      Some (assignments, residual, centers, cnorms)) (repeat (Some 0) n, z0, centers, cnorms);
    let '(assignments, residual, centers, _) := st in
    Some (assignments, residual, centers).
  (** [lloyds]; 443-466. *)
  Definition lloyds (data : matrix F) (centers : matrix F) (max_reps : nat) : option (list (option nat) * F * matrix F) :=
    if negb (m_cols data =? m_cols centers) then None else
    do transpose <- transpose_of (view_of data);
    do norms <- row_norms (view_of data);
    lloyds_inner (view_of data) norms transpose centers max_reps.

  (** ** k-means++ (plusplus.rs) *)

  (** [accum_full]; 93-115. *)
  Definition accum_full (b : btref) (block : nat) (this : list F) : option (list F * list F) :=
    if negb (block <? bt_blocks b) then None else
    let base := 16 * b_cols b * block in
    do s <- fold_left (fun acc (p : nat * F) =>
      let '(i, bi) := p in
      do s <- acc;
      do a0 <- load8 (b_data b) (base + 16 * i);
      do a1 <- load8 (b_data b) (base + (16 * i + 8));
      Some (vfma x a0 (splat bi) (fst s), vfma x a1 (splat bi) (snd s))) (enumerate this) (Some (splat z0, splat z0));
    let negative := splat (neg o (two x)) in
    Some (vmul x (fst s) negative, vmul x (snd s) negative).
  (** [mask.select(distances, current)] for the mask [distances < current]; 143-147. *)
  Definition lower (distances current : list F) : list F := map2 (fun d c => if lt o d c then d else c) distances current.
  Definition pair_sum (c0 c1 : list F) : D :=
    fold_left (dadd dd) (map2 (fun a b => dadd dd (widen dd a) (widen dd b)) c0 c1) (dzero dd).
  (** [finish]; 118-164, on slices of length 16 checked by assertions.  Returns the new minima. *)
  Definition pp_finish (inter : list F * list F) (sn : F) (rolling : D) (norms mins : list F) : option (D * list F) :=
    if negb (length norms =? 16) then None else
    if negb (length mins =? 16) then None else
    do n0 <- load8 norms 0; do n1 <- load8 norms 8;
    let d0 := vadd x (vadd x n0 (splat sn)) (fst inter) in
    let d1 := vadd x (vadd x n1 (splat sn)) (snd inter) in
    do c0 <- load8 mins 0; do c1 <- load8 mins 8;
    let c0 := lower d0 c0 in
    let c1 := lower d1 c1 in
    do mins <- store8 0 8 c0 mins;
    do mins <- store8 8 8 c1 mins;
    Some (dadd dd rolling (pair_sum c0 c1), mins).
  (** [finish_last]; 167-231. *)
  Definition pp_finish_last (inter : list F * list F) (sn : F) (rolling : D) (norms mins : list F) (first : nat) : option (D * list F) :=
    if negb (length norms =? first) then None else
    if negb (length mins =? first) then None else
    let lo := Nat.min first 8 in
    let hi := first - lo in
    do n0 <- load8_first x norms 0 lo;
    do n1 <- (if hi =? 0 then Some (splat z0) else load8_first x norms 8 hi);
    let d0 := vadd x (vadd x n0 (splat sn)) (fst inter) in
    let d1 := vadd x (vadd x n1 (splat sn)) (snd inter) in
    do c0 <- load8_first x mins 0 lo;
    do c1 <- (if hi =? 0 then Some (splat z0) else load8_first x mins 8 hi);
    let c0 := lower d0 c0 in
    let c1 := lower d1 c1 in
    do mins <- store8 0 lo c0 mins;
    do mins <- (if negb (hi =? 0) then store8 8 hi c1 mins else Some mins);
    Some (dadd dd rolling (pair_sum c0 c1), mins).
  (** [update_distances]; 242-316.  The chunks of 16 are written back at their place. *)
  Definition update_distances (mins : list F) (b : btref) (norms this : list F) (sn : F) : option (D * list F) :=
    if negb (length this =? b_cols b) then None else
    if negb (length mins =? b_rows b) then None else
    if negb (length norms =? b_rows b) then None else
    do st <- for_range (Nat.min (length norms / 16) (length mins / 16)) (fun block '(rolling, mins) =>
      do inter <- accum_full b block this;
      do n <- slice (16 * block) (16 * block + 16) norms;
      do m <- slice (16 * block) (16 * block + 16) mins;
      do r <- pp_finish inter sn rolling n m;
      Some (fst r, firstn (16 * block) mins ++ snd r ++ skipn (16 * block + 16) mins)) (dzero dd, mins);
    let '(rolling, mins) := st in
    if negb (bt_rest b =? 0) then
      do inter <- accum_full b (bt_full b) this;
      let start := 16 * bt_full b in
      do n <- slice start (length norms) norms;
      do m <- slice start (length mins) mins;
      do r <- pp_finish_last inter sn rolling n m (bt_rest b);
      Some (fst r, firstn start mins ++ snd r)
    else Some (rolling, mins).

  (** [FailureReason], 319-328; [KMeansPlusPlusError], 357-365, with
      [is_numerically_recoverable], 330-341 and 376-378. *)
  Inductive failure := DatasetTooSmall | InsufficientDiversity | SawInfinity.
  Record kerr := mkK { k_selected : nat; k_expected : nat; k_reason : failure }.
  Definition recoverable (e : kerr) : bool :=
    match k_reason e with DatasetTooSmall | InsufficientDiversity => true | SawInfinity => false end && (0 <? k_selected e).
  (** [row_mut(i).copy_from_slice(r)]. *)
  Definition set_row (m : matrix F) (i : nat) (r : list F) : option (matrix F) :=
    if negb (i <? m_rows m) then None else
    if negb (length r =? m_cols m) then None else
    Some (mkM (firstn (i * m_cols m) (m_data m) ++ r ++ skipn (i * m_cols m + m_cols m) (m_data m)) (m_rows m) (m_cols m)).
  (** The scan for the next point; 441-453: the index of the winner. *)
  Fixpoint winner (threshold : D) (picked : list nat) (i : nat) (rolling : D) (mins : list F) : option nat :=
    match mins with
    | [] => None
    | d :: mins =>
      let rolling := dadd dd rolling (widen dd d) in
      if dge dd rolling threshold && lt o z0 d && negb (existsb (Nat.eqb i) picked) then Some i
      else winner threshold picked (S i) rolling mins
    end.
  (** [Uniform::<f64>::new(0.0, s)] of rand and the sample: no finite upper bound, no room, or the
      sample.  The samples are an argument: [draw k s] is the one taken in round [k] for the bound
      [s]. *)
  Inductive uniform := NonFinite | EmptyRange | Drawn (t : D).
  Definition uniform_of (s t : D) : uniform :=
    if negb (dfin dd s) then NonFinite else if negb (dlt dd (dzero dd) s) then EmptyRange else Drawn t.
  (** One round of the loop; 426-483.  [inl]: the loop goes on with the new points, minima, picked
      rows and norm; [inr]: it ends with an error. *)
  Definition pp_state : Type := matrix F * list F * list nat * F.
  Definition pp_round (data : strided F) (b : btref) (norms : list F) (draw : nat -> D -> D) (expected current : nat) (st : pp_state)
    : option (pp_state + (kerr * matrix F)) :=
    let '(points, mins, picked, sn) := st in
    do last <- m_row points (current - 1);
    do u <- update_distances mins b norms last sn;
    let '(s, mins) := u in
    match uniform_of s (draw current s) with
    | NonFinite => Some (inr (mkK current expected SawInfinity, points))
    | EmptyRange => Some (inr (mkK current expected InsufficientDiversity, points))
    | Drawn threshold =>
      match winner threshold picked 0 (dzero dd) mins with
      | None => Some (inr (mkK current expected InsufficientDiversity, points))
      | Some i =>
        do r <- s_row data i;
        do points <- set_row points current r;
        do sn <- nth_error norms i;
        Some (inl (points, mins, i :: picked, sn))
      end
    end.
  Fixpoint pp_rounds (data : strided F) (b : btref) (norms : list F) (draw : nat -> D -> D) (expected : nat) (n current : nat) (st : pp_state)
    : option (pp_state + (kerr * matrix F)) :=
    match n with
    | 0 => Some (inl st)
    | S n =>
      do r <- pp_round data b norms draw expected current st;
      match r with
      | inl st => pp_rounds data b norms draw expected n (S current) st
      | inr e => Some (inr e)
      end
    end.
  (** [kmeans_plusplus_into_inner]; 381-495.  [first] is the row drawn first.  Returns the error, if
      any, and the points. *)
  Definition kmeans_plusplus_inner (points : matrix F) (data : strided F) (b : btref) (norms : list F) (first : nat) (draw : nat -> D -> D)
    : option (option kerr * matrix F) :=
    if negb (length norms =? s_rows data) then None else
    if negb (b_rows b =? s_rows data) then None else
    if negb (b_cols b =? s_cols data) then None else
    if negb (m_cols points =? s_cols data) then None else
    let points := mkM (repeat z0 (length (m_data points))) (m_rows points) (m_cols points) in
    let expected := m_rows points in
    if s_rows data =? 0 then
      Some (if expected =? 0 then None else Some (mkK 0 expected DatasetTooSmall), points)
    else
      do r <- s_row data first;
      do points <- set_row points 0 r;
      do sn <- nth_error norms first;
      let rounds := Nat.min expected (s_rows data) - 1 in
      do st <- pp_rounds data b norms draw expected rounds 1 (points, repeat (inf x) (s_rows data), [first], sn);
      match st with
      | inr (e, points) => Some (Some e, points)
      | inl (points, _, _, _) =>
        let selected := 1 + rounds in
        Some (if negb (selected =? expected) then Some (mkK selected expected DatasetTooSmall) else None, points)
      end.
  (** [kmeans_plusplus_into]; 497-518. *)
  Definition kmeans_plusplus (centers data : matrix F) (first : nat) (draw : nat -> D -> D) : option (option kerr * matrix F) :=
    if negb (m_cols centers =? m_cols data) then None else
    do norms <- row_norms (view_of data);
    do b <- transpose_of (view_of data);
    kmeans_plusplus_inner centers (view_of data) b norms first draw.

  (** ** Training (product/train.rs) *)

  (** [PQTrainingErrorKind] with the chunk; 219-252. *)
  Inductive terror := Canceled (chunk : nat) | Initialization (chunk : nat) (e : kerr) | InternalError (chunk : nat).
  (** The work for chunk [i]; 133-203.  [cancel i j] is the answer of the [j]-th question, and
      [rng i] the random choices of the generator built for chunk [i]. *)
  Definition train_chunk (ncenters reps : nat) (data : matrix F) (offsets : list nat) (dim : nat)
      (rng : nat -> nat * (nat -> D -> D)) (cancel : nat -> nat -> bool) (i : nat) : option (matrix F + terror) :=
    do r <- Work.Model.offsets_at offsets i;
    let '(start, stop) := r in
    if cancel i 0 then Some (inr (Canceled i)) else
    do rest <- slice start (length (m_data data)) (m_data data);
    match shrink_from rest (m_rows data) (stop - start) dim with
    | None => Some (inr (InternalError i))
    | Some view =>
      do norms <- row_norms view;
      do b <- transpose_of view;
      let centers := mkM (repeat z0 (ncenters * (stop - start))) ncenters (stop - start) in
      do r <- kmeans_plusplus_inner centers view b norms (fst (rng i)) (snd (rng i));
      let '(err, centers) := r in
      match err with
      | Some e => if negb (recoverable e) then Some (inr (Initialization i e)) else
          if cancel i 1 then Some (inr (Canceled i)) else
          do l <- lloyds_inner view norms b centers reps; Some (inl (snd l))
      | None =>
          if cancel i 1 then Some (inr (Canceled i)) else
          do l <- lloyds_inner view norms b centers reps; Some (inl (snd l))
      end
    end.
  (** Sequential [train]; 117-216: the first chunk that fails ends it. *)
  Fixpoint train_seq (work : nat -> option (matrix F + terror)) (is : list nat) : option (list (matrix F) + terror) :=
    match is with
    | [] => Some (inl [])
    | i :: is =>
      do r <- work i;
      match r with
      | inr e => Some (inr e)
      | inl m => do r <- train_seq work is; Some (match r with inl ms => inl (m :: ms) | inr e => inr e end)
      end
    end.
  Definition train (ncenters reps : nat) (data : matrix F) (offsets : list nat) (dim : nat)
      (rng : nat -> nat * (nat -> D -> D)) (cancel : nat -> nat -> bool) : option (list (matrix F) + terror) :=
    if negb (m_cols data =? dim) then None else
    train_seq (train_chunk ncenters reps data offsets dim rng cancel) (seq 0 (length offsets - 1)).
  (** [flatten]; 43-57, from a matrix of default values. *)
  Fixpoint flatten_rows (i : nat) (col : nat) (rows : list (list F)) (flat : matrix F) : option (matrix F) :=
    match rows with
    | [] => Some flat
    | r :: rows =>
      if negb (i <? m_rows flat) then None else
      if negb (col + length r <=? m_cols flat) then None else
      let at_ := i * m_cols flat + col in
      flatten_rows (S i) col rows (mkM (firstn at_ (m_data flat) ++ r ++ skipn (at_ + length r) (m_data flat)) (m_rows flat) (m_cols flat))
    end.
  Fixpoint flatten_from (col : nat) (pivots : list (matrix F)) (flat : matrix F) : option (matrix F) :=
    match pivots with
    | [] => Some flat
    | m :: pivots =>
      if negb (m_rows m =? m_rows flat) then None else
      do rows <- each (m_row m) (seq 0 (m_rows m));
      do flat <- flatten_rows 0 col rows flat;
      flatten_from (col + m_cols m) pivots flat
    end.
  Definition flatten (pivots : list (matrix F)) (ncenters dim : nat) : option (matrix F) :=
    flatten_from 0 pivots (mkM (repeat z0 (ncenters * dim)) ncenters dim).
End Kmeans.
