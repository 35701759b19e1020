(** Model of the multi-vector distances (diskann-quantization/src/multi_vector/distance): the tiled
    kernel (kernels/tiled_reduce.rs, f32/, reduce.rs, layouts.rs), the kernels built by factory.rs and
    the double loop of fallback.rs.

    [None] is a panic, an access outside an allocation or a loop that does not end.  The operations
    of f32 are arguments; pointers are offsets. *)
From Coq Require Import List PeanoNat Bool.
From Verif.Simd Require Import Model.
From Verif.Pq Require Import Model.
Import ListNotations.

(** [madd a b acc]: [a * b + acc] (scalar.rs 97) or [mul_add_simd] (v3.rs); [cvt]: the conversion of an
    element in layouts.rs, the identity for f32. *)
Record mops (T F : Type) := mkO { cvt : T -> F; tdef : T; mzero : F; madd : F -> F -> F -> F; mmax : F -> F -> F; mmin : F -> F -> F; mneg : F -> F; msum : F -> F -> F; lowest : F; highest : F }.
Arguments cvt {T F}. Arguments tdef {T F}. Arguments mzero {T F}. Arguments madd {T F}. Arguments mmax {T F}. Arguments mmin {T F}. Arguments mneg {T F}. Arguments msum {T F}. Arguments lowest {T F}. Arguments highest {T F}.

Section MultiVec.
  Context {T F : Type} (o : mops T F).

  (** reduce.rs 26-72: [Reduce] for one to four elements. *)
  Definition reduce (l : list F) : option F :=
    match l with
    | [a] => Some a
    | [a; b] => Some (mmax o a b)
    | [a; b; c] => Some (mmax o (mmax o a b) c)
    | [a; b; c; d] => Some (mmax o (mmax o a b) (mmax o c d))
    | _ => None
    end.
  (** One lane of one accumulator: the loop over [i] in scalar.rs 90-99 and v3.rs. *)
  Definition lane_dot (A k : nat) (a : list F) (pa l : nat) (b : list F) (pb j : nat) : option F :=
    fold_left (fun acc i => do s <- acc; do x <- nth_error a (pa + (A * i + l)); do y <- nth_error b (pb + (i + k * j)); Some (madd o x y s)) (seq 0 k) (Some (mzero o)).
  (** scalar.rs 76-113 and v3.rs: the micro-kernel on [A] lanes (the two registers of v3.rs are one
      here) and [U] rows of [b]; all loads of [r] come before the store. *)
  Definition microkernel (A U k : nat) (a : list F) (pa : nat) (b : list F) (pb : nat) (r : list F) (pr : nat) : option (list F) :=
    do v <- each (fun l => do p <- each (fun j => lane_dot A k a pa l b pb j) (seq 0 U); do m <- reduce p; do r0 <- nth_error r (pr + l); Some (mmax o r0 m)) (seq 0 A);
    Some (firstn pr r ++ v ++ skipn (pr + A) r).
  (** [full_panel] and [partial_panel]; the latter panics for other remainders. *)
  Definition full_panel (A B k : nat) := microkernel A B k.
  Definition partial_panel (A B rem k : nat) (a : list F) (pa : nat) (b : list F) (pb : nat) (r : list F) (pr : nat) : option (list F) :=
    if (1 <=? rem) && (rem <? B) then microkernel A rem k a pa b pb r pr else None.

  (** tiled_reduce.rs 42-64: [FullReduce::new]. *)
  Record plan := mkP { a_panels : nat; b_panels : nat }.
  Definition full_reduce (a_row_bytes b_row_bytes a_panel b_panel l2_a l1_b : nat) : plan :=
    let a_row_bytes := Nat.max a_row_bytes 1 in
    let b_row_bytes := Nat.max b_row_bytes 1 in
    mkP (Nat.max (l2_a / (a_row_bytes * a_panel)) 1) (Nat.max ((l1_b - a_panel * a_row_bytes) / (b_row_bytes * b_panel)) 1).
  (** layouts.rs 120-: [convert]: a slice of the source into a buffer of [cap] elements. *)
  Definition convert (cap : nat) (src : list T) (p rows k : nat) : option (list F) :=
    if rows * k <=? cap then option_map (map (cvt o)) (slice p (p + rows * k) src) else None.

  (** Loop 4: panels of [b] from [pb] while it is below [pb_end]; returns the last [pb]. *)
  Fixpoint loop4 (fuel A B k : nat) (a : list F) (pa : nat) (b : list F) (pb pb_end : nat) (r : list F) (pr : nat) : option (nat * list F) :=
    match fuel with
    | 0 => None
    | S fuel => if pb <? pb_end then do r <- full_panel A B k a pa b pb r pr; loop4 fuel A B k a pa b (pb + B * k) pb_end r pr else Some (pb, r)
    end.
  (** Loop 3: panels of [a]; [rem] rows of [b] are left over in the peeled tile, none in a full one. *)
  Fixpoint loop3 (fuel A B k : nat) (a : list F) (pa pa_end : nat) (b : list F) (pb_end rem : nat) (r : list F) (pr : nat) : option (list F) :=
    match fuel with
    | 0 => None
    | S fuel =>
        if pa <? pa_end then
          do s <- loop4 (S (length b)) A B k a pa b 0 pb_end r pr;
          let '(pb, r) := s in
          do r <- (if 0 <? rem then partial_panel A B rem k a pa b pb r pr else Some r);
          loop3 fuel A B k a (pa + A * k) pa_end b pb_end rem r (pr + A)
        else Some r
    end.
  (** Loop 2: full tiles of [b]; returns the first source element that is left. *)
  Fixpoint loop2 (fuel A B k b_tile_rows cap : nat) (a : list F) (tile_rows : nat) (b : list T) (src full_end : nat) (r : list F) (pr : nat) : option (nat * list F) :=
    match fuel with
    | 0 => None
    | S fuel =>
        if src + b_tile_rows * k <=? full_end then
          do pb <- convert cap b src b_tile_rows k;
          do r <- loop3 (S (length a)) A B k a 0 (tile_rows * k) pb (b_tile_rows * k) 0 r pr;
          loop2 fuel A B k b_tile_rows cap a tile_rows b (src + b_tile_rows * k) full_end r pr
        else Some (src, r)
    end.
  (** Loop 1: tiles of [a]. *)
  Fixpoint loop1 (fuel A B k a_tile_rows b_tile_rows : nat) (a : list T) (padded : nat) (b : list T) (b_nrows : nat) (done : nat) (r : list F) : option (list F) :=
    match fuel with
    | 0 => None
    | S fuel =>
        if done <? padded then
          let tile_rows := Nat.min a_tile_rows (padded - done) in
          let bcap := Nat.min b_tile_rows b_nrows * k in
          do pa <- convert (Nat.min a_tile_rows padded * k) a (done * k) tile_rows k;
          do s <- loop2 (S (b_nrows * k)) A B k b_tile_rows bcap pa tile_rows b 0 (b_nrows * k - b_nrows mod B * k) r done;
          let '(src, r) := s in
          do r <- (if src <? b_nrows * k then
                     let remaining := b_nrows - src / k in
                     do pb <- convert bcap b src remaining k;
                     loop3 (S (length pa)) A B k pa 0 (tile_rows * k) pb (remaining / B * (B * k)) (b_nrows mod B) r done
                   else Some r);
          loop1 fuel A B k a_tile_rows b_tile_rows a padded b b_nrows (done + tile_rows) r
        else Some r
    end.
  (** tiled_reduce.rs 87-235. [bytes] is the size of an f32. *)
  Definition tiled_reduce (A B bytes l2_a l1_b : nat) (a : list T) (padded : nat) (b : list T) (b_nrows k : nat) (scratch : list F) : option (list F) :=
    let p := full_reduce (k * bytes) (k * bytes) A B l2_a l1_b in
    if negb (padded mod A =? 0) then None else
    if k =? 0 then
      if 0 <? b_nrows then (if padded <=? length scratch then Some (repeat (mzero o) padded ++ skipn padded scratch) else None) else Some scratch
    else loop1 (S padded) A B k (A * a_panels p) (B * b_panels p) a padded b b_nrows 0 scratch.

  (** f32/mod.rs 64-105: [max_ip_kernel]. *)
  Definition max_ip_kernel (A B bytes l2_a l1_b : nat) (a : list T) (nrows ncols : nat) (b : matrix T) (scratch : list F) : option (list F) :=
    let padded := div_ceil nrows A * A in
    if negb (length scratch =? padded) || negb (ncols =? m_cols b) then None
    else tiled_reduce A B bytes l2_a l1_b a padded (m_data b) (m_rows b) ncols scratch.

  (** Results of [compute_max_sim]: [None] is a panic, [Some None] the error [InvalidBufferLength]. *)
  Definition dense (m : matrix T) : strided T := mkS (m_data m) (m_rows m) (m_cols m) (m_cols m).
  (** factory.rs 46-70 and 87-110, on the matrix prepared at 165-, whose lanes are [A]. *)
  Definition compute_prepared (A B bytes l2_a l1_b : nat) (query doc : matrix T) (scores : list F) : option (option (list F)) :=
    do prepared <- bt_from (tdef o) A 1 (dense query);
    if negb (length scores =? m_rows query) then Some None else
    if m_rows doc =? 0 then Some (Some (map (fun _ => highest o) scores)) else
    do s <- max_ip_kernel A B bytes l2_a l1_b prepared (m_rows query) (m_cols query) doc (repeat (lowest o) (div_ceil (m_rows query) A * A));
    do v <- slice 0 (m_rows query) s;
    Some (Some (map (mneg o) v)).

  (** fallback.rs 78-104: [max_sim_kernel], with the values passed to the callback; [ip] is
      [InnerProduct::evaluate], the negated inner product. [None] when the callback is never called. *)
  Definition rows_of (m : matrix T) : option (list (list T)) := each (m_row m) (seq 0 (m_rows m)).
  Definition max_sim_kernel (ip : list T -> list T -> F) (query doc : matrix T) : option (option (list F)) :=
    if m_rows doc =? 0 then Some None else
    do qs <- rows_of query;
    do ds <- rows_of doc;
    Some (Some (map (fun q => fold_left (fun m d => mmin o m (ip q d)) ds (highest o)) qs)).
  (** fallback.rs 156-190: [MaxSim::evaluate]; 200-215: [Chamfer::evaluate]. *)
  Definition max_sim (ip : list T -> list T -> F) (query doc : matrix T) (scores : list F) : option (option (list F)) :=
    if negb (length scores =? m_rows query) then Some None else
    do k <- max_sim_kernel ip query doc;
    Some (Some (match k with Some v => v | None => scores end)).
  Definition chamfer (ip : list T -> list T -> F) (query doc : matrix T) : option F :=
    do k <- max_sim_kernel ip query doc;
    Some (match k with Some v => fold_left (msum o) v (mzero o) | None => mzero o end).
  (** factory.rs 143-165: [ReferenceKernel]. *)
  Definition compute_reference (ip : list T -> list T -> F) (query doc : matrix T) (scores : list F) : option (option (list F)) :=
    if negb (length scores =? m_rows query) then Some None else
    if m_rows doc =? 0 then Some (Some (map (fun _ => highest o) scores)) else max_sim ip query doc scores.
End MultiVec.
