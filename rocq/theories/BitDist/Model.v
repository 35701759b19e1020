(** Model of the distances between bit-packed vectors,
    diskann-quantization/src/bits/distances.rs.

    A bit slice is the one of the Bits area.  A SIMD register is the list of its lanes and is
    loaded from bytes; a load that leaves the slice gives [None], and so does an arithmetic
    overflow the code checks. *)
From Coq Require Import List NArith ZArith PeanoNat Bool.
From Verif.Bits Require Import Model.
From Verif.Simd Require Import Model.
Import ListNotations.

(** ** Words and loads *)
(** The little-endian integer of some bytes. *)
Definition word (l : list N) : N := fold_right (fun b acc => (b + 256 * acc)%N) 0%N l.
(** [load_simd_first(ptr.add(off), n)] of [total] byte lanes: the first [n] bytes are read, the
    other lanes are zero.  [load_simd] is the case [n = total].  Simplification: a load of the first
    [n] u32 lanes is one of the first [4 * n] byte lanes. *)
Definition load (data : list N) (off n total : nat) : option (list N) :=
  if off + min n total <=? length data then Some (pad 0%N total (firstn n (skipn off data))) else None.
(** The u32 lanes of a register of bytes. *)
Definition u32s (lanes : nat) (l : list N) : list N :=
  map (fun k => word (firstn 4 (skipn (4 * k) l))) (seq 0 lanes).
(** Lane [p] of [bits] bits of an integer: [reinterpret_simd]. *)
Definition part (bits p : nat) (w : N) : N := (w / 2 ^ N.of_nat (bits * p)) mod 2 ^ N.of_nat bits.
(** A lane read as a signed integer. *)
Definition signed (bits : nat) (v : N) : Z :=
  if (v <? 2 ^ N.of_nat (bits - 1))%N then Z.of_N v else (Z.of_N v - 2 ^ Z.of_nat bits)%Z.
Definition wadd (a b : Z) : Z := wrap_i32 (a + b).
Definition wadd16 (a b : Z) : Z := wrap_i16 (a + b).
(** [sum_tree() as u32]. *)
Definition reduce_u32 (acc : list Z) : Z := wrap_u32 (sum_tree wadd 0%Z acc).
(** [s += v] on u32 and on i32. *)
Definition add_u32 (a b : Z) : option Z := if (a + b <? 2 ^ 32)%Z then Some (a + b)%Z else None.
Definition add_i32 (a b : Z) : option Z := if (a + b <? 2 ^ 31)%Z then Some (a + b)%Z else None.

(** ** Scalar loops *)
(** [x.get_unchecked(i)]. *)
Definition getz (p : perm) (nb : nat) (s : bitslice) (i : nat) : option Z :=
  match unpack p nb (bs_data s) i with Some v => Some (Z.of_N v) | None => None end.
Definition term (l2 : bool) (a b : Z) : Z := if l2 then ((a - b) * (a - b))%Z else (a * b)%Z.
(** One trip: i32 arithmetic for the squared L2 distance, u32 for the inner product. *)
Definition scalar_step (l2 : bool) (nx ny : nat) (x y : bitslice) (i : nat) (acc : Z) : option Z :=
  do ix <- getz Dense nx x i;
  do iy <- getz Dense ny y i;
  (if l2 then add_i32 else add_u32) acc (term l2 ix iy).
(** The loops [for i in from..len]; 545-556, 877-889, 921-931 (L2), 1255-1263, 1552-1560,
    1594-1602, 1772-1784 (inner product). *)
Definition scalar_loop_from (l2 : bool) (nx ny : nat) (x y : bitslice) (from count : nat) : option Z :=
  fold_left (fun acc i => do acc <- acc; scalar_step l2 nx ny x y i acc) (seq from count) (Some 0%Z).
(** [impl_fallback_l2], 909-943, and [impl_fallback_ip], 1582-1620. *)
Definition scalar_dist (l2 : bool) (nx ny : nat) (x y : bitslice) : option Z :=
  scalar_loop_from l2 nx ny x y 0 (bs_len x).

(** ** The shift-and-mask kernels *)
Record smc := mksmc {
  m_bits : nat;                (* the width of an element *)
  m_lanes : nat;               (* u32 lanes of a register *)
  m_mask : N;
  m_subs : nat;                (* integer lanes per u32: 2 (i16) or 4 (u8 and i8) *)
  m_shifts : list (nat * nat); (* the shifts, each with its accumulator *)
  m_accs : nat;
  m_bytes : bool;              (* the last load is counted in bytes, not in u32s *)
  m_cap : nat                  (* with [m_bytes]: the scalar remainder *)
}.
(** 437-561 and 1149-1269: V3, 4 bits. *)
Definition v3_4 : smc := mksmc 4 8 0x000f000f 2 [(0, 0); (4, 1); (8, 2); (12, 3)] 4 false 0.
(** 728-894 and 1415-1567: V3, 2 bits. *)
Definition v3_2 : smc := mksmc 2 8 0x00030003 2
  [(0, 0); (2, 1); (4, 2); (6, 3); (8, 0); (10, 1); (12, 2); (14, 3)] 4 false 0.
(** 574-711: V4, 4 bits, squared L2. *)
Definition v4_4_l2 : smc := mksmc 4 16 0x000f000f 2 [(0, 0); (4, 1); (8, 2); (12, 3)] 4 true 1.
(** 1287-1400: V4, 4 bits, inner product. *)
Definition v4_4_ip : smc := mksmc 4 16 0x0f0f0f0f 4 [(0, 0); (4, 1)] 2 true 1.
(** 1014-1134: V4, 2 bits, inner product. *)
Definition v4_2_ip : smc := mksmc 2 16 0x03030303 4 [(0, 0); (2, 1); (4, 2); (6, 3)] 4 true 3.

Section ShiftMask.
  Context (c : smc) (l2 : bool).
  (** The product of one pair of integer lanes: [d = wx - wy; d * d], or [wx * wy], with u8 times
      i8 when there are four lanes per u32. *)
  Definition sub_term (a b : N) : Z :=
    if l2 then let d := wrap_i16 (signed 16 a - signed 16 b) in (d * d)%Z
    else if m_subs c =? 2 then (signed 16 a * signed 16 b)%Z
    else (Z.of_N a * signed 8 b)%Z.
  (** [(v >> s & mask).reinterpret_simd()] for one u32 lane. *)
  Definition sub (s p : nat) (w : N) : N :=
    part (32 / m_subs c) p (N.land (N.shiftr w (N.of_nat s)) (m_mask c)).
  (** [dot_simd] on one i32 lane. *)
  Definition dot_lane (s : nat) (wx wy : N) (acc : Z) : Z :=
    wrap_i32 (acc + zsum (map (fun p => sub_term (sub s p wx) (sub s p wy)) (seq 0 (m_subs c)))).
  Fixpoint upd {X} (k : nat) (f : X -> X) (l : list X) : list X :=
    match l, k with
    | [], _ => []
    | a :: l, O => f a :: l
    | a :: l, S k => a :: upd k f l
    end.
  (** The body of the loops. *)
  Definition sm_step (vx vy : list N) (accs : list (list Z)) : list (list Z) :=
    fold_left (fun accs '(s, k) => upd k (fun acc => map3 (dot_lane s) vx vy acc) accs) (m_shifts c) accs.
  (** [(s0 + s1) + (s2 + s3)], or [s0 + s1]. *)
  Definition sm_merge (accs : list (list Z)) : list Z :=
    match accs with
    | [s0; s1] => map2 wadd s0 s1
    | [s0; s1; s2; s3] => map2 wadd (map2 wadd s0 s1) (map2 wadd s2 s3)
    | _ => []
    end.
  Definition sm_load (x y : bitslice) (off n : nat) (accs : list (list Z)) : option (list (list Z)) :=
    let lanes := m_lanes c in
    do vx <- load (bs_data x) off n (4 * lanes);
    do vy <- load (bs_data y) off n (4 * lanes);
    Some (sm_step (u32s lanes vx) (u32s lanes vy) accs).
  (** [while i + lanes < blocks]; [fuel] bounds the trips. *)
  Fixpoint sm_loop (fuel : nat) (x y : bitslice) (blocks i : nat) (accs : list (list Z)) : option (nat * list (list Z)) :=
    match fuel with
    | O => None
    | S fuel =>
      if i + m_lanes c <? blocks then
        do accs <- sm_load x y (4 * i) (4 * m_lanes c) accs;
        sm_loop fuel x y blocks (i + m_lanes c) accs
      else Some (i, accs)
    end.
  (** The part before the scalar remainder: how many elements were consumed, and the sum. *)
  Definition sm_main (x y : bitslice) (len : nat) : option (nat * Z) :=
    let per := 32 / m_bits c in
    let blocks := if m_bytes c then div_round_up len per else len / per in
    if 0 <? blocks then
      do st <- sm_loop (S blocks) x y blocks 0 (repeat (repeat 0%Z (m_lanes c)) (m_accs c));
      let '(i, accs) := st in
      if m_bytes c then
        let full := len / (8 / m_bits c) in
        if full <? 4 * i then None else
        let remainder := full - 4 * i in
        do accs <- sm_load x y (4 * i) remainder accs;
        Some ((4 * i + remainder) * (8 / m_bits c), reduce_u32 (sm_merge accs))
      else
        let remainder := blocks - i in
        do accs <- sm_load x y (4 * i) (4 * remainder) accs;
        Some ((i + remainder) * per, reduce_u32 (sm_merge accs))
    else Some (0, 0%Z).
  (** The kernels.  Simplification: the last load of [v4_4_l2] and [v4_4_ip] is skipped when there
      is no byte left; here it then loads nothing, as in [v4_2_ip]. *)
  Definition sm_dist (x y : bitslice) : option Z :=
    let len := bs_len x in
    do st <- sm_main x y len;
    let '(i, s) := st in
    if i =? len then Some s
    else if m_bytes c then
      if len <? i then None else
      fold_left (fun s j =>
        do s <- s;
        do ix <- getz Dense (m_bits c) x j;
        do iy <- getz Dense (m_bits c) y j;
        add_u32 s (term l2 ix iy)) (seq i (min (len - i) (m_cap c))) (Some s)
    else
      do r <- scalar_loop_from l2 (m_bits c) (m_bits c) x y i (len - i);
      add_u32 s r.
End ShiftMask.

(** ** One-bit vectors *)
(** [count_ones] of an integer of [n] bits. *)
Definition count_ones (n : nat) (w : N) : Z :=
  zsum (map (fun k => if N.testbit w (N.of_nat k) then 1%Z else 0%Z) (seq 0 n)).
(** [BitVectorOp]: xor for [SquaredL2] and [Hamming], and for [InnerProduct]; 250-301. *)
Definition bit_op (l2 : bool) (n : nat) (a b : N) : Z := count_ones n (if l2 then N.lxor a b else N.land a b).
(** [ptr.add(off).read_unaligned()] of [n] bytes. *)
Definition read (data : list N) (off n : nat) : option N := do l <- load data off n n; Some (word l).
(** [while i < stop { s += op(..); i += 1 }] over words of [n] bytes. *)
Definition bv_loop (l2 : bool) (n : nat) (x y : bitslice) (from stop : nat) (s : Z) : option Z :=
  fold_left (fun s i =>
    do s <- s;
    do vx <- read (bs_data x) (n * i) n;
    do vy <- read (bs_data y) (n * i) n;
    add_u32 s (bit_op l2 (8 * n) vx vy)) (seq from (stop - from)) (Some s).
(** [bitvector_op]; 303-375. *)
Definition bitvector (l2 : bool) (x y : bitslice) : option Z :=
  let len := bs_len x in
  do s <- bv_loop l2 8 x y 0 (len / 64) 0%Z;
  let i := 8 * (len / 64) in
  do s <- bv_loop l2 1 x y i (len / 8) s;
  let i := max i (len / 8) in
  if i * 8 =? len then Some s else
  do vx <- read (bs_data x) i 1;
  do vy <- read (bs_data y) i 1;
  let m := (N.shiftl 1 (N.of_nat (len - 8 * i)) - 1)%N in
  add_u32 s (bit_op l2 8 (N.land vx m) (N.land vy m)).

(** ** Eight-bit vectors: 398-415, 980-1000 *)
(** [f32 as u32] of an integral value. *)
Definition as_u32 (v : Z) : Z := Z.max 0 (Z.min v (2 ^ 32 - 1)).
Definition byte_dist (l2 : bool) (a : arch) (x y : bitslice) : option Z :=
  do r <- int_distance (if l2 then L2 else IP) a U8 (map Z.of_N (bs_data x)) (map Z.of_N (bs_data y));
  Some (as_u32 r).

(** ** Eight-bit times fewer bits, V3 *)
Definition dot16 (acc m : list Z) : list Z := dot_lanes wrap_i32 Z.mul 2 acc m (repeat 1%Z 16).
(** [_mm256_maddubs_epi16] *)
Definition sat16 (z : Z) : Z := Z.max (- 2 ^ 15) (Z.min z (2 ^ 15 - 1)).
Fixpoint maddubs (x y : list N) : list Z :=
  match x, y with
  | a0 :: a1 :: x, b0 :: b1 :: y =>
    sat16 (Z.of_N a0 * signed 8 b0 + Z.of_N a1 * signed 8 b1) :: maddubs x y
  | _, _ => []
  end.
(** [zip] *)
Fixpoint zip {X} (a b : list X) : list X :=
  match a, b with x :: a, y :: b => x :: y :: zip a b | _, _ => [] end.
(** [unpack_half], 1692-1696; [unpack_sub], 1841-1845. *)
Definition unpack_sub (n : nat) (l : list N) : list N :=
  map (fun b => N.land b (N.shiftl 1 (N.of_nat n) - 1)) (zip l (map (fun b => N.shiftr b (N.of_nat n)) l)).
(** [unpack_crumbs]; 1847-1859. *)
Definition unpack_crumbs (l : list N) : list N * list N :=
  let nibbles := unpack_sub 4 l in
  (unpack_sub 2 (firstn 16 nibbles), unpack_sub 2 (skipn 16 nibbles)).
(** [masked_sad]; 2014-2031. *)
Definition masked_sad (vx : list N) (bits : N) : list Z :=
  let masked := map (fun '(k, v) => if N.testbit bits (N.of_nat k) then Z.of_N v else 0%Z) (List.combine (seq 0 32) vx) in
  flat_map (fun g => [zsum (firstn 8 (skipn (8 * g) masked)); 0%Z]) (seq 0 4).

(** The loops shared by the three kernels: four blocks per trip, then one. *)
Section Het.
  Context {B : Type} (block : nat -> option B) (four : list Z -> B -> B -> B -> B -> list Z) (one : list Z -> B -> list Z).
  Context (blocks : nat).
  Fixpoint het_main (fuel i : nat) (acc : list Z) : option (nat * list Z) :=
    match fuel with
    | O => None
    | S fuel =>
      if i + 4 <=? blocks then
        do m0 <- block i; do m1 <- block (i + 1); do m2 <- block (i + 2); do m3 <- block (i + 3);
        het_main fuel (i + 4) (four acc m0 m1 m2 m3)
      else Some (i, acc)
    end.
  Fixpoint het_drain (fuel i : nat) (acc : list Z) : option (nat * list Z) :=
    match fuel with
    | O => None
    | S fuel =>
      if i <? blocks then do m <- block i; het_drain fuel (i + 1) (one acc m) else Some (i, acc)
    end.
  Definition het_run : option (nat * Z) :=
    if 0 <? blocks then
      do st <- het_main (S blocks) 0 (repeat 0%Z 8);
      let '(i, acc) := st in
      do st <- het_drain (S blocks) i acc;
      let '(i, acc) := st in
      Some (i, reduce_u32 acc)
    else Some (0, 0%Z).
End Het.
(** What the three kernels do with the sum and the rest. *)
Definition het_finish (per ny : nat) (x y : bitslice) (st : nat * Z) : option Z :=
  let '(i, s) := st in
  let i := i * per in
  let len := bs_len x in
  if i =? len then Some s else
  do r <- scalar_loop_from false 8 ny x y i (len - i);
  add_u32 s r.
(** 1657-1789 *)
Definition block_8x4 (x y : bitslice) (i : nat) : option (list Z) :=
  do vx <- load (bs_data x) (32 * i) 32 32;
  do vy <- load (bs_data y) (16 * i) 16 16;
  Some (maddubs vx (unpack_sub 4 vy)).
Definition add16 : list Z -> list Z -> list Z := map2 wadd16.
Definition het_8x4 (x y : bitslice) : option Z :=
  do st <- het_run (block_8x4 x y)
    (fun acc m0 m1 m2 m3 => dot16 acc (add16 (add16 (add16 m0 m1) m2) m3))
    (fun acc m => dot16 acc m) (bs_len x / 32);
  het_finish 32 4 x y st.
(** 1791-1962 *)
Definition block_8x2 (x y : bitslice) (i : nat) : option (list Z * list Z) :=
  do vx0 <- load (bs_data x) (64 * i) 32 32;
  do vx1 <- load (bs_data x) (64 * i + 32) 32 32;
  do vy <- load (bs_data y) (16 * i) 16 16;
  let '(vy0, vy1) := unpack_crumbs vy in
  Some (maddubs vx0 vy0, maddubs vx1 vy1).
Definition het_8x2 (x y : bitslice) : option Z :=
  do st <- het_run (block_8x2 x y)
    (fun acc '(m0a, m0b) '(m1a, m1b) '(m2a, m2b) '(m3a, m3b) =>
      dot16 acc (add16 (add16 (add16 (add16 m0a m0b) m1a) m1b) (add16 (add16 (add16 m2a m2b) m3a) m3b)))
    (fun acc '(ma, mb) => dot16 acc (add16 ma mb)) (bs_len x / 64);
  het_finish 64 2 x y st.
(** 1964-2102 *)
Definition block_8x1 (x y : bitslice) (i : nat) : option (list Z) :=
  do vx <- load (bs_data x) (32 * i) 32 32;
  do bits <- read (bs_data y) (4 * i) 4;
  Some (masked_sad vx bits).
Definition het_8x1 (x y : bitslice) : option Z :=
  do st <- het_run (block_8x1 x y)
    (fun acc s0 s1 s2 s3 => map2 wadd (map2 wadd (map2 wadd (map2 wadd acc s0) s1) s2) s3)
    (fun acc s => map2 wadd acc s) (bs_len x / 32);
  het_finish 32 1 x y st.

(** ** Four transposed bits times one bit: 2118-2250 *)
Definition planes (x : bitslice) (i : nat) (bits : N) (s : Z) : option Z :=
  fold_left (fun s p =>
    do s <- s;
    do b <- read (bs_data x) (8 * (4 * i + p)) 8;
    add_u32 s (count_ones 64 (N.land bits b) * 2 ^ Z.of_nat p)) (seq 0 4) (Some s).
Definition transposed_ip (x y : bitslice) : option Z :=
  let len := bs_len x in
  let blocks := len / 64 in
  do s <- fold_left (fun s i =>
      do s <- s;
      do bits <- read (bs_data y) (8 * i) 8;
      planes x i bits s) (seq 0 blocks) (Some 0%Z);
  if 64 * blocks =? len then Some s else
  let k := blocks * 8 in
  if length (bs_data y) <? k then None else
  let bytes_remaining := length (bs_data y) - k in
  do l <- load (bs_data y) k (min bytes_remaining 8) (min bytes_remaining 8);
  let bits := N.land (word l) (N.shiftl 1 (N.of_nat (len - 64 * blocks)) - 1) in
  planes x blocks bits s.

(** ** Dispatch *)
Inductive res := Distance (v : Z) | UnequalLengths.
(** [check_lengths]; 79-89. *)
Definition checked (x y : bitslice) (f : option Z) : option res :=
  if bs_len x =? bs_len y then do v <- f; Some (Distance v) else Some UnequalLengths.
(** [SquaredL2] and [InnerProduct] on unsigned dense slices, with the [retarget!] tables; 945-965,
    1622-1652, 2104-2116.  Other pairs of widths have no implementation. *)
Definition same_width (l2 : bool) (a : arch) (nb : nat) (x y : bitslice) : option Z :=
  match nb with
  | 1 => bitvector l2 x y
  | 8 => byte_dist l2 a x y
  | 4 => match a with
         | V4 => sm_dist (if l2 then v4_4_l2 else v4_4_ip) l2 x y
         | V3 => sm_dist v3_4 l2 x y
         | _ => scalar_dist l2 4 4 x y
         end
  | 2 => match a with
         | V4 => if l2 then sm_dist v3_2 l2 x y else sm_dist v4_2_ip l2 x y
         | V3 => sm_dist v3_2 l2 x y
         | _ => scalar_dist l2 2 2 x y
         end
  | _ => scalar_dist l2 nb nb x y
  end.
Definition squared_l2 (a : arch) (nb : nat) (x y : bitslice) : option res := checked x y (same_width true a nb x y).
Definition inner_product (a : arch) (nx ny : nat) (x y : bitslice) : option res :=
  checked x y
    (if nx =? ny then same_width false a nx x y
     else match a with
          | V3 | V4 => match ny with 4 => het_8x4 x y | 2 => het_8x2 x y | _ => het_8x1 x y end
          | _ => scalar_dist false nx ny x y
          end).
(** [Hamming] on one-bit [Binary] slices; 377-386. *)
Definition hamming (x y : bitslice) : option res := checked x y (bitvector true x y).
Definition transposed (x y : bitslice) : option res := checked x y (transposed_ip x y).
