(** Model of the inner product of an f32 vector with a bit-packed one,
    diskann-quantization/src/bits/distances.rs 2262-2750.

    Arithmetic is an argument, as in the Simd area; [of_Z] converts the small integers. *)
From Coq Require Import List NArith ZArith PeanoNat Bool.
From Verif.Bits Require Import Model.
From Verif.Simd Require Import Model.
From Verif.BitDist Require Import Model.
Import ListNotations.

(** What [check_lengths] and the kernel return. *)
Inductive fres (F : Type) := Value (v : F) | Unequal.
Arguments Value {F}. Arguments Unequal {F}.

Section Full.
  Context {F : Type} (o : fops F) (of_Z : Z -> F).

  (** [to_f32]: the shuffle [_mm256_permutevar_ps] uses the two lowest bits of a lane as an index
      into [values] (2313, 2328-2335; 2451, 2463-2470); four bits are masked and converted
      (2616-2621).  Simplification: the lanes of the 4-bit kernel are i32 and shifted
      arithmetically, which differs only in bits the mask clears. *)
  Definition to_f32 (nb : nat) (v : N) : F :=
    match nb with
    | 1 => of_Z (nth (N.to_nat (N.land v 3)) [0; 1; 0; 1]%Z 0%Z)
    | 2 => of_Z (nth (N.to_nat (N.land v 3)) [0; 1; 2; 3]%Z 0%Z)
    | _ => of_Z (Z.of_N (N.land v 15))
    end.
  (** [prep], 2327, 2462: the word is broadcast and lane [k] shifted by [nb * k]; then all lanes
      are shifted by [s]. *)
  Definition lanes (nb : nat) (w : N) (s : nat) : list F :=
    map (fun k => to_f32 nb (N.shiftr (N.shiftr w (N.of_nat (nb * k))) (N.of_nat s))) (seq 0 8).
  (** [load_simd_first(px.add(off), n)] of eight f32 lanes; [load_simd] for [n = 8]. *)
  Definition loadf (x : list F) (off n : nat) : option (list F) :=
    if off + min n 8 <=? length x then Some (pad (zero o) 8 (firstn n (skipn off x))) else None.
  (** [s = ix.mul_add_simd(to_f32(iy >> shift), s)] *)
  Definition accf (nb : nat) (x : list F) (off n : nat) (w : N) (shift : nat) (acc : list F) : option (list F) :=
    do ix <- loadf x off n; Some (map3 (fma o) ix (lanes nb w shift) acc).

  (** The groups of eight elements of one word: offset in [x], shift of the word, and whether
      the second accumulator takes them; 2358-2361, 2493-2494, 2631-2635. *)
  Definition groups (nb : nat) : list (nat * nat * bool) :=
    match nb with
    | 1 => [(0, 0, false); (8, 8, true); (16, 16, false); (24, 24, true)]
    | 2 => [(0, 0, false); (8, 16, true)]
    | _ => [(0, 0, false)]
    end.
  (** Elements per word: 2338, 2473, 2629. *)
  Definition per (nb : nat) : nat := match nb with 1 => 32 | 2 => 16 | _ => 8 end.
  Definition unroll (nb : nat) : nat := match nb with 2 => 2 | _ => 1 end.
  Definition full_block (nb : nat) (x : list F) (y : bitslice) (i : nat) (st : list F * list F) : option (list F * list F) :=
    do w <- read (bs_data y) (4 * i) 4;
    fold_left (fun st '(off, shift, second) =>
      do st <- st;
      let '(s0, s1) := st in
      if second : bool then do s1 <- accf nb x (per nb * i + off) 8 w shift s1; Some (s0, s1)
      else do s0 <- accf nb x (per nb * i + off) 8 w shift s0; Some (s0, s1)) (groups nb) (Some st).
  (** [while i + 2 <= blocks] of the 2-bit kernel, 2479-2512, and [while i < blocks] of the others,
      2344-2364, 2630-2638. *)
  Fixpoint full_loop (fuel nb : nat) (x : list F) (y : bitslice) (blocks i : nat) (st : list F * list F)
      : option (nat * (list F * list F)) :=
    match fuel with
    | O => None
    | S fuel =>
      if i + unroll nb <=? blocks then
        do st <- fold_left (fun st j => do st <- st; full_block nb x y j st) (seq i (unroll nb)) (Some st);
        full_loop fuel nb x y blocks (i + unroll nb) st
      else Some (i, st)
    end.
  (** How many bytes of the last word are loaded and how many groups are used; 2378-2433,
      2541-2587, 2655-2667. *)
  Definition tail_plan (nb r : nat) : nat * nat :=
    match nb with
    | 1 => if r <=? 8 then (1, 1) else if r <=? 16 then (2, 2) else if r <=? 24 then (3, 3) else (4, 4)
    | 2 => if r <=? 4 then (1, 1) else if r <=? 8 then (2, 1) else if r <=? 12 then (3, 2) else (4, 2)
    | _ => if r <=? 2 then (1, 1) else if r <=? 4 then (2, 1) else if r <=? 6 then (3, 1) else (4, 1)
    end.
  (** 2367-2435, 2533-2589, 2640-2668: all groups but the last are full. *)
  Definition full_tail (nb : nat) (x : list F) (y : bitslice) (blocks len : nat) (s : list F) : option (list F) :=
    let remainder := len mod per nb in
    if remainder =? 0 then Some s else
    let tail := match nb with 4 => remainder | _ => if len mod 8 =? 0 then 8 else len mod 8 end in
    let '(bytes, n) := tail_plan nb remainder in
    do w <- read (bs_data y) (4 * blocks) bytes;
    fold_left (fun s k =>
      do s <- s;
      let '(off, shift, _) := nth k (groups nb) (0, 0, false) in
      accf nb x (per nb * blocks + off) (if S k =? n then tail else 8) w shift s) (seq 0 n) (Some s).
  (** The three kernels for V3; 2294-2439, 2445-2594, 2600-2673. *)
  Definition full_kernel (nb : nat) (x : list F) (y : bitslice) : option F :=
    let len := length x in
    let zeros := repeat (zero o) 8 in
    let blocks := len / per nb in
    do st <- full_loop (S blocks) nb x y blocks 0 (zeros, zeros);
    let '(i, st) := st in
    do st <- (if i <? blocks then full_block nb x y i st else Some st);
    let '(s0, s1) := st in
    let s := if 0 <? blocks then (match nb with 4 => s0 | _ => map2 (add o) s0 s1 end) else zeros in
    do s <- full_tail nb x y blocks len s;
    Some (sum_tree (add o) (zero o) s).
  (** The scalar fallback; 2675-2702. *)
  Definition full_scalar (nb : nat) (x : list F) (y : bitslice) : option F :=
    fold_left (fun s '(i, v) =>
      do s <- s;
      do iy <- getz Dense nb y i;
      Some (add o s (mul o v (of_Z iy)))) (List.combine (seq 0 (length x)) x) (Some (zero o)).
  (** [InnerProduct] for [&[f32]] and [USlice<nb>], with [ip_retarget!]; 2704-2750.  V4 retargets
      to V3, V3 and Neon to the scalar code. *)
  Definition full_ip (a : arch) (nb : nat) (x : list F) (y : bitslice) : option (fres F) :=
    if length x =? bs_len y then
      do v <- (match a, nb with
               | (V3 | V4), (1 | 2 | 4) => full_kernel nb x y
               | _, _ => full_scalar nb x y
               end);
      Some (Value v)
    else Some Unequal.
End Full.
