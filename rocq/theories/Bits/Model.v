(** Model of bit-packed vectors, diskann-quantization/src/bits/packing.rs and slice.rs.

    Bytes and words are [N]; shifts to the left drop the bits that leave the word, as in Rust.
    [None] stands for a failing (debug) assertion or an access outside the slice.  Words are
    little endian. *)
From Coq Require Import List NArith ZArith PeanoNat Bool.
From Verif.Lib Require Import Base Lists.
Import ListNotations.

Notation bytes := (list N).

(** ** packing.rs *)
(** [mask]; 6-9. *)
Definition mask (nb : nat) : N := N.shiftr 255 (N.of_nat (8 - nb)).
(** [unpack_u8]; 18-21. *)
Definition unpack_u8 (nb : nat) (byte : N) (bitstart : nat) : option N :=
  if bitstart <=? 8 - nb then Some (N.land (N.shiftr byte (N.of_nat bitstart)) (mask nb)) else None.
(** [unpack_u16]; 33-39. *)
Definition unpack_u16 (nb : nat) (word : N) (bitstart : nat) : option N :=
  if (bitstart <? 8) && (8 - nb <? bitstart)
  then Some (N.land (N.shiftr word (N.of_nat bitstart) mod 2 ^ 8) (mask nb)) else None.
(** [pack_u8]; 49-57. *)
Definition pack_u8 (nb : nat) (before value : N) (bitstart : nat) : option N :=
  let m := mask nb in
  if (value <=? m)%N && (bitstart <=? 8 - nb) then
    let sm := (N.shiftl m (N.of_nat bitstart) mod 2 ^ 8)%N in
    Some (N.lor (N.land before (N.lxor sm 255)) (N.land (N.shiftl value (N.of_nat bitstart) mod 2 ^ 8) sm))
  else None.
(** [pack_u16]; 70-80. *)
Definition pack_u16 (nb : nat) (before value : N) (bitstart : nat) : option N :=
  let m := mask nb in
  if (value <=? m)%N && ((bitstart <? 8) && (8 - nb <? bitstart)) then
    let sm := (N.shiftl m (N.of_nat bitstart) mod 2 ^ 16)%N in
    Some (N.lor (N.land before (N.lxor sm 65535)) (N.land (N.shiftl value (N.of_nat bitstart) mod 2 ^ 16) sm))
  else None.

(** ** slice.rs: representations *)
Inductive repr := Unsigned | Binary.
(** [encode]; 113-127, 164-177. *)
Definition encode (r : repr) (nb : nat) (v : Z) : option N :=
  match r with
  | Unsigned => if (0 <=? v)%Z && (v <=? 2 ^ Z.of_nat nb - 1)%Z then Some (Z.to_N (v mod 256)) else None
  | Binary => if (v =? -1)%Z || (v =? 1)%Z then Some (Z.to_N (Z.min 1 (Z.max 0 v))) else None
  end.
(** [decode]; 129-134, 179-184.  The debug assertion is on the value read. *)
Definition decode (r : repr) (nb : nat) (raw : N) : option Z :=
  match r with
  | Unsigned => if (Z.of_N raw <=? 2 ^ Z.of_nat nb - 1)%Z then Some (Z.of_N raw) else None
  | Binary => Some (2 * Z.of_N raw - 1)%Z
  end.

(** ** slice.rs: permutation strategies *)
Inductive perm := Dense | BitTranspose.
(** [utils::div_round_up]. *)
Definition div_round_up (x y : nat) : nat := if x mod y =? 0 then x / y else x / y + 1.
(** [bytes]; 250-252, 345-347. *)
Definition bytes_for (p : perm) (nb count : nat) : nat :=
  match p with
  | Dense => div_round_up (nb * count) 8
  | BitTranspose => 32 * div_round_up count 64
  end.
(** [Dense::pack]; 261-306. *)
Definition dense_pack (nb : nat) (data : bytes) (i : nat) (encoded : N) : option bytes :=
  let bitaddress := nb * i in
  let bytestart := bitaddress / 8 in
  let bytestop := (bitaddress + nb - 1) / 8 in
  let bitstart := bitaddress - 8 * bytestart in
  if negb (bytestop <? length data) then None else
  if bytestart =? bytestop then
    match nth_error data bytestart with
    | Some raw =>
      match pack_u8 nb raw encoded bitstart with
      | Some b => Some (set_nth bytestart b data)
      | None => None
      end
    | None => None
    end
  else
    match nth_error data bytestart, nth_error data (bytestart + 1) with
    | Some b0, Some b1 =>
      match pack_u16 nb (b0 + 256 * b1)%N encoded bitstart with
      | Some w => Some (set_nth (bytestart + 1) (w / 256)%N (set_nth bytestart (w mod 256)%N data))
      | None => None
      end
    | _, _ => None
    end.
(** [Dense::unpack]; 308-323. *)
Definition dense_unpack (nb : nat) (data : bytes) (i : nat) : option N :=
  let bitaddress := nb * i in
  let bytestart := bitaddress / 8 in
  let bytestop := (bitaddress + nb - 1) / 8 in
  if negb (bytestop <? length data) then None else
  if bytestart =? bytestop then
    match nth_error data bytestart with
    | Some raw => unpack_u8 nb raw (bitaddress - 8 * bytestart)
    | None => None
    end
  else
    match nth_error data bytestart, nth_error data (bytestart + 1) with
    | Some b0, Some b1 => unpack_u16 nb (b0 + 256 * b1)%N (bitaddress - 8 * bytestart)
    | _, _ => None
    end.
(** The loops of [BitTranspose::pack] and [unpack], 349-379; [ps] are the values of [p]. *)
Fixpoint transpose_pack_loop (ps : list nat) (byte_start bit : nat) (encoded : N) (data : bytes) : option bytes :=
  match ps with
  | [] => Some data
  | p :: ps =>
    match nth_error data (byte_start + 8 * p) with
    | Some v =>
      let m := (N.shiftl 1 (N.of_nat bit) mod 2 ^ 8)%N in
      let v := N.lor (N.land v (N.lxor m 255))
                 (N.shiftl (N.land (N.shiftr encoded (N.of_nat p)) 1) (N.of_nat bit) mod 2 ^ 8)%N in
      transpose_pack_loop ps byte_start bit encoded (set_nth (byte_start + 8 * p) v data)
    | None => None
    end
  end.
Definition transpose_pack (data : bytes) (i : nat) (encoded : N) : option bytes :=
  let block_start := 32 * (i / 64) in
  let byte_start := block_start + (i mod 64) / 8 in
  transpose_pack_loop (seq 0 4) byte_start (i mod 8) encoded data.
Fixpoint transpose_unpack_loop (ps : list nat) (byte_start bit : nat) (output : N) (data : bytes) : option N :=
  match ps with
  | [] => Some output
  | p :: ps =>
    match nth_error data (byte_start + 8 * p) with
    | Some v =>
      let output := N.lor output (N.shiftl (N.land (N.shiftr v (N.of_nat bit)) 1) (N.of_nat p) mod 2 ^ 8)%N in
      transpose_unpack_loop ps byte_start bit output data
    | None => None
    end
  end.
Definition transpose_unpack (data : bytes) (i : nat) : option N :=
  let block_start := 32 * (i / 64) in
  let byte_start := block_start + (i mod 64) / 8 in
  transpose_unpack_loop (seq 0 4) byte_start (i mod 8) 0 data.
Definition pack (p : perm) (nb : nat) (data : bytes) (i : nat) (encoded : N) : option bytes :=
  match p with Dense => dense_pack nb data i encoded | BitTranspose => transpose_pack data i encoded end.
Definition unpack (p : perm) (nb : nat) (data : bytes) (i : nat) : option N :=
  match p with Dense => dense_unpack nb data i | BitTranspose => transpose_unpack data i end.

(** ** slice.rs: BitSliceBase *)
(** The type parameters [NBITS], [Repr], [Perm] as values; which combinations exist is
    [conf_ok] in Spec. *)
Record conf := mkconf { c_bits : nat; c_repr : repr; c_perm : perm }.
Record bitslice := mkbs { bs_data : bytes; bs_len : nat }.
(** [new]; 591-612. *)
Definition bs_new (c : conf) (data : bytes) (count : nat) : option bitslice :=
  if negb (length data =? bytes_for (c_perm c) (c_bits c) count) then None else Some (mkbs data count).
(** [new_boxed]; 760-772. *)
Definition bs_boxed (c : conf) (count : nat) : bitslice :=
  mkbs (repeat 0%N (bytes_for (c_perm c) (c_bits c) count)) count.

Inductive bop := BGet (i : nat) | BSet (i : nat) (v : Z).
Inductive bout := BValue (v : Z) | BDone | BIndexError | BEncodingError | BPanic.
(** [get], [set]; 630-689. *)
Definition bs_op (c : conf) (s : bitslice) (o : bop) : bitslice * bout :=
  match o with
  | BGet i =>
    if bs_len s <=? i then (s, BIndexError) else
    match unpack (c_perm c) (c_bits c) (bs_data s) i with
    | Some raw => match decode (c_repr c) (c_bits c) raw with Some v => (s, BValue v) | None => (s, BPanic) end
    | None => (s, BPanic)
    end
  | BSet i v =>
    if bs_len s <=? i then (s, BIndexError) else
    match encode (c_repr c) (c_bits c) v with
    | None => (s, BEncodingError)
    | Some e =>
      match pack (c_perm c) (c_bits c) (bs_data s) i e with
      | Some data => (mkbs data (bs_len s), BDone)
      | None => (s, BPanic)
      end
    end
  end.
Fixpoint bs_run (c : conf) (s : bitslice) (ops : list bop) : bitslice * list bout :=
  match ops with
  | [] => (s, [])
  | o :: ops => let (s, r) := bs_op c s o in let (s, rs) := bs_run c s ops in (s, r :: rs)
  end.
(** [From<&BitSliceBase<8, Unsigned, _>> for &[u8]]; 847-859: the first [len] bytes. *)
Definition bs_as_bytes (s : bitslice) : option bytes :=
  if bs_len s <=? length (bs_data s) then Some (firstn (bs_len s) (bs_data s)) else None.
