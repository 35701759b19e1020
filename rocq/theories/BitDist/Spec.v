(** What the distances between bit-packed vectors should be. *)
From Coq Require Import List NArith ZArith PeanoNat Bool.
From Verif.Bits Require Import Model Spec.
From Verif.Simd Require Spec.
From Verif.Simd Require Import Model.
From Verif.BitDist Require Import Model.
Import ListNotations.

(** An unsigned dense slice of [nb]-bit elements; the transposed and the one-bit signed layouts. *)
Definition unsigned (nb : nat) : conf := mkconf nb Unsigned Dense.
Definition transposed4 : conf := mkconf 4 Unsigned BitTranspose.
Definition binary : conf := mkconf 1 Binary Dense.
(** A slice as every constructor makes it: bytes, as many as the layout needs. *)
Definition valid (c : conf) (s : bitslice) : Prop :=
  Forall byte_ok (bs_data s) /\ length (bs_data s) = bytes_for (c_perm c) (c_bits c) (bs_len s).

(** The distances of two vectors of integers. *)
Definition exact_l2 (x y : list Z) : Z := Simd.Spec.ztotal (fun a b => (a - b) * (a - b))%Z x y.
Definition exact_ip (x y : list Z) : Z := Simd.Spec.ztotal (fun a b => a * b)%Z x y.
Definition differing (x y : list Z) : Z := Simd.Spec.ztotal (fun a b => if (a =? b)%Z then 0 else 1)%Z x y.

(** The pairs of widths with an inner product. *)
Definition ip_widths (nx ny : nat) : Prop :=
  (nx = ny /\ 1 <= nx <= 8) \/ (nx = 8 /\ (ny = 4 \/ ny = 2 \/ ny = 1)).
(** Below this the result is exact: above it the f32 (8-bit against 8-bit) or the 32-bit
    accumulators no longer hold it. *)
Definition limit (nx ny : nat) : Z :=
  if (nx =? 8) && (ny =? 8) then 2 ^ 24 else if nx =? 1 then 2 ^ 32 - 1 else 2 ^ 31 - 1.
