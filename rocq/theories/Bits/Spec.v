(** What a bit-packed vector is. *)
From Coq Require Import List NArith ZArith PeanoNat Bool.
From Verif.Lib Require Import Base Lists.
From Verif.Bits Require Import Model.
Import ListNotations.

(** The widths, representations and layouts that exist. *)
Definition conf_ok (c : conf) : Prop :=
  1 <= c_bits c <= 8 /\ (c_repr c = Binary -> c_bits c = 1) /\ (c_perm c = BitTranspose -> c_bits c = 4).
Definition byte_ok (b : N) : Prop := (b < 256)%N.

(** Documented layouts: the place, as a bit number, of bit [j] of element [i]. *)
Definition place (c : conf) (i j : nat) : nat :=
  match c_perm c with
  | Dense => c_bits c * i + j
  | BitTranspose => 8 * (32 * (i / 64) + 8 * j + (i mod 64) / 8) + i mod 8
  end.
Definition bit_of (data : bytes) (k : nat) : bool := N.testbit (nth (k / 8) data 0%N) (N.of_nat (k mod 8)).
(** The number whose bits [0 .. n-1] are given by [f]. *)
Fixpoint number (f : nat -> bool) (n : nat) : N :=
  match n with O => 0 | S n => (number f n + if f n then 2 ^ N.of_nat n else 0)%N end.
(** The value of element [i] according to the layout. *)
Definition element (c : conf) (data : bytes) (i : nat) : Z :=
  let raw := Z.of_N (number (fun j => bit_of data (place c i j)) (c_bits c)) in
  match c_repr c with Unsigned => raw | Binary => if (raw =? 0)%Z then -1 else 1 end%Z.
Definition elements (c : conf) (s : bitslice) : list Z := map (element c (bs_data s)) (seq 0 (bs_len s)).

(** The values that can be stored. *)
Definition storable (c : conf) (v : Z) : bool :=
  match c_repr c with
  | Unsigned => ((0 <=? v) && (v <? 2 ^ Z.of_nat (c_bits c)))%Z
  | Binary => ((v =? -1) || (v =? 1))%Z
  end.
(** A plain list of values with checked access. *)
Definition list_op (c : conf) (l : list Z) (o : bop) : list Z * bout :=
  match o with
  | BGet i => match nth_error l i with Some v => (l, BValue v) | None => (l, BIndexError) end
  | BSet i v => if length l <=? i then (l, BIndexError)
                else if storable c v then (set_nth i v l, BDone) else (l, BEncodingError)
  end.
Fixpoint list_run (c : conf) (l : list Z) (ops : list bop) : list Z * list bout :=
  match ops with
  | [] => (l, [])
  | o :: ops => let (l, r) := list_op c l o in let (l, rs) := list_run c l ops in (l, r :: rs)
  end.
