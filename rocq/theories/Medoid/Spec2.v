(** Latin hypercubes. *)
From Coq Require Import List PeanoNat Permutation.
Import ListNotations.

(** Draws stay in the range that was asked for. *)
Definition in_range (d : nat -> nat -> nat -> nat -> nat) : Prop := forall a b lo hi, lo < hi -> lo <= d a b lo hi < hi.
Definition column {T : Type} (m : list (list T)) (k : nat) : list (option T) := map (fun r => nth_error r k) m.
(** [v] is in column [k] of one of the rows of stratum [s], of [w] rows each. *)
Definition in_stratum {T : Type} (data : list (list T)) (w k s : nat) (v : T) : Prop :=
  exists i row, s * w <= i < (s + 1) * w /\ nth_error data i = Some row /\ nth_error row k = Some v.
(** In every column the samples have one value from each of the [n] strata, in some order. *)
Definition latin {T : Type} (data : list (list T)) (ncols n : nat) (m : list (list T)) : Prop :=
  length m = n /\ Forall (fun r => length r = ncols) m /\
  forall k, k < ncols -> exists vs, length vs = n /\ (forall s v, nth_error vs s = Some v -> in_stratum data (length data / n) k s v) /\ Permutation (map Some vs) (column m k).
