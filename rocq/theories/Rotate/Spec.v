(** Specification vocabulary for the Hadamard transforms. *)
From Coq Require Import Reals.
From Verif.Lib Require Import Base.
From Verif.Rotate Require Import Model.
Local Open Scope R_scope.

(** Sums and coordinates. *)
Fixpoint total (xs : list nat) (f : nat -> R) : R :=
  match xs with [] => 0 | i :: xs' => f i + total xs' f end.
Definition coord (v : list R) (i : nat) : R := nth i v 0.

(** Inner product and squared Euclidean distance of two vectors of [n] coordinates. *)
Definition dot (n : nat) (x y : list R) : R := total (seq 0 n) (fun i => coord x i * coord y i).
Definition sqdist (n : nat) (x y : list R) : R :=
  total (seq 0 n) (fun i => (coord x i - coord y i) * (coord x i - coord y i)).

(** Sylvester's matrix of order 2^k: four copies of the matrix of half the order, the last one
    negated. *)
Fixpoint sylvester (k : nat) (i j : nat) : R :=
  match k with
  | O => 1
  | S k' =>
      let h := (2 ^ k')%nat in
      let v := sylvester k' (i mod h) (j mod h) in
      if ((h <=? i) && (h <=? j))%nat%bool then - v else v
  end.

(** Exact arithmetic. *)
Record exact (o : ops R) : Prop := {
  ex_zero : zero o = 0;
  ex_one : one o = 1;
  ex_add : forall x y, add o x y = x + y;
  ex_sub : forall x y, sub o x y = x - y;
  ex_mul : forall x y, mul o x y = x * y;
  ex_div : forall x y, div o x y = x / y;
  ex_neg : forall x, neg o x = - x;
  ex_fma : forall x y z, fma o x y z = x * y + z;
  ex_root : forall x, root o x = sqrt x;
  ex_nat : forall n, of_nat o n = INR n;
  ex_xor0 : forall x, xor_bits o x 0 = x;
  ex_xor1 : forall x, xor_bits o x SIGN = - x
}.

(** What a random choice of [amount] of the first [len] indices returns. *)
Definition samples (sample : nat -> nat -> list nat) : Prop :=
  forall len amount, (amount <= len)%nat ->
  length (sample len amount) = amount /\ NoDup (sample len amount) /\
  Forall (fun i => (i < len)%nat) (sample len amount).

(** The documented output dimension of a transform of [dim]-dimensional vectors: padding_hadamard.rs
    77-88, double_hadamard.rs 82-95.  [p] is the least power of two that is at least [dim]. *)
Definition least_pow2 (n p : nat) : Prop :=
  (exists k, p = 2 ^ k)%nat /\ (n <= p)%nat /\ forall k, (n <= 2 ^ k)%nat -> (p <= 2 ^ k)%nat.
Definition documented_output (k : kind) (dim out : nat) : Prop :=
  match k with
  | KPadding Same | KDouble Same | KDouble Natural | KNull => out = dim
  | KPadding Natural => least_pow2 dim out
  | KPadding (Override n) | KDouble (Override n) => out = n
  end.
(** When norms are documented to be preserved: padding_hadamard.rs 192-195, double_hadamard.rs
    219-222. *)
Definition documented_preserves (k : kind) (dim out : nat) : Prop :=
  match k with
  | KPadding _ => (exists k, out = 2 ^ k)%nat /\ (dim <= out)%nat
  | KDouble _ => (dim <= out)%nat
  | KNull => True
  end.
Definition valid_target (k : kind) : Prop :=
  match k with
  | KPadding (Override n) | KDouble (Override n) => (0 < n)%nat
  | _ => True
  end.

(** The parts of a transform that [try_from_parts] returns. *)
Definition accepted (t : transform) : Prop :=
  match t with
  | TPadding p => exists s n u, padding_from_parts s n u = inl p
  | TDouble d => exists s0 s1 u, double_from_parts s0 s1 u = inl d
  | TNull n => (0 < n)%nat
  end.

(** The same transform without the final choice of coordinates. *)
Definition full (t : transform) : transform :=
  match t with
  | TPadding p => TPadding (mkPad (p_signs p) (p_dim p) None)
  | TDouble d => TDouble (mkDbl (d_signs0 d) (d_signs1 d) (Nat.max (length (d_signs0 d)) (d_target d)) None)
  | TNull n => TNull n
  end.
Definition chosen (t : transform) : option (list N) :=
  match t with TPadding p => p_sub p | TDouble d => d_sub d | TNull _ => None end.

(** Dimensions that fit the stored format. *)
Definition small (k : kind) (dim : nat) : Prop :=
  (N.of_nat dim <= 2 ^ 31)%N /\
  match k with KPadding (Override n) | KDouble (Override n) => (N.of_nat n <= 2 ^ 31)%N | _ => True end.
