(** What the distance kernels should compute. *)
From Coq Require Import List ZArith PeanoNat Bool Ring_theory.
From Verif.Simd Require Import Model.
Import ListNotations.

(** Arithmetic without rounding: the operations form a commutative ring. *)
Record exact {F} (o : fops F) : Prop := {
  ex_ring : ring_theory (zero o) (one o) (add o) (mul o) (sub o) (neg o) eq;
  ex_fma : forall x y z, fma o x y z = add o (mul o x y) z;
  ex_abs : abs o (zero o) = zero o
}.

(** The sum, over the positions of two vectors, of [f x_i y_i]. *)
Fixpoint total {F L R} (o : fops F) (f : L -> R -> F) (x : list L) (y : list R) : F :=
  match x, y with
  | a :: x, b :: y => add o (f a b) (total o f x y)
  | _, _ => zero o
  end.
(** The term of each distance, for elements converted by [cl] and [cr]. *)
Definition term {F L R} (o : fops F) (cl : L -> F) (cr : R -> F) (k : kind) (a : L) (b : R) : F :=
  match k with
  | L2 => let d := sub o (cl a) (cr b) in mul o d d
  | IP => mul o (cl a) (cr b)
  | L1 => abs o (cl a)
  end.

(** The same over the integers. *)
Fixpoint ztotal (f : Z -> Z -> Z) (x y : list Z) : Z :=
  match x, y with
  | a :: x, b :: y => (f a b + ztotal f x y)%Z
  | _, _ => 0%Z
  end.
Definition zterm (k : kind) (a b : Z) : Z :=
  match k with L2 => (a - b) * (a - b) | IP => a * b | L1 => Z.abs a end%Z.
Definition in_range (e : ielem) (v : Z) : Prop :=
  match e with I8 => -128 <= v <= 127 | U8 => 0 <= v <= 255 end%Z.
(** The integers a 32-bit accumulator holds: u32 on Neon for u8, i32 elsewhere. *)
Definition acc_range (a : arch) (e : ielem) (v : Z) : Prop :=
  match a, e with
  | Neon, U8 => 0 <= v < 2 ^ 32
  | _, _ => - 2 ^ 31 <= v < 2 ^ 31
  end%Z.
(** Integers that are f32 values, and the nearest one. *)
Definition f32_int (v : Z) : Prop := exists m e, (Z.abs m <= 2 ^ 24 /\ 0 <= e /\ v = m * 2 ^ e)%Z.
Definition nearest_f32 (z v : Z) : Prop :=
  f32_int v /\ forall u, f32_int u -> (Z.abs (v - z) <= Z.abs (u - z))%Z.
