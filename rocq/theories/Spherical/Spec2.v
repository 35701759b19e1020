(** Points of the lattice and how well they match a vector. *)
From Coq Require Import QArith Qabs.
From Verif.Lib Require Import Base.
From Verif.Spherical Require Import Model2.
Local Open Scope nat_scope.

(** The level of a component of size [a] under a scale [s]: one more than the number of thresholds
    it has passed, out of [stop - 1]; a threshold is a whole number and a bit. *)
Definition level (stop : nat) (s a : Q) : nat := S (length (filter (fun k => Qle_bool (qn k + eps) (s * a)) (seq 1 (stop - 1)))).
Definition levels (stop : nat) (s : Q) (v : list Q) : list nat := map (fun x => level stop s (Qabs x)) v.
(** A level [k] stands for the coordinate [k - 1/2] in the direction of the component. *)
Fixpoint dot (v : list Q) (r : list nat) : Q := match v, r with x :: v, k :: r => (Qabs x * (qn k - (1 # 2)) + dot v r)%Q | _, _ => 0%Q end.
Fixpoint norm2 (r : list nat) : Q := match r with k :: r => ((qn k - (1 # 2)) * (qn k - (1 # 2)) + norm2 r)%Q | [] => 0%Q end.
(** The squared cosine between the vector and the point, but for the norm of the vector. *)
Definition match2 (v : list Q) (r : list nat) : Q := (dot v r * dot v r / norm2 r)%Q.
(** Components of different sizes never pass thresholds at the same scale. *)
Definition no_ties (stop : nat) (v : list Q) : Prop :=
  forall x y k j, In x v -> In y v -> ~ (x == 0)%Q -> ~ (y == 0)%Q -> 1 <= k < stop -> 1 <= j < stop -> ((qn k + eps) * Qabs y == (qn j + eps) * Qabs x)%Q -> (Qabs x == Qabs y)%Q.
(** The scaled size of a component is not just past a whole number. *)
Definition clear_of (stop : nat) (s a : Q) : Prop := forall k, 1 <= k < stop -> ~ (qn k <= s * a /\ s * a < qn k + eps)%Q.
(** What a code stands for, times two. *)
Definition decoded (bits : nat) (c : Z) : Z := (2 * c - (Z.of_nat (2 ^ bits) - 1))%Z.
(** The squared cosine between a vector and its codes under a scale, but for the norm of the vector. *)
Fixpoint code_dot (bits : nat) (s : Q) (v : list Q) : Q := match v with [] => 0%Q | x :: v => (x * inject_Z (decoded bits (code bits s x)) + code_dot bits s v)%Q end.
Fixpoint code_norm2 (bits : nat) (s : Q) (v : list Q) : Q := match v with [] => 0%Q | x :: v => (inject_Z (decoded bits (code bits s x)) * inject_Z (decoded bits (code bits s x)) + code_norm2 bits s v)%Q end.
Definition cosine2 (bits : nat) (s : Q) (v : list Q) : Q := (code_dot bits s v * code_dot bits s v / code_norm2 bits s v)%Q.
