(** Specification vocabulary for the determinant-diversity selection. *)
From Coq Require Import Reals.
From Verif.Lib Require Import Base Lists.
From Verif.DetDiv Require Import Model.
Local Open Scope R_scope.

(** Sums over the coordinates. *)
Fixpoint total (xs : list nat) (f : nat -> R) : R :=
  match xs with [] => 0 | i :: xs' => f i + total xs' f end.
Definition coord (v : list R) (i : nat) : R := nth i v 0.

(** The squared length of candidate [j] less a combination, with coefficients [c], of the
    candidates [sel]. *)
Definition residue (dim : nat) (rows : list (list R)) (sel : list nat) (c : nat -> R) (j : nat) : R :=
  total (seq 0 dim) (fun i =>
    let d := coord (nth j rows []) i - total sel (fun s => c s * coord (nth s rows []) i) in d * d).

(** [d] is the squared distance of candidate [j] from the space spanned by the candidates [sel]. *)
Definition sq_distance (dim : nat) (rows : list (list R)) (sel : list nat) (j : nat) (d : R) : Prop :=
  (exists c, residue dim rows sel c j = d) /\ forall c, d <= residue dim rows sel c j.

(** A selection in which every choice is, of the candidates left, one farthest from the space
    spanned by the choices before it. *)
Definition greedy (dim : nat) (rows : list (list R)) (idx : list nat) : Prop :=
  forall pre i post, idx = pre ++ i :: post ->
  forall j, (j < length rows)%nat -> ~ In j pre ->
  exists di dj, sq_distance dim rows pre i di /\ sq_distance dim rows pre j dj /\ dj <= di.

(** Exact arithmetic. *)
Record exact (a : arith R) : Prop := {
  ex_zero : f_zero a = 0;
  ex_one : f_one a = 1;
  ex_add : forall x y, f_add a x y = x + y;
  ex_sub : forall x y, f_sub a x y = x - y;
  ex_mul : forall x y, f_mul a x y = x * y;
  ex_div : forall x y, f_div a x y = x / y;
  ex_max : forall x y, f_max a x y = Rmax x y;
  ex_dot : forall x y, f_dot a x y = total (seq 0 (length x)) (fun i => coord x i * coord y i);
  ex_le : forall x y, f_le a x y = true <-> x <= y;
  ex_cmp : forall x y, f_cmp a x y = Gt <-> y < x
}.

(** The candidates, each weighted by its relevance. *)
Definition weighted (a : arith R) (power inv dmin dmax : R) (rows : list (list R)) (ds : list R) : list (list R) :=
  map (fun rd => map (fun v => v * (f_pow a (similarity a (snd rd) dmin dmax) power * inv)) (fst rd)) (combine rows ds).
