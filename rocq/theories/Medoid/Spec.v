(** Medoids. *)
From Coq Require Import List PeanoNat QArith Qcanon.
From Verif.Medoid Require Import Model.
Import ListNotations.

(** Exact numbers, with a bound in the place of [f32::MAX]. *)
Definition qlt (a b : Qc) : bool := if Qclt_le_dec a b then true else false.
Fixpoint qdist (x y : list Qc) : Qc := match x, y with a :: x, b :: y => ((a - b) * (a - b) + qdist x y)%Qc | _, _ => 0%Qc end.
Definition qn (n : nat) : Qc := Q2Qc (inject_Z (Z.of_nat n)).
Definition exact (bound : Qc) : ops Qc Qc Qc := mkO Qc Qc Qc (fun x => x) 0%Qc Qcplus (fun s n => (s / qn n)%Qc) qdist qlt bound 0%Qc.
(** The sum of the squared distances from one point to all. *)
Definition total (rows : list (list Qc)) (x : list Qc) : Qc := fold_right (fun y s => (qdist x y + s)%Qc) 0%Qc rows.

Local Open Scope nat_scope.
Section Spec.
  Context {T D F : Type} (o : ops T D F).
  (** Comparing numbers: [ok] are those that compare with every other (not NaN). *)
  Record ordered (ok : F -> Prop) : Prop := mkOrd {
    irrefl : forall a, flt o a a = false;
    trans : forall a b d, flt o a b = true -> flt o b d = true -> flt o a d = true;
    cotrans : forall a b d, ok d -> flt o a b = true -> flt o a d = true \/ flt o d b = true }.
  (** Column [k] of the rows, added from the first row to the last and divided by their number. *)
  Definition is_mean (dim : nat) (rows : list (list T)) (c : list F) : Prop :=
    length c = dim /\ forall k, k < dim ->
      nth_error c k = Some (ddiv o (fold_left (fun s r => dadd o s (into o (nth k r (tzero o)))) rows (d0 o)) (length rows)).
  (** Row [i] is [r]; none is nearer to [c]; those before it that can be compared are farther. *)
  Definition nearest (ok : F -> Prop) (c : list F) (rows : list (list T)) (i : nat) (r : list T) : Prop :=
    nth_error rows i = Some r /\ flt o (dist o c r) (fmax o) = true /\
    (forall q, In q rows -> flt o (dist o c q) (dist o c r) = false) /\
    forall j q, j < i -> nth_error rows j = Some q -> ok (dist o c q) -> flt o (dist o c r) (dist o c q) = true.
  (** No row has a distance below the greatest number. *)
  Definition out_of_range (c : list F) (rows : list (list T)) : Prop := forall r, In r rows -> flt o (dist o c r) (fmax o) = false.
  (** The rows at the chosen positions, in order. *)
  Definition sample_of (chosen : nat -> bool) (rows sample : list (list T)) : Prop :=
    exists is, (forall i, In i is <-> i < length rows /\ chosen i = true) /\ (forall a b x y, a < b -> nth_error is a = Some x -> nth_error is b = Some y -> x < y) /\
      Forall2 (fun i r => nth_error rows i = Some r) is sample.
  (** rand's [index::sample]: [n] different positions. *)
  Definition samples (sample : nat -> nat -> list nat) : Prop :=
    forall len n, n <= len -> length (sample len n) = n /\ NoDup (sample len n) /\ Forall (fun i => i < len) (sample len n).
End Spec.
