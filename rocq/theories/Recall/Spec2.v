(** What the tools' recall means. *)
From Coq Require Import List PeanoNat Bool QArith Qcanon.
From Verif.Recall Require Import Model Model2 Spec.
Import ListNotations.
Local Open Scope nat_scope.

(** The computations with exact rationals in place of f64. *)
Definition recall_exact {A F} (eqb : A -> A -> bool) (deq : F -> F -> bool) := calculate_recall eqb deq (fun t q k => (quotient t q * quotient 100 k)%Qc).
Definition filtered_exact {A F} (eqb : A -> A -> bool) (deq : F -> F -> bool) :=
  calculate_filtered eqb deq (Q2Qc 0) Qcplus (fun c m => (quotient (100 * c) m)) (qnat 100) (fun t q => (t / qnat q)%Qc).
Definition disk_exact {A F} (eqb : A -> A -> bool) (deq : F -> F -> bool) := disk_recall eqb deq (fun t q k => (quotient t q * quotient 100 k)%Qc).
Definition disk_filtered_exact {A} (eqb : A -> A -> bool) :=
  disk_filtered (F := unit) eqb (fun _ _ => true) (Q2Qc 0) Qcplus (fun c m => (quotient (100 * c) m)) (qnat 100) (fun t q => (t / qnat q)%Qc).
(** A table with rows of equal length. *)
Definition table {A} (rows dim : nat) (t : list (list A)) : Prop := length t = rows /\ Forall (fun r => length r = dim) t.
(** The percentage of a filtered query: the wanted ids among the results over the larger of the number of
    ids asked for and the number of different results; 100 without ground truth. *)
Definition share_of {A F} (deq : F -> F -> bool) (gt : list A) (dist : option (list F)) (result : list A) (k : nat) (p : Qc) : Prop :=
  let k' := Nat.min k (length gt) in
  (k' = 0 /\ p = qnat 100) \/
  (0 < k' /\ exists l d, lists (fun a => wanted deq gt dist k' a /\ In a result) l /\ lists (fun a => In a result) d /\ p = quotient (100 * length l) (Nat.max k' (length d))).
