(** What a heap of fixed size does, as a bag. *)
From Coq Require Import Permutation.
From Verif.Lib Require Import Base.

Section Spec.
  Context {T : Type} (leb : T -> T -> bool).
  Definition greatest (x : T) (l : list T) : Prop := In x l /\ forall y, In y l -> leb y x = true.
  (** Each function is applied to a greatest element, which it replaces. *)
  Fixpoint replaced (l : list T) (fs : list (T -> T)) (l' : list T) : Prop :=
    match fs with
    | [] => Permutation l l'
    | f :: fs => exists x rest, Permutation l (x :: rest) /\ greatest x l /\ replaced (f x :: rest) fs l'
    end.
End Spec.
