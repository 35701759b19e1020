(** Similarities of multi-vectors: of the best document vector for every query vector. *)
From Coq Require Import List PeanoNat.
From Verif.Simd Require Import Model.
From Verif.Pq Require Import Model.
From Verif.MultiVec Require Import Model.
Import ListNotations.

Section Spec.
  Context {T F : Type} (o : mops T F).
  (** A matrix has as many elements as its sizes say. *)
  Definition whole (m : matrix T) : Prop := length (m_data m) = m_rows m * m_cols m.
  (** The vectors of a matrix. *)
  Definition vectors (m : matrix T) : list (list T) := map (fun i => firstn (m_cols m) (skipn (i * m_cols m) (m_data m))) (seq 0 (m_rows m)).
  (** The inner product, added up from the first component. *)
  Definition inner (q d : list T) : F := fold_left (fun s p => madd o (cvt o (fst p)) (cvt o (snd p)) s) (List.combine q d) (mzero o).
  (** The greatest inner product, in the order of the documents. *)
  Definition best (q : list T) (ds : list (list T)) : F := fold_left (mmax o) (map (inner q) ds) (lowest o).
  (** Grouping does not matter for the maximum, and no inner product of empty vectors is below zero. *)
  Definition orderly : Prop :=
    (forall a b c, mmax o (mmax o a b) c = mmax o a (mmax o b c)) /\ mmax o (lowest o) (mzero o) = mzero o /\ mmax o (mzero o) (mzero o) = mzero o.
End Spec.
