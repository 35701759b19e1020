(** What distances between compressed vectors are meant to be. *)
From Coq Require Import Reals ZArith List.
Import ListNotations.
From Verif.Spherical Require Import Model3.
Local Open Scope R_scope.

(** A quantizer whose transform gives vectors of the promised size and whose scales are positive (C120). *)
Definition sound (q : quantizer) : Prop :=
  (forall v, length v = length (shift q) -> length (transform q v) = output_dim q) /\
  (forall t, 0 < best_scale q t) /\
  (preserves_norms q = true -> forall v, length v = length (shift q) -> dotp (transform q v) (transform q v) = dotp v v).
(** The vector that is stood for: scaled, or made of norm one for cosines (zero stays zero). *)
Definition meant (q : quantizer) (x : list R) : list R :=
  match kind q with
  | Cosine => if Req_EM_T (norm x) 0 then x else map (fun v => v / norm x) x
  | _ => map (fun v => pre_scale q * v) x
  end.
Definition minus (x y : list R) : list R := map (fun p => fst p - snd p) (combine x y).
(** The distance that is estimated. *)
Definition exact (q : quantizer) (x y : list R) : R :=
  match kind q with
  | L2 => dotp (minus (meant q x) (meant q y)) (minus (meant q x) (meant q y))
  | IP => - dotp (meant q x) (meant q y)
  | Cosine => 1 - dotp (meant q x) (meant q y)
  end.
(** The vector without the centre. *)
Definition centred (q : quantizer) (x : list R) : list R := minus (meant q x) (shift q).
(** What stored codes stand for: a multiple of the point of the lattice. *)
Definition rebuilt (bits : nat) (d : data) : list R := map (fun c => d_ipc d * (IZR c - (2 ^ bits - 1) / 2)) (d_codes d).
Definition rebuilt_full (f : full) : list R := map (Rmult (f_norm f)) (f_vec f).
Definition rebuilt_query (c : list Z) (m : qmeta) : list R := map (fun c => m_ipc m * (IZR c + m_offset m)) c.
(** How often the inner product counts in a distance. *)
Definition weight (q : quantizer) : R := match kind q with L2 => 2 | _ => 1 end.
(** All components of a list are equal. *)
Definition flat (t : list R) : Prop := forall a b, In a t -> In b t -> a = b.
