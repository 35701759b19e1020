(** What k-means clustering should compute.  The data are given as the list of their points. *)
From Coq Require Import List PeanoNat Bool QArith Qcanon.
From Verif.Simd Require Import Model.
From Verif.Pq Require Import Model Spec.
From Verif.Kmeans Require Import Model.
Import ListNotations.
Local Open Scope nat_scope.

(** The points of a matrix; a well-formed matrix. *)
Definition points {A} (m : matrix A) : list (list A) := map (row m) (seq 0 (m_rows m)).
Definition shaped {A} (m : matrix A) : Prop := length (m_data m) = m_rows m * m_cols m.

(** ** In floating point *)

(** The squared distance of [p] from [c] as it is computed: |c|^2 - <c,p> - <c,p> + |p|^2. *)
Definition computed {F} (x : xops F) (c p : list F) (d : F) : Prop :=
  exists cn n, square_norm x c = Some cn /\ square_norm x p = Some n /\
    let s := along (fo x) KMath c p in d = add (fo x) (sub (fo x) (sub (fo x) cn s) s) n.
(** The center of a point: the first one whose computed distance is least and below the infinity;
    none, if no distance is below the infinity. *)
Definition assigned {F} (x : xops F) (centers : matrix F) (p : list F) (r : option nat) : Prop :=
  exists d, (forall c, c < m_rows centers -> computed x (row centers c) p (d c)) /\
  match r with
  | Some v => v < m_rows centers /\ lt (fo x) (d v) (inf x) = true /\
              (forall c, c < m_rows centers -> lt (fo x) (d c) (d v) = false) /\
              (forall c, c < v -> number x (d c) -> lt (fo x) (d v) (d c) = true)
  | None => forall c, c < m_rows centers -> lt (fo x) (d c) (inf x) = false
  end.
(** The squared distance of [p] from the picked point [c] as k-means++ computes it:
    (|p|^2 + |c|^2) + <p,c> * -2. *)
Definition computed_pp {F} (x : xops F) (c p : list F) (d : F) : Prop :=
  exists cn n, square_norm x c = Some cn /\ square_norm x p = Some n /\
    d = add (fo x) (add (fo x) n cn) (mul (fo x) (along (fo x) KMath p c) (neg (fo x) (two x))).
(** The points assigned to center [r], in order, and their mean in f64; no point counts as one zero. *)
Definition members {F} (pts : list (list F)) (a : list (option nat)) (r : nat) : list (list F) :=
  map fst (filter (fun p => match snd p with Some c => c =? r | None => false end) (List.combine pts a)).
Definition coordinate {F D} (x : xops F) (dd : dops F D) (ps : list (list F)) (i : nat) : F :=
  narrow dd (dover dd (fold_left (fun s p => dadd dd s (widen dd (nth i p (zero (fo x))))) ps (dzero dd)) (Nat.max (length ps) 1)).
Definition centroid {F D} (x : xops F) (dd : dops F D) (cols : nat) (ps : list (list F)) : list F :=
  map (coordinate x dd ps) (seq 0 cols).

(** ** In exact arithmetic *)

(** The rational numbers with the infinities and NaN. *)
Inductive ext := Fin (v : Qc) | PInf | NInf | NaN.
Definition qlt (a b : Qc) : bool := match (a ?= b)%Qc with Lt => true | _ => false end.
Definition e_opp (a : ext) : ext := match a with Fin v => Fin (- v)%Qc | PInf => NInf | NInf => PInf | NaN => NaN end.
Definition e_plus (a b : ext) : ext :=
  match a, b with
  | Fin u, Fin v => Fin (u + v)%Qc
  | NaN, _ | _, NaN => NaN
  | PInf, NInf | NInf, PInf => NaN
  | PInf, _ | _, PInf => PInf
  | NInf, _ | _, NInf => NInf
  end.
Definition e_sign (v : Qc) (pos : ext) : ext := match (v ?= Q2Qc 0)%Qc with Eq => NaN | Gt => pos | Lt => e_opp pos end.
Definition e_times (a b : ext) : ext :=
  match a, b with
  | Fin u, Fin v => Fin (u * v)%Qc
  | NaN, _ | _, NaN => NaN
  | Fin u, i | i, Fin u => e_sign u i
  | PInf, PInf | NInf, NInf => PInf
  | _, _ => NInf
  end.
Definition e_less (a b : ext) : bool :=
  match a, b with
  | Fin u, Fin v => qlt u v
  | NaN, _ | _, NaN => false
  | NInf, NInf | PInf, _ => false
  | NInf, _ => true
  | Fin _, PInf => true
  | Fin _, NInf => false
  end.
Definition qnat (n : nat) : Qc := Q2Qc (inject_Z (Z.of_nat n)).
Definition e_over (a : ext) (n : nat) : ext := match a with Fin v => Fin (v / qnat n)%Qc | a => a end.
Definition e_finite (a : ext) : bool := match a with Fin _ => true | _ => false end.
Definition q_ops : fops Qc :=
  mkF (Q2Qc 0) (Q2Qc 1) (Q2Qc 1) Qcplus Qcminus Qcmult Qcopp Qcdiv (fun a b c => a * b + c)%Qc (fun a => a) (fun a => a) (fun a _ => a) (fun a _ => a) qlt.
Definition ext_ops : fops ext :=
  mkF (Fin (Q2Qc 0)) (Fin (Q2Qc 1)) (Fin (Q2Qc 1)) e_plus (fun a b => e_plus a (e_opp b)) e_times e_opp (fun _ _ => NaN) (fun a b c => e_plus (e_times a b) c)
      (fun a => a) (fun a => a) (fun a _ => a) (fun a _ => a) e_less.
Definition ext_x : xops ext :=
  mkX ext_ops PInf NInf PInf (Fin (qnat 2)) e_finite (fun a => match a with PInf | NInf => true | _ => false end).
Definition ext_d : dops ext ext :=
  mkD (fun a => a) (fun a => a) (Fin (Q2Qc 0)) e_plus e_over e_less
      (fun a b => e_less b a || match a, b with Fin u, Fin v => Qc_eq_bool u v | PInf, PInf | NInf, NInf => true | _, _ => false end) e_finite.
(** Numbers as data: a matrix and points of finite values. *)
Definition fin (m : matrix Qc) : matrix ext := mkM (map Fin (m_data m)) (m_rows m) (m_cols m).

(** The squared distance, a sum and the mean. *)
Fixpoint dist2 (p q : list Qc) : Qc :=
  match p, q with
  | a :: p, b :: q => ((a - b) * (a - b) + dist2 p q)%Qc
  | _, _ => Q2Qc 0
  end.
Fixpoint qsum (l : list Qc) : Qc := match l with [] => Q2Qc 0 | a :: l => (a + qsum l)%Qc end.
Definition mean (cols : nat) (ps : list (list Qc)) : list Qc :=
  map (fun i => (qsum (map (fun p => nth i p (Q2Qc 0)) ps) / qnat (Nat.max (length ps) 1))%Qc) (seq 0 cols).
(** Center [c] is the first of the nearest ones of [p]. *)
Definition nearest (centers : matrix Qc) (p : list Qc) (c : nat) : Prop :=
  c < m_rows centers /\
  (forall r, r < m_rows centers -> (dist2 (row centers c) p <= dist2 (row centers r) p)%Qc) /\
  (forall r, r < c -> (dist2 (row centers c) p < dist2 (row centers r) p)%Qc).
(** The sum of the squared distances of the points from the centers they are assigned to. *)
Definition cost (centers : matrix Qc) (pts : list (list Qc)) (a : list nat) : Qc :=
  qsum (map (fun q => dist2 (row centers (snd q)) (fst q)) (List.combine pts a)).

(** *** k-means++ *)

(** The squared distance of row [j] from the nearest picked row, and the sum over the first [k] rows. *)
Definition qmin (a b : Qc) : Qc := if qlt b a then b else a.
Definition weight (data : matrix Qc) (picks : list nat) (j : nat) : Qc :=
  match picks with
  | [] => Q2Qc 0
  | p :: ps => fold_left (fun w p => qmin w (dist2 (row data p) (row data j))) ps (dist2 (row data p) (row data j))
  end.
Definition weights (data : matrix Qc) (picks : list nat) (k : nat) : Qc := qsum (map (weight data picks) (seq 0 k)).
(** A sample of [0, s) for every sum [s] and round. *)
Definition samples (draw : nat -> ext -> ext) : Prop :=
  forall k s, (Q2Qc 0 < s)%Qc -> exists t, draw k (Fin s) = Fin t /\ (Q2Qc 0 <= t)%Qc /\ (t < s)%Qc.
(** Every pick but the first is the row in whose interval the sample falls, when the rows are laid
    out one after the other with their weights as lengths. *)
Definition sampled (data : matrix Qc) (draw : nat -> ext -> ext) (picks : list nat) : Prop :=
  forall c p, 0 < c -> nth_error picks c = Some p ->
  let w := weights data (firstn c picks) in
  exists t, draw c (Fin (w (m_rows data))) = Fin t /\
    (Q2Qc 0 < weight data (firstn c picks) p)%Qc /\ (t <= w (S p))%Qc /\
    forall j, j < p -> (Q2Qc 0 < weight data (firstn c picks) j)%Qc -> (w (S j) < t)%Qc.
(** There are [k] different points. *)
Definition distinct {A} (pts : list A) (k : nat) : Prop :=
  exists l, NoDup l /\ length l = k /\ forall p, In p l <-> In p pts.

(** ** Training *)

(** The columns of chunk [i] of the data, as a matrix. *)
Definition columns {A} (data : matrix A) (offsets : list nat) (i : nat) : matrix A :=
  mkM (concat (map (piece offsets i) (points data))) (m_rows data) (nth (S i) offsets 0 - nth i offsets 0).
