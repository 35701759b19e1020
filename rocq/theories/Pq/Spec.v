(** What product quantization should compute. *)
From Coq Require Import List PeanoNat Bool.
From Verif.Simd Require Import Model Spec.
From Verif.Pq Require Import Model.
Import ListNotations.

(** One step of the three kernels on one dimension, and the kernel along two vectors: the
    dimensions are added one after the other, in order. *)
Definition kone {F} (o : fops F) (k : kernel) (q y acc : F) : F :=
  match k with
  | KL2 => let d := sub o y q in fma o d d acc
  | KIP => fma o (neg o q) y acc
  | KMath => fma o q y acc
  end.
Definition along {F} (o : fops F) (k : kernel) (q y : list F) : F :=
  fold_left (fun acc p => kone o k (fst p) (snd p) acc) (List.combine q y) (zero o).
(** The number compared instead of the squared distance: |y|^2 - 2 <q, y>. *)
Definition proxy {F} (o : fops F) (norm : F) (q y : list F) : F :=
  let d := along o KMath q y in sub o norm (add o d d).

(** The laws of the comparison of f32, NaN included: [lt] is a strict order, everything that is
    less than something is comparable with everything that is, and the infinity is the largest. *)
Record ordered {F} (x : xops F) : Prop := {
  o_irr : forall a, lt (fo x) a a = false;
  o_trans : forall a b c, lt (fo x) a b = true -> lt (fo x) b c = true -> lt (fo x) a c = true;
  o_cotrans : forall a b c d, lt (fo x) b d = true -> lt (fo x) a c = true -> lt (fo x) a b = true \/ lt (fo x) b c = true;
  o_top : forall a, lt (fo x) (inf x) a = false;
  o_below : forall a c, lt (fo x) a c = true -> lt (fo x) a (inf x) = true;
  o_pad : sub (fo x) (zero (fo x)) (add (fo x) (ninf x) (ninf x)) = inf x
}.
(** A number: not NaN. *)
Definition number {F} (x : xops F) (a : F) : Prop :=
  forall b c, lt (fo x) b c = true -> lt (fo x) b a = true \/ lt (fo x) a c = true.

(** Piece [i] of a vector cut at [offsets]; row [j] of a matrix. *)
Definition piece {A} (offsets : list nat) (i : nat) (v : list A) : list A :=
  let a := nth i offsets 0 in firstn (nth (S i) offsets 0 - a) (skipn a v).
Definition row {A} (m : matrix A) (j : nat) : list A := firstn (m_cols m) (skipn (j * m_cols m) (m_data m)).

(** A pivot table over a matrix whose rows are the pivots, cut into pieces at [offsets]: chunk [i]
    holds piece [i] of every pivot (as [y]) with its squared norm. *)
Definition chunk_holds {F} (x : xops F) (pivots : matrix F) (offsets : list nat) (i : nat) (c : chunk) (y : nat -> nat -> F) (norm : nat -> F) : Prop :=
  c_rows c = m_rows pivots /\ c_cols c = nth (S i) offsets 0 - nth i offsets 0 /\ 0 < c_rows c /\ 0 < c_cols c /\
  (forall b k l, b < num_blocks c -> k < c_cols c -> l < 16 ->
    nth_error (c_data c) (16 * c_cols c * b + 16 * k + l) = Some (y (16 * b + l) k)) /\
  (forall j, j < c_rows c -> nth_error (c_norms c) j = Some (norm j)) /\ length (c_norms c) = c_rows c /\
  (forall j, j < c_rows c -> map (y j) (seq 0 (c_cols c)) = piece offsets i (row pivots j)) /\
  (forall j, j < c_rows c -> square_norm x (piece offsets i (row pivots j)) = Some (norm j)).
Definition holds {F} (x : xops F) (pivots : matrix F) (offsets : list nat) (t : ttable) : Prop :=
  t_offsets t = offsets /\ t_dim t = m_cols pivots /\ t_ncenters t = m_rows pivots /\
  length (t_pivots t) = length offsets - 1 /\
  (forall i c, nth_error (t_pivots t) i = Some c -> c_cols c <= t_largest t /\ exists y norm, chunk_holds x pivots offsets i c y norm).

(** The choice for piece [i] of [from]: a pivot whose proxy is finite, below [f32::MAX] and minimal
    among all pivots; or nothing, if no proxy is below [f32::MAX] or a minimal one is not finite. *)
Definition chosen {F} (x : xops F) (pivots : matrix F) (offsets : list nat) (from : list F) (i : nat) (r : option nat) : Prop :=
  exists norm, (forall j, j < m_rows pivots -> square_norm x (piece offsets i (row pivots j)) = Some (norm j)) /\
  let px j := proxy (fo x) (norm j) (piece offsets i from) (piece offsets i (row pivots j)) in
  match r with
  | Some v => v < m_rows pivots /\ is_fin x (px v) = true /\ lt (fo x) (px v) (fbig x) = true /\
              (forall j, j < m_rows pivots -> lt (fo x) (px j) (px v) = false)
  | None => (forall j, j < m_rows pivots -> lt (fo x) (px j) (fbig x) = false) \/
            (exists v, v < m_rows pivots /\ is_fin x (px v) = false /\ lt (fo x) (px v) (fbig x) = true /\
               forall j, j < m_rows pivots -> lt (fo x) (px j) (px v) = false)
  end.
(** No proxy of piece [i] is NaN and none is [f32::MAX]. *)
Definition comparable {F} (x : xops F) (pivots : matrix F) (offsets : list nat) (from : list F) (i : nat) : Prop :=
  exists norm, (forall j, j < m_rows pivots -> square_norm x (piece offsets i (row pivots j)) = Some (norm j)) /\
  forall j, j < m_rows pivots ->
    let p := proxy (fo x) (norm j) (piece offsets i from) (piece offsets i (row pivots j)) in
    number x p /\ (lt (fo x) p (inf x) = true -> lt (fo x) p (fbig x) = true).

(** Exact arithmetic inside the floating-point one: [h] maps a ordered ring without rounding into
    the finite values of [x]. *)
Record embeds {T F} (e : fops T) (x : xops F) (h : T -> F) : Prop := {
  e_exact : exact e;
  e_shift : forall a b c, lt e (add e c a) (add e c b) = lt e a b;
  e_zero : h (zero e) = zero (fo x);
  e_add : forall a b, h (add e a b) = add (fo x) (h a) (h b);
  e_sub : forall a b, h (sub e a b) = sub (fo x) (h a) (h b);
  e_mul : forall a b, h (mul e a b) = mul (fo x) (h a) (h b);
  e_neg : forall a, h (neg e a) = neg (fo x) (h a);
  e_fma : forall a b c, h (fma e a b c) = fma (fo x) (h a) (h b) (h c);
  e_lt : forall a b, lt (fo x) (h a) (h b) = lt e a b;
  e_fin : forall a, is_fin x (h a) = true;
  e_big : forall a, lt (fo x) (h a) (fbig x) = true;
  e_two : forall v, mul (fo x) (two x) v = add (fo x) v v
}.
(** The true squared distance and inner product. *)
Definition true_l2 {T} (e : fops T) (q y : list T) : T := total e (fun a b => mul e (sub e a b) (sub e a b)) q y.
Definition true_ip {T} (e : fops T) (q y : list T) : T := total e (mul e) q y.

(** [v] is the vector a code stands for: its piece [i] is piece [i] of the pivot named by byte [i]. *)
Definition decodes {F} (pivots : matrix F) (offsets : list nat) (dim : nat) (code : list nat) (v : list F) : Prop :=
  length v = dim /\ length code = length offsets - 1 /\
  forall i, i < length offsets - 1 -> exists c, nth_error code i = Some c /\ c < m_rows pivots /\ piece offsets i v = piece offsets i (row pivots c).
(** The bytes of a code are valid. *)
Definition valid_code {F} (pivots : matrix F) (offsets : list nat) (code : list nat) : Prop :=
  length code = length offsets - 1 /\ forall i c, nth_error code i = Some c -> c < m_rows pivots.
(** The distance between two vectors under a metric. *)
Definition true_cosine {F} (o : fops F) (q v : list F) : F :=
  let nq := true_ip o q q in let nv := true_ip o v v in
  if lt o nq (min_positive o) || lt o nv (min_positive o) then zero o
  else fmax o (neg o (one o)) (fmin o (one o) (div o (true_ip o q v) (mul o (sqrt o nq) (sqrt o nv)))).
Definition true_distance {F} (o : fops F) (m : metric) (q v : list F) : F :=
  match m with
  | ML2 => true_l2 o q v
  | MIP => neg o (true_ip o q v)
  | MCos | MCosNorm => sub o (one o) (true_cosine o q v)
  end.

(** The choice of the basic table for piece [i] of [from]: the first pivot whose computed distance is
    minimal, not NaN and not infinite; or nothing, if no distance is below the infinity or a minimal
    one is infinite. *)
Definition picked {F} (x : xops F) (pivots : matrix F) (offsets : list nat) (a : arch) (from : list F) (i : nat) (r : option nat) : Prop :=
  exists d, (forall j, j < m_rows pivots -> l2 x a (piece offsets i from) (piece offsets i (row pivots j)) = Some (d j)) /\
  match r with
  | Some v => v < m_rows pivots /\ is_infin x (d v) = false /\ lt (fo x) (d v) (inf x) = true /\
              (forall j, j < m_rows pivots -> lt (fo x) (d j) (d v) = false) /\
              (forall j, j < v -> number x (d j) -> lt (fo x) (d v) (d j) = true)
  | None => (forall j, j < m_rows pivots -> lt (fo x) (d j) (inf x) = false) \/
            (exists v, v < m_rows pivots /\ is_infin x (d v) = true /\ lt (fo x) (d v) (inf x) = true /\
               forall j, j < m_rows pivots -> lt (fo x) (d j) (d v) = false)
  end.
(** The table a multi-table uses for a version. *)
Definition of_version {F} (mt : multi (F := F)) (v : nat) : option btable :=
  match mt with
  | One t version => if version =? v then Some t else None
  | Two new old nv ov => if nv =? v then Some new else if ov =? v then Some old else None
  end.
(** A table built from well-formed parts with [dim] dimensions. *)
Definition built {F} (dim : nat) (t : btable (F := F)) : Prop :=
  Work.Model.offsets_new (b_offsets t) = Some dim /\ length (m_data (b_pivots t)) = m_rows (b_pivots t) * m_cols (b_pivots t) /\
  basic_new (b_pivots t) (b_offsets t) dim = Ok t.
