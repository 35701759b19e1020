(** Model of the graph and vector file formats: save_graph / load_graph and save_to_bin /
    load_from_bin (diskann-providers/src/storage/bin.rs), read_bin / write_bin
    (diskann-utils/src/io.rs), the vector iterator
    (diskann-providers/src/utils/vector_data_iterator.rs) and load_multivec_bin
    (diskann-providers/src/utils/file_util.rs).

    A writer is modelled by the sequence of its writes and seeks, so that a crash can be
    placed between any two bytes.  Buffering ([BufWriter]) delays writes but does not reorder
    them.  A reader is modelled by the bytes still ahead of it. *)
From Coq Require Import List NArith Bool.
From Verif.Lib Require Import Base Lists Bytes.
From Verif.Disk Require Import Model.
Import ListNotations.

(** What a save does to its (new, empty) file. *)
Inductive io := Write (b : bytes) | Rewind.

(** Outcome of a load.  [LDiverge] marks exhausted recursion fuel of a loop. *)
Inductive lres (A : Type) := LOk (a : A) | LErr | LPanic | LDiverge.
Arguments LOk {A}. Arguments LErr {A}. Arguments LPanic {A}. Arguments LDiverge {A}.
Definition lbind {A B} (x : lres A) (f : A -> lres B) : lres B :=
  match x with LOk a => f a | LErr => LErr | LPanic => LPanic | LDiverge => LDiverge end.
Definition lopt {A} (x : option A) : lres A := match x with Some a => LOk a | None => LErr end.
Notation "'try' p <- e ; r" := (lbind e (fun p => r)) (at level 200, p pattern, e at level 100, r at level 200).

(** * Graphs *)

(** The loop of [save_graph], bin.rs 350-368; [None] stands for a failing
    [get_adjacency_list].  Returns the writes and, if no call failed, the observed maximum
    degree and the index size.  [as u32] truncates; the u64 size is not reduced. *)
Fixpoint save_lists (lists : list (option (list N))) (observed size : N) : list io * option (N * N) :=
  match lists with
  | [] => ([], Some (observed, size))
  | None :: _ => ([], None)
  | Some l :: rest =>
    let num := (N.of_nat (length l) mod 2 ^ 32)%N in
    let (w, r) := save_lists rest (N.max observed num) (size + 4 * (1 + N.of_nat (length l)))%N in
    (Write (le_enc 4 num) :: map (fun x => Write (le_enc 4 x)) l ++ w, r)
  end.
(** [save_graph]; bin.rs 329-380. *)
Definition save_graph (start extra : N) (configured : option N) (lists : list (option (list N)))
  : list io * option N :=
  let head := [Write (le_enc 8 24); Write (le_enc 4 0); Write (le_enc 4 start); Write (le_enc 8 extra)] in
  match save_lists lists 0 24 with
  | (w, None) => (head ++ w, None)
  | (w, Some (observed, size)) =>
    let md := match configured with Some d => d | None => observed end in
    (head ++ w ++ [Rewind; Write (le_enc 8 size); Write (le_enc 4 md)], Some size)
  end.

(** The counting loop of [load_graph], bin.rs 262-271.  Seeking past the end succeeds, the
    next read fails. *)
Fixpoint count_points (fuel : nat) (fsize pos : N) (rest : bytes) : lres nat :=
  if (pos <? fsize)%N then
    match fuel with
    | O => LDiverge
    | S fuel' =>
      try (k, rest) <- lopt (take_le 4 rest);
      try n <- count_points fuel' fsize (pos + 4 + 4 * k)%N (skipn (N.to_nat (4 * k)) rest);
      LOk (S n)
    end
  else LOk 0.
(** The reading loop, bin.rs 286-300; slicing the buffer panics above the maximum degree. *)
Fixpoint read_lists (fuel : nat) (fsize md pos : N) (rest : bytes) : lres (list (list N)) :=
  if (pos <? fsize)%N then
    match fuel with
    | O => LDiverge
    | S fuel' =>
      try (k, rest) <- lopt (take_le 4 rest);
      if (md <? k)%N then LPanic else
      try (b, rest) <- lopt (take (N.to_nat (4 * k)) rest);
      try ls <- read_lists fuel' fsize md (pos + 4 + 4 * k)%N rest;
      LOk (dec_u32s (N.to_nat k) b :: ls)
    end
  else LOk [].
(** What [load_graph] passes to [create] (number of points, maximum degree, number of start
    points) and to [set_adjacency_list], in order. *)
Record loaded_graph := mklg { lg_points : nat; lg_degree : N; lg_extra : N; lg_lists : list (list N) }.
(** [load_graph]; bin.rs 234-308. *)
Definition load_graph (f : bytes) : lres loaded_graph :=
  let fuel := S (length f) in
  try (fsize, r) <- lopt (take_le 8 f);
  try (md, r) <- lopt (take_le 4 r);
  try (_, r) <- lopt (take_le 4 r);
  try (extra, r) <- lopt (take_le 8 r);
  try n <- count_points fuel fsize 24 r;
  try ls <- read_lists fuel fsize md 24 r;
  LOk (mklg n md extra ls).

(** * Vectors *)

(** The loop of [save_to_bin], bin.rs 191-211.  A vector is given as its bytes, so the check
    of its number of elements is a check of its number of bytes. *)
Fixpoint save_vecs (vs : nat) (vecs : list (option bytes)) (n : N) : list io * option N :=
  match vecs with
  | [] => ([], Some n)
  | None :: _ => ([], None)
  | Some v :: rest =>
    if length v =? vs then
      let (w, r) := save_vecs vs rest (n + 1)%N in (Write v :: w, r)
    else ([], None)
  end.
(** [save_to_bin]; bin.rs 177-217, [Metadata::write], io.rs 141-148.  [tsz] is the element
    size. *)
Definition save_to_bin (tsz : nat) (dim : N) (vecs : list (option bytes)) : list io * option N :=
  if (dim <? 2 ^ 32)%N then
    match save_vecs (N.to_nat dim * tsz) vecs 0 with
    | (w, None) => (Write (le_enc 4 0 ++ le_enc 4 dim) :: w, None)
    | (w, Some n) => (Write (le_enc 4 0 ++ le_enc 4 dim) :: w ++ [Rewind; Write (le_enc 4 n)],
                      Some (8 + n * dim * N.of_nat tsz)%N)
    end
  else ([], None).

(** [Metadata::read]; io.rs 124-139. *)
Definition read_metadata (f : bytes) : option (N * N * bytes) :=
  do (n, r) <- take_le 4 f; do (d, r) <- take_le 4 r; Some (n, d, r).

(** [VectorDataIterator]; vector_data_iterator.rs 24-32.  Readers are the bytes ahead of
    them; [vi_vs] and the last component of [vi_assoc] are bytes per element. *)
Record viter := mkvi {
  vi_rest : bytes; vi_vs : nat; vi_assoc : option (bytes * nat); vi_n : nat; vi_cur : nat }.
(** [new]; vector_data_iterator.rs 41-81. *)
Definition vi_new (tsz asz : nat) (f : bytes) (assoc : option bytes) : option viter :=
  do (n, d, r) <- read_metadata f;
  match assoc with
  | None => Some (mkvi r (N.to_nat d * tsz) None (N.to_nat n) 0)
  | Some af =>
    do (m, l, ar) <- read_metadata af;
    if (m =? n)%N then Some (mkvi r (N.to_nat d * tsz) (Some (ar, N.to_nat l * asz)) (N.to_nat n) 0) else None
  end.
(** A failed [read_exact] consumes what is left. *)
Definition read_vec (n : nat) (rest : bytes) : option bytes * bytes :=
  match take n rest with Some (b, r) => (Some b, r) | None => (None, []) end.
(** [next]; vector_data_iterator.rs 155-186.  Decoding the associated data ([bincode]) is not
    modelled: it is returned as bytes. *)
Definition vi_next (it : viter) : option (bytes * bytes) * viter :=
  let cur := S (vi_cur it) in
  if vi_n it <? cur then (None, mkvi (vi_rest it) (vi_vs it) (vi_assoc it) (vi_n it) cur) else
  match read_vec (vi_vs it) (vi_rest it) with
  | (None, r) => (None, mkvi r (vi_vs it) (vi_assoc it) (vi_n it) cur)
  | (Some v, r) =>
    match vi_assoc it with
    | None => (Some (v, []), mkvi r (vi_vs it) None (vi_n it) cur)
    | Some (ar, al) =>
      match read_vec al ar with
      | (None, ar) => (None, mkvi r (vi_vs it) (Some (ar, al)) (vi_n it) cur)
      | (Some a, ar) => (Some (v, a), mkvi r (vi_vs it) (Some (ar, al)) (vi_n it) cur)
      end
    end
  end.
(** [skip_elements]; vector_data_iterator.rs 112-143, for readers that can seek. *)
Definition vi_skip (n : nat) (it : viter) : bool * viter :=
  if vi_n it - vi_cur it <? n then
    (false, mkvi (vi_rest it) (vi_vs it) (vi_assoc it) (vi_n it) (vi_n it))
  else if n =? 0 then (true, it)
  else (true, mkvi (skipn (n * vi_vs it) (vi_rest it)) (vi_vs it)
                (match vi_assoc it with None => None | Some (ar, al) => Some (skipn (n * al) ar, al) end)
                (vi_n it) (vi_cur it + n)).
(** [nth]; vector_data_iterator.rs 188-194. *)
Definition vi_nth (n : nat) (it : viter) : option (bytes * bytes) * viter :=
  let (ok, it) := vi_skip n it in if ok then vi_next it else (None, it).
(** [next_n]; vector_data_iterator.rs 91-108. *)
Fixpoint vi_next_loop (n : nat) (it : viter) : list (bytes * bytes) * viter :=
  match n with
  | O => ([], it)
  | S n' => match vi_next it with
            | (Some x, it) => let (l, it) := vi_next_loop n' it in (x :: l, it)
            | (None, it) => ([], it)
            end
  end.
Definition vi_next_n (n : nat) (it : viter) : option (list (bytes * bytes)) * viter :=
  let (l, it) := vi_next_loop n it in (match l with [] => None | _ => Some l end, it).

(** A history of iterator calls. *)
Inductive viop := VNext | VNth (n : nat) | VNextN (n : nat).
Inductive viout := OOne (x : option (bytes * bytes)) | OMany (x : option (list (bytes * bytes))).
Definition vi_op (o : viop) (it : viter) : viout * viter :=
  match o with
  | VNext => let (x, it) := vi_next it in (OOne x, it)
  | VNth n => let (x, it) := vi_nth n it in (OOne x, it)
  | VNextN n => let (x, it) := vi_next_n n it in (OMany x, it)
  end.
Fixpoint vi_run (ops : list viop) (it : viter) : list viout :=
  match ops with [] => [] | o :: ops' => let (x, it) := vi_op o it in x :: vi_run ops' it end.

(** [load_from_bin]; bin.rs 131-160: number of points and dimension given to [create], then
    the vectors given to [set_data], in order. *)
Record loaded_vecs := mklv { lv_points : N; lv_dim : N; lv_vecs : list bytes }.
Definition load_from_bin (tsz : nat) (f : bytes) : lres loaded_vecs :=
  try (n, d, _) <- lopt (read_metadata f);
  try it <- lopt (vi_new tsz 0 f None);
  let (l, _) := vi_next_loop (S (N.to_nat n)) it in
  LOk (mklv n d (map fst l)).

(** * Matrices (diskann-utils/src/io.rs) *)

Fixpoint rows (n w : nat) (b : bytes) : list bytes :=
  match n with O => [] | S n' => firstn w b :: rows n' w (skipn w b) end.
(** [read_bin]; io.rs 24-60.  [M] is [usize::MAX]. *)
Definition read_bin (M : N) (tsz : nat) (f : bytes) : option (N * N * list bytes) :=
  do (n, d, r) <- read_metadata f;
  do _ <- guard (n * d <=? M)%N;
  do _ <- guard (n * d * N.of_nat tsz <=? M)%N;
  do _ <- guard (negb (N.of_nat (length r) <? n * d * N.of_nat tsz)%N);
  Some (n, d, rows (N.to_nat n) (N.to_nat d * tsz) r).
(** [write_bin]; io.rs 65-77.  The matrix has [length mat] rows of [ncols] elements. *)
Definition write_bin (tsz : nat) (ncols : N) (mat : list bytes) : option (bytes * N) :=
  let n := N.of_nat (length mat) in
  do _ <- guard (n <? 2 ^ 32)%N;
  do _ <- guard (ncols <? 2 ^ 32)%N;
  Some (le_enc 4 n ++ le_enc 4 ncols ++ concat mat, 8 + N.of_nat (length (concat mat)))%N.

(** [load_multivec_bin]; file_util.rs 43-101. *)
Fixpoint read_mats (lens : list N) (rowsz : nat) (r : bytes) : option (list (list bytes)) :=
  match lens with
  | [] => Some []
  | l :: lens' =>
    do (b, r) <- take (N.to_nat l * rowsz) r;
    do ms <- read_mats lens' rowsz r;
    Some (rows (N.to_nat l) rowsz b :: ms)
  end.
Definition load_multivec (tsz : nat) (f : bytes) : option (N * N * N * list (list bytes)) :=
  do (n, r) <- take_le 4 f; do (d, r) <- take_le 4 r; do (total, r) <- take_le 4 r;
  do (lb, r) <- take (4 * N.to_nat n) r;
  let lens := dec_u32s (N.to_nat n) lb in
  do _ <- guard (negb (existsb (N.eqb 0) lens));
  do _ <- guard (fold_left N.add lens 0 =? total)%N;
  do ms <- read_mats lens (N.to_nat d * tsz) r;
  Some (n, d, total, ms).
