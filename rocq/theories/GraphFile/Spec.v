(** Specification side of the file format properties (C42, C43, C49, C50). *)
From Coq Require Import List NArith Bool.
From Verif.Lib Require Import Base Lists Bytes.
From Verif.Disk Require Import Model Spec.
From Verif.GraphFile Require Import Model.
Import ListNotations.

(** ** Files and crashes *)

(** The file left by a sequence of writes to a new file. *)
Definition as_fop (o : io) : fop := match o with Write b => FWrite b | Rewind => FRewind end.
Definition file_of (l : list io) : bytes := fst (plain_run (map as_fop l)).
(** The process dies when exactly [k] bytes have reached the file. *)
Fixpoint cut (k : nat) (l : list io) : list io :=
  match l with
  | [] => []
  | Rewind :: l' => Rewind :: cut k l'
  | Write b :: l' => if length b <=? k then Write b :: cut (k - length b) l' else [Write (firstn k b)]
  end.
Definition crash_file (k : nat) (l : list io) : bytes := file_of (cut k l).

(** ** Graphs that fit the format *)
Record graph_ok (start extra : N) (configured : option N) (lists : list (list N)) : Prop := {
  go_start : u32_ok start; go_extra : u64_ok extra;
  go_lists : Forall (fun l => u32_ok (N.of_nat (length l)) /\ Forall u32_ok l) lists;
  go_size : u64_ok (N.of_nat (24 + 4 * (length lists + length (concat lists))));
  go_cfg : match configured with None => True | Some d => u32_ok d end }.
Definition degree_of (lists : list (list N)) : N := fold_right (fun l m => N.max (N.of_nat (length l)) m) 0%N lists.
Definition saved_degree (configured : option N) (lists : list (list N)) : N :=
  match configured with Some d => d | None => degree_of lists end.

(** ** A list iterator: the elements still to come. *)
Definition list_op {A} (o : viop) (l : list A) : (option A + option (list A)) * list A :=
  match o with
  | VNext => (inl (nth_error l 0), skipn 1 l)
  | VNth n => (inl (nth_error l n), skipn (S n) l)
  | VNextN n => (inr (match firstn n l with [] => None | x => Some x end), skipn n l)
  end.
Fixpoint list_run {A} (ops : list viop) (l : list A) : list (option A + option (list A)) :=
  match ops with [] => [] | o :: ops' => let (x, l') := list_op o l in x :: list_run ops' l' end.

(** The first [n] records of [w] bytes that are completely present in [b]. *)
Fixpoint records (n w : nat) (b : bytes) : list bytes :=
  match n with
  | O => []
  | S n' => if w <=? length b then firstn w b :: records n' w (skipn w b) else []
  end.

(** A multi-vector file: number of matrices, row width, total number of rows, the row counts,
    then all rows. *)
Definition multivec_file (dim : N) (mats : list (list bytes)) : bytes :=
  le_enc 4 (N.of_nat (length mats)) ++ le_enc 4 dim ++ le_enc 4 (N.of_nat (length (concat mats)))
  ++ concat (map (fun m => le_enc 4 (N.of_nat (length m))) mats) ++ concat (concat mats).
