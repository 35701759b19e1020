(** Model of medoids and start points: diskann-utils/src/sampling/medoid.rs,
    diskann-providers/src/utils/medoid.rs and diskann/src/graph/start_point.rs. *)
From Coq Require Import List PeanoNat Bool QArith Qcanon.
Import ListNotations.
Local Open Scope nat_scope.

(** What is done to numbers: [into] is the conversion of an element before it is added, [dadd] and [ddiv]
    the sum and the division by the number of rows with its conversion to [F] (f32), [dist] is
    [SquaredL2::evaluate], [fmax] is [f32::MAX]. *)
Record ops (T D F : Type) := mkO { into : T -> D; d0 : D; dadd : D -> D -> D; ddiv : D -> nat -> F; dist : list F -> list T -> F; flt : F -> F -> bool; fmax : F; tzero : T }.
Arguments into {T D F}. Arguments d0 {T D F}. Arguments dadd {T D F}. Arguments ddiv {T D F}. Arguments dist {T D F}. Arguments flt {T D F}. Arguments fmax {T D F}. Arguments tzero {T D F}.

Section Medoid.
  Context {T D F : Type} (o : ops T D F).

  (** [std::iter::zip(sum.iter_mut(), r.iter())]: what is longer than the other stays. *)
  Fixpoint add_row (s : list D) (r : list T) : list D :=
    match s, r with x :: s, y :: r => dadd o x (into o y) :: add_row s r | _, _ => s end.
  Definition sums (dim : nat) (rows : list (list T)) : list D := fold_left add_row rows (repeat (d0 o) dim).
  Definition mean (dim : nat) (rows : list (list T)) (n : nat) : list F := map (fun s => ddiv o s n) (sums dim rows).
  (** The scan shared by all of them: sampling/medoid.rs 36-43, utils/medoid.rs 140-150. The state is the
      least distance so far and the row it belongs to. *)
  Definition scan (centroid : list F) (rows : list (list T)) : F * option (nat * list T) :=
    fold_left (fun st p => let d := dist o centroid (snd p) in if flt o d (fst st) then (d, Some p) else st)
      (combine (seq 0 (length rows)) rows) (fmax o, None).

  (** sampling/medoid.rs 15-151: [compute_medoid]; the four element types differ in the conversions. *)
  Definition compute_medoid (ncols : nat) (rows : list (list T)) : list T :=
    if ncols =? 0 then [] else
    match snd (scan (mean ncols rows (length rows)) rows) with Some (_, r) => r | None => repeat (tzero o) ncols end.

  (** Files: [readable] are the rows that can be read, [npoints] what the header says. The iterator
      ends without an error where reading fails (vector_data_iterator.rs 148-166).
      utils/medoid.rs 172-201: [find_medoid_from_file]; [None] is an error. The dimension check never
      fails for rows of one file, so it is left out. *)
  Definition find_medoid_from_file (dim npoints : nat) (readable : list (list T)) : option (list T * nat) :=
    match readable with
    | [] => None
    | _ => match snd (scan (mean dim readable npoints) readable) with Some (i, r) => Some (r, i) | None => None end
    end.
  (** utils/medoid.rs 65-128 and 217-252: with the rows that were sampled, [chosen]. *)
  Definition find_medoid_with_sampling (dim : nat) (rows : list (list T)) (chosen : nat -> bool) : option (list T * nat) :=
    let sample := map snd (filter (fun p => chosen (fst p)) (combine (seq 0 (length rows)) rows)) in
    match sample with
    | [] => None
    | _ => match snd (scan (mean dim sample (length sample)) rows) with Some (i, r) => Some (r, i) | None => None end
    end.

  (** start_point.rs 18-39. Random rows, the sample of indices (rand's [index::sample]) and the Latin
      hypercube (which panics by [None]; see [Model2]) are arguments. *)
  Inductive strategy := RandomVectors (n : nat) | RandomSamples (n : nat) | Medoid | LatinHyperCube (n : nat) | FirstVector.
  (** start_point.rs 72-80. *)
  Definition count (s : strategy) : nat :=
    match s with RandomVectors n | RandomSamples n | LatinHyperCube n => n | Medoid | FirstVector => 1 end.
  Inductive start_error := NotEnoughTrainingData (requested found : nat).
  Inductive outcome (A : Type) := Ok (a : A) | Fail (e : start_error) | Panic.
  (** Rows [is] of the data; [row] panics out of bounds. *)
  Fixpoint pick (rows : list (list T)) (is : list nat) : option (list (list T)) :=
    match is with [] => Some [] | i :: is => match nth_error rows i, pick rows is with Some r, Some l => Some (r :: l) | _, _ => None end end.
  (** start_point.rs 82-141: the rows of the result. [zip] leaves rows without an index as they were. *)
  Definition compute (sample : nat -> nat -> list nat) (random : nat -> nat -> list T) (hypercube : nat -> list (list T) -> nat -> option (list (list T)))
      (s : strategy) (ncols : nat) (rows : list (list T)) : outcome (list (list T)) :=
    match s with
    | RandomSamples n =>
        if length rows <? n then Fail _ (NotEnoughTrainingData n (length rows)) else
        match pick rows (firstn n (sample (length rows) n)) with
        | Some l => Ok _ (l ++ repeat (repeat (tzero o) ncols) (n - length l))
        | None => Panic _
        end
    | Medoid => Ok _ [compute_medoid ncols rows]
    | RandomVectors n => Ok _ (map (random ncols) (seq 0 n))
    | LatinHyperCube n => match hypercube ncols rows n with Some l => Ok _ l | None => Panic _ end
    | FirstVector => match rows with r :: _ => Ok _ [r] | [] => Fail _ (NotEnoughTrainingData 1 0) end
    end.
End Medoid.
Arguments Ok {A}. Arguments Fail {A}. Arguments Panic {A}.

(** utils/medoid.rs 82-86 and 228-233: which positions are sampled, from one draw per position. The rate
    is exact here and rounded to f64 in the code. *)
Definition rate (max_sample_size npoints : nat) : Qc :=
  if (max_sample_size =? 0) || (npoints <=? max_sample_size) then 1%Qc
  else (Q2Qc (inject_Z (Z.of_nat max_sample_size)) / Q2Qc (inject_Z (Z.of_nat npoints)))%Qc.
Definition sampled (draws : nat -> Qc) (max_sample_size npoints i : nat) : bool :=
  if Qclt_le_dec (draws i) (rate max_sample_size npoints) then true else false.
