(** Model of Latin hypercube sampling: diskann-utils/src/sampling/latin_hypercube.rs. *)
From Coq Require Import List PeanoNat Bool.
From Verif.Lib Require Import Lists.
Import ListNotations.

Section Hypercube.
  Context {T : Type} (tz : T).
  (** [rng.random_range(lo..hi)], which panics on an empty range; [d] is what the generator gives. *)
  Definition random_range (d : nat -> nat -> nat) (lo hi : nat) : option nat := if lo <? hi then Some (d lo hi) else None.
  Fixpoint all {A : Type} (l : list (option A)) : option (list A) :=
    match l with [] => Some [] | x :: l => match x, all l with Some a, Some r => Some (a :: r) | _, _ => None end end.
  (** latin_hypercube.rs 36-46: one cell for each sample and column; [None] is a panic. *)
  Definition cell (d : nat -> nat -> nat) (data : list (list T)) (n s idx : nat) : option T :=
    let step := length data / n in
    match random_range d (s * step) ((s + 1) * step) with
    | Some i => match nth_error data i with Some row => nth_error row idx | None => None end
    | None => None
    end.
  Definition diagonal (d : nat -> nat -> nat -> nat -> nat) (data : list (list T)) (ncols n : nat) : option (list (list T)) :=
    all (map (fun s => all (map (fun idx => cell (d s idx) data n s idx) (seq 0 ncols))) (seq 0 n)).
  (** latin_hypercube.rs 52-54: exchange two cells of one column. *)
  Definition swap_cells (m : list (list T)) (a b c : nat) : option (list (list T)) :=
    match nth_error m a, nth_error m b with
    | Some ra, Some rb =>
        match nth_error ra c, nth_error rb c with
        | Some x, Some y =>
            let m1 := set_nth a (set_nth c y ra) m in
            match nth_error m1 b with Some rb' => Some (set_nth b (set_nth c x rb') m1) | None => None end
        | _, _ => None
        end
    | _, _ => None
    end.
  (** latin_hypercube.rs 49-56. *)
  Definition shuffle_step (d : nat -> nat -> nat -> nat -> nat) (n : nat) (om : option (list (list T))) (p : nat * nat) : option (list (list T)) :=
    match om with
    | Some m => match random_range (d (fst p) (snd p)) 0 n with Some w => swap_cells m (fst p) w (snd p) | None => None end
    | None => None
    end.
  Definition shuffle (d : nat -> nat -> nat -> nat -> nat) (ncols n : nat) (m : list (list T)) : option (list (list T)) :=
    fold_left (shuffle_step d n) (list_prod (seq 0 n) (seq 0 ncols)) (Some m).
  (** latin_hypercube.rs 20-59: [sample_latin_hypercube]; [d1] and [d2] are the draws of the two loops. *)
  Definition sample_latin_hypercube (d1 d2 : nat -> nat -> nat -> nat -> nat) (ncols : nat) (data : list (list T)) (n : nat) : option (list (list T)) :=
    if (ncols =? 0) || (length data =? 0) then Some (repeat (repeat tz ncols) n) else
    match diagonal d1 data ncols n with Some m => shuffle d2 ncols n m | None => None end.
End Hypercube.
