(** Model of [SliceHeap] (diskann-quantization/src/algorithms/heap.rs): a heap in a slice of
    fixed size. [None] is an access out of bounds, which the code does not check. *)
From Verif.Lib Require Import Base Lists.
Local Open Scope nat_scope.

Section Heap.
  (** The [Ord] of the elements. *)
  Context {T : Type} (leb : T -> T -> bool).
  (** [swap_unchecked], heap.rs 115-124. *)
  Definition swap (d : list T) (a b : nat) : option (list T) :=
    match nth_error d a, nth_error d b with Some x, Some y => Some (set_nth b x (set_nth a y d)) | _, _ => None end.
  (** [sift_down], heap.rs 131-188: the loop on fuel, then the case of a single child. *)
  Fixpoint sift (fuel : nat) (d : list T) (pos : nat) : option (list T) :=
    match fuel with
    | 0 => None
    | S fuel =>
        let child := 2 * pos + 1 in
        let len := length d in
        if child <=? len - 2 then
          match nth_error d child, nth_error d (child + 1), nth_error d pos with
          | Some a, Some b, Some p =>
              let c := if leb a b then child + 1 else child in
              if leb (if leb a b then b else a) p then Some d
              else match swap d pos c with Some d => sift fuel d c | None => None end
          | _, _, _ => None
          end
        else if child =? len - 1 then
          match nth_error d pos, nth_error d child with
          | Some p, Some a => if leb a p then Some d else swap d pos child
          | _, _ => None
          end
        else Some d
    end.
  Definition sift_down (d : list T) (pos : nat) : option (list T) := sift (S (length d)) d pos.
  (** [heapify], heap.rs 76-87: positions from the last parent down to 0. *)
  Fixpoint heapify_from (n : nat) (d : list T) : option (list T) :=
    match n with 0 => Some d | S n => match sift_down d n with Some d => heapify_from n d | None => None end end.
  Definition heapify (d : list T) : option (list T) :=
    if length d <=? 1 then Some d else heapify_from (S ((length d - 2) / 2)) d.
  (** [new], heap.rs 26-34: the outer [None] is a bad access, the inner the error [EmptySlice]. *)
  Definition heap_new (d : list T) : option (option (list T)) :=
    match d with [] => Some None | _ => match heapify d with Some d => Some (Some d) | None => None end end.
  (** [peek], heap.rs 61-63. *)
  Definition peek (d : list T) : option T := hd_error d.
  (** [update_root], heap.rs 69-77. *)
  Definition update_root (d : list T) (f : T -> T) : option (list T) :=
    match d with [] => None | x :: rest => sift_down (f x :: rest) 0 end.
  Fixpoint updates (d : list T) (fs : list (T -> T)) : option (list T) :=
    match fs with [] => Some d | f :: fs => match update_root d f with Some d => updates d fs | None => None end end.
End Heap.
