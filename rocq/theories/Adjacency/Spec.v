(** Specification vocabulary for adjacency lists, backedge buffers and candidate pools. *)
From Verif.Lib Require Import Base Lists F32.
From Verif.Adjacency Require Import Model.

(** What a list holds after the elements of [xs] were offered to it one by one, keeping
    only the first occurrence of each id. *)
Fixpoint offer (a xs : list nat) : list nat :=
  match xs with
  | [] => a
  | x :: xs' => if in_dec Nat.eq_dec x a then offer a xs' else offer (a ++ [x]) xs'
  end.

(** The promise made by the caller of a "trusted" operation on list [a]. *)
Definition promise (a : adj) (op : aop) : Prop :=
  match op with
  | AFromUnique is | AOverwriteTrusted is => NoDup is
  | ARemapTrusted f => NoDup (remap_from f 0 a)
  | AResizeFinish cap ws n =>
      forall a', guard_writes (adj_resize a cap) ws = Some a' -> NoDup (firstn n a')
  | _ => True
  end.

(** [from_iter_unique] is restricted at compile time to iterators marked as unique, and
    is never checked at run time. *)
Definition unique_iter_promise (op : aop) : Prop :=
  match op with AFromUnique is => NoDup is | _ => True end.

(** Every trusted call of the history keeps its promise. *)
Fixpoint promises (debug : bool) (k : idkind) (a : adj) (ops : list aop) : Prop :=
  match ops with
  | [] => True
  | op :: ops' =>
      promise a op /\
      forall a', a_step debug k a op = Some a' -> promises debug k a' ops'
  end.

(** Writes through a guard stay inside the resized list (otherwise the slice panics). *)
Definition in_bounds (op : aop) : Prop :=
  match op with
  | AResizeFinish cap ws _ | AResizeDrop cap ws => Forall (fun w => fst w < cap) ws
  | _ => True
  end.

(** The sources of all edges to [t] in a list of pending adjacency lists, in order. *)
Definition sources_of (t : nat) (lists : list (nat * adj)) : list nat :=
  flat_map (fun pe => map (fun _ => fst pe) (filter (Nat.eqb t) (snd pe))) lists.

(** [x] is at most as far as [y] (no NaN). *)
Definition no_nan (l : list nbr) : Prop := Forall (fun x => is_nan (n_dist x) = false) l.
Definition leq_dist (x y : nbr) : Prop := f32_le (n_dist x) (n_dist y) = true.

(** The contract of [slice::select_nth_unstable_by]: always a permutation; if the
    comparison is a total order on the input (here: no NaN), nothing before the pivot is
    larger and nothing after it is smaller, and the pivot is at the requested index. *)
Definition select_contract (select : list nbr -> nat -> list nbr * nbr * list nbr) : Prop :=
  forall l k, k < length l ->
  forall p x s, select l k = (p, x, s) ->
    Permutation l (p ++ x :: s) /\ length p = k /\
    (no_nan l -> Forall (fun y => leq_dist y x) p /\ Forall (fun y => leq_dist x y) s).
(** The contract of [slice::sort_unstable_by]. *)
Definition sort_contract (sort : list nbr -> list nbr) : Prop :=
  forall l, Permutation l (sort l) /\ (no_nan l -> StronglySorted leq_dist (sort l)).
