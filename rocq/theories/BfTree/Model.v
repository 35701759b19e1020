(** Model of the neighbour lists kept in a bf-tree and of the locks around them
    (diskann-bftree/src/neighbors.rs, locks.rs).  The tree is an external crate: a map from keys to
    values whose single reads and inserts are atomic and whose inserts succeed for records of the
    size checked at construction (neighbors.rs 36-48). *)
From Verif.Lib Require Import Base Bytes.
Local Open Scope nat_scope.

Inductive out := OList (l : list N) | ODone | OErr.

Section Lists.
  (** The width of an id in bytes and the maximal degree. *)
  Context (w max : nat).
  (** 51: the number of cells of a record. *)
  Definition dim : nat := S max.
  Definition tree := bytes -> option bytes.
  Definition empty : tree := fun _ => None.
  Definition put (t : tree) (k v : bytes) : tree := fun k' => if list_eq_dec N.eq_dec k k' then Some v else t k'.
  (** [bytemuck::bytes_of] of an id. *)
  Definition key (id : N) : bytes := le_enc w id.
  (** [cast_slice::<I, u8>]. *)
  Definition cells (l : list N) : bytes := flat_map (le_enc w) l.
  (** [cast_slice_mut] the other way. *)
  Fixpoint uncells (n : nat) (b : bytes) : list N := match n with 0 => [] | S n => le_dec (firstn w b) :: uncells n (skipn w b) end.
  (** 363-368 [len_to_cell]: the length as u32 in the low four bytes of a zeroed cell. *)
  Definition len_to_cell (n : nat) : N := (N.of_nat n mod pow256 4)%N.
  (** 371-378 [cell_to_len]: the low four bytes. *)
  Definition cell_to_len (c : N) : nat := N.to_nat (le_dec (firstn 4 (le_enc w c))).
  (** 108-172 [get_neighbors_unlocked]: [None] is an error. *)
  Definition get (t : tree) (id : N) : option (list N) :=
    match t (key id) with
    | None => Some []
    | Some [] => Some []
    | Some v =>
        if negb (length v =? dim * w) then None
        else
          let guard := uncells dim v in
          match nth_error guard (dim - 1) with
          | None => None
          | Some c => if max <? cell_to_len c then None else Some (firstn (cell_to_len c) guard)
          end
    end.
  (** 191-217 [set_neighbors_internal]: the tree, the buffer with its old content behind the list, and whether it worked. *)
  Definition set_internal (t : tree) (id : N) (ns buf : list N) : tree * list N * bool :=
    if length buf <? dim then (t, buf, false)
    else
      let b := ns ++ skipn (length ns) buf in
      let b := firstn (dim - 1) b ++ len_to_cell (length ns) :: skipn dim b in
      (put t (key id) (cells (firstn dim b)), b, true).
  (** 231-239 [set_neighbors]. *)
  Definition set (t : tree) (id : N) (ns buf : list N) : tree * list N * bool :=
    if dim - 1 <? length ns then (t, buf, false) else set_internal t id ns buf.
  (** 260-267, [AdjacencyList::push]: whether an id was added. *)
  Fixpoint push_all (l : list N) (new : list N) (added : bool) : list N * bool :=
    match new with
    | [] => (l, added)
    | x :: new => if length l =? dim - 1 then (l, added) else if existsb (N.eqb x) l then push_all l new added else push_all (l ++ [x]) new true
    end.

  (** ** Threads *)
  Inductive op := Get (id : N) | Set_ (id : N) (ns : list N) | Append (id : N) (ns : list N).
  (** [accessor] methods, 305-351: writers lock the stripe of the id, readers do not.
      Between two shared accesses a thread is at one of these places. *)
  Inductive pc := Idle | Held (o : op) | Have (id : N) (ns l : list N) | Release (id : N).
  Record thread := mkT { t_prog : list op; t_pc : pc; t_buf : list N }.
  Record state := mkS { s_tree : tree; s_locks : nat -> option nat; s_threads : nat -> thread; s_hist : list (nat * (op * out)) }.
  (** locks.rs 44-55: any function from ids to stripes. *)
  Context (stripe : N -> nat).
  Definition upd {B} (f : nat -> B) (i : nat) (b : B) : nat -> B := fun j => if i =? j then b else f j.
  Definition target (o : op) : N := match o with Get id | Set_ id _ | Append id _ => id end.
  (** One atomic step of thread [i]; the state stays as it is when the thread is done or waits. *)
  Definition step (s : state) (i : nat) : state :=
    let th := s_threads s i in
    let go t locks th hist := mkS t locks (upd (s_threads s) i th) hist in
    match t_pc th with
    | Idle =>
        match t_prog th with
        | [] => s
        | Get id :: rest =>
            (** 92-101, no lock *)
            go (s_tree s) (s_locks s) (mkT rest Idle (t_buf th)) (s_hist s ++ [(i, (Get id, match get (s_tree s) id with Some l => OList l | None => OErr end))])
        | o :: rest =>
            (** locks.rs 50-55 *)
            match s_locks s (stripe (target o)) with
            | Some _ => s
            | None => go (s_tree s) (upd (s_locks s) (stripe (target o)) (Some i)) (mkT rest (Held o) (t_buf th)) (s_hist s)
            end
        end
    | Held (Get id) => go (s_tree s) (s_locks s) (mkT (t_prog th) (Release id) (t_buf th)) (s_hist s)
    | Held (Set_ id ns) =>
        let '(t, b, ok) := set (s_tree s) id ns (t_buf th) in
        go t (s_locks s) (mkT (t_prog th) (Release id) b) (s_hist s ++ [(i, (Set_ id ns, if ok then ODone else OErr))])
    | Held (Append id ns) =>
        (** 256-258 *)
        match get (s_tree s) id with
        | Some l => go (s_tree s) (s_locks s) (mkT (t_prog th) (Have id ns l) (t_buf th)) (s_hist s)
        | None => go (s_tree s) (s_locks s) (mkT (t_prog th) (Release id) (t_buf th)) (s_hist s ++ [(i, (Append id ns, OErr))])
        end
    | Have id ns l =>
        (** 260-273 *)
        let '(l', added) := push_all l ns false in
        let '(t, b, ok) := if added then set_internal (s_tree s) id l' (t_buf th) else (s_tree s, t_buf th, true) in
        go t (s_locks s) (mkT (t_prog th) (Release id) b) (s_hist s ++ [(i, (Append id ns, if ok then ODone else OErr))])
    | Release id => go (s_tree s) (upd (s_locks s) (stripe id) None) (mkT (t_prog th) Idle (t_buf th)) (s_hist s)
    end.
  Definition run (s : state) (schedule : list nat) : state := fold_left step schedule s.
  (** 290-296 [scratch]: a buffer of zeros for every thread. *)
  Definition init (progs : list (list op)) : state := mkS empty (fun _ => None) (fun i => mkT (nth i progs []) Idle (repeat 0%N dim)) [].
End Lists.

(** locks.rs 44-47 [stripe_index] with 2^k stripes: the high bits of a product modulo 2^64. *)
Definition multiplier : N := 11400714819323198485.
Definition stripe_index (k : N) (id : N) : N := N.shiftr ((id * multiplier) mod 2 ^ 64) (64 - k).
